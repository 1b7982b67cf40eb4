(* neural_network: raw matrices and shuffling (general.go, indexedxy.go), packing of the parameters, mini-batches,
   early stopping and the stopping rule (basemlp64.go), LabelBinarizer64.
   basemlp32.go is the same text with float32 for float64.  int is unbounded; cap of a slice is its length. *)
From Verif Require Import Common QCommon.
Open Scope nat_scope.

(* ------------------------------------------------------------------ general.go *)
Section General.
  Context {A : Type}.
  (* general.go:68 General64 = blas64.General *)
  Record gen : Type := mkgen { g_rows : nat; g_cols : nat; g_stride : nat; g_data : list A }.
  (* general.go:118-120 At *)
  Definition g_at (g : gen) (r c : nat) : option A := nth_error (g_data g) (c + r * g_stride g).
  (* Go's copy(dst[pos:pos+len(vs)], vs) on a list; the caller checks the bounds *)
  Definition blit (d : list A) (pos : nat) (vs : list A) : list A := firstn pos d ++ vs ++ skipn (pos + length vs) d.
  Definition slice (d : list A) (pos len : nat) : list A := firstn len (skipn pos d).
  (* general.go:213-223 general64FastSwapT.Swap; None is an index or slice panic *)
  Definition fast_swap (g : gen) (i j : nat) : option gen :=
    let d := g_data g in let c := g_cols g in let ip := i * g_stride g in let jp := j * g_stride g in
    if c =? 1 then if (ip <? length d) && (jp <? length d) then Some (mkgen (g_rows g) c (g_stride g) (swap d ip jp)) else None
    else if (length d <? ip + c) || (length d <? jp + c) then None
    else let tmp := slice d ip c in
         let d1 := blit d ip (slice d jp c) in
         Some (mkgen (g_rows g) c (g_stride g) (blit d1 jp tmp)).
  (* general.go:248-250 RowSlice *)
  Definition row_slice (g : gen) (i j : nat) : option gen :=
    if (j <? i) || (length (g_data g) <? j * g_stride g) then None
    else Some (mkgen (j - i) (g_cols g) (g_stride g) (slice (g_data g) (i * g_stride g) ((j - i) * g_stride g))).
  (* what the argument of Copy may be: a General64, another matrix with RawMatrix or RawRowView, or one with At only *)
  Inductive src : Type := SGeneral (g : gen) | SRaw (g : gen) | SAt (rows cols : nat) (at_ : nat -> nat -> A).
  Definition s_dims (a : src) : nat * nat := match a with SGeneral g | SRaw g => (g_rows g, g_cols g) | SAt r c _ => (r, c) end.
  Definition s_at (a : src) (r c : nat) : option A := match a with SGeneral g | SRaw g => g_at g r c | SAt _ _ f => Some (f r c) end.
  (* general.go:279-302 Copy into an empty receiver; zero is the value of fresh memory.  Go's copy stops at the shorter. *)
  Definition g_copy (zero : A) (a : src) : gen :=
    let '(rows, cols) := s_dims a in
    let size := rows * cols in
    let fresh := repeat zero size in
    let copy1 (d : list A) := firstn size d ++ skipn (length d) fresh in
    match a with
    | SGeneral g => mkgen rows cols cols (copy1 (g_data g))
    | SRaw g => if g_stride g =? cols then mkgen rows cols cols (copy1 (g_data g))
                else mkgen rows cols cols (concat (map (fun r => slice (g_data g) (r * g_stride g) cols) (seq 0 rows)))
    | SAt _ _ f => mkgen rows cols cols (concat (map (fun r => map (f r) (seq 0 cols)) (seq 0 rows)))
    end.
End General.
Arguments gen : clear implicits.

(* indexedxy.go:6-12: Swap exchanges the index and the rows of X and Y; Less compares indices *)
Record ixy (A : Type) : Type := mkixy { i_idx : list nat; i_X : gen A; i_Y : gen A }.
Arguments mkixy {A}. Arguments i_idx {A}. Arguments i_X {A}. Arguments i_Y {A}.
Definition ixy_swap {A} (s : ixy A) (ij : nat * nat) : option (ixy A) :=
  match fast_swap (i_X s) (fst ij) (snd ij), fast_swap (i_Y s) (fst ij) (snd ij) with
  | Some X, Some Y => Some (mkixy (swap (i_idx s) (fst ij) (snd ij)) X Y)
  | _, _ => None
  end.
(* a shuffle (basemlp64.go:788) or a sort (basemlp64.go:855) is the list of exchanges it makes *)
Fixpoint ixy_swaps {A} (s : ixy A) (l : list (nat * nat)) : option (ixy A) :=
  match l with
  | [] => Some s
  | e :: l' => match ixy_swap s e with Some s' => ixy_swaps s' l' | None => None end
  end.
(* basemlp64.go:767-770 *)
Definition ixy_start {A} (X Y : gen A) : ixy A := mkixy (seq 0 (g_rows X)) X Y.

(* ------------------------------------------------------------------ packing *)
(* basemlp64.go:436-438, the size of packedParameters *)
Fixpoint packed_size (us : list nat) : nat :=
  match us with a :: (b :: _) as t => (1 + a) * b + packed_size t | _ => 0 end.
(* basemlp64.go:459-464: offset and length of Intercepts[i], offset and length of Coefs[i].Data *)
Fixpoint pack (off : nat) (us : list nat) : list (nat * nat * nat * nat) :=
  match us with
  | a :: (b :: _) as t => (off, b, off + b, a * b) :: pack (off + b + a * b) t
  | _ => []
  end.
(* basemlp64.go:554-559: the same for the gradients *)
Fixpoint pack_grads (off : nat) (us : list nat) : list (nat * nat * nat * nat) :=
  match us with
  | a :: (b :: _) as t => (off, b, off + b, a * b) :: pack_grads (off + b + a * b) t
  | _ => []
  end.

(* ------------------------------------------------------------------ mini-batches *)
(* basemlp64.go:791-810: the batches of one epoch over lim = nSamples - testSize rows; None: out of fuel *)
Fixpoint batches (fuel b0 b1 bs lim : nat) : option (list (nat * nat)) :=
  match fuel with
  | O => None
  | S f => if b0 <? lim then
             let b1' := if lim <? b1 then lim else b1 in
             match batches f b1' (b1' + bs) bs lim with Some l => Some ((b0, b1') :: l) | None => None end
           else Some []
  end.
Definition epoch_batches (bs lim : nat) : option (list (nat * nat)) := batches (S lim) 0 bs bs lim.

(* ------------------------------------------------------------------ early stopping *)
(* P is the type of a parameter vector.  None is NaN, and +Inf in BestLoss: both comparisons below are false for NaN. *)
Definition olt (x y : option Q) : bool := match x, y with Some a, Some b => Qltb a b | _, _ => false end.
Section Train.
  Context {P : Type}.
  Record train : Type := mktrain {
    t_params : P; t_best : P;                 (* packedParameters, bestParameters *)
    t_score : Q;                              (* BestValidationScore *)
    t_loss : option Q;                        (* BestLoss, None is +Inf *)
    t_noimp : nat;                            (* NoImprovementCount *)
    t_lr : Q;                                 (* the learning rate of SGDOptimizer64 *)
    t_niter : nat }.
  (* basemlp64.go:859-895 *)
  Definition update_noimp (early : bool) (tol : Q) (score loss : option Q) (s : train) : train :=
    let s1 := if early then
        let ni := if olt score (Some (t_score s + tol)%Q) then S (t_noimp s) else 0%nat in
        match score with
        | Some v => if Qltb (t_score s) v then mktrain (t_params s) (t_params s) v (t_loss s) ni (t_lr s) (t_niter s)
                    else mktrain (t_params s) (t_best s) (t_score s) (t_loss s) ni (t_lr s) (t_niter s)
        | None => mktrain (t_params s) (t_best s) (t_score s) (t_loss s) ni (t_lr s) (t_niter s)
        end
      else
        (* lastLoss > BestLoss - Tol; nothing is greater than +Inf *)
        let ni := match t_loss s with None => 0%nat | Some b => if olt (Some (b - tol)%Q) loss then S (t_noimp s) else 0%nat end in
        mktrain (t_params s) (t_best s) (t_score s) (t_loss s) ni (t_lr s) (t_niter s) in
    let better := match loss, t_loss s1 with Some l, Some b => Qltb l b | Some _, None => true | None, _ => false end in
    mktrain (t_params s1) (t_best s1) (t_score s1) (if better then loss else t_loss s1) (t_noimp s1) (t_lr s1) (t_niter s1).
  (* basemlp64.go:1007-1025 triggerStopping of SGD; Adam (1055) always stops, like every other schedule *)
  Definition trigger (adaptive : bool) (lr : Q) : bool * Q :=
    if adaptive then if Qle_bool lr (1 # 1000000)%Q then (true, lr) else (false, lr / 5)%Q else (true, lr).
  (* one epoch: the parameters it ends with, its loss and its validation score.  basemlp64.go:786-848 without the order
     of the samples; at most MaxIter epochs are given.  The flag tells whether training stopped. *)
  Definition epoch (early adaptive : bool) (tol : Q) (nic : nat) (s : train) (e : P * option Q * option Q) : train * bool :=
    let '(p, loss, score) := e in
    let s1 := mktrain p (t_best s) (t_score s) (t_loss s) (t_noimp s) (t_lr s) (S (t_niter s)) in
    let s2 := update_noimp early tol score loss s1 in
    if nic <? t_noimp s2 then
      let '(stop, lr) := trigger adaptive (t_lr s2) in
      if stop then (s2, true) else (mktrain (t_params s2) (t_best s2) (t_score s2) (t_loss s2) 0 lr (t_niter s2), false)
    else (s2, false).
  Fixpoint epochs (early adaptive : bool) (tol : Q) (nic : nat) (s : train) (l : list (P * option Q * option Q)) : train :=
    match l with
    | [] => s
    | e :: l' => let '(s', stop) := epoch early adaptive tol nic s e in if stop then s' else epochs early adaptive tol nic s' l'
    end.
  (* basemlp64.go:409-415, 482, 762, 850-853: a Fit that is not incremental.  initialize sets NIter and BestLoss only;
     bestParameters is new memory; BestValidationScore and NoImprovementCount are what an earlier Fit left. *)
  Definition train_fit (early adaptive : bool) (tol : Q) (nic : nat) (lr0 : Q) (zeros init : P) (old : train) (l : list (P * option Q * option Q)) : train :=
    let s := epochs early adaptive tol nic (mktrain init (if early then zeros else t_best old) (t_score old) None (t_noimp old) lr0 0) l in
    if early then mktrain (t_best s) (t_best s) (t_score s) (t_loss s) (t_noimp s) (t_lr s) (t_niter s) else s.
  (* a new estimator *)
  Definition train_new (p : P) : train := mktrain p p 0%Q (Some 0%Q) 0 0%Q 0.
End Train.

(* ------------------------------------------------------------------ LabelBinarizer64 *)
(* labels are integers: only equality and order are used.  Y is a list of rows. *)
Record lbin : Type := mklbin { lb_neg : Z; lb_pos : Z; lb_classes : list (list Z) }.
(* basemlp64.go:1281-1293: the distinct values of a column in the order they appear, then sorted *)
Fixpoint distinctz (seen l : list Z) : list Z :=
  match l with [] => [] | x :: l' => if existsb (Z.eqb x) seen then distinctz seen l' else x :: distinctz (x :: seen) l' end.
Fixpoint zinsert (x : Z) (l : list Z) : list Z := match l with [] => [x] | y :: l' => if Z.leb x y then x :: l else y :: zinsert x l' end.
Definition zsort (l : list Z) : list Z := fold_right zinsert [] l.
(* basemlp64.go:1275-1295 Fit; sort.Sort is insertion sort here: its result is determined by the values *)
Definition lb_fit (neg pos : Z) (cols : nat) (Y : list (list Z)) : lbin :=
  mklbin neg (if Z.eqb pos neg then pos + 1 else pos)%Z (map (fun j => zsort (distinctz [] (map (fun r => nth j r 0%Z) Y))) (seq 0 cols)).
Fixpoint find_ix (x : Z) (l : list Z) (k : nat) : option nat := match l with [] => None | y :: l' => if Z.eqb x y then Some k else find_ix x l' (S k) end.
(* basemlp64.go:1305-1332 Transform, one row: fresh memory is 0; an unknown label writes NegLabel over class 0 *)
Definition lb_row (m : lbin) (row : list Z) : list Z :=
  concat (map (fun jc => let '(j, cl) := jc in
      match find_ix (nth j row 0%Z) cl 0 with
      | Some k => upd (repeat 0%Z (length cl)) k (lb_pos m)
      | None => upd (repeat 0%Z (length cl)) 0 (lb_neg m)
      end) (combine (seq 0 (length (lb_classes m))) (lb_classes m))).
Definition lb_transform (m : lbin) (Y : list (list Z)) : list (list Z) := map (lb_row m) Y.
(* mathCompat.go:93-101 MaxIdx64 *)
Definition max_idx (l : list Z) : nat := fold_left (fun mi i => if Z.ltb (nth mi l 0%Z) (nth i l 0%Z) then i else mi) (seq 0 (length l)) 0%nat.
(* basemlp64.go:1348-1355 for one row, given the flat data and its start: baseCol moves twice per column.
   None is a panic (class list or slice out of range), or the fuel *)
Fixpoint lb_cols (fuel j base : nat) (m : lbin) (d : list Z) (start cols : nat) : option (list (nat * Z)) :=
  match fuel with
  | O => None
  | S f =>
      if base <? cols then
        match nth_error (lb_classes m) j with
        | None => None
        | Some cl =>
            if length d <? start + base + length cl then None
            else match nth_error cl (max_idx (slice d (start + base) (length cl))) with
                 | None => None
                 | Some v => match lb_cols f (S j) (base + length cl + length cl) m d start cols with
                             | Some l => Some ((j, v) :: l)
                             | None => None
                             end
                 end
        end
      else Some []
  end.
Definition lb_inverse_row (m : lbin) (d : list Z) (start cols : nat) : option (list Z) :=
  match lb_cols (S cols) 0 0 m d start cols with
  | None => None
  | Some l => Some (map (fun j => match find (fun jv => Nat.eqb (fst jv) j) l with Some jv => snd jv | None => 0%Z end) (seq 0 (length (lb_classes m))))
  end.
(* basemlp64.go:1341-1357 InverseTransform; the loops over rows and columns are exchanged *)
Definition lb_inverse (m : lbin) (T : list (list Z)) : list (option (list Z)) :=
  let cols := length (hd [] T) in map (fun i => lb_inverse_row m (concat T) (i * cols) cols) (seq 0 (length T)).
(* basemlp64.go:1316-1318: Transform reads Classes[j] for each of the columns of its argument; None is the index panic *)
Definition lb_transform_chk (m : lbin) (cols : nat) (Y : list (list Z)) : option (list (list Z)) :=
  if length (lb_classes m) <? cols then None else Some (lb_transform m Y).
(* basemlp64.go:935-937, 917-923: score of the validation rows calls predict with a matrix of the shape of the binarized
   targets, which predict passes to Transform; its cells are 0 *)
Definition val_predict (m : lbin) (yval : list (list Z)) : option (list (list Z)) :=
  let cols := length (hd [] yval) in lb_transform_chk m cols (map (fun _ => repeat 0%Z cols) yval).
