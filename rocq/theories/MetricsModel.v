(* Model of /repo/metrics: classification.go, ranking.go, base.go,
   regression.go.  Exact rational arithmetic; class labels are integers (only
   compared); None is a panic or, where said, NaN. *)
From Verif Require Import QCommon LabelModel.
Open Scope Q_scope.

(* sampleWeight.At(i,0) / sampleWeight[i], nil gives 1 *)
Definition weight (w : option (list Q)) (i : nat) : Q := match w with None => 1 | Some l => nth i l 0 end.

(* ---------------------------------------------------------- AccuracyScore *)
(* classification.go:20-24: Ytrue and Ypred rows have the same length *)
Fixpoint row_eq (yt yp : list Z) : bool :=
  match yt, yp with
  | a :: yt', b :: yp' => (Z.eqb a b && row_eq yt' yp')%bool
  | _, _ => true
  end.
(* classification.go:13-29: (N, D) after the loop *)
Fixpoint acc_loop (i : nat) (w : option (list Q)) (rows : list (list Z * list Z)) (N D : Q) : Q * Q :=
  match rows with
  | [] => (N, D)
  | r :: rows' => acc_loop (S i) w rows' (if row_eq (fst r) (snd r) then N + weight w i else N) (D + weight w i)
  end.
(* classification.go:30-33; None: 0/0 or x/0 (normalize only) *)
Definition accuracy (normalize : bool) (w : option (list Q)) (rows : list (list Z * list Z)) : option Q :=
  let ND := acc_loop 0 w rows 0 0 in
  if normalize then (if Qeq_bool (snd ND) 0 then None else Some (fst ND / snd ND)) else Some (fst ND).

(* -------------------------------------------------------- ConfusionMatrix *)
(* classification.go:168-176: one sample, all columns: cm.Data[r*Stride+c] += w *)
Fixpoint cm_add (K : nat) (w : Q) (rs cs : list Z) (cm : list Q) : option (list Q) :=
  match rs, cs with
  | r :: rs', c :: cs' =>
    let p := (r * Z.of_nat K + c)%Z in
    if ((0 <=? p) && (p <? Z.of_nat (length cm)))%Z then
      cm_add K w rs' cs' (upd cm (Z.to_nat p) (nth (Z.to_nat p) cm 0 + w))
    else None
  | _, _ => Some cm
  end.
(* classification.go:167-178 *)
Fixpoint cm_loop (K : nat) (i : nat) (w : option (list Q)) (st : list le_col) (rows : list (list Z * list Z)) (cm : list Q)
  : option (list Q) :=
  match rows with
  | [] => Some cm
  | (yt, yp) :: rows' =>
    match le_transform_row st yt, le_transform_row st yp with
    | Some rs, Some cs =>
      match cm_add K (weight w i) rs cs cm with
      | Some cm' => cm_loop K (S i) w st rows' cm'
      | None => None
      end
    | _, _ => None
    end
  end.
(* classification.go:154-180; the result is (K, flat data K x K); None also for
   NewDense(0, 0) *)
Definition confusion (w : option (list Q)) (ncols : nat) (rows : list (list Z * list Z)) : option (nat * list Q) :=
  let st := le_fit ncols (map fst rows) in
  let K := match st with [] => 0%nat | (c, _) :: _ => length c end in
  if Nat.eqb K 0 then None
  else match cm_loop K 0 w st rows (repeat 0 (K * K)) with
       | Some cm => Some (K, cm)
       | None => None
       end.

(* -------------------------------------- PrecisionRecallFScoreSupport *)
(* classification.go:81-101 *)
Definition prf (beta tp true_ pred : Q) : Q * Q * Q :=
  let p := if Qltb 0 pred then tp / pred else 0 in
  let r := if Qltb 0 true_ then tp / true_ else 0 in
  let b2 := beta * beta in
  let f := if Qltb 0 (b2 * p + r) then (1 + b2) * p * r / (b2 * p + r) else 0 in
  (p, r, f).
Definition cm_at (K : nat) (cm : list Q) (i j : nat) : Q := nth (i * K + j) cm 0.
Definition cm_row (K : nat) (cm : list Q) (i : nat) : Q := qsum (map (fun j => cm_at K cm i j) (seq 0 K)).
Definition cm_col (K : nat) (cm : list Q) (j : nat) : Q := qsum (map (fun i => cm_at K cm i j) (seq 0 K)).
(* classification.go:102-108 *)
Definition prf_class (beta : Q) (K : nat) (cm : list Q) (c : nat) : Q * Q * Q :=
  prf beta (cm_at K cm c c) (cm_row K cm c) (cm_col K cm c).
(* classification.go:94-96: the support field, from le.Support[0][c] *)
Definition prf_support (st : list le_col) (c : nat) : Z :=
  match st with (_, s) :: _ => nth c s 0%Z | [] => 0%Z end.
Definition qmean (l : list Q) : Q := qsum l / qn (length l).
(* classification.go:116-133: macro and weighted both take the plain means; the
   returned support is 0 *)
Definition prf_macro (beta : Q) (K : nat) (cm : list Q) : Q * Q * Q * Q :=
  let l := map (prf_class beta K cm) (seq 0 K) in
  (qmean (map (fun x => fst (fst x)) l), qmean (map (fun x => snd (fst x)) l), qmean (map snd l), 0).
Definition prf_weighted := prf_macro.
(* classification.go:134-144 *)
Definition prf_micro (beta : Q) (K : nat) (cm : list Q) : Q * Q * Q * Q :=
  (prf beta (qsum (map (fun c => cm_at K cm c c) (seq 0 K))) (qsum (map (cm_row K cm) (seq 0 K)))
    (qsum (map (cm_col K cm) (seq 0 K))), 0).

(* ----------------------------------------------------------------- ranking *)
(* ranking.go:26-36: groups of equal scores along the sorted index list; the
   last group is kept reversed while it grows.  [sc] are the scores. *)
Definition group_step (sc : list Q) (acc : list (list nat) * option nat) (i : nat) : list (list nat) * option nat :=
  match acc with
  | (groups, None) => ([i] :: groups, Some i)
  | (groups, Some prev) =>
    if Qltb (nth i sc 0) (nth prev sc 0) then ([i] :: groups, Some i)
    else match groups with
         | g :: gs => ((g ++ [i]) :: gs, Some i)
         | [] => ([[i]], Some i)
         end
  end.
Definition clf_groups (sc : list Q) (idx : list nat) : list (list nat) :=
  rev (fst (fold_left (group_step sc) idx ([], None))).
(* ranking.go:38-58: (fps, tps, thresholds).  [pos i] is Ytrue.At(i,0)==posLabel,
   [w i] the weight *)
Fixpoint clf_curve (pos : nat -> bool) (w : nat -> Q) (sc : list Q) (groups : list (list nat)) (tpw fpw : Q)
  : list Q * list Q * list Q :=
  match groups with
  | [] => ([], [], [])
  | g :: gs =>
    let tp' := fold_left (fun a i => if pos i then a + w i else a) g tpw in
    let fp' := fold_left (fun a i => if pos i then a else a + w i) g fpw in
    let '(fps, tps, ths) := clf_curve pos w sc gs tp' fp' in
    (fp' :: fps, tp' :: tps, nth (hd 0%nat g) sc 0 :: ths)
  end.
(* ranking.go:13-60.  [idx] is the result of sort.Slice: some permutation of the
   sample indices with non-increasing scores. *)
Definition binary_clf_curve (labels : list Z) (posLabel : Z) (w : option (list Q)) (sc : list Q) (idx : list nat) :=
  clf_curve (fun i => Z.eqb (nth i labels 0%Z) posLabel) (weight w) sc (clf_groups sc idx) 0 0.
(* ranking.go:75-105; None: no samples (thresholds[0]), or no positive / no
   negative weight (NaN rates) *)
Definition roc_curve (labels : list Z) (posLabel : Z) (w : option (list Q)) (sc : list Q) (idx : list nat)
  : option (list Q * list Q * list Q) :=
  let '(fps, tps, ths) := binary_clf_curve labels posLabel w sc idx in
  match fps, ths with
  | f0 :: _, t0 :: _ =>
    let '(fps, tps, ths) := if Qeq_bool f0 0 then (fps, tps, ths) else (0 :: fps, 0 :: tps, (t0 + 1) :: ths) in
    let fpmax := last fps 0 in
    let tpmax := last tps 0 in
    if (Qle_bool fpmax 0 || Qle_bool tpmax 0)%bool then None
    else Some (map (Qmult (1 / fpmax)) fps, map (Qmult (1 / tpmax)) tps, ths)
  | _, _ => None
  end.
(* ranking.go:108-120 *)
Fixpoint auc_loop (fpr tpr : list Q) (xp yp auc : Q) : Q :=
  match fpr, tpr with
  | x :: fpr', y :: tpr' => auc_loop fpr' tpr' x y (auc + (x - xp) * (y + yp) / 2)
  | _, _ => auc
  end.
Definition auc (fpr tpr : list Q) : Q := auc_loop fpr tpr 0 0 0.
(* ranking.go:147-153 with binary targets (base.go:20-22): posLabel is 1 *)
Definition roc_auc_binary (labels : list Z) (w : option (list Q)) (sc : list Q) (idx : list nat) : option Q :=
  match roc_curve labels 1 w sc idx with
  | Some (fpr, tpr, _) => Some (auc fpr tpr)
  | None => None
  end.

(* sort.SearchFloat64s (a, x) on an ascending slice: number of elements < x *)
Fixpoint qsearch (a : list Q) (x : Q) : nat :=
  match a with [] => 0%nat | y :: a' => if Qltb y x then S (qsearch a' x) else 0%nat end.
(* ranking.go:186-218; None: no samples or 0/0 *)
Definition pr_curve (labels : list Z) (posLabel : Z) (w : option (list Q)) (sc : list Q) (idx : list nat)
  : option (list Q * list Q * list Q) :=
  let '(fps, tps, ths) := binary_clf_curve labels posLabel w sc idx in
  let tot := last tps 0 in
  match tps with
  | [] => None
  | _ =>
    if (Qeq_bool tot 0 || existsb (fun tf => Qeq_bool (fst tf + snd tf) 0) (combine tps fps))%bool then None
    else
      let n := S (qsearch tps tot) in
      Some (rev (firstn n (map (fun tf => fst tf / (fst tf + snd tf)) (combine tps fps))) ++ [1],
            rev (firstn n (map (fun t => t / tot) tps)) ++ [0],
            rev (firstn n ths))
  end.
(* ranking.go:222-229 *)
Fixpoint ap_loop (p r : list Q) : Q :=
  match p, r with
  | p0 :: p', r0 :: ((r1 :: _) as r') => (r0 - r1) * p0 + ap_loop p' r'
  | _, _ => 0
  end.

(* base.go:33-47 "micro": the flattened cells and their weights; m rows, n
   columns *)
Definition micro_cells {A} (rows : list (list A)) : list A := concat rows.
Definition micro_weights (m n : nat) (w : list Q) : list Q :=
  fold_left (fun tmp i => firstn (i * m) tmp ++ firstn m w ++ skipn (i * m + min m (length w)) tmp) (seq 0 n) (repeat 0 (m * n)).

(* ------------------------------------------------------------- regression *)
(* regression.go:140-153 (sq) and 197-210 (abs) for output j.  sampleWeight is
   given by rows; .At(0, j) panics when it has fewer columns.  None: panic or
   0/0. *)
Definition reg_err (loss : Q -> Q) (w : option (list (list Q))) (yt yp : list (list Q)) (j : nat) : option Q :=
  match (match w with None => Some 1 | Some rows => nth_error (hd [] rows) j end) with
  | None => None
  | Some wj =>
    let ND := fold_left (fun nd ab => (fst nd + wj * loss (nth j (snd ab) 0 - nth j (fst ab) 0), snd nd + wj))
                (combine yt yp) (0, 0) in
    if Qeq_bool (snd ND) 0 then None else Some (fst ND / snd ND)
  end.
Definition mse := reg_err (fun d => d * d).
Definition mae := reg_err Qabs.

(* regression.go:84-116, raw_values, output j, on pairs (true, predicted, weight) *)
Definition r2_num (s : list (Q * Q * Q)) : Q := qsum (map (fun x => snd x * ((snd (fst x) - fst (fst x)) * (snd (fst x) - fst (fst x)))) s).
Definition r2_avg (s : list (Q * Q * Q)) : Q := (1 / qsum (map snd s)) * qsum (map (fun x => snd x * fst (fst x)) s).
Definition r2_den (s : list (Q * Q * Q)) : Q :=
  qsum (map (fun x => snd x * ((fst (fst x) - r2_avg s) * (fst (fst x) - r2_avg s))) s).
Definition r2_tiny : Q := 1 # 100000000000000000000.
Definition r2_raw (s : list (Q * Q * Q)) : Q := 1 - r2_num s / qmax (r2_den s) r2_tiny.
(* regression.go:120-125 variance_weighted, on the list of outputs *)
Definition r2_variance_weighted (outs : list (list (Q * Q * Q))) : Q :=
  (1 / qsum (map r2_den outs)) * qsum (map (fun s => r2_den s * r2_raw s) outs).
(* 126-127 *)
Definition r2_uniform (outs : list (list (Q * Q * Q))) : Q := qsum (map r2_raw outs) / qn (length outs).
