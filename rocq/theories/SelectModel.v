(* Model of /repo/model_selection: split.go, search.go (ParameterGrid and the
   selection of the best candidate) and validation.go. *)
From Coq Require Import QArith Qround.
From Verif Require Import Common ParallelModel.
Set Implicit Arguments.

(* ------------------------------------------------------------------ KFold *)

(* split.go:49-51 *)
Definition kfold_nsplits (NSplits : Z) : nat :=
  if (NSplits <=? 0)%Z then 3%nat else Z.to_nat NSplits.

(* split.go:77-81 *)
Definition kfold_ntest (N k isplit : nat) : nat :=
  let ntest := (N / k)%nat in
  if Nat.ltb isplit (N mod k) then (ntest + 1)%nat else ntest.

(* split.go:92-94: aSwap((start+i)%N, N-NTest+i) for i = i0 .. i0+cnt-1 *)
Fixpoint kfold_rotate (cnt i start N ntest : nat) (a : list nat) : list nat :=
  match cnt with
  | 0%nat => a
  | S c => kfold_rotate c (i + 1) start N ntest (swap a ((start + i) mod N) (N - ntest + i))
  end.

(* split.go:89: rndShuffle(len(a), aSwap) calls aSwap on some sequence of index
   pairs; the sequence is the oracle argument [swaps]. *)
Definition kfold_shuffle (swaps : list (nat * nat)) (a : list nat) : list nat :=
  fold_left (fun a ij => swap a (fst ij) (snd ij)) swaps a.

(* one iteration of the loop split.go:76-102; [rnd] are the random draws of this
   iteration: the swaps of rndShuffle and the value of rndIntn(NSamples), which
   panics for NSamples = 0 (None). *)
Definition kfold_one (shuffle : bool) (N k isplit : nat) (rnd : list (nat * nat) * nat)
  : option (list nat * list nat) :=
  let ntest := kfold_ntest N k isplit in
  let a := seq 0 N in
  if shuffle then
    let a := kfold_shuffle (fst rnd) a in
    Some (firstn (N - ntest) a, skipn (N - ntest) a)
  else
    match N with
    | 0%nat => None
    | _ =>
      let a := kfold_rotate ntest 0 (snd rnd) N ntest a in
      Some (firstn (N - ntest) a, skipn (N - ntest) a)
    end.

Fixpoint kfold_loop (cnt : nat) (shuffle : bool) (N k isplit : nat)
  (rnds : nat -> list (nat * nat) * nat) : option (list (list nat * list nat)) :=
  match cnt with
  | 0%nat => Some []
  | S c =>
    match kfold_one shuffle N k isplit (rnds isplit) with
    | Some sp =>
      match kfold_loop c shuffle N k (isplit + 1) rnds with
      | Some rest => Some (sp :: rest)
      | None => None
      end
    | None => None
    end
  end.

(* split.go:48-106.  The channel delivers the splits in order. *)
Definition kfold_split (NSplits : Z) (shuffle : bool) (N : nat)
  (rnds : nat -> list (nat * nat) * nat) : option (list (list nat * list nat)) :=
  let k := kfold_nsplits NSplits in
  kfold_loop k shuffle N k 0 rnds.

(* --------------------------------------------------------- TrainTestSplit *)

(* split.go:119-124 with exact arithmetic for NSamples*testsize. *)
Definition tts_testlen (N : nat) (testsize : Q) : Z :=
  let n := inject_Z (Z.of_nat N) in
  if Qle_bool testsize 1 then Qceiling (n * testsize)
  else Qceiling (if Qle_bool n testsize then n else testsize).

Fixpoint gather {A} (ind : list nat) (rows : list A) : option (list A) :=
  match ind with
  | [] => Some []
  | j :: js =>
    match nth_error rows j, gather js rows with
    | Some r, Some rs => Some (r :: rs)
    | _, _ => None
    end
  end.

(* split.go:116-153.  Rows of X and Y are opaque; [ind] is permer.Perm(NSamples).
   mat.NewDense panics for a non-positive number of rows (None), and mat.Row
   panics for a row index out of range. *)
Definition train_test_split {A B} (X : list A) (Y : list B) (testsize : Q) (ind : list nat)
  : option (list A * list A * list B * list B) :=
  let N := length X in
  let testlen := tts_testlen N testsize in
  if ((testlen <=? 0) || (Z.of_nat N - testlen <=? 0))%Z%bool then None
  else
    let t := Z.to_nat testlen in
    match gather (skipn t ind) X, gather (firstn t ind) X,
          gather (skipn t ind) Y, gather (firstn t ind) Y with
    | Some xtr, Some xte, Some ytr, Some yte => Some (xtr, xte, ytr, yte)
    | _, _, _, _ => None
    end.

(* ---------------------------------------------------------- ParameterGrid *)
Section Grid.
Variables (K Val : Type).

(* search.go:16-36.  A Go map built by copying and setting one fresh key is an
   association list with the key added at the end. *)
Definition make_arr (name : K) (values : list Val) (prev : list (list (K * Val)))
  : list (list (K * Val)) :=
  match prev with
  | [] => map (fun v => [(name, v)]) values
  | _ => flat_map (fun map1 => map (fun v => map1 ++ [(name, v)]) values) prev
  end.

(* search.go:37-40.  [grid] is the map in the iteration order chosen at run time. *)
Definition parameter_grid (grid : list (K * list Val)) : list (list (K * Val)) :=
  fold_left (fun out kv => make_arr (fst kv) (snd kv) out) grid [].
End Grid.

(* ------------------------------------------------------- best candidate *)

(* scores are float64 compared with < and >; [None] is NaN. *)
Definition fless (a b : option Z) : bool :=
  match a, b with Some x, Some y => (x <? y)%Z | _, _ => false end.

(* search.go:90-95 *)
Definition is_better (lower : bool) (score ref : option Z) : bool :=
  if lower then fless score ref else fless ref score.

(* search.go:155-162, also bestIdx at 96-104: a left-to-right scan keeping the
   index of the first best one.  State: (best index, best score). *)
Definition best_step (lower : bool) (st : nat * option (nat * option Z)) (score : option Z)
  : nat * option (nat * option Z) :=
  let '(i, best) := st in
  (S i,
   match best with
   | None => Some (i, score)
   | Some (bi, bs) => if is_better lower score bs then Some (i, score) else best
   end).
Definition best_scan (lower : bool) (scores : list (option Z)) : option (nat * option Z) :=
  snd (fold_left (best_step lower) scores (0%nat, None)).

(* search.go:139-162: each candidate job i stores its score in slot i; jobs run
   under Parallelize with an arbitrary schedule; then the slots are scanned. *)
Definition gscv_fit (lower : bool) (numcpu njobs : Z) (score_of : nat -> option Z) (ncand : nat)
  (sched : list choice) : option (option (nat * option Z)) :=
  match parallelize_run (V := option Z) (L := unit) (fun i => [fun st => (score_of i, snd st)]) tt
          numcpu njobs ncand sched (repeat None ncand) with
  | Some scores => Some (best_scan lower scores)
  | None => None
  end.

(* ---------------------------------------------------------- CrossValidate *)
Section CV.
Variables (XRow YRow Est Score : Type).
(* estimator.PredicterClone() followed by Fit(Xtrain,Ytrain) *)
Variable fit : list XRow -> list YRow -> Est.
(* Predict(Xtest) followed by scorer(Ytest,Ypred) *)
Variable score : Est -> list XRow -> list YRow -> Score.

(* job buffers Xjob,Yjob (validation.go:99,106), result slot (res.Estimator[i],
   res.TestScore[i]) *)
Definition job : Type := (list XRow * list YRow)%type.
Definition slot : Type := (option Est * option Score)%type.

(* validation.go:72-73 / 76-77: SetRow(i0, X.RawRowView(i1)) on row [dst] of the
   buffers *)
Definition copy_row (X : list XRow) (Y : list YRow) (dst src : nat) (st : slot * job) : slot * job :=
  let '(sl, (xj, yj)) := st in
  match nth_error X src, nth_error Y src with
  | Some x, Some y => (sl, (upd xj dst x, upd yj dst y))
  | _, _ => st
  end.

(* validation.go:80-82: clone and fit on the first trainLen rows of the buffer *)
Definition do_fit (ntr : nat) (st : slot * job) : slot * job :=
  let '((_, sc), (xj, yj)) := st in
  ((Some (fit (firstn ntr xj) (firstn ntr yj)), sc), (xj, yj)).

(* validation.go:85-90,102: predict the next testLen rows and store the score *)
Definition do_score (ntr nte : nat) (st : slot * job) : slot * job :=
  let '((e, sc), (xj, yj)) := st in
  match e with
  | Some est => ((e, Some (score est (firstn nte (skipn ntr xj)) (firstn nte (skipn ntr yj)))), (xj, yj))
  | None => st
  end.

(* validation.go:63-92 processSplit as a list of atomic instructions *)
Definition process_split (X : list XRow) (Y : list YRow) (sp : list nat * list nat)
  : list (slot * job -> slot * job) :=
  let ntr := length (fst sp) in
  let nte := length (snd sp) in
  map (fun p => copy_row X Y (fst p) (snd p)) (combine (seq 0 ntr) (fst sp)) ++
  map (fun p => copy_row X Y (fst p) (snd p)) (combine (seq ntr nte) (snd sp)) ++
  [do_fit ntr; do_score ntr nte].

Definition cv_body (X : list XRow) (Y : list YRow) (splits : list (list nat * list nat)) (i : nat)
  : list (slot * job -> slot * job) :=
  match nth_error splits i with
  | Some sp => process_split X Y sp
  | None => []
  end.

(* validation.go:37-115.  [buf] are freshly allocated job buffers with NSamples
   rows.  NJobs is clamped to the number of splits (lines 43-45); one job is the
   sequential path (105-113), more jobs go through Parallelize (93-104). *)
Definition cross_validate (buf : job) (numcpu NJobs : Z) (X : list XRow) (Y : list YRow)
  (splits : list (list nat * list nat)) (sched : list choice) : option (list slot) :=
  let nsplits := length splits in
  let nj := eff_threads numcpu NJobs in
  let nj := if (Z.of_nat nsplits <? nj)%Z then Z.of_nat nsplits else nj in
  let mem := repeat (None, None) nsplits in
  if (1 <? nj)%Z then
    parallelize_run (cv_body X Y splits) buf numcpu nj nsplits sched mem
  else
    Some (seq_loop (cv_body X Y splits) buf nsplits mem).
End CV.
