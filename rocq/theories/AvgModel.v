(* Model of /repo/metrics/base.go: averageBinaryScore and typeOfTarget.  Exact arithmetic; matrices are lists of rows, and not
   views into larger matrices (gonum's Slice may go beyond the columns of a view).  The score of one binary problem is an
   argument: a function of the column of true labels, the column of scores and the weights (nil is None).  A result None is a
   panic. *)
From Verif Require Import QCommon ImputeModel MetricsModel.
Open Scope Q_scope.

(* a column of a matrix; base.go:76-77 Slice(0, Rows, c, c+1) *)
Definition rcol (c : nat) (rows : list (list Q)) : list Q := map (fun r => nth c r 0) rows.
(* base.go:90-101: lo and hi start at the first value *)
Definition two_valued (col : list Q) : bool :=
  match col with
  | [] => true
  | x :: _ =>
    let lo := fold_left (fun lo v => if Qltb v lo then v else lo) col x in
    let hi := fold_left (fun hi v => if Qltb hi v then v else hi) col x in
    forallb (fun v => (Qeq_bool v lo || Qeq_bool v hi)%bool) col
  end.
Inductive target := TBinary | TMulti | TUnknown.
(* base.go:87-120 typeOfTarget; n columns.  binary and mli are both cleared by a third value *)
Definition type_of_target (n : nat) (Y : list (list Q)) : target :=
  let ok := forallb (fun c => two_valued (rcol c Y)) (seq 0 n) in
  if ((n =? 1)%nat && ok)%bool then TBinary else if ok then TMulti else TUnknown.

(* gonum stat.Mean; None: weights of another length (panic); weights that sum to 0 (NaN) are excluded by the caller or told so *)
Definition stat_mean (x : list Q) (w : option (list Q)) : option Q :=
  match w with
  | None => Some (qsum x / qn (length x))
  | Some w => if Nat.eqb (length w) (length x) then Some (qsum (zip Qmult w x) / qsum w) else None
  end.

Inductive average := AMicro | AMacro | AWeighted | ASamples | AOther.

(* base.go:74-82: the loop over NClasses = k columns; Slice panics when the matrices have only n < k *)
Definition class_scores (metric : list Q -> list Q -> option (list Q) -> Q) (k n : nat) (yt ys : list (list Q)) (w : option (list Q))
  : option (list Q) :=
  if (k <=? n)%nat then Some (map (fun c => metric (rcol c yt) (rcol c ys) w) (seq 0 k)) else None.
(* base.go:49-60: the weight of a class is the weight of the samples that have it *)
Definition class_weight (w : option (list Q)) (c : nat) (yt : list (list Q)) : Q :=
  qsum (map (fun jr => if Qeq_bool (nth c (snd jr) 0) 1 then weight w (fst jr) else 0) (combine (seq 0 (length yt)) yt)).

(* base.go:12-85.  Ytrue and Yscore are both m x n (other shapes are not modelled). *)
Definition average_binary_score (metric : list Q -> list Q -> option (list Q) -> Q) (m n : nat)
  (yt ys : list (list Q)) (avg : average) (w : option (list Q)) : option Q :=
  match type_of_target n yt with
  | TUnknown => Some 0
  | TBinary => Some (metric (rcol 0 yt) (rcol 0 ys) w)
  | TMulti =>
    match avg with
    | AMicro => (* 33-48: one class, the mean of one score *)
      match class_scores metric 1 1 (map (fun v => [v]) (micro_cells yt)) (map (fun v => [v]) (micro_cells ys))
              (match w with None => None | Some w => Some (micro_weights m n w) end) with
      | Some s => stat_mean s None | None => None end
    | AWeighted =>
      let cw := map (fun c => class_weight w c yt) (seq 0 n) in
      if Qeq_bool (qsum cw) 0 then Some 0
      else match class_scores metric n n yt ys w with Some s => stat_mean s (Some cw) | None => None end
    | ASamples => (* 61-65: NClasses is the number of rows, the slices are still columns *)
      match class_scores metric m n yt ys None with Some s => stat_mean s w | None => None end
    | AMacro | AOther => (* 67-70 *)
      match class_scores metric n n yt ys w with Some s => stat_mean s None | None => None end
    end
  end.
