(* Model of Ridge: /repo/linear_model/ridge.go, RegularizedRegression.Fit
   (Base.go:106-125) and SquareLoss with its regularization (loss.go:35-66,
   250-293) for L1Ratio = 0, Identity activation.  Exact rational arithmetic.
   Outputs are fitted one by one (Base.go:334-339, 474-530), a column each. *)
From Verif Require Import QCommon LinModel.
Open Scope Q_scope.

Section Ridge.
  Variables (alpha : Q) (X Y : mtx) (p : nat) (o : nat).
  Let n := length X.
  (* loss.go:36-38 Ydiff *)
  Definition rdiff (w : nat -> Q) (i : nat) : Q := sumn p (fun k => at2 X i k * w k) - at2 Y i o.
  (* loss.go:39-43, 60-62, 262-264, 290: J *)
  Definition ridge_J (w : nat -> Q) : Q :=
    (sumn n (fun i => rdiff w i * rdiff w i) + (if Qltb 0 alpha then sumn p (fun j => (1 - 0) * w j * w j) * alpha else 0)) / (2 * qn n).
  (* loss.go:46-47, 61, 273-286, 63-65: the gradient handed to the optimizer;
     line 283 adds the coefficient without Alpha *)
  Definition ridge_grad (w : nat -> Q) (j : nat) : Q :=
    1 / qn n * (sumn n (fun i => at2 X i j * rdiff w i) + (if Qltb 0 alpha then (1 - 0) * w j else 0)).
End Ridge.
(* Base.go:106-125; [minimize] is what LinFit ends with on the preprocessed data *)
Definition ridge_fit (nrm : list Q -> Q) (minimize : Q -> mtx -> mtx -> mtx) (fit norm : bool) (alpha : Q) (X Y : mtx) (old : option (list Q)) : option (mtx * list Q) :=
  let pr := preprocess nrm fit norm X Y in
  set_intercept fit pr (minimize alpha (pX pr) (pY pr)) (ncols Y) old.
(* an optimizer that stops where the gradient it is given is 0 *)
Definition stops_at_zero (minimize : Q -> mtx -> mtx -> mtx) (alpha : Q) (X Y : mtx) (p q : nat) : Prop :=
  length (minimize alpha X Y) = p /\
  forall j o, (j < p)%nat -> (o < q)%nat -> ridge_grad alpha X Y p o (fun k => at2 (minimize alpha X Y) k o) j == 0.

(* Specification: squared errors on the caller's data plus a penalty on the
   coefficients, taken in the unit the model works in *)
Definition ridge_obj (alpha : Q) (X Y : mtx) (scale : nat -> Q) (p o : nat) (w : nat -> Q) (b : Q) : Q :=
  sumn (length X) (fun i => (at2 Y i o - (sumn p (fun j => at2 X i j * w j) + b)) * (at2 Y i o - (sumn p (fun j => at2 X i j * w j) + b)))
  + alpha * sumn p (fun j => (scale j * w j) * (scale j * w j)).
