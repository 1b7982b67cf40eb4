(* linear_model/logistic.go over the real numbers: the loss and its gradient, predictions, and the checks of Fit.
   n samples, p features, q outputs; activations and losses are those of MlpNetModel (the same formulas, see the lines cited). *)
From Coq Require Import Reals List Arith Bool.
From Verif Require Import MtModel LossModel MlpNetModel.
Import ListNotations.
Open Scope R_scope.

Section Logreg.
  Variables (hmin hmax alpha : R) (n p q : nat) (X y : rmtx).
  (* logistic.go:175-192 forwardPass with two layers; the activations: logistic.go:66-92 *)
  Definition lr_pre (W : rmtx) (b : nat -> R) : rmtx := fun r c => rs p (fun i => X r i * W i c) + b c.
  Definition lr_h (o : out) (W : rmtx) (b : nat -> R) : rmtx := fun r c => outF o q (lr_pre W b r) c.
  (* logistic.go:224-240; the loss functions: logistic.go:95-132; logistic.go:194-202 sumCoefSquares *)
  Definition lr_loss (o : out) (W : rmtx) (b : nat -> R) : R :=
    data_loss hmin hmax o n n q y (lr_h o W b) + 1 / 2 * alpha * rs p (fun i => rs q (fun j => W i j * W i j)) / INR n.
  (* logistic.go:205-216, 252-264 computeLossGrad on the deltas H - y *)
  Definition lr_gW (o : out) (W : rmtx) (b : nat -> R) : rmtx := fun i j =>
    1 / INR n * rs n (fun r => X r i * (lr_h o W b r j - y r j)) + alpha / INR n * W i j.
  Definition lr_gb (o : out) (W : rmtx) (b : nat -> R) (j : nat) : R := rs n (fun r => lr_h o W b r j - y r j) / INR n.
  (* logistic.go:462-475 Predict without a label binarizer; logistic.go:498-518 toLogits, the same as basemlp64.go's *)
  Definition lr_predict (o : out) (W : rmtx) (b : nat -> R) (r c : nat) : R := to_logits q (lr_h o W b r) c.
End Logreg.

(* logistic.go:251-259: the loop that writes D = H - y steps through all three with the stride of y; flat data; None is an index panic *)
Definition lr_deltas {A} (sub : A -> A -> A) (rows cols stride : nat) (H y D : list A) : option (list A) :=
  fold_left (fun acc ro => match acc with
    | None => None
    | Some D => let pos := (fst ro * stride + snd ro)%nat in
                match nth_error H pos, nth_error y pos, nth_error D pos with
                | Some h, Some v, Some _ => Some (firstn pos D ++ sub h v :: skipn (S pos) D)
                | _, _, _ => None
                end
    end) (list_prod (seq 0 rows) (seq 0 cols)) (Some D).

(* logistic.go:336-352 the start of Fit: kx, ky tell whether X, Y are *mat.Dense; bin is isBinarized(yb), which panics on the nil
   yb that is left when X is dense and Y is not; classes are those the LabelBinarizer finds, per column.
   The state is m.lb and NOutputs; None is a panic. *)
Record lrst (L : Type) : Type := mklrst { lr_lb : option (list (list L)); lr_nout : nat }.
Arguments mklrst {L}. Arguments lr_lb {L}. Arguments lr_nout {L}.
Definition fan {L} (cl : list (list L)) : nat := fold_right (fun c s => (length c + s)%nat) 0%nat cl.
Definition lr_front {L} (m : lrst L) (kx ky bin : bool) (ycols : nat) (classes : list (list L)) : option (lrst L) :=
  if (kx && negb ky)%bool then None
  else if bin then Some (mklrst (lr_lb m) ycols) else Some (mklrst (Some classes) (fan classes)).
(* logistic.go:442-479 PredictProbas into a new matrix and the decoding of Predict: the width of the matrix comes from lb, that of the
   coefficients from NOutputs; when the first is larger the intercepts run out, when it is smaller Dgemm refuses the stride.
   Some None: 0/1 outputs; Some (Some classes): the labels used *)
Definition lr_decode {L} (m : lrst L) : option (option (list (list L))) :=
  match lr_lb m with
  | None => Some None
  | Some cl => if Nat.eqb (fan cl) (lr_nout m) then Some (Some cl) else None
  end.
(* logistic.go:402-438 fitLbfgs: Func copies every point it is given into the parameters; the result of Minimize is not used *)
Definition lr_params {P} (init : P) (evals : list P) : P := fold_left (fun _ w => w) evals init.
