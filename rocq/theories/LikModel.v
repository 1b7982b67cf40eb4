(* preprocessing/data.go:1371-1401, 1477-1498: the functions of lambda that yeoJohnsonOptimize and boxCoxOptimize give to the
   Brent minimizer, over the real numbers; None is NaN or -Inf.  The minimizer itself is not modelled. *)
From Coq Require Import Reals List.
From Verif Require Import MtModel PowerModel.
Import ListNotations.
Open Scope R_scope.

Definition rsum (l : list R) : R := fold_right Rplus 0 l.
Fixpoint mapo {A B} (f : A -> option B) (l : list A) : option (list B) :=
  match l with [] => Some [] | x :: l' => bind (f x) (fun y => bind (mapo f l') (fun ys => Some (y :: ys))) end.
(* data.go:277-291 NumpyLike.Var of a matrix with one column: the sum of squares is divided by the number of columns *)
Definition var1 (t : list R) : R :=
  let mean := rsum t / INR (length t) in rsum (map (fun y => (y + - mean) * (y + - mean)) t) / INR 1.
(* data.go:1377-1385 *)
Definition sumlog1p (x : list R) : R := rsum (map (fun xi => if rltb 0 xi then ln (1 + xi) else - ln (1 + - xi)) x).
(* data.go:1386-1391; 1485-1488 *)
Definition nll (t : R -> R -> option R) (sumlog : R) (x : list R) (l : R) : option R :=
  bind (mapo (t l) x) (fun xt =>
    if rltb 0 (var1 xt) then Some (- (- INR (length x) / 2 * ln (var1 xt) + (l - 1) * sumlog)) else None).
Definition yj_nll (x : list R) (l : R) : option R := nll yj (sumlog1p x) x l.
(* data.go:1477-1490, for positive data: math.Log of the others is NaN or -Inf *)
Definition bc_nll (x : list R) (l : R) : option R :=
  if forallb (fun xi => rltb 0 xi) x then nll bc (rsum (map ln x)) x l else None.
