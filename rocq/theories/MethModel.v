(* base/optimizers.go:320-356: SGDOptimizer used as an optimize.Method of gonum (GOMethodCreators), over the real numbers *)
From Coq Require Import Reals.
From Verif Require Import MtModel OptModel.
Open Scope R_scope.

(* gonum's GradientDescent: a step along the negative gradient, its length chosen by a line search (argument) *)
Fixpoint gd_run (search : nat -> R) (grad : (nat -> R) -> nat -> R) (x0 : nat -> R) (k : nat) : nat -> R :=
  match k with
  | O => x0
  | S k' => let x := gd_run search grad x0 k' in fun j => x j - search k' * grad x j
  end.
(* optimizers.go:345-347 Run: a new GradientDescent; no field of the optimizer is looked at *)
Definition method_run (P : opar) (search : nat -> R) (grad : (nat -> R) -> nat -> R) (x0 : nat -> R) (k : nat) : nat -> R :=
  gd_run search grad x0 k.
