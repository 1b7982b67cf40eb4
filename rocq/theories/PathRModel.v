(* linear_model/coordinatedescent.go: alphaGrid; linear_model/Base.go: RMSE of LinFitGOM; over the real numbers *)
From Coq Require Import Reals List Arith.
From Verif Require Import MtModel LossModel.
Open Scope R_scope.

(* coordinatedescent.go:128-134: value i of n, from alphaMax; p grows by incp in every iteration *)
Definition log10 (x : R) : R := ln x / ln 10.
Fixpoint grid_p (minp incp : R) (i : nat) : R := match i with O => minp | S i' => grid_p minp incp i' + incp end.
Definition alpha_grid (amax eps : R) (n i : nat) : R :=
  let minp := log10 (amax * eps) in let maxp := log10 amax in
  Rpower 10 (grid_p minp ((maxp - minp) / INR (n - 1)) i).
(* Base.go:525, 529, 556: RMSE from the values F the optimizer ends with for each output *)
Definition gom_rmse (q : nat) (F : nat -> R) : R := sqrt (rs q F) / INR q.
(* Base.go:498: the function minimised for output o, SquareLoss (loss.go:35-66) on column o, identity activation *)
Definition gom_F (n p : nat) (X Y : rmtx) (alpha l1 : R) (skip : bool) (o : nat) (c : nat -> R) : R :=
  sq_J n p 1 X (fun i _ => Y i o) AIdentity alpha l1 skip (fun j _ => c j).
