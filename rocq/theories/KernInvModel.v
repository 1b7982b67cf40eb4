(* gaussian_process/kernels/kernels.go: IsStationary of the kernels of KernModel. *)
From Coq Require Import Reals List Bool.
From Verif Require Import KernModel.
Import ListNotations.

(* kernels.go:83-87 (Constant, White and RBF embed StationaryKernelMixin: 331, 416, 511), 154-156, 714; Exponentiation has the method of
   the kernel it embeds (277-280) *)
Fixpoint stationary {A} (k : kern A) : bool :=
  match k with
  | KConst _ _ | KWhite _ _ | KRBF _ _ => true
  | KDot _ _ => false
  | KSum k1 k2 | KProd k1 k2 => stationary k1 && stationary k2
  | KExp k _ => stationary k
  end.
