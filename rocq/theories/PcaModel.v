(* preprocessing/pca.go over the real numbers.  The singular value decomposition of gonum is an argument: for a matrix with at
   least as many rows as columns it returns U, the singular values s and the square matrix V.  None is a panic. *)
From Coq Require Import Reals List Arith.
From Verif Require Import MtModel.
Import ListNotations.
Open Scope R_scope.

(* pca.go:38-42: the loop that adds ratios until the threshold is reached; fuel is the number of ratios left *)
Fixpoint ncomp (f : nat -> R) (thres acc : R) (k fuel : nat) : nat :=
  match fuel with O => k | S fu => if rltb acc thres then ncomp f thres (acc + f k) (S k) fu else k end.
(* the exported fields of a fitted PCA and the matrix V of the embedded SVD *)
Record pca : Type := mkpca { p_min : R; p_ncomp : nat; p_c : nat; p_V : rmtx; p_s : nat -> R; p_ratio : nat -> R }.
(* pca.go:27-52 Fit of a matrix with r rows and c columns: SVD.Values wants a slice of length min(r, c) and gets one of length c.
   A zero matrix (all ratios NaN) is not modelled. *)
Definition pca_fit (m : pca) (r c : nat) (V : rmtx) (s : nat -> R) : option pca :=
  if (r <? c)%nat then None else
  let ratio := fun j => / rs c (fun k => s k * s k) * (s j * s j) in
  let k := if rltb 0 (p_min m) then ncomp ratio (p_min m) 0 0 c else if Nat.eqb (p_ncomp m) 0 then c else p_ncomp m in
  Some (mkpca (p_min m) k c V s ratio).
(* pca.go:55-66 Transform: the slice of V panics when it has not enough columns, the product when X has other columns *)
Definition pca_transform (m : pca) (cols : nat) (X : rmtx) : option rmtx :=
  if (p_c m <? p_ncomp m)%nat then None else if Nat.eqb cols (p_c m) then Some (fun i j => rs (p_c m) (fun k => X i k * p_V m k j)) else None.
(* pca.go:75-88 InverseTransform: the product of X with the transpose of the whole of V *)
Definition pca_inverse (m : pca) (cols : nat) (X : rmtx) : option rmtx :=
  if Nat.eqb cols (p_c m) then Some (fun i j => rs (p_c m) (fun k => X i k * p_V m j k)) else None.
