(* Normalizer with its three norms, over the reals (the Euclidean norm takes a square root). *)
From Coq Require Import Reals String List ZArith.
Import ListNotations.
Open Scope R_scope.

Definition rsum (l : list R) : R := fold_right Rplus 0 l.
(* mat.Norm of a vector for 1, 2 and +Inf *)
Inductive vnorm : Type := N1 | N2 | NInf.
Definition norm_of (k : vnorm) (v : list R) : R :=
  match k with
  | N1 => rsum (map Rabs v)
  | N2 => sqrt (rsum (map (fun x => x * x) v))
  | NInf => fold_right (fun x m => Rmax (Rabs x) m) 0 v
  end.
(* preprocessing/data.go:1020-1026: the norm chosen by the string *)
Definition norm_kind (s : string) : vnorm := if String.eqb s "l1" then N1 else if String.eqb s "max" then NInf else N2.
(* data.go:1032-1036 and 1044-1048: one vector, divided by its norm unless that is zero *)
Definition scale_vec (k : vnorm) (v : list R) : list R :=
  if Req_EM_T (norm_of k v) 0 then v else map (Rmult (1 / norm_of k v)) v.
Definition column (X : list (list R)) (j : nat) : list R := map (fun r => nth j r 0) X.
(* data.go:1015-1054 on a matrix given by its rows, c columns.  Axis 0 reads and writes columns; any other Axis reads rows
   into a vector of c cells and wraps it as NewVecDense(NSamples, tmp), which panics (None) unless the lengths agree.
   mat.NewDense's allocation and base.ToDense are taken as documented; rounding is left out. *)
Definition norm_transform (norm : string) (axis : Z) (c : nat) (X : list (list R)) : option (list (list R)) :=
  if Z.eqb axis 0 then
    let cols := map (fun j => scale_vec (norm_kind norm) (column X j)) (seq 0 c) in
    Some (map (fun i => map (fun j => nth i (nth j cols []) 0) (seq 0 c)) (seq 0 (length X)))
  else match X with
       | [] => Some []
       | _ => if Nat.eqb c (length X) then Some (map (scale_vec (norm_kind norm)) X) else None
       end.
