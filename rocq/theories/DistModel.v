(* Model of /repo/neighbors/distance.go over the real numbers.  math.Pow(t, p)
   for t >= 0 and finite p > 0 is [rpow]; math.Sqrt is [sqrt].  Vectors are
   contiguous lists (the RawVectorer branch and the AtVec branch then do the
   same); the two arguments have the same length. *)
From Coq Require Export Reals Lra Lia List.
From Verif Require Import QCommon.
Export ListNotations.
Open Scope R_scope.

Definition rpow (t p : R) : R := if Req_EM_T t 0 then 0 else Rpower t p.
Definition rsum (l : list R) : R := fold_left Rplus l 0.
Definition rmaxl (l : list R) : R := fold_left Rmax l 0.

(* an exponent: a finite one or +Inf *)
Inductive pexp : Type := Pfin (p : R) | Pinf.

(* distance.go:13-43 *)
Definition minkowski_p (p : pexp) (a b : list R) : R :=
  match a, b with
  | [x], y :: _ => Rabs (y - x)
  | _, _ =>
    match p with
    | Pinf => rmaxl (zip (fun x y => Rabs (y - x)) a b)
    | Pfin p => rsum (zip (fun x y => rpow (Rabs (y - x)) p) a b)
    end
  end.
(* distance.go:46-56 *)
Definition minkowski (p : pexp) (a b : list R) : R :=
  let d := minkowski_p p a b in
  match p with
  | Pinf => d
  | Pfin p => if Req_EM_T p 1 then d else rpow d (1 / p)
  end.
(* distance.go:59-82 *)
Definition euclidean (a b : list R) : R :=
  match a, b with
  | [x], y :: _ => Rabs (y - x)
  | _, _ => sqrt (rsum (zip (fun x y => (y - x) * (y - x)) a b))
  end.
