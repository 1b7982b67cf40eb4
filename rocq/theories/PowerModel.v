(* preprocessing/data.go:1221-1369, 1403-1524: PowerTransformer, over the real numbers; None is NaN.
   The parameters lambda (chosen by the Brent minimizer) and the mean and scale of the inner StandardScaler are arguments. *)
From Coq Require Import Reals List.
From Verif Require Import MtModel.
Import ListNotations.
Open Scope R_scope.

(* math.Pow on the bases the code can meet; None for those where Pow of a negative base to a non-integer power is NaN
   (a power of 0 with exponent <= 0 is 1 or Inf in Go: None here) *)
Definition gpow (b e : R) : option R := if rltb 0 b then Some (Rpower b e) else if reqb b 0 then (if rltb 0 e then Some 0 else None) else None.
(* division; only 0/0 can occur with divisor 0 below *)
Definition gdiv (a b : R) : option R := if reqb b 0 then None else Some (a / b).
Definition bind {A B} (o : option A) (f : A -> option B) : option B := match o with Some a => f a | None => None end.

(* data.go:1405, 1440: math.Nextafter(1, 1) - 1 *)
Definition spacing : R := 1 - 1.
(* data.go:1403-1436 yeoJohnsonTransform on one value *)
Definition yj (l x : R) : option R :=
  if rltb x 0 then
    (if rltb spacing (Rabs (l - 2)) then bind (gpow (- x + 1) (2 - l)) (fun p => gdiv (- (p - 1)) (2 - l)) else Some (- ln (1 - x)))
  else
    (if rltb (Rabs l) spacing then Some (ln (1 + x)) else bind (gpow (x + 1) l) (fun p => gdiv (p - 1) l)).
(* data.go:1438-1475 yeoJohnsonInverseTransform *)
Definition yj_inv (l x : R) : option R :=
  if rltb x 0 then
    (if rltb spacing (Rabs (l - 2)) then bind (gpow (- (2 - l) * x + 1) (1 / (2 - l))) (fun p => Some (1 - p)) else Some (1 - exp (- x)))
  else
    (if rltb (Rabs l) spacing then Some (exp x - 1) else bind (gpow (x * l + 1) (1 / l)) (fun p => Some (p - 1))).
(* data.go:1499-1511, 1512-1524 boxCoxTransform, boxCoxInverseTransform; the guard of both is on the value given *)
Definition bc_guard (l x : R) : bool := (rltb 0 x || (negb (rltb x 0) && rltb 0 l))%bool.
Definition bc (l x : R) : option R :=
  if bc_guard l x then (if reqb l 0 then (if rltb 0 x then Some (ln x) else None) else bind (gpow x l) (fun p => gdiv (p - 1) l)) else None.
Definition bc_inv (l x : R) : option R :=
  if bc_guard l x then (if reqb l 0 then Some (exp x) else gpow (x * l + 1) (1 / l)) else None.

Inductive pmethod : Type := YeoJohnson | BoxCox.
Definition ptf (m : pmethod) := match m with YeoJohnson => yj | BoxCox => bc end.
Definition ptinv (m : pmethod) := match m with YeoJohnson => yj_inv | BoxCox => bc_inv end.
(* the inner StandardScaler (Standardize true), data.go:185-235: its mean and scale per column *)
Definition std (sc : option (R * R)) (x : option R) : option R := match sc with Some (mu, s) => bind x (fun v => Some ((v - mu) / s)) | None => x end.
Definition unstd (sc : option (R * R)) (x : R) : R := match sc with Some (mu, s) => mu + x * s | None => x end.

(* data.go:1290-1317 Transform on a *mat.Dense, a list of columns: Xout is the caller's matrix until the scaler makes a new
   one; returns the caller's matrix afterwards and the result *)
Definition pt_transform (m : pmethod) (par : list (R * option (R * R))) (X : list (list R)) : list (list (option R)) * list (list (option R)) :=
  let X1 := map (fun pc => map (ptf m (fst (fst pc))) (snd pc)) (combine par X) in
  (X1, map (fun pc => map (std (snd (fst pc))) (snd pc)) (combine par X1)).
(* data.go:1341-1369 InverseTransform, which makes new matrices *)
Definition pt_inverse (m : pmethod) (par : list (R * option (R * R))) (X : list (list R)) : list (list (option R)) :=
  map (fun pc => map (fun x => ptinv m (fst (fst pc)) (unstd (snd (fst pc)) x)) (snd pc)) (combine par X).
