(* Model of /repo/preprocessing/itertools.go and of PolynomialFeatures
   (/repo/preprocessing/data.go:541-651). *)
From Coq Require Import QArith.
From Verif Require Import Common.
Open Scope nat_scope.

(* itertools.go:3-9 *)
Definition intrange (n : nat) : list nat := seq 0 n.

(* itertools.go:66-70 and 34-39: scan i = r-1 .. 0 for the first index whose
   value is not [maxval i]; None is i < 0. *)
Fixpoint scan_down (i : nat) (maxval : nat -> nat) (a : list nat) : option nat :=
  match i with
  | 0 => None
  | S i' => if Nat.eqb (nth i' a 0) (maxval i') then scan_down i' maxval a else Some i'
  end.

(* itertools.go:64-79: one step of combinationsWithReplacement *)
Definition cwr_next (n : nat) (a : list nat) : option (list nat) :=
  let r := length a in
  match scan_down r (fun _ => n - 1) a with
  | None => None
  | Some i => Some (firstn i a ++ repeat (nth i a 0 + 1) (r - i))
  end.

(* itertools.go:30-47: one step of combinations *)
Definition comb_next (n : nat) (a : list nat) : option (list nat) :=
  let r := length a in
  match scan_down r (fun i => i + n - r) a with
  | None => None
  | Some i => Some (firstn i a ++ seq (nth i a 0 + 1) (r - i))
  end.

(* the "for" loop sending on the channel; None: out of fuel.  The consumer
   (data.go:575) receives the sent slices in this order; the pool is
   intrange(n), so pool[i] = i. *)
Fixpoint run_gen (fuel : nat) (next : list nat -> option (list nat)) (a : list nat)
  : option (list (list nat)) :=
  match fuel with
  | 0 => None
  | S fuel' =>
    match next a with
    | None => Some [a]
    | Some b => match run_gen fuel' next b with Some l => Some (a :: l) | None => None end
    end
  end.

(* itertools.go:54-83 *)
Definition combinations_with_replacement (fuel n r : nat) : option (list (list nat)) :=
  if (Nat.eqb n 0 && Nat.ltb 0 r)%bool then Some [] else run_gen fuel (cwr_next n) (repeat 0 r).

(* itertools.go:18-52 *)
Definition combinations (fuel n r : nat) : option (list (list nat)) :=
  if Nat.ltb n r then Some [] else run_gen fuel (comb_next n) (intrange r).

(* itertools.go:85-93 *)
Definition bincount (a : list nat) (minlength : nat) : list nat :=
  fold_left (fun ret ai => if Nat.ltb ai minlength then upd ret ai (nth ai ret 0 + 1) else ret)
    a (repeat 0 minlength).

(* data.go:574-578: degrees i = start .. Degree *)
Fixpoint poly_loop (cnt i fuel : nat) (interaction : bool) (n : nat) : option (list (list nat)) :=
  match cnt with
  | 0 => Some []
  | S cnt' =>
    match (if interaction then combinations fuel n i else combinations_with_replacement fuel n i),
          poly_loop cnt' (i + 1) fuel interaction n with
    | Some cs, Some rest => Some (map (fun c => bincount c n) cs ++ rest)
    | _, _ => None
    end
  end.

(* data.go:562-580 (a negative Degree runs the loop zero times, like cnt = 0) *)
Definition poly_fit (fuel : nat) (degree : Z) (interaction bias : bool) (n : nat) : option (list (list nat)) :=
  let start := if bias then 0 else 1 in
  poly_loop (Z.to_nat (degree + 1 - Z.of_nat start)) start fuel interaction n.

(* data.go:587-595 for one row, exact arithmetic; math.Pow(x, p) for p >= 0 *)
Definition poly_value (x : list Q) (p : list nat) : Q :=
  fold_left (fun v jp => (v * Qpower (nth (fst jp) x 0%Q) (Z.of_nat (snd jp)))%Q)
    (combine (seq 0 (length p)) p) 1%Q.
Definition poly_transform_row (powers : list (list nat)) (x : list Q) : list Q := map (poly_value x) powers.

(* data.go:615-621 *)
Definition intsum (a : list nat) : nat := fold_left Nat.add a 0.
(* data.go:622-630 *)
Definition intmaxidx (a : list nat) : nat :=
  fold_left (fun i jv => if Nat.ltb (nth i a 0) (snd jv) then fst jv else i) (combine (seq 0 (length a)) a) 0.

(* data.go:631-641: the pairs (jorig, jpoly) and XoutCols *)
Definition poly_pairs (powers : list (list nat)) : list (nat * nat) :=
  flat_map (fun ip => if Nat.eqb (intsum (snd ip)) 1 then [(intmaxidx (snd ip), fst ip)] else [])
    (combine (seq 0 (length powers)) powers).
Definition poly_outcols (powers : list (list nat)) : nat :=
  fold_left (fun m pr => if Nat.leb m (fst pr) then fst pr + 1 else m) (poly_pairs powers) 0.

(* data.go:606-651 for one row; None: NewDense with no columns or an index out
   of range *)
Definition poly_inverse_row (powers : list (list nat)) (xr : list Q) : option (list Q) :=
  let cols := poly_outcols powers in
  if Nat.eqb cols 0 then None
  else
    fold_left (fun acc pr =>
      match acc with
      | None => None
      | Some out =>
        match nth_error xr (snd pr) with
        | Some v => if Nat.ltb (fst pr) (length out) then Some (upd out (fst pr) v) else None
        | None => None
        end
      end) (poly_pairs powers) (Some (repeat 0%Q cols)).
