(* Model of /repo/interpolate: interpolate.go and cubic.go.  Abscissae are rationals,
   ordinates are rationals or NaN (None). *)
From Verif Require Import QCommon.
Set Implicit Arguments.
Open Scope Q_scope.

Notation pt := (Q * option Q)%type.
Definition xget (l : list pt) (i : nat) : Q := fst (nth i l (0, None)).
Definition yget (l : list pt) (i : nat) : option Q := snd (nth i l (0, None)).
(* sort.Float64sAreSorted *)
Fixpoint sortedb (xs : list Q) : bool :=
  match xs with
  | a :: ((b :: _) as r) => negb (Qltb b a) && sortedb r
  | _ => true
  end.
(* interpolate.go:35-43.  [srt] is sort.Sort on xy: which permutation it makes is left open.
   x and y have the same length (31-33), they are one list here *)
Definition prep (srt : list pt -> list pt) (l : list pt) : list pt := if sortedb (map fst l) then l else srt l.
(* interpolate.go:19-26; NaN ordinates make NaN *)
Definition interp2 (p q : pt) (x : Q) : option Q :=
  match snd p, snd q with
  | Some y0, Some y1 =>
      if Qeq_bool (fst q) (fst p) then Some ((y0 + y1) / 2)
      else Some (y0 + (x - fst p) / (fst q - fst p) * (y1 - y0))
  | _, _ => None
  end.
(* sort.SearchFloat64s on a sorted slice: the first index with xs[i] >= x *)
Fixpoint search (xs : list Q) (x : Q) : nat :=
  match xs with [] => O | a :: r => if Qle_bool x a then O else S (search r x) end.
(* interpolate.go:53-55 *)
Fixpoint skip_back (l : list pt) (ix : nat) : nat :=
  match ix with
  | O => O
  | S ix' => match yget l ix with None => skip_back l ix' | Some _ => ix end
  end.
(* interpolate.go:56-58 *)
Fixpoint skip_fwd (fuel : nat) (l : list pt) (ix1 : nat) : nat :=
  match fuel with
  | O => ix1
  | S fu => if Nat.ltb ix1 (length l - 1) then match yget l ix1 with None => skip_fwd fu l (S ix1) | Some _ => ix1 end else ix1
  end.
(* interpolate.go:44-61, on the sorted points *)
Definition eval1 (l : list pt) (x : Q) : option Q :=
  let ix := Nat.min (search (map fst l) x - 1) (length l - 2) in
  let ix0 := skip_back l ix in
  let ix1 := skip_fwd (length l) l (ix + 1) in
  interp2 (nth ix0 l (0, None)) (nth ix1 l (0, None)) x.
(* interpolate.go:30-62; outer None: panic *)
Definition interp1d (srt : list pt -> list pt) (l : list pt) : option (Q -> option Q) :=
  if Nat.ltb (length l) 2 then None else Some (eval1 (prep srt l)).

(* interpolate.go:35-43 again, with memory: the closure keeps the caller's slices when they
   are sorted, copies otherwise.  [mem] is what the caller's slices hold at the time of a call *)
Inductive held : Type := HAlias | HCopy (l : list pt).
Definition interp1d_mem (srt : list pt -> list pt) (l : list pt) : option held :=
  if Nat.ltb (length l) 2 then None else Some (if sortedb (map fst l) then HAlias else HCopy (srt l)).
Definition eval_mem (h : held) (mem : list pt) (x : Q) : option Q :=
  match h with HAlias => eval1 mem x | HCopy l => eval1 l x end.

(* ------------------------------------------------------------- Interp2d *)
Notation pt3 := (Q * (Q * Q))%type.
Definition X3 (l : list pt3) (i : nat) : Q := fst (nth i l (0, (0, 0))).
(* interpolate.go:86-93 *)
Definition step2d (l : list pt3) (x : Q) (st : nat * nat) (i : nat) : nat * nat :=
  let '(ix0, ix2) := st in
  let ix0 := if Qltb (X3 l ix0) (X3 l i) && Qle_bool (X3 l i) x && Qle_bool (X3 l i) (X3 l ix2) then i else ix0 in
  let k := (length l - 1 - i)%nat in
  let ix2 := if Qle_bool (X3 l k) (X3 l ix2) && Qle_bool x (X3 l k) && Qltb (X3 l ix0) (X3 l k) then k else ix2 in
  (ix0, ix2).
(* interpolate.go:94-101 *)
Fixpoint group_end (fuel : nat) (l : list pt3) (ix : nat) (v : Q) : nat :=
  match fuel with
  | O => ix
  | S fu => if Nat.ltb ix (length l) && Qeq_bool (X3 l ix) v then group_end fu l (S ix) v else ix
  end.
(* interpolate.go:102-105 *)
Fixpoint group_start (ix : nat) (l : list pt3) (v : Q) : nat :=
  match ix with
  | S (S i as ix') => if Qeq_bool (X3 l ix') v then group_start ix' l v else ix
  | _ => ix
  end.
Definition slice3 (l : list pt3) (a b : nat) : list pt :=
  map (fun p => (fst (snd p), Some (snd (snd p)))) (firstn (b - a) (skipn a l)).
(* interpolate.go:82-110, on the sorted points; outer None: panic *)
Definition eval2 (srt : list pt -> list pt) (l : list pt3) (x y : Q) : option (option Q) :=
  match l with
  | [] => None
  | _ =>
    let '(ix0, ix2) := fold_left (step2d l x) (seq 0 (length l)) (O, (length l - 1)%nat) in
    let ix1 := group_end (length l) l ix0 (X3 l ix0) in
    let ix3 := group_end (length l) l ix2 (X3 l ix2) in
    let ix2 := group_start ix2 l (X3 l ix2) in
    match interp1d srt (slice3 l ix0 ix1), interp1d srt (slice3 l ix2 ix3) with
    | Some flow, Some fhi =>
        match interp1d srt [(X3 l ix0, flow y); (X3 l ix2, fhi y)] with
        | Some f => Some (f x)
        | None => None
        end
    | _, _ => None
    end
  end.
(* interpolate.go:67 Less *)
Definition le3 (p q : pt3) : Prop := fst p < fst q \/ (fst p == fst q /\ fst (snd p) <= fst (snd q)).
(* interpolate.go:75-81; [srt3] is sort.Sort on xyz *)
Definition interp2d (srt3 : list pt3 -> list pt3) (srt : list pt -> list pt) (l : list pt3) : Q -> Q -> option (option Q) :=
  eval2 srt (srt3 l).

(* ---------------------------------------------------------- CubicSpline *)
Definition qget (l : list Q) (i : nat) : Q := nth i l 0.
(* cubic.go:13-36: row i of the symmetric band matrix A (entries i-1, i, i+1) and of Bd *)
Definition cs_row (xs ys : list Q) (i : nat) : Q * Q * Q * Q :=
  let n := (length xs - 1)%nat in
  let h k := qget xs (S k) - qget xs k in
  let d k := qget ys (S k) - qget ys k in
  if Nat.eqb i 0 then (0, 2 / h 0%nat, 1 / h 0%nat, 3 * d 0%nat / (h 0%nat * h 0%nat))
  else if Nat.eqb i n then (1 / h (n - 1)%nat, 2 / h (n - 1)%nat, 0, 3 * d (n - 1)%nat / (h (n - 1)%nat * h (n - 1)%nat))
  else (1 / h (i - 1)%nat, 2 * (1 / h (i - 1)%nat + 1 / h i), 1 / h i,
        3 * (d (i - 1)%nat / (h (i - 1)%nat * h (i - 1)%nat) + d i / (h i * h i))).
(* cubic.go:38-49: what Cholesky or SolveVec returns when it succeeds *)
Definition cs_solution (xs ys ks : list Q) : Prop :=
  length ks = length xs /\ forall i, (i < length xs)%nat ->
  let '(a, b, c, r) := cs_row xs ys i in a * qget ks (i - 1) + b * qget ks i + c * qget ks (S i) == r.
(* cubic.go:67-70 *)
Fixpoint cs_find (fuel : nat) (xs : list Q) (i : nat) (x : Q) : nat :=
  match fuel with
  | O => i
  | S fu => if Nat.ltb i (length xs - 1) && Qltb (qget xs i) x then cs_find fu xs (S i) x else i
  end.
(* cubic.go:71-74, the piece between knots i-1 and i *)
Definition cs_piece (xs ys ks : list Q) (i : nat) (x : Q) : Q :=
  let x0 := qget xs (i - 1) in let x1 := qget xs i in
  let y0 := qget ys (i - 1) in let y1 := qget ys i in
  let t := (x - x0) / (x1 - x0) in
  let a := qget ks (i - 1) * (x1 - x0) - (y1 - y0) in
  let b := - qget ks i * (x1 - x0) + (y1 - y0) in
  (1 - t) * y0 + t * y1 + t * (1 - t) * (a * (1 - t) + b * t).
(* cubic.go:66-76 on the sorted knots *)
Definition cs_eval (xs ys ks : list Q) (x : Q) : Q := cs_piece xs ys ks (cs_find (length xs) xs 1 x) x.
