(* Model of /repo/base/matrix.go: the views MatTranspose, MatRowSlice,
   MatOnesPrepended, MatConst, and the blas64.General slices. *)
From Verif Require Import QCommon.
Open Scope Z_scope.

(* a mutable matrix given by its rows; At and Set panic (None) out of range *)
Definition store : Type := list (list Q).
Definition inb (i : Z) (n : nat) : bool := (Z.leb 0 i && Z.ltb i (Z.of_nat n))%bool.
Definition st_at (m : store) (i j : Z) : option Q :=
  if inb i (length m) then
    let row := nth (Z.to_nat i) m [] in
    if inb j (length row) then Some (nth (Z.to_nat j) row 0%Q) else None
  else None.
Definition st_set (m : store) (i j : Z) (v : Q) : option store :=
  if inb i (length m) then
    let row := nth (Z.to_nat i) m [] in
    if inb j (length row) then Some (upd m (Z.to_nat i) (upd row (Z.to_nat j) v)) else None
  else None.

(* a view is a wrapper around a wrapper ... around a matrix *)
Inductive mview : Type :=
| VBase
| VT (v : mview)                    (* matrix.go:28 MatTranspose *)
| VRow (v : mview) (s e : Z)        (* matrix.go:54-57 MatRowSlice *)
| VOnes (v : mview).                (* matrix.go:51 MatOnesPrepended: every method is the promoted one *)
(* matrix.go:31, 60; [c] is the number of columns of the matrix *)
Fixpoint vdims (v : mview) (d : Z * Z) : Z * Z :=
  match v with
  | VBase => d
  | VT v => let '(r, c) := vdims v d in (c, r)
  | VRow v s e => let '(r, c) := vdims v d in (e - s, c)
  | VOnes v => vdims v d
  end.
(* matrix.go:34-36, 63-68 *)
Fixpoint vat (v : mview) (m : store) (i j : Z) : option Q :=
  match v with
  | VBase => st_at m i j
  | VT v => vat v m j i
  | VRow v s e => if (Z.ltb i 0 || Z.ltb (e - s) i)%bool then None else vat v m (i + s) j
  | VOnes v => vat v m i j
  end.
(* matrix.go:39-45, 71-77 *)
Fixpoint vset (v : mview) (m : store) (i j : Z) (x : Q) : option store :=
  match v with
  | VBase => st_set m i j x
  | VT v => vset v m j i x
  | VRow v s e => vset v m (i - s) j x
  | VOnes v => vset v m i j x
  end.
(* views without a row slice that starts after row 0 *)
Fixpoint start0 (v : mview) : Prop :=
  match v with
  | VBase => True
  | VT v => start0 v
  | VRow v s e => s = 0 /\ start0 v
  | VOnes v => start0 v
  end.

(* row slices stay within the rows of what they slice *)
Fixpoint slices_in (v : mview) (d : Z * Z) : Prop :=
  match v with
  | VBase => True
  | VT v => slices_in v d
  | VRow v s e => 0 <= s <= e /\ e <= fst (vdims v d) /\ slices_in v d
  | VOnes v => slices_in v d
  end.

(* ------------------------------------------------------- blas64.General *)
Open Scope nat_scope.
(* Data is a slice of a backing array: first cell, length, capacity *)
Record gen : Type := mkgen { gr : nat; gc : nat; gs : nat; goff : nat; glen : nat; gcap : nat }.
(* Data[a:b]; panics when a > b or b > cap *)
Definition reslice (M : gen) (r c a b : nat) : option gen :=
  if (Nat.leb a b && Nat.leb b (gcap M))%bool then Some (mkgen r c (gs M) (goff M + a) (b - a) (gcap M - a)) else None.
(* matrix.go:143-153.  l < j gives a negative Cols, left out by the theorems *)
Definition gslice (M : gen) (i k j l : nat) : option gen :=
  if Nat.leb k i then None else reslice M (k - i) (l - j) (i * gs M + j) ((k - 1) * gs M + l).
(* matrix.go:172-182 *)
Definition growslice (M : gen) (i k : nat) : option gen :=
  if Nat.leb k i then None else reslice M (k - i) (gc M) (i * gs M) (k * gs M).
(* matrix.go:185-195 *)
Definition gcolslice (M : gen) (j l : nat) : option gen :=
  if Nat.leb l j then None else reslice M (gr M) (l - j) j (l + (gr M - 1) * gs M).
(* the position in the backing array of cell (i, j), None: Data[...] panics *)
Definition gcell (M : gen) (i j : nat) : option nat :=
  if Nat.ltb (i * gs M + j) (glen M) then Some (goff M + i * gs M + j) else None.
(* what SetRawMatrix and the blas routines require *)
Definition gen_wf (M : gen) : Prop :=
  0 < gr M /\ 0 < gc M /\ gc M <= gs M /\ (gr M - 1) * gs M + gc M <= glen M /\ glen M <= gcap M.
(* mat.NewDense(r, c, nil) *)
Definition gnew (r c : nat) : gen := mkgen r c c 0 (r * c) (r * c).
