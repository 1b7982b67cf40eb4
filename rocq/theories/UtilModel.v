(* Helpers on matrices and tensors: gaussian_process/kernels/matutil.go and base/matrix.go *)
From Coq Require Import ZArith List Bool Arith String.
From Flocq Require Import IEEE754.BinarySingleNaN.
From Verif Require Import FloatModel.
Import ListNotations.

(* the cells of a tensor of shape (s0, s1, s2) in the order of the loops of Diff3D *)
Definition cells3 (s0 s1 s2 : nat) : list (nat * nat * nat) :=
  flat_map (fun i => flat_map (fun j => map (fun k => (i, j, k)) (seq 0 s2)) (seq 0 s1)) (seq 0 s0).
(* matutil.go:79-112 Diff3D: the shape is that of a; the error is modelled by the cell it names; b must have the cells of a (otherwise At
   fails and Diff3D panics) *)
Definition cell_diff (a b : nat * nat * nat -> f64) (c : nat * nat * nat) : f64 := fabs (fsub (a c) (b c)).
Definition diff_step (a b : nat * nat * nat -> f64) (tol : f64) (st : (nat * nat * nat) * f64) (c : nat * nat * nat) : (nat * nat * nat) * f64 :=
  let d := cell_diff a b c in if flt tol d && flt (snd st) d then (c, d) else st.
Definition diff3d (s0 s1 s2 : nat) (a b : nat * nat * nat -> f64) (tol : f64) : option (nat * nat * nat) :=
  let '(c, m) := fold_left (diff_step a b tol) (cells3 s0 s1 s2) ((0, 0, 0), f0) in if flt tol m then Some c else None.

(* Memory is a function of addresses: matrices are views of it (base, stride), which may overlap *)
Section Mem.
  Context {A : Type}.
  Definition upd (m : nat -> A) (p : nat) (v : A) : nat -> A := fun q => if q =? p then v else m q.
  Definition pos (base stride : nat) (c : nat * nat) : nat := base + fst c * stride + snd c.
  (* the cells of the upper triangle, and all cells, by rows *)
  Definition upper (n : nat) : list (nat * nat) := flat_map (fun i => map (fun j => (i, j)) (seq i (n - i))) (seq 0 n).
  Definition grid (r c : nat) : list (nat * nat) := flat_map (fun i => map (fun j => (i, j)) (seq 0 c)) (seq 0 r).
  (* matutil.go:60-67 mulElemSym and 69-76 applySym *)
  Definition mul_elem_sym (mul : A -> A -> A) (n : nat) (pd pa pb : nat * nat -> nat) (m : nat -> A) : nat -> A :=
    fold_left (fun m c => upd m (pd c) (mul (m (pa c)) (m (pb c)))) (upper n) m.
  Definition apply_sym (f : nat -> nat -> A -> A) (n : nat) (pd pa : nat * nat -> nat) (m : nat -> A) : nat -> A :=
    fold_left (fun m c => upd m (pd c) (f (fst c) (snd c) (m (pa c)))) (upper n) m.
  (* matutil.go:51-58 matCopy; ps gives the address that src.At(i, j) reads *)
  Definition mat_copy (r c : nat) (pd ps : nat * nat -> nat) (m : nat -> A) : nat -> A :=
    fold_left (fun m x => upd m (pd x) (m (ps x))) (grid r c) m.
  (* At of a gonum SymDense with its upper triangle at the addresses p *)
  Definition sym_at (p : nat * nat -> nat) (m : nat -> A) (i j : nat) : A := m (p (Nat.min i j, Nat.max i j)).
End Mem.

(* base/matrix.go:92-109 MatDimsCheck: true if it does not panic; the matrices are given by their dimensions *)
Definition dims_check (op : string) (R X Y : nat * nat) : bool :=
  if existsb (String.eqb op) ["+"; "-"; "*"; "/"]%string
  then (fst X =? fst Y) && (snd X =? snd Y) && (fst R =? fst X) && (snd R =? snd X)
  else if String.eqb op "." then (snd X =? fst Y) && (fst R =? fst X) && (snd R =? snd Y)
  else true.
