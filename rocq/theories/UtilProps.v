(* Properties C254-C257: Diff3D, the operations on symmetric matrices, matCopy and MatDimsCheck *)
From Coq Require Import Reals ZArith List Bool Arith String Lia Lra.
From Flocq Require Import Core.Core IEEE754.BinarySingleNaN.
From Verif Require Import FloatModel FloatProofs UtilModel UtilProofs.
Import ListNotations.
Local Open Scope nat_scope.

(* C254: for a tolerance that is finite and >= 0, Diff3D returns no error exactly if no cell differs by more, and otherwise names a cell of
   the tensors whose difference exceeds the tolerance and that no other difference exceeds *)
Theorem C254_diff_partial : forall s0 s1 s2 a b tol, is_finite tol = true -> (0 <= B2R tol)%R ->
  match diff3d s0 s1 s2 a b tol with
  | None => forall i j k, i < s0 -> j < s1 -> k < s2 -> flt tol (fabs (fsub (a (i, j, k)) (b (i, j, k)))) = false
  | Some (i, j, k) => i < s0 /\ j < s1 /\ k < s2 /\ flt tol (fabs (fsub (a (i, j, k)) (b (i, j, k)))) = true /\
      forall i' j' k', i' < s0 -> j' < s1 -> k' < s2 -> flt (fabs (fsub (a (i, j, k)) (b (i, j, k)))) (fabs (fsub (a (i', j', k')) (b (i', j', k')))) = false
  end.
Proof.
  intros s0 s1 s2 a b tol F P. assert (T0 : flt tol f0 = false). { destruct (flt tol f0) eqn:E; [|reflexivity]. apply flt_val in E; [|exact F|reflexivity]. change (B2R f0) with 0%R in E. lra. }
  assert (Pos : forall d, flt tol d = true -> flt f0 d = true).
  { intros d E. destruct (is_finite d) eqn:Fd; [apply flt_val; [reflexivity|exact Fd|]; apply flt_val in E; [|exact F|exact Fd]; change (B2R f0) with 0%R; lra|]. destruct d as [s|[]| |s m e Q]; try discriminate Fd; try reflexivity; destruct tol as [s|s| |s m e Q]; try discriminate F; try (destruct s; discriminate E); discriminate E. }
  assert (I0 : flt tol (snd ((0, 0, 0), f0)) = true -> snd ((0, 0, 0), f0) = cell_diff a b (fst ((0, 0, 0), f0))) by (cbn [snd fst]; congruence).
  destruct (diff_inv a b tol (cells3 s0 s1 s2) ((0, 0, 0), f0) I0 (fun _ => eq_refl)) as (A & B & _ & _ & E). unfold diff3d. destruct (fold_left (diff_step a b tol) (cells3 s0 s1 s2) (0, 0, 0, f0)) as [[[i j] k] m] eqn:R. cbn [fst snd] in A, B, E.
  destruct (flt tol m) eqn:M.
  - destruct (A eq_refl) as [V W]. assert (IN : In (i, j, k) (cells3 s0 s1 s2)).
    { destruct W as [W|W]; [|exact W]. destruct (existsb (fun c => flt tol (cell_diff a b c)) (cells3 s0 s1 s2)) eqn:X.
      - (* the first cell over the tolerance was written *)
        clear E. revert R W. assert (G : forall l st, In (fst st) (cells3 s0 s1 s2) \/ snd st = f0 -> (forall c, In c l -> In c (cells3 s0 s1 s2)) -> In (fst (fold_left (diff_step a b tol) l st)) (cells3 s0 s1 s2) \/ snd (fold_left (diff_step a b tol) l st) = f0).
        { induction l as [|c l IH]; intros st H S; [exact H|]. cbn [fold_left]. apply IH; [|intros d J; apply S; now right]. unfold diff_step. destruct (_ && _); [left; apply S; now left|exact H]. }
        intros R W. destruct (G (cells3 s0 s1 s2) ((0, 0, 0), f0) (or_intror eq_refl) (fun c J => J)) as [H|H]; rewrite R in H; [exact H|]. cbn [snd] in H. congruence.
      - exfalso. assert (Y : forall l st, existsb (fun c => flt tol (cell_diff a b c)) l = false -> fold_left (diff_step a b tol) l st = st).
        { induction l as [|c l IH]; intros st H; [reflexivity|]. cbn [existsb] in H. apply orb_false_iff in H as [H1 H2]. cbn [fold_left]. rewrite IH by exact H2. unfold diff_step. now rewrite H1. }
        rewrite (Y _ _ X) in R. injection R as _ _ _ R. congruence. }
    apply cells3_In in IN as (L1 & L2 & L3). change (fabs (fsub (a (i, j, k)) (b (i, j, k)))) with (cell_diff a b (i, j, k)). rewrite <- V. split; [exact L1|]. split; [exact L2|]. split; [exact L3|]. split; [exact M|]. intros i' j' k' H1 H2 H3.
    change (fabs (fsub (a (i', j', k')) (b (i', j', k')))) with (cell_diff a b (i', j', k')). destruct (flt m (cell_diff a b (i', j', k'))) eqn:X; [|reflexivity]. pose proof (flt_trans _ _ _ M X) as Y.
    destruct (E T0 (i', j', k')) as [_ Z]; [apply cells3_In; auto|exact Y|now apply Pos|]. congruence.
  - intros i' j' k' H1 H2 H3. change (fabs (fsub (a (i', j', k')) (b (i', j', k')))) with (cell_diff a b (i', j', k')). destruct (flt tol (cell_diff a b (i', j', k'))) eqn:X; [|reflexivity].
    destruct (E T0 (i', j', k')) as [Z _]; [apply cells3_In; auto|exact X|now apply Pos|congruence].
Qed.
Print Assumptions C254_diff_partial.
(* a tensor of NaN differs from nothing *)
Theorem C254_nan_refuted : forall s0 s1 s2 a b tol, is_finite tol = true -> (0 <= B2R tol)%R -> (forall c, a c = B754_nan) -> diff3d s0 s1 s2 a b tol = None.
Proof.
  intros s0 s1 s2 a b tol F P N. pose proof (C254_diff_partial s0 s1 s2 a b tol F P) as H. destruct (diff3d s0 s1 s2 a b tol) as [[[i j] k]|]; [|reflexivity]. destruct H as (_ & _ & _ & H & _). rewrite N in H. destruct (b (i, j, k)); destruct tol as [[]|[]| |[]]; discriminate H.
Qed.
Print Assumptions C254_nan_refuted.
Example C254_example : let a '(i, j, k) := fint (Z.of_nat (i + 2 * j + 4 * k)) in
  diff3d 2 2 2 a a f0 = None /\ diff3d 2 2 2 a (fun _ => fint 3) f1 = Some (1, 1, 1) /\ diff3d 2 2 2 a (fun _ => fint 3) (fint 4) = None.
Proof. vm_compute. repeat split. Qed.

(* C255: when each source is the destination itself or shares no address with it, mulElemSym leaves the products of the elements and
   applySym the images of the elements (the function gets the indices of the upper triangle); nothing outside the upper triangle of the
   destination changes *)
Theorem C255_mul_partial : forall A (mul : A -> A -> A) n bd sd ba sa bb sb m, n <= sd -> apart (upper n) (pos bd sd) (pos ba sa) -> apart (upper n) (pos bd sd) (pos bb sb) ->
  let m' := mul_elem_sym mul n (pos bd sd) (pos ba sa) (pos bb sb) m in
  (forall i j, i < n -> j < n -> sym_at (pos bd sd) m' i j = mul (sym_at (pos ba sa) m i j) (sym_at (pos bb sb) m i j)) /\
  (forall q, (forall i j, i <= j -> j < n -> bd + i * sd + j <> q) -> m' q = m q).
Proof.
  intros A mul n bd sd ba sa bb sb m H Ha Hb m'. change m' with (loop (pos bd sd) (fun c m => mul (m (pos ba sa c)) (m (pos bb sb c))) (upper n) m). split.
  - intros i j Hi Hj. unfold sym_at. rewrite loop_spec; [reflexivity|now apply upper_pos_NoDup| |apply upper_In; lia]. intros c Ic d m0 v Id N. now rewrite (read_ok _ _ _ Ha c d m0 v Ic Id N), (read_ok _ _ _ Hb c d m0 v Ic Id N).
  - intros q Hq. apply loop_other. intros [i j] I. apply upper_In in I. exact (Hq i j (proj1 I) (proj2 I)).
Qed.
Print Assumptions C255_mul_partial.
Theorem C255_apply_partial : forall A (f : nat -> nat -> A -> A) n bd sd ba sa m, n <= sd -> apart (upper n) (pos bd sd) (pos ba sa) ->
  let m' := apply_sym f n (pos bd sd) (pos ba sa) m in
  (forall i j, i < n -> j < n -> sym_at (pos bd sd) m' i j = f (Nat.min i j) (Nat.max i j) (sym_at (pos ba sa) m i j)) /\
  (forall q, (forall i j, i <= j -> j < n -> bd + i * sd + j <> q) -> m' q = m q).
Proof.
  intros A f n bd sd ba sa m H Ha m'. change m' with (loop (pos bd sd) (fun c m => f (fst c) (snd c) (m (pos ba sa c))) (upper n) m). split.
  - intros i j Hi Hj. unfold sym_at. rewrite loop_spec; [reflexivity|now apply upper_pos_NoDup| |apply upper_In; lia]. intros c Ic d m0 v Id N. now rewrite (read_ok _ _ _ Ha c d m0 v Ic Id N).
  - intros q Hq. apply loop_other. intros [i j] I. apply upper_In in I. exact (Hq i j (proj1 I) (proj2 I)).
Qed.
Print Assumptions C255_apply_partial.
(* a destination that overlaps its source otherwise is filled with values already overwritten *)
Theorem C255_overlap_refuted : exists m : nat -> nat, let m' := apply_sym (fun _ _ v => v) 2 (pos 1 2) (pos 0 2) m in sym_at (pos 1 2) m' 0 1 <> sym_at (pos 0 2) m 0 1.
Proof. exists (fun p => p). vm_compute. discriminate. Qed.
Print Assumptions C255_overlap_refuted.
Example C255_example : let m' := mul_elem_sym Nat.mul 2 (pos 0 3) (pos 0 3) (pos 10 2) (fun p => p + 1) in map m' [0; 1; 2; 3; 4; 5] = [11; 24; 3; 4; 70; 6] /\ sym_at (pos 0 3) m' 1 0 = 24.
Proof. vm_compute. split; reflexivity. Qed.

(* C256: matCopy copies every cell and writes nothing else, when the source is the destination itself or shares no address with it *)
Theorem C256_copy_partial : forall A r c bd sd ps (m : nat -> A), c <= sd -> apart (grid r c) (pos bd sd) ps ->
  let m' := mat_copy r c (pos bd sd) ps m in
  (forall i j, i < r -> j < c -> m' (bd + i * sd + j) = m (ps (i, j))) /\ (forall q, (forall i j, i < r -> j < c -> bd + i * sd + j <> q) -> m' q = m q).
Proof.
  intros A r c bd sd ps m H Hs m'. change m' with (loop (pos bd sd) (fun x m => m (ps x)) (grid r c) m). split.
  - intros i j Hi Hj. change (bd + i * sd + j) with (pos bd sd (i, j)). rewrite loop_spec; [reflexivity|now apply grid_pos_NoDup| |apply grid_In; lia]. intros x Ix d m0 v Id N. now apply (read_ok _ _ _ Hs x d m0 v Ix Id N).
  - intros q Hq. apply loop_other. intros [i j] I. apply grid_In in I. exact (Hq i j (proj1 I) (proj2 I)).
Qed.
Print Assumptions C256_copy_partial.
(* copying the transpose of a square matrix into itself: two elements that differ become equal, for every matrix *)
Theorem C256_transpose_refuted : forall A (m : nat -> A), let m' := mat_copy 2 2 (pos 0 2) (fun x => pos 0 2 (snd x, fst x)) m in m 1 <> m 2 -> m' 1 = m 2 /\ m' 2 <> m 1.
Proof. intros A m m' H. unfold m', mat_copy, upd, pos. cbn. split; [reflexivity|]. intros E. apply H. now rewrite E. Qed.
Print Assumptions C256_transpose_refuted.
Example C256_example : map (mat_copy 2 2 (pos 0 3) (pos 10 2) (fun p => p)) [0; 1; 2; 3; 4; 5] = [10; 11; 2; 12; 13; 5] /\ map (mat_copy 2 2 (pos 0 2) (fun x => pos 0 2 (snd x, fst x)) (fun p => p)) [0; 1; 2; 3] = [0; 2; 2; 3].
Proof. vm_compute. split; reflexivity. Qed.

(* C257: for the operations it knows, MatDimsCheck accepts exactly the dimensions of the result of that operation *)
Theorem C257_dims_partial : forall op rr cr rx cx ry cy,
  (In op ["+"; "-"; "*"; "/"]%string -> dims_check op (rr, cr) (rx, cx) (ry, cy) = true <-> rx = ry /\ cx = cy /\ rr = rx /\ cr = cx) /\
  (op = "."%string -> dims_check op (rr, cr) (rx, cx) (ry, cy) = true <-> cx = ry /\ rr = rx /\ cr = cy).
Proof.
  intros op rr cr rx cx ry cy. unfold dims_check. cbn [fst snd]. split.
  - intros I. assert (E : existsb (String.eqb op) ["+"; "-"; "*"; "/"]%string = true) by (apply existsb_exists; exists op; split; [exact I|apply String.eqb_refl]). rewrite E, !andb_true_iff, !Nat.eqb_eq. tauto.
  - intros ->. change (existsb (String.eqb ".") ["+"; "-"; "*"; "/"]%string) with false. change (String.eqb "." ".") with true. cbv iota. rewrite !andb_true_iff, !Nat.eqb_eq. tauto.
Qed.
Print Assumptions C257_dims_partial.
(* any other operation passes with any dimensions *)
Theorem C257_other_refuted : forall op R X Y, ~ In op ["+"; "-"; "*"; "/"; "."]%string -> dims_check op R X Y = true.
Proof.
  intros op R X Y N. unfold dims_check. destruct (existsb (String.eqb op) ["+"; "-"; "*"; "/"]%string) eqn:E.
  - exfalso. apply existsb_exists in E as (o & I & E). apply String.eqb_eq in E. subst o. apply N. cbn in I |- *. tauto.
  - destruct (String.eqb_spec op ".") as [->|_]; [exfalso; apply N; cbn; tauto|reflexivity].
Qed.
Print Assumptions C257_other_refuted.
Example C257_example : dims_check "." (2, 4) (2, 3) (3, 4) = true /\ dims_check "." (4, 2) (2, 3) (3, 4) = false /\ dims_check "+" (2, 3) (2, 3) (3, 2) = false /\ dims_check "dot" (1, 1) (2, 3) (5, 6) = true.
Proof. vm_compute. repeat split. Qed.
