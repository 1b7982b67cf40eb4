(* Normalizer with every norm: property C206 *)
From Coq Require Import Reals String List ZArith Lra Lia.
From Verif Require Import NormModel NormProofs.
Import ListNotations.
Open Scope R_scope.

(* C206: every line (row, or column with Axis 0) is divided by its norm; a zero line stays *)
Theorem C206_unit : forall norm axis c X Y, norm_transform norm axis c X = Some Y ->
  let k := norm_kind norm in
  Forall2 (fun v w => (forall x, In x v -> x = 0) /\ w = v \/
    (exists x, In x v /\ x <> 0) /\ 0 < norm_of k v /\ w = map (fun x => x / norm_of k v) v /\ norm_of k w = 1) (lines axis c X) (lines axis c Y).
Proof.
  intros norm axis c X Y E k. rewrite (norm_lines _ _ _ _ _ E). generalize (lines axis c X). intros l. induction l as [|v l IH]; cbn [map]; constructor; auto. apply scale_vec_spec.
Qed.
Print Assumptions C206_unit.
(* the scale of a line does not matter *)
Theorem C206_scale : forall norm axis c X X' Y Y', Forall (fun r => length r = c) X -> Forall (fun r => length r = c) X' -> length X' = length X ->
  Forall2 (fun v v' => exists a, 0 < a /\ v' = map (Rmult a) v) (lines axis c X) (lines axis c X') ->
  norm_transform norm axis c X = Some Y -> norm_transform norm axis c X' = Some Y' -> Y' = Y.
Proof.
  intros norm axis c X X' Y Y' HX HX' HL HF E E'. destruct (norm_shape _ _ _ _ _ HX E) as (A & B). destruct (norm_shape _ _ _ _ _ HX' E') as (A' & B').
  apply (rows_of_lines c axis); auto; [congruence|]. rewrite (norm_lines _ _ _ _ _ E), (norm_lines _ _ _ _ _ E').
  clear -HF. induction HF as [|v v' l l' (a & Ha & ->) HF IH]; cbn [map]; auto. rewrite IH. now rewrite scale_vec_pos.
Qed.
Print Assumptions C206_scale.
(* and normalising twice is normalising once *)
Theorem C206_twice : forall norm axis c X Y, Forall (fun r => length r = c) X -> norm_transform norm axis c X = Some Y -> norm_transform norm axis c Y = Some Y.
Proof.
  intros norm axis c X Y HX E. destruct (norm_shape _ _ _ _ _ HX E) as (A & B).
  assert (D: exists Z, norm_transform norm axis c Y = Some Z).
  { apply norm_defined. assert (D: exists Z, norm_transform norm axis c X = Some Z) by eauto. apply norm_defined in D. destruct D as [D|[D|D]]; auto.
    - subst X. right; left. destruct Y; [auto|discriminate].
    - right; right. congruence. }
  destruct D as (Z & E'). rewrite E'. f_equal. destruct (norm_shape _ _ _ _ _ B E') as (A' & B'). apply (rows_of_lines c axis); auto.
  rewrite (norm_lines _ _ _ _ _ E'), (norm_lines _ _ _ _ _ E), map_map. apply map_ext. intros v. apply scale_vec_idem.
Qed.
Print Assumptions C206_twice.
(* the norm is chosen by the exact strings l1 and max; any other string means l2 *)
Theorem C206_kind : forall s, norm_kind s = match s with "l1"%string => N1 | "max"%string => NInf | _ => N2 end.
Proof.
  intros s. unfold norm_kind. destruct (String.eqb_spec s "l1") as [->|N1]; [reflexivity|]. destruct (String.eqb_spec s "max") as [->|N2]; [reflexivity|].
  repeat (match goal with |- context [match ?x with _ => _ end] => is_var x; destruct x end; try reflexivity; try congruence).
Qed.
Print Assumptions C206_kind.
(* with rows it answers for square matrices only *)
Theorem C206_rows_refuted : forall norm axis c X, axis <> 0%Z -> X <> [] -> (norm_transform norm axis c X <> None <-> c = length X).
Proof.
  intros norm axis c X Ha HX. split.
  - intros H. destruct (norm_transform norm axis c X) as [Y|] eqn:E; [|congruence]. destruct (proj2 (norm_defined norm axis c X) ltac:(eauto)) as [D|[D|D]]; tauto.
  - intros D. destruct (proj1 (norm_defined norm axis c X) ltac:(auto)) as (Y & ->). discriminate.
Qed.
Print Assumptions C206_rows_refuted.
Example C206_ex : exists Y, norm_transform "l2" 0 2 [[3; 0]; [4; 0]; [0; 0]] = Some Y /\ lines 0 2 Y = [[3 / 5; 4 / 5; 0]; [0; 0; 0]] /\
  norm_transform "l2" 1 2 [[3; 0]; [4; 0]; [0; 0]] = None /\ norm_kind "L1" = N2.
Proof.
  eexists. split; [reflexivity|]. split; [|split; reflexivity].
  assert (Z: scale_vec N2 [0; 0; 0] = [0; 0; 0]). { unfold scale_vec. destruct (Req_EM_T _ _) as [E|E]; auto. destruct E. apply norm_zero. cbn [In]. intuition congruence. }
  assert (S: norm_of N2 [3; 4; 0] = 5). { cbn. replace (3 * 3 + (4 * 4 + (0 * 0 + 0))) with (5 * 5) by ring. apply sqrt_square. lra. }
  assert (V: scale_vec N2 [3; 4; 0] = [3 / 5; 4 / 5; 0]). { unfold scale_vec. rewrite S. destruct (Req_EM_T 5 0); [lra|]. cbn [map]. replace (1 / 5 * 3) with (3 / 5) by field. replace (1 / 5 * 4) with (4 / 5) by field. now rewrite Rmult_0_r. }
  cbn [lines Z.eqb seq map column length nth]. change (norm_kind "l2") with N2. unfold column. cbn [map nth]. rewrite Z, V. reflexivity.
Qed.
