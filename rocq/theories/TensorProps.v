(* Properties C55 and C114. *)
From Coq Require Import ZArith List Arith Lia.
From Verif Require Import TensorModel TensorProofs.
Import ListNotations.

(* C55: a one-to-one map from the index tuples of the shape onto the positions of the storage *)
Theorem C55_bijection : forall (A : Type) (z : A) s data, length data = fold_right Nat.mul 1 s ->
  exists pos : list nat -> nat,
    (forall l, inrange s l -> exists v, nth_error data (pos l) = Some v /\ t_at (new_dense z s (Some data)) (map Z.of_nat l) = Val v) /\
    (forall l l', inrange s l -> inrange s l' -> pos l = pos l' -> l = l') /\
    (forall p, p < length data -> exists l, inrange s l /\ pos l = p).
Proof.
  intros A z s data H. assert (E : length data = snd (mkst s)).
  { rewrite H. clear H. induction s as [|d s IH]; [reflexivity|]. rewrite mkst_size, <- IH. cbn. lia. }
  exists (offset s). split; [|split].
  - intros l Hl. pose proof (offset_lt _ _ Hl). destruct (nth_error data (offset s l)) as [v|] eqn:N; [|apply nth_error_None in N; lia].
    exists v. split; [reflexivity|]. unfold t_at. rewrite new_shape, new_strides, (at_loop_in _ _ Hl), new_data. cbn [Nat.add]. now rewrite N.
  - apply offset_inj.
  - intros p Hp. apply offset_surj. lia.
Qed.
Print Assumptions C55_bijection.
(* row-major: the last index moves fastest *)
Theorem C55_layout : forall (A : Type) (z : A) a b c i j k data, i < a -> j < b -> k < c -> length data = a * b * c ->
  t_at (new_dense z [a; b; c] (Some data)) (map Z.of_nat [i; j; k]) = Val (nth ((i * b + j) * c + k) data z).
Proof.
  intros A z a b c i j k data Hi Hj Hk HL. assert (Hl : inrange [a; b; c] [i; j; k]) by (repeat constructor; auto).
  unfold t_at. rewrite new_shape, new_strides, (at_loop_in _ _ Hl), new_data. cbn [offset mkst snd Nat.add].
  replace (i * (1 * c * b) + (j * (1 * c) + (k * 1 + 0))) with ((i * b + j) * c + k) by ring.
  assert (H1 : i * b + j < a * b) by nia. assert (H2 : (i * b + j) * c + k < a * b * c) by nia.
  rewrite (nth_error_nth' data z) by lia. reflexivity.
Qed.
Print Assumptions C55_layout.
Theorem C55_out_of_range : forall (A : Type) (z : A) s b args, length args = length s ->
  (exists d, d < length s /\ (nth d args 0%Z < 0 \/ Z.of_nat (nth d s O) <= nth d args 0%Z)%Z) -> t_at (new_dense z s b) args = ErrOOB.
Proof. intros A z s b args H O. unfold t_at. rewrite new_shape, new_strides, at_loop_out; auto. Qed.
Print Assumptions C55_out_of_range.
(* missing indices count as 0 *)
Theorem C55_short : forall (A : Type) (z : A) s b args, Forall (fun d => 0 < d) s -> length args <= length s ->
  t_at (new_dense z s b) args = t_at (new_dense z s b) (args ++ repeat 0%Z (length s - length args)).
Proof.
  intros A z s b args H L. unfold t_at. rewrite new_shape, new_strides, at_loop_app. destruct (at_loop s (fst (mkst s)) args 0) as [p| |]; try reflexivity.
  replace (length s - length args) with (length (skipn (length args) s)) by (rewrite skipn_length; lia).
  rewrite at_loop_zeros; [reflexivity| |rewrite !skipn_length, mkst_length; lia].
  rewrite Forall_forall in *. intros d Hd. apply H. rewrite <- (firstn_skipn (length args) s). apply in_or_app. now right.
Qed.
Print Assumptions C55_short.
(* too many indices are not reported but panic *)
Theorem C55_extra_refuted : forall (A : Type) (z : A) s b l a more, inrange s l -> t_at (new_dense z s b) (map Z.of_nat l ++ a :: more) = Panic.
Proof. intros A z s b l a more H. unfold t_at. rewrite new_shape, new_strides, at_loop_extra; auto. Qed.
Print Assumptions C55_extra_refuted.
Example C55_example : t_at (new_dense 0 [2; 3] (Some [1; 2; 3; 4; 5; 6])) [1%Z; 2%Z] = Val 6 /\
  t_at (new_dense 0 [2; 3] (Some [1; 2; 3; 4; 5; 6])) [1%Z; 3%Z] = ErrOOB /\ t_at (new_dense 0 [2; 3] None) [1%Z; 0%Z] = Val 0 /\
  t_at (new_dense 0 [2; 3] (Some [1; 2; 3; 4; 5; 6])) [1%Z] = Val 4.
Proof. repeat split. Qed.

(* C114: a new iterator visits every position once, in order *)
Theorem C114_visits_partial : forall (A : Type) (t : dense A), exists ix, it_all t 0 = Some (seq 0 (length (t_data t)), ix).
Proof. intros A t. eexists. apply it_all_first. Qed.
Print Assumptions C114_visits_partial.
(* Start does not return to the first position: a second loop over the same iterator visits nothing *)
Theorem C114_start_refuted : forall (A : Type) (t : dense A) l ix, it_all t 0 = Some (l, ix) -> exists ix', it_all t ix = Some ([], ix').
Proof. intros A t l ix H. rewrite it_all_first in H. injection H as _ <-. eexists. apply it_all_again. lia. Qed.
Print Assumptions C114_start_refuted.
Example C114_example : it_all (new_dense 0 [1; 3] None) 0 = Some ([0; 1; 2], 4) /\ it_all (new_dense 0 [1; 3] None) 4 = Some ([], 5).
Proof. split; reflexivity. Qed.
