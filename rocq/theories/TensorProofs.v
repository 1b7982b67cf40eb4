(* Proofs about TensorModel. *)
From Coq Require Import ZArith List Arith Lia.
From Verif Require Import TensorModel.
Import ListNotations.

(* an index tuple of the shape *)
Inductive inrange : list nat -> list nat -> Prop :=
| ir_nil : inrange [] []
| ir_cons d s a l : (a < d)%nat -> inrange s l -> inrange (d :: s) (a :: l).

Fixpoint offset (s l : list nat) : nat :=
  match s, l with _ :: s', a :: l' => a * snd (mkst s') + offset s' l' | _, _ => 0 end.
Lemma mkst_size d s : snd (mkst (d :: s)) = snd (mkst s) * d.
Proof. cbn [mkst]. destruct (mkst s). reflexivity. Qed.
Lemma mkst_cons d s : fst (mkst (d :: s)) = snd (mkst s) :: fst (mkst s).
Proof. cbn [mkst]. destruct (mkst s). reflexivity. Qed.
Lemma offset_lt s l : inrange s l -> offset s l < snd (mkst s).
Proof.
  induction 1 as [|d s a l H _ IH]; [cbn; lia|]. rewrite mkst_size. cbn [offset]. nia.
Qed.
Lemma offset_inj s : forall l l', inrange s l -> inrange s l' -> offset s l = offset s l' -> l = l'.
Proof.
  induction s as [|d s IH]; intros l l' H H' E; inversion H as [|? ? a k Ha Hk]; inversion H' as [|? ? a' k' Ha' Hk']; subst; [reflexivity|].
  cbn [offset] in E. pose proof (offset_lt _ _ Hk). pose proof (offset_lt _ _ Hk').
  assert (a = a') by nia. subst. f_equal. apply IH; auto. lia.
Qed.
Lemma offset_surj s : forall p, p < snd (mkst s) -> exists l, inrange s l /\ offset s l = p.
Proof.
  induction s as [|d s IH]; intros p H.
  - cbn in H. exists []. split; [constructor|cbn; lia].
  - rewrite mkst_size in H. set (m := snd (mkst s)) in *. assert (m <> 0) by nia.
    destruct (IH (p mod m)) as (l & Hl & E); [apply Nat.mod_upper_bound; auto|].
    exists (p / m :: l). split; [constructor; auto; apply Nat.div_lt_upper_bound; auto; lia|].
    cbn [offset]. fold m. rewrite E. rewrite (Nat.mul_comm (p / m)). symmetry. apply Nat.div_mod. auto.
Qed.
(* the loop computes it *)
Lemma at_loop_in s l : inrange s l -> forall pos, at_loop s (fst (mkst s)) (map Z.of_nat l) pos = Val (pos + offset s l).
Proof.
  induction 1 as [|d s a l H _ IH]; intros pos; [cbn; f_equal; lia|].
  rewrite mkst_cons. cbn [map at_loop offset].
  destruct (Z.ltb_spec (Z.of_nat a) 0); [lia|]. destruct (Z.leb_spec (Z.of_nat d) (Z.of_nat a)); [lia|]. cbn [orb].
  rewrite IH, Nat2Z.id. f_equal. lia.
Qed.
Lemma at_loop_out s : forall args pos, length args = length s ->
  (exists d, d < length s /\ (nth d args 0%Z < 0 \/ Z.of_nat (nth d s O) <= nth d args 0%Z)%Z) -> at_loop s (fst (mkst s)) args pos = ErrOOB.
Proof.
  induction s as [|d s IH]; intros args pos H (k & Hk & O); [cbn in Hk; lia|].
  destruct args as [|a args]; [discriminate|]. rewrite mkst_cons. cbn [at_loop].
  destruct (Z.ltb_spec a 0); [reflexivity|]. destruct (Z.leb_spec (Z.of_nat d) a); [reflexivity|]. cbn [orb].
  apply IH; [cbn in H; lia|]. destruct k as [|k]; [cbn in O; lia|]. exists k. cbn in Hk, O. split; [lia|exact O].
Qed.
Lemma at_loop_extra s l : inrange s l -> forall a args pos, at_loop s (fst (mkst s)) (map Z.of_nat l ++ a :: args) pos = Panic.
Proof.
  induction 1 as [|d s b l H _ IH]; intros a args pos; [reflexivity|].
  rewrite mkst_cons. cbn [map app at_loop].
  destruct (Z.ltb_spec (Z.of_nat b) 0); [lia|]. destruct (Z.leb_spec (Z.of_nat d) (Z.of_nat b)); [lia|]. cbn [orb]. apply IH.
Qed.
(* fewer arguments: the missing ones count as 0 *)
Lemma at_loop_app sh : forall st args args' pos, at_loop sh st (args ++ args') pos =
  match at_loop sh st args pos with Val p => at_loop (skipn (length args) sh) (skipn (length args) st) args' p | ErrOOB => ErrOOB | Panic => Panic end.
Proof.
  induction sh as [|d sh IH]; intros st args args' pos; destruct args as [|a args]; cbn [app at_loop length skipn]; try reflexivity.
  destruct (_ || _)%bool; [reflexivity|]. destruct st as [|t st]; [reflexivity|]. apply IH.
Qed.
Lemma at_loop_zeros sh : forall st pos, Forall (fun d => 0 < d) sh -> length st = length sh -> at_loop sh st (repeat 0%Z (length sh)) pos = Val pos.
Proof.
  induction sh as [|d sh IH]; intros st pos H L; [reflexivity|]. inversion H; subst. destruct st as [|t st]; [discriminate|].
  cbn [length repeat at_loop]. destruct (Z.ltb_spec 0 0); [lia|]. destruct (Z.leb_spec (Z.of_nat d) 0); [lia|]. cbn [orb].
  rewrite IH; auto; f_equal; lia.
Qed.
Lemma mkst_length s : length (fst (mkst s)) = length s.
Proof. induction s; [reflexivity|]. rewrite mkst_cons. cbn. now rewrite IHs. Qed.

Section T.
  Context {A : Type}.
  Implicit Types t : dense A.
  Lemma new_shape (z : A) s b : t_shape (new_dense z s b) = s.
  Proof. unfold new_dense. destruct (mkst s). reflexivity. Qed.
  Lemma new_strides (z : A) s b : t_strides (new_dense z s b) = fst (mkst s).
  Proof. unfold new_dense. destruct (mkst s). reflexivity. Qed.
  Lemma new_data (z : A) s b : t_data (new_dense z s b) = match b with Some d => d | None => repeat z (snd (mkst s)) end.
  Proof. unfold new_dense. destruct (mkst s). reflexivity. Qed.

  Lemma it_rest_spec t : forall f ix, length (t_data t) < f + ix -> ix <= length (t_data t) -> it_rest t f ix = Some (seq ix (length (t_data t) - ix), S (length (t_data t))).
  Proof.
    induction f as [|f IH]; intros ix H Hi; [lia|]. cbn [it_rest it_next]. destruct (Nat.leb_spec (length (t_data t)) ix).
    - replace (length (t_data t) - ix) with 0 by lia. cbn [seq]. do 2 f_equal. lia.
    - rewrite IH by lia. replace (length (t_data t) - ix) with (S (length (t_data t) - S ix)) by lia. reflexivity.
  Qed.
  Lemma it_all_first t : it_all t 0 = Some (seq 0 (length (t_data t)), S (length (t_data t))).
  Proof.
    unfold it_all, it_start. destruct (Nat.leb_spec (length (t_data t)) 0) as [H|H].
    - replace (length (t_data t)) with 0 by lia. reflexivity.
    - rewrite it_rest_spec by lia. replace (length (t_data t)) with (S (length (t_data t) - 1)) at 3 by lia. reflexivity.
  Qed.
  Lemma it_all_again t ix : length (t_data t) <= ix -> it_all t ix = Some ([], S ix).
  Proof. intros H. unfold it_all, it_start. destruct (Nat.leb_spec (length (t_data t)) ix); [reflexivity|lia]. Qed.
End T.
