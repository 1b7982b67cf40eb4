(* Properties C44 (several outputs) and C109. *)
From Coq Require Import Reals Lra Lia List Arith.
From Verif Require Import MtModel MtProofs.
Import ListNotations.
Open Scope R_scope.

(* C44: with several outputs Positive changes nothing ... *)
Theorem C44_ignored_refuted : forall l1 l2 n p q X Y order tol maxIter w0,
  mt_cd l1 l2 n p q X Y true order tol maxIter w0 = mt_cd l1 l2 n p q X Y false order tol maxIter w0.
Proof. reflexivity. Qed.
Print Assumptions C44_ignored_refuted.
(* ... and coefficients started at 0 become negative *)
Theorem C44_multi_refuted : exists n p q X Y order w gap eps it,
  mt_cd 0 0 n p q X Y true order 0 1 (fun _ _ => 0) = (w, gap, eps, it) /\ exists j o, (j < p)%nat /\ (o < q)%nat /\ w j o < 0.
Proof.
  pose proof mt_negative as H. cbv zeta in H.
  exists 1%nat, 1%nat, 2%nat, (fun _ _ => 1), (fun _ o => match o with O => -3 | _ => -4 end), (fun _ => [0%nat]).
  destruct (mt_cd _ _ _ _ _ _ _ _ _ _ _ _) as [[[w g] e] i]. exists w, g, e, i. split; [reflexivity|].
  exists 0%nat, 0%nat. split; [lia|]. split; [lia|]. destruct H as [-> _]. lra.
Qed.
Print Assumptions C44_multi_refuted.

(* C109: each update minimises the objective over its block and keeps the residual *)
Theorem C109_block : forall l1 l2 n p q X Y st j, 0 <= l1 -> 0 <= l2 -> (j < p)%nat ->
  (forall i o, (i < n)%nat -> (o < q)%nat -> m_R st i o = Y i o - rs p (fun k => X i k * m_w st k o)) ->
  let st' := mt_update l1 l2 n p q X st j in
  (forall i o, (i < n)%nat -> (o < q)%nat -> m_R st' i o = Y i o - rs p (fun k => X i k * m_w st' k o)) /\
  (forall k o, (o < q)%nat -> k <> j -> m_w st' k o = m_w st k o) /\
  (mncx n X j <> 0 -> forall v, mt_obj l1 l2 n p q X Y (m_w st') <= mt_obj l1 l2 n p q X Y (setrow (m_w st) j v)).
Proof.
  intros l1 l2 n p q X Y st j Ha Hb Hj HR. cbv zeta. destruct (mt_update_spec l1 l2 n p q X Y st j Hj HR) as (A & B & C).
  split; [exact A|]. split; [|intros E v; now apply mt_minimises].
  intros k o Ho Hk. destruct (Req_dec (mncx n X j) 0) as [E|E]; [now rewrite (B E)|]. rewrite (C E k o Ho). unfold setrow.
  apply Nat.eqb_neq in Hk. now rewrite Hk.
Qed.
Print Assumptions C109_block.
Theorem C109_descent_gap : forall l1 l2 n p q X Y positive order tol maxIter w0 w gap eps it,
  0 <= l1 -> 0 <= l2 -> (forall k j, In j (order k) -> (j < p)%nat) ->
  mt_cd l1 l2 n p q X Y positive order tol maxIter w0 = (w, gap, eps, it) ->
  mt_obj l1 l2 n p q X Y w <= mt_obj l1 l2 n p q X Y w0 /\
  (maxIter <> O -> forall v, mt_obj l1 l2 n p q X Y w - gap <= mt_obj l1 l2 n p q X Y v) /\
  ((it <= maxIter)%nat -> gap < eps) /\ eps = tol * rs n (fun i => rs q (fun o => Y i o * Y i o)).
Proof.
  intros l1 l2 n p q X Y positive order tol maxIter w0 w gap eps it Ha Hb HO. unfold mt_cd. cbv zeta.
  pose proof (mt_loop_spec l1 l2 n p q X Y Ha Hb order tol (tol * rs n (fun i => rs q (fun o => Y i o * Y i o))) HO maxIter 0 w0 (mres0 p X Y w0) (tol + 1) (mres_ok0 n p q X Y w0)) as H.
  destruct (mt_loop _ _ _ _ _ _ _ _ _ _ _ _ _ _ _) as [[w' g'] it']. intros E. injection E as <- <- <- <-.
  destruct H as (A & B & C & D). rewrite Nat.add_0_r in D. auto.
Qed.
Print Assumptions C109_descent_gap.
Example C109_example : exists w gap eps it,
  mt_cd 0 0 1 1 2 (fun _ _ => 1) (fun _ o => match o with O => -3 | _ => -4 end) false (fun _ => [0%nat]) 0 1 (fun _ _ => 0) = (w, gap, eps, it) /\
  w 0%nat 0%nat = -3 /\ w 0%nat 1%nat = -4.
Proof.
  pose proof mt_negative as H. cbv zeta in H. unfold mt_cd in *. cbv zeta in *.
  destruct (mt_loop _ _ _ _ _ _ _ _ _ _ _ _ _ _ _) as [[w g] i]. exists w, g. eexists. exists i. split; [reflexivity|exact H].
Qed.
