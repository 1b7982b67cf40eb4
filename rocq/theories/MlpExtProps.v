(* Properties of neural_network over the real numbers: predictions of a loaded network, initial weights, BatchNormalize. *)
From Coq Require Import Reals Lra Lia List Arith Bool.
From Verif Require Import MtModel MtProofs LossModel LossProofs MlpNetModel MlpNetProofs MlpExtModel MlpExtProofs.
From Verif Require MlpIoModel MlpIoProofs MlpModel.
Import ListNotations.
Open Scope R_scope.

(* C190: a loaded network without hidden layers predicts by the linear scores of the JSON weights: 1 iff the only score is positive,
   the first largest score marked by 1 when there are several *)
Theorem C190_linear_partial : forall fs p q W bi a rows X Y r, MlpIoProofs.shaped [p; q] [W] [bi] -> (r < rows)%nat ->
  let n := MlpIoModel.mknet fs [p; q] [] (1 <? q)%nat (MlpIoProofs.body [W] [bi]) in
  let z c := rs p (fun i => X r i * nth c (nth i W []) 0) + nth c bi 0 in
  (q = 1%nat -> (0 < z 0%nat -> loaded_predict n a rows X Y r 0 = 1) /\ (z 0%nat <= 0 -> loaded_predict n a rows X Y r 0 = 0)) /\
  ((2 <= q)%nat -> exists best, (best < q)%nat /\ (forall k, (k < q)%nat -> z k <= z best) /\ (forall k, (k < best)%nat -> z k < z best) /\
     loaded_predict n a rows X Y r best = 1 /\ forall c, c <> best -> loaded_predict n a rows X Y r c = 0).
Proof.
  intros fs p q W bi a rows X Y r Hsh Hr n z. subst n. split.
  - intros Hq. rewrite (loaded_one fs p q W bi Hsh a rows X Y r Hq Hr). change (lin_score p W bi (X r) 0) with (z 0%nat).
    destruct (rltb_spec 0 (z 0%nat)); split; intros; auto; lra.
  - intros Hq. exists (rmaxidx q (lin_score p W bi (X r))). destruct (LogregProofs.rmaxidx_spec q (lin_score p W bi (X r))) as [H1 H2]; [lia|].
    split; [exact H1|]. split; [exact H2|]. split; [intros k Hk; now apply (rmaxidx_first q (lin_score p W bi (X r)))|]. split.
    + rewrite (loaded_many fs p q W bi Hsh a rows X Y r _ Hq Hr). now rewrite Nat.eqb_refl.
    + intros c Hc. rewrite (loaded_many fs p q W bi Hsh a rows X Y r _ Hq Hr). apply Nat.eqb_neq in Hc. now rewrite Hc.
Qed.
Print Assumptions C190_linear_partial.
(* an MLPRegressor that loads a network therefore predicts 0 or 1 everywhere, never a score *)
Theorem C190_regressor_refuted : forall n a rows X Y r c, loaded_predict n a rows X Y r c = 0 \/ loaded_predict n a rows X Y r c = 1.
Proof. exact loaded_01. Qed.
Print Assumptions C190_regressor_refuted.
Example C190_linear_ex : let n := MlpIoModel.mknet [] [2; 1]%nat [] false (MlpIoProofs.body [[[2]; [3]]] [[-4]]) in
  loaded_predict n AIdentity 1 (fun _ _ => 1) (fun _ _ => 0) 0 0 = 1.
Proof.
  apply (C190_linear_partial [] 2 1 [[2]; [3]] [-4] AIdentity 1 (fun _ _ => 1) (fun _ _ => 0) 0); [|lia|reflexivity|cbn; lra].
  apply MlpIoProofs.shaped_cons; repeat constructor.
Qed.

(* C193: each initial weight and intercept lies between 0 and the bound of its layer *)
Theorem C193_range_partial : forall u logistic us m io il co cl k w, (forall k, 0 <= u k < 1) -> nth_error (MlpModel.pack 0 us) m = Some (io, il, co, cl) -> (io <= k < co + cl)%nat ->
  nth_error (init_mem u logistic 0 us) k = Some w -> 0 <= w < sqrt ((if logistic then 2 else 6) / INR (nth m us O + nth (S m) us O)).
Proof.
  intros u lg us m io il co cl k w Hu HP Hk Hw. rewrite <- (Nat.sub_0_r k) in Hw.
  exact (init_range u lg us Hu 0 m io il co cl k w 0 HP Hk Hw).
Qed.
Print Assumptions C193_range_partial.
(* so no initial parameter is negative: the interval is not the symmetric one of Glorot *)
Theorem C193_one_sided_refuted : forall u logistic us, (forall k, 0 <= u k < 1) -> (forall w, In w (init_mem u logistic 0 us) -> 0 <= w) /\ length (init_mem u logistic 0 us) = MlpModel.packed_size us.
Proof. intros u lg us Hu. split; [intros w; now apply init_nonneg|apply init_length]. Qed.
Print Assumptions C193_one_sided_refuted.
Example C193_ex : init_mem (fun _ => / 2) true 0 [1; 1]%nat = [/ 2 * 1; / 2 * 1].
Proof. cbn. unfold init_bound, init_factor. cbn [Nat.add INR]. replace (2 / (1 + 1)) with 1 by field. rewrite sqrt_1. reflexivity. Qed.

(* C194: after batchNormalize the largest absolute activation of each hidden unit over the batch is 1, or all are 0 *)
Theorem C194_normalised_partial : forall n H o, (0 < bn_max n H o /\ (forall r, (r < n)%nat -> Rabs (bn_div n H r o) <= 1) /\ exists r, (r < n)%nat /\ Rabs (bn_div n H r o) = 1) \/
  (bn_max n H o = 0 /\ forall r, (r < n)%nat -> H r o = 0 /\ bn_div n H r o = 0).
Proof.
  intros n H o. pose proof (rmaxn_nonneg n (fun r => Rabs (H r o))) as HN. destruct (Rlt_dec 0 (bn_max n H o)) as [G|G].
  - left. split; auto. now apply bn_unit.
  - right. assert (E : bn_max n H o = 0) by (unfold bn_max in *; lra). split; auto. apply bn_zero. lra.
Qed.
Print Assumptions C194_normalised_partial.
(* but the loss was computed before: the derivative of the loss by a weight of the output layer is the stored gradient times the norm
   of the hidden unit (no penalty; any smooth network of one hidden layer) *)
Theorem C194_gradient_refuted : forall hmin hmax a o n X y l1 l2 oldA oldD i j, (0 < n)%nat -> a <> ATanh -> l_out l1 = l_in l2 -> smooth hmin hmax a o n X [l1; l2] ->
  (o = OSoftmax -> forall r, (r < n)%nat -> rs (l_out l2) (y r) = 1) -> (i < l_in l2)%nat -> (j < l_out l2)%nat ->
  let M := bn_max n (fst (bn_acts a o n X l1 l2 oldA)) i in 0 < M ->
  derivable_pt_lim (fun t => net_loss hmin hmax a o 0 n n X y (moves t [l1; l2] [no_move; one_weight i j]) oldA) 0 (M * fst (bn_out_grad a o 0 n X y l1 l2 oldA oldD) i j).
Proof.
  intros hmin hmax a o n X y l1 l2 oldA oldD i j Hn Ha Hl Hs Hy Hi Hj M HM.
  assert (Hg : exists g1 g2, backprop a o 0 n n X y [l1; l2] oldA oldD = [g1; g2]).
  { unfold backprop. remember (forward a o n n X [l1; l2] oldA) as hs. cbn [backward fst]. eauto. }
  destruct Hg as (g1 & g2 & Eg). pose proof (bn_grad a o n X y l1 l2 oldA oldD i j Hn HM g1 g2 Eg) as EM. fold M in EM. rewrite <- EM.
  pose proof (net_gradient hmin hmax a o 0 n X y [l1; l2] [no_move; one_weight i j] oldA oldD Hn) as G. rewrite Eg in G. cbn [dot] in G.
  rewrite inner_none, inner_one, Rplus_0_r, Rplus_0_l in G by auto. apply G; auto; try discriminate. cbn. auto.
Qed.
Print Assumptions C194_gradient_refuted.
(* a hidden unit that is 0 on the whole batch gets deltas that are not numbers *)
Theorem C194_dead_unit_refuted : forall a o n X y l1 l2 oldA oldD r i, (forall r, (r < n)%nat -> fst (bn_acts a o n X l1 l2 oldA) r i = 0) -> bn_hid_delta a o n X y l1 l2 oldA oldD r i = None.
Proof. intros a o n X y l1 l2 oldA oldD r i. apply dead_delta. Qed.
Print Assumptions C194_dead_unit_refuted.
Example C194_ex : bn_max 2 (fun r _ => if Nat.eqb r 0 then -4 else 2) 0 = 4 /\ bn_div 2 (fun r _ => if Nat.eqb r 0 then -4 else 2) 1 0 = / 2.
Proof.
  assert (E : bn_max 2 (fun r _ => if Nat.eqb r 0 then -4 else 2) 0 = 4).
  { unfold bn_max. cbn. replace (Rabs (-4)) with 4 by (rewrite Rabs_left; lra). replace (Rabs 2) with 2 by (rewrite Rabs_right; lra).
    destruct (rltb_spec 0 4); [|lra]. destruct (rltb_spec 4 2); lra. }
  split; [exact E|]. unfold bn_div. rewrite E. destruct (rltb_spec 0 4); [|lra]. cbn. field.
Qed.
