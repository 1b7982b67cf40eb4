(* Properties C45, C110-C113, C237. *)
From Coq Require Import Reals Lra Lia List Arith.
From Verif Require Import MtModel MtProofs LossModel LossProofs.
Import ListNotations.
Open Scope R_scope.

(* C45: without penalty, or with Alpha = 1 and L1Ratio = 0, SquareLoss returns the partial derivatives *)
Theorem C45_square_partial : forall n p q X Y a alpha skip th j o g, (0 < n)%nat -> (j < p)%nat -> (o < q)%nat -> alpha = 0 \/ alpha = 1 ->
  (a = AReLU -> forall i, (i < n)%nat -> rs p (fun k => X i k * th k o) <> 0) ->
  sq_grad n p q X Y a alpha 0 skip th j o = Some g ->
  derivable_pt_lim (fun t => sq_J n p q X Y a alpha 0 skip (set2 th j o t)) (th j o) g.
Proof.
  intros n p q X Y a alpha skip th j o g Hn Hj Ho Ha Hr H.
  pose proof (sq_l2 n p q X Y a alpha skip th j o g Hn Hj Ho ltac:(lra) Hr H) as G. revert G. apply D_val.
  destruct Ha as [-> | ->]; [destruct (rltb_spec 0 0); [lra|]; cbn [andb]; ring|]. destruct (rltb 0 1 && _)%bool; unfold Rdiv; ring.
Qed.
Print Assumptions C45_square_partial.
(* with any other Alpha > 0 it returns something else for every penalised non-zero coefficient *)
Theorem C45_alpha_refuted : forall n p q X Y a alpha th j o g, (0 < n)%nat -> (j < p)%nat -> (o < q)%nat -> 0 < alpha -> alpha <> 1 -> th j o <> 0 ->
  (a = AReLU -> forall i, (i < n)%nat -> rs p (fun k => X i k * th k o) <> 0) ->
  sq_grad n p q X Y a alpha 0 false th j o = Some g ->
  ~ derivable_pt_lim (fun t => sq_J n p q X Y a alpha 0 false (set2 th j o t)) (th j o) g.
Proof.
  intros n p q X Y a alpha th j o g Hn Hj Ho Ha Ha1 Ht Hr H F.
  pose proof (sq_l2 n p q X Y a alpha false th j o g Hn Hj Ho ltac:(lra) Hr H) as G.
  pose proof (uniqueness_limite _ _ _ _ F G) as E. destruct (rltb_spec 0 alpha); [|lra]. cbn [andb negb] in E.
  assert (INR n <> 0) by (apply not_0_INR; lia). assert (Z : (alpha - 1) * th j o / INR n = 0) by lra.
  apply Rmult_integral in Z. destruct Z as [Z|Z]; [|now apply Rinv_neq_0_compat in Z]. apply Rmult_integral in Z. lra.
Qed.
Print Assumptions C45_alpha_refuted.
(* exactly how far off, one output, any L1Ratio *)
Theorem C45_error : forall n p X Y a alpha l1 skip th j g, (0 < n)%nat -> (j < p)%nat -> 0 < alpha -> 0 <= l1 <= 1 -> th j 0%nat <> 0 ->
  (a = AReLU -> forall i, (i < n)%nat -> rs p (fun k => X i k * th k 0%nat) <> 0) ->
  sq_grad n p 1 X Y a alpha l1 skip th j 0 = Some g ->
  derivable_pt_lim (fun t => sq_J n p 1 X Y a alpha l1 skip (set2 th j 0 t)) (th j 0%nat)
    (g + (if (skip && Nat.eqb j 0)%bool then 0 else (l1 * (alpha / 2 - 1) * sgn (th j 0%nat) + (1 - l1) * (alpha - 1) * th j 0%nat) / INR n)).
Proof. exact sq_mix. Qed.
Print Assumptions C45_error.
(* a zero coefficient under an L1 penalty makes the gradient NaN *)
Theorem C45_nan_refuted : forall n p q X Y a alpha l1 th j o, 0 < alpha -> 0 < l1 -> (forall b, (b < q)%nat -> th j b = 0) ->
  sq_grad n p q X Y a alpha l1 false th j o = None.
Proof.
  intros n p q X Y a alpha l1 th j o Ha Hl H. unfold sq_grad, reg_g. cbn [andb].
  destruct (rltb_spec 0 alpha); [|lra]. destruct (rltb_spec 0 l1); [|lra].
  assert (E : nrm2 q (th j) = 0).
  { unfold nrm2. rewrite (rs_ext q _ (fun _ => 0)) by (intros b Hb; rewrite (H b Hb); ring). rewrite rs_zero. apply sqrt_0. }
  rewrite E. destruct (reqb_spec 0 0); [reflexivity|lra].
Qed.
Print Assumptions C45_nan_refuted.
(* the cross-entropy loss of logistic regression, any penalty *)
Theorem C45_cross_entropy : forall n p q X Y alpha l1 skip th j o, (0 < n)%nat -> (j < p)%nat -> (o < q)%nat -> (l1 = 0 \/ th j o <> 0) ->
  derivable_pt_lim (fun t => ce_J n p q X Y ALogistic alpha l1 skip (set2 th j o t)) (th j o) (ce_grad n p X Y ALogistic alpha l1 skip th j o).
Proof. exact ce_gradient. Qed.
Print Assumptions C45_cross_entropy.
Example C45_example : sq_grad 1 1 1 (fun _ _ => 2) (fun _ _ => 1) AIdentity 3 0 false (fun _ _ => 2) 0 0 = Some 8.
Proof.
  unfold sq_grad, reg_g. destruct (rltb_spec 0 3); [|lra]. destruct (rltb_spec 0 0); [lra|]. destruct (rltb_spec 0 1); [|lra].
  cbn [andb rs INR actF]. unfold zz. cbn [rs]. f_equal. field.
Qed.

(* C110 *)
Theorem C110_fprime : forall a x, (a = AReLU -> x <> 0) -> derivable_pt_lim (actF a) x (actFp a (actF a x)).
Proof. exact act_deriv. Qed.
Print Assumptions C110_fprime.
Example C110_example : actFp ALogistic (actF ALogistic 0) = / 4 /\ actFp AReLU (actF AReLU 3) = 1.
Proof.
  split; cbn [actF actFp].
  - rewrite Ropp_0, exp_0. field.
  - destruct (rltb_spec 3 0); [lra|]. destruct (Rle_dec 3 0); [lra|reflexivity].
Qed.

(* C111: away from Logistic the gradient is the same for every feature ... *)
Theorem C111_feature_blind_refuted : forall n p q X Y a l1 skip th j j' o,
  (a <> ALogistic -> ce_grad n p X Y a 0 l1 skip th j o = ce_grad n p X Y a 0 l1 skip th j' o) /\
  log_grad n p q X Y a 0 l1 skip th j o = log_grad n p q X Y a 0 l1 skip th j' o.
Proof.
  intros n p q X Y a l1 skip th j j' o. assert (Z : rltb 0 0 = false) by (destruct (rltb_spec 0 0); [lra|reflexivity]).
  split; [intros Ha; unfold ce_grad; rewrite Z; destruct a; congruence|unfold log_grad; now rewrite Z].
Qed.
Print Assumptions C111_feature_blind_refuted.
(* ... and not the derivative *)
Theorem C111_refuted : exists n p q X Y th, (let th' := fun t => set2 th 0 0 t in
  ~ derivable_pt_lim (fun t => ce_J n p q X Y AIdentity 0 0 false (th' t)) (th 0%nat 0%nat) (ce_grad n p X Y AIdentity 0 0 false th 0 0)) /\
  exists Y' g, log_grad n p q X Y' AIdentity 0 0 false th 0 0 = Some g /\
  ~ derivable_pt_lim (fun t => log_J n p q X Y' AIdentity 0 0 false (set2 th 0 0 t)) (th 0%nat 0%nat) g.
Proof.
  exists 1%nat, 1%nat, 1%nat, (fun _ _ => 2), (fun _ _ => 0), (fun _ _ => / 4). split.
  - cbv zeta. destruct ce_identity as [A B]. intros F. rewrite B in F. pose proof (uniqueness_limite _ _ _ _ F A). lra.
  - exists (fun _ _ => 1), (-2). destruct log_identity as [A B]. split; [exact B|]. intros F. pose proof (uniqueness_limite _ _ _ _ F A). lra.
Qed.
Print Assumptions C111_refuted.
(* it is the derivative for a feature that is 1 in all samples (an intercept),
   whatever the penalty for CrossEntropyLoss, up to (2 Alpha - 1) theta / n for
   LogLoss *)
Theorem C111_bias_partial : forall n p q X Y a alpha l1 skip th j o, (0 < n)%nat -> (j < p)%nat -> (o < q)%nat ->
  (forall i, (i < n)%nat -> X i j = 1) -> (forall i, (i < n)%nat -> 0 < actF a (rs p (fun k => X i k * th k o)) < 1) ->
  (a <> ALogistic -> l1 = 0 \/ th j o <> 0 -> derivable_pt_lim (fun t => ce_J n p q X Y a alpha l1 skip (set2 th j o t)) (th j o) (ce_grad n p X Y a alpha l1 skip th j o)) /\
  (0 <= alpha -> forall g, log_grad n p q X Y a alpha 0 skip th j o = Some g ->
   derivable_pt_lim (fun t => log_J n p q X Y a alpha 0 skip (set2 th j o t)) (th j o) (g + (if (rltb 0 alpha && negb (skip && Nat.eqb j 0))%bool then (2 * alpha - 1) * th j o / INR n else 0))).
Proof.
  intros n p q X Y a alpha l1 skip th j o Hn Hj Ho HX HR. split.
  - intros NL Hl. now apply ce_bias.
  - intros Ha g H. now apply log_bias.
Qed.
Print Assumptions C111_bias_partial.
Example C111_example : ce_grad 1 1 (fun _ _ => 2) (fun _ _ => 0) AIdentity 0 0 false (fun _ _ => / 4) 0 0 = 2.
Proof. exact (proj2 ce_identity). Qed.

(* C112: without penalty n times the gradient ... *)
Theorem C112_scaled_partial : forall n p X Y l1 o c j, (0 < n)%nat -> (j < p)%nat ->
  derivable_pt_lim (fun t => sgd_J n p X Y 0 l1 o (fun k => if Nat.eqb k j then t else c k)) (c j) (sgd_grad n p X Y 0 l1 o c j / INR n).
Proof. exact sgd_scaled. Qed.
Print Assumptions C112_scaled_partial.
(* so not the gradient when there is more than one sample *)
Theorem C112_refuted : forall n p X Y l1 o c j, (1 < n)%nat -> (j < p)%nat -> sgd_grad n p X Y 0 l1 o c j <> 0 ->
  ~ derivable_pt_lim (fun t => sgd_J n p X Y 0 l1 o (fun k => if Nat.eqb k j then t else c k)) (c j) (sgd_grad n p X Y 0 l1 o c j).
Proof.
  intros n p X Y l1 o c j Hn Hj Hg F. pose proof (sgd_scaled n p X Y l1 o c j ltac:(lia) Hj) as G.
  pose proof (uniqueness_limite _ _ _ _ F G) as E. revert E Hg. generalize (sgd_grad n p X Y 0 l1 o c j). intros g E Hg.
  assert (1 < INR n) by (change 1 with (INR 1); now apply lt_INR). assert (E2 : g * INR n = g) by (rewrite E at 1; field; lra).
  assert (Z : g * (INR n - 1) = 0) by lra. apply Rmult_integral in Z. lra.
Qed.
Print Assumptions C112_refuted.
(* ... with any penalty it vanishes where the unpenalised one does: the penalty does not move the solution *)
Theorem C112_penalty_refuted : forall n p X Y alpha l1 o c j, 0 <= alpha -> 0 <= l1 <= 1 ->
  sgd_grad n p X Y alpha l1 o c j = 0 <-> rs n (fun i => X i j * (rs p (fun k => X i k * c k) - Y i o)) = 0.
Proof. exact sgd_zero. Qed.
Print Assumptions C112_penalty_refuted.
Example C112_example : sgd_grad 2 1 (fun i _ => match i with O => 1 | _ => 2 end) (fun _ _ => 0) 0 0 0 (fun _ => 1) 0 = 5 /\
  sgd_grad 1 1 (fun _ _ => 1) (fun _ _ => 3) 100 0 0 (fun _ => 3) 0 = 0.
Proof.
  split; unfold sgd_grad; cbn [rs INR]; unfold sgn.
  - replace (0 + 1 * (0 + 1 * 1 - 0) + 2 * (0 + 2 * 1 - 0)) with 5 by ring. field.
  - replace (0 + 1 * (0 + 1 * 3 - 3)) with 0 by ring. destruct (rltb_spec 0 0); [lra|]. field.
Qed.

(* C113: LinFit returns the epoch of smallest loss, provided some epoch has a finite loss *)
Theorem C113_best_partial : forall (T : Type) (zeros : T) rmse0 epochs th j rm, linfit zeros rmse0 epochs = (th, Some j, rm) ->
  (exists r, In (th, Some j, r) epochs) /\ forall t j' r, In (t, Some j', r) epochs -> j <= j'.
Proof.
  intros T zeros rmse0 epochs th j rm H. unfold linfit in H. pose proof (best_spec epochs zeros None rmse0) as G. rewrite H in G.
  destruct G as [(A & _ & B) _]. split; [|exact B]. destruct A as [[_ A]|A]; [discriminate|exact A].
Qed.
Print Assumptions C113_best_partial.
(* otherwise zeros are returned as if they had been fitted *)
Theorem C113_diverged_refuted : forall (T : Type) (zeros : T) rmse0 epochs th rm, linfit zeros rmse0 epochs = (th, None, rm) -> th = zeros.
Proof.
  intros T zeros rmse0 epochs th rm H. unfold linfit in H. pose proof (best_spec epochs zeros None rmse0) as G. rewrite H in G. now destruct G as [[A _] _].
Qed.
Print Assumptions C113_diverged_refuted.
(* and the reported RMSE is that of the last epoch *)
Theorem C113_rmse_refuted : exists (epochs : list (nat * option R * R)) th j rm, linfit 0%nat 0 epochs = (th, Some j, rm) /\ ~ In (th, Some j, rm) epochs.
Proof.
  exists [(1%nat, Some 1, 1); (2%nat, Some 2, 2)], 1%nat, 1, 2. unfold linfit. cbn [fold_left linfit_epoch jless]. destruct (rltb_spec 2 1); [lra|].
  split; [reflexivity|]. intros [H|[H|[]]]; injection H; intros; lra.
Qed.
Print Assumptions C113_rmse_refuted.
Example C113_example : linfit 0%nat 0 [(1%nat, Some 3, 1); (2%nat, None, 2); (3%nat, Some 2, 4)] = (3%nat, Some 2, 4).
Proof. unfold linfit. cbn [fold_left linfit_epoch jless]. destruct (rltb_spec 2 3); [reflexivity|lra]. Qed.

(* C237: CrossEntropyLoss takes logarithms of positive numbers only, is the
   documented mean when all predictions are inside (0, 1), and not negative *)
Theorem C237_value : forall n p q X Y a alpha l1 skip th, (0 < n)%nat ->
  let h i o := actF a (rs p (fun k => X i k * th k o)) in
  (forall x, 0 < clip x < 1 /\ (x <= 0 -> clip x = / 10000000000) /\ (1 <= x -> clip x = 1 - / 10000000000) /\ (0 < x < 1 -> clip x = x)) /\
  ((forall i o, (i < n)%nat -> (o < q)%nat -> 0 < h i o < 1) ->
   ce_J n p q X Y a 0 l1 skip th = rs n (fun i => rs q (fun o => - (Y i o * ln (h i o) + (1 - Y i o) * ln (1 - h i o)))) / INR n) /\
  (0 <= l1 <= 1 -> (forall i o, (i < n)%nat -> (o < q)%nat -> 0 <= Y i o <= 1) -> 0 <= ce_J n p q X Y a alpha l1 skip th).
Proof.
  intros n p q X Y a alpha l1 skip th Hn h. split; [|split].
  - intros x. split; [apply clip_in|]. split; [intros Hx; unfold clip; destruct (Rle_dec x 0); [reflexivity|contradiction]|].
    split; intros Hx; [|now apply clip_local]. unfold clip. destruct (Rle_dec x 0); [lra|]. destruct (Rle_dec 1 x); [reflexivity|contradiction].
  - intros HR. unfold ce_J. assert (Z : rltb 0 0 = false) by (destruct (rltb_spec 0 0); [lra|reflexivity]). rewrite Z, Rplus_0_r. f_equal.
    apply rs_ext. intros i Hi. apply rs_ext. intros o Ho. cbv zeta. change (actF a (zz p X th i o)) with (h i o). rewrite clip_local by auto. ring.
  - intros Hl HY. now apply ce_J_nonneg.
Qed.
Print Assumptions C237_value.
(* a worse prediction can cost less: 0 is taken for 1e-10, 1e-20 is not *)
Theorem C237_monotone_refuted : exists x x', x < x' /\ 
  ce_J 1 1 1 (fun _ _ => 1) (fun _ _ => 1) AIdentity 0 0 false (fun _ _ => x) < ce_J 1 1 1 (fun _ _ => 1) (fun _ _ => 1) AIdentity 0 0 false (fun _ _ => x').
Proof.
  exists 0, (/ 10000000000 * / 10000000000). assert (P : 0 < / 10000000000 * / 10000000000 < / 10000000000) by lra. split; [lra|].
  assert (Z : rltb 0 0 = false) by (destruct (rltb_spec 0 0); [lra|reflexivity]).
  assert (V : forall x, ce_J 1 1 1 (fun _ _ => 1) (fun _ _ => 1) AIdentity 0 0 false (fun _ _ => x) = - ln (clip x)).
  { intros x. unfold ce_J, zz. rewrite Z. cbn [rs INR actF]. replace (0 + 1 * x) with x by ring. field. }
  rewrite !V. unfold clip. destruct (Rle_dec 0 0); [|lra]. destruct (Rle_dec (/ 10000000000 * / 10000000000) 0); [lra|]. destruct (Rle_dec 1 (/ 10000000000 * / 10000000000)); [lra|].
  apply Ropp_lt_contravar. apply ln_increasing; lra.
Qed.
Print Assumptions C237_monotone_refuted.
Example C237_example : ce_J 1 1 1 (fun _ _ => 1) (fun _ _ => 1) ALogistic 0 0 false (fun _ _ => 0) = ln 2.
Proof.
  unfold ce_J, zz. assert (Z : rltb 0 0 = false) by (destruct (rltb_spec 0 0); [lra|reflexivity]). rewrite Z. cbn [rs INR actF]. replace (0 + 1 * 0) with 0 by ring. rewrite Ropp_0, exp_0.
  replace (1 / (1 + 1)) with (/ 2) by field. rewrite clip_local by lra. rewrite ln_Rinv by lra. field.
Qed.
