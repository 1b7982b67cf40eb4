(* C222: PowerTransformer chooses lambda by maximum likelihood *)
From Coq Require Import Reals Lra Lia List Arith Bool.
From Verif Require Import MtModel MtProofs PowerModel PowerProofs LikModel LikProofs.
Import ListNotations.
Open Scope R_scope.

(* For every data with two different values and every lambda but 0: the number given to the minimizer is, up to a constant that
   depends on the number of samples only, minus the largest log-likelihood over all means and variances, and the largest is
   reached.  The likelihood includes the derivatives of the transform, whatever list d of them is given.
   Partial: lambda = 0 is NaN (below). *)
Theorem C222_yeo_johnson_partial l x d a b : l <> 0 -> derivatives (yj l) x d -> In a x -> In b x -> a <> b ->
  exists v, yj_nll x l = Some v /\
    (forall mu s2, 0 < s2 -> loglik (yj l) mu s2 x d <= - v + lik_const (length x)) /\
    (exists mu s2, 0 < s2 /\ loglik (yj l) mu s2 x d = - v + lik_const (length x)).
Proof.
  intros Hl D Ha Hb N. rewrite (derivatives_are _ _ _ (yj_dens l) D) by (intros; apply yj_derivative; exact Hl).
  apply nll_lik with a b; auto.
  - intros c _ E. rewrite yj_val in E by (right; exact Hl). discriminate.
  - destruct (Rtotal_order a b) as [L|[E|L]]; [|contradiction|].
    + destruct (yj_mono l a b Hl L) as (y & y' & -> & -> & H). cbn. lra.
    + destruct (yj_mono l b a Hl L) as (y & y' & -> & -> & H). cbn. lra.
  - unfold sumlog1p. rewrite map_map, <- rsum_scale. apply rsum_ext. intros c _. apply yj_dens_ln.
Qed.
Print Assumptions C222_yeo_johnson_partial.

(* the derivatives exist at every point *)
Theorem C222_derivatives l x : l <> 0 -> exists d, derivatives (yj l) x d /\ Forall (fun y => 0 < y) d.
Proof.
  intros Hl. exists (map (yj_dens l) x). split; [apply derivatives_exist; intros; apply yj_derivative; exact Hl|].
  apply Forall_forall. intros y Hy. apply in_map_iff in Hy. destruct Hy as (c & <- & _). unfold yj_dens. destruct (rltb c 0); apply exp_pos.
Qed.
Print Assumptions C222_derivatives.

Theorem C222_box_cox l x d a b : Forall (fun c => 0 < c) x -> derivatives (bc l) x d -> In a x -> In b x -> a <> b ->
  exists v, bc_nll x l = Some v /\
    (forall mu s2, 0 < s2 -> loglik (bc l) mu s2 x d <= - v + lik_const (length x)) /\
    (exists mu s2, 0 < s2 /\ loglik (bc l) mu s2 x d = - v + lik_const (length x)).
Proof.
  intros P D Ha Hb N. rewrite Forall_forall in P. rewrite (derivatives_are _ _ _ (fun c => Rpower c (l - 1)) D) by (intros; apply bc_derivative; auto).
  unfold bc_nll. replace (forallb _ x) with true.
  2: { symmetry. apply forallb_forall. intros c Hc. destruct (rltb_spec 0 c) as [_|G]; [reflexivity|]. elim G. auto. }
  apply nll_lik with a b; auto.
  - intros c Hc E. rewrite bc_val in E by auto. discriminate.
  - rewrite !bc_val by auto. cbn [val]. pose proof (P a Ha). pose proof (P b Hb). destruct (reqb_spec l 0) as [E|E].
    + intros X. apply N. apply ln_inv; auto.
    + destruct (Rtotal_order a b) as [L|[X|L]]; [|contradiction|].
      * pose proof (quot_lt a b l ltac:(auto) L E). lra.
      * pose proof (quot_lt b a l ltac:(auto) L E). lra.
  - rewrite map_map, <- rsum_scale. apply rsum_ext. intros c Hc. apply ln_Rpower.
Qed.
Print Assumptions C222_box_cox.

(* so a smaller value is a better explanation of the data: comparing two lambdas by the number given to the minimizer is
   comparing their best models *)
Theorem C222_choice_partial l l' x d d' v v' a b : l <> 0 -> l' <> 0 -> derivatives (yj l) x d -> derivatives (yj l') x d' ->
  In a x -> In b x -> a <> b -> yj_nll x l = Some v -> yj_nll x l' = Some v' ->
  (v <= v' <-> forall mu' s2', 0 < s2' -> exists mu s2, 0 < s2 /\ loglik (yj l') mu' s2' x d' <= loglik (yj l) mu s2 x d).
Proof.
  intros Hl Hl' D D' Ha Hb N E E'.
  destruct (C222_yeo_johnson_partial l x d a b Hl D Ha Hb N) as (w & F & U & mu & s2 & Hs & M).
  destruct (C222_yeo_johnson_partial l' x d' a b Hl' D' Ha Hb N) as (w' & F' & U' & mu' & s2' & Hs' & M').
  rewrite E in F. rewrite E' in F'. injection F as <-. injection F' as <-. split.
  - intros H m t Ht. exists mu, s2. split; [exact Hs|]. specialize (U' m t Ht). lra.
  - intros H. destruct (H mu' s2' Hs') as (m & t & Ht & L). specialize (U m t Ht). lra.
Qed.
Print Assumptions C222_choice_partial.

(* two samples 0 and 2 with lambda 1: the variance in the code is their sum of squares 2 *)
Example C222_ex : yj_nll [0; 2] 1 = Some (ln 2) /\ derivatives (yj 1) [0; 2] [1; 1].
Proof.
  split.
  - unfold yj_nll, nll. rewrite mapo_val by (intros c _; rewrite yj_val by (right; lra); discriminate).
    cbn [map bind]. rewrite !yj_val by (right; lra). cbn [val]. rewrite !yjr_up by lra. unfold yj_up. rewrite !Rpower_1 by lra.
    unfold var1, rsum. cbn [map fold_right length INR].
    match goal with |- context[rltb 0 ?v] => replace v with 2 by field end.
    destruct (rltb_spec 0 2); [|lra]. f_equal. field_simplify. replace (1 - 1) with 0 by ring. lra.
  - replace [1; 1] with (map (yj_dens 1) [0; 2]).
    + apply derivatives_exist. intros. apply yj_derivative. lra.
    + cbn [map]. unfold yj_dens. destruct (rltb_spec 0 0); [lra|]. destruct (rltb_spec 2 0); [lra|].
      replace (1 - 1) with 0 by ring. rewrite !Rpower_O by lra. reflexivity.
Qed.

(* lambda = 0 (the logarithm, a proper Yeo-Johnson transform) has the objective NaN as soon as one value is not negative *)
Theorem C222_lambda_zero_refuted x a : In a x -> 0 <= a -> yj_nll x 0 = None.
Proof. intros Ha P. unfold yj_nll, nll. rewrite (mapo_none (yj 0) x a Ha (yj_zero a P)). reflexivity. Qed.
Print Assumptions C222_lambda_zero_refuted.
