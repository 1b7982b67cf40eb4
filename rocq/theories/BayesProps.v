(* Properties C156-C161: BayesianRidge *)
From Coq Require Import Reals Lra Lia List Arith Bool.
From Verif Require Import MtModel MtProofs PcaProofs BayesModel BayesProofs.
Import ListNotations.
Open Scope R_scope.

(* C156: the fitted coefficients are the ridge solution for a ratio Lambda/alpha: they minimize
   |XW - Y|^2 + Lambda/alpha |W|^2 over all W, with the Lambda that is reported and some alpha > 0 *)
Theorem C156_ridge_partial : forall n p q X Y U V s a1 a2 l1 l2 tol niter reg0 b, svd_of n p X U V s ->
  0 <= a1 -> 0 < a2 -> 0 < l1 -> 0 < l2 -> (0 < niter)%nat -> (0 < n * q)%nat -> 0 < rs n (fun r => rs q (fun o => Y r o * Y r o)) ->
  bfit n p q X Y V s a1 a2 l1 l2 tol niter reg0 = Some b ->
  exists al, 0 < al /\ 0 < b_lambda b /\ forall W,
    rs n (fun r => rs q (fun o => (rs p (fun i => X r i * b_coef b i o) - Y r o) * (rs p (fun i => X r i * b_coef b i o) - Y r o))) + b_lambda b / al * rs p (fun i => rs q (fun o => b_coef b i o * b_coef b i o))
    <= rs n (fun r => rs q (fun o => (rs p (fun i => X r i * W i o) - Y r o) * (rs p (fun i => X r i * W i o) - Y r o))) + b_lambda b / al * rs p (fun i => rs q (fun o => W i o * W i o)).
Proof.
  intros n p q X Y U V s a1 a2 l1 l2 tol niter reg0 b HS A1 A2 L1 L2 Hi Hn HY. unfold bfit. destruct (_ || _)%bool; [discriminate|]. intros E. injection E as E.
  assert (N : (0 < n)%nat) by (destruct n; [cbn in Hn; lia|lia]). assert (AL : 0 < INR (n * q) / rs n (fun r => rs q (fun o => Y r o * Y r o))) by (apply Rdiv_lt_0_compat; [now apply lt_0_INR|exact HY]).
  pose proof (loop_ends n p q X Y V s a1 a2 l1 l2 tol N A1 A2 L1 L2 niter 0 1 _ (fun _ _ => 0) (fun _ _ => 0) reg0 Rlt_0_1 AL) as H. cbv zeta in H. rewrite E in H.
  destruct H as [_ [(Z & _)|(lam & al & P1 & P2 & E1 & E2 & _)]]; [lia|]. exists al. rewrite E1, E2. split; [exact P2|]. split; [exact P1|]. intros W.
  assert (K : 0 < lam / al) by now apply Rdiv_lt_0_compat. apply (ridge_min n p q X Y (bcoef n p X Y V s lam al) W (lam / al)); [lra|]. intros i o Hi' Ho. apply (normal n p X Y V s (svd_eig _ _ _ _ _ _ HS) lam al i o K Hi').
Qed.
Print Assumptions C156_ridge_partial.

(* a data set: two samples, one feature, X = Y = (1, 0), with its decomposition *)
Example C156_ex : svd_of 2 1 bx bx (fun _ _ => 1) (fun _ => 1).
Proof.
  split; intros a b Ha Hb; cbn [rs]; unfold bx, delta; try (destruct a as [|a]; [|try lia]); try (destruct b as [|b]; [|try lia]); cbn [Nat.eqb]; try ring.
Qed.
(* C157: Alpha and Lambda are not the estimates that are documented: gamma, the number of determined parameters, is always 0, and the
   norm of the residuals stands for their sum of squares.  For all data, the reported Alpha is *)
Theorem C157_alpha_refuted : forall n p q X Y V s a1 a2 l1 l2 tol niter reg0 b,
  0 <= a1 -> 0 < a2 -> 0 < l1 -> 0 < l2 -> (0 < niter)%nat -> (0 < n * q)%nat -> 0 < rs n (fun r => rs q (fun o => Y r o * Y r o)) ->
  bfit n p q X Y V s a1 a2 l1 l2 tol niter reg0 = Some b ->
  b_alpha b = (INR n + 2 * a1) / (sqrt (rs n (fun r => rs q (fun o => (rs p (fun i => X r i * b_coef b i o) - Y r o) * (rs p (fun i => X r i * b_coef b i o) - Y r o)))) + 2 * a2).
Proof.
  intros n p q X Y V s a1 a2 l1 l2 tol niter reg0 b A1 A2 L1 L2 Hi Hn HY. unfold bfit. destruct (_ || _)%bool; [discriminate|]. intros E. injection E as E.
  assert (N : (0 < n)%nat) by (destruct n; [cbn in Hn; lia|lia]). assert (AL : 0 < INR (n * q) / rs n (fun r => rs q (fun o => Y r o * Y r o))) by (apply Rdiv_lt_0_compat; [now apply lt_0_INR|exact HY]).
  pose proof (loop_ends n p q X Y V s a1 a2 l1 l2 tol N A1 A2 L1 L2 niter 0 1 _ (fun _ _ => 0) (fun _ _ => 0) reg0 Rlt_0_1 AL) as H. cbv zeta in H. rewrite E in H.
  destruct H as [_ [(Z & _)|(lam & al & P1 & P2 & E1 & E2 & E3 & _)]]; [lia|]. rewrite E3, E1. unfold bal', bnorm. rewrite gamma_zero. f_equal. ring.
Qed.
Print Assumptions C157_alpha_refuted.
(* Lambda never exceeds 1 with the default Lambda1 = Lambda2, or any Lambda1 <= Lambda2, whatever the data *)
Theorem C157_lambda_refuted : forall n p q X Y V s a1 a2 l1 l2 tol niter reg0 b, 0 < l1 <= l2 -> reg0 <= 1 ->
  bfit n p q X Y V s a1 a2 l1 l2 tol niter reg0 = Some b -> b_lambda b <= 1.
Proof. intros n p q X Y V s a1 a2 l1 l2 tol niter reg0 b HL HR. unfold bfit. destruct (_ || _)%bool; [discriminate|]. intros E. injection E as <-. apply loop_lambda; [exact HL|lra|exact HR]. Qed.
Print Assumptions C157_lambda_refuted.
(* while the documented formula (bayes.go:142, 154) moves it above 80 in the first step for X = (1, 0), Y = (1/10, 0) *)
Example C157_ex : let al := INR (2 * 1) / rs 2 (fun r => rs 1 (fun o => (bx r o / 10) * (bx r o / 10))) in let gamma := al * 1 / (1 + al * 1) in
  let w := bcoef 2 1 bx (fun r o => bx r o / 10) (fun _ _ => 1) (fun _ => 1) 1 al 0%nat 0%nat in
  (gamma + 2 * e6) / (w * w + 2 * e6) > 80.
Proof.
  cbv zeta. assert (E : INR (2 * 1) / rs 2 (fun r => rs 1 (fun o => (bx r o / 10) * (bx r o / 10))) = 200). { cbn [rs]. unfold bx. cbn. field. } rewrite E.
  assert (W : bcoef 2 1 bx (fun r o => bx r o / 10) (fun _ _ => 1) (fun _ => 1) 1 200 0%nat 0%nat = 20 / 201). { unfold bcoef, bxty. cbn [rs]. rewrite bsig1. unfold bx. cbn [Nat.eqb]. field. } rewrite W. unfold e6.
  apply (Rmult_gt_reg_l (20 / 201 * (20 / 201) + 2 * / 1000000)); [lra|]. replace ((20 / 201 * (20 / 201) + 2 * / 1000000) * ((200 * 1 / (1 + 200 * 1) + 2 * / 1000000) / (20 / 201 * (20 / 201) + 2 * / 1000000))) with (200 / 201 + 2 * / 1000000) by (field; lra). lra.
Qed.

(* C158: Sigma is a covariance matrix: symmetric and positive, and Alpha * Sigma inverts X'X + (lambda/Alpha) for some lambda > 0 *)
Theorem C158_sigma_partial : forall n p q X Y U V s a1 a2 l1 l2 tol niter reg0 b, svd_of n p X U V s ->
  0 <= a1 -> 0 < a2 -> 0 < l1 -> 0 < l2 -> (0 < niter)%nat -> (0 < n * q)%nat -> 0 < rs n (fun r => rs q (fun o => Y r o * Y r o)) ->
  bfit n p q X Y V s a1 a2 l1 l2 tol niter reg0 = Some b ->
  0 < b_alpha b /\ (forall i k, b_sigma b i k = b_sigma b k i) /\ (forall x, 0 <= rs p (fun i => rs p (fun k => x i * b_sigma b i k * x k))) /\
  exists lam, 0 < lam /\ forall i j, (i < p)%nat -> (j < p)%nat ->
    rs p (fun k => (b_alpha b * rs n (fun r => X r i * X r k) + (if Nat.eqb i k then lam else 0)) * b_sigma b k j) = if Nat.eqb i j then 1 else 0.
Proof.
  intros n p q X Y U V s a1 a2 l1 l2 tol niter reg0 b HS A1 A2 L1 L2 Hi Hn HY. unfold bfit. destruct (_ || _)%bool; [discriminate|]. intros E. injection E as E.
  assert (N : (0 < n)%nat) by (destruct n; [cbn in Hn; lia|lia]). assert (AL : 0 < INR (n * q) / rs n (fun r => rs q (fun o => Y r o * Y r o))) by (apply Rdiv_lt_0_compat; [now apply lt_0_INR|exact HY]).
  pose proof (loop_ends n p q X Y V s a1 a2 l1 l2 tol N A1 A2 L1 L2 niter 0 1 _ (fun _ _ => 0) (fun _ _ => 0) reg0 Rlt_0_1 AL) as H. cbv zeta in H. rewrite E in H.
  destruct H as [_ [(Z & _)|(lam & al & P1 & P2 & E1 & E2 & E3 & E4)]]; [lia|]. assert (PA : 0 < b_alpha b) by (rewrite E3; now apply al_pos). set (lam' := blam' n p q X Y V s l1 l2 lam al) in *. assert (PL : 0 < lam') by now apply lam_pos.
  assert (K : 0 < lam' / b_alpha b) by now apply Rdiv_lt_0_compat. split; [exact PA|]. set (alpha := b_alpha b) in *. rewrite E4. split; [intros; now rewrite sig_sym|]. split.
  - intros x. rewrite (rs_ext p _ (fun i => 1 / alpha * rs p (fun k => x i * bsig p V s lam' alpha i k * x k))) by (intros; rewrite <- rs_scale; apply rs_ext; intros; ring). rewrite rs_scale, sig_quad.
    apply Rmult_le_pos; [apply Rlt_le, Rdiv_lt_0_compat; lra|]. apply rs_nonneg. intros m Hm. apply Rmult_le_pos; [|apply Rle_0_sqr]. apply Rlt_le, Rdiv_lt_0_compat; [lra|]. pose proof (Rle_0_sqr (s m)). unfold Rsqr in *. lra.
  - exists lam'. split; [exact PL|]. intros i j Hi' Hj. fold (delta i j). rewrite <- (sig_inverse n p X V s (svd_eig _ _ _ _ _ _ HS) lam' alpha i j K Hi' Hj). apply rs_ext. intros k Hk. unfold delta. destruct (Nat.eqb i k); field; lra.
Qed.
Print Assumptions C158_sigma_partial.
(* but Alpha, Lambda and Sigma do not belong to the coefficients: the coefficients are neither the ridge solution for Lambda/Alpha
   nor Alpha * Sigma * X'Y (one iteration, default parameters) *)
Theorem C158_mismatch_refuted : exists b, bfit 2 1 1 bx bx (fun _ _ => 1) (fun _ => 1) e6 e6 e6 e6 (1 / 1000) 1 0 = Some b /\
  (1 + b_lambda b / b_alpha b) * b_coef b 0%nat 0%nat <> 1 /\ b_alpha b * b_sigma b 0%nat 0%nat * 1 <> b_coef b 0%nat 0%nat.
Proof.
  unfold bfit. cbn [Nat.ltb Nat.leb andb orb]. assert (E : INR (2 * 1) / rs 2 (fun r => rs 1 (fun o => bx r o * bx r o)) = 2) by (cbn [rs]; unfold bx; cbn; field). rewrite E. cbn [bloop Nat.ltb Nat.leb andb]. cbv zeta. eexists. split; [reflexivity|].
  cbn [b_coef b_alpha b_lambda b_sigma]. rewrite bcoef1_0. set (al := bal' _ _ _ _ _ _ _ _ _ _ _). assert (AE : al = (2 + 2 * e6) / (1 / 3 + 2 * e6)) by (unfold al, bal'; rewrite gamma_zero, bnorm1; cbn [INR]; f_equal; ring).
  assert (AB : al > 5). { rewrite AE. unfold e6. apply (Rmult_gt_reg_l (1 / 3 + 2 * / 1000000)); [lra|]. replace ((1 / 3 + 2 * / 1000000) * ((2 + 2 * / 1000000) / (1 / 3 + 2 * / 1000000))) with (2 + 2 * / 1000000) by (field; lra). lra. }
  split.
  - intros H. assert (1 / al = 1 / 2) by lra. assert (al * (1 / al) = al * (1 / 2)) by now f_equal. replace (al * (1 / al)) with 1 in * by (field; lra). lra.
  - set (lam := blam' _ _ _ _ _ _ _ _ _ _ _). assert (LE : lam = 2 * e6 / (4 / 9 + 2 * e6)). { unfold lam, blam'. rewrite gamma_zero. cbn [rs]. rewrite bcoef1_0. f_equal; field. }
    assert (LB : 0 < lam < 1). { rewrite LE. unfold e6. split; [apply Rdiv_lt_0_compat; lra|]. apply (Rmult_lt_reg_r (4 / 9 + 2 * / 1000000)); [lra|]. replace (2 * / 1000000 / (4 / 9 + 2 * / 1000000) * (4 / 9 + 2 * / 1000000)) with (2 * / 1000000) by (field; lra). lra. }
    rewrite bsig1. intros H. assert (Q : 1 + lam / al = 3 / 2). { assert (D : 0 < lam / al) by (apply Rdiv_lt_0_compat; lra). replace (al * (1 / al * / (1 + lam / al)) * 1) with (/ (1 + lam / al)) in H by (field; lra). rewrite <- (Rinv_inv (1 + lam / al)), H. field. }
    assert (al * (lam / al) = lam) by (field; lra). assert (al * (lam / al) = al * (1 / 2)) by (f_equal; lra). lra.
Qed.
Print Assumptions C158_mismatch_refuted.

(* C159: the standard deviations of Predict2: with one feature the value is the variance of the prediction *)
Theorem C159_variance_partial : forall Sigma alpha x, bstd 1 Sigma alpha x = rs 1 (fun i => rs 1 (fun k => x i * Sigma i k * x k)) + 1 / alpha.
Proof. intros. unfold bstd. cbn [rs]. ring. Qed.
Print Assumptions C159_variance_partial.
(* so it is not the standard deviation *)
Theorem C159_sqrt_refuted : forall Sigma alpha x, let v := rs 1 (fun i => rs 1 (fun k => x i * Sigma i k * x k)) + 1 / alpha in 0 < v -> v <> 1 -> bstd 1 Sigma alpha x <> sqrt v.
Proof.
  intros Sigma alpha x v Hv Hne H. rewrite C159_variance_partial in H. fold v in H. assert (E : v * v = v) by (rewrite H at 1 2; rewrite sqrt_sqrt; lra). apply Hne. apply (Rmult_eq_reg_l v); lra.
Qed.
Print Assumptions C159_sqrt_refuted.
(* and with more features only the first row of Sigma is used: the "deviation" can be negative *)
Theorem C159_row_refuted : exists Sigma x, (forall i k, Sigma i k = Sigma k i) /\ (forall v, (v 0%nat <> 0 \/ v 1%nat <> 0) -> 0 < rs 2 (fun i => rs 2 (fun k => v i * Sigma i k * v k))) /\ bstd 2 Sigma 1 x < 0.
Proof.
  exists (fun i k => match i, k with O, O => 1 | O, _ => -2 | _, O => -2 | _, _ => 5 end), (fun k => match k with O => 0 | _ => 1 end). split; [intros [|i] [|k]; reflexivity|]. split.
  - intros v H. cbn [rs]. set (a := v 0%nat) in *. set (b := v 1%nat) in *. replace (0 + (0 + a * 1 * a + a * -2 * b) + (0 + b * -2 * a + b * 5 * b)) with ((a - 2 * b) * (a - 2 * b) + b * b) by ring.
    destruct (Req_dec b 0) as [B|B]; [|pose proof (Rle_0_sqr (a - 2 * b)); pose proof (Rsqr_pos_lt b B); unfold Rsqr in *; lra]. rewrite B in *. destruct H as [A|A]; [|lra]. pose proof (Rsqr_pos_lt a A). unfold Rsqr in *. replace ((a - 2 * 0) * (a - 2 * 0) + 0 * 0) with (a * a) by ring. lra.
  - unfold bstd. cbn [rs]. lra.
Qed.
Print Assumptions C159_row_refuted.

(* C160: Fit ends after at most NIter iterations, and before that only when the coefficients moved by less than Tol in the last one *)
Theorem C160_stop : forall n p q X Y V s a1 a2 l1 l2 tol niter reg0 b, 0 <= a1 -> 0 < a2 -> 0 < l1 -> 0 < l2 -> (0 < n * q)%nat -> 0 < rs n (fun r => rs q (fun o => Y r o * Y r o)) ->
  bfit n p q X Y V s a1 a2 l1 l2 tol niter reg0 = Some b ->
  (b_iter b <= niter)%nat /\ (b_stop b = true -> exists lam al, rs p (fun j => rs q (fun o => Rabs (bcoef n p X Y V s lam al j o - b_coef b j o))) < tol /\
    b_coef b = bcoef n p X Y V s (blam' n p q X Y V s l1 l2 lam al) (bal' n p q X Y V s a1 a2 lam al)).
Proof.
  intros n p q X Y V s a1 a2 l1 l2 tol niter reg0 b A1 A2 L1 L2 Hn HY. unfold bfit. destruct (_ || _)%bool; [discriminate|]. intros E. injection E as E.
  assert (N : (0 < n)%nat) by (destruct n; [cbn in Hn; lia|lia]). assert (AL : 0 < INR (n * q) / rs n (fun r => rs q (fun o => Y r o * Y r o))) by (apply Rdiv_lt_0_compat; [now apply lt_0_INR|exact HY]).
  pose proof (loop_ends n p q X Y V s a1 a2 l1 l2 tol N A1 A2 L1 L2 niter 0 1 _ (fun _ _ => 0) (fun _ _ => 0) reg0 Rlt_0_1 AL) as H. cbv zeta in H. rewrite E in H. destruct H as [H _]. split; [lia|]. intros HS.
  pose proof (loop_stop n p q X Y V s a1 a2 l1 l2 tol niter 0 1 (INR (n * q) / rs n (fun r => rs q (fun o => Y r o * Y r o))) (fun _ _ => 0) (fun _ _ => 0) reg0) as T. cbv zeta in T. rewrite E in T. destruct (T HS) as (lam & al & lam1 & al1 & [(D1 & -> & -> & D4)|(D & _)]); [|lia].
  exists lam, al. split; [exact D4|exact D1].
Qed.
Print Assumptions C160_stop.

(* C161: Fit works when there are more samples than features; otherwise it panics *)
Theorem C161_shape_partial : forall n p q X Y V s a1 a2 l1 l2 tol niter reg0, (p < n)%nat -> exists b, bfit n p q X Y V s a1 a2 l1 l2 tol niter reg0 = Some b.
Proof. intros. unfold bfit. destruct (Nat.leb_spec n p); [lia|]. destruct (Nat.ltb_spec n p); [lia|]. rewrite andb_false_r. cbn [orb]. eauto. Qed.
Print Assumptions C161_shape_partial.
Theorem C161_shape_refuted : forall n p q X Y V s a1 a2 l1 l2 tol niter reg0, (n <= p)%nat -> (0 < niter)%nat -> bfit n p q X Y V s a1 a2 l1 l2 tol niter reg0 = None.
Proof. intros. unfold bfit. destruct (Nat.leb_spec n p); [|lia]. destruct (Nat.ltb_spec 0 niter); [reflexivity|lia]. Qed.
Print Assumptions C161_shape_refuted.
