(* Properties C178 and C180 (real numbers). *)
From Coq Require Import Reals Lra Lia List Arith.
From Verif Require Import MtModel MtProofs LossModel LossProofs PathRModel.
Open Scope R_scope.

(* C178 *)
Theorem C178_grid : forall amax eps n, 0 < amax -> 0 < eps -> (2 <= n)%nat ->
  alpha_grid amax eps n 0 = amax * eps /\ alpha_grid amax eps n (n - 1) = amax /\
  (forall i, alpha_grid amax eps n (S i) = alpha_grid amax eps n i * Rpower (/ eps) (/ INR (n - 1))) /\
  (eps < 1 -> forall i, alpha_grid amax eps n i < alpha_grid amax eps n (S i)).
Proof.
  intros amax eps n Ha He Hn.
  assert (L10: 0 < ln 10) by (rewrite <- ln_1; apply ln_increasing; lra).
  assert (Hi: 0 < INR (n - 1)) by (apply lt_0_INR; lia).
  assert (Hae: 0 < amax * eps) by (apply Rmult_lt_0_compat; assumption).
  assert (GP: forall a b i, grid_p a b i = a + INR i * b).
  { intros a b i. induction i as [|i IH]; [cbn [grid_p INR]; ring|]. cbn [grid_p]. rewrite IH, S_INR. ring. }
  assert (V: forall i, alpha_grid amax eps n i = exp (ln (amax * eps) + INR i * (- ln eps / INR (n - 1)))).
  { intros i. unfold alpha_grid, Rpower, log10. rewrite GP. f_equal. rewrite (ln_mult amax eps) by assumption. field. lra. }
  assert (SS: forall i, alpha_grid amax eps n (S i) = alpha_grid amax eps n i * Rpower (/ eps) (/ INR (n - 1))).
  { intros i. rewrite !V. unfold Rpower. rewrite ln_Rinv by assumption. rewrite <- exp_plus. f_equal. rewrite S_INR. field. lra. }
  split; [|split; [|split; [exact SS|]]].
  - rewrite V. cbn [INR]. rewrite Rmult_0_l, Rplus_0_r. now apply exp_ln.
  - rewrite V. replace (ln (amax * eps) + INR (n - 1) * (- ln eps / INR (n - 1))) with (ln amax); [now apply exp_ln|]. rewrite ln_mult by assumption. field. lra.
  - intros E1 i. rewrite !V. apply exp_increasing. apply Rplus_lt_compat_l, Rmult_lt_compat_r; [|rewrite S_INR; lra].
    apply Rdiv_lt_0_compat; [|exact Hi]. assert (ln eps < ln 1) by (apply ln_increasing; lra). rewrite ln_1 in H. lra.
Qed.
Print Assumptions C178_grid.
Example C178_example : alpha_grid 8 (/ 8) 4 1 = 2.
Proof.
  destruct (C178_grid 8 (/ 8) 4 ltac:(lra) ltac:(lra) ltac:(lia)) as (A & _ & C & _). rewrite (C 0%nat), A. rewrite Rinv_inv.
  replace (8 * / 8) with 1 by lra. rewrite Rmult_1_l. cbn [Nat.sub INR]. replace 8 with (Rpower 2 3).
  - rewrite Rpower_mult. replace (3 * / (1 + 1 + 1)) with 1 by lra. apply Rpower_1. lra.
  - replace 3 with (INR 3) by (cbn; lra). rewrite Rpower_pow by lra. cbn. lra.
Qed.

(* C180: without penalty the reported RMSE of one output is the root mean squared error divided by the square root of 2 *)
Theorem C180_rmse_refuted : forall n p X Y l1 skip c, (0 < n)%nat ->
  let rmse := sqrt (rs n (fun i => (rs p (fun j => X i j * c j) - Y i 0%nat) * (rs p (fun j => X i j * c j) - Y i 0%nat)) / INR n) in
  let reported := gom_rmse 1 (fun o => gom_F n p X Y 0 l1 skip o c) in
  reported = rmse / sqrt 2 /\ (rmse <> 0 -> reported <> rmse).
Proof.
  intros n p X Y l1 skip c Hn rmse reported. assert (Hi: 0 < INR n) by (apply lt_0_INR; lia). assert (S2: 1 < sqrt 2) by (rewrite <- sqrt_1 at 1; apply sqrt_lt_1; lra).
  assert (E: reported = rmse / sqrt 2).
  { unfold reported, rmse, gom_rmse, gom_F, sq_J. cbn [rs INR actF]. destruct (rltb_spec 0 0); [lra|]. unfold Rdiv at 1. rewrite Rinv_1, Rmult_1_r.
    rewrite <- sqrt_div_alt by lra. f_equal. unfold zz. rewrite !Rplus_0_l.
    rewrite (rs_ext n _ (fun i => (rs p (fun j => X i j * c j) - Y i 0%nat) * (rs p (fun j => X i j * c j) - Y i 0%nat))); [|intros; cbv beta; ring]. field. lra. }
  split; [exact E|]. intros H0 H1. rewrite E in H1. apply H0. assert (X1: rmse = rmse * sqrt 2). { rewrite <- H1 at 2. field. lra. }
  assert (X2: rmse * (sqrt 2 - 1) = 0) by lra. apply Rmult_integral in X2. destruct X2; lra.
Qed.
Print Assumptions C180_rmse_refuted.
