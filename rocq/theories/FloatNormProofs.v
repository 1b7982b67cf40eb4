(* Lemmas about FloatNormModel *)
From Coq Require Import ZArith Reals List Bool Lia Lra Psatz.
From Flocq Require Import Core IEEE754.BinarySingleNaN.
From Verif Require Import FloatModel FloatProofs FloatDistProofs FloatRegProofs FloatScoreProofs FloatAffineProofs FloatNormModel.
Import ListNotations.
Local Open Scope R_scope.

Lemma fabs_val' (v : f64) : val (fabs v) = Rabs (val v) /\ finite (fabs v) = finite v.
Proof. unfold fabs. rewrite B2R_Babs, is_finite_Babs. auto. Qed.
(* x * (1 / N) for |x| <= N *)
Lemma recip_mul x n : finite x = true -> finite n = true -> bpow radix2 (-1022) <= val n <= bpow radix2 1022 -> Rabs (val x) <= val n ->
  let q := fmul x (fdiv f1 n) in finite q = true /\ Rabs (val q) <= 1 /\ (Rabs (val x) = val n -> 1 - bpow radix2 (-53) <= Rabs (val q)) /\
  (0 <= val x -> 0 <= val q) /\ (val x <= 0 -> val q <= 0) /\ 0 < val (fdiv f1 n).
Proof.
  intros Fx Fn [L H] X. destruct f1_val as [V1 F1]. pose proof u_small as U. set (u := bpow radix2 (-53)) in *. pose proof (bpow_gt_0 radix2 (-1022)) as T. set (N := val n) in *.
  assert (P : 0 < N) by lra. assert (I : 0 < / N) by now apply Rinv_0_lt_compat.
  assert (B1 : bpow radix2 (-1022) <= / N) by (change (-1022)%Z with (- (1022))%Z; rewrite bpow_opp; now apply Rinv_le_contravar).
  assert (B2 : / N <= bpow radix2 1022). { replace (bpow radix2 1022) with (/ bpow radix2 (-1022)) by (rewrite <- bpow_opp; reflexivity). now apply Rinv_le_contravar. }
  assert (R : Rabs (rnd (1 / N) - 1 / N) <= u / (1 + u) * / N).
  { replace (1 / N) with (/ N) by (unfold Rdiv; ring). rewrite <- (Rabs_pos_eq (/ N)) at 3 by lra. apply rnd_rel. rewrite Rabs_pos_eq by lra. exact B1. }
  assert (R' : 0 < u / (1 + u) < u). { split; [apply Rmult_lt_0_compat; [lra|apply Rinv_0_lt_compat; lra]|]. apply Rmult_lt_reg_r with (1 + u); [lra|]. unfold Rdiv. rewrite Rmult_assoc, Rinv_l by lra. nra. }
  set (w := u / (1 + u)) in *. set (c := rnd (1 / N)) in *. unfold Rdiv in R. rewrite Rmult_1_l in R. apply Rabs_le_inv in R.
  assert (C1 : N * c <= 1 + w). { apply Rle_trans with (N * (/ N * (1 + w))); [apply Rmult_le_compat_l; lra|]. rewrite <- Rmult_assoc, Rinv_r by lra. lra. }
  assert (C2 : 1 - w <= N * c). { apply Rle_trans with (N * (/ N * (1 - w))); [|apply Rmult_le_compat_l; lra]. rewrite <- Rmult_assoc, Rinv_r by lra. lra. }
  assert (C3 : 0 < c) by (apply Rmult_lt_reg_l with N; lra).
  assert (Cb : Rabs c < big). { apply Rle_lt_trans with (bpow radix2 1022); [|apply bpow_lt; reflexivity]. apply rnd_abs_le; [apply generic_format_bpow; vm_compute; discriminate|]. unfold Rdiv. rewrite Rmult_1_l, Rabs_pos_eq by lra. exact B2. }
  destruct (fdiv_val f1 n F1) as [D1 D2]; [fold N; lra|rewrite V1; fold N; fold c; exact Cb|]. rewrite V1 in D1. fold N in D1. fold c in D1.
  assert (A : Rabs (rnd (val x * c)) = rnd (Rabs (val x) * c)).
  { rewrite <- (Rabs_pos_eq c) at 2 by lra. rewrite <- Rabs_mult. unfold rnd. symmetry. apply round_NE_abs. exact fx_valid. }
  assert (q1 : rnd (Rabs (val x) * c) <= 1). { unfold rnd. apply round_N_le_midp; [exact fx_valid|exact fmt_1|]. rewrite succ_1. fold u. apply Rle_lt_trans with (N * c); [apply Rmult_le_compat_r; lra|lra]. }
  destruct (fmul_val x (fdiv f1 n) Fx D2) as [Q1 Q2]; [rewrite D1, A; pose proof one_big; lra|]. rewrite D1 in Q1. cbv zeta. rewrite Q1, D1.
  split; [exact Q2|]. split; [rewrite A; exact q1|]. split; [|split; [|split; [|exact C3]]].
  - intros E. rewrite A, E. apply Rle_trans with (rnd (1 - u)); [unfold u; rewrite (rnd_fmt _ fmt_pred1); lra|]. apply rnd_le. lra.
  - intros S. rewrite <- rnd_0. apply rnd_le. apply Rmult_le_pos; lra.
  - intros S. rewrite <- rnd_0. apply rnd_le. nra.
Qed.
Lemma nz_max_spec row : Forall (fun v => finite v = true) row -> forall m, finite m = true -> let r := fold_left (fun m v => if flt m (fabs v) then fabs v else m) row m in
  finite r = true /\ val m <= val r /\ (forall v, In v row -> Rabs (val v) <= val r) /\ (val r = val m \/ exists v, In v row /\ Rabs (val v) = val r).
Proof.
  induction 1 as [|v l F N IH]; intros m Fm; cbn [fold_left]; [split; [exact Fm|split; [lra|split; [intros v []|now left]]]|].
  destruct (fabs_val' v) as [Va Fa]. rewrite F in Fa. destruct (flt m (fabs v)) eqn:E.
  - apply flt_val in E; [|exact Fm|exact Fa]. destruct (IH (fabs v) Fa) as (A & B & C & D). split; [exact A|]. split; [lra|]. split; [intros w [->|I]; [lra|now apply C]|]. right. destruct D as [D|(w & I & D)]; [exists v; split; [now left|lra]|exists w; split; [now right|exact D]].
  - assert (G : val (fabs v) <= val m) by (apply Rnot_lt_le; intros G; apply flt_val in G; try assumption; congruence). destruct (IH m Fm) as (A & B & C & D). split; [exact A|]. split; [lra|]. split; [intros w [->|I]; [lra|now apply C]|]. destruct D as [D|(w & I & D)]; [now left|right; exists w; split; [now right|exact D]].
Qed.
Lemma nz_l1_spec row : Forall (fun v => finite v = true) row -> finite (nz_l1 row) = true -> forall v, In v row -> Rabs (val v) <= val (nz_l1 row).
Proof.
  intros F S v I. assert (N : Forall nn (map fabs row)). { apply Forall_forall. intros a J. apply in_map_iff in J as (w & <- & J). destruct (fabs_val' w) as [Va Fa]. rewrite (proj1 (Forall_forall _ _) F w J) in Fa. apply nn_fin; [exact Fa|]. rewrite Va. apply Rabs_pos. }
  destruct (fsum_mono _ N f0 (nn_fin f0 eq_refl (Rle_refl 0)) S) as (_ & _ & M). destruct (fabs_val' v) as [<- _]. apply M, in_map, I.
Qed.
