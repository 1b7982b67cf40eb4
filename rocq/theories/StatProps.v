(* C220: column statistics *)
From Coq Require Import Reals List Lra Lia.
Import ListNotations.
From Verif Require Import StatModel StatProofs.
Local Open Scope R_scope.

(* What is returned for column j of a matrix with n columns and m rows: the mean; the unbiased standard deviation times (n-1)/n; and for
   NumpyLike.Std the population standard deviation times sqrt(m/n). What is missing: these are not standard deviations *)
Theorem C220_values_partial cols j c : nth_error cols j = Some c -> c <> [] ->
  let n := INR (length cols) in let m := INR (length c) in
  exists s, nth_error (fst (mean_std_dev cols)) j = Some (fold_right Rplus 0 c / m) /\ nth_error (mean_cols cols) j = Some (fold_right Rplus 0 c / m) /\
    nth_error (snd (mean_std_dev cols)) j = Some (sqrt (s / (m - 1)) * ((n - 1) / n)) /\
    nth_error (np_std cols) j = Some (sqrt (s / m) * sqrt (m / n)) /\
    s = fold_right Rplus 0 (map (fun x => (x - fold_right Rplus 0 c / m) ^ 2) c).
Proof.
  intros E N n m. assert (Hn : 0 < n) by (apply (lt_INR 0); assert (j < length cols)%nat by (apply nth_error_Some; congruence); lia). assert (Hm : 0 < m) by (apply (lt_INR 0); destruct c; [congruence|cbn; lia]).
  exists (ssd c). cbn [fst snd mean_std_dev]. unfold mean_cols, np_std, np_var. rewrite map_map, !nth_error_map, E. cbn [option_map]. split; [reflexivity|]. split; [reflexivity|]. split; [|split].
  - do 1 f_equal. unfold sample_std. fold (ssd c) m n. unfold Rdiv. ring.
  - f_equal. rewrite <- sqrt_mult.
    + f_equal. unfold ssd. replace (fun x => (x + - mean c) * (x + - mean c)) with (fun x => (x - mean c) * (x - mean c)) by reflexivity. fold n. field. split; lra.
    + apply Rmult_le_pos; [apply ssd_nonneg|]. left. now apply Rinv_0_lt_compat.
    + apply Rmult_le_pos; [lra|]. left. now apply Rinv_0_lt_compat.
  - unfold ssd, mean, rsum. fold m. f_equal. apply map_ext. intros x. ring.
Qed.
Print Assumptions C220_values_partial.
Example C220_ex : nth_error (snd (mean_std_dev [[0; 2]; [0; 0]])) 0 = Some (sqrt 2 * (1 / 2)) /\ nth_error (np_std [[0; 2]; [0; 0]]) 0 = Some 1.
Proof.
  destruct (C220_values_partial [[0; 2]; [0; 0]] 0 [0; 2] eq_refl ltac:(discriminate)) as (s & _ & _ & -> & -> & ->). cbn [length fold_right map INR].
  replace ((0 - (0 + (2 + 0)) / (1 + 1)) ^ 2 + ((2 - (0 + (2 + 0)) / (1 + 1)) ^ 2 + 0)) with 2 by field. replace (2 / (1 + 1)) with 1 by field. replace ((1 + 1) / (1 + 1)) with 1 by field. rewrite sqrt_1. split; f_equal; [|ring]. replace (2 / (1 + 1 - 1)) with 2 by field. field.
Qed.
(* REFUTED, for every matrix: a column with two different values never gets its standard deviation, neither the one of the
   population (divided by m) nor the unbiased one (divided by m - 1); with one column it gets 0. NumpyLike.Std is right exactly for square matrices *)
Theorem C220_std_refuted cols j c x y s : nth_error cols j = Some c -> In x c -> In y c -> x <> y ->
  s = fold_right Rplus 0 (map (fun x => (x - fold_right Rplus 0 c / INR (length c)) ^ 2) c) ->
  nth_error (snd (mean_std_dev cols)) j <> Some (sqrt (s / INR (length c))) /\
  nth_error (snd (mean_std_dev cols)) j <> Some (sqrt (s / (INR (length c) - 1))) /\
  (length cols = 1%nat -> nth_error (snd (mean_std_dev cols)) j = Some 0) /\
  (nth_error (np_std cols) j = Some (sqrt (s / INR (length c))) <-> length c = length cols).
Proof.
  intros E Hx Hy D Es. assert (NE : c <> []) by (intros ->; destruct Hx). destruct (C220_values_partial cols j c E NE) as (s' & _ & _ & E1 & E2 & Es'). rewrite <- Es in Es'. subst s'.
  assert (PS : 0 < s). { replace s with (ssd c); [now apply (ssd_pos c x y)|]. rewrite Es. unfold ssd, mean, rsum. f_equal. apply map_ext. intros z. ring. }
  pose proof (spread_length c x y Hx Hy D) as LC. assert (LN : (1 <= length cols)%nat) by (assert (j < length cols)%nat by (apply nth_error_Some; congruence); lia).
  set (m := INR (length c)) in *. set (n := INR (length cols)) in *. assert (Hm : 2 <= m) by (apply (le_INR 2); exact LC). assert (Hn : 1 <= n) by (apply (le_INR 1); exact LN).
  assert (Q0 : 0 <= (n - 1) / n) by (apply Rmult_le_pos; [lra|left; apply Rinv_0_lt_compat; lra]).
  assert (QM : 0 < s / (m - 1)) by (apply Rdiv_lt_0_compat; lra). assert (QM' : 0 < s / m) by (apply Rdiv_lt_0_compat; lra).
  rewrite E1, E2. split; [|split; [|split]].
  - intros H. injection H as H. rewrite <- sqrt_scale in H by lra. apply sqrt_inj in H; [|apply Rmult_le_pos; [lra|now apply Rmult_le_pos]|lra].
    apply (no_fraction (Z.of_nat (length c)) (Z.of_nat (length cols))); [lia|lia|]. apply eq_IZR. rewrite !mult_IZR, !minus_IZR, <- !INR_IZR_INZ. fold m n. simpl IZR.
    assert (A : s / (m - 1) * (m - 1) = s) by (field; lra). assert (B : s / m * m = s) by (field; lra). assert (C : (n - 1) / n * n = n - 1) by (field; lra).
    assert (H0 : s * m * ((n - 1) * (n - 1)) = s * (m - 1) * (n * n)).
    { rewrite <- C at 1 2. rewrite <- A at 1. replace (s * (m - 1) * (n * n)) with (s / m * m * (m - 1) * (n * n)) by (now rewrite B). rewrite <- H. ring. }
    assert (s * (m * ((n - 1) * (n - 1)) - n * n * (m - 1)) = 0) by nra. apply Rmult_integral in H1. destruct H1; lra.
  - intros H. injection H as H. assert (0 < sqrt (s / (m - 1))) by now apply sqrt_lt_R0. assert ((n - 1) / n = 1) by nra. assert (n - 1 = n) by (transitivity ((n - 1) / n * n); [field; lra|rewrite H1; ring]). lra.
  - intros L. unfold n. rewrite L. f_equal. simpl INR. unfold Rdiv. ring.
  - assert (P : 0 < sqrt (s / m)) by now apply sqrt_lt_R0. assert (R0 : 0 < m / n) by (apply Rdiv_lt_0_compat; lra). split.
    + intros H. injection H as H. assert (sqrt (m / n) = 1) by nra. assert (m / n = 1) by (rewrite <- (sqrt_sqrt (m / n)) by lra; rewrite H0; ring). apply INR_eq. fold m n. transitivity (m / n * n); [field; lra|rewrite H1; ring].
    + intros L. f_equal. replace (m / n) with 1; [rewrite sqrt_1; ring|]. unfold m, n. rewrite L. field. unfold n in Hn. lra.
Qed.
Print Assumptions C220_std_refuted.
