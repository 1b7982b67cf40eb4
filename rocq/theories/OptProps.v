(* Properties of SGDOptimizer *)
From Coq Require Import Reals Lra Lia List Arith.
From Verif Require Import MtModel MtProofs OptModel OptProofs.
Import ListNotations.
Open Scope R_scope.

(* the gradient of step k (from 0) *)
Definition grad_at (gs : list rmtx) (k : nat) : rmtx := nth k gs (fun _ _ => 0).

(* C144: theta is where it started plus all updates; with SGD update T is the momentum-weighted sum of the past gradients with their rates *)
Theorem C144_theta : forall P n theta gs j o,
  s_theta (opt_run P n (opt_new P theta) gs) j o = theta j o + rs (length gs) (fun k => s_upd (opt_run P n (opt_new P theta) (firstn (S k) gs)) j o).
Proof. intros P n theta gs j o. exact (theta_sum P n (opt_new P theta) gs j o). Qed.
Print Assumptions C144_theta.
Theorem C144_sgd : forall P n theta gs g j o, o_var P = VSgd -> 0 <= o_mom P -> let T := length gs in
  s_upd (opt_run P n (opt_new P theta) (gs ++ [g])) j o =
  rs (S T) (fun k => o_mom P ^ (T - k) * (- (o_step P * 100 / (100 + INR (S k))) / sqrt (INR (S k)) * clipped P n (grad_at (gs ++ [g]) k) j o)).
Proof.
  intros P n theta gs g j o HV HM T. rewrite run_snoc, step_upd, <- cell_prev. pose proof (sgd_velocity P n theta (gs ++ [g]) j o HV HM) as E. rewrite run_snoc, step_cells in E. rewrite E, app_length, Nat.add_1_r.
  apply rs_ext. intros k Hk. unfold T, eta, gk, grad_at. now replace (S (length gs) - 1 - k)%nat with (length gs - k)%nat by lia.
Qed.
Print Assumptions C144_sgd.

(* C145: GradientClipping bounds the norm of every column, keeps its direction, and leaves short columns alone *)
Theorem C145_clip : forall P n g o, 0 < o_clip P ->
  sqrt (rs n (fun j => clipped P n g j o * clipped P n g j o)) <= o_clip P /\
  (exists a, 0 < a <= 1 /\ forall j, clipped P n g j o = a * g j o) /\
  (sqrt (rs n (fun j => g j o * g j o)) <= o_clip P -> forall j, clipped P n g j o = g j o).
Proof.
  intros P n g o HC. unfold clipped. set (N := col_norm n g o). fold (col_norm n g o). fold N. destruct (rltb_spec 0 (o_clip P)); [|lra]. cbn [andb].
  destruct (rltb_spec (o_clip P) N) as [H|H].
  - assert (HN : 0 < N) by lra. split; [|split].
    + rewrite (rs_ext n _ (fun j => (o_clip P / N * (o_clip P / N)) * (g j o * g j o))) by (intros; ring). rewrite rs_scale.
      assert (0 < o_clip P / N) by (apply Rdiv_lt_0_compat; lra). rewrite sqrt_mult by (try apply rs_nonneg; intros; nra).
      rewrite sqrt_square by lra. fold (col_norm n g o). fold N. right. field. lra.
    + exists (o_clip P / N). split.
      * split; [apply Rdiv_lt_0_compat; lra|]. apply Rmult_le_reg_r with N; [exact HN|]. unfold Rdiv. rewrite Rmult_assoc, Rinv_l by lra. lra.
      * intros j. ring.
    + intros A. lra.
  - split; [fold (col_norm n g o); fold N; lra|]. split; [exists 1; split; [lra|intros; ring]|]. intros _ j. reflexivity.
Qed.
Print Assumptions C145_clip.

(* C146: Adam divides by the right powers: the corrected moments are weighted means of the past gradients and their squares, cell by cell *)
Theorem C146_moments : forall P n theta gs g j o, o_var P = VAdam -> o_mom P <= 0 -> let T := S (length gs) in let h := fun k => clipped P n (grad_at (gs ++ [g]) k) j o in
  s_upd (opt_run P n (opt_new P theta) (gs ++ [g])) j o =
  - o_step P * (rs T (fun k => o_b1 P ^ (length gs - k) * ((1 - o_b1 P) * h k)) / (1 - o_b1 P ^ T))
  / (sqrt (rs T (fun k => o_b2 P ^ (length gs - k) * ((1 - o_b2 P) * (h k * h k))) / (1 - o_b2 P ^ T)) + o_eps P).
Proof.
  intros P n theta gs g j o HV HM T h. pose proof (adam_moments P n theta (gs ++ [g]) j o HV) as [E1 E2]. rewrite app_length, Nat.add_1_r in E1, E2. fold T in E1, E2.
  assert (X1 : rs T (fun k => o_b1 P ^ (length gs - k) * ((1 - o_b1 P) * h k)) = c_m (cells P (opt_run P n (opt_new P theta) (gs ++ [g])) j o)).
  { rewrite E1. apply rs_ext. intros k Hk. unfold h, gk, grad_at. now replace (T - 1 - k)%nat with (length gs - k)%nat by (unfold T; lia). }
  assert (X2 : rs T (fun k => o_b2 P ^ (length gs - k) * ((1 - o_b2 P) * (h k * h k))) = c_v (cells P (opt_run P n (opt_new P theta) (gs ++ [g])) j o)).
  { rewrite E2. apply rs_ext. intros k Hk. unfold h, gk, grad_at. now replace (T - 1 - k)%nat with (length gs - k)%nat by (unfold T; lia). }
  rewrite X1, X2. rewrite run_snoc, step_upd, step_cells, run_t. cbn [opt_new s_t Nat.add]. unfold cell_update. rewrite HV. cbn [snd fst c_m c_v]. destruct (rltb_spec 0 (o_mom P)); [lra|]. fold T. unfold Rdiv. ring.
Qed.
Print Assumptions C146_moments.
(* hence the corrected first moment lies between the least and the greatest gradient *)
Theorem C146_mean : forall b T (h : nat -> R) lo hi, 0 <= b < 1 -> (forall k, (k < S T)%nat -> lo <= h k <= hi) ->
  lo <= rs (S T) (fun k => b ^ (T - k) * ((1 - b) * h k)) / (1 - b ^ S T) <= hi.
Proof.
  intros b T h lo hi Hb H. pose proof (mean_in b (S T) h lo hi Hb ltac:(lia) H) as G. rewrite (rs_ext (S T) _ (fun k => b ^ (S T - 1 - k) * ((1 - b) * h k))); [exact G|]. intros k Hk. cbv beta. now replace (S T - 1 - k)%nat with (T - k)%nat by lia.
Qed.
Print Assumptions C146_mean.
(* and with a constant gradient every step, the first included, has the length StepSize up to Epsilon *)
Theorem C146_constant : forall P n theta g T j o, o_var P = VAdam -> o_mom P <= 0 -> 0 <= o_b1 P < 1 -> 0 <= o_b2 P < 1 -> let h := clipped P n g j o in
  s_upd (opt_run P n (opt_new P theta) (repeat g (S T))) j o = - o_step P * h / (Rabs h + o_eps P).
Proof.
  intros P n theta g T j o HV HM H1 H2 h. assert (ES : repeat g (S T) = repeat g T ++ [g]) by (clear; induction T as [|T IH]; [reflexivity|]; change (g :: repeat g (S T) = g :: (repeat g T ++ [g])); now rewrite IH).
  assert (EG : forall k, (k < S T)%nat -> grad_at (repeat g T ++ [g]) k = g).
  { intros k Hk. rewrite <- ES. unfold grad_at. rewrite (nth_indep _ _ g) by (rewrite repeat_length; exact Hk). apply nth_repeat. }
  rewrite ES, (C146_moments P n theta (repeat g T) g j o HV HM). rewrite repeat_length.
  rewrite (rs_ext (S T) (fun k => o_b1 P ^ (T - k) * _) (fun k => h * (o_b1 P ^ (S T - 1 - k) * (1 - o_b1 P)))).
  2:{ intros k Hk. rewrite EG by exact Hk. fold h. replace (S T - 1 - k)%nat with (T - k)%nat by lia. ring. }
  rewrite (rs_ext (S T) (fun k => o_b2 P ^ (T - k) * _) (fun k => (h * h) * (o_b2 P ^ (S T - 1 - k) * (1 - o_b2 P)))).
  2:{ intros k Hk. rewrite EG by exact Hk. fold h. replace (S T - 1 - k)%nat with (T - k)%nat by lia. ring. }
  rewrite !rs_scale, !geo. pose proof (pow_lt1 _ (S T) H1 ltac:(lia)) as A. pose proof (pow_lt1 _ (S T) H2 ltac:(lia)) as B.
  assert (E1 : h * (1 - o_b1 P ^ S T) / (1 - o_b1 P ^ S T) = h) by (field; lra). assert (E2 : h * h * (1 - o_b2 P ^ S T) / (1 - o_b2 P ^ S T) = h * h) by (field; lra).
  rewrite E1, E2. change (h * h) with (Rsqr h). now rewrite sqrt_Rsqr_abs.
Qed.
Print Assumptions C146_constant.

(* C147: Adagrad divides by the root of the sum of the squares of the EARLIER gradients, and not at all in the first step *)
Theorem C147_adagrad_partial : forall P n theta gs g j o, o_var P = VAdagrad -> o_mom P <= 0 -> gs <> [] ->
  s_upd (opt_run P n (opt_new P theta) (gs ++ [g])) j o =
  - (o_step P / (sqrt (o_eps P + rs (length gs) (fun k => clipped P n (grad_at gs k) j o * clipped P n (grad_at gs k) j o)) + o_eps P)) * clipped P n g j o.
Proof.
  intros P n theta gs g j o HV HM HN. rewrite run_snoc, step_upd, run_t. cbn [opt_new s_t Nat.add]. unfold cell_update. rewrite HV, (adagrad_G P n theta gs j o HV). cbn [fst].
  destruct (rltb_spec 0 (o_mom P)); [lra|]. destruct (Nat.ltb_spec 1 (S (length gs))); [reflexivity|]. destruct gs; [contradiction|cbn in *; lia].
Qed.
Print Assumptions C147_adagrad_partial.
(* so the steps are not bounded by StepSize: neither the first, nor the one after a zero gradient, for any bound *)
Theorem C147_bound_refuted : forall P n theta j o B, o_var P = VAdagrad -> o_mom P <= 0 -> o_clip P <= 0 -> 0 < o_step P -> 0 < o_eps P -> 0 <= B ->
  exists g, B < Rabs (s_upd (opt_run P n (opt_new P theta) [g]) j o) /\ B < Rabs (s_upd (opt_run P n (opt_new P theta) [fun _ _ => 0; g]) j o).
Proof.
  intros P n theta j o B HV HM HC HS HE HB. set (d := sqrt (o_eps P) + o_eps P). assert (Hd : 0 < d) by (unfold d; pose proof (sqrt_lt_R0 _ HE); lra).
  exists (fun _ _ => (B + 1) / o_step P + (B + 1) * d / o_step P).
  assert (CL : forall h, clipped P n h j o = h j o) by (intros h; unfold clipped; destruct (rltb_spec 0 (o_clip P)); [lra|reflexivity]).
  assert (Q1 : 0 < (B + 1) / o_step P) by (apply Rdiv_lt_0_compat; lra). assert (Q2 : 0 < (B + 1) * d / o_step P) by (apply Rdiv_lt_0_compat; nra). split.
  - change [fun _ _ : nat => (B + 1) / o_step P + (B + 1) * d / o_step P] with ([] ++ [fun _ _ : nat => (B + 1) / o_step P + (B + 1) * d / o_step P]). rewrite run_snoc, step_upd, CL. unfold cell_update. rewrite HV. cbn [fst opt_run fold_left opt_new s_t Nat.ltb Nat.leb].
    destruct (rltb_spec 0 (o_mom P)); [lra|]. rewrite Rabs_mult, Rabs_Ropp, !Rabs_pos_eq by lra. rewrite Rmult_plus_distr_l. replace (o_step P * ((B + 1) / o_step P)) with (B + 1) by (field; lra). assert (0 < o_step P * ((B + 1) * d / o_step P)) by (apply Rmult_lt_0_compat; lra). lra.
  - change [fun _ _ : nat => 0; fun _ _ : nat => (B + 1) / o_step P + (B + 1) * d / o_step P] with ([fun _ _ : nat => 0] ++ [fun _ _ : nat => (B + 1) / o_step P + (B + 1) * d / o_step P]).
    rewrite (C147_adagrad_partial P n theta _ _ j o HV HM) by discriminate. cbn [length rs]. rewrite !CL. unfold grad_at. cbn [nth]. replace (o_eps P + (0 + 0 * 0)) with (o_eps P) by ring. fold d.
    assert (0 < o_step P / d) by (apply Rdiv_lt_0_compat; lra). rewrite Rabs_mult, Rabs_Ropp, !Rabs_pos_eq by lra. rewrite Rmult_plus_distr_l. replace (o_step P / d * ((B + 1) * d / o_step P)) with (B + 1) by (field; lra).
    assert (0 < o_step P / d * ((B + 1) / o_step P)) by (apply Rmult_lt_0_compat; lra). lra.
Qed.
Print Assumptions C147_bound_refuted.

(* C148: RMSProp divides by the root of a mean of squares only when that mean exceeds 1: with gradients within [-1,1] it is plain gradient descent *)
Theorem C148_small_refuted : forall P n theta gs g j o, o_var P = VRMSProp -> o_mom P <= 0 -> 0 <= o_eps P <= 1 -> 0 <= o_gamma P <= 1 ->
  (forall k, (k < length gs)%nat -> Rabs (clipped P n (grad_at gs k) j o) <= 1) -> s_upd (opt_run P n (opt_new P theta) (gs ++ [g])) j o = - o_step P * clipped P n g j o.
Proof.
  intros P n theta gs g j o HV HM HE HG H. rewrite run_snoc, step_upd. pose proof (rms_G P n theta gs j o HV HE HG H) as B. unfold cell_update. rewrite HV. cbn [fst].
  destruct (rltb_spec 0 (o_mom P)); [lra|]. rewrite Rabs_pos_eq by lra. destruct (rltb_spec 1 (c_G (cells P (opt_run P n (opt_new P theta) gs) j o))); [lra|]. now rewrite Bool.andb_false_r.
Qed.
Print Assumptions C148_small_refuted.

(* C149: an optimizer that was used before keeps its time and its velocity when it is given a new theta *)
Theorem C149_reuse_refuted : forall P n theta gs g0 theta2 g j o, o_var P = VSgd -> 0 < o_mom P ->
  s_upd (opt_step P n (set_theta (opt_run P n (opt_new P theta) (gs ++ [g0])) theta2) g) j o =
  o_mom P * s_upd (opt_run P n (opt_new P theta) (gs ++ [g0])) j o - eta P (S (S (length gs))) / sqrt (INR (S (S (length gs)))) * clipped P n g j o.
Proof.
  intros P n theta gs g0 theta2 g j o HV HM. rewrite step_upd. cbn [set_theta s_t].
  assert (EC : cells P (set_theta (opt_run P n (opt_new P theta) (gs ++ [g0])) theta2) = cells P (opt_run P n (opt_new P theta) (gs ++ [g0]))) by reflexivity. rewrite EC, run_t, app_length.
  cbn [opt_new s_t Nat.add length]. replace (S (length gs + 1))%nat with (S (S (length gs))) by lia. unfold cell_update at 1. rewrite HV. cbn [fst]. destruct (rltb_spec 0 (o_mom P)); [|lra].
  rewrite run_snoc, step_cells, cell_prev, step_upd. replace (1 * INR (S (S (length gs)))) with (INR (S (S (length gs)))) by ring. unfold Rdiv. ring.
Qed.
Print Assumptions C149_reuse_refuted.
(* a new optimizer depends on nothing but its settings and the gradients *)
Theorem C149_new_partial : forall P n theta theta2 gs j o, s_upd (opt_run P n (opt_new P theta) gs) j o = s_upd (opt_run P n (opt_new P theta2) gs) j o.
Proof.
  intros P n theta theta2 gs j o. assert (C : cells P (opt_run P n (opt_new P theta) gs) = cells P (opt_run P n (opt_new P theta2) gs)).
  { induction gs as [|g gs IH] using rev_ind; [reflexivity|]. rewrite !run_snoc, !step_cells, !run_t, IH. reflexivity. }
  destruct gs as [|g gs _] using rev_ind; [reflexivity|]. rewrite !run_snoc in *. rewrite !step_cells in C. rewrite !step_upd, <- !cell_prev. exact (f_equal (fun f => c_prev (f j o)) C).
Qed.
Print Assumptions C149_new_partial.

(* two steps of SGD with momentum 1/2 and gradient 1: the first update is -100/101, the second -(50/101 + (100/102)/sqrt 2) *)
Definition exP (v : variant) : opar := mkopar v 1 (1 / 2) 0 (9 / 10) (1 / 100) (9 / 10) (99 / 100).
Example C144_ex : s_upd (opt_run (exP VSgd) 1 (opt_new (exP VSgd) (fun _ _ => 0)) [fun _ _ => 1]) 0%nat 0%nat = - (100 / 101).
Proof.
  rewrite (C144_sgd (exP VSgd) 1 _ [] (fun _ _ => 1)) by (cbn; try reflexivity; lra). cbn [length rs exP o_step o_mom pow Nat.sub]. unfold clipped. cbn [o_clip exP]. destruct (rltb_spec 0 0); [lra|]. cbn.
  rewrite sqrt_1. field.
Qed.
Example C146_ex : s_upd (opt_run (mkopar VAdam 1 0 0 0 0 (9 / 10) (99 / 100)) 1 (opt_new (mkopar VAdam 1 0 0 0 0 (9 / 10) (99 / 100)) (fun _ _ => 0)) [fun _ _ => -5; fun _ _ => -5; fun _ _ => -5]) 0%nat 0%nat = 1.
Proof.
  change [fun _ _ : nat => -5; fun _ _ => -5; fun _ _ => -5] with (repeat (fun _ _ : nat => -5) 3). rewrite C146_constant by (cbn; try reflexivity; lra). unfold clipped. cbn [o_clip o_step o_eps].
  destruct (rltb_spec 0 0); [lra|]. cbn [andb]. rewrite Rabs_left by lra. field.
Qed.
Example C145_ex : clipped (mkopar VSgd 1 0 5 0 0 0 0) 2 (fun j _ => if Nat.eqb j 0 then 6 else 8) 0%nat 0%nat = 3.
Proof.
  unfold clipped, col_norm. cbn [o_clip rs Nat.eqb]. replace (0 + 6 * 6 + 8 * 8) with (10 * 10) by ring. rewrite sqrt_square by lra. destruct (rltb_spec 0 5); [|lra]. destruct (rltb_spec 5 10); [|lra]. cbn [andb]. field.
Qed.
Example C148_ex : o_mom (mkopar VRMSProp (5 / 100) 0 0 (9 / 10) (1 / 10 ^ 8) 0 0) <= 0 /\ 0 <= 1 / 10 ^ 8 <= 1 /\ Rabs 1 <= 1.
Proof. cbn [o_mom]. rewrite Rabs_R1. repeat split; lra. Qed.
