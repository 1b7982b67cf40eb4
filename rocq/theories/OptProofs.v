(* Lemmas about OptModel *)
From Coq Require Import Reals Lra Lia List Arith.
From Verif Require Import MtModel MtProofs OptModel.
Import ListNotations.
Open Scope R_scope.

Definition gk (gs : list rmtx) (k : nat) : rmtx := nth k gs (fun _ _ => 0).
Lemma gk_app1 gs g k : (k < length gs)%nat -> gk (gs ++ [g]) k = gk gs k.
Proof. intros H. unfold gk. now rewrite app_nth1. Qed.
Lemma gk_last gs g : gk (gs ++ [g]) (length gs) = g.
Proof. unfold gk. rewrite app_nth2 by lia. now rewrite Nat.sub_diag. Qed.
Lemma run_snoc P n s gs g : opt_run P n s (gs ++ [g]) = opt_step P n (opt_run P n s gs) g.
Proof. unfold opt_run. now rewrite fold_left_app. Qed.
Lemma run_t P n s gs : s_t (opt_run P n s gs) = (s_t s + length gs)%nat.
Proof.
  induction gs as [|g gs IH] using rev_ind; [cbn; lia|]. rewrite run_snoc, app_length. cbn [opt_step s_t length]. rewrite IH. lia.
Qed.
(* the cells that a step starts from *)
Definition cells (P : opar) (s : ost) : nat -> nat -> cell := if Nat.eqb (s_t s) 0 then fun _ _ => cell0 P else s_cell s.
Lemma step_cells P n s g : cells P (opt_step P n s g) = fun j o => snd (cell_update P (S (s_t s)) (cells P s j o) (clipped P n g j o)).
Proof. reflexivity. Qed.
Lemma step_upd P n s g j o : s_upd (opt_step P n s g) j o = fst (cell_update P (S (s_t s)) (cells P s j o) (clipped P n g j o)).
Proof. reflexivity. Qed.
Lemma new_cells P theta j o : cells P (opt_new P theta) j o = cell0 P.
Proof. reflexivity. Qed.
Lemma cell_prev P t c g : c_prev (snd (cell_update P t c g)) = fst (cell_update P t c g).
Proof. unfold cell_update. destruct (o_var P); reflexivity. Qed.

Lemma theta_sum P n s gs j o : s_theta (opt_run P n s gs) j o = s_theta s j o + rs (length gs) (fun k => s_upd (opt_run P n s (firstn (S k) gs)) j o).
Proof.
  induction gs as [|g gs IH] using rev_ind; [cbn; ring|]. rewrite run_snoc, app_length, Nat.add_1_r. cbn [rs].
  change (s_theta (opt_step P n (opt_run P n s gs) g) j o) with (s_theta (opt_run P n s gs) j o + s_upd (opt_step P n (opt_run P n s gs) g) j o). rewrite IH.
  rewrite (firstn_all2 (n := S (length gs)) (gs ++ [g])) by (rewrite app_length; cbn; lia). rewrite run_snoc.
  rewrite (rs_ext (length gs) (fun k => s_upd (opt_run P n s (firstn (S k) (gs ++ [g]))) j o) (fun k => s_upd (opt_run P n s (firstn (S k) gs)) j o)); [ring|].
  intros k Hk. rewrite firstn_app. replace (S k - length gs)%nat with 0%nat by lia. cbn [firstn]. now rewrite app_nil_r.
Qed.

Lemma rs_shift_pow T a c f : rs T (fun k => a ^ (T - k) * (c * f k)) = a * rs T (fun k => a ^ (T - 1 - k) * (c * f k)).
Proof. rewrite <- rs_scale. apply rs_ext. intros k Hk. replace (T - k)%nat with (S (T - 1 - k)) by lia. cbn [pow]. ring. Qed.

(* the velocity of SGD *)
Lemma sgd_velocity P n theta gs j o : o_var P = VSgd -> 0 <= o_mom P -> c_prev (cells P (opt_run P n (opt_new P theta) gs) j o) =
  rs (length gs) (fun k => o_mom P ^ (length gs - 1 - k) * (- eta P (S k) / sqrt (INR (S k)) * clipped P n (gk gs k) j o)).
Proof.
  intros HV HM. induction gs as [|g gs IH] using rev_ind; [reflexivity|]. rewrite run_snoc, step_cells, cell_prev, app_length, Nat.add_1_r.
  cbn [rs]. rewrite gk_last. replace (S (length gs) - 1 - length gs)%nat with 0%nat by lia. cbn [pow].
  rewrite (rs_ext (length gs) _ (fun k => o_mom P * (o_mom P ^ (length gs - 1 - k) * (- eta P (S k) / sqrt (INR (S k)) * clipped P n (gk gs k) j o)))).
  2:{ intros k Hk. rewrite gk_app1 by exact Hk. replace (S (length gs) - 1 - k)%nat with (S (length gs - 1 - k)) by lia. cbn [pow]. ring. }
  rewrite rs_scale, <- IH. unfold cell_update. rewrite HV, run_t. cbn [fst opt_new s_t Nat.add].
  replace (1 * INR (S (length gs))) with (INR (S (length gs))) by ring. destruct (rltb_spec 0 (o_mom P)) as [H|H].
  - unfold Rdiv. ring.
  - assert (o_mom P = 0) as -> by lra. unfold Rdiv. ring.
Qed.
(* the moments of Adam *)
Lemma adam_moments P n theta gs j o : o_var P = VAdam -> let c := cells P (opt_run P n (opt_new P theta) gs) j o in
  c_m c = rs (length gs) (fun k => o_b1 P ^ (length gs - 1 - k) * ((1 - o_b1 P) * clipped P n (gk gs k) j o)) /\
  c_v c = rs (length gs) (fun k => o_b2 P ^ (length gs - 1 - k) * ((1 - o_b2 P) * (clipped P n (gk gs k) j o * clipped P n (gk gs k) j o))).
Proof.
  intros HV. induction gs as [|g gs IH] using rev_ind; [split; reflexivity|]. destruct IH as [I1 I2]. rewrite run_snoc, step_cells, app_length, Nat.add_1_r.
  cbn [rs]. rewrite gk_last. replace (S (length gs) - 1 - length gs)%nat with 0%nat by lia. cbn [pow].
  unfold cell_update. rewrite HV. cbn [snd c_m c_v]. rewrite I1, I2. split.
  - rewrite <- rs_scale. rewrite (rs_ext (length gs) (fun i => o_b1 P * _) (fun k => o_b1 P ^ (S (length gs) - 1 - k) * ((1 - o_b1 P) * clipped P n (gk (gs ++ [g]) k) j o))); [ring|].
    intros k Hk. rewrite gk_app1 by exact Hk. replace (S (length gs) - 1 - k)%nat with (S (length gs - 1 - k)) by lia. cbn [pow]. ring.
  - rewrite <- rs_scale. rewrite (rs_ext (length gs) (fun i => o_b2 P * _) (fun k => o_b2 P ^ (S (length gs) - 1 - k) * ((1 - o_b2 P) * (clipped P n (gk (gs ++ [g]) k) j o * clipped P n (gk (gs ++ [g]) k) j o)))); [ring|].
    intros k Hk. rewrite gk_app1 by exact Hk. replace (S (length gs) - 1 - k)%nat with (S (length gs - 1 - k)) by lia. cbn [pow]. ring.
Qed.
Lemma geo b T : rs T (fun k => b ^ (T - 1 - k) * (1 - b)) = 1 - b ^ T.
Proof.
  induction T as [|T IH]; [cbn; ring|]. cbn [rs]. replace (S T - 1 - T)%nat with 0%nat by lia. cbn [pow].
  rewrite (rs_ext T _ (fun k => b * (b ^ (T - 1 - k) * (1 - b)))). 2:{ intros k Hk. replace (S T - 1 - k)%nat with (S (T - 1 - k)) by lia. cbn [pow]. ring. }
  rewrite rs_scale, IH. ring.
Qed.
Lemma pow_lt1 b T : 0 <= b < 1 -> (0 < T)%nat -> 0 <= b ^ T < 1.
Proof.
  intros H HT. destruct T as [|T]; [lia|]. clear HT. induction T as [|T IH]; [cbn; lra|]. cbn [pow] in *. nra.
Qed.
(* a weighted mean lies where its terms do *)
Lemma mean_in b T f lo hi : 0 <= b < 1 -> (0 < T)%nat -> (forall k, (k < T)%nat -> lo <= f k <= hi) ->
  lo <= rs T (fun k => b ^ (T - 1 - k) * ((1 - b) * f k)) / (1 - b ^ T) <= hi.
Proof.
  intros Hb HT H. pose proof (pow_lt1 b T Hb HT) as HP. assert (HD : 0 < 1 - b ^ T) by lra.
  assert (A : forall c, rs T (fun k => b ^ (T - 1 - k) * ((1 - b) * c)) = c * (1 - b ^ T)).
  { intros c. rewrite <- geo, <- rs_scale. apply rs_ext. intros; ring. }
  split.
  - apply Rmult_le_reg_r with (1 - b ^ T); [exact HD|]. unfold Rdiv. rewrite Rmult_assoc, Rinv_l, Rmult_1_r by lra. rewrite <- A. apply rs_le. intros k Hk.
    apply Rmult_le_compat_l; [apply pow_le; lra|]. apply Rmult_le_compat_l; [lra|]. now apply H.
  - apply Rmult_le_reg_r with (1 - b ^ T); [exact HD|]. unfold Rdiv. rewrite Rmult_assoc, Rinv_l, Rmult_1_r by lra. rewrite <- A. apply rs_le. intros k Hk.
    apply Rmult_le_compat_l; [apply pow_le; lra|]. apply Rmult_le_compat_l; [lra|]. now apply H.
Qed.
Lemma adagrad_G P n theta gs j o : o_var P = VAdagrad -> c_G (cells P (opt_run P n (opt_new P theta) gs) j o) = o_eps P + rs (length gs) (fun k => clipped P n (gk gs k) j o * clipped P n (gk gs k) j o).
Proof.
  intros HV. induction gs as [|g gs IH] using rev_ind; [cbn; ring|]. rewrite run_snoc, step_cells, app_length, Nat.add_1_r. cbn [rs]. rewrite gk_last.
  unfold cell_update. rewrite HV. cbn [snd c_G]. rewrite IH. rewrite (rs_ext (length gs) (fun k => clipped P n (gk (gs ++ [g]) k) j o * _) (fun k => clipped P n (gk gs k) j o * clipped P n (gk gs k) j o)); [ring|].
  intros k Hk. now rewrite gk_app1.
Qed.
Lemma rms_G P n theta gs j o : o_var P = VRMSProp -> 0 <= o_eps P <= 1 -> 0 <= o_gamma P <= 1 -> (forall k, (k < length gs)%nat -> Rabs (clipped P n (gk gs k) j o) <= 1) ->
  0 <= c_G (cells P (opt_run P n (opt_new P theta) gs) j o) <= 1.
Proof.
  intros HV HE HG. induction gs as [|g gs IH] using rev_ind; intros H; [cbn; lra|]. rewrite run_snoc, step_cells. unfold cell_update. rewrite HV. cbn [snd c_G].
  assert (B : Rabs (clipped P n g j o) <= 1). { specialize (H (length gs)). rewrite gk_last in H. apply H. rewrite app_length. cbn. lia. }
  specialize (IH ltac:(intros k Hk; rewrite <- (gk_app1 gs g k Hk); apply H; rewrite app_length; lia)).
  set (G := c_G _) in *. set (x := clipped P n g j o) in *. assert (0 <= x * x <= 1).
  { split; [nra|]. rewrite <- (Rabs_pos_eq (x * x)) by nra. rewrite Rabs_mult. assert (0 <= Rabs x) by apply Rabs_pos. nra. }
  split.
  - assert (0 <= G * o_gamma P) by nra. assert (0 <= (1 - o_gamma P) * (x * x)) by nra. lra.
  - assert (G * o_gamma P <= o_gamma P) by nra. assert ((1 - o_gamma P) * (x * x) <= 1 - o_gamma P) by nra. lra.
Qed.
