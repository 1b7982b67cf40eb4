(* Lemmas about FloatNetModel *)
From Coq Require Import Reals ZArith List Bool Lia Lra.
From Flocq Require Import Core.Core IEEE754.BinarySingleNaN Plus_error Relative.
From Verif Require Import FloatModel FloatProofs FloatDistProofs FloatScoreModel FloatScoreProofs FloatRegProofs FloatNetModel.
Import ListNotations.
Open Scope R_scope.

(* the sum of the values *)
Definition rsum (l : list f64) : R := fold_right (fun v s => val v + s) 0 l.
Notation uu := (bpow radix2 (-53)).

Lemma fle0_nn x : fle f0 x = true -> nn x.
Proof.
  destruct x as [s|s| |s m e B]; intros H; try (cbn in H |- *; lra || discriminate).
  - destruct s; [discriminate H|reflexivity].
  - destruct s; [discriminate H|]. cbn. unfold F2R. cbn. pose proof (bpow_gt_0 radix2 e). assert (0 < IZR (Z.pos m)) by (apply IZR_lt; lia). nra.
Qed.

Lemma add_rel x y : fmt x -> fmt y -> exists d, Rabs d <= uu /\ rnd (x + y) = (x + y) * (1 + d).
Proof.
  intros Fx Fy. destruct (FLT_plus_error_N_ex radix2 (-1074) 53 (fun x => negb (Z.even x)) x y Fx Fy) as (d & Hd & E). exists d. split; [|exact E].
  rewrite u_eq in Hd. pose proof u_small. assert (uu / (1 + uu) <= uu).
  { apply Rmult_le_reg_r with (1 + uu); [lra|]. unfold Rdiv. rewrite Rmult_assoc, Rinv_l by lra. nra. }
  lra.
Qed.

Lemma rnd_err x : Rabs (rnd x - x) <= uu * Rabs x + bpow radix2 (-1075).
Proof.
  pose proof u_small. pose proof (bpow_gt_0 radix2 (-1075)). pose proof (Rabs_pos x). destruct (Rle_or_lt (bpow radix2 (-1022)) (Rabs x)) as [H2|H2].
  - apply rnd_rel in H2. assert (uu / (1 + uu) <= uu).
    { apply Rmult_le_reg_r with (1 + uu); [lra|]. unfold Rdiv. rewrite Rmult_assoc, Rinv_l by lra. nra. }
    nra.
  - unfold rnd. change fx with (FLT_exp (-1074) 53). pose proof (error_le_half_ulp radix2 (FLT_exp (-1074) 53) (fun x => negb (Z.even x)) x) as H3.
    rewrite ulp_FLT_small in H3. 2:{ exact _. } 2:{ apply Rlt_trans with (1 := H2). apply bpow_lt. lia. }
    assert (E : / 2 * bpow radix2 (-1074) = bpow radix2 (-1075)). { change (-1074)%Z with (1 + -1075)%Z. rewrite bpow_plus. change (bpow radix2 1) with 2. lra. }
    rewrite E in H3. assert (0 <= uu * Rabs x) by (apply Rmult_le_pos; lra). lra.
Qed.

Lemma rsum_nonneg l : Forall nn l -> 0 <= rsum l.
Proof. induction 1 as [|v l N _ IH]; [apply Rle_refl|]. apply nn_val in N. change (0 <= val v + rsum l). lra. Qed.

Lemma fsum_bounds l : Forall nn l -> forall a A j, nn a -> 0 <= A -> (1 - uu) ^ j * A <= val a <= (1 + uu) ^ j * A -> finite (fold_left fadd l a) = true ->
  (1 - uu) ^ (j + length l) * (A + rsum l) <= val (fold_left fadd l a) <= (1 + uu) ^ (j + length l) * (A + rsum l).
Proof.
  induction 1 as [|v l Nv N IH]; intros a A j Na PA Ha F; cbn [fold_left length rsum fold_right] in *.
  - rewrite Nat.add_0_r, Rplus_0_r. exact Ha.
  - fold (rsum l). replace (A + (val v + rsum l)) with ((A + val v) + rsum l) by ring. replace (j + S (length l))%nat with (S j + length l)%nat by lia.
    pose proof (nn_val _ Nv) as Pv. apply IH; [now apply nn_add|lra| |exact F].
    destruct (fsum_mono l N (fadd a v) (nn_add _ _ Na Nv) F) as (Fa & _). rewrite (fadd_fin _ _ Fa). destruct (add_rel (val a) (val v) (fmt_val a) (fmt_val v)) as (d & Hd & E). rewrite E.
    apply Rabs_le_inv in Hd. pose proof u_small as Hu. assert (P1 : 0 <= (1 - uu) ^ j <= 1).
    { split; [apply pow_le; lra|]. apply Rle_trans with (1 ^ j); [apply pow_incr; lra|rewrite pow1; lra]. }
    assert (P2 : 1 <= (1 + uu) ^ j) by (apply pow_R1_Rle; lra).
    pose proof (nn_val _ Na) as Pa. cbn [pow]. clear IH F E. generalize dependent uu. intros u Ha Hd Hu P1 P2. assert (Ps : 0 <= val a + val v) by lra. split.
    + apply Rle_trans with ((1 - u) * (val a + val v)); [|clear - Ps Hd; nra]. rewrite Rmult_assoc. apply Rmult_le_compat_l; [lra|]. nra.
    + apply Rle_trans with ((1 + u) * (val a + val v)); [clear - Ps Hd; nra|]. rewrite Rmult_assoc. apply Rmult_le_compat_l; [lra|]. nra.
Qed.

Lemma div_01 v s : finite v = true -> 0 <= val v <= val s -> 0 < val s -> finite (fdiv v s) = true /\ val (fdiv v s) = rnd (val v / val s) /\ 0 <= val (fdiv v s) <= 1.
Proof.
  intros Fv Hv Ps. assert (Q : 0 <= val v / val s <= 1).
  { split; [apply Rmult_le_pos; [lra|left; now apply Rinv_0_lt_compat]|]. apply Rmult_le_reg_r with (val s); [exact Ps|]. unfold Rdiv. rewrite Rmult_assoc, Rinv_l by lra. lra. }
  assert (RR : 0 <= rnd (val v / val s) <= 1) by (split; [now apply rnd_nonneg|apply Rle_trans with (rnd 1); [apply rnd_le; lra|rewrite (rnd_fmt 1 fmt_1); lra]]).
  destruct (fdiv_val v s Fv) as [A B]; [lra| |].
  - rewrite Rabs_pos_eq by lra. apply Rle_lt_trans with 1; [lra|exact one_big].
  - rewrite A. auto.
Qed.

Lemma probs_bounds l s : Forall nn l -> (forall v, In v l -> finite v = true /\ val v <= val s) -> 0 < val s ->
  (1 - uu) * (rsum l / val s) - INR (length l) * bpow radix2 (-1075) <= rsum (map (fun v => fdiv v s) l) <= (1 + uu) * (rsum l / val s) + INR (length l) * bpow radix2 (-1075).
Proof.
  intros N. induction N as [|v l Nv N IH]; intros H Ps; [cbn; lra|]. cbn [map rsum fold_right]. fold (rsum l). fold (rsum (map (fun w => fdiv w s) l)).
  assert (H' := IH (fun w I => H w (or_intror I)) Ps). destruct (H v (or_introl eq_refl)) as [Fv Lv]. pose proof (nn_val _ Nv) as Pv.
  destruct (div_01 v s Fv (conj Pv Lv) Ps) as (_ & E & _). pose proof (rnd_err (val v / val s)) as R. assert (Q : 0 <= val v / val s) by (apply Rmult_le_pos; [lra|left; now apply Rinv_0_lt_compat]).
  rewrite (Rabs_pos_eq (val v / val s)) in R by exact Q. apply Rabs_le_inv in R. rewrite E. change (length (v :: l)) with (S (length l)). rewrite S_INR. replace ((val v + rsum l) / val s) with (val v / val s + rsum l / val s) by (unfold Rdiv; ring). nra.
Qed.

Lemma max_go_spec l : forall i mi m, (forall v, In v l -> finite v = true) -> finite m = true ->
  exists w, finite w = true /\ val m <= val w /\ (forall v, In v l -> val v <= val w) /\ ((max_go l i mi m = mi /\ w = m) \/ exists k, max_go l i mi m = (i + k)%nat /\ nth_error l k = Some w).
Proof.
  induction l as [|v l IH]; intros i mi m F Fm; [exists m; cbn; repeat split; auto; lra || contradiction|]. cbn [max_go]. pose proof (F v (or_introl eq_refl)) as Fv.
  destruct (flt m v) eqn:E.
  - apply flt_val in E; [|assumption|assumption]. destruct (IH (S i) i v (fun w I => F w (or_intror I)) Fv) as (w & Fw & Lw & Aw & C). exists w. split; [exact Fw|]. split; [lra|]. split; [intros x [<-|I]; auto|]. right.
    destruct C as [[C ->]|(k & C & D)]; [exists 0%nat; rewrite Nat.add_0_r; auto|exists (S k); rewrite C; split; [lia|exact D]].
  - assert (G : val v <= val m) by (apply Rnot_lt_le; intros L; apply flt_val in L; [congruence|assumption|assumption]).
    destruct (IH (S i) mi m (fun w I => F w (or_intror I)) Fm) as (w & Fw & Lw & Aw & C). exists w. split; [exact Fw|]. split; [exact Lw|]. split; [intros x [<-|I]; [lra|auto]|].
    destruct C as [C|(k & C & D)]; [left; exact C|right; exists (S k); rewrite C; split; [lia|exact D]].
Qed.
Lemma max_idx_spec l : l <> [] -> (forall v, In v l -> finite v = true) -> exists w, nth_error l (max_idx l) = Some w /\ forall v, In v l -> val v <= val w.
Proof.
  intros N F. destruct l as [|x l]; [congruence|]. unfold max_idx. cbn [hd]. destruct (max_go_spec (x :: l) 0 0 x F (F x (or_introl eq_refl))) as (w & _ & _ & A & [[C ->]|(k & C & D)]); rewrite C.
  - exists x. split; [reflexivity|exact A].
  - exists w. split; [exact D|exact A].
Qed.

Definition flat (v : f64) : Prop := (exists s, v = B754_zero s) \/ v = B754_nan.
Lemma max_go_flat l : forall i mi m, flat m -> (forall v, In v l -> flat v) -> max_go l i mi m = mi.
Proof. induction l as [|v l IH]; intros i mi m Hm H; [reflexivity|]. cbn [max_go]. destruct (H v (or_introl eq_refl)) as [[s ->] | ->]; destruct Hm as [[t ->] | ->]; cbn; apply IH; try (left; eexists; reflexivity); try (right; reflexivity); intros w I; apply H; now right. Qed.

Lemma nn_inf_add a : nn a -> fadd a (B754_infinity false) = B754_infinity false /\ fadd (B754_infinity false) a = B754_infinity false.
Proof. destruct a as [s|s| |s m e B]; cbn; intros N; try contradiction; subst; split; reflexivity. Qed.
Lemma fsum_inf_start l : Forall nn l -> fold_left fadd l (B754_infinity false) = B754_infinity false.
Proof. induction 1 as [|v l N _ IH]; cbn [fold_left]; [reflexivity|]. rewrite (proj2 (nn_inf_add v N)). exact IH. Qed.
Lemma fsum_inf l : Forall nn l -> In (B754_infinity false) l -> forall a, nn a -> fold_left fadd l a = B754_infinity false.
Proof.
  induction 1 as [|v l N F IH]; intros I a Na; [destruct I|]. cbn [fold_left]. destruct I as [->|I]; [rewrite (proj1 (nn_inf_add a Na)); now apply fsum_inf_start|apply IH; [exact I|now apply nn_add]].
Qed.
Lemma div_inf v : nn v -> flat (fdiv v (B754_infinity false)) /\ (finite v = false -> fdiv v (B754_infinity false) = B754_nan).
Proof. destruct v as [s|s| |s m e B]; cbn; intros N; try contradiction; split; intros; try discriminate; try reflexivity; try (left; eexists; reflexivity); right; reflexivity. Qed.

(* the clipped values *)
Lemma hmin_val : finite hmin = true /\ 0 < val hmin. Proof. split; [reflexivity|]. apply (proj1 (flt_val f0 hmin eq_refl eq_refl)). vm_compute. reflexivity. Qed.
Lemma hmax_val : finite hmax = true /\ val hmin <= val hmax < 1.
Proof.
  split; [reflexivity|]. split.
  - apply Rlt_le, (proj1 (flt_val hmin hmax eq_refl eq_refl)). vm_compute. reflexivity.
  - replace 1 with (val f1) by exact (proj1 f1_val). apply (proj1 (flt_val hmax f1 eq_refl eq_refl)). vm_compute. reflexivity.
Qed.
Lemma clip_ok h : is_nan h = false -> finite (clip h) = true /\ val hmin <= val (clip h) <= val hmax.
Proof.
  intros N. unfold clip. pose proof hmin_val as [Fm Pm]. pose proof hmax_val as [FM LM]. destruct (flt h hmin) eqn:A; [split; [exact Fm|lra]|]. destruct (flt hmax h) eqn:B; [split; [exact FM|lra]|].
  assert (F : finite h = true).
  { destruct h as [s|s| |s m e P]; try reflexivity; try discriminate N. destruct s; vm_compute in A, B; discriminate. }
  split; [exact F|]. split; apply Rnot_lt_le; intros C; apply flt_val in C; try assumption; congruence.
Qed.

Lemma y01 y : feq y f0 = true \/ feq y f1 = true -> finite y = true /\ (val y = 0 \/ val y = 1).
Proof.
  intros H. assert (F : finite y = true). { destruct y as [s|s| |s m e P]; try reflexivity; exfalso; destruct H as [H|H]; try (destruct s); vm_compute in H; discriminate. }
  split; [exact F|]. destruct H as [H|H]; apply feq_val in H; try assumption; try reflexivity; [left; exact H|right; rewrite H; exact (proj1 f1_val)].
Qed.
Lemma mul_exact x y : finite x = true -> finite y = true -> val x = 0 \/ val x = 1 \/ val x = -1 -> finite (fmul x y) = true /\ val (fmul x y) = val x * val y.
Proof.
  intros Fx Fy H. assert (E : rnd (val x * val y) = val x * val y).
  { destruct H as [H|[H|H]]; rewrite H; [rewrite Rmult_0_l; apply rnd_0|rewrite Rmult_1_l; apply rnd_fmt, fmt_val|replace (-1 * val y) with (- val y) by ring; rewrite rnd_opp; f_equal; apply rnd_fmt, fmt_val]. }
  destruct (fmul_val x y Fx Fy) as [A B]; [|split; [exact B|now rewrite A]]. rewrite E. pose proof (val_big y Fy) as G. destruct H as [H|[H|H]]; rewrite H.
  - rewrite Rmult_0_l, Rabs_R0. apply bpow_gt_0.
  - now rewrite Rmult_1_l.
  - replace (-1 * val y) with (- val y) by ring. now rewrite Rabs_Ropp.
Qed.
Lemma one_minus y : finite y = true -> val y = 0 \/ val y = 1 -> finite (fsub f1 y) = true /\ val (fsub f1 y) = 1 - val y.
Proof.
  intros F H. destruct f1_val as [V1 F1]. assert (E : rnd (val f1 - val y) = 1 - val y).
  { rewrite V1. destruct H as [-> | ->]; [rewrite Rminus_0_r; apply rnd_fmt, fmt_1|rewrite Rminus_diag_eq by reflexivity; apply rnd_0]. }
  destruct (fsub_val f1 y F1 F) as [A B]; [|split; [exact B|now rewrite A]]. rewrite E. destruct H as [-> | ->]; [rewrite Rminus_0_r, Rabs_R1; exact one_big|rewrite Rminus_diag_eq, Rabs_R0 by reflexivity; apply bpow_gt_0].
Qed.

Lemma clip_in h : is_nan h = false -> finite (clip h) = true /\ 0 < val (clip h) < 1.
Proof. intros N. destruct (clip_ok h N) as [F C]. pose proof hmin_val as [_ P]. pose proof hmax_val as [_ Q]. split; [exact F|lra]. Qed.
(* nothing finite lies between 0 and the one clipped value or between the other and 1 *)
Lemma inside (g : f64) : finite g = true -> 0 < val g < 1 -> val hmin <= val g <= val hmax.
Proof.
  intros F [P Q]. destruct f1_val as [V1 F1]. split.
  - pose proof (Bsucc_correct 53 1024 prec53 prec53_emax f0 eq_refl) as C. fold hmin in C. assert (L : succ radix2 fx 0 <= val g) by (apply succ_le_lt; [exact fx_valid|apply generic_format_0|apply fmt_val|exact P]).
    change (val f0) with 0 in C. rewrite Rlt_bool_true in C by (apply Rle_lt_trans with (1 := L); apply Rle_lt_trans with (1 := Rle_abs _); now apply val_big). destruct C as [-> _]. exact L.
  - pose proof (Bpred_correct 53 1024 prec53 prec53_emax f1 F1) as C. fold hmax in C. rewrite V1 in C. assert (L : val g <= pred radix2 fx 1) by (apply pred_ge_gt; [exact fx_valid|apply fmt_val|exact fmt_1|exact Q]).
    pose proof (bpow_gt_0 radix2 1024) as B. rewrite Rlt_bool_true in C by lra. destruct C as [-> _]. exact L.
Qed.
Lemma clip_id h : finite h = true -> 0 < val h < 1 -> clip h = h.
Proof.
  intros F H. destruct (inside h F H) as [A B]. unfold clip. pose proof hmin_val as [Fm Pm]. pose proof hmax_val as [FM LM]. destruct (flt h hmin) eqn:E; [apply flt_val in E; try assumption; lra|]. destruct (flt hmax h) eqn:G; [apply flt_val in G; try assumption; lra|reflexivity].
Qed.
Lemma clip_low h : finite h = true -> val h <= 0 -> clip h = hmin.
Proof. intros F H. unfold clip. pose proof hmin_val as [Fm Pm]. replace (flt h hmin) with true; [reflexivity|]. symmetry. apply flt_val; [exact F|exact Fm|lra]. Qed.
Lemma clip_high h : finite h = true -> 1 <= val h -> clip h = hmax.
Proof.
  intros F H. unfold clip. pose proof hmin_val as [Fm Pm]. pose proof hmax_val as [FM LM]. destruct (flt h hmin) eqn:E; [apply flt_val in E; try assumption; lra|]. replace (flt hmax h) with true; [reflexivity|]. symmetry. apply flt_val; [exact FM|exact F|lra].
Qed.

(* Log and Log1p where the losses use them *)
Definition log_ok (ln : f64 -> f64) : Prop := forall h, finite h = true -> 0 < val h < 1 -> finite (ln h) = true /\ val (ln h) <= 0.
Definition log1p_ok (ln1 : f64 -> f64) : Prop := forall h, finite h = true -> 0 < val h < 1 -> finite (ln1 (fneg h)) = true /\ val (ln1 (fneg h)) <= 0.

Lemma log_term ln y h : log_ok ln -> feq y f0 = true \/ feq y f1 = true -> is_nan h = false -> finite (fmul (fneg y) (ln (clip h))) = true /\ val (fmul (fneg y) (ln (clip h))) = - (val y * val (ln (clip h))).
Proof.
  intros L Y N. destruct (clip_in h N) as [Fc Hc]. destruct (L _ Fc Hc) as [Fl _]. destruct (y01 y Y) as [Fy Vy]. destruct (fneg_val y) as [Vn Fn]. rewrite Fy in Fn.
  destruct (mul_exact (fneg y) (ln (clip h)) Fn Fl) as [A B]; [rewrite Vn; lra|]. split; [exact A|]. rewrite B, Vn. ring.
Qed.
Lemma bin_term_val ln ln1 y h : log_ok ln -> log1p_ok ln1 -> feq y f0 = true \/ feq y f1 = true -> is_nan h = false ->
  finite (bin_term ln ln1 (y, h)) = true /\ val (bin_term ln ln1 (y, h)) = (if feq y f0 then - val (ln1 (fneg (clip h))) else - val (ln (clip h))).
Proof.
  intros L L1 Y N. destruct (log_term ln y h L Y N) as [A VA]. destruct (clip_in h N) as [Fc Hc]. destruct (L1 _ Fc Hc) as [Fl _]. destruct (L _ Fc Hc) as [Fl0 _]. destruct (y01 y Y) as [Fy Vy]. destruct (one_minus y Fy Vy) as [Fs Vs].
  destruct (mul_exact (fsub f1 y) (ln1 (fneg (clip h))) Fs Fl) as [B VB]; [rewrite Vs; lra|]. unfold bin_term. cbn [fst snd].
  assert (G : (if feq y f0 then - val (ln1 (fneg (clip h))) else - val (ln (clip h))) = val (fmul (fneg y) (ln (clip h))) - val (fmul (fsub f1 y) (ln1 (fneg (clip h))))).
  { rewrite VA, VB, Vs. destruct (feq y f0) eqn:E.
    - apply feq_val in E; [|exact Fy|reflexivity]. rewrite E. change (val f0) with 0. ring.
    - destruct Vy as [V|V]; [|rewrite V; ring]. exfalso. assert (X : feq y f0 = true) by (apply feq_val; [exact Fy|reflexivity|exact V]). congruence. }
  rewrite G. assert (Fm : exists w : f64, finite w = true /\ (if feq y f0 then - val (ln1 (fneg (clip h))) else - val (ln (clip h))) = val w).
  { destruct (feq y f0); [exists (fneg (ln1 (fneg (clip h))))|exists (fneg (ln (clip h)))]; (split; [|symmetry; apply fneg_val]); rewrite (proj2 (fneg_val _)); assumption. }
  destruct Fm as (w & Fw & Ew). rewrite G in Ew. destruct (fsub_val _ _ A B) as [S1 S2]; rewrite Ew, ?(rnd_fmt _ (fmt_val w)) in *; [now apply val_big|]. split; [exact S2|exact S1].
Qed.
Lemma fold_terms {X} (f : X -> f64) (skip : X -> bool) l : (forall p, In p l -> skip p = false -> nn (f p)) -> forall a, nn a -> nn (fold_left (fun s p => if skip p then s else fadd s (f p)) l a).
Proof. induction l as [|p l IH]; intros H a Na; cbn [fold_left]; [exact Na|]. apply IH; [intros q I; apply H; now right|]. destruct (skip p) eqn:E; [exact Na|]. apply nn_add; [exact Na|apply H; [now left|exact E]]. Qed.
Lemma fold_nan {X} (f : X -> f64) (skip : X -> bool) l : fold_left (fun s p => if skip p then s else fadd s (f p)) l B754_nan = B754_nan.
Proof. induction l as [|p l IH]; cbn [fold_left]; [reflexivity|]. destruct (skip p); [exact IH|]. replace (fadd B754_nan (f p)) with (B754_nan : f64) by (destruct (f p); reflexivity). exact IH. Qed.
Lemma fold_nan_in {X} (f : X -> f64) (skip : X -> bool) l p : In p l -> skip p = false -> f p = B754_nan -> forall a, fold_left (fun s p => if skip p then s else fadd s (f p)) l a = B754_nan.
Proof.
  intros I S E. induction l as [|q l IH]; [destruct I|]. intros a. cbn [fold_left]. destruct I as [->|I]; [|now apply IH]. rewrite S, E. replace (fadd a B754_nan) with (B754_nan : f64) by (destruct a as [[]|[]| |]; reflexivity). apply fold_nan.
Qed.
Lemma clip_nan : clip B754_nan = B754_nan. Proof. reflexivity. Qed.
Lemma logistic_01 x : nn x -> let p := fdiv f1 (fadd f1 x) in finite p = true /\ 0 <= val p <= 1.
Proof.
  intros N. destruct f1_val as [V1 F1]. assert (N1 : nn f1) by (apply nn_fin; [exact F1|lra]). pose proof (nn_add f1 x N1 N) as Nd. cbv zeta. destruct (finite (fadd f1 x)) eqn:F.
  - pose proof (fadd_fin _ _ F) as E. pose proof (nn_val _ N) as P. assert (G : 1 <= val (fadd f1 x)).
    { rewrite E, V1. apply Rle_trans with (rnd 1); [rewrite (rnd_fmt 1 fmt_1); lra|apply rnd_le; lra]. }
    destruct (div_01 f1 (fadd f1 x) F1) as (A & _ & B); [rewrite V1; lra|lra|]. split; [exact A|exact B].
  - destruct (fadd f1 x) as [s|s| |s m e B]; try discriminate F; [|destruct Nd]. cbn in Nd. subst s. cbn. split; [reflexivity|lra].
Qed.
