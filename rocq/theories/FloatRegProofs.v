(* Proofs about FloatScoreModel: F-score, regression scores and bins *)
From Coq Require Import Reals ZArith List Bool Lia Lra.
From Flocq Require Import Core.Core IEEE754.BinarySingleNaN.
From Verif Require Import FloatModel FloatProofs FloatDistProofs FloatScoreModel FloatScoreProofs.
Import ListNotations.
Open Scope R_scope.

Lemma small_big x : Rabs x <= 4 -> Rabs x < big.
Proof. intros H. apply Rle_lt_trans with 4; [exact H|]. change 4 with (bpow radix2 2). apply bpow_lt. reflexivity. Qed.
Lemma u_le1 : bpow radix2 (-53) <= 1.
Proof. change 1 with (bpow radix2 0). apply bpow_le. discriminate. Qed.
(* precision and recall *)
Lemma f_prec_val tp pr k n : isnat tp k -> isnat pr n -> (k <= n)%nat -> (Z.of_nat n <= 2 ^ 53)%Z ->
  finite (f_prec tp pr) = true /\ val (f_prec tp pr) = (if Nat.eqb n 0 then 0 else rnd (IZR (Z.of_nat k) / IZR (Z.of_nat n))) /\ 0 <= val (f_prec tp pr) <= 1 /\
  ((0 < k)%nat -> bpow radix2 (-53) <= val (f_prec tp pr)) /\ ((0 < n)%nat -> k = n -> val (f_prec tp pr) = 1).
Proof.
  intros [Ft Vt] [Fp Vp] K H. unfold f_prec. destruct (flt f0 pr) eqn:E.
  - apply (flt_val f0 pr eq_refl Fp) in E. change (val f0) with (IZR 0) in E. rewrite Vp in E. apply lt_IZR in E. destruct (Nat.eqb_spec n 0) as [->|N]; [cbn in E; lia|].
    assert (P : 0 < IZR (Z.of_nat n)) by (apply IZR_lt; lia). assert (Q : 0 <= IZR (Z.of_nat k) <= IZR (Z.of_nat n)) by (split; apply IZR_le; lia).
    assert (B : 0 <= IZR (Z.of_nat k) / IZR (Z.of_nat n) <= 1).
    { split; [apply Rmult_le_pos; [lra|left; now apply Rinv_0_lt_compat]|]. apply Rmult_le_reg_r with (IZR (Z.of_nat n)); [exact P|]. unfold Rdiv. rewrite Rmult_assoc, Rinv_l; lra. }
    set (q := IZR (Z.of_nat k) / IZR (Z.of_nat n)) in *.
    assert (B' : 0 <= rnd q <= 1). { split; [now apply rnd_nonneg|]. rewrite <- (rnd_fmt 1 fmt_1). now apply rnd_le. }
    destruct (fdiv_val tp pr Ft) as [V F]; [rewrite Vp; lra|rewrite Vt, Vp; fold q; apply small_big; rewrite Rabs_pos_eq; lra|]. rewrite Vt, Vp in V. fold q in V. rewrite V. split; [exact F|]. split; [reflexivity|]. split; [exact B'|]. split.
    + intros K0. rewrite <- (Rabs_pos_eq (rnd q)) by lra. apply rnd_ge_bpow; [discriminate|]. rewrite Rabs_pos_eq by lra. unfold q. apply Rle_trans with (1 * / IZR (Z.of_nat n)).
      * rewrite Rmult_1_l. change (-53)%Z with (- (53))%Z. rewrite bpow_opp. apply Rinv_le_contravar; [exact P|]. change (bpow radix2 53) with (IZR (2 ^ 53)). now apply IZR_le.
      * apply Rmult_le_compat_r; [left; now apply Rinv_0_lt_compat|]. apply IZR_le. lia.
    + intros _ ->. unfold q, Rdiv. rewrite Rinv_r by lra. apply rnd_fmt, fmt_1.
  - assert (N : n = 0%nat). { destruct n; [reflexivity|]. exfalso. rewrite (proj2 (flt_val f0 pr eq_refl Fp)) in E; [discriminate|]. change (val f0) with (IZR 0). rewrite Vp. apply IZR_lt. lia. }
    subst n. replace k with 0%nat by lia. change (val f0) with 0. cbn [Nat.eqb]. split; [reflexivity|]. split; [reflexivity|]. split; [lra|]. split; intros; lia.
Qed.
Lemma fmt_2x x : fmt x -> fmt (2 * x).
Proof.
  intros F. apply FLT_format_generic in F; [|reflexivity]. destruct F as [[m e] E M X]. apply generic_format_FLT. apply (FLT_spec radix2 (SpecFloat.emin 53 1024) 53 _ (Float radix2 m (e + 1))); cbn [Fnum Fexp] in *; [|exact M|lia].
  rewrite E. unfold F2R. cbn [Fnum Fexp]. rewrite bpow_plus. change (bpow radix2 1) with 2. ring.
Qed.
Lemma f1_aux (o b p r : f64) : finite o = true -> val o = 1 -> finite b = true -> val b = 1 -> finite p = true -> finite r = true -> 0 <= val p <= 1 -> 0 <= val r <= 1 ->
  let z := (let d := fadd (fmul b p) r in if flt f0 d then fdiv (fmul (fmul (fadd o b) p) r) d else f0) in
  finite z = true /\ 0 <= val z <= 1 /\ val z = (if Rlt_bool 0 (rnd (val p + val r)) then rnd (rnd (2 * val p * val r) / rnd (val p + val r)) else 0).
Proof.
  intros Fo Vo Fb Vb Fp Fr Bp Br. cbv zeta.
  assert (A : val (fmul b p) = val p /\ finite (fmul b p) = true).
  { assert (E : rnd (val b * val p) = val p) by (rewrite Vb, Rmult_1_l; apply rnd_fmt, fmt_val). destruct (fmul_val b p Fb Fp) as [A B]; [rewrite E; apply small_big; rewrite Rabs_pos_eq; lra|]. rewrite A. auto. }
  destruct A as [A1 A2]. assert (R2 : rnd 2 = 2) by (apply rnd_fmt; change 2 with (IZR 2); apply fmt_int; lia). assert (D0 : 0 <= rnd (val p + val r) <= 2) by (split; [apply rnd_nonneg; lra|apply Rle_trans with (rnd 2); [apply rnd_le; lra|rewrite R2; lra]]).
  destruct (fadd_val (fmul b p) r A2 Fr) as [D1 D2]; [rewrite A1; apply small_big; rewrite Rabs_pos_eq; lra|]. rewrite A1 in D1. set (d := fadd (fmul b p) r) in *.
  assert (T : val (fadd o b) = 2 /\ finite (fadd o b) = true).
  { assert (E : rnd (val o + val b) = 2) by (rewrite Vo, Vb; replace (1 + 1) with 2 by ring; exact R2). destruct (fadd_val o b Fo Fb) as [A B]; [rewrite E; apply small_big; rewrite Rabs_pos_eq; lra|]. rewrite A. auto. }
  destruct T as [T1 T2]. assert (M : val (fmul (fadd o b) p) = 2 * val p /\ finite (fmul (fadd o b) p) = true).
  { assert (E : rnd (val (fadd o b) * val p) = 2 * val p) by (rewrite T1; apply rnd_fmt, fmt_2x, fmt_val). destruct (fmul_val (fadd o b) p T2 Fp) as [A B]; [rewrite E; apply small_big; rewrite Rabs_pos_eq; lra|]. rewrite A. auto. }
  destruct M as [M1 M2]. assert (W : 0 <= 2 * val p * val r <= val p + val r) by nra. assert (N0 : 0 <= rnd (2 * val p * val r) <= rnd (val p + val r)) by (split; [now apply rnd_nonneg|now apply rnd_le]).
  destruct (fmul_val (fmul (fadd o b) p) r M2 Fr) as [N1 N2]; [rewrite M1; apply small_big; rewrite Rabs_pos_eq; lra|]. rewrite M1 in N1.
  destruct (flt f0 d) eqn:E.
  - apply (flt_val f0 d eq_refl D2) in E. change (val f0) with 0 in E. rewrite D1 in E. rewrite Rlt_bool_true by exact E.
    assert (Q : 0 <= rnd (2 * val p * val r) / rnd (val p + val r) <= 1).
    { split; [apply Rmult_le_pos; [lra|left; now apply Rinv_0_lt_compat]|]. apply Rmult_le_reg_r with (rnd (val p + val r)); [exact E|]. unfold Rdiv. rewrite Rmult_assoc, Rinv_l; lra. }
    assert (Q' : 0 <= rnd (rnd (2 * val p * val r) / rnd (val p + val r)) <= 1). { split; [now apply rnd_nonneg|]. apply Rle_trans with (rnd 1); [now apply rnd_le|]. rewrite (rnd_fmt 1 fmt_1). lra. }
    destruct (fdiv_val (fmul (fmul (fadd o b) p) r) d N2) as [V F]; [rewrite D1; lra|rewrite N1, D1; apply small_big; rewrite Rabs_pos_eq; lra|]. rewrite N1, D1 in V. rewrite V. auto.
  - rewrite Rlt_bool_false; [change (val f0) with 0; split; [reflexivity|split; [lra|reflexivity]]|]. rewrite <- D1. apply Rnot_lt_le. intros L. rewrite (proj2 (flt_val f0 d eq_refl D2)) in E; [discriminate|]. exact L.
Qed.
Lemma f1_score p r : finite p = true -> finite r = true -> 0 <= val p <= 1 -> 0 <= val r <= 1 ->
  finite (f_score f1 p r) = true /\ 0 <= val (f_score f1 p r) <= 1 /\ val (f_score f1 p r) = (if Rlt_bool 0 (rnd (val p + val r)) then rnd (rnd (2 * val p * val r) / rnd (val p + val r)) else 0).
Proof.
  intros Fp Fr Bp Br. unfold f_score. destruct f1_val as [V1 F1]. assert (E : rnd (val f1 * val f1) = 1) by (rewrite V1, Rmult_1_l; apply rnd_fmt, fmt_1).
  destruct (fmul_val f1 f1 F1 F1) as [A B]; [rewrite E; apply small_big; rewrite Rabs_R1; lra|]. rewrite E in A. apply (f1_aux f1 (fmul f1 f1) p r); assumption.
Qed.
Lemma f1_score_pos p r : finite p = true -> finite r = true -> bpow radix2 (-53) <= val p <= 1 -> bpow radix2 (-53) <= val r <= 1 -> 0 < val (f_score f1 p r).
Proof.
  intros Fp Fr Bp Br. pose proof (bpow_gt_0 radix2 (-53)) as U. destruct (f1_score p r Fp Fr) as (_ & _ & ->); [lra|lra|].
  assert (D : bpow radix2 (-53) <= rnd (val p + val r) <= 2).
  { assert (R2 : rnd 2 = 2) by (apply rnd_fmt; change 2 with (IZR 2); apply fmt_int; lia). split; [|apply Rle_trans with (rnd 2); [apply rnd_le; lra|rewrite R2; lra]]. rewrite <- (rnd_fmt (bpow radix2 (-53))) by (apply fmt_bpow; discriminate). apply rnd_le. lra. }
  rewrite Rlt_bool_true by lra. assert (N : bpow radix2 (-106) <= rnd (2 * val p * val r)).
  { rewrite <- (rnd_fmt (bpow radix2 (-106))) by (apply fmt_bpow; discriminate). apply rnd_le. change (-106)%Z with (-53 + -53)%Z. rewrite bpow_plus. nra. }
  apply Rlt_le_trans with (bpow radix2 (-107)); [apply bpow_gt_0|]. rewrite <- (rnd_fmt (bpow radix2 (-107))) by (apply fmt_bpow; discriminate). apply rnd_le.
  apply Rmult_le_reg_r with (rnd (val p + val r)); [lra|]. unfold Rdiv. rewrite Rmult_assoc, Rinv_l, Rmult_1_r by lra. apply Rle_trans with (bpow radix2 (-107) * 2).
  - apply Rmult_le_compat_l; [apply bpow_ge_0|lra].
  - change 2 with (bpow radix2 1) at 1. rewrite <- bpow_plus. exact N.
Qed.

(* values that are neither NaN nor negative, possibly +Inf *)
Definition nn (x : f64) : Prop := match x with B754_nan => False | B754_infinity s => s = false | _ => 0 <= val x end.
Lemma nn_fin x : finite x = true -> 0 <= val x -> nn x. Proof. destruct x; cbn; intros; try discriminate; auto. Qed.
Lemma fin_nan (x : f64) : finite x = true -> is_nan x = false. Proof. destruct x; cbn; congruence. Qed.
Lemma nn_val x : nn x -> 0 <= val x. Proof. destruct x; cbn; try lra; auto. Qed.
Lemma inf_eq (x : f64) s : B2SF x = SpecFloat.S754_infinity s -> x = B754_infinity s.
Proof. destruct x; cbn; intros E; inversion E; reflexivity. Qed.
Lemma sign_neg (x : f64) : finite x = true -> Bsign x = true -> val x <= 0.
Proof. destruct x as [s|s| |s m e B]; cbn; intros F E; try discriminate; try lra. subst s. unfold F2R. cbn. pose proof (bpow_gt_0 radix2 e). assert (IZR (Z.neg m) < 0) by (apply IZR_lt; lia). nra. Qed.
Lemma nn_add x y : nn x -> nn y -> nn (fadd x y).
Proof.
  intros Nx Ny. destruct (finite x) eqn:Fx; [destruct (finite y) eqn:Fy|].
  - pose proof (Bplus_correct 53 1024 prec53 prec53_emax mode_NE x y Fx Fy) as C. change (round_mode mode_NE) with ZnearestE in C. fold (rnd (val x + val y)) in C. pose proof (nn_val x Nx) as Px. pose proof (nn_val y Ny) as Py.
    destruct (Rlt_bool (Rabs (rnd (val x + val y))) big) eqn:E.
    + destruct C as (A & B & _). apply nn_fin; unfold fadd; [exact B|]. rewrite A. apply rnd_nonneg. lra.
    + destruct C as [A S]. rewrite overflow_NE in A. unfold fadd. rewrite (inf_eq _ _ A). cbn. destruct (Bsign x) eqn:Sx; [|reflexivity]. exfalso. symmetry in S. apply (sign_neg x Fx) in Sx. apply (sign_neg y Fy) in S.
      replace (val x + val y) with 0 in E by lra. rewrite rnd_0, Rabs_R0, Rlt_bool_true in E by apply bpow_gt_0. discriminate.
  - destruct y; cbn in Fy, Ny; try discriminate; [|destruct Ny]. subst. destruct x; cbn in *; try discriminate; reflexivity.
  - destruct x; cbn in Fx, Nx; try discriminate; [|destruct Nx]. subst. destruct y; cbn in *; try reflexivity; [now subst|destruct Ny].
Qed.
Lemma nn_sq x : is_nan x = false -> nn (fmul x x).
Proof.
  intros N. pose proof (Bmult_correct 53 1024 prec53 prec53_emax mode_NE x x) as C. change (round_mode mode_NE) with ZnearestE in C. fold (rnd (val x * val x)) in C. unfold fmul.
  destruct (finite x) eqn:F; [|clear C; destruct x as [| [] | |]; cbn in F, N |- *; try discriminate; reflexivity].
  destruct (Rlt_bool (Rabs (rnd (val x * val x))) big).
  - destruct C as (A & B & _). rewrite ?F in B. apply nn_fin; [exact B|]. rewrite A. apply rnd_nonneg. nra.
  - rewrite overflow_NE, xorb_nilpotent in C. now rewrite (inf_eq _ _ C).
Qed.
Lemma sub_nan x y : finite x = true -> finite y = true -> is_nan (fsub x y) = false.
Proof.
  intros Fx Fy. pose proof (Bminus_correct 53 1024 prec53 prec53_emax mode_NE x y Fx Fy) as C. unfold fsub. destruct (Rlt_bool _ _).
  - destruct C as (_ & B & _). destruct (Bminus mode_NE x y); cbn in *; congruence.
  - destruct C as [A _]. rewrite overflow_NE in A. now rewrite (inf_eq _ _ A).
Qed.
Lemma sub_nan' x y : finite x = true -> is_nan y = false -> is_nan (fsub x y) = false.
Proof. intros Fx Ny. destruct (finite y) eqn:Fy; [now apply sub_nan|]. destruct y; cbn in Fy, Ny; try discriminate. destruct x; cbn in *; try discriminate; reflexivity. Qed.
Lemma add_nan x y : is_nan x = false -> finite y = true -> is_nan (fadd x y) = false.
Proof.
  intros Nx Fy. destruct (finite x) eqn:Fx.
  - pose proof (Bplus_correct 53 1024 prec53 prec53_emax mode_NE x y Fx Fy) as C. unfold fadd. destruct (Rlt_bool _ _).
    + destruct C as (_ & B & _). destruct (Bplus mode_NE x y); cbn in *; congruence.
    + destruct C as [A _]. rewrite overflow_NE in A. now rewrite (inf_eq _ _ A).
  - destruct x; cbn in Fx, Nx; try discriminate. destruct y; cbn in *; try discriminate; reflexivity.
Qed.
Lemma mul_nan x y : finite x = true -> val x <> 0 -> is_nan y = false -> is_nan (fmul x y) = false.
Proof.
  intros Fx Zx Ny. destruct (finite y) eqn:Fy.
  - pose proof (Bmult_correct 53 1024 prec53 prec53_emax mode_NE x y) as C. unfold fmul. destruct (Rlt_bool _ _).
    + destruct C as (_ & B & _). rewrite Fx, Fy in B. destruct (Bmult mode_NE x y); cbn in *; congruence.
    + rewrite overflow_NE in C. now rewrite (inf_eq _ _ C).
  - destruct y; cbn in Fy, Ny; try discriminate. destruct x; cbn in *; try discriminate; try reflexivity. congruence.
Qed.
Lemma fsum_nan l : Forall (fun v => finite v = true) l -> forall a, is_nan a = false -> is_nan (fold_left fadd l a) = false.
Proof. induction 1 as [|v l Fv F IH]; intros a N; [exact N|]. cbn. apply IH. now apply add_nan. Qed.
Lemma fsum_nn l : Forall nn l -> forall a, nn a -> nn (fold_left fadd l a).
Proof. induction 1 as [|v l Nv N IH]; intros a Na; [exact Na|]. cbn. apply IH. now apply nn_add. Qed.
Lemma fsum_mono l : Forall nn l -> forall a, nn a -> finite (fold_left fadd l a) = true ->
  finite a = true /\ val a <= val (fold_left fadd l a) /\ forall v, In v l -> finite v = true /\ val v <= val (fold_left fadd l a).
Proof.
  induction 1 as [|v l Nv N IH]; intros a Na F; cbn [fold_left] in *; [split; [exact F|split; [lra|intros v []]]|].
  destruct (IH (fadd a v) (nn_add _ _ Na Nv) F) as (A & B & C). destruct (fadd_inv _ _ A) as [Fa Fv]. pose proof (fadd_fin _ _ A) as E. pose proof (nn_val _ Na). pose proof (nn_val _ Nv).
  assert (La : val a <= val (fadd a v)) by (rewrite E; rewrite <- (rnd_fmt (val a)) at 1 by apply fmt_val; apply rnd_le; lra).
  assert (Lv : val v <= val (fadd a v)) by (rewrite E; rewrite <- (rnd_fmt (val v)) at 1 by apply fmt_val; apply rnd_le; lra).
  split; [exact Fa|]. split; [lra|]. intros w [<-|I]; [split; [exact Fv|lra]|now apply C].
Qed.
Lemma nn_0 : nn f0. Proof. cbn. lra. Qed.
Lemma ones_val {A} (l : list A) : forall a k, isnat a k -> (Z.of_nat (k + length l) <= 2 ^ 53)%Z -> isnat (fold_left fadd (map (fun _ => f1) l) a) (k + length l).
Proof. induction l as [|x l IH]; intros a k I H; cbn [map fold_left length] in *; [now rewrite Nat.add_0_r|]. replace (k + S (length l))%nat with (S k + length l)%nat by lia. apply IH; [apply isnat_S; [lia|exact I]|lia]. Qed.

(* squared and absolute differences *)
Lemma sqd_nn x y : finite x = true -> is_nan y = false -> nn (sqdiff x y).
Proof. intros Fx Ny. unfold sqdiff. apply nn_sq. now apply sub_nan'. Qed.
Lemma num_nn yt yp : Forall (fun v => finite v = true) yt -> Forall (fun v => finite v = true) yp -> Forall nn (map (fun p => sqdiff (snd p) (fst p)) (combine yt yp)).
Proof.
  intros Ft Fp. apply Forall_forall. intros z I. apply in_map_iff in I as ([x y] & <- & I). cbn [fst snd]. rewrite Forall_forall in Ft, Fp. pose proof (Ft x (in_combine_l _ _ _ _ I)) as Fx. pose proof (Fp y (in_combine_r _ _ _ _ I)) as Fy.
  apply sqd_nn; [exact Fy|]. destruct x; cbn in Fx |- *; congruence.
Qed.
Lemma abs_nn x : is_nan x = false -> nn (fabs x).
Proof. intros N. destruct x as [s|s| |s m e B]; cbn in *; try discriminate; try lra. apply F2R_ge_0. cbn. lia. Qed.
Lemma absdiff_nn yt yp : Forall (fun v => finite v = true) yt -> Forall (fun v => finite v = true) yp -> Forall nn (map (fun p => fabs (fsub (snd p) (fst p))) (combine yt yp)).
Proof.
  intros Ft Fp. apply Forall_forall. intros z I. apply in_map_iff in I as ([x y] & <- & I). cbn [fst snd]. rewrite Forall_forall in Ft, Fp. pose proof (Ft x (in_combine_l _ _ _ _ I)) as Fx. pose proof (Fp y (in_combine_r _ _ _ _ I)) as Fy.
  apply abs_nn. now apply sub_nan.
Qed.
Lemma div_nn x d : nn x -> finite d = true -> 0 < val d -> nn (fdiv x d).
Proof.
  intros Nx Fd Pd. destruct (finite x) eqn:Fx.
  - pose proof (Bdiv_correct 53 1024 prec53 prec53_emax mode_NE x d (Rgt_not_eq _ _ Pd)) as C. change (round_mode mode_NE) with ZnearestE in C. fold (rnd (val x / val d)) in C. pose proof (nn_val x Nx) as P.
    assert (Q : 0 <= val x / val d) by (apply Rmult_le_pos; [exact P|left; now apply Rinv_0_lt_compat]). unfold fdiv. destruct (Rlt_bool (Rabs (rnd (val x / val d))) big) eqn:E.
    + destruct C as (A & B & _). apply nn_fin; [now rewrite B|]. rewrite A. now apply rnd_nonneg.
    + rewrite overflow_NE in C. rewrite (inf_eq _ _ C). cbn. destruct (Bsign x) eqn:Sx.
      * exfalso. apply (sign_neg x Fx) in Sx. replace (val x / val d) with 0 in E by (unfold Rdiv; replace (val x) with 0 by lra; ring). rewrite rnd_0, Rabs_R0, Rlt_bool_true in E by apply bpow_gt_0. discriminate.
      * destruct (Bsign d) eqn:Sd; [|reflexivity]. apply (sign_neg d Fd) in Sd. lra.
  - destruct x as [|s| |]; cbn in Fx, Nx; try discriminate; [subst s|destruct Nx]. destruct d as [s|s| |s m e B].
    + cbn in Pd. lra.
    + discriminate.
    + discriminate.
    + destruct s; [|reflexivity]. pose proof (sign_neg _ Fd eq_refl). lra.
Qed.
Lemma mse_nn yt yp : Forall (fun v => finite v = true) yt -> Forall (fun v => finite v = true) yp -> yt <> [] -> (Z.of_nat (length yt) <= 2 ^ 53)%Z -> nn (mse yt yp) /\ nn (mae yt yp).
Proof.
  intros Ft Fp N H. destruct (ones_val yt f0 0 isnat_0 H) as [Fd Vd]. assert (P : 0 < val (fsum (map (fun _ => f1) yt))) by (unfold fsum; rewrite Vd; apply IZR_lt; destruct yt; [congruence|cbn [length]; lia]).
  split; apply div_nn; try assumption; apply fsum_nn; try exact nn_0; [now apply num_nn|now apply absdiff_nn].
Qed.
(* a zero error bounds the differences *)
Lemma div_zero x n : nn x -> finite x = true -> (0 < n)%nat -> (Z.of_nat n <= 2 ^ 53)%Z -> forall d, isnat d n -> finite (fdiv x d) = true -> val (fdiv x d) = 0 -> val x < bpow radix2 (-1021).
Proof.
  intros Nx Fx N H d [Fd Vd] F Z. assert (P : 0 < IZR (Z.of_nat n)) by (apply IZR_lt; lia). rewrite fdiv_fin in Z; [|rewrite Vd; lra|exact F]. rewrite Vd in Z.
  apply Rnot_le_lt. intros L. pose proof (nn_val x Nx) as Px. assert (Q : bpow radix2 (-1074) <= val x / IZR (Z.of_nat n)).
  { apply Rmult_le_reg_r with (IZR (Z.of_nat n)); [exact P|]. unfold Rdiv. rewrite Rmult_assoc, Rinv_l, Rmult_1_r by lra. apply Rle_trans with (bpow radix2 (-1074) * bpow radix2 53).
    - apply Rmult_le_compat_l; [apply bpow_ge_0|]. change (bpow radix2 53) with (IZR (2 ^ 53)). now apply IZR_le.
    - rewrite <- bpow_plus. exact L. }
  pose proof (rnd_ge_bpow (val x / IZR (Z.of_nat n)) (-1074) ltac:(lia)) as G. rewrite Z, Rabs_R0 in G. pose proof (bpow_gt_0 radix2 (-1074)). rewrite Rabs_pos_eq in G by lra. specialize (G Q). lra.
Qed.
Lemma fdiv_fin_num x d : finite d = true -> finite (fdiv x d) = true -> finite x = true.
Proof. intros Fd F. destruct x as [| [] | |]; destruct d as [[]|[]| |[]]; cbn in *; try discriminate; reflexivity. Qed.
Lemma mse_zero yt yp : length yt = length yp -> yt <> [] -> (Z.of_nat (length yt) <= 2 ^ 53)%Z -> Forall (fun v => finite v = true) yt -> Forall (fun v => finite v = true) yp ->
  finite (mse yt yp) = true -> val (mse yt yp) = 0 -> forall x y, In (x, y) (combine yt yp) -> Rabs (val y - val x) < bpow radix2 (-510).
Proof.
  intros L N H Ft Fp F Z x y I. pose proof (ones_val yt f0 0 isnat_0 H) as D. cbn [Nat.add] in D. pose proof (num_nn yt yp Ft Fp) as NN. assert (Nn : nn (r2_num yt yp)) by (apply fsum_nn; [exact NN|exact nn_0]).
  assert (Fn : finite (r2_num yt yp) = true) by (apply (fdiv_fin_num _ _ (proj1 D) F)).
  assert (B : val (r2_num yt yp) < bpow radix2 (-1021)) by (apply (div_zero _ (length yt) Nn Fn) with (fsum (map (fun _ => f1) yt)); try assumption; destruct yt; [congruence|cbn [length]; lia]).
  destruct (fsum_mono _ NN f0 nn_0 Fn) as (_ & _ & M). destruct (M (sqdiff y x)) as [Fs Ls]; [apply in_map_iff; exists (x, y); auto|]. change (val (sqdiff y x) <= val (r2_num yt yp)) in Ls. unfold sqdiff in Fs, Ls. destruct (fmul_inv _ _ Fs) as [Fd _]. rewrite fmul_fin in Ls by exact Fs. rewrite fsub_fin in Ls by exact Fd.
  apply Rnot_le_lt. intros G. apply (rnd_ge_bpow _ (-510) ltac:(lia)) in G. set (e := rnd (val y - val x)) in *.
  assert (Q : bpow radix2 (-1020) <= Rabs (e * e)). { rewrite Rabs_mult. change (-1020)%Z with (-510 + -510)%Z. rewrite bpow_plus. apply Rmult_le_compat; try apply bpow_ge_0; exact G. }
  apply (rnd_ge_bpow _ (-1020) ltac:(lia)) in Q. rewrite Rabs_pos_eq in Q by (apply rnd_nonneg; nra). assert (bpow radix2 (-1021) <= bpow radix2 (-1020)) by (apply bpow_le; lia). lra.
Qed.
Lemma mae_zero yt yp : length yt = length yp -> yt <> [] -> (Z.of_nat (length yt) <= 2 ^ 53)%Z -> Forall (fun v => finite v = true) yt -> Forall (fun v => finite v = true) yp ->
  finite (mae yt yp) = true -> val (mae yt yp) = 0 -> forall x y, In (x, y) (combine yt yp) -> Rabs (val y - val x) < bpow radix2 (-1021).
Proof.
  intros L N H Ft Fp F Z x y I. pose proof (ones_val yt f0 0 isnat_0 H) as D. cbn [Nat.add] in D. pose proof (absdiff_nn yt yp Ft Fp) as NN. set (S := fsum (map (fun p => fabs (fsub (snd p) (fst p))) (combine yt yp))). assert (Nn : nn S) by (apply fsum_nn; [exact NN|exact nn_0]).
  assert (Fn : finite S = true) by (apply (fdiv_fin_num _ _ (proj1 D) F)).
  assert (B : val S < bpow radix2 (-1021)) by (apply (div_zero _ (length yt) Nn Fn) with (fsum (map (fun _ => f1) yt)); try assumption; destruct yt; [congruence|cbn [length]; lia]).
  destruct (fsum_mono _ NN f0 nn_0 Fn) as (_ & _ & M). destruct (M (fabs (fsub y x))) as [Fs Ls]; [apply in_map_iff; exists (x, y); auto|]. fold (fsum (map (fun p => fabs (fsub (snd p) (fst p))) (combine yt yp))) in Ls. fold S in Ls. clearbody S. unfold fabs in Fs, Ls. rewrite is_finite_Babs in Fs. rewrite B2R_Babs, fsub_fin in Ls by exact Fs.
  apply Rnot_le_lt. intros G. apply (rnd_ge_bpow _ (-1021) ltac:(lia)) in G. lra.
Qed.
(* no error, no loss *)
Lemma num_self y : Forall (fun v => finite v = true) y -> finite (r2_num y y) = true /\ val (r2_num y y) = 0.
Proof.
  intros F. apply fsum_0; [|reflexivity|reflexivity]. apply Forall_forall. intros z I. apply in_map_iff in I as ([a b] & <- & I). cbn [fst snd]. assert (E : a = b /\ In a y).
  { clear F. induction y as [|c y IH]; [destruct I|]. destruct I as [E|I]; [inversion E; subst; split; [reflexivity|now left]|]. destruct (IH I). split; [assumption|now right]. }
  destruct E as [<- Ia]. rewrite Forall_forall in F. pose proof (F a Ia) as Fa. unfold sqdiff. destruct (fsub_0 a a Fa Fa eq_refl) as [V W]. destruct (fmul_0 (fsub a a) (fsub a a) W W V). auto.
Qed.
Lemma abs_self y : Forall (fun v => finite v = true) y -> let S := fsum (map (fun p => fabs (fsub (snd p) (fst p))) (combine y y)) in finite S = true /\ val S = 0.
Proof.
  intros F S. apply fsum_0; [|reflexivity|reflexivity]. apply Forall_forall. intros z I. apply in_map_iff in I as ([a b] & <- & I). cbn [fst snd]. assert (E : a = b /\ In a y).
  { clear F S. induction y as [|c y IH]; [destruct I|]. destruct I as [E|I]; [inversion E; subst; split; [reflexivity|now left]|]. destruct (IH I). split; [assumption|now right]. }
  destruct E as [<- Ia]. rewrite Forall_forall in F. pose proof (F a Ia) as Fa. destruct (fsub_0 a a Fa Fa eq_refl) as [V W]. unfold fabs. rewrite is_finite_Babs, B2R_Babs, V, Rabs_R0. auto.
Qed.
Lemma div_0 x d : finite x = true -> val x = 0 -> val d <> 0 -> val (fdiv x d) = 0 /\ finite (fdiv x d) = true.
Proof.
  intros F Z P. assert (E : rnd (val x / val d) = 0) by (unfold Rdiv; rewrite Z, Rmult_0_l; apply rnd_0). destruct (fdiv_val x d F P) as [A B]; rewrite E in *; [rewrite Rabs_R0; apply bpow_gt_0|auto].
Qed.
Lemma mse_self y : y <> [] -> (Z.of_nat (length y) <= 2 ^ 53)%Z -> Forall (fun v => finite v = true) y -> val (mse y y) = 0 /\ finite (mse y y) = true /\ val (mae y y) = 0 /\ finite (mae y y) = true.
Proof.
  intros N H F. destruct (ones_val y f0 0 isnat_0 H) as [Fd Vd]. assert (P : val (fsum (map (fun _ => f1) y)) <> 0) by (unfold fsum; rewrite Vd; apply Rgt_not_eq, IZR_lt; destruct y; [congruence|cbn [length]; lia]).
  destruct (num_self y F) as [A B]. destruct (abs_self y F) as [A' B']. destruct (div_0 _ _ A B P). destruct (div_0 _ _ A' B' P). unfold mse, mae. auto.
Qed.
(* the denominator of R2 *)
Lemma recip_ok S n : isnat S n -> (0 < n)%nat -> (Z.of_nat n <= 2 ^ 53)%Z -> finite (fdiv f1 S) = true /\ val (fdiv f1 S) <> 0.
Proof.
  intros [Fd Vd] N H. destruct f1_val as [V1 F1]. assert (P : 1 <= IZR (Z.of_nat n)) by (apply IZR_le; lia).
  assert (Q : bpow radix2 (-53) <= 1 / IZR (Z.of_nat n) <= 1).
  { unfold Rdiv. rewrite Rmult_1_l. split; [|rewrite <- Rinv_1; apply Rinv_le_contravar; lra]. change (-53)%Z with (- (53))%Z. rewrite bpow_opp. apply Rinv_le_contravar; [lra|]. change (bpow radix2 53) with (IZR (2 ^ 53)). now apply IZR_le. }
  pose proof (bpow_gt_0 radix2 (-53)) as U. assert (Q' : bpow radix2 (-53) <= rnd (1 / IZR (Z.of_nat n)) <= 1).
  { split; [apply Rle_trans with (rnd (bpow radix2 (-53))); [rewrite rnd_fmt by (apply fmt_bpow; discriminate); lra|apply rnd_le; lra]|apply Rle_trans with (rnd 1); [apply rnd_le; lra|rewrite (rnd_fmt 1 fmt_1); lra]]. }
  destruct (fdiv_val f1 S F1) as [A B]; [rewrite Vd; lra|rewrite V1, Vd; apply small_big; rewrite Rabs_pos_eq; lra|]. rewrite V1, Vd in A. split; [exact B|]. rewrite A. lra.
Qed.
Lemma avg_nan y : y <> [] -> (Z.of_nat (length y) <= 2 ^ 53)%Z -> Forall (fun v => finite v = true) y -> is_nan (r2_avg y) = false.
Proof.
  intros N H F. pose proof (ones_val y f0 0 isnat_0 H) as D. cbn [Nat.add] in D. unfold r2_avg. destruct (recip_ok _ _ D) as [A B]; [destruct y; [congruence|cbn [length]; lia]|exact H|]. apply (mul_nan _ _ A B). apply (fsum_nan y F f0). reflexivity.
Qed.
Lemma e20_pos : finite e20 = true /\ 0 < val e20.
Proof. assert (F : finite e20 = true) by (vm_compute; reflexivity). split; [exact F|]. change 0 with (val f0). apply (flt_val f0 e20 eq_refl F). vm_compute. reflexivity. Qed.
Lemma den_ok y : y <> [] -> (Z.of_nat (length y) <= 2 ^ 53)%Z -> Forall (fun v => finite v = true) y -> let d := fmax (r2_den y) e20 in d = B754_infinity false \/ (finite d = true /\ 0 < val d).
Proof.
  intros N H F d. assert (Nd : nn (r2_den y)). { apply fsum_nn; [|exact nn_0]. apply Forall_forall. intros z I. apply in_map_iff in I as (a & <- & I). rewrite Forall_forall in F. apply sqd_nn; [now apply F|]. apply avg_nan; [exact N|exact H|now apply Forall_forall]. }
  destruct e20_pos as [Fe Pe]. unfold d, fmax. replace (is_nan e20) with false by reflexivity. rewrite orb_false_r. destruct (finite (r2_den y)) eqn:Fd.
  - rewrite (fin_nan _ Fd). right. destruct (flt (r2_den y) e20) eqn:E; [auto|]. split; [exact Fd|]. apply Rlt_le_trans with (val e20); [exact Pe|]. apply Rnot_lt_le. intros G. apply (flt_val _ _ Fd Fe) in G. congruence.
  - left. destruct (r2_den y) as [|s| |]; cbn in Fd, Nd; try discriminate; [subst s|destruct Nd]. vm_compute. reflexivity.
Qed.
Lemma r2_self y : y <> [] -> (Z.of_nat (length y) <= 2 ^ 53)%Z -> Forall (fun v => finite v = true) y -> val (r2 y y) = 1 /\ finite (r2 y y) = true.
Proof.
  intros N H F. unfold r2. destruct (num_self y F) as [A B]. assert (Q : val (fdiv (r2_num y y) (fmax (r2_den y) e20)) = 0 /\ finite (fdiv (r2_num y y) (fmax (r2_den y) e20)) = true).
  { destruct (den_ok y N H F) as [E|[E P]]; [|apply div_0; [exact A|exact B|lra]]. rewrite E. destruct (r2_num y y) as [s|s| |s m e Bd]; cbn in A |- *; try discriminate; auto. }
  destruct Q as [Q1 Q2]. destruct f1_val as [V1 F1]. assert (E : rnd (val f1 - val (fdiv (r2_num y y) (fmax (r2_den y) e20))) = 1) by (rewrite Q1, V1, Rminus_0_r; apply rnd_fmt, fmt_1).
  destruct (fsub_val f1 _ F1 Q2) as [G1 G2]; [rewrite E; apply small_big; rewrite Rabs_R1; lra|]. rewrite G1. auto.
Qed.
Lemma r2_le1 yt yp : yt <> [] -> (Z.of_nat (length yt) <= 2 ^ 53)%Z -> Forall (fun v => finite v = true) yt -> Forall (fun v => finite v = true) yp ->
  (finite (r2 yt yp) = true -> val (r2 yt yp) <= 1) /\ r2 yt yp <> B754_infinity false.
Proof.
  intros N H Ft Fp. assert (Nn : nn (r2_num yt yp)) by (apply fsum_nn; [now apply num_nn|exact nn_0]). set (q := fdiv (r2_num yt yp) (fmax (r2_den yt) e20)).
  assert (Q : q = B754_nan \/ nn q).
  { destruct (den_ok yt N H Ft) as [E|[E P]]; [|right; now apply div_nn]. unfold q. rewrite E. destruct (r2_num yt yp) as [s|s| |s m e B]; cbn in Nn |- *; auto; right; lra. }
  unfold r2. fold q. destruct f1_val as [V1 F1]. destruct Q as [->|Q]; [split; [discriminate|discriminate]|]. split.
  - intros F. destruct (fsub_inv _ _ F) as [_ Fq]. rewrite fsub_fin by exact F. rewrite V1. apply Rle_trans with (rnd 1); [apply rnd_le; pose proof (nn_val q Q); lra|rewrite (rnd_fmt 1 fmt_1); lra].
  - intros E. destruct (finite q) eqn:Fq.
    + pose proof (Bminus_correct 53 1024 prec53 prec53_emax mode_NE f1 q F1 Fq) as C. destruct (Rlt_bool _ _).
      * destruct C as (_ & B & _). unfold fsub in E. rewrite E in B. discriminate.
      * destruct C as [A S]. rewrite overflow_NE in A. pose proof (nn_val q Q) as P. unfold fsub in E. rewrite E in A. cbn in A. inversion A as [A']. change (Bsign f1) with false in S. destruct (Bsign q) eqn:Sq; [|discriminate]. apply (sign_neg q Fq) in Sq.
        pose proof (Bminus_correct 53 1024 prec53 prec53_emax mode_NE f1 q F1 Fq) as C. change (round_mode mode_NE) with ZnearestE in C. fold (rnd (val f1 - val q)) in C. assert (Z : rnd (val f1 - val q) = 1) by (rewrite V1; replace (1 - val q) with 1 by lra; apply rnd_fmt, fmt_1). rewrite Z, Rabs_R1, Rlt_bool_true in C by exact one_big. destruct C as (_ & B & _). rewrite E in B. discriminate.
    + clearbody q. destruct q as [|s| |]; [discriminate| |destruct Q|discriminate]. cbn in Q. subst s. vm_compute in E. discriminate.
Qed.

(* KBinsDiscretizer *)
Lemma kb_edge_mono nb mn mx b c : (0 < nb)%nat -> (Z.of_nat nb <= 2 ^ 53)%Z -> (b <= c <= nb)%nat -> finite (fsub mx mn) = true -> val mn <= val mx ->
  finite (kb_edge nb mn mx b) = true -> finite (kb_edge nb mn mx c) = true -> val (kb_edge nb mn mx b) <= val (kb_edge nb mn mx c).
Proof.
  intros N H B Fr L Fb Fc. unfold kb_edge in *. rewrite !fadd_fin by assumption. destruct (fadd_inv _ _ Fb) as [_ Gb]. destruct (fadd_inv _ _ Fc) as [_ Gc]. rewrite !fmul_fin by assumption. destruct (fmul_inv _ _ Gb) as [Hb _]. destruct (fmul_inv _ _ Gc) as [Hc _].
  destruct (fint_val (Z.of_nat nb)) as (Vn & Fn & _); [lia|]. destruct (fint_val (Z.of_nat b)) as (Vb & Fb' & _); [lia|]. destruct (fint_val (Z.of_nat c)) as (Vc & Fc' & _); [lia|]. assert (P : 0 < IZR (Z.of_nat nb)) by (apply IZR_lt; lia).
  rewrite !fdiv_fin by (try assumption; rewrite Vn; lra). rewrite Vn, Vb, Vc. apply rnd_le, Rplus_le_compat_l, rnd_le, Rmult_le_compat_r; [rewrite fsub_fin by exact Fr; apply rnd_nonneg; lra|]. apply rnd_le, Rmult_le_compat_r; [left; now apply Rinv_0_lt_compat|]. apply IZR_le. lia.
Qed.
Lemma kb_edge_0 nb mn mx : (0 < nb)%nat -> (Z.of_nat nb <= 2 ^ 53)%Z -> finite mn = true -> finite (fsub mx mn) = true -> val (kb_edge nb mn mx 0) = val mn /\ finite (kb_edge nb mn mx 0) = true.
Proof.
  intros N H Fm Fr. destruct (fint_val (Z.of_nat nb)) as (Vn & Fn & _); [lia|]. destruct (fint_val 0) as (V0 & F0 & _); [lia|]. assert (P : 0 < IZR (Z.of_nat nb)) by (apply IZR_lt; lia). unfold kb_edge. change (Z.of_nat 0) with 0%Z.
  destruct (div_0 (fint 0) (fint (Z.of_nat nb)) F0 V0) as [A B]; [rewrite Vn; lra|]. set (q := fdiv (fint 0) (fint (Z.of_nat nb))) in *. clearbody q.
  assert (E : rnd (val q * val (fsub mx mn)) = 0) by (rewrite A, Rmult_0_l; apply rnd_0). destruct (fmul_val q (fsub mx mn) B Fr) as [C D]; [rewrite E, Rabs_R0; apply bpow_gt_0|]. rewrite E in C.
  assert (G : rnd (val mn + val (fmul q (fsub mx mn))) = val mn) by (rewrite C, Rplus_0_r; apply rnd_fmt, fmt_val). destruct (fadd_val mn (fmul q (fsub mx mn)) Fm D) as [I J]; [rewrite G; now apply val_big|]. rewrite I. auto.
Qed.
Lemma half_val : val (fdiv f1 (fint 2)) = / 2 /\ finite (fdiv f1 (fint 2)) = true.
Proof.
  destruct f1_val as [V1 F1]. destruct (fint_val 2) as (V2 & F2 & _); [lia|]. assert (E : rnd (val f1 / val (fint 2)) = / 2). { rewrite V1, V2. replace (1 / 2) with (bpow radix2 (-1)) by (cbn; lra). rewrite rnd_fmt by (apply fmt_bpow; discriminate). reflexivity. }
  destruct (fdiv_val f1 (fint 2) F1) as [A B]; [rewrite V2; lra|rewrite E; apply small_big; rewrite Rabs_pos_eq; lra|]. rewrite A. auto.
Qed.
Lemma kb_mid_in edge b : finite (kb_mid edge b) = true -> val (edge b) <= val (edge (S b)) -> val (edge b) <= val (kb_mid edge b) <= val (edge (S b)).
Proof.
  unfold kb_mid. intros F L. destruct half_val as [V _]. rewrite fmul_fin by exact F. destruct (fmul_inv _ _ F) as [_ G]. rewrite fadd_fin by exact G. rewrite V. set (x := edge b) in *. set (y := edge (S b)) in *.
  assert (A : 2 * val x <= rnd (val x + val y)) by (rewrite <- (rnd_fmt (2 * val x)) by apply fmt_2x, fmt_val; apply rnd_le; lra).
  assert (B : rnd (val x + val y) <= 2 * val y) by (rewrite <- (rnd_fmt (2 * val y)) by apply fmt_2x, fmt_val; apply rnd_le; lra).
  split.
  - rewrite <- (rnd_fmt (val x)) by apply fmt_val. rewrite (rnd_fmt (val x)) at 2 by apply fmt_val. apply rnd_le. lra.
  - rewrite <- (rnd_fmt (val y)) by apply fmt_val. rewrite (rnd_fmt (val y)) at 1 by apply fmt_val. apply rnd_le. lra.
Qed.
Lemma fle_val x y : finite x = true -> finite y = true -> fle x y = true <-> val x <= val y.
Proof. intros Fx Fy. unfold fle. rewrite Bleb_correct by assumption. destruct (Rle_bool_spec (val x) (val y)); split; intros; try reflexivity; try assumption; [discriminate|lra]. Qed.
Lemma kb_from_spec edge x : finite x = true -> forall left ith, (forall b, (b <= ith + left)%nat -> finite (edge b) = true) ->
  let b := kb_from edge x ith left in (ith <= b <= ith + left)%nat /\ (forall c, (ith < c <= b)%nat -> val (edge c) <= val x) /\ ((b < ith + left)%nat -> val x < val (edge (S b))).
Proof.
  intros Fx. induction left as [|l IH]; intros ith F; cbn [kb_from]; [cbv zeta; split; [lia|split; [intros; lia|lia]]|].
  destruct (fle (edge (S ith)) x) eqn:E.
  - apply fle_val in E; [|apply F; lia|exact Fx]. destruct (IH (S ith)) as (A & B & C); [intros; apply F; lia|]. cbv zeta. split; [lia|]. split; [|intros; apply C; lia]. intros c Hc. destruct (Nat.eq_dec c (S ith)) as [->|]; [exact E|]. apply B. lia.
  - cbv zeta. split; [lia|]. split; [intros; lia|]. intros _. apply Rnot_le_lt. intros L. apply fle_val in L; [congruence|apply F; lia|exact Fx].
Qed.
Lemma kb_bin_mono edge nb x y : finite x = true -> finite y = true -> (forall b, (b <= nb)%nat -> finite (edge b) = true) -> val x <= val y -> (kb_bin edge nb x <= kb_bin edge nb y)%nat.
Proof.
  intros Fx Fy F L. unfold kb_bin. destruct (kb_from_spec edge x Fx (nb - 1) 0) as (A & B & _); [intros; apply F; lia|]. destruct (kb_from_spec edge y Fy (nb - 1) 0) as (A' & _ & C'); [intros; apply F; lia|].
  destruct (Nat.le_gt_cases (kb_from edge x 0 (nb - 1)) (kb_from edge y 0 (nb - 1))) as [G|G]; [exact G|]. specialize (C' ltac:(lia)). specialize (B (S (kb_from edge y 0 (nb - 1))) ltac:(lia)). lra.
Qed.

(* the area under a curve of rates that never decrease *)
Definition in01 (v : f64) : Prop := finite v = true /\ 0 <= val v <= 1.
Lemma auc_term x y xp yp : in01 x -> in01 y -> in01 xp -> in01 yp -> val xp <= val x -> nn (fdiv (fmul (fsub x xp) (fadd y yp)) (fint 2)).
Proof.
  intros [Fx Hx] [Fy Hy] [Fp Hp] [Fq Hq] L. assert (G2 : rnd 2 = 2) by (apply rnd_fmt, (fmt_int 2); vm_compute; discriminate).
  assert (D : 0 <= rnd (val x - val xp) <= 1). { split; [apply rnd_nonneg; lra|]. apply Rle_trans with (rnd 1); [apply rnd_le; lra|rewrite (rnd_fmt 1 fmt_1); lra]. }
  assert (S : 0 <= rnd (val y + val yp) <= 2). { split; [apply rnd_nonneg; lra|]. rewrite <- G2. apply rnd_le. lra. }
  destruct (fsub_val x xp Fx Fp) as [E1 F1]; [apply small_big; rewrite Rabs_pos_eq; lra|]. destruct (fadd_val y yp Fy Fq) as [E2 F2]; [apply small_big; rewrite Rabs_pos_eq; lra|].
  rewrite <- E1 in D. rewrite <- E2 in S. assert (P : 0 <= val (fsub x xp) * val (fadd y yp) <= 2) by nra.
  assert (Q : 0 <= rnd (val (fsub x xp) * val (fadd y yp)) <= 2). { split; [apply rnd_nonneg; lra|]. rewrite <- G2. apply rnd_le. lra. }
  destruct (fmul_val _ _ F1 F2) as [E3 F3]; [apply small_big; rewrite Rabs_pos_eq; lra|]. destruct (fint_val 2) as (V2 & W2 & _); [vm_compute; discriminate|].
  apply div_nn; [apply nn_fin; [exact F3|rewrite E3; lra]|exact W2|rewrite V2; lra].
Qed.
Lemma auc_nn l : forall s xp yp, nn s -> in01 xp -> in01 yp -> Forall (fun p => in01 (fst p) /\ in01 (snd p)) l -> Sorted.StronglySorted (fun u v => val u <= val v) (xp :: map fst l) ->
  nn (fst (fold_left (fun st p => let '(s, (xp, yp)) := st in (fadd s (fdiv (fmul (fsub (fst p) xp) (fadd (snd p) yp)) (fint 2)), p)) l (s, (xp, yp)))).
Proof.
  induction l as [|[x y] l IH]; intros s xp yp Ns Hx Hy F S; cbn [fold_left map fst snd] in *; [exact Ns|]. inversion F as [|? ? [Gx Gy] F']; subst. cbn [fst snd] in Gx, Gy. inversion S as [|? ? S' A]; subst. inversion A as [|? ? L A']; subst.
  apply IH; try assumption. apply nn_add; [exact Ns|]. now apply auc_term.
Qed.
Lemma nn_fle v : nn v -> fle f0 v = true.
Proof.
  destruct v as [s|s| |s m e B]; intros H; try contradiction; try reflexivity; [rewrite H; reflexivity|]. destruct s; [exfalso|reflexivity]. cbn in H. unfold F2R in H. cbn in H. pose proof (bpow_gt_0 radix2 e). assert (IZR (Z.neg m) < 0) by (apply IZR_lt; lia). nra.
Qed.
