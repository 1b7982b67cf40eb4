(* Lemmas about FloatModel *)
From Coq Require Import Reals ZArith List Bool Lia Lra.
From Flocq Require Import Core.Core IEEE754.BinarySingleNaN Plus_error.
From Verif Require Import FloatModel.
Import ListNotations.
Open Scope R_scope.

Notation val := (@B2R 53 1024).
Notation finite := (@is_finite 53 1024).
Notation fx := (SpecFloat.fexp 53 1024).
Definition rnd (x : R) : R := round radix2 fx ZnearestE x.
Notation fmt := (generic_format radix2 fx).
Notation big := (bpow radix2 1024).
#[global] Instance fx_valid : Valid_exp fx := fexp_correct 53 1024 prec53.

Lemma rnd_le x y : x <= y -> rnd x <= rnd y.
Proof. intros H. unfold rnd. apply round_le; [exact fx_valid|typeclasses eauto|exact H]. Qed.
Lemma rnd_fmt x : fmt x -> rnd x = x.
Proof. intros H. unfold rnd. apply round_generic; [typeclasses eauto|exact H]. Qed.
Lemma fmt_val v : fmt (val v).
Proof. apply generic_format_B2R. Qed.
Lemma fmt_rnd x : fmt (rnd x).
Proof. unfold rnd. apply generic_format_round; [exact fx_valid|typeclasses eauto]. Qed.
Lemma rnd_0 : rnd 0 = 0.
Proof. apply round_0. typeclasses eauto. Qed.
Lemma rnd_opp x : rnd (- x) = - rnd x.
Proof. unfold rnd. now rewrite round_NE_opp. Qed.
Lemma rnd_abs_le x b : fmt b -> Rabs x <= b -> Rabs (rnd x) <= b.
Proof. intros F H. unfold rnd. apply abs_round_le_generic; [exact fx_valid|typeclasses eauto|exact F|exact H]. Qed.
Lemma val_big v : finite v = true -> Rabs (val v) < big.
Proof. intros _. apply abs_B2R_lt_emax. Qed.

Lemma fmt_int z : (Z.abs z <= 2 ^ 53)%Z -> fmt (IZR z).
Proof.
  intros H. apply generic_format_FLT. replace (IZR z) with (F2R (Float radix2 z 0)) by (unfold F2R; cbn; ring).
  destruct (Z.eq_dec (Z.abs z) (2 ^ 53)) as [E|N].
  - apply (FLT_spec radix2 (SpecFloat.emin 53 1024) 53 _ (Float radix2 (Z.sgn z) 53)).
    + assert (E2 : z = (Z.sgn z * 2 ^ 53)%Z) by (destruct z; cbn [Z.abs Z.sgn] in *; lia). unfold F2R. cbn [Fnum Fexp]. rewrite E2 at 1. rewrite mult_IZR. change (IZR (2 ^ 53)) with (bpow radix2 53). cbn [bpow]. ring.
    + cbn [Fnum]. destruct z; cbn; lia.
    + cbn. unfold SpecFloat.emin. lia.
  - apply (FLT_spec radix2 (SpecFloat.emin 53 1024) 53 _ (Float radix2 z 0)); [reflexivity|cbn [Fnum]; change (Zpower radix2 53) with (2 ^ 53)%Z; lia|cbn; unfold SpecFloat.emin; lia].
Qed.
Lemma fmt_1 : fmt 1.
Proof. apply (fmt_int 1). vm_compute. discriminate. Qed.
Lemma int_big z : (Z.abs z <= 2 ^ 53)%Z -> Rabs (IZR z) < big.
Proof.
  intros H. rewrite <- abs_IZR. apply Rle_lt_trans with (IZR (2 ^ 53)); [now apply IZR_le|]. change (IZR (2 ^ 53)) with (bpow radix2 53). apply bpow_lt. reflexivity.
Qed.
Lemma fint_val z : (Z.abs z <= 2 ^ 53)%Z -> val (fint z) = IZR z /\ finite (fint z) = true /\ (z = 0%Z -> Bsign (fint z) = false).
Proof.
  intros H. unfold fint. pose proof (binary_normalize_correct 53 1024 prec53 prec53_emax mode_NE z 0 false) as C. cbv zeta in C.
  assert (E : F2R (Float radix2 z 0) = IZR z) by (unfold F2R; cbn; ring). rewrite E in C.
  change (round radix2 fx (round_mode mode_NE) (IZR z)) with (rnd (IZR z)) in C. rewrite (rnd_fmt _ (fmt_int z H)) in C.
  rewrite Rlt_bool_true in C by now apply int_big. destruct C as (A & B & S). split; [exact A|]. split; [exact B|]. intros ->. now rewrite Rcompare_Eq in S.
Qed.
Lemma f1_val : val f1 = 1 /\ finite f1 = true.
Proof. destruct (fint_val 1) as (A & B & _); [vm_compute; discriminate|]. auto. Qed.

(* operations whose exact result stays below 2^1024 after rounding *)
Lemma fadd_val x y : finite x = true -> finite y = true -> Rabs (rnd (val x + val y)) < big -> val (fadd x y) = rnd (val x + val y) /\ finite (fadd x y) = true.
Proof.
  intros Fx Fy H. pose proof (Bplus_correct 53 1024 prec53 prec53_emax mode_NE x y Fx Fy) as C. change (round_mode mode_NE) with ZnearestE in C. fold (rnd (val x + val y)) in C.
  rewrite Rlt_bool_true in C by exact H. unfold fadd. tauto.
Qed.
Lemma fsub_val x y : finite x = true -> finite y = true -> Rabs (rnd (val x - val y)) < big -> val (fsub x y) = rnd (val x - val y) /\ finite (fsub x y) = true.
Proof.
  intros Fx Fy H. pose proof (Bminus_correct 53 1024 prec53 prec53_emax mode_NE x y Fx Fy) as C. change (round_mode mode_NE) with ZnearestE in C. fold (rnd (val x - val y)) in C.
  rewrite Rlt_bool_true in C by exact H. unfold fsub. tauto.
Qed.
Lemma fmul_val x y : finite x = true -> finite y = true -> Rabs (rnd (val x * val y)) < big -> val (fmul x y) = rnd (val x * val y) /\ finite (fmul x y) = true.
Proof.
  intros Fx Fy H. pose proof (Bmult_correct 53 1024 prec53 prec53_emax mode_NE x y) as C. change (round_mode mode_NE) with ZnearestE in C. fold (rnd (val x * val y)) in C.
  rewrite Rlt_bool_true in C by exact H. rewrite Fx, Fy in C. unfold fmul. tauto.
Qed.
Lemma fdiv_val x y : finite x = true -> val y <> 0 -> Rabs (rnd (val x / val y)) < big -> val (fdiv x y) = rnd (val x / val y) /\ finite (fdiv x y) = true.
Proof.
  intros Fx Fy H. pose proof (Bdiv_correct 53 1024 prec53 prec53_emax mode_NE x y Fy) as C. change (round_mode mode_NE) with ZnearestE in C. fold (rnd (val x / val y)) in C.
  rewrite Rlt_bool_true in C by exact H. rewrite Fx in C. unfold fdiv. tauto.
Qed.
(* a finite result was not an overflow *)
Lemma overflow_NE s : binary_overflow 53 1024 mode_NE s = SpecFloat.S754_infinity s.
Proof. destruct s; reflexivity. Qed.
Lemma not_inf (x : f64) s : finite x = true -> B2SF x = SpecFloat.S754_infinity s -> False.
Proof. destruct x; cbn; congruence. Qed.
Lemma fadd_inv x y : finite (fadd x y) = true -> finite x = true /\ finite y = true.
Proof. unfold fadd. destruct x as [sx|sx| |sx mx ex Hx], y as [sy|sy| |sy my ey Hy]; cbn; try discriminate; auto. destruct (Bool.eqb sx sy); discriminate. Qed.
Lemma fsub_inv x y : finite (fsub x y) = true -> finite x = true /\ finite y = true.
Proof. unfold fsub. destruct x as [sx|sx| |sx mx ex Hx], y as [sy|sy| |sy my ey Hy]; cbn; try discriminate; auto. destruct sx, sy; discriminate. Qed.
Lemma fmul_inv x y : finite (fmul x y) = true -> finite x = true /\ finite y = true.
Proof. unfold fmul. destruct x as [sx|sx| |sx mx ex Hx], y as [sy|sy| |sy my ey Hy]; cbn; try discriminate; auto. Qed.
Lemma fadd_fin x y : finite (fadd x y) = true -> val (fadd x y) = rnd (val x + val y).
Proof.
  intros F. destruct (fadd_inv x y F) as [Fx Fy]. pose proof (Bplus_correct 53 1024 prec53 prec53_emax mode_NE x y Fx Fy) as C. change (round_mode mode_NE) with ZnearestE in C. fold (rnd (val x + val y)) in C.
  destruct (Rlt_bool (Rabs (rnd (val x + val y))) big); [apply C|]. destruct C as [C _]. rewrite overflow_NE in C. exfalso. exact (not_inf _ _ F C).
Qed.
Lemma fsub_fin x y : finite (fsub x y) = true -> val (fsub x y) = rnd (val x - val y).
Proof.
  intros F. destruct (fsub_inv x y F) as [Fx Fy]. pose proof (Bminus_correct 53 1024 prec53 prec53_emax mode_NE x y Fx Fy) as C. change (round_mode mode_NE) with ZnearestE in C. fold (rnd (val x - val y)) in C.
  destruct (Rlt_bool (Rabs (rnd (val x - val y))) big); [apply C|]. destruct C as [C _]. rewrite overflow_NE in C. exfalso. exact (not_inf _ _ F C).
Qed.
Lemma fmul_fin x y : finite (fmul x y) = true -> val (fmul x y) = rnd (val x * val y).
Proof.
  intros F. pose proof (Bmult_correct 53 1024 prec53 prec53_emax mode_NE x y) as C. change (round_mode mode_NE) with ZnearestE in C. fold (rnd (val x * val y)) in C.
  destruct (Rlt_bool (Rabs (rnd (val x * val y))) big); [apply C|]. rewrite overflow_NE in C. exfalso. exact (not_inf _ _ F C).
Qed.
Lemma fdiv_fin x y : val y <> 0 -> finite (fdiv x y) = true -> val (fdiv x y) = rnd (val x / val y).
Proof.
  intros N F. pose proof (Bdiv_correct 53 1024 prec53 prec53_emax mode_NE x y N) as C. change (round_mode mode_NE) with ZnearestE in C. fold (rnd (val x / val y)) in C.
  destruct (Rlt_bool (Rabs (rnd (val x / val y))) big); [apply C|]. rewrite overflow_NE in C. exfalso. exact (not_inf _ _ F C).
Qed.
Lemma fsqrt_val x : val (fsqrt x) = rnd (sqrt (val x)).
Proof. apply (Bsqrt_correct 53 1024 prec53 prec53_emax mode_NE x). Qed.

Lemma flt_val x y : finite x = true -> finite y = true -> flt x y = true <-> val x < val y.
Proof. intros A B. unfold flt. rewrite Bltb_correct by assumption. destruct (Rlt_bool_spec (val x) (val y)); split; intros; try reflexivity; try lra; discriminate. Qed.
Lemma feq_val x y : finite x = true -> finite y = true -> feq x y = true <-> val x = val y.
Proof. intros A B. unfold feq. rewrite Beqb_correct by assumption. destruct (Req_bool_spec (val x) (val y)); split; intros; try reflexivity; try lra; try discriminate; contradiction. Qed.
Lemma fneg_val x : val (fneg x) = - val x /\ finite (fneg x) = finite x.
Proof. unfold fneg. rewrite B2R_Bopp, is_finite_Bopp. auto. Qed.
Lemma f0_val : val f0 = 0 /\ finite f0 = true.
Proof. auto. Qed.

(* MaxAbsScaler *)
Lemma ma_abs_val v : finite v = true -> val (ma_abs v) = Rabs (val v) /\ finite (ma_abs v) = true.
Proof.
  intros F. unfold ma_abs. destruct (fneg_val v) as [N1 N2]. destruct (flt v f0) eqn:E.
  - apply (flt_val v f0 F eq_refl) in E. change (val f0) with 0 in E. rewrite N1, N2. split; [now rewrite Rabs_left|exact F].
  - split; [|exact F]. rewrite Rabs_pos_eq; [reflexivity|]. destruct (Rle_or_lt 0 (val v)) as [L|L]; [exact L|]. apply (flt_val v f0 F eq_refl) in L. congruence.
Qed.
Lemma ma_max_spec col : Forall (fun v => finite v = true) col -> forall m, finite m = true ->
  let r := fold_left (fun m v => if flt m (ma_abs v) then ma_abs v else m) col m in
  finite r = true /\ val m <= val r /\ (forall v, In v col -> Rabs (val v) <= val r) /\ (val r = val m \/ exists v, In v col /\ Rabs (val v) = val r).
Proof.
  intros F. induction F as [|v col Fv F IH]; intros m Fm r; unfold r.
  - cbn. split; [exact Fm|]. split; [lra|]. split; [intros v []|auto].
  - cbn [fold_left]. destruct (ma_abs_val v Fv) as [Av Af]. destruct (flt m (ma_abs v)) eqn:E.
    + apply (flt_val _ _ Fm Af) in E. destruct (IH (ma_abs v) Af) as (A & B & C & D). split; [exact A|]. split; [lra|]. split.
      * intros w [<-|I]; [lra|now apply C].
      * right. destruct D as [D|(w & I & D)]; [exists v; split; [now left|lra]|exists w; split; [now right|exact D]].
    + destruct (IH m Fm) as (A & B & C & D). assert (~ val m < val (ma_abs v)) by (intros L; apply (flt_val _ _ Fm Af) in L; congruence).
      split; [exact A|]. split; [exact B|]. split; [intros w [<-|I]; [lra|now apply C]|]. destruct D as [D|(w & I & D)]; [now left|right; exists w; split; [now right|exact D]].
Qed.
Lemma ma_scale_spec col : Forall (fun v => finite v = true) col ->
  finite (ma_scale col) = true /\ 0 < val (ma_scale col) /\ (forall v, In v col -> Rabs (val v) <= val (ma_scale col)) /\
  ((exists v, In v col /\ val v <> 0) -> exists v, In v col /\ Rabs (val v) = val (ma_scale col)).
Proof.
  intros F. destruct (ma_max_spec col F f0 eq_refl) as (A & B & C & D). fold (ma_max col) in A, B, C, D. change (val f0) with 0 in B, D. unfold ma_scale. destruct f1_val as [O1 O2].
  destruct (flt f0 (ma_max col)) eqn:E.
  - apply (flt_val f0 _ eq_refl A) in E. change (val f0) with 0 in E. split; [exact A|]. split; [exact E|]. split; [exact C|]. intros _. destruct D as [D|D]; [lra|exact D].
  - assert (Z : val (ma_max col) = 0). { destruct (Req_dec (val (ma_max col)) 0) as [Z|Z]; [exact Z|]. assert (L : val f0 < val (ma_max col)) by (change (val f0) with 0; lra). apply (flt_val f0 _ eq_refl A) in L. congruence. }
    rewrite O1, O2. split; [reflexivity|]. split; [lra|]. split; [intros v I; specialize (C v I); lra|]. intros (v & I & N). exfalso. specialize (C v I). rewrite Z in C. pose proof (Rabs_pos_lt _ N). lra.
Qed.
Lemma one_big : 1 < big.
Proof. change 1 with (bpow radix2 0). now apply bpow_lt. Qed.
Lemma ma_transform_val sc v : finite v = true -> 0 < val sc -> Rabs (val v) <= val sc ->
  val (ma_transform sc v) = rnd (val v / val sc) /\ finite (ma_transform sc v) = true /\ -1 <= val (ma_transform sc v) <= 1.
Proof.
  intros F P L. assert (Q : Rabs (val v / val sc) <= 1).
  { unfold Rdiv. rewrite Rabs_mult, (Rabs_pos_eq (/ val sc)) by (left; now apply Rinv_0_lt_compat). apply Rmult_le_reg_r with (val sc); [exact P|]. rewrite Rmult_assoc, Rinv_l; lra. }
  pose proof (rnd_abs_le _ 1 fmt_1 Q) as R. destruct (fdiv_val v sc F) as [A B]; [lra|pose proof one_big; lra|]. unfold ma_transform. rewrite A. split; [reflexivity|]. split; [exact B|]. split_Rabs; lra.
Qed.

(* MinMaxScaler *)
Lemma mm_max_spec cs : Forall (fun v => finite v = true) cs -> forall c, finite c = true -> finite (mm_max c cs) = true /\ val c <= val (mm_max c cs) /\ forall v, In v cs -> val v <= val (mm_max c cs).
Proof.
  intros F. unfold mm_max. induction F as [|v cs Fv F IH]; intros c Fc; cbn [fold_left]; [split; [exact Fc|]; split; [lra|intros v []]|].
  destruct (flt c v) eqn:E.
  - apply (flt_val _ _ Fc Fv) in E. destruct (IH v Fv) as (A & B & C). split; [exact A|]. split; [lra|]. intros w [<-|I]; [exact B|now apply C].
  - assert (~ val c < val v) by (intros L; apply (flt_val _ _ Fc Fv) in L; congruence). destruct (IH c Fc) as (A & B & C). split; [exact A|]. split; [lra|]. intros w [<-|I]; [lra|now apply C].
Qed.
Lemma mm_min_spec cs : Forall (fun v => finite v = true) cs -> forall c, finite c = true -> finite (mm_min c cs) = true /\ val (mm_min c cs) <= val c /\ forall v, In v cs -> val (mm_min c cs) <= val v.
Proof.
  intros F. unfold mm_min. induction F as [|v cs Fv F IH]; intros c Fc; cbn [fold_left]; [split; [exact Fc|]; split; [lra|intros v []]|].
  destruct (flt v c) eqn:E.
  - apply (flt_val _ _ Fv Fc) in E. destruct (IH v Fv) as (A & B & C). split; [exact A|]. split; [lra|]. intros w [<-|I]; [exact B|now apply C].
  - assert (~ val v < val c) by (intros L; apply (flt_val _ _ Fv Fc) in L; congruence). destruct (IH c Fc) as (A & B & C). split; [exact A|]. split; [lra|]. intros w [<-|I]; [lra|now apply C].
Qed.
Lemma rnd_nonneg x : 0 <= x -> 0 <= rnd x.
Proof. intros H. rewrite <- rnd_0. now apply rnd_le. Qed.
Lemma mm_scale_nonneg lo hi c cs : Forall (fun v => finite v = true) (c :: cs) -> val lo <= val hi ->
  finite (fsub (mm_max c cs) (mm_min c cs)) = true -> finite (mm_scale lo hi c cs) = true -> finite (fsub hi lo) = true -> 0 <= val (mm_scale lo hi c cs).
Proof.
  intros F HL Fr Fs Fh. inversion F as [|? ? Fc Fcs]; subst. destruct (mm_max_spec cs Fcs c Fc) as (A & B & _). destruct (mm_min_spec cs Fcs c Fc) as (A' & B' & _). destruct f1_val as [O1 O2].
  unfold mm_scale in *. cbv zeta in *. set (r := fsub (mm_max c cs) (mm_min c cs)) in *.
  assert (R : 0 <= val r). { unfold r. rewrite fsub_fin by exact Fr. apply rnd_nonneg. lra. }
  assert (D : 0 <= val (fsub hi lo)). { rewrite fsub_fin by exact Fh. apply rnd_nonneg. lra. }
  set (q := if feq r f0 then f1 else r) in *. assert (Q : 0 < val q).
  { unfold q. destruct (feq r f0) eqn:E; [rewrite O1; lra|]. destruct (Req_dec (val r) 0) as [Z|Z]; [|lra]. apply (feq_val r f0 Fr eq_refl) in Z. congruence. }
  rewrite fdiv_fin by (try exact Fs; lra). apply rnd_nonneg. apply Rmult_le_pos; [exact D|]. left. now apply Rinv_0_lt_compat.
Qed.
Lemma mm_transform_le lo hi c cs x y : 0 <= val (mm_scale lo hi c cs) -> finite (mm_transform lo hi c cs x) = true -> finite (mm_transform lo hi c cs y) = true -> val x <= val y ->
  val (mm_transform lo hi c cs x) <= val (mm_transform lo hi c cs y).
Proof.
  intros P Fx Fy L. unfold mm_transform in *. rewrite !fadd_fin by assumption. destruct (fadd_inv _ _ Fx) as [_ Gx]. destruct (fadd_inv _ _ Fy) as [_ Gy]. rewrite !fmul_fin by assumption.
  apply rnd_le. apply Rplus_le_compat_l. apply rnd_le. now apply Rmult_le_compat_r.
Qed.
Lemma mm_transform_min lo hi c cs : val lo = 0 -> finite (mm_transform lo hi c cs (mm_min c cs)) = true -> val (mm_transform lo hi c cs (mm_min c cs)) = 0.
Proof.
  intros Z F. unfold mm_transform in *. rewrite fadd_fin by exact F. destruct (fadd_inv _ _ F) as [Fo Fm]. unfold mm_off in *. rewrite fsub_fin by exact Fo. rewrite Z.
  set (p := fmul (mm_min c cs) (mm_scale lo hi c cs)). replace (0 - val p) with (- val p) by ring. rewrite rnd_opp, (rnd_fmt (val p)) by apply fmt_val.
  replace (- val p + val p) with 0 by ring. apply rnd_0.
Qed.

(* StandardScaler on a constant column of integers with a power of two of samples *)
Lemma fsum_const z : forall i j acc, (Z.of_nat (i + j) * Z.abs z <= 2 ^ 53)%Z -> (Z.abs z <= 2 ^ 53)%Z -> finite acc = true -> val acc = IZR (Z.of_nat j * z) ->
  finite (fold_left fadd (repeat (fint z) i) acc) = true /\ val (fold_left fadd (repeat (fint z) i) acc) = IZR (Z.of_nat (i + j) * z).
Proof.
  induction i as [|i IH]; intros j acc H Hz Fa Va; cbn [repeat fold_left]; [auto|]. destruct (fint_val z Hz) as (V & F & _).
  assert (E : val acc + val (fint z) = IZR (Z.of_nat (S j) * z)) by (rewrite Va, V, <- plus_IZR; f_equal; lia).
  assert (B : (Z.abs (Z.of_nat (S j) * z) <= 2 ^ 53)%Z) by (rewrite Z.abs_mul, (Z.abs_eq (Z.of_nat (S j))) by lia; nia).
  destruct (fadd_val acc (fint z) Fa F) as [A A']; rewrite E in *; [rewrite rnd_fmt by (now apply fmt_int); now apply int_big|]. rewrite rnd_fmt in A by now apply fmt_int.
  replace (S i + j)%nat with (i + S j)%nat in * by lia. now apply IH.
Qed.
Lemma fmt_bpow e : (-1074 <= e)%Z -> fmt (bpow radix2 e).
Proof. intros H. apply generic_format_bpow. unfold SpecFloat.fexp, SpecFloat.emin. lia. Qed.
Lemma recip_pow k : (k <= 53)%nat -> val (recip (2 ^ k)) = bpow radix2 (- Z.of_nat k) /\ finite (recip (2 ^ k)) = true.
Proof.
  intros H. unfold recip. assert (P : (Z.of_nat (2 ^ k) = 2 ^ Z.of_nat k)%Z) by (rewrite Nat2Z.inj_pow; reflexivity). rewrite P.
  assert (L : (Z.abs (2 ^ Z.of_nat k) <= 2 ^ 53)%Z). { rewrite Z.abs_eq by (apply Z.pow_nonneg; lia). apply Z.pow_le_mono_r; lia. }
  destruct (fint_val _ L) as (V & F & _). destruct f1_val as [O1 O2].
  assert (VP : val (fint (2 ^ Z.of_nat k)) = bpow radix2 (Z.of_nat k)) by (rewrite V; apply (IZR_Zpower radix2); lia).
  assert (E : val f1 / val (fint (2 ^ Z.of_nat k)) = bpow radix2 (- Z.of_nat k)) by (rewrite O1, VP, bpow_opp; unfold Rdiv; ring).
  assert (G : fmt (bpow radix2 (- Z.of_nat k))) by (apply fmt_bpow; lia).
  destruct (fdiv_val f1 (fint (2 ^ Z.of_nat k)) O2) as [A B].
  - rewrite VP. pose proof (bpow_gt_0 radix2 (Z.of_nat k)). lra.
  - rewrite E, rnd_fmt by exact G. rewrite Rabs_pos_eq by apply bpow_ge_0. apply bpow_lt. lia.
  - rewrite E, rnd_fmt in A by exact G. auto.
Qed.
Lemma fmul_0 x y : finite x = true -> finite y = true -> val y = 0 -> val (fmul x y) = 0 /\ finite (fmul x y) = true.
Proof.
  intros Fx Fy Z. assert (E : rnd (val x * val y) = 0) by (rewrite Z, Rmult_0_r; apply rnd_0). destruct (fmul_val x y Fx Fy) as [A B]; rewrite E in *; [rewrite Rabs_R0; apply bpow_gt_0|auto].
Qed.
Lemma fsub_0 x y : finite x = true -> finite y = true -> val x = val y -> val (fsub x y) = 0 /\ finite (fsub x y) = true.
Proof.
  intros Fx Fy Z. assert (E : rnd (val x - val y) = 0) by (rewrite Z, Rminus_diag_eq by reflexivity; apply rnd_0). destruct (fsub_val x y Fx Fy) as [A B]; rewrite E in *; [rewrite Rabs_R0; apply bpow_gt_0|auto].
Qed.
Lemma fsum_0 l : Forall (fun v => finite v = true /\ val v = 0) l -> forall acc, finite acc = true -> val acc = 0 -> finite (fold_left fadd l acc) = true /\ val (fold_left fadd l acc) = 0.
Proof.
  induction 1 as [|v l [Fv Zv] F IH]; intros acc Fa Za; [auto|]. cbn [fold_left]. assert (E : rnd (val acc + val v) = 0) by (rewrite Za, Zv, Rplus_0_r; apply rnd_0).
  destruct (fadd_val acc v Fa Fv) as [A B]; rewrite E in *; [rewrite Rabs_R0; apply bpow_gt_0|]. now apply IH.
Qed.
Lemma ss_const col x : col <> [] -> Forall (fun v => finite v = true /\ val v = x) col -> finite (recip (length col)) = true ->
  finite (fsum col) = true -> rnd (val (recip (length col)) * val (fsum col)) = x -> Rabs x < big ->
  forall v, In v col -> val (ss_transform col v) = 0 /\ finite (ss_transform col v) = true.
Proof.
  intros HN F Fr Fs HR HB v Iv. destruct f1_val as [O1 O2]. pose proof (proj1 (Forall_forall _ _) F) as FA. cbv beta in FA.
  destruct (fmul_val (recip (length col)) (fsum col) Fr Fs) as [M1 M2]; [rewrite HR; exact HB|]. rewrite HR in M1.
  assert (MM : val (ss_mean col) = x /\ finite (ss_mean col) = true).
  { unfold ss_mean. destruct (fint_val 0) as (Z1 & Z2 & _); [lia|]. destruct (fmul_0 (fint 0) f0 Z2 eq_refl eq_refl) as [P1 P2].
    assert (E : rnd (val (fmul (fint 0) f0) + val (fsum col)) = val (fsum col)) by (rewrite P1, Rplus_0_l; apply rnd_fmt, fmt_val).
    destruct (fadd_val (fmul (fint 0) f0) (fsum col) P2 Fs) as [Q1 Q2]; rewrite E in *; [now apply val_big|].
    destruct (fmul_val (recip (length col)) (fadd (fmul (fint 0) f0) (fsum col)) Fr Q2) as [T1 T2]; rewrite Q1, HR in *; auto. }
  assert (VV : val (ss_var col) = 0 /\ finite (ss_var col) = true).
  { unfold ss_var. cbv zeta. set (l := map (fun x0 : f64 => fmul (fsub x0 (fmul (recip (length col)) (fsum col))) (fsub x0 (fmul (recip (length col)) (fsum col)))) col). assert (L : Forall (fun v => finite v = true /\ val v = 0) l).
    { unfold l. apply Forall_forall. intros w Iw. apply in_map_iff in Iw as (u & <- & Iu). destruct (FA u Iu) as [Fu Vu].
      destruct (fsub_0 u (fmul (recip (length col)) (fsum col)) Fu M2) as [D1 D2]; [congruence|]. destruct (fmul_0 _ _ D2 D2 D1) as [E1 E2]. auto. }
    destruct (fsum_0 l L f0 eq_refl eq_refl) as [S1 S2]. now apply fmul_0. }
  assert (SC : val (ss_scale col) = 1 /\ finite (ss_scale col) = true).
  { unfold ss_scale. cbv zeta. rewrite (proj2 (feq_val (ss_var col) f0 (proj2 VV) eq_refl)) by apply VV. split.
    - rewrite fsqrt_val, O1, sqrt_1. apply rnd_fmt, fmt_1.
    - vm_compute. reflexivity. }
  destruct (FA v Iv) as [Fv Vv]. destruct (fsub_0 v (ss_mean col) Fv (proj2 MM)) as [D1 D2]; [rewrite (proj1 MM); exact Vv|]. unfold ss_transform.
  assert (E : rnd (val (fsub v (ss_mean col)) / val (ss_scale col)) = 0) by (rewrite D1; unfold Rdiv; rewrite Rmult_0_l; apply rnd_0).
  destruct (fdiv_val (fsub v (ss_mean col)) (ss_scale col) D2) as [A B]; [rewrite (proj1 SC); lra|rewrite E, Rabs_R0; apply bpow_gt_0|]. rewrite E in A. auto.
Qed.
Lemma ss_pow2 k z : (Z.of_nat (2 ^ k) * Z.abs z <= 2 ^ 53)%Z -> (k <= 53)%nat ->
  forall v, In v (repeat (fint z) (2 ^ k)) -> val (ss_transform (repeat (fint z) (2 ^ k)) v) = 0 /\ finite (ss_transform (repeat (fint z) (2 ^ k)) v) = true.
Proof.
  intros H Hk. assert (P : (1 <= Z.of_nat (2 ^ k))%Z). { rewrite Nat2Z.inj_pow. change (Z.of_nat 2) with 2%Z. pose proof (Z.pow_pos_nonneg 2 (Z.of_nat k)). lia. }
  assert (Hz : (Z.abs z <= 2 ^ 53)%Z) by nia. destruct (fint_val z Hz) as (V & F & _). destruct (recip_pow k Hk) as [R1 R2].
  destruct (fsum_const z (2 ^ k) 0 f0) as [S1 S2]; [now rewrite Nat.add_0_r|exact Hz|reflexivity|reflexivity|]. rewrite Nat.add_0_r in S2. fold (fsum (repeat (fint z) (2 ^ k))) in S1, S2.
  apply (ss_const _ (IZR z)).
  - intros E. apply (f_equal (@length f64)) in E. rewrite repeat_length in E. cbn [length] in E. lia.
  - apply Forall_forall. intros w I. apply repeat_spec in I as ->. auto.
  - rewrite repeat_length. exact R2.
  - exact S1.
  - rewrite repeat_length, R1, S2, mult_IZR, Nat2Z.inj_pow. change (Z.of_nat 2) with 2%Z. rewrite (IZR_Zpower radix2) by lia.
    rewrite <- Rmult_assoc, <- bpow_plus. replace (- Z.of_nat k + Z.of_nat k)%Z with 0%Z by lia. cbn [bpow]. rewrite Rmult_1_l. apply rnd_fmt. now apply fmt_int.
  - now apply int_big.
Qed.
