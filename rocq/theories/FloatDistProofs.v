(* Lemmas about the distances and the accuracy of FloatModel *)
From Coq Require Import Reals ZArith List Bool Lia Lra.
From Flocq Require Import Core.Core IEEE754.BinarySingleNaN Plus_error.
From Verif Require Import FloatModel FloatProofs.
Import ListNotations.
Open Scope R_scope.

Lemma sq_eq d d' : finite d = true -> finite d' = true -> val d * val d = val d' * val d' -> fmul d d = fmul d' d'.
Proof.
  intros Fd Fd' E. pose proof (Bmult_correct 53 1024 prec53 prec53_emax mode_NE d d) as C. pose proof (Bmult_correct 53 1024 prec53 prec53_emax mode_NE d' d') as C'.
  rewrite <- E, !xorb_nilpotent, Fd' in C'. rewrite xorb_nilpotent, Fd in C. unfold fmul. destruct (Rlt_bool _ big).
  - destruct C as (A & B & S), C' as (A' & B' & S'). cbn [andb] in B, B'. apply B2R_Bsign_inj; [exact B|exact B'|congruence|].
    rewrite S, S'; [reflexivity| |]; [destruct (Bmult mode_NE d' d')|destruct (Bmult mode_NE d d)]; cbn in *; congruence.
  - apply B2SF_inj. congruence.
Qed.
(* y - x and x - y: opposite values, or opposite infinities *)
Lemma fsub_swap x y : finite x = true -> finite y = true ->
  (finite (fsub y x) = true /\ finite (fsub x y) = true /\ val (fsub x y) = - val (fsub y x)) \/ exists s, fsub y x = B754_infinity s /\ fsub x y = B754_infinity (negb s).
Proof.
  intros Fx Fy. pose proof (Bminus_correct 53 1024 prec53 prec53_emax mode_NE y x Fy Fx) as C. pose proof (Bminus_correct 53 1024 prec53 prec53_emax mode_NE x y Fx Fy) as C'.
  change (round_mode mode_NE) with ZnearestE in *. fold (rnd (val y - val x)) in C. fold (rnd (val x - val y)) in C'.
  assert (E : rnd (val x - val y) = - rnd (val y - val x)) by (rewrite <- rnd_opp; f_equal; ring). rewrite E, Rabs_Ropp in C'. unfold fsub.
  destruct (Rlt_bool (Rabs (rnd (val y - val x))) big).
  - left. destruct C as (A & B & _), C' as (A' & B' & _). rewrite A', A. auto.
  - right. destruct C as [A S], C' as [A' S']. rewrite overflow_NE in A, A'. exists (Bsign y). split.
    + apply B2SF_inj. exact A.
    + apply B2SF_inj. rewrite A'. cbn. f_equal. exact S'.
Qed.
Lemma sub_sq x y : finite x = true -> finite y = true -> fmul (fsub y x) (fsub y x) = fmul (fsub x y) (fsub x y).
Proof.
  intros Fx Fy. destruct (fsub_swap x y Fx Fy) as [(A & B & E)|(s & -> & ->)].
  - apply sq_eq; [exact A|exact B|]. rewrite E. ring.
  - destruct s; reflexivity.
Qed.
Lemma euclid_sym a b : length a = length b -> Forall (fun v => finite v = true) a -> Forall (fun v => finite v = true) b -> euclid a b = euclid b a.
Proof.
  intros L Fa Fb. assert (G : forall acc, fold_left (fun d2 p => let d := fsub (snd p) (fst p) in fadd d2 (fmul d d)) (combine a b) acc = fold_left (fun d2 p => let d := fsub (snd p) (fst p) in fadd d2 (fmul d d)) (combine b a) acc).
  { revert b L Fb. induction Fa as [|x a Fx Fa IH]; intros [|y b] L Fb acc; try reflexivity. inversion Fb; subst. cbn [combine fold_left]. cbv zeta. cbn [fst snd]. rewrite sub_sq by assumption. apply IH; [now injection L|assumption]. }
  unfold euclid. destruct a as [|x [|x' a]], b as [|y [|y' b]]; try discriminate; try (rewrite G; reflexivity).
  inversion Fa; inversion Fb; subst. destruct (fsub_swap x y) as [(A & B & E)|(s & -> & ->)]; [assumption|assumption| |reflexivity].
  unfold fabs. apply B2R_Bsign_inj; rewrite ?is_finite_Babs; [exact A|exact B| |].
  - rewrite !B2R_Babs, E, Rabs_Ropp. reflexivity.
  - destruct (fsub x y), (fsub y x); cbn in *; congruence.
Qed.
Lemma sum_sq_mono l : forall acc, finite (fold_left (fun d2 p => let d := fsub (snd p) (fst p) in fadd d2 (fmul d d)) l acc) = true -> 0 <= val acc ->
  finite acc = true /\ val acc <= val (fold_left (fun d2 p => let d := fsub (snd p) (fst p) in fadd d2 (fmul d d)) l acc) /\
  forall p, In p l -> finite (fsub (snd p) (fst p)) = true /\ rnd (val (fsub (snd p) (fst p)) * val (fsub (snd p) (fst p))) <= val (fold_left (fun d2 p => let d := fsub (snd p) (fst p) in fadd d2 (fmul d d)) l acc).
Proof.
  induction l as [|p l IH]; intros acc F P; cbn [fold_left] in *; [split; [exact F|]; split; [lra|intros p []]|]. cbv zeta in *. set (d := fsub (snd p) (fst p)) in *.
  set (a' := fadd acc (fmul d d)) in *.
  assert (FA : finite a' = true). { clear - F. revert F. generalize a'. induction l as [|q l IH]; intros a F; cbn [fold_left] in F; [exact F|]. apply IH in F. now apply fadd_inv in F. }
  destruct (fadd_inv _ _ FA) as [Fa Fm]. destruct (fmul_inv _ _ Fm) as [Fd _]. pose proof (fadd_fin _ _ FA) as Va. rewrite (fmul_fin _ _ Fm) in Va. fold a' in Va.
  set (q := rnd (val d * val d)) in *. assert (Q : 0 <= q) by (apply rnd_nonneg; nra).
  assert (L1 : val acc <= val a'). { rewrite Va. rewrite <- (rnd_fmt (val acc)) at 1 by apply fmt_val. apply rnd_le. lra. }
  assert (L2 : q <= val a'). { rewrite Va. rewrite <- (rnd_fmt q) at 1 by apply fmt_rnd. apply rnd_le. lra. }
  destruct (IH a' F) as (A & B & C); [lra|]. split; [exact Fa|]. split; [lra|]. intros r [<-|I]; [|now apply C]. split; [exact Fd|]. fold d. fold q. lra.
Qed.
Lemma rnd_ge_bpow x e : (-1074 <= e)%Z -> bpow radix2 e <= Rabs x -> bpow radix2 e <= Rabs (rnd x).
Proof. intros He H. unfold rnd. apply abs_round_ge_generic; [exact fx_valid|typeclasses eauto|now apply fmt_bpow|exact H]. Qed.
Lemma fmt_min x : fmt x -> x <> 0 -> bpow radix2 (-1074) <= Rabs x.
Proof.
  intros F N. destruct (Rle_or_lt (bpow radix2 (-1074)) (Rabs x)) as [L|L]; [exact L|]. exfalso. apply N.
  pose proof (FLT_format_generic radix2 (SpecFloat.emin 53 1024) 53 x F) as [f E _ H]. rewrite E in L |- *. unfold F2R in *.
  rewrite Rabs_mult, (Rabs_pos_eq (bpow _ _)) in L by apply bpow_ge_0. destruct (Z.eq_dec (Fnum f) 0) as [Z|Z]; [rewrite Z; ring|]. exfalso.
  assert (1 <= Rabs (IZR (Fnum f))) by (rewrite <- abs_IZR; apply IZR_le; lia). assert (bpow radix2 (-1074) <= bpow radix2 (Fexp f)) by (apply bpow_le; exact H). pose proof (bpow_gt_0 radix2 (Fexp f)). nra.
Qed.
Lemma euclid_zero a b : (2 <= length a)%nat -> length a = length b -> Forall (fun v => finite v = true) a -> Forall (fun v => finite v = true) b ->
  finite (euclid a b) = true -> val (euclid a b) = 0 -> forall x y, In (x, y) (combine a b) -> Rabs (val y - val x) < bpow radix2 (-537).
Proof.
  intros La L Fa Fb F Z x y I. unfold euclid in F, Z. destruct a as [|a1 [|a2 a]]; [cbn in La; lia|cbn in La; lia|]. destruct b as [|b1 [|b2 b]]; try discriminate.
  set (l := combine (a1 :: a2 :: a) (b1 :: b2 :: b)) in *. set (S := fold_left (fun d2 p => let d := fsub (snd p) (fst p) in fadd d2 (fmul d d)) l f0).
  assert (F' : finite (fsqrt S) = true) by exact F. assert (Z' : val (fsqrt S) = 0) by exact Z. clear F Z. rename F' into F, Z' into Z.
  assert (FS : finite S = true). { pose proof (Bsqrt_correct 53 1024 prec53 prec53_emax mode_NE S) as (_ & B & _). unfold fsqrt in F. rewrite F in B. destruct S as [|?| |[] ? ? ?]; cbn in *; congruence. }
  destruct (sum_sq_mono l f0) as (_ & P & C); [exact FS|cbn; lra|]. fold S in P, C. change (val f0) with 0 in P.
  assert (ZS : val S = 0).
  { destruct (Req_dec (val S) 0) as [E|N]; [exact E|]. exfalso. pose proof (fmt_min (val S) (fmt_val S) N) as M. rewrite Rabs_pos_eq in M by exact P.
    rewrite fsqrt_val in Z. assert (Q : bpow radix2 (-537) <= Rabs (sqrt (val S))).
    { rewrite Rabs_pos_eq by apply sqrt_pos. replace (bpow radix2 (-537)) with (sqrt (bpow radix2 (-1074))); [now apply sqrt_le_1_alt|]. change (-1074)%Z with (-537 + -537)%Z. rewrite bpow_plus, sqrt_square by apply bpow_ge_0. reflexivity. }
    apply rnd_ge_bpow in Q; [|lia]. rewrite Z, Rabs_R0 in Q. pose proof (bpow_gt_0 radix2 (-537)). lra. }
  destruct (C _ I) as [Fd Cd]. cbn [fst snd] in *. rewrite ZS in Cd. set (d := fsub y x) in *.
  assert (SQ : Rabs (val d) < bpow radix2 (-537)).
  { destruct (Rlt_or_le (Rabs (val d)) (bpow radix2 (-537))) as [G|G]; [exact G|]. exfalso.
    assert (Q : bpow radix2 (-1074) <= Rabs (val d * val d)). { change (-1074)%Z with (-537 + -537)%Z. rewrite bpow_plus, Rabs_mult. pose proof (bpow_ge_0 radix2 (-537)). apply Rmult_le_compat; assumption. }
    apply rnd_ge_bpow in Q; [|lia]. rewrite Rabs_pos_eq in Q by (apply rnd_nonneg; nra). pose proof (bpow_gt_0 radix2 (-1074)). lra. }
  destruct (Rlt_or_le (Rabs (val y - val x)) (bpow radix2 (-537))) as [G|G]; [exact G|]. exfalso. apply rnd_ge_bpow in G; [|lia]. unfold d in SQ. rewrite fsub_fin in SQ by exact Fd. lra.
Qed.
Lemma euclid_zero1 x y : finite x = true -> finite y = true -> finite (euclid [x] [y]) = true -> val (euclid [x] [y]) = 0 <-> val x = val y.
Proof.
  intros Fx Fy F. cbn in F |- *. unfold fabs in *. rewrite is_finite_Babs in F. rewrite B2R_Babs, fsub_fin by exact F. split.
  - intros H. destruct (Req_dec (val x) (val y)) as [E|N]; [exact E|]. exfalso. revert H. apply Rabs_no_R0. unfold rnd. unfold Rminus.
    apply round_plus_neq_0; [exact fx_valid|apply monotone_exp_not_FTZ; [exact fx_valid|apply (FLT_exp_monotone (SpecFloat.emin 53 1024) 53)]|typeclasses eauto|apply fmt_val|apply generic_format_opp, fmt_val|lra].
  - intros ->. rewrite Rminus_diag_eq by reflexivity. rewrite rnd_0. apply Rabs_R0.
Qed.
Lemma euclid_self a : Forall (fun v => finite v = true) a -> val (euclid a a) = 0 /\ finite (euclid a a) = true.
Proof.
  intros F. assert (G : fold_left (fun d2 p => let d := fsub (snd p) (fst p) in fadd d2 (fmul d d)) (combine a a) f0 = f0).
  { induction F as [|x a Fx F IH]; [reflexivity|]. cbn [combine fold_left]. cbv zeta. cbn [fst snd]. destruct (fsub_0 x x Fx Fx eq_refl) as [D1 D2].
    replace (fmul (fsub x x) (fsub x x)) with f0; [exact IH|]. rewrite <- (sq_eq f0 (fsub x x)); [reflexivity|reflexivity|exact D2|]. rewrite D1. reflexivity. }
  unfold euclid. destruct a as [|x [|x' a]]; [split; [|vm_compute; reflexivity]; rewrite fsqrt_val; cbn; rewrite sqrt_0; apply rnd_0| |].
  - inversion F; subst. destruct (fsub_0 x x) as [D1 D2]; [assumption|assumption|reflexivity|]. unfold fabs. rewrite B2R_Babs, is_finite_Babs, D1. split; [apply Rabs_R0|exact D2].
  - match goal with |- val (fsqrt ?t) = 0 /\ _ => change t with (fold_left (fun d2 p => let d := fsub (snd p) (fst p) in fadd d2 (fmul d d)) (combine (x :: x' :: a) (x :: x' :: a)) f0) end.
    rewrite G. rewrite fsqrt_val. cbn. rewrite sqrt_0. split; [apply rnd_0|reflexivity].
Qed.

(* accuracy: the counts are exact *)
Definition hits (l : list (f64 * f64)) : nat := length (filter (fun p => feq (fst p) (snd p)) l).
Lemma count_up (l : list (f64 * f64)) : forall k n N D, (Z.of_nat (n + length l) <= 2 ^ 53)%Z -> (k <= n)%nat -> finite N = true -> finite D = true -> val N = IZR (Z.of_nat k) -> val D = IZR (Z.of_nat n) ->
  let r := fold_left (fun nd p => (if feq (fst p) (snd p) then fadd (fst nd) f1 else fst nd, fadd (snd nd) f1)) l (N, D) in
  finite (fst r) = true /\ finite (snd r) = true /\ val (fst r) = IZR (Z.of_nat (k + hits l)) /\ val (snd r) = IZR (Z.of_nat (n + length l)).
Proof.
  induction l as [|p l IH]; intros k n N D H Hk FN FD VN VD r; unfold r; cbn [fold_left fst snd]; unfold hits in *; cbn [filter length] in *.
  - rewrite !Nat.add_0_r. auto.
  - destruct f1_val as [O1 O2].
    assert (INC : forall a m, finite a = true -> val a = IZR (Z.of_nat m) -> (Z.of_nat (S m) <= 2 ^ 53)%Z -> finite (fadd a f1) = true /\ val (fadd a f1) = IZR (Z.of_nat (S m))).
    { intros a m Fa Va Hm. assert (E : val a + val f1 = IZR (Z.of_nat (S m))) by (rewrite Va, O1, Nat2Z.inj_succ; unfold Z.succ; rewrite plus_IZR; reflexivity).
      assert (B : (Z.abs (Z.of_nat (S m)) <= 2 ^ 53)%Z) by (rewrite Z.abs_eq; lia).
      destruct (fadd_val a f1 Fa O2) as [A A']; rewrite E in *; [rewrite rnd_fmt by (now apply fmt_int); now apply int_big|]. rewrite rnd_fmt in A by (now apply fmt_int). auto. }
    destruct (INC D n FD VD) as [D1 D2]; [lia|].
    replace (n + S (length l))%nat with (S n + length l)%nat in * by lia. destruct (feq (fst p) (snd p)); cbn [length].
    + destruct (INC N k FN VN) as [N1 N2]; [lia|]. replace (k + S (length (filter (fun p => feq (fst p) (snd p)) l)))%nat with (S k + length (filter (fun p => feq (fst p) (snd p)) l))%nat by lia. apply IH; [lia|lia|assumption..].
    + apply IH; [lia|lia|assumption..].
Qed.
Lemma accuracy_val yt yp : length yt = length yp -> yt <> [] -> (Z.of_nat (length yt) <= 2 ^ 53)%Z ->
  val (accuracy yt yp) = rnd (IZR (Z.of_nat (hits (combine yt yp))) / IZR (Z.of_nat (length yt))) /\ finite (accuracy yt yp) = true /\ 0 <= val (accuracy yt yp) <= 1.
Proof.
  intros L N H. unfold accuracy. cbv zeta. destruct (count_up (combine yt yp) 0 0 f0 f0) as (A & B & C & D); try reflexivity; [rewrite Nat.add_0_l, combine_length; lia|].
  cbn [plus] in C, D. rewrite combine_length, <- L, Nat.min_id in D. set (r := fold_left _ _ _) in *.
  assert (P : 0 < IZR (Z.of_nat (length yt))) by (apply IZR_lt; destruct yt; [congruence|cbn [length]; lia]).
  assert (HK : (hits (combine yt yp) <= length yt)%nat).
  { unfold hits. apply Nat.le_trans with (length (combine yt yp)); [|rewrite combine_length; apply Nat.le_min_l]. clear. induction (combine yt yp) as [|p l IH]; [auto|]. cbn. destruct (feq _ _); cbn; lia. }
  assert (Q : 0 <= IZR (Z.of_nat (hits (combine yt yp))) / IZR (Z.of_nat (length yt)) <= 1).
  { assert (0 <= IZR (Z.of_nat (hits (combine yt yp))) <= IZR (Z.of_nat (length yt))) by (split; apply IZR_le; lia). split; [apply Rmult_le_pos; [lra|left; now apply Rinv_0_lt_compat]|].
    apply Rmult_le_reg_r with (IZR (Z.of_nat (length yt))); [exact P|]. unfold Rdiv. rewrite Rmult_assoc, Rinv_l; lra. }
  set (q := IZR (Z.of_nat (hits (combine yt yp))) / IZR (Z.of_nat (length yt))) in *.
  assert (Q' : 0 <= rnd q <= 1). { split; [now apply rnd_nonneg|]. rewrite <- (rnd_fmt 1 fmt_1). now apply rnd_le. }
  destruct (fdiv_val (fst r) (snd r) A) as [V F]; [rewrite D; lra|rewrite C, D; fold q; rewrite Rabs_pos_eq by apply Q'; pose proof one_big; lra|]. rewrite C, D in V. fold q in V. rewrite V. auto.
Qed.
Lemma fmt_pred1 : fmt (1 - bpow radix2 (-53)).
Proof.
  apply generic_format_FLT. apply (FLT_spec radix2 (SpecFloat.emin 53 1024) 53 _ (Float radix2 (2 ^ 53 - 1) (-53))).
  - unfold F2R. cbn [Fnum Fexp]. rewrite minus_IZR. change (IZR (2 ^ 53)) with (bpow radix2 53). rewrite Rmult_minus_distr_r, <- bpow_plus. change (bpow radix2 (53 + -53)) with 1. ring.
  - cbn. lia.
  - cbn. unfold SpecFloat.emin. lia.
Qed.
Lemma accuracy_one yt yp : length yt = length yp -> yt <> [] -> (Z.of_nat (length yt) <= 2 ^ 53)%Z ->
  val (accuracy yt yp) = 1 <-> hits (combine yt yp) = length yt.
Proof.
  intros L N H. destruct (accuracy_val yt yp L N H) as (V & _ & _). rewrite V.
  assert (P : 0 < IZR (Z.of_nat (length yt))) by (apply IZR_lt; destruct yt; [congruence|cbn [length]; lia]).
  assert (HK : (hits (combine yt yp) <= length yt)%nat).
  { unfold hits. apply Nat.le_trans with (length (combine yt yp)); [|rewrite combine_length; apply Nat.le_min_l]. clear. induction (combine yt yp) as [|p l IH]; [auto|]. cbn. destruct (feq _ _); cbn; lia. }
  split.
  - intros E. destruct (Nat.eq_dec (hits (combine yt yp)) (length yt)) as [G|G]; [exact G|]. exfalso.
    assert (Q : IZR (Z.of_nat (hits (combine yt yp))) / IZR (Z.of_nat (length yt)) <= 1 - bpow radix2 (-53)).
    { apply Rmult_le_reg_r with (IZR (Z.of_nat (length yt))); [exact P|]. unfold Rdiv. rewrite Rmult_assoc, Rinv_l, Rmult_1_r by lra.
      assert (A : IZR (Z.of_nat (hits (combine yt yp))) <= IZR (Z.of_nat (length yt)) - 1) by (rewrite <- minus_IZR; apply IZR_le; lia).
      assert (B : bpow radix2 (-53) * IZR (Z.of_nat (length yt)) <= 1).
      { apply Rle_trans with (bpow radix2 (-53) * bpow radix2 53); [apply Rmult_le_compat_l; [apply bpow_ge_0|]; change (bpow radix2 53) with (IZR (2 ^ 53)); now apply IZR_le|]. rewrite <- bpow_plus. change (bpow radix2 (-53 + 53)) with 1. lra. }
      lra. }
    apply rnd_le in Q. rewrite (rnd_fmt _ fmt_pred1), E in Q. pose proof (bpow_gt_0 radix2 (-53)). lra.
  - intros ->. unfold Rdiv. rewrite Rinv_r by lra. apply rnd_fmt, fmt_1.
Qed.
