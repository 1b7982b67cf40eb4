(* Lemmas: monotonicity of binary64 operations including overflow *)
From Coq Require Import ZArith Reals List Bool Lia Lra Psatz.
From Flocq Require Import Core IEEE754.BinarySingleNaN Plus_error.
From Verif Require Import FloatModel FloatProofs FloatRegProofs FloatScoreProofs FloatAffineModel.
Local Open Scope R_scope.

(* a value with the infinities at +-2^1024 *)
Definition ev (v : f64) : R := match v with B754_infinity false => big | B754_infinity true => - big | _ => val v end.
Definition clipR (r : R) : R := Rmax (- big) (Rmin big r).
Lemma big_pos : 0 < big. Proof. apply bpow_gt_0. Qed.
Lemma clip_le a b : a <= b -> clipR a <= clipR b.
Proof. intros H. unfold clipR, Rmax, Rmin. repeat destruct (Rle_dec _ _); lra. Qed.
Lemma clip_range a : - big <= clipR a <= big.
Proof. pose proof big_pos. unfold clipR, Rmax, Rmin. repeat destruct (Rle_dec _ _); lra. Qed.
Lemma ev_fin v : finite v = true -> ev v = val v.
Proof. destruct v as [s|s| |s m e H]; cbn; try discriminate; reflexivity. Qed.
Lemma ev_range v : - big <= ev v <= big.
Proof.
  pose proof big_pos as P. destruct v as [s|[]| |s m e H]; cbn [ev]; try (change (val (B754_zero s)) with 0); try (change (val B754_nan) with 0); try lra.
  pose proof (val_big (B754_finite s m e H) eq_refl) as A. apply Rabs_lt_inv in A. lra.
Qed.
Lemma fle_ev x y : is_nan x = false -> is_nan y = false -> fle x y = true <-> ev x <= ev y.
Proof.
  intros Nx Ny. pose proof big_pos as P. destruct (finite x) eqn:Fx, (finite y) eqn:Fy.
  - rewrite (ev_fin _ Fx), (ev_fin _ Fy). now apply fle_val.
  - assert (A := val_big x Fx). rewrite (ev_fin _ Fx). apply Rabs_lt_inv in A. destruct y as [s|[]| |s m e H]; try discriminate; cbn [ev]; split; intros Q; try lra.
    + exfalso. destruct x as [[]|[]| |[] m e H]; try discriminate Q; discriminate Fx.
    + destruct x as [[]|[]| |[] m e H]; try discriminate Fx; reflexivity.
  - assert (A := val_big y Fy). rewrite (ev_fin _ Fy). apply Rabs_lt_inv in A. destruct x as [s|[]| |s m e H]; try discriminate; cbn [ev]; split; intros Q; try lra.
    + destruct y as [[]|[]| |[] m e H]; try discriminate Fy; reflexivity.
    + exfalso. destruct y as [[]|[]| |[] m e H]; try discriminate Q; discriminate Fy.
  - destruct x as [s|[]| |s m e H]; try discriminate; destruct y as [s'|[]| |s' m' e' H']; try discriminate; cbn [ev]; split; intros Q; try lra; try reflexivity; discriminate Q.
Qed.
Lemma fle_nan x y : fle x y = true -> is_nan x = false /\ is_nan y = false.
Proof. destruct x as [s|s| |s m e H], y as [s'|s'| |s' m' e' H']; split; try reflexivity; try discriminate; destruct s; discriminate. Qed.
(* a correctly rounded result, or the infinity of its sign *)
Lemma ov (z : f64) sg r : (if Rlt_bool (Rabs (rnd r)) big then val z = rnd r /\ finite z = true else B2SF z = binary_overflow 53 1024 mode_NE sg) ->
  (sg = false -> 0 <= r) -> (sg = true -> r <= 0) -> is_nan z = false /\ ev z = clipR (rnd r).
Proof.
  intros H P N. pose proof big_pos as B. destruct (Rlt_bool_spec (Rabs (rnd r)) big) as [L|L].
  - destruct H as [V F]. split; [destruct z; try reflexivity; discriminate F|]. rewrite (ev_fin _ F), V. apply Rabs_lt_inv in L. unfold clipR, Rmax, Rmin. repeat destruct (Rle_dec _ _); lra.
  - rewrite overflow_NE in H. rewrite (inf_eq _ _ H). split; [reflexivity|]. destruct sg; cbn [ev].
    + assert (rnd r <= 0) by (rewrite <- rnd_0; apply rnd_le; auto). rewrite Rabs_left1 in L by lra. unfold clipR, Rmax, Rmin. repeat destruct (Rle_dec _ _); lra.
    + assert (0 <= rnd r) by (rewrite <- rnd_0; apply rnd_le; auto). rewrite Rabs_pos_eq in L by lra. unfold clipR, Rmax, Rmin. repeat destruct (Rle_dec _ _); lra.
Qed.
Lemma sign_pos (x : f64) : Bsign x = false -> 0 <= val x.
Proof. destruct x as [s|s| |s m e H]; cbn; try lra. intros ->. apply F2R_ge_0. cbn. lia. Qed.
Lemma sign_neg' (x : f64) : Bsign x = true -> val x <= 0.
Proof. destruct x as [s|s| |s m e H]; cbn; try lra. intros ->. apply F2R_le_0. cbn. lia. Qed.
Lemma pos_sign (x : f64) : 0 < val x -> Bsign x = false.
Proof. intros H. destruct (Bsign x) eqn:S; [|reflexivity]. apply sign_neg' in S. lra. Qed.
Lemma pos_fin (x : f64) : 0 < val x -> finite x = true.
Proof. destruct x as [s|s| |s m e H]; cbn; try lra; reflexivity. Qed.

Lemma fsub_ev x m : finite x = true -> finite m = true -> is_nan (fsub x m) = false /\ ev (fsub x m) = clipR (rnd (val x - val m)).
Proof.
  intros Fx Fm. pose proof (Bminus_correct 53 1024 prec53 prec53_emax mode_NE x m Fx Fm) as C. change (round_mode mode_NE) with ZnearestE in C. fold (rnd (val x - val m)) in C.
  destruct (Rlt_bool (Rabs (rnd (val x - val m))) big) eqn:E.
  - apply (ov _ (Rlt_bool (val x - val m) 0)); [rewrite E; unfold fsub; tauto| |]; destruct (Rlt_bool_spec (val x - val m) 0); intros; try discriminate; lra.
  - destruct C as [C S]. apply (ov _ (Bsign x)); [rewrite E; exact C| |]; intros Sx; rewrite Sx in S.
    + symmetry in S. apply negb_false_iff in S. pose proof (sign_pos x Sx). pose proof (sign_neg' m S). lra.
    + symmetry in S. apply negb_true_iff in S. pose proof (sign_neg' x Sx). pose proof (sign_pos m S). lra.
Qed.
Lemma fadd_ev x m : finite x = true -> finite m = true -> is_nan (fadd x m) = false /\ ev (fadd x m) = clipR (rnd (val x + val m)).
Proof.
  intros Fx Fm. pose proof (Bplus_correct 53 1024 prec53 prec53_emax mode_NE x m Fx Fm) as C. change (round_mode mode_NE) with ZnearestE in C. fold (rnd (val x + val m)) in C.
  destruct (Rlt_bool (Rabs (rnd (val x + val m))) big) eqn:E.
  - apply (ov _ (Rlt_bool (val x + val m) 0)); [rewrite E; unfold fadd; tauto| |]; destruct (Rlt_bool_spec (val x + val m) 0); intros; try discriminate; lra.
  - destruct C as [C S]. apply (ov _ (Bsign x)); [rewrite E; exact C| |]; intros Sx; rewrite Sx in S; symmetry in S.
    + pose proof (sign_pos x Sx). pose proof (sign_pos m S). lra.
    + pose proof (sign_neg' x Sx). pose proof (sign_neg' m S). lra.
Qed.
Lemma fmul_ev x s : finite x = true -> 0 < val s -> is_nan (fmul x s) = false /\ ev (fmul x s) = clipR (rnd (val x * val s)).
Proof.
  intros Fx Ps. pose proof (pos_fin s Ps) as Fs. pose proof (Bmult_correct 53 1024 prec53 prec53_emax mode_NE x s) as C. change (round_mode mode_NE) with ZnearestE in C. fold (rnd (val x * val s)) in C.
  rewrite Fx, Fs, (pos_sign s Ps), xorb_false_r in C. apply (ov _ (Bsign x)).
  - destruct (Rlt_bool _ _); [unfold fmul; split; [apply C|]; destruct C as (_ & -> & _); reflexivity|exact C].
  - intros S. apply Rmult_le_pos; [now apply sign_pos|lra].
  - intros S. pose proof (sign_neg' x S). nra.
Qed.
Lemma fdiv_ev x s : finite x = true -> 0 < val s -> is_nan (fdiv x s) = false /\ ev (fdiv x s) = clipR (rnd (val x / val s)).
Proof.
  intros Fx Ps. assert (N : val s <> 0) by lra. pose proof (Bdiv_correct 53 1024 prec53 prec53_emax mode_NE x s N) as C. change (round_mode mode_NE) with ZnearestE in C. fold (rnd (val x / val s)) in C.
  rewrite Fx, (pos_sign s Ps), xorb_false_r in C. assert (I : 0 < / val s) by now apply Rinv_0_lt_compat. apply (ov _ (Bsign x)).
  - destruct (Rlt_bool _ _); [unfold fdiv; tauto|exact C].
  - intros S. apply Rmult_le_pos; [now apply sign_pos|lra].
  - intros S. pose proof (sign_neg' x S). unfold Rdiv. nra.
Qed.
(* an operation that rounds a monotone function of a finite value and keeps the infinities is monotone *)
Definition mono (g : f64 -> f64) := forall x y, fle x y = true -> fle (g x) (g y) = true.
Lemma mono_of (g : f64 -> f64) (r : R -> R) : (forall x, finite x = true -> is_nan (g x) = false /\ ev (g x) = clipR (rnd (r (val x)))) -> (forall a b, a <= b -> r a <= r b) ->
  (forall b, g (B754_infinity b) = B754_infinity b) -> mono g.
Proof.
  intros H R I x y L. destruct (fle_nan x y L) as [Nx Ny]. assert (G : forall v, is_nan v = false -> is_nan (g v) = false).
  { intros v Nv. destruct (finite v) eqn:F; [now apply H|]. destruct v as [s|s| |s m e Q]; try discriminate. now rewrite I. }
  apply fle_ev; auto. destruct (finite x) eqn:Fx.
  - destruct (H x Fx) as [_ ->]. destruct (finite y) eqn:Fy.
    + destruct (H y Fy) as [_ ->]. apply clip_le, rnd_le, R. now apply fle_val.
    + destruct y as [s|s| |s m e Q]; try discriminate. rewrite I. destruct s; cbn [ev]; [|apply clip_range]. exfalso. destruct x as [[]|[]| |[] m e Q]; try discriminate L; discriminate Fx.
  - destruct x as [s|s| |s m e Q]; try discriminate. rewrite I. destruct s; [apply ev_range|]. destruct y as [s|[]| |[] m e Q]; try discriminate. rewrite I. lra.
Qed.
Lemma mono_sub m : finite m = true -> mono (fun x => fsub x m).
Proof. intros F. apply (mono_of _ (fun a => a - val m)); [intros; now apply fsub_ev|intros; lra|]. intros b. destruct m as [s|s| |s m e Q]; try discriminate; reflexivity. Qed.
Lemma mono_addl m : finite m = true -> mono (fun x => fadd m x).
Proof. intros F. apply (mono_of _ (fun a => val m + a)); [intros; now apply fadd_ev|intros; lra|]. intros b. destruct m as [s|s| |s m e Q]; try discriminate; reflexivity. Qed.
Lemma mono_addr m : finite m = true -> mono (fun x => fadd x m).
Proof. intros F. apply (mono_of _ (fun a => a + val m)); [intros; now apply fadd_ev|intros; lra|]. intros b. destruct m as [s|s| |s m e Q]; try discriminate; reflexivity. Qed.
Lemma mono_mul s : 0 < val s -> mono (fun x => fmul x s).
Proof.
  intros P. apply (mono_of _ (fun a => a * val s)); [intros; now apply fmul_ev|intros; now apply Rmult_le_compat_r; [lra|]|]. intros b. pose proof (pos_sign s P) as S. pose proof (pos_fin s P) as F.
  destruct s as [s|s| |s m e Q]; try discriminate; [cbn in P; lra|]. cbn in S. subst s. now destruct b.
Qed.
Lemma mono_div s : 0 < val s -> mono (fun x => fdiv x s).
Proof.
  intros P. apply (mono_of _ (fun a => a / val s)); [intros; now apply fdiv_ev|intros; apply Rmult_le_compat_r; [apply Rlt_le, Rinv_0_lt_compat; lra|assumption]|]. intros b. pose proof (pos_sign s P) as S. pose proof (pos_fin s P) as F.
  destruct s as [s|s| |s m e Q]; try discriminate; [cbn in P; lra|]. cbn in S. subst s. now destruct b.
Qed.
Lemma flag_fin (b : bool) m : finite m = true -> finite (if b then m else f0) = true.
Proof. now destruct b. Qed.
Lemma flag_pos (b : bool) s : 0 < val s -> 0 < val (if b then s else f1).
Proof. destruct b; [auto|]. destruct f1_val as [-> _]. lra. Qed.
Lemma std_mono wm ws m s : finite m = true -> 0 < val s -> mono (std_transform wm ws m s) /\ mono (std_inverse wm ws m s).
Proof.
  intros F P. split; intros x y L; unfold std_transform, std_inverse.
  - apply (mono_div _ (flag_pos ws s P)), (mono_sub _ (flag_fin wm m F)), L.
  - apply (mono_addl _ (flag_fin wm m F)), (mono_mul _ (flag_pos ws s P)), L.
Qed.
Lemma rob_mono ce sc m s : finite m = true -> 0 < val s -> mono (rob_transform ce sc m s) /\ mono (rob_inverse ce sc m s).
Proof.
  intros F P. split; intros x y L; unfold rob_transform, rob_inverse; cbv zeta; destruct ce, sc; auto.
  - apply (mono_div _ P), (mono_sub _ F), L.
  - apply (mono_sub _ F), L.
  - apply (mono_div _ P), L.
  - apply (mono_addr _ F), (mono_mul _ P), L.
  - apply (mono_addr _ F), L.
  - apply (mono_mul _ P), L.
Qed.
Lemma divider_pos q1 q2 : finite q1 = true -> finite q2 = true -> val q1 <= val q2 -> finite (fsub q2 q1) = true -> 0 < val (rob_divider q1 q2).
Proof.
  intros F1 F2 L F. unfold rob_divider. cbv zeta. destruct (feq (fsub q2 q1) f0) eqn:E; [destruct f1_val as [-> _]; lra|].
  assert (0 <= val (fsub q2 q1)) by (rewrite fsub_fin by exact F; rewrite <- rnd_0; apply rnd_le; lra).
  assert (N : val (fsub q2 q1) <> 0) by (intros Z; assert (T : feq (fsub q2 q1) f0 = true) by (apply feq_val; [exact F|reflexivity|exact Z]); congruence). lra.
Qed.
(* the error of the round trip *)
Lemma rnd_u x : bpow radix2 (-1022) <= Rabs x -> Rabs (rnd x - x) <= bpow radix2 (-53) * Rabs x.
Proof.
  intros H. eapply Rle_trans; [now apply rnd_rel|]. apply Rmult_le_compat_r; [apply Rabs_pos|]. pose proof u_small as U. set (u := bpow radix2 (-53)) in *. clearbody u.
  apply Rmult_le_reg_r with (1 + u); [lra|]. unfold Rdiv. rewrite Rmult_assoc, Rinv_l by lra. nra.
Qed.
Lemma rnd_add_u a b : fmt a -> fmt b -> Rabs (rnd (a + b) - (a + b)) <= bpow radix2 (-53) * Rabs (a + b).
Proof.
  intros A B. destruct (Rle_or_lt (bpow radix2 (-1022)) (Rabs (a + b))) as [L|L]; [now apply rnd_u|].
  assert (F : fmt (a + b)). { apply (FLT_format_plus_small radix2 (SpecFloat.emin 53 1024) 53 a b A B). apply Rlt_le, Rlt_le_trans with (1 := L). apply bpow_le. vm_compute. discriminate. }
  rewrite (rnd_fmt _ F), Rminus_diag_eq, Rabs_R0 by reflexivity. apply Rmult_le_pos; [apply bpow_ge_0|apply Rabs_pos].
Qed.
Lemma near_mult u a b c : 0 <= u -> Rabs (a - b) <= u * Rabs b -> Rabs (a * c - b * c) <= u * Rabs (b * c).
Proof. intros U H. replace (a * c - b * c) with ((a - b) * c) by ring. rewrite !Rabs_mult, <- Rmult_assoc. apply Rmult_le_compat_r; [apply Rabs_pos|exact H]. Qed.
Lemma near_trans u v a b c : 0 <= u -> 0 <= v -> Rabs (a - b) <= u * Rabs b -> Rabs (b - c) <= v * Rabs c -> Rabs (a - c) <= (u + v + u * v) * Rabs c.
Proof.
  intros U V H K. replace (a - c) with ((a - b) + (b - c)) by ring. eapply Rle_trans; [apply Rabs_triang|].
  assert (B : Rabs b <= (1 + v) * Rabs c). { replace b with ((b - c) + c) by ring. eapply Rle_trans; [apply Rabs_triang|]. lra. }
  assert (u * Rabs b <= u * ((1 + v) * Rabs c)) by now apply Rmult_le_compat_l. lra.
Qed.
Lemma near_half u a b : u <= / 2 -> Rabs (a - b) <= u * Rabs b -> Rabs b / 2 <= Rabs a.
Proof. intros U H. pose proof (Rabs_triang_inv b a) as T. rewrite (Rabs_minus_sym b) in T. pose proof (Rabs_pos b). assert (u * Rabs b <= / 2 * Rabs b) by (apply Rmult_le_compat_r; lra). lra. Qed.
Lemma round_trip x m s : fmt x -> fmt m -> fmt s -> 0 < s -> bpow radix2 (-1020) <= Rabs (x - m) -> bpow radix2 (-1020) * s <= Rabs (x - m) ->
  Rabs (rnd (m + rnd (rnd (rnd (x - m) / s) * s)) - x) <= bpow radix2 (-51) * Rabs (x - m) + bpow radix2 (-53) * Rabs x.
Proof.
  intros Fx Fm Fs Ps D Q. pose proof u_small as U.
  assert (E51 : bpow radix2 (-51) = 4 * bpow radix2 (-53)) by (change (-51)%Z with (2 + -53)%Z; rewrite bpow_plus; reflexivity).
  assert (E1020 : bpow radix2 (-1020) = 4 * bpow radix2 (-1022)) by (change (-1020)%Z with (2 + -1022)%Z; rewrite bpow_plus; reflexivity).
  assert (U8 : bpow radix2 (-53) <= / 8) by (change (/ 8) with (bpow radix2 (-3)); apply bpow_le; lia).
  pose proof (bpow_gt_0 radix2 (-1022)) as T0. rewrite E51. rewrite E1020 in D, Q. set (d := rnd (x - m)). set (q := rnd (d / s)). set (p := rnd (q * s)).
  assert (H1 : Rabs (d - (x - m)) <= bpow radix2 (-53) * Rabs (x - m)). { apply rnd_u. lra. }
  assert (K1 : Rabs (x - m) / 2 <= Rabs d) by (apply (near_half (bpow radix2 (-53))); [lra|exact H1]).
  assert (I : 0 < / s) by now apply Rinv_0_lt_compat. assert (As : Rabs (/ s) = / s) by (apply Rabs_pos_eq; lra).
  assert (M : forall t, t * s / s = t) by (intros t; field; lra). assert (M' : forall t, t / s * s = t) by (intros t; field; lra).
  assert (B2 : bpow radix2 (-1022) <= Rabs (d / s)).
  { unfold Rdiv. rewrite Rabs_mult, As. apply Rmult_le_reg_r with s; [exact Ps|]. rewrite Rmult_assoc, Rinv_l by lra. lra. }
  assert (H2 : Rabs (q - d / s) <= bpow radix2 (-53) * Rabs (d / s)) by now apply rnd_u.
  assert (H2' : Rabs (q * s - d) <= bpow radix2 (-53) * Rabs d). { pose proof (near_mult _ _ _ s (Rlt_le _ _ (proj1 U)) H2) as N. now rewrite M' in N. }
  assert (K2 : Rabs d / 2 <= Rabs (q * s)) by (apply (near_half (bpow radix2 (-53))); [lra|exact H2']).
  assert (H3 : Rabs (p - q * s) <= bpow radix2 (-53) * Rabs (q * s)) by (apply rnd_u; lra).
  set (u := bpow radix2 (-53)) in *. assert (U0 : 0 <= u) by lra.
  pose proof (near_trans u u _ _ _ U0 U0 H3 H2') as H4. assert (V0 : 0 <= u + u + u * u) by nra. pose proof (near_trans _ u _ _ _ V0 U0 H4 H1) as H5.
  assert (H6 : Rabs (rnd (m + p) - (m + p)) <= u * Rabs (m + p)) by (apply rnd_add_u; [exact Fm|apply fmt_rnd]).
  set (w := u + u + u * u + u + (u + u + u * u) * u) in *. assert (W : (1 + u) * w <= 4 * u) by (unfold w; clearbody u; nra). set (R5 := Rabs (x - m)) in *. pose proof (Rabs_pos (x - m)) as P5. fold R5 in P5.
  assert (A : Rabs (m + p) <= Rabs x + w * R5). { replace (m + p) with (x + (p - (x - m))) by ring. eapply Rle_trans; [apply Rabs_triang|]. lra. }
  replace (rnd (m + p) - x) with ((rnd (m + p) - (m + p)) + (p - (x - m))) by ring. eapply Rle_trans; [apply Rabs_triang|].
  assert (u * Rabs (m + p) <= u * (Rabs x + w * R5)) by now apply Rmult_le_compat_l. assert ((1 + u) * w * R5 <= 4 * u * R5) by now apply Rmult_le_compat_r. clearbody w. lra.
Qed.
