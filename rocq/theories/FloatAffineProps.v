(* Property C260: StandardScaler and RobustScaler keep the order of the samples, in binary64 arithmetic *)
From Coq Require Import Reals ZArith List Bool Lia Lra.
From Flocq Require Import Core.Core IEEE754.BinarySingleNaN.
From Verif Require Import FloatModel FloatProofs FloatRegProofs FloatAffineModel FloatAffineProofs.
Local Open Scope R_scope.

(* a sample not above another is not above it after Transform and after InverseTransform, whatever overflows or underflows, and for infinite samples too;
   in particular no result is NaN. The mean is finite and the scale positive and finite *)
Theorem C260_order : forall wm ws m s x y, is_finite m = true -> 0 < B2R s -> fle x y = true ->
  fle (std_transform wm ws m s x) (std_transform wm ws m s y) = true /\ fle (std_inverse wm ws m s x) (std_inverse wm ws m s y) = true /\
  fle (rob_transform wm ws m s x) (rob_transform wm ws m s y) = true /\ fle (rob_inverse wm ws m s x) (rob_inverse wm ws m s y) = true.
Proof. intros wm ws m s x y F P L. destruct (std_mono wm ws m s F P) as [A B]. destruct (rob_mono wm ws m s F P) as [C D]. auto. Qed.
Print Assumptions C260_order.
(* the divider of RobustScaler is such a scale unless the difference of the quantiles overflows *)
Theorem C260_divider : forall q1 q2, is_finite q1 = true -> is_finite q2 = true -> B2R q1 <= B2R q2 -> is_finite (fsub q2 q1) = true -> 0 < B2R (rob_divider q1 q2).
Proof. exact divider_pos. Qed.
Print Assumptions C260_divider.
(* the centre becomes 0 and comes back exactly; so samples above the centre are not negative and those below it not positive *)
Theorem C260_centre : forall m s, is_finite m = true -> 0 < B2R s -> feq (std_transform true true m s m) f0 = true /\ feq (rob_transform true true m s m) f0 = true /\
  feq (std_inverse true true m s f0) m = true /\ feq (rob_inverse true true m s f0) m = true /\
  forall x, fle m x = true -> fle f0 (std_transform true true m s x) = true /\ fle f0 (rob_transform true true m s x) = true.
Proof.
  intros m s F P. destruct (fsub_val m m F F) as [V G]; [rewrite Rminus_diag_eq, rnd_0, Rabs_R0 by reflexivity; apply bpow_gt_0|]. rewrite Rminus_diag_eq, rnd_0 in V by reflexivity.
  assert (Z : rnd (B2R (fsub m m) / B2R s) = 0) by (rewrite V; unfold Rdiv; rewrite Rmult_0_l; apply rnd_0).
  destruct (fdiv_val (fsub m m) s G) as [V' G']; [lra|rewrite Z, Rabs_R0; apply bpow_gt_0|]. rewrite Z in V'.
  assert (E : feq (fdiv (fsub m m) s) f0 = true) by (apply feq_val; [exact G'|reflexivity|exact V']).
  assert (Z2 : rnd (B2R f0 * B2R s) = 0) by (change (B2R f0) with 0; rewrite Rmult_0_l; apply rnd_0).
  destruct (fmul_val f0 s eq_refl (pos_fin s P)) as [V2 G2]; [rewrite Z2, Rabs_R0; apply bpow_gt_0|]. rewrite Z2 in V2. pose proof (val_big m F) as Bm.
  assert (Z3 : rnd (B2R m + B2R (fmul f0 s)) = B2R m) by (rewrite V2, Rplus_0_r; apply rnd_fmt, fmt_val).
  destruct (fadd_val m (fmul f0 s) F G2) as [V3 G3]; [rewrite Z3; exact Bm|].
  assert (Z4 : rnd (B2R (fmul f0 s) + B2R m) = B2R m) by (rewrite V2, Rplus_0_l; apply rnd_fmt, fmt_val).
  destruct (fadd_val (fmul f0 s) m G2 F) as [V4 G4]; [rewrite Z4; exact Bm|].
  split; [exact E|]. split; [exact E|]. split; [apply feq_val; [exact G3|exact F|exact (eq_trans V3 Z3)]|]. split; [apply feq_val; [exact G4|exact F|exact (eq_trans V4 Z4)]|].
  intros x L. assert (Q : fle (fdiv (fsub m m) s) (fdiv (fsub x m) s) = true) by apply (mono_div s P), (mono_sub m F), L.
  assert (H : fle f0 (fdiv (fsub x m) s) = true). { destruct (fle_nan _ _ Q) as [_ N]. apply fle_ev; [reflexivity|exact N|]. apply fle_ev in Q; [|now destruct (fle_nan _ _ Q)|exact N]. rewrite ev_fin, V' in Q by exact G'. exact Q. }
  split; exact H.
Qed.
Print Assumptions C260_centre.
(* a finite result of the round trip differs from the sample by at most 2^-51 times the distance to the centre and 2^-53 times the sample,
   if neither that distance nor the scaled sample is close to 0 *)
Theorem C260_roundtrip_partial : forall m s x, is_finite x = true -> is_finite m = true -> 0 < B2R s -> let d := Rabs (B2R x - B2R m) in
  bpow radix2 (-1020) <= d -> bpow radix2 (-1020) * B2R s <= d ->
  (is_finite (std_inverse true true m s (std_transform true true m s x)) = true ->
   Rabs (B2R (std_inverse true true m s (std_transform true true m s x)) - B2R x) <= bpow radix2 (-51) * d + bpow radix2 (-53) * Rabs (B2R x)) /\
  (is_finite (rob_inverse true true m s (rob_transform true true m s x)) = true ->
   Rabs (B2R (rob_inverse true true m s (rob_transform true true m s x)) - B2R x) <= bpow radix2 (-51) * d + bpow radix2 (-53) * Rabs (B2R x)).
Proof.
  intros m s x Fx Fm Ps d D Q. pose proof (pos_fin s Ps) as Fs.
  assert (G : is_finite (fmul (fdiv (fsub x m) s) s) = true -> B2R (fmul (fdiv (fsub x m) s) s) = rnd (rnd (rnd (B2R x - B2R m) / B2R s) * B2R s)).
  { intros F. rewrite fmul_fin by exact F. apply fmul_inv in F as [F _]. rewrite fdiv_fin by (exact F || lra). rewrite fsub_fin; [reflexivity|]. destruct (fsub x m) as [b|b| |b n e H]; try reflexivity; exfalso; destruct s as [b'|b'| |b' n' e' H']; try discriminate Fs; try discriminate F. }
  split; intros F; unfold std_inverse, std_transform, rob_inverse, rob_transform in *; rewrite fadd_fin by exact F; apply fadd_inv in F as [F1 F2]; rewrite G by assumption; [|rewrite Rplus_comm]; apply round_trip; auto using fmt_val.
Qed.
Print Assumptions C260_roundtrip_partial.
(* samples that differ may become equal, the round trip is not exact, and when the quantiles differ by more than the largest float64
   RobustScaler makes every sample 0 and restores NaN *)
Theorem C260_distinct_refuted : exists m s x y, is_finite m = true /\ 0 < B2R s /\ flt x y = true /\ feq (std_transform true true m s x) (std_transform true true m s y) = true.
Proof. exists (fint (2 ^ 60)), f1, f0, f1. split; [reflexivity|]. split; [destruct f1_val as [-> _]; lra|]. split; vm_compute; reflexivity. Qed.
Print Assumptions C260_distinct_refuted.
Theorem C260_roundtrip_refuted : exists m s x, is_finite m = true /\ 0 < B2R s /\ is_finite x = true /\ flt (std_inverse true true m s (std_transform true true m s x)) x = true.
Proof.
  exists f0, (fint 11), (fint 15). split; [reflexivity|]. split; [destruct (fint_val 11) as [-> _]; [vm_compute; discriminate|lra]|]. split; vm_compute; reflexivity.
Qed.
Print Assumptions C260_roundtrip_refuted.
Theorem C260_overflow_refuted : exists q1 q2 m, is_finite q1 = true /\ is_finite q2 = true /\ is_finite m = true /\ flt q1 m = true /\ flt m q2 = true /\
  forall x, is_finite (fsub x m) = true -> B2R (rob_transform true true m (rob_divider q1 q2) x) = 0 /\ is_nan (rob_inverse true true m (rob_divider q1 q2) (rob_transform true true m (rob_divider q1 q2) x)) = true.
Proof.
  exists (fint (- 2 ^ 1023)), (fint (2 ^ 1023)), f0. split; [vm_compute; reflexivity|]. split; [vm_compute; reflexivity|]. split; [reflexivity|]. split; [vm_compute; reflexivity|]. split; [vm_compute; reflexivity|].
  assert (E : B2SF (rob_divider (fint (- 2 ^ 1023)) (fint (2 ^ 1023))) = SpecFloat.S754_infinity false) by (vm_compute; reflexivity). rewrite (inf_eq _ _ E). unfold rob_transform, rob_inverse. cbv zeta.
  intros x F. destruct (fsub x f0) as [b|b| |b n e H]; try discriminate F; split; reflexivity.
Qed.
Print Assumptions C260_overflow_refuted.
(* mean 5, scale 2: 9 is 2 scales above, and the largest float64 overflows neither way of its order *)
Example C260_example : B2SF (std_transform true true (fint 5) (fint 2) (fint 9)) = B2SF (fint 2) /\ B2SF (rob_inverse true true (fint 5) (fint 2) (fint 2)) = B2SF (fint 9) /\
  B2SF (std_inverse true true (fint 5) (fint 2) (fint (2 ^ 1023))) = SpecFloat.S754_infinity false /\ fle (std_inverse true true (fint 5) (fint 2) (fint 9)) (std_inverse true true (fint 5) (fint 2) (fint (2 ^ 1023))) = true /\
  B2SF (rob_divider (fint 3) (fint 3)) = B2SF f1 /\ B2SF (rob_divider (fint 3) (fint 8)) = B2SF (fint 5).
Proof. vm_compute. repeat split. Qed.
