(* Properties C240-C244: what the scalers, distances and accuracy guarantee in binary64 arithmetic *)
From Coq Require Import Reals ZArith List Bool Lia Lra.
From Flocq Require Import Core.Core IEEE754.BinarySingleNaN.
From Verif Require Import FloatModel FloatProofs FloatDistProofs.
Import ListNotations.
Open Scope R_scope.

(* C240: MaxAbsScaler, fitted on finite values: every one of them is scaled to a finite number in [-1, 1], their order is kept, and
   one of them lands exactly on 1 or -1 unless all are zero *)
Theorem C240_range : forall col, Forall (fun v => is_finite v = true) col -> let sc := ma_scale col in
  (forall v, In v col -> is_finite (ma_transform sc v) = true /\ -1 <= B2R (ma_transform sc v) <= 1) /\
  (forall u v, In u col -> In v col -> B2R u <= B2R v -> B2R (ma_transform sc u) <= B2R (ma_transform sc v)) /\
  ((exists v, In v col /\ B2R v <> 0) -> exists v, In v col /\ Rabs (B2R (ma_transform sc v)) = 1).
Proof.
  intros col F sc. destruct (ma_scale_spec col F) as (A & B & C & D). fold sc in A, B, C, D. pose proof (proj1 (Forall_forall _ _) F) as FA. cbv beta in FA. split; [|split].
  - intros v I. destruct (ma_transform_val sc v (FA v I) B (C v I)) as (_ & P & Q). auto.
  - intros u v Iu Iv L. destruct (ma_transform_val sc u (FA u Iu) B (C u Iu)) as (-> & _). destruct (ma_transform_val sc v (FA v Iv) B (C v Iv)) as (-> & _).
    apply rnd_le. apply Rmult_le_compat_r; [left; now apply Rinv_0_lt_compat|exact L].
  - intros H. destruct (D H) as (v & I & E). exists v. split; [exact I|]. destruct (ma_transform_val sc v (FA v I) B (C v I)) as (-> & _). revert E. unfold Rabs at 1. destruct (Rcase_abs (B2R v)) as [L|L]; intros E.
    + replace (B2R v / B2R sc) with (-1) by (rewrite <- E; field; lra). change (-1) with (- (1)). rewrite rnd_opp, (rnd_fmt 1 fmt_1), Rabs_Ropp. apply Rabs_R1.
    + replace (B2R v / B2R sc) with 1 by (rewrite <- E; field; lra). rewrite (rnd_fmt 1 fmt_1). apply Rabs_R1.
Qed.
Print Assumptions C240_range.
(* InverseTransform does not always give the value back: 15 in the column 15, 22 *)
Theorem C240_inverse_refuted : exists col v, Forall (fun v => is_finite v = true) col /\ In v col /\ feq (ma_inverse (ma_scale col) (ma_transform (ma_scale col) v)) v = false.
Proof. exists [fint 15; fint 22], (fint 15). split; [repeat constructor|]. split; [now left|]. vm_compute. reflexivity. Qed.
Print Assumptions C240_inverse_refuted.
Example C240_example : map (fun v => B2SF (ma_transform (ma_scale [fint 1; fint (-4); fint 3]) v)) [fint 1; fint (-4); fint 3] = map B2SF [fdiv f1 (fint 4); fint (-1); fdiv (fint 3) (fint 4)].
Proof. vm_compute. reflexivity. Qed.

(* C241: MinMaxScaler keeps the order of the values, and with FeatureRange starting at 0 the smallest becomes exactly 0 and none is below *)
Theorem C241_order_partial : forall lo hi c cs, Forall (fun v => is_finite v = true) (c :: cs) -> B2R lo <= B2R hi ->
  is_finite (fsub hi lo) = true -> is_finite (fsub (mm_max c cs) (mm_min c cs)) = true -> is_finite (mm_scale lo hi c cs) = true ->
  (forall x y, is_finite (mm_transform lo hi c cs x) = true -> is_finite (mm_transform lo hi c cs y) = true -> B2R x <= B2R y -> B2R (mm_transform lo hi c cs x) <= B2R (mm_transform lo hi c cs y)) /\
  (B2R lo = 0 -> (forall x, In x (c :: cs) -> is_finite (mm_transform lo hi c cs x) = true) -> is_finite (mm_transform lo hi c cs (mm_min c cs)) = true ->
    B2R (mm_transform lo hi c cs (mm_min c cs)) = 0 /\ forall x, In x (c :: cs) -> 0 <= B2R (mm_transform lo hi c cs x)).
Proof.
  intros lo hi c cs F HL Fh Fr Fs. pose proof (mm_scale_nonneg lo hi c cs F HL Fr Fs Fh) as P. split; [intros; now apply mm_transform_le|]. intros Z FT FM.
  pose proof (mm_transform_min lo hi c cs Z FM) as M. split; [exact M|]. intros x I. rewrite <- M. apply mm_transform_le; [exact P|exact FM|now apply FT|].
  inversion F as [|? ? Fc Fcs]; subst. destruct (mm_min_spec cs Fcs c Fc) as (_ & B & C). destruct I as [<-|I]; [exact B|now apply C].
Qed.
Print Assumptions C241_order_partial.
(* the largest value may leave the range: 1 and 6 scaled to [0, 1] give 0 and 1 + 2^-52 *)
Theorem C241_above_refuted : exists c cs x, Forall (fun v => is_finite v = true) (c :: cs) /\ In x (c :: cs) /\ flt f1 (mm_transform f0 f1 c cs x) = true.
Proof. exists (fint 1), [fint 6], (fint 6). split; [repeat constructor|]. split; [right; now left|]. vm_compute. reflexivity. Qed.
Print Assumptions C241_above_refuted.
(* when the range of a column exceeds the largest float64, all its values become the same number *)
Theorem C241_overflow_refuted : exists c cs, Forall (fun v => is_finite v = true) (c :: cs) /\ flt c (hd c cs) = true /\
  feq (mm_transform f0 f1 c cs c) (mm_transform f0 f1 c cs (hd c cs)) = true.
Proof. exists (fint (- 2 ^ 1023)), [fint (2 ^ 1023)]. split; [repeat constructor; vm_compute; reflexivity|]. split; vm_compute; reflexivity. Qed.
Print Assumptions C241_overflow_refuted.
Example C241_example : map (fun v => B2SF (mm_transform f0 f1 (fint 3) [fint 7; fint 5] v)) [fint 3; fint 7; fint 5] = map B2SF [f0; f1; fdiv f1 (fint 2)].
Proof. vm_compute. reflexivity. Qed.

(* C242: StandardScaler on a feature that is constant: zeros, when the value is an integer and the number of samples a power of two
   and their product at most 2^53 *)
Theorem C242_constant_partial : forall k z, (Z.of_nat (2 ^ k) * Z.abs z <= 2 ^ 53)%Z -> (k <= 53)%nat -> let col := repeat (fint z) (2 ^ k) in
  B2R (fint z) = IZR z /\ forall v, In v col -> is_finite (ss_transform col v) = true /\ B2R (ss_transform col v) = 0.
Proof.
  intros k z H Hk col. split.
  - apply fint_val. assert (1 <= Z.of_nat (2 ^ k))%Z by (rewrite Nat2Z.inj_pow; change (Z.of_nat 2) with 2%Z; pose proof (Z.pow_pos_nonneg 2 (Z.of_nat k)); lia). nia.
  - intros v I. destruct (ss_pow2 k z H Hk v I). auto.
Qed.
Print Assumptions C242_constant_partial.
(* and generally whenever the computed mean is the value itself *)
Theorem C242_mean_partial : forall col x, col <> [] -> Forall (fun v => is_finite v = true /\ B2R v = x) col -> is_finite (recip (length col)) = true -> is_finite (fsum col) = true ->
  rnd (B2R (recip (length col)) * B2R (fsum col)) = x -> Rabs x < bpow radix2 1024 -> forall v, In v col -> B2R (ss_transform col v) = 0 /\ is_finite (ss_transform col v) = true.
Proof. exact ss_const. Qed.
Print Assumptions C242_mean_partial.
(* 49 ones, or 6 times 0.1, become ones: the computed mean is off by one rounding and the variance is not 0 *)
Theorem C242_constant_refuted : (forall v, In v (repeat f1 49) -> fle f1 (ss_transform (repeat f1 49) v) = true) /\
  (forall v, let t := fdiv f1 (fint 10) in In v (repeat t 6) -> feq f1 (ss_transform (repeat t 6) v) = true).
Proof. split; [|cbv zeta]; intros v I; apply repeat_spec in I as ->; vm_compute; reflexivity. Qed.
Print Assumptions C242_constant_refuted.
Example C242_example : map (fun v => B2SF (ss_transform [fint 1; fint 3] v)) [fint 1; fint 3] = map B2SF [fint (-1); fint 1] /\ B2SF (ss_transform (repeat (fint 7) 8) (fint 7)) = B2SF f0.
Proof. vm_compute. auto. Qed.

(* C243: EuclideanDistance of finite vectors is symmetric to the last bit and 0 from a vector to itself; a distance of 0 means equal
   vectors with one feature, and otherwise that no feature differs by 2^-537 or more *)
Theorem C243_distance_partial : forall a b, length a = length b -> Forall (fun v => is_finite v = true) a -> Forall (fun v => is_finite v = true) b ->
  euclid a b = euclid b a /\ (B2R (euclid a a) = 0 /\ is_finite (euclid a a) = true) /\
  (is_finite (euclid a b) = true -> B2R (euclid a b) = 0 -> (2 <= length a)%nat -> forall x y, In (x, y) (combine a b) -> Rabs (B2R y - B2R x) < bpow radix2 (-537)).
Proof.
  intros a b L Fa Fb. split; [now apply euclid_sym|]. split; [now apply euclid_self|]. intros F Z La x y I. now apply (euclid_zero a b).
Qed.
Print Assumptions C243_distance_partial.
Theorem C243_one_feature : forall x y, is_finite x = true -> is_finite y = true -> is_finite (euclid [x] [y]) = true -> (B2R (euclid [x] [y]) = 0 <-> B2R x = B2R y).
Proof. exact euclid_zero1. Qed.
Print Assumptions C243_one_feature.
(* different vectors at distance 0, vectors at infinite distance, a detour that is shorter *)
Theorem C243_metric_refuted :
  (exists a b, Forall (fun v => is_finite v = true) (a ++ b) /\ flt (hd f0 b) (hd f0 a) = true /\ feq (euclid a b) f0 = true) /\
  (exists a b, Forall (fun v => is_finite v = true) (a ++ b) /\ is_finite (euclid a b) = false) /\
  (exists a b c, Forall (fun v => is_finite v = true) (a ++ b ++ c) /\ flt (fadd (euclid a b) (euclid b c)) (euclid a c) = true).
Proof.
  split; [|split].
  - exists [fdiv f1 (fint (2 ^ 600)); f0], [f0; f0]. split; [repeat constructor; vm_compute; reflexivity|]. split; vm_compute; reflexivity.
  - exists [fint (2 ^ 600); f0], [f0; f0]. split; [repeat constructor; vm_compute; reflexivity|]. vm_compute; reflexivity.
  - exists [f0; fint (-2)], [fint 1; fint (-1)], [fint 4; fint 2]. split; [repeat constructor|]. vm_compute. reflexivity.
Qed.
Print Assumptions C243_metric_refuted.
Example C243_example : B2SF (euclid [f0; fint 1] [fint 3; fint 5]) = B2SF (fint 5).
Proof. vm_compute. reflexivity. Qed.

(* C244: AccuracyScore without weights, up to 2^53 samples, is the float64 nearest to hits / samples, within [0, 1], and 1 exactly when
   every prediction is right *)
Theorem C244_accuracy : forall yt yp, length yt = length yp -> yt <> [] -> (Z.of_nat (length yt) <= 2 ^ 53)%Z ->
  let k := length (filter (fun p => feq (fst p) (snd p)) (combine yt yp)) in
  B2R (accuracy yt yp) = round radix2 (SpecFloat.fexp 53 1024) ZnearestE (INR k / INR (length yt)) /\ is_finite (accuracy yt yp) = true /\ 0 <= B2R (accuracy yt yp) <= 1 /\
  (B2R (accuracy yt yp) = 1 <-> Forall (fun p => feq (fst p) (snd p) = true) (combine yt yp)).
Proof.
  intros yt yp L N H k. destruct (accuracy_val yt yp L N H) as (A & B & C). rewrite !INR_IZR_INZ. split; [exact A|]. split; [exact B|]. split; [exact C|].
  rewrite (accuracy_one yt yp L N H). unfold hits. assert (E : length yt = length (combine yt yp)) by (rewrite combine_length, <- L; symmetry; apply Nat.min_id). rewrite E. clear. induction (combine yt yp) as [|p l IH]; [split; [constructor|reflexivity]|].
  cbn [filter]. assert (G : (length (filter (fun p => feq (fst p) (snd p)) l) <= length l)%nat) by (clear; induction l as [|q l IH]; [auto|]; cbn; destruct (feq _ _); cbn; lia).
  destruct (feq (fst p) (snd p)) eqn:Q; cbn [length]; split.
  - intros X. constructor; [exact Q|]. apply IH. lia.
  - intros X. inversion X; subst. f_equal. now apply IH.
  - intros X. lia.
  - intros X. inversion X. congruence.
Qed.
Print Assumptions C244_accuracy.
Example C244_example : B2SF (accuracy [fint 1; fint 2; fint 3; fint 3] [fint 1; fint 2; fint 4; fint 3]) = B2SF (fdiv (fint 3) (fint 4)).
Proof. vm_compute. reflexivity. Qed.
