(* Properties C245-C248: ROC curve, F-score, regression scores and KBinsDiscretizer in binary64 arithmetic *)
From Coq Require Import Reals ZArith List Bool Lia Lra Sorted.
From Flocq Require Import Core.Core IEEE754.BinarySingleNaN.
From Verif Require Import FloatModel FloatProofs FloatDistProofs FloatScoreModel FloatScoreProofs FloatRegProofs.
Import ListNotations.
Open Scope R_scope.

(* C245: with at least one positive and one negative sample and at most 2^53 samples, the rates of the ROC curve are finite numbers in
   [0, 1] that never decrease; the false positive rate starts at 0; both end within 2^-53 below 1, and at exactly 1 when the number of
   samples of the class is a power of two *)
Theorem C245_roc_partial : forall gs, (Z.of_nat (length (concat gs)) <= 2 ^ 53)%Z ->
  let np := count_occ bool_dec (concat gs) true in let nn := count_occ bool_dec (concat gs) false in (0 < np)%nat -> (0 < nn)%nat ->
  let '(fpr, tpr) := roc gs in
  length fpr = length tpr /\ (forall v, In v (fpr ++ tpr) -> is_finite v = true /\ 0 <= B2R v <= 1) /\
  StronglySorted (fun u v => B2R u <= B2R v) fpr /\ StronglySorted (fun u v => B2R u <= B2R v) tpr /\
  B2R (hd f1 fpr) = 0 /\ 1 - bpow radix2 (-53) <= B2R (last fpr f0) /\ 1 - bpow radix2 (-53) <= B2R (last tpr f0) /\
  (forall j, nn = (2 ^ j)%nat -> B2R (last fpr f0) = 1) /\ (forall j, np = (2 ^ j)%nat -> B2R (last tpr f0) = 1).
Proof.
  intros gs H np nn HP HN. assert (N : gs <> []) by (intros ->; cbn in HP; lia). destruct (roc_spec gs N H HP HN) as (A & B & S1 & S2 & Z & L1 & L2). destruct (roc gs) as [fpr tpr]. cbn [fst snd] in A, B.
  assert (Pw : forall n k, (n <= length (concat gs))%nat -> n = (2 ^ k)%nat -> (k <= 53)%nat).
  { intros n k Hn E. destruct (Nat.le_gt_cases k 53) as [G|G]; [exact G|]. exfalso. assert (X : (2 ^ Z.of_nat 54 <= 2 ^ Z.of_nat k)%Z) by (apply Z.pow_le_mono_r; lia). assert (Y : Z.of_nat n = (2 ^ Z.of_nat k)%Z) by (rewrite E, Nat2Z.inj_pow; reflexivity). change (2 ^ Z.of_nat 54)%Z with (2 * 2 ^ 53)%Z in X. lia. }
  pose proof (count_all (concat gs)) as CA. fold np nn in CA, A, B, L1, L2.
  assert (LA : forall (P : f64 -> nat -> Prop) l ks, Forall2 P l ks -> l <> [] -> P (last l f0) (last ks 0%nat)).
  { intros P l ks F. induction F as [|v k l ks Hv F IH]; intros E; [congruence|]. destruct F; [exact Hv|]. apply IH. discriminate. }
  assert (NE : roc_counts gs <> []) by (intros E; rewrite E in Z; discriminate).
  assert (Nf : fpr <> []) by (intros ->; inversion A as [E|]; destruct (roc_counts gs); [congruence|discriminate]). assert (Nt : tpr <> []) by (intros ->; inversion B as [E|]; destruct (roc_counts gs); [congruence|discriminate]).
  pose proof (LA _ _ _ A Nf) as EA. pose proof (LA _ _ _ B Nt) as EB. rewrite L2 in EA. rewrite L1 in EB. destruct EA as (_ & EA & _ & EA'). destruct EB as (_ & EB & _ & EB').
  split; [|split; [|split; [|split; [|split; [|split; [|split; [|split]]]]]]].
  - pose proof (F2_length _ _ _ A) as X. pose proof (F2_length _ _ _ B) as Y. rewrite map_length in X, Y. exact (eq_trans X (eq_sym Y)).
  - intros v I. apply in_app_or in I as [I|I].
    + clear - A I. induction A as [|w k l ks (F & _ & R & _) A IH]; [destruct I|]. destruct I as [->|I]; auto.
    + clear - B I. induction B as [|w k l ks (F & _ & R & _) B IH]; [destruct I|]. destruct I as [->|I]; auto.
  - apply (rate_sorted fpr (map snd (roc_counts gs)) nn HN); [|exact S2]. clear - A. induction A as [|w k l ks (_ & V & _) A IH]; constructor; assumption.
  - apply (rate_sorted tpr (map fst (roc_counts gs)) np HP); [|exact S1]. clear - B. induction B as [|w k l ks (_ & V & _) B IH]; constructor; assumption.
  - clear - A Z. revert Z. generalize dependent (map snd (roc_counts gs)). intros ks A Z. destruct A as [|w k l ks (_ & V & _) A]; [discriminate|]. cbn in Z. subst k. cbn [hd]. rewrite V. cbn [Z.of_nat]. rewrite Rmult_0_l. apply rnd_0.
  - now apply EA'.
  - now apply EB'.
  - intros j E. rewrite EA, E. apply rate_pow2. apply (Pw nn); [lia|exact E].
  - intros j E. rewrite EB, E. apply rate_pow2. apply (Pw np); [lia|exact E].
Qed.
Print Assumptions C245_roc_partial.
(* the area under it is a number >= 0 *)
Theorem C245_auc_partial : forall gs, (Z.of_nat (length (concat gs)) <= 2 ^ 53)%Z -> In true (concat gs) -> In false (concat gs) -> let '(fpr, tpr) := roc gs in fle f0 (auc fpr tpr) = true.
Proof.
  intros gs H HT HF. pose proof (C245_roc_partial gs H) as C. cbv zeta in C. specialize (C (proj1 (count_occ_In bool_dec _ _) HT) (proj1 (count_occ_In bool_dec _ _) HF)). destruct (roc gs) as [fpr tpr]. destruct C as (L & R & S & _).
  assert (N0 : in01 f0) by (split; [reflexivity|cbn; lra]). assert (FC : Forall (fun p => in01 (fst p) /\ in01 (snd p)) (combine fpr tpr)).
  { apply Forall_forall. intros [x y] I. split; apply R, in_or_app; [left; exact (in_combine_l _ _ _ _ I)|right; exact (in_combine_r _ _ _ _ I)]. }
  assert (M : map fst (combine fpr tpr) = fpr). { clear - L. revert tpr L. induction fpr as [|x f IH]; intros [|y t] L; try discriminate; [reflexivity|]. cbn. f_equal. apply IH. now injection L. }
  unfold auc. set (l := combine fpr tpr) in *. assert (Q : nn (fst (fold_left (fun st p => let '(s, (xp, yp)) := st in (fadd s (fdiv (fmul (fsub (fst p) xp) (fadd (snd p) yp)) (fint 2)), p)) l (f0, (f0, f0))))).
  { apply auc_nn; [exact nn_0|exact N0|exact N0|exact FC|]. rewrite M. constructor; [exact S|]. apply Forall_forall. intros v I. change (B2R f0) with 0. apply (R v). apply in_or_app. now left. }
  revert Q. generalize (fst (fold_left (fun st p => let '(s, (xp, yp)) := st in (fadd s (fdiv (fmul (fsub (fst p) xp) (fadd (snd p) yp)) (fint 2)), p)) l (f0, (f0, f0)))). intros v Q. now apply nn_fle.
Qed.
Print Assumptions C245_auc_partial.

(* but with 49 negative samples the curve stops short of 1, and the area of a perfect ranking is not 1 *)
Theorem C245_end_refuted : exists gs, let '(fpr, tpr) := roc gs in flt (last fpr f0) f1 = true /\ flt (auc fpr tpr) f1 = true /\ gs = [[true]; repeat false 49].
Proof. exists [[true]; repeat false 49]. vm_compute. repeat split. Qed.
Print Assumptions C245_end_refuted.
Example C245_example : let '(fpr, tpr) := roc [[true]; [false; true]; [false]] in map B2SF fpr = map B2SF [f0; fdiv f1 (fint 2); f1] /\ map B2SF tpr = map B2SF [fdiv f1 (fint 2); f1; f1] /\ B2SF (auc fpr tpr) = B2SF (fdiv (fint 7) (fint 8)).
Proof. vm_compute. repeat split. Qed.

(* C240, for values in the normal range: InverseTransform after Transform is within one unit in the last place, and exact for the
   largest value *)
Theorem C240_inverse_partial : forall col v, Forall (fun v => is_finite v = true) col -> In v col -> let sc := ma_scale col in
  (Rabs (B2R v) = B2R sc -> B2R (ma_inverse sc (ma_transform sc v)) = B2R v) /\
  (bpow radix2 (-1021) <= Rabs (B2R v) -> bpow radix2 (-1022) * B2R sc <= Rabs (B2R v) -> Rabs (B2R (ma_inverse sc (ma_transform sc v)) - B2R v) <= bpow radix2 (-52) * Rabs (B2R v)).
Proof.
  intros col v F I sc. destruct (ma_scale_spec col F) as (A & B & C & _). fold sc in A, B, C. pose proof (proj1 (Forall_forall _ _) F v I) as Fv. cbv beta in Fv. split; [|intros; now apply ma_inverse_near; try apply C].
  intros E. destruct (ma_inverse_val sc v Fv A B (C v I)) as [-> _]. revert E. unfold Rabs. destruct (Rcase_abs (B2R v)) as [L|L]; intros E.
  - replace (B2R v / B2R sc) with (- (1)) by (rewrite <- E; field; lra). rewrite rnd_opp, (rnd_fmt 1 fmt_1). replace (- (1) * B2R sc) with (B2R v) by lra. apply rnd_fmt, fmt_val.
  - replace (B2R v / B2R sc) with 1 by (rewrite <- E; field; lra). rewrite (rnd_fmt 1 fmt_1), Rmult_1_l, <- E. apply rnd_fmt, fmt_val.
Qed.
Print Assumptions C240_inverse_partial.

(* C246: precision, recall and F1 of a class with k hits among n predictions and m true samples *)
Theorem C246_f1 : forall tp pr tr k n m, is_finite tp = true -> B2R tp = INR k -> is_finite pr = true -> B2R pr = INR n -> is_finite tr = true -> B2R tr = INR m ->
  (k <= n)%nat -> (k <= m)%nat -> (Z.of_nat n <= 2 ^ 53)%Z -> (Z.of_nat m <= 2 ^ 53)%Z ->
  let p := f_prec tp pr in let r := f_prec tp tr in let f := f_score f1 p r in
  B2R p = (if Nat.eqb n 0 then 0 else round radix2 (SpecFloat.fexp 53 1024) ZnearestE (INR k / INR n)) /\ is_finite f = true /\
  0 <= B2R p <= 1 /\ 0 <= B2R f <= 1 /\ (0 < B2R f <-> (0 < k)%nat) /\ ((0 < k)%nat -> k = n -> k = m -> B2R f = 1).
Proof.
  intros tp pr tr k n m Ft Vt Fp Vp Fr Vr Kn Km Hn Hm p r f. rewrite INR_IZR_INZ in Vt, Vp, Vr. rewrite !INR_IZR_INZ.
  destruct (f_prec_val tp pr k n) as (A & B & C & D & E); try assumption; try (split; assumption). destruct (f_prec_val tp tr k m) as (A' & B' & C' & D' & E'); try assumption; try (split; assumption). fold p in A, B, C, D, E. fold r in A', B', C', D', E'.
  destruct (f1_score p r A A' C C') as (G1 & G2 & G3). fold f in G1, G2, G3. split; [exact B|]. split; [exact G1|]. split; [exact C|]. split; [exact G2|]. split; [split|].
  - intros Q. destruct k; [exfalso|lia]. assert (Zp : B2R p = 0) by (rewrite B; destruct (Nat.eqb n 0); [reflexivity|]; unfold Rdiv; rewrite Rmult_0_l; apply rnd_0). rewrite G3, Zp, Rmult_0_r, Rmult_0_l, rnd_0 in Q. unfold Rdiv in Q. rewrite Rmult_0_l, rnd_0 in Q. destruct (Rlt_bool 0 _) in Q; lra.
  - intros Q. apply f1_score_pos; try assumption; split; auto; [apply C|apply C'].
  - intros Q -> ->. rewrite G3, E, E' by auto. replace (2 * 1 * 1) with (1 + 1) by ring. assert (T : rnd (1 + 1) = 2) by (apply rnd_fmt; replace (1 + 1) with (IZR 2) by (cbn; lra); apply fmt_int; lia). rewrite T, Rlt_bool_true by lra. replace (2 / 2) with 1 by field. apply rnd_fmt, fmt_1.
Qed.
Print Assumptions C246_f1.
(* F1 of precision and recall 1/5 is larger than both; F with a tiny beta can exceed 1 *)
Theorem C246_mean_refuted : (let p := fdiv f1 (fint 5) in flt p (f_score f1 p p) = true) /\
  (exists beta, is_finite beta = true /\ flt f1 (f_score beta f1 (fdiv (fint 3) (fint 4))) = true).
Proof. split; [vm_compute; reflexivity|]. exists (fdiv (fint 7253554917687775) (fint (2 ^ 79))). split; vm_compute; reflexivity. Qed.
Print Assumptions C246_mean_refuted.
Example C246_example : B2SF (f_score f1 (f_prec (fint 1) (fint 2)) (f_prec (fint 1) (fint 1))) = B2SF (fdiv (fint 2) (fint 3)).
Proof. vm_compute. reflexivity. Qed.

(* C247: R2Score is at most 1 and 1 for perfect predictions, whatever overflows; MeanSquaredError and MeanAbsoluteError are not negative
   and not NaN, 0 for perfect predictions, and 0 only if no prediction is off by 2^-510 (2^-1021) or more *)
Theorem C247_scores_partial : forall yt yp, length yt = length yp -> yt <> [] -> (Z.of_nat (length yt) <= 2 ^ 53)%Z ->
  Forall (fun v => is_finite v = true) yt -> Forall (fun v => is_finite v = true) yp ->
  ((is_finite (r2 yt yp) = true -> B2R (r2 yt yp) <= 1) /\ r2 yt yp <> B754_infinity false) /\
  (is_nan (mse yt yp) = false /\ 0 <= B2R (mse yt yp) /\ mse yt yp <> B754_infinity true) /\ (is_nan (mae yt yp) = false /\ 0 <= B2R (mae yt yp) /\ mae yt yp <> B754_infinity true) /\
  (yt = yp -> B2R (r2 yt yp) = 1 /\ is_finite (r2 yt yp) = true /\ B2R (mse yt yp) = 0 /\ is_finite (mse yt yp) = true /\ B2R (mae yt yp) = 0 /\ is_finite (mae yt yp) = true) /\
  (is_finite (mse yt yp) = true -> B2R (mse yt yp) = 0 -> forall x y, In (x, y) (combine yt yp) -> Rabs (B2R y - B2R x) < bpow radix2 (-510)) /\
  (is_finite (mae yt yp) = true -> B2R (mae yt yp) = 0 -> forall x y, In (x, y) (combine yt yp) -> Rabs (B2R y - B2R x) < bpow radix2 (-1021)).
Proof.
  intros yt yp L N H Ft Fp. assert (G : forall v, nn v -> is_nan v = false /\ 0 <= B2R v /\ v <> B754_infinity true).
  { intros v Nv. split; [destruct v; cbn in *; [reflexivity|reflexivity|destruct Nv|reflexivity]|]. split; [now apply nn_val|]. intros ->. discriminate. }
  destruct (mse_nn yt yp Ft Fp N H) as [A B]. split; [now apply r2_le1|]. split; [now apply G|]. split; [now apply G|]. split; [|split].
  - intros <-. destruct (r2_self yt N H Ft) as [C D]. destruct (mse_self yt N H Ft) as (E1 & E2 & E3 & E4). auto 10.
  - intros. now apply (mse_zero yt yp).
  - intros. now apply (mae_zero yt yp).
Qed.
Print Assumptions C247_scores_partial.
(* R2 is 1 for a prediction that is off by 2^-30, the squared error is 0 for predictions off by 2^-538, and predicting the rounded mean
   of 4, 3, 7 scores above 0 *)
Theorem C247_scores_refuted : (exists yt yp, flt (hd f0 yt) (hd f0 yp) = true /\ feq (r2 yt yp) f1 = true) /\ (exists yt yp, flt (hd f0 yt) (hd f0 yp) = true /\ feq (mse yt yp) f0 = true) /\
  (let m := fdiv (fint 14) (fint 3) in flt f0 (r2 [fint 4; fint 3; fint 7] [m; m; m]) = true).
Proof.
  split; [|split].
  - exists [f0; f1], [fdiv f1 (fint (2 ^ 30)); f1]. split; vm_compute; reflexivity.
  - exists [f0], [fdiv f1 (fint (2 ^ 538))]. split; vm_compute; reflexivity.
  - vm_compute. reflexivity.
Qed.
Print Assumptions C247_scores_refuted.
Example C247_example : let yt := [fint 1; fint 3; fint 1; fint 3] in let yp := [fint 3; fint 3; fint 1; fint 3] in
  B2SF (mse yt yp) = B2SF f1 /\ B2SF (mae yt yp) = B2SF (fdiv f1 (fint 2)) /\ B2SF (r2 yt [fint 2; fint 3; fint 1; fint 3]) = B2SF (fdiv (fint 3) (fint 4)).
Proof. vm_compute. repeat split. Qed.

(* C248: KBinsDiscretizer with uniform bins on a column from mn to mx whose range and edges do not overflow: the edges never decrease and
   start at mn, larger values get no smaller bin, a value lies in its bin, and the value given back for a bin lies in that bin *)
Theorem C248_bins_partial : forall nb mn mx, (0 < nb)%nat -> (Z.of_nat nb <= 2 ^ 53)%Z -> is_finite mn = true -> is_finite (fsub mx mn) = true -> B2R mn <= B2R mx ->
  let edge := kb_edge nb mn mx in (forall b, (b <= nb)%nat -> is_finite (edge b) = true) ->
  B2R (edge 0%nat) = B2R mn /\ (forall b c, (b <= c <= nb)%nat -> B2R (edge b) <= B2R (edge c)) /\
  (forall x y, is_finite x = true -> is_finite y = true -> B2R x <= B2R y -> (kb_bin edge nb x <= kb_bin edge nb y)%nat) /\
  (forall x, is_finite x = true -> B2R mn <= B2R x -> let b := kb_bin edge nb x in (b < nb)%nat /\ B2R (edge b) <= B2R x /\ ((S b < nb)%nat -> B2R x < B2R (edge (S b)))) /\
  (forall b, (b < nb)%nat -> is_finite (kb_mid edge b) = true -> B2R (edge b) <= B2R (kb_mid edge b) <= B2R (edge (S b))).
Proof.
  intros nb mn mx N H Fm Fr L edge F. destruct (kb_edge_0 nb mn mx N H Fm Fr) as [E0 _]. fold edge in E0. assert (M : forall b c, (b <= c <= nb)%nat -> B2R (edge b) <= B2R (edge c)) by (intros; apply kb_edge_mono; try assumption; apply F; lia).
  split; [exact E0|]. split; [exact M|]. split; [intros; now apply kb_bin_mono|]. split.
  - intros x Fx Lx b. destruct (kb_from_spec edge x Fx (nb - 1) 0) as (A & B & C); [intros; apply F; lia|]. fold (kb_bin edge nb x) in A, B, C. fold b in A, B, C. split; [lia|]. split; [|intros; apply C; lia].
    destruct (Nat.eq_dec b 0) as [->|]; [rewrite E0; exact Lx|apply B; lia].
  - intros b Hb Fb. apply kb_mid_in; [exact Fb|apply M; lia].
Qed.
Print Assumptions C248_bins_partial.
(* the last edge may miss the largest value; the value given back for a bin may belong to the next bin or overflow; a column whose range
   overflows is put into bin 0 as a whole *)
Theorem C248_bins_refuted :
  (exists nb mn mx, feq mn mx = false /\ flt (kb_edge nb mn mx nb) mx = true) /\
  (exists nb mn mx b, (b < nb)%nat /\ flt mn mx = true /\ flt (kb_edge nb mn mx b) (kb_edge nb mn mx (S b)) = true /\ kb_bin (kb_edge nb mn mx) nb (kb_mid (kb_edge nb mn mx) b) <> b) /\
  (exists nb mn mx b, (b < nb)%nat /\ is_finite (kb_edge nb mn mx b) = true /\ is_finite (kb_edge nb mn mx (S b)) = true /\ is_finite (kb_mid (kb_edge nb mn mx) b) = false) /\
  (exists nb mn mx, is_finite mn = true /\ is_finite mx = true /\ flt mn mx = true /\ (1 < nb)%nat /\ kb_bin (kb_edge nb mn mx) nb mn = kb_bin (kb_edge nb mn mx) nb mx).
Proof.
  split; [|split; [|split]].
  - exists 1%nat, (fdiv (fint 2) (fint 10)), (fdiv (fint 9) (fint 10)). split; vm_compute; reflexivity.
  - exists 2%nat, (fdiv (fint (2 ^ 52 + 1)) (fint (2 ^ 52))), (fdiv (fint (2 ^ 52 + 3)) (fint (2 ^ 52))), 0%nat. split; [lia|]. split; [vm_compute; reflexivity|]. split; [vm_compute; reflexivity|]. vm_compute. discriminate.
  - exists 1%nat, (fint (2 ^ 1023)), (fint (2 ^ 1023 + 2 ^ 1022)), 0%nat. split; [lia|]. split; [vm_compute; reflexivity|]. split; vm_compute; reflexivity.
  - exists 2%nat, (fint (- 2 ^ 1023)), (fint (2 ^ 1023)). split; [vm_compute; reflexivity|]. split; [vm_compute; reflexivity|]. split; [vm_compute; reflexivity|]. split; [lia|]. vm_compute. reflexivity.
Qed.
Print Assumptions C248_bins_refuted.
Example C248_example : let edge := kb_edge 4 (fint 2) (fint 10) in map (fun b => B2SF (edge b)) (seq 0 5) = map B2SF [fint 2; fint 4; fint 6; fint 8; fint 10] /\ map (fun x => kb_bin edge 4 (fint x)) [2; 3; 4; 9; 10]%Z = [0; 0; 1; 3; 3]%nat /\ B2SF (kb_mid edge 1) = B2SF (fint 5).
Proof. vm_compute. repeat split. Qed.
