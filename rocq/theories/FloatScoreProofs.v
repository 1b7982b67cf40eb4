(* Proofs about FloatScoreModel: counting, rates and the ROC curve *)
From Coq Require Import Reals ZArith List Bool Lia Lra Sorted.
From Flocq Require Import Core.Core IEEE754.BinarySingleNaN Relative.
From Verif Require Import FloatModel FloatProofs FloatDistProofs FloatScoreModel.
Import ListNotations.
Open Scope R_scope.

Lemma F2_length {A B} (P : A -> B -> Prop) l ks : Forall2 P l ks -> length l = length ks.
Proof. induction 1; cbn; congruence. Qed.
Definition isnat (v : f64) (k : nat) : Prop := finite v = true /\ val v = IZR (Z.of_nat k).
Lemma isnat_0 : isnat f0 0. Proof. split; reflexivity. Qed.
Lemma isnat_S v k : (Z.of_nat (S k) <= 2 ^ 53)%Z -> isnat v k -> isnat (fadd v f1) (S k).
Proof.
  intros H [F V]. destruct f1_val as [V1 F1]. assert (E : rnd (val v + val f1) = IZR (Z.of_nat (S k))).
  { rewrite V, V1, <- plus_IZR. replace (Z.of_nat k + 1)%Z with (Z.of_nat (S k)) by lia. apply rnd_fmt, fmt_int. lia. }
  destruct (fadd_val v f1 F F1) as [A B]; [rewrite E; apply int_big; lia|]. split; [exact B|]. now rewrite A.
Qed.
Notation npos g := (count_occ bool_dec g true).
Notation nneg g := (count_occ bool_dec g false).
Lemma count_all (g : list bool) : (npos g + nneg g = length g)%nat.
Proof. induction g as [|[] g IH]; cbn [count_occ length]; [reflexivity| |]; repeat destruct (bool_dec _ _); try congruence; lia. Qed.
Lemma clf_group g : forall a p n, (Z.of_nat (p + n + length g) <= 2 ^ 53)%Z -> isnat (fst a) p -> isnat (snd a) n ->
  isnat (fst (fold_left clf_step g a)) (p + npos g) /\ isnat (snd (fold_left clf_step g a)) (n + nneg g).
Proof.
  induction g as [|b g IH]; intros a p n H Hp Hn; [cbn; rewrite !Nat.add_0_r; auto|]. cbn [fold_left length] in *. destruct b; unfold clf_step at 2 4.
  - replace (p + npos (true :: g))%nat with (S p + npos g)%nat by (cbn; lia). replace (n + nneg (true :: g))%nat with (n + nneg g)%nat by (cbn; lia). apply IH; [lia| |exact Hn]. apply isnat_S; [lia|exact Hp].
  - replace (p + npos (false :: g))%nat with (p + npos g)%nat by (cbn; lia). replace (n + nneg (false :: g))%nat with (S n + nneg g)%nat by (cbn; lia). apply IH; [lia|exact Hp|]. apply isnat_S; [lia|exact Hn].
Qed.
(* the running counts *)
Fixpoint counts (p n : nat) (gs : list (list bool)) : list (nat * nat) :=
  match gs with [] => [] | g :: r => let p' := (p + npos g)%nat in let n' := (n + nneg g)%nat in (p', n') :: counts p' n' r end.
Lemma clf_counts gs : forall a p n, (Z.of_nat (p + n + length (concat gs)) <= 2 ^ 53)%Z -> isnat (fst a) p -> isnat (snd a) n ->
  Forall2 isnat (map fst (clf_curve a gs)) (map fst (counts p n gs)) /\ Forall2 isnat (map snd (clf_curve a gs)) (map snd (counts p n gs)).
Proof.
  induction gs as [|g gs IH]; intros a p n H Hp Hn; [split; constructor|]. cbn [clf_curve counts concat] in *. cbv zeta. cbn [map fst snd]. rewrite app_length in H.
  destruct (clf_group g a p n) as [A B]; [lia|exact Hp|exact Hn|]. destruct (IH (fold_left clf_step g a) (p + npos g)%nat (n + nneg g)%nat) as [C D]; [pose proof (count_all g); lia|exact A|exact B|].
  split; constructor; assumption.
Qed.
Lemma counts_ge gs : forall p n k, (In k (map fst (counts p n gs)) -> (p <= k)%nat) /\ (In k (map snd (counts p n gs)) -> (n <= k)%nat).
Proof.
  induction gs as [|g gs IH]; intros p n k; [split; intros []|]. cbn [counts]. cbv zeta. cbn [map fst snd]. destruct (IH (p + npos g)%nat (n + nneg g)%nat k) as [A B].
  split; intros [<-|I]; try lia; [apply A in I|apply B in I]; lia.
Qed.
Lemma counts_sorted gs : forall p n, StronglySorted le (map fst (counts p n gs)) /\ StronglySorted le (map snd (counts p n gs)).
Proof.
  induction gs as [|g gs IH]; intros p n; [split; constructor|]. cbn [counts]. cbv zeta. cbn [map fst snd]. destruct (IH (p + npos g)%nat (n + nneg g)%nat) as [A B].
  split; constructor; try assumption; apply Forall_forall; intros k I; now apply (counts_ge gs (p + npos g)%nat (n + nneg g)%nat).
Qed.
Lemma counts_last gs : gs <> [] -> forall p n d, last (map fst (counts p n gs)) d = (p + npos (concat gs))%nat /\ last (map snd (counts p n gs)) d = (n + nneg (concat gs))%nat.
Proof.
  induction gs as [|g [|g' gs] IH]; intros N p n d; [congruence|cbn [counts map last fst snd concat]; rewrite app_nil_r; auto|].
  replace (concat (g :: g' :: gs)) with (g ++ concat (g' :: gs)) by reflexivity. rewrite !count_occ_app, !Nat.add_assoc. specialize (IH ltac:(discriminate)). exact (IH (p + npos g)%nat (n + nneg g)%nat d).
Qed.

Lemma last_isnat l : forall ks d, Forall2 isnat l ks -> l <> [] -> isnat (last l d) (last ks 0%nat).
Proof. induction l as [|v l IH]; intros ks d F N; [congruence|]. inversion F as [|? k ? ks' Hv F']; subst. destruct l; inversion F'; subst; [exact Hv|]. exact (IH _ d F' ltac:(discriminate)). Qed.
Lemma u_eq : u_ro radix2 53 = bpow radix2 (-53).
Proof. unfold u_ro. replace (- (53) + 1)%Z with (1 + -53)%Z by reflexivity. rewrite bpow_plus. change (bpow radix2 1) with 2. generalize (bpow radix2 (-53)). intros b. lra. Qed.
Lemma u_small : 0 < bpow radix2 (-53) < / 2.
Proof. split; [apply bpow_gt_0|]. change (/ 2) with (bpow radix2 (-1)). apply bpow_lt. reflexivity. Qed.
Lemma rnd_rel x : bpow radix2 (-1022) <= Rabs x -> Rabs (rnd x - x) <= bpow radix2 (-53) / (1 + bpow radix2 (-53)) * Rabs x.
Proof.
  intros H. unfold rnd. change fx with (FLT_exp (SpecFloat.emin 53 1024) 53). rewrite round_FLT_FLX by exact H.
  pose proof (relative_error_N_FLX' radix2 53 prec53 (fun z => negb (Z.even z)) x) as R. rewrite u_eq in R. exact R.
Qed.
Lemma succ_1 : succ radix2 fx 1 = 1 + 2 * bpow radix2 (-53).
Proof. rewrite succ_eq_pos by lra. f_equal. change 1 with (bpow radix2 0) at 1. rewrite ulp_bpow. change (fx (0 + 1)) with (1 + -53)%Z. now rewrite bpow_plus. Qed.
(* k * (1/n) in floats *)
Lemma rate_val v m k n : (k <= n)%nat -> (0 < n)%nat -> (Z.of_nat n <= 2 ^ 53)%Z -> isnat v k -> isnat m n ->
  let q := rnd (IZR (Z.of_nat k) * rnd (1 / IZR (Z.of_nat n))) in
  val (fmul v (fdiv f1 m)) = q /\ finite (fmul v (fdiv f1 m)) = true /\ 0 <= q <= 1 /\ (k = n -> 1 - bpow radix2 (-53) <= q).
Proof.
  intros K N H [Fv Vv] [Fm Vm] q. destruct f1_val as [V1 F1]. pose proof u_small as U. set (u := bpow radix2 (-53)) in *.
  assert (P : 1 <= IZR (Z.of_nat n)) by (apply IZR_le; lia). assert (Q : IZR (Z.of_nat n) <= bpow radix2 53) by (change (bpow radix2 53) with (IZR (2 ^ 53)); now apply IZR_le).
  set (N' := IZR (Z.of_nat n)) in *. assert (I : 0 < / N') by (apply Rinv_0_lt_compat; lra). assert (I1 : / N' <= 1) by (rewrite <- Rinv_1; apply Rinv_le_contravar; lra).
  assert (R : Rabs (rnd (1 / N') - 1 / N') <= u / (1 + u) * / N').
  { replace (1 / N') with (/ N') by (unfold Rdiv; ring). rewrite <- (Rabs_pos_eq (/ N')) at 3 by lra. apply rnd_rel. rewrite Rabs_pos_eq by lra. apply Rle_trans with (bpow radix2 (-53)); [apply bpow_le; discriminate|].
    change (-53)%Z with (- (53))%Z. rewrite bpow_opp. apply Rinv_le_contravar; lra. }
  assert (R' : 0 < u / (1 + u) < u). { split; [apply Rmult_lt_0_compat; [lra|apply Rinv_0_lt_compat; lra]|]. apply Rmult_lt_reg_r with (1 + u); [lra|]. unfold Rdiv. rewrite Rmult_assoc, Rinv_l by lra. nra. }
  set (w := u / (1 + u)) in *. set (c := rnd (1 / N')) in *. unfold Rdiv in R. rewrite Rmult_1_l in R. apply Rabs_le_inv in R.
  assert (C1 : N' * c <= 1 + w). { apply Rle_trans with (N' * (/ N' * (1 + w))); [apply Rmult_le_compat_l; lra|]. rewrite <- Rmult_assoc, Rinv_r by lra. lra. }
  assert (C2 : 1 - w <= N' * c). { apply Rle_trans with (N' * (/ N' * (1 - w))); [|apply Rmult_le_compat_l; lra]. rewrite <- Rmult_assoc, Rinv_r by lra. lra. }
  assert (C3 : 0 < c) by (apply Rmult_lt_reg_l with N'; lra). assert (Cc : c <= 1) by (apply Rle_trans with (rnd 1); [apply rnd_le; unfold Rdiv; lra|rewrite (rnd_fmt 1 fmt_1); lra]).
  assert (K' : 0 <= IZR (Z.of_nat k) <= N') by (split; apply IZR_le; lia).
  assert (q1 : q <= 1). { unfold q, rnd. apply round_N_le_midp; [exact fx_valid|exact fmt_1|]. rewrite succ_1. fold u. apply Rle_lt_trans with (N' * c); [apply Rmult_le_compat_r; lra|lra]. }
  assert (q0 : 0 <= q) by (apply rnd_nonneg, Rmult_le_pos; lra).
  assert (D : val (fdiv f1 m) = c /\ finite (fdiv f1 m) = true).
  { destruct (fdiv_val f1 m F1) as [A B]; [rewrite Vm; lra|rewrite V1, Vm; fold N'; fold c; rewrite Rabs_pos_eq by lra; pose proof one_big; lra|]. rewrite V1, Vm in A. auto. }
  destruct D as [D1 D2]. destruct (fmul_val v (fdiv f1 m) Fv D2) as [A B]; [rewrite Vv, D1; fold q; rewrite Rabs_pos_eq by lra; pose proof one_big; lra|]. rewrite Vv, D1 in A.
  split; [exact A|]. split; [exact B|]. split; [lra|]. intros ->. apply Rle_trans with (rnd (1 - u)); [unfold u; rewrite (rnd_fmt _ fmt_pred1); lra|]. apply rnd_le. fold N'. lra.
Qed.
Lemma rate_pow2 k : (k <= 53)%nat -> rnd (IZR (Z.of_nat (2 ^ k)) * rnd (1 / IZR (Z.of_nat (2 ^ k)))) = 1.
Proof.
  intros H. assert (E : IZR (Z.of_nat (2 ^ k)) = bpow radix2 (Z.of_nat k)). { rewrite Nat2Z.inj_pow. change (Z.of_nat 2) with 2%Z. now rewrite (IZR_Zpower radix2) by lia. }
  rewrite E. unfold Rdiv. rewrite Rmult_1_l, <- bpow_opp, (rnd_fmt (bpow radix2 _)) by (apply fmt_bpow; lia). rewrite <- bpow_plus. replace (Z.of_nat k + - Z.of_nat k)%Z with 0%Z by lia. apply rnd_fmt, fmt_1.
Qed.

Lemma rate_spec l ks n : Forall2 isnat l ks -> StronglySorted le ks -> l <> [] -> last ks 0%nat = n -> (0 < n)%nat -> (Z.of_nat n <= 2 ^ 53)%Z ->
  Forall2 (fun v k => finite v = true /\ val v = rnd (IZR (Z.of_nat k) * rnd (1 / IZR (Z.of_nat n))) /\ 0 <= val v <= 1 /\ (k = n -> 1 - bpow radix2 (-53) <= val v)) (rate l) ks.
Proof.
  intros F S N L P H. unfold rate. pose proof (last_isnat l ks f0 F N) as M. rewrite L in M. set (m := last l f0) in *.
  assert (E : fle m f0 = false).
  { destruct M as [Fm Vm]. unfold fle. rewrite Bleb_correct; [|exact Fm|reflexivity]. change (val f0) with 0. apply Rle_bool_false. rewrite Vm. apply IZR_lt. lia. }
  rewrite E. assert (A : Forall (fun k => (k <= n)%nat) ks).
  { clear - S L. rewrite <- L. clear L n. induction S as [|k ks S IH F]; [constructor|]. constructor.
    - destruct ks as [|k' ks]; [cbn; lia|]. rewrite Forall_forall in F. apply F. change (last (k :: k' :: ks) 0%nat) with (last (k' :: ks) 0%nat). rewrite (app_removelast_last 0%nat (l := k' :: ks)) at 2 by discriminate. apply in_or_app. right. now left.
    - destruct ks as [|k' ks]; [constructor|exact IH]. }
  clearbody m. clear - F A M P H. induction F as [|v k l ks Hv F IH]; [constructor|]. inversion A; subst. cbn [map]. constructor; [|now apply IH].
  destruct (rate_val v m k n) as (B & C & D & G); try assumption. rewrite B. auto.
Qed.
Lemma rate_le n j k : (j <= k)%nat -> (0 < n)%nat -> rnd (IZR (Z.of_nat j) * rnd (1 / IZR (Z.of_nat n))) <= rnd (IZR (Z.of_nat k) * rnd (1 / IZR (Z.of_nat n))).
Proof.
  intros H P. apply rnd_le. apply Rmult_le_compat_r; [|apply IZR_le; lia]. apply rnd_nonneg. unfold Rdiv. rewrite Rmult_1_l. left. apply Rinv_0_lt_compat, IZR_lt. lia.
Qed.
Lemma rate_sorted l ks n : (0 < n)%nat -> Forall2 (fun v k => val v = rnd (IZR (Z.of_nat k) * rnd (1 / IZR (Z.of_nat n)))) l ks -> StronglySorted le ks -> StronglySorted (fun u v => val u <= val v) l.
Proof.
  intros P F. induction F as [|v k l ks Hv F IH]; intros S; [constructor|]. inversion S as [|? ? S' A]; subst. constructor; [now apply IH|].
  clear - P F Hv A. induction F as [|w j l ks Hw F IH]; [constructor|]. inversion A; subst. constructor; [|now apply IH]. rewrite Hv, Hw. now apply rate_le.
Qed.
(* the counts behind the curve, with the extra point *)
Definition roc_counts (gs : list (list bool)) : list (nat * nat) :=
  match counts 0 0 gs with [] => [(0, 0)]%nat | p :: _ => if Nat.eqb (snd p) 0 then counts 0 0 gs else (0, 0)%nat :: counts 0 0 gs end.
Lemma roc_spec gs : gs <> [] -> (Z.of_nat (length (concat gs)) <= 2 ^ 53)%Z -> (0 < npos (concat gs))%nat -> (0 < nneg (concat gs))%nat ->
  let ok n := fun v k => finite v = true /\ val v = rnd (IZR (Z.of_nat k) * rnd (1 / IZR (Z.of_nat n))) /\ 0 <= val v <= 1 /\ (k = n -> 1 - bpow radix2 (-53) <= val v) in
  Forall2 (ok (nneg (concat gs))) (fst (roc gs)) (map snd (roc_counts gs)) /\ Forall2 (ok (npos (concat gs))) (snd (roc gs)) (map fst (roc_counts gs)) /\
  StronglySorted le (map fst (roc_counts gs)) /\ StronglySorted le (map snd (roc_counts gs)) /\ hd 1%nat (map snd (roc_counts gs)) = 0%nat /\
  last (map fst (roc_counts gs)) 0%nat = npos (concat gs) /\ last (map snd (roc_counts gs)) 0%nat = nneg (concat gs).
Proof.
  intros N H HP HN ok. destruct (clf_counts gs (f0, f0) 0 0 H isnat_0 isnat_0) as [A B]. destruct (counts_sorted gs 0 0) as [S1 S2]. destruct (counts_last gs N 0 0 0%nat) as [L1 L2]. pose proof (count_all (concat gs)) as CA.
  unfold roc, roc_counts. destruct gs as [|g gs]; [congruence|]. cbn [clf_curve counts] in A, B |- *. cbv zeta in A, B |- *.
  set (a := fold_left clf_step g (f0, f0)) in *. set (cs := counts (0 + npos g) (0 + nneg g) gs) in *. set (fs := clf_curve a gs) in *. cbn [snd].
  assert (E : feq (snd a) f0 = Nat.eqb (0 + nneg g) 0).
  { inversion B as [|? ? ? ? [Fa Va] _]; subst. destruct (feq (snd a) f0) eqn:Q.
    - apply (feq_val (snd a) f0 Fa eq_refl) in Q. change (val f0) with 0 in Q. rewrite Va in Q. apply eq_IZR in Q. symmetry. apply Nat.eqb_eq. lia.
    - destruct (Nat.eqb_spec (0 + nneg g) 0) as [Z|Z]; [|reflexivity]. rewrite <- Q. apply (feq_val (snd a) f0 Fa eq_refl). rewrite Va. change (val f0) with (IZR 0). apply f_equal. cbn [Nat.add] in Z. change (Z.of_nat (nneg g) = 0%Z). lia. }
  rewrite E. destruct (Nat.eqb_spec (0 + nneg g) 0) as [Z|Z].
  - cbn [counts] in S1, S2, L1, L2. cbv zeta in S1, S2, L1, L2. fold cs in S1, S2, L1, L2. split; [|split; [|split; [|split; [|split; [|split]]]]].
    + cbn [fst]. apply rate_spec; try assumption; [discriminate|lia].
    + cbn [snd]. apply rate_spec; try assumption; [discriminate|lia].
    + exact S1. + exact S2. + exact Z. + exact L1. + exact L2.
  - cbn [counts] in S1, S2, L1, L2. cbv zeta in S1, S2, L1, L2. fold cs in S1, S2, L1, L2.
    assert (T1 : StronglySorted le (map fst ((0, 0)%nat :: ((0 + npos g)%nat, (0 + nneg g)%nat) :: cs))) by (constructor; [exact S1|apply Forall_forall; intros; cbn; lia]).
    assert (T2 : StronglySorted le (map snd ((0, 0)%nat :: ((0 + npos g)%nat, (0 + nneg g)%nat) :: cs))) by (constructor; [exact S2|apply Forall_forall; intros; cbn; lia]).
    split; [|split; [|split; [|split; [|split; [|split]]]]].
    + cbn [fst]. apply rate_spec; [constructor; [exact isnat_0|exact B]|exact T2|discriminate|exact L2|exact HN|lia].
    + cbn [snd]. apply rate_spec; [constructor; [exact isnat_0|exact A]|exact T1|discriminate|exact L1|exact HP|lia].
    + exact T1. + exact T2. + reflexivity. + exact L1. + exact L2.
Qed.

(* MaxAbsScaler.InverseTransform after Transform *)
Lemma two_roundings x y : bpow radix2 (-1022) <= Rabs x -> bpow radix2 (-1022) <= Rabs (rnd x * y) -> Rabs (rnd (rnd x * y) - x * y) <= bpow radix2 (-52) * Rabs (x * y).
Proof.
  intros Hx Hy. pose proof (rnd_rel x Hx) as A. pose proof (rnd_rel (rnd x * y) Hy) as B. pose proof u_small as U. replace (bpow radix2 (-52)) with (2 * bpow radix2 (-53)) by (change (-52)%Z with (1 + -53)%Z; rewrite bpow_plus; reflexivity).
  set (u := bpow radix2 (-53)) in *. set (w := u / (1 + u)) in *. assert (W : w * (1 + u) = u) by (unfold w; field; lra). assert (W0 : 0 < w) by (unfold w; apply Rmult_lt_0_compat; [lra|apply Rinv_0_lt_compat; lra]).
  assert (C : Rabs (rnd x * y - x * y) <= w * Rabs (x * y)). { replace (rnd x * y - x * y) with ((rnd x - x) * y) by ring. rewrite !Rabs_mult, <- Rmult_assoc. apply Rmult_le_compat_r; [apply Rabs_pos|exact A]. }
  assert (D : Rabs (rnd x * y) <= (1 + w) * Rabs (x * y)). { replace (rnd x * y) with (x * y + (rnd x * y - x * y)) by ring. eapply Rle_trans; [apply Rabs_triang|]. lra. }
  replace (rnd (rnd x * y) - x * y) with ((rnd (rnd x * y) - rnd x * y) + (rnd x * y - x * y)) by ring. eapply Rle_trans; [apply Rabs_triang|].
  apply Rle_trans with (w * ((1 + w) * Rabs (x * y)) + w * Rabs (x * y)); [apply Rplus_le_compat; [|exact C]; eapply Rle_trans; [exact B|]; apply Rmult_le_compat_l; [lra|exact D]|].
  replace (w * ((1 + w) * Rabs (x * y)) + w * Rabs (x * y)) with ((2 * w + w * w) * Rabs (x * y)) by ring. apply Rmult_le_compat_r; [apply Rabs_pos|]. clearbody w u. nra.
Qed.
Lemma ma_inverse_val sc v : finite v = true -> finite sc = true -> 0 < val sc -> Rabs (val v) <= val sc ->
  val (ma_inverse sc (ma_transform sc v)) = rnd (rnd (val v / val sc) * val sc) /\ finite (ma_inverse sc (ma_transform sc v)) = true.
Proof.
  intros F Fs P L. destruct (ma_transform_val sc v F P L) as (V & W & R). unfold ma_inverse. rewrite <- V. apply fmul_val; [exact W|exact Fs|]. apply Rle_lt_trans with (val sc); [|rewrite <- (Rabs_pos_eq (val sc)) by lra; now apply val_big].
  apply rnd_abs_le; [apply fmt_val|]. rewrite Rabs_mult, (Rabs_pos_eq (val sc)) by lra. rewrite <- (Rmult_1_l (val sc)) at 2. apply Rmult_le_compat_r; [lra|]. apply Rabs_le. lra.
Qed.
Lemma ma_inverse_near sc v : finite v = true -> finite sc = true -> 0 < val sc -> Rabs (val v) <= val sc -> bpow radix2 (-1021) <= Rabs (val v) -> bpow radix2 (-1022) * val sc <= Rabs (val v) ->
  Rabs (val (ma_inverse sc (ma_transform sc v)) - val v) <= bpow radix2 (-52) * Rabs (val v).
Proof.
  intros F Fs P L N M. destruct (ma_inverse_val sc v F Fs P L) as [-> _]. set (x := val v / val sc). assert (E : val v = x * val sc) by (unfold x; field; lra). rewrite E.
  assert (Ax : Rabs (val v) = Rabs x * val sc) by (rewrite E, Rabs_mult, (Rabs_pos_eq (val sc)) by lra; reflexivity).
  assert (Hx : bpow radix2 (-1022) <= Rabs x) by (apply Rmult_le_reg_r with (val sc); [exact P|]; rewrite <- Ax; exact M). apply two_roundings; [exact Hx|].
  pose proof (rnd_rel x Hx) as A. pose proof u_small as U. set (u := bpow radix2 (-53)) in *. set (w := u / (1 + u)) in *. assert (W : w * (1 + u) = u) by (unfold w; field; lra). assert (W0 : 0 < w) by (unfold w; apply Rmult_lt_0_compat; [lra|apply Rinv_0_lt_compat; lra]). clearbody w u.
  assert (W1 : w < / 2) by nra. assert (B : Rabs x / 2 <= Rabs (rnd x)). { pose proof (Rabs_triang_inv x (rnd x)) as T. rewrite (Rabs_minus_sym x) in T. pose proof (Rabs_pos x). assert (w * Rabs x <= / 2 * Rabs x) by (apply Rmult_le_compat_r; lra). lra. }
  rewrite Rabs_mult, (Rabs_pos_eq (val sc)) by lra. replace (bpow radix2 (-1021)) with (2 * bpow radix2 (-1022)) in N by (change (-1021)%Z with (1 + -1022)%Z; rewrite bpow_plus; reflexivity). rewrite Ax in N.
  apply Rle_trans with (Rabs x / 2 * val sc); [lra|]. apply Rmult_le_compat_r; [lra|exact B].
Qed.
