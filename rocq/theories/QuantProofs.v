(* Lemmas about QuantModel *)
From Coq Require Import Lia Qminmax Qfield.
From Verif Require Import QCommon QuantModel.
Import ListNotations.
Open Scope nat_scope.

Lemma qt_all n v : length v = n -> 2 <= n -> qt_fit n v = v.
Proof.
  intros HL Hn. apply nth_error_ext_len. { unfold qt_fit. now rewrite map_length, seq_length. }
  intros i Hi. unfold qt_fit in *. rewrite map_length, seq_length in Hi. rewrite nth_error_map, nth_error_seq. destruct (Nat.ltb_spec i n); [|lia]. cbn [option_map].
  assert (E : qt_quantile n v (0 + i) = nth i v 0%Q).
  { unfold qt_quantile. rewrite HL. cbn [Nat.add]. rewrite Nat.mod_mul by lia. rewrite Nat.div_mul by lia. cbn [Nat.eqb orb]. now rewrite Nat.min_l by lia. }
  rewrite E. symmetry. apply nth_error_nth'. lia.
Qed.

Definition sortedq (v : list Q) : Prop := forall i j, i <= j -> j < length v -> (nth i v 0 <= nth j v 0)%Q.
(* the interpolation at the position a / K *)
Definition interp (v : list Q) (K a : nat) : Q :=
  let i0 := a / K in let p := (qn (a mod K) / qn K)%Q in (nth i0 v 0 * (1 - p) + nth (i0 + 1) v 0 * p)%Q.
Lemma frac_bounds K a : 0 < K -> (0 <= qn (a mod K) / qn K)%Q /\ (qn (a mod K) / qn K <= 1)%Q.
Proof.
  intros HK. pose proof (qn_pos K HK) as P. pose proof (Nat.mod_upper_bound a K ltac:(lia)) as U. split.
  - apply Qle_shift_div_l; [exact P|]. rewrite Qmult_0_l. apply qn_nonneg.
  - apply Qle_shift_div_r; [exact P|]. rewrite Qmult_1_l. apply qn_le. lia.
Qed.
Lemma interp_bounds v K a : sortedq v -> 0 < K -> a / K + 1 < length v ->
  (nth (a / K) v 0 <= interp v K a)%Q /\ (interp v K a <= nth (a / K + 1) v 0)%Q.
Proof.
  intros HS HK HL. destruct (@frac_bounds K a HK) as (F0 & F1). unfold interp. set (p := (qn (a mod K) / qn K)%Q) in *.
  assert (HB : (nth (a / K) v 0 <= nth (a / K + 1) v 0)%Q) by (apply HS; lia). split; nra.
Qed.
Lemma interp_mono v K a b : sortedq v -> 0 < K -> b / K + 1 < length v -> a <= b -> (interp v K a <= interp v K b)%Q.
Proof.
  intros HS HK HL HA. assert (HD : a / K <= b / K) by (apply Nat.div_le_mono; lia). destruct (Nat.eq_dec (a / K) (b / K)) as [E|N].
  - assert (HM : a mod K <= b mod K) by (rewrite (Nat.div_mod a K), (Nat.div_mod b K) in HA by lia; rewrite E in HA; lia).
    unfold interp. rewrite E. assert (HP : (qn (a mod K) / qn K <= qn (b mod K) / qn K)%Q).
    { apply Qle_shift_div_l; [now apply qn_pos|]. unfold Qdiv. rewrite <- Qmult_assoc, (Qmult_comm (/ qn K)), Qmult_inv_r, Qmult_1_r; [now apply qn_le|]. pose proof (qn_pos K HK). lra. }
    set (p := (qn (a mod K) / qn K)%Q) in *. set (p' := (qn (b mod K) / qn K)%Q) in *. assert (HB : (nth (b / K) v 0 <= nth (b / K + 1) v 0)%Q) by (apply HS; lia). nra.
  - destruct (@interp_bounds v K a HS HK ltac:(lia)) as (_ & U). destruct (@interp_bounds v K b HS HK HL) as (L & _).
    assert (HB : (nth (a / K + 1) v 0 <= nth (b / K) v 0)%Q) by (apply HS; lia). lra.
Qed.
Lemma qt_interp nq v i : 2 <= nq -> i < nq -> v <> [] ->
  let a := i * (length v - 1) in (a / (nq - 1) + 1 < length v -> (qt_quantile nq v i == interp v (nq - 1) a)%Q) /\
  (length v <= a / (nq - 1) + 1 -> qt_quantile nq v i = nth (length v - 1) v 0%Q).
Proof.
  intros Hq Hi Hv a. assert (HV : 0 < length v) by (destruct v; [congruence|cbn; lia]).
  assert (HA : a / (nq - 1) <= length v - 1) by (apply Nat.div_le_upper_bound; [lia|]; unfold a; nia).
  unfold qt_quantile. fold a. rewrite Nat.min_l by exact HA. split; intros HL.
  - destruct (Nat.leb_spec (length v) (a / (nq - 1) + 1)); [lia|]. rewrite orb_false_r. destruct (Nat.eqb_spec (a mod (nq - 1)) 0) as [E|E]; [|reflexivity].
    unfold interp. rewrite E. change (qn 0) with 0%Q. unfold Qdiv. ring.
  - destruct (Nat.leb_spec (length v) (a / (nq - 1) + 1)); [|lia]. rewrite orb_true_r. f_equal. lia.
Qed.
Lemma qt_sorted nq v : 2 <= nq -> v <> [] -> sortedq v ->
  (forall i j, i <= j -> j < nq -> (nth i (qt_fit nq v) 0 <= nth j (qt_fit nq v) 0)%Q) /\
  (nth 0 (qt_fit nq v) 0 == nth 0 v 0)%Q /\ (nth (nq - 1) (qt_fit nq v) 0 == nth (length v - 1) v 0)%Q.
Proof.
  intros Hq Hv HS. assert (HV : 0 < length v) by (destruct v; [congruence|cbn; lia]).
  assert (HN : forall i, i < nq -> nth i (qt_fit nq v) 0%Q = qt_quantile nq v i).
  { intros i Hi. unfold qt_fit. rewrite (nth_indep _ 0%Q (qt_quantile nq v 0)) by (rewrite map_length, seq_length; exact Hi). rewrite map_nth, seq_nth by exact Hi. reflexivity. }
  split; [|split].
  - intros i j Hij Hj. rewrite !HN by lia. destruct (@qt_interp nq v i Hq ltac:(lia) Hv) as (I1 & I2). destruct (@qt_interp nq v j Hq Hj Hv) as (J1 & J2).
    set (a := i * (length v - 1)) in *. set (b := j * (length v - 1)) in *. assert (HAB : a <= b) by (unfold a, b; nia).
    assert (HD : a / (nq - 1) <= b / (nq - 1)) by (apply Nat.div_le_mono; lia).
    destruct (Nat.lt_ge_cases (b / (nq - 1) + 1) (length v)) as [HB|HB].
    + rewrite I1 by lia. rewrite J1 by exact HB. apply interp_mono; auto; lia.
    + rewrite (J2 HB). destruct (Nat.lt_ge_cases (a / (nq - 1) + 1) (length v)) as [HA|HA].
      * rewrite I1 by exact HA. destruct (@interp_bounds v (nq - 1) a HS ltac:(lia) HA) as (_ & U). eapply Qle_trans; [exact U|]. apply HS; lia.
      * rewrite (I2 HA). apply Qle_refl.
  - rewrite HN by lia. unfold qt_quantile. rewrite Nat.mul_0_l, Nat.mod_0_l, Nat.div_0_l by lia. reflexivity.
  - rewrite HN by lia. destruct (@qt_interp nq v (nq - 1) Hq ltac:(lia) Hv) as (_ & J). cbv zeta in J. rewrite J; [reflexivity|].
    rewrite Nat.mul_comm, Nat.div_mul by lia. lia.
Qed.

(* the loop keeps the least interval *)
Lemma loop_first (P : nat -> bool) {A} (f : nat -> A) z m :
  fold_left (fun acc q => if P q then f q else acc) (rev (seq 0 m)) z = match find P (seq 0 m) with Some q => f q | None => z end.
Proof.
  generalize (seq 0 m). induction l as [|q l IH]; [reflexivity|]. cbn [rev find]. rewrite fold_left_app. cbn [fold_left]. destruct (P q); [reflexivity|exact IH].
Qed.
Lemma find_seq (P : nat -> bool) m : forall a, match find P (seq a m) with
  | Some q => a <= q < a + m /\ P q = true /\ forall k, a <= k < q -> P k = false
  | None => forall k, a <= k < a + m -> P k = false end.
Proof.
  induction m as [|m IH]; intros a; cbn [seq find]; [intros; lia|]. destruct (P a) eqn:E.
  - split; [lia|]. split; [exact E|]. intros; lia.
  - specialize (IH (S a)). destruct (find P (seq (S a) m)).
    + destruct IH as (H1 & H2 & H3). split; [lia|]. split; [exact H2|]. intros k Hk. destruct (Nat.eq_dec k a) as [->|N]; [exact E|apply H3; lia].
    + intros k Hk. destruct (Nat.eq_dec k a) as [->|N]; [exact E|apply IH; lia].
Qed.
Definition inside (qs : list Q) (x : Q) (q : nat) : bool := (Qle_bool (nth q qs 0%Q) x && Qle_bool x (nth (q + 1) qs 0%Q))%bool.
Lemma inside_spec qs x q : inside qs x q = true <-> (nth q qs 0 <= x)%Q /\ (x <= nth (q + 1) qs 0)%Q.
Proof. unfold inside. rewrite andb_true_iff, !Qle_bool_iff. reflexivity. Qed.
Lemma cell_first nq qs x : qt_cell nq qs x = match find (inside qs x) (seq 0 (nq - 1)) with
  | Some q => qt_value nq q (nth q qs 0%Q) (nth (q + 1) qs 0%Q) x | None => Some 0%Q end.
Proof. exact (loop_first (inside qs x) (fun q => qt_value nq q (nth q qs 0%Q) (nth (q + 1) qs 0%Q) x) (Some 0%Q) (nq - 1)). Qed.
(* a value between the first and the last quantile lies in some interval *)
Lemma cover qs x m : (nth 0 qs 0 <= x)%Q -> (x <= nth m qs 0)%Q -> 0 < m -> exists q, q < m /\ inside qs x q = true.
Proof.
  induction m as [|m IH]; intros H0 H1 Hm; [lia|]. destruct (Qlt_le_dec (nth m qs 0%Q) x) as [H|H].
  - exists m. split; [lia|]. apply inside_spec. rewrite Nat.add_1_r. split; [lra|exact H1].
  - destruct (Nat.eq_dec m 0) as [->|N].
    + exists 0. split; [lia|]. apply inside_spec. split; assumption.
    + destruct (IH H0 H ltac:(lia)) as (q & Hq & HI). exists q. split; [lia|exact HI].
Qed.

Definition strictq (qs : list Q) (m : nat) : Prop := forall i j, i < j -> j <= m -> (nth i qs 0 < nth j qs 0)%Q.
Definition rawv (nq q : nat) (x0 x1 x : Q) : Q := (qt_ref nq q + (x - x0) / (x1 - x0) * (qt_ref nq (q + 1) - qt_ref nq q))%Q.
Lemma raw_eq nq q x0 x1 x : 2 <= nq -> (rawv nq q x0 x1 x == (qn q + (x - x0) / (x1 - x0)) / qn (nq - 1))%Q.
Proof.
  intros H. unfold rawv, qt_ref. rewrite Nat.add_1_r, qn_S. assert (HN : ~ (qn (nq - 1) == 0)%Q) by (pose proof (@qn_pos (nq - 1) ltac:(lia)); lra).
  set (t := ((x - x0) / (x1 - x0))%Q). clearbody t. field. exact HN.
Qed.
Lemma frac01 x0 x1 x : (x0 < x1)%Q -> (x0 <= x)%Q -> (x <= x1)%Q -> (0 <= (x - x0) / (x1 - x0))%Q /\ ((x - x0) / (x1 - x0) <= 1)%Q.
Proof. intros H H0 H1. split; [apply Qle_shift_div_l; lra|apply Qle_shift_div_r; lra]. Qed.
Lemma div_le a b c : (0 < c)%Q -> (a <= b)%Q -> (a / c <= b / c)%Q.
Proof. intros Hc H. unfold Qdiv. apply Qmult_le_compat_r; [exact H|]. apply Qlt_le_weak. now apply Qinv_lt_0_compat. Qed.
Lemma clamp_mono l h a b : (a <= b)%Q -> (Qmin h (Qmax l a) <= Qmin h (Qmax l b))%Q.
Proof. intros H. apply Q.min_le_compat_l, Q.max_le_compat_l, H. Qed.
Lemma clamp_range l h a : (l <= h)%Q -> (l <= Qmin h (Qmax l a))%Q /\ (Qmin h (Qmax l a) <= h)%Q.
Proof. intros H. split; [apply Q.min_glb; [exact H|apply Q.le_max_l]|apply Q.le_min_l]. Qed.

Section Cells.
  Variables (nq : nat) (qs : list Q).
  Hypotheses (Hq : 2 <= nq) (HS : strictq qs (nq - 1)).
  Lemma cell_inside x : (nth 0 qs 0 <= x)%Q -> (x <= nth (nq - 1) qs 0)%Q ->
    exists q, q < nq - 1 /\ (nth q qs 0 <= x)%Q /\ (x <= nth (q + 1) qs 0)%Q /\ (forall k, k < q -> (nth (k + 1) qs 0 < x)%Q) /\
    qt_cell nq qs x = Some (Qmin (qt_ref nq (nq - 1) - qt_eps) (Qmax (qt_ref nq 0 + qt_eps) (rawv nq q (nth q qs 0%Q) (nth (q + 1) qs 0%Q) x)))%Q.
  Proof.
    intros H0 H1. rewrite cell_first. pose proof (find_seq (inside qs x) (nq - 1) 0) as F. destruct (find (inside qs x) (seq 0 (nq - 1))) as [q|].
    - destruct F as (Fq & FI & FL). apply inside_spec in FI. destruct FI as (I0 & I1). exists q. split; [lia|]. split; [exact I0|]. split; [exact I1|].
      assert (HL : forall k, k < q -> (nth (k + 1) qs 0 < x)%Q).
      { intros k Hk. specialize (FL k ltac:(lia)). destruct (Qlt_le_dec (nth (k + 1) qs 0%Q) x) as [G|G]; [exact G|]. exfalso.
        assert (inside qs x k = true); [|congruence]. apply inside_spec. split; [|exact G]. eapply Qle_trans; [|exact I0]. apply Qlt_le_weak. apply HS; lia. }
      split; [exact HL|]. unfold qt_value. destruct (Qeqb_spec (nth (q + 1) qs 0%Q) (nth q qs 0%Q)) as [E|E]; [|reflexivity]. pose proof (HS q (q + 1) ltac:(lia) ltac:(lia)) as L. rewrite E in L. lra.
    - exfalso. destruct (@cover qs x (nq - 1) H0 H1 ltac:(lia)) as (q & Hq' & HI). rewrite (F q ltac:(lia)) in HI. discriminate.
  Qed.
  Lemma cell_range x : (nth 0 qs 0 <= x)%Q -> (x <= nth (nq - 1) qs 0)%Q -> exists y, qt_cell nq qs x = Some y /\ (qt_eps <= y)%Q /\ (y <= 1 - qt_eps)%Q.
  Proof.
    intros H0 H1. destruct (@cell_inside x H0 H1) as (q & _ & _ & _ & _ & E). eexists. split; [exact E|].
    assert (R0 : (qt_ref nq 0 == 0)%Q) by (unfold qt_ref; change (qn 0) with 0%Q; unfold Qdiv; ring).
    assert (R1 : (qt_ref nq (nq - 1) == 1)%Q) by (unfold qt_ref; field; pose proof (@qn_pos (nq - 1) ltac:(lia)); lra).
    destruct (@clamp_range (qt_ref nq 0 + qt_eps) (qt_ref nq (nq - 1) - qt_eps) (rawv nq q (nth q qs 0%Q) (nth (q + 1) qs 0%Q) x)) as (A & B).
    { rewrite R0, R1. unfold qt_eps. lra. } rewrite R0 in A at 1. rewrite R1 in B at 2. split; lra.
  Qed.
  Lemma cell_mono x x' : (nth 0 qs 0 <= x)%Q -> (x <= x')%Q -> (x' <= nth (nq - 1) qs 0)%Q ->
    exists y y', qt_cell nq qs x = Some y /\ qt_cell nq qs x' = Some y' /\ (y <= y')%Q.
  Proof.
    intros H0 HX H1. destruct (@cell_inside x H0 ltac:(lra)) as (q & Q0 & Q1 & Q2 & Q3 & E). destruct (@cell_inside x' ltac:(lra) H1) as (q' & P0 & P1 & P2 & P3 & E').
    eexists. eexists. split; [exact E|]. split; [exact E'|]. apply clamp_mono. rewrite !raw_eq by exact Hq. apply div_le; [apply qn_pos; lia|].
    assert (LQ : (nth q qs 0 < nth (q + 1) qs 0)%Q) by (apply HS; lia). assert (LP : (nth q' qs 0 < nth (q' + 1) qs 0)%Q) by (apply HS; lia).
    destruct (@frac01 _ _ _ LQ Q1 Q2) as (F0 & F1). destruct (@frac01 _ _ _ LP P1 P2) as (G0 & G1).
    destruct (Nat.lt_trichotomy q q') as [C|[C|C]].
    - assert (qn (S q) <= qn q')%Q by (apply qn_le; lia). rewrite qn_S in H. lra.
    - subst q'. assert (D : ((x - nth q qs 0) / (nth (q + 1) qs 0 - nth q qs 0) <= (x' - nth q qs 0) / (nth (q + 1) qs 0 - nth q qs 0))%Q) by (apply div_le; lra). lra.
    - specialize (Q3 q' C). lra.
  Qed.
  (* the quantiles themselves go to their references *)
  Lemma cell_ref i : i < nq -> exists y, qt_cell nq qs (nth i qs 0%Q) = Some y /\ (y == Qmin (1 - qt_eps) (Qmax qt_eps (qt_ref nq i)))%Q.
  Proof.
    intros Hi. assert (A0 : (nth 0 qs 0 <= nth i qs 0)%Q) by (destruct (Nat.eq_dec i 0) as [->|]; [apply Qle_refl|apply Qlt_le_weak, HS; lia]).
    assert (A1 : (nth i qs 0 <= nth (nq - 1) qs 0)%Q) by (destruct (Nat.eq_dec i (nq - 1)) as [->|]; [apply Qle_refl|apply Qlt_le_weak, HS; lia]).
    destruct (@cell_inside (nth i qs 0%Q) A0 A1) as (q & Q0 & Q1 & Q2 & Q3 & E). eexists. split; [exact E|].
    assert (R0 : (qt_ref nq 0 == 0)%Q) by (unfold qt_ref; change (qn 0) with 0%Q; unfold Qdiv; ring).
    assert (R1 : (qt_ref nq (nq - 1) == 1)%Q) by (unfold qt_ref; field; pose proof (@qn_pos (nq - 1) ltac:(lia)); lra).
    assert (HR : (rawv nq q (nth q qs 0%Q) (nth (q + 1) qs 0%Q) (nth i qs 0%Q) == qt_ref nq i)%Q).
    { assert (L : (nth q qs 0 < nth (q + 1) qs 0)%Q) by (apply HS; lia). rewrite raw_eq by exact Hq. unfold qt_ref. apply Qmult_comp; [|reflexivity].
      assert (C : i = q \/ i = q + 1).
      { destruct (Nat.lt_ge_cases i q) as [C|C]; [pose proof (HS i q C ltac:(lia)); lra|]. destruct (Nat.lt_ge_cases (q + 1) i) as [D|D]; [pose proof (HS (q + 1) i D ltac:(lia)); lra|lia]. }
      destruct C as [-> | ->]; [field; lra|]. rewrite Nat.add_1_r, qn_S. field. rewrite <- Nat.add_1_r. lra. }
    rewrite HR, R0, R1. rewrite Qplus_0_l. reflexivity.
  Qed.
End Cells.
Lemma cell_above nq qs x : (forall i, i < nq -> (nth i qs 0 < x)%Q) -> qt_cell nq qs x = Some 0%Q.
Proof.
  intros H. rewrite cell_first. pose proof (find_seq (inside qs x) (nq - 1) 0) as F. destruct (find (inside qs x) (seq 0 (nq - 1))) as [q|]; [|reflexivity].
  destruct F as (Fq & FI & _). apply inside_spec in FI. specialize (H (q + 1) ltac:(lia)). lra.
Qed.
Lemma cell_tie nq qs x : 2 <= nq -> (nth 0 qs 0 == x)%Q -> (nth 1 qs 0 == x)%Q -> qt_cell nq qs x = None.
Proof.
  intros Hq H0 H1. rewrite cell_first. destruct (nq - 1) as [|m] eqn:E; [lia|]. cbn [seq find]. assert (I : inside qs x 0 = true) by (apply inside_spec; cbn [Nat.add]; split; lra).
  rewrite I. unfold qt_value. cbn [Nat.add]. destruct (Qeqb_spec (nth 1 qs 0%Q) (nth 0 qs 0%Q)) as [E2|E2]; [reflexivity|]. exfalso. apply E2. lra.
Qed.
