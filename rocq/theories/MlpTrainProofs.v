(* Lemmas on neural_network: early stopping, the stopping rule, LabelBinarizer64, General64.Copy. *)
From Verif Require Import Common QCommon MlpModel MlpProofs.
Open Scope nat_scope.

Section Train.
  Context {P : Type}.
  Notation ep := (P * option Q * option Q)%type.

  Lemma epoch_facts early adaptive tol nic (s : @train P) p lo sc : let s' := fst (epoch early adaptive tol nic s (p, lo, sc)) in
    t_niter s' = S (t_niter s) /\ t_params s' = p /\
    (t_best s', t_score s') = (if early then match sc with Some v => if Qltb (t_score s) v then (p, v) else (t_best s, t_score s) | None => (t_best s, t_score s) end else (t_best s, t_score s)) /\
    t_loss s' = (match lo, t_loss s with Some l, Some b => if Qltb l b then lo else t_loss s | Some _, None => lo | None, _ => t_loss s end).
  Proof.
    cbv zeta. unfold epoch, update_noimp, trigger. cbn [t_params t_best t_score t_loss t_noimp t_lr t_niter].
    destruct early; [destruct sc as [v|]; [destruct (Qltb (t_score s) v)|]|]; cbn [t_params t_best t_score t_loss t_noimp t_lr t_niter];
      (destruct (nic <? _); [destruct adaptive; [destruct (Qle_bool _ _)|]|]; cbn [fst t_params t_best t_score t_loss t_noimp t_lr t_niter];
       (split; [reflexivity|]; split; [reflexivity|]; split; [reflexivity|]; destruct lo as [l|], (t_loss s) as [b|]; try reflexivity; destruct (Qltb l b); reflexivity)).
  Qed.

  (* the best score among the epochs that were run *)
  Lemma epochs_best adaptive tol nic : forall l (s : @train P), let s' := epochs true adaptive tol nic s l in
    exists k, k <= length l /\ t_niter s' = t_niter s + k /\
    (((forall i p lo v, i < k -> nth_error l i = Some (p, lo, Some v) -> (v <= t_score s)%Q) /\ t_best s' = t_best s /\ t_score s' = t_score s) \/
     (exists i p lo v, i < k /\ nth_error l i = Some (p, lo, Some v) /\ (t_score s < v)%Q /\ t_best s' = p /\ t_score s' = v /\
        forall j p' lo' v', j < k -> nth_error l j = Some (p', lo', Some v') -> (v' <= v)%Q)).
  Proof.
    induction l as [|[[p lo] sc] l IH]; intros s.
    { exists 0. cbn [epochs length]. split; [lia|]. split; [lia|]. left. split; [intros; lia|auto]. }
    cbn [epochs]. destruct (epoch true adaptive tol nic s (p, lo, sc)) as [s1 stop] eqn:E.
    pose proof (epoch_facts true adaptive tol nic s p lo sc) as F. rewrite E in F. cbn [fst] in F. destruct F as (F1 & _ & F3 & _).
    assert (B : (exists v, sc = Some v /\ (t_score s < v)%Q /\ t_best s1 = p /\ t_score s1 = v) \/
                ((forall v, sc = Some v -> (v <= t_score s)%Q) /\ t_best s1 = t_best s /\ t_score s1 = t_score s)).
    { destruct sc as [v|]; [|right; injection F3 as -> ->; split; [discriminate|auto]]. destruct (Qltb_spec (t_score s) v) as [L|L]; injection F3 as -> ->; [left; eauto|].
      right. split; [|auto]. intros v' [= ->]. exact L. }
    clear F3 E. destruct stop.
    - exists 1. cbn [length]. split; [lia|]. split; [lia|]. destruct B as [(v & -> & B1 & B2 & B3)|(B1 & B2 & B3)].
      + right. exists 0, p, lo, v. split; [lia|]. split; [reflexivity|]. split; [exact B1|]. split; [exact B2|]. split; [exact B3|].
        intros [|j] p' lo' v' Hj N; [|lia]. injection N as <- <- <-. apply Qle_refl.
      + left. split; [|auto]. intros [|i] p' lo' v Hi N; [|lia]. injection N as <- <- ->. auto.
    - destruct (IH s1) as (k & Hk & Hn & H). exists (S k). cbn [length]. split; [lia|]. split; [lia|]. destruct H as [(H1 & H2 & H3)|(i & p1 & lo1 & v1 & Hi & N & H1 & H2 & H3 & H4)].
      + destruct B as [(v & -> & B1 & B2 & B3)|(B1 & B2 & B3)].
        * right. exists 0, p, lo, v. split; [lia|]. split; [reflexivity|]. split; [exact B1|]. split; [congruence|]. split; [congruence|].
          intros [|j] p' lo' v' Hj N; [injection N as <- <- <-; apply Qle_refl|]. rewrite <- B3. apply (H1 j p' lo' v'); [lia|exact N].
        * left. split; [|split; congruence]. intros [|i] p' lo' v Hi N; [injection N as <- <- ->; auto|]. rewrite <- B3. apply (H1 i p' lo' v); [lia|exact N].
      + right. exists (S i), p1, lo1, v1. split; [lia|]. split; [exact N|].
        assert (T : (t_score s <= t_score s1)%Q) by (destruct B as [(v & _ & B1 & _ & ->)|(_ & _ & ->)]; [now apply Qlt_le_weak|apply Qle_refl]).
        split; [eapply Qle_lt_trans; eauto|]. split; [exact H2|]. split; [exact H3|].
        intros [|j] p' lo' v' Hj N'; [|apply (H4 j p' lo' v'); [lia|exact N']]. injection N' as <- <- ->.
        destruct B as [(v & E & B1 & B2 & B3)|(B1 & B2 & B3)].
        * injection E as ->. rewrite B3 in H1. now apply Qlt_le_weak.
        * specialize (B1 _ eq_refl). rewrite B3 in H1. apply Qlt_le_weak. eapply Qle_lt_trans; eauto.
  Qed.

  (* the counter without early stopping: its last epochs did not improve on some epoch before by tol *)
  Definition stale (tol : Q) (l : list ep) (k m : nat) : Prop :=
    forall i, k - m <= i < k -> exists j p lo sc p' lo' sc' , j < i /\ nth_error l j = Some (p, Some lo, sc) /\ nth_error l i = Some (p', Some lo', sc') /\ (lo - tol < lo')%Q.
  Lemma epochs_stale adaptive tol nic (pre : list ep) : forall l (s : @train P), t_niter s = length pre -> t_noimp s <= t_niter s -> stale tol (pre ++ l) (length pre) (t_noimp s) ->
    (forall b, t_loss s = Some b -> exists j p sc, nth_error pre j = Some (p, Some b, sc)) -> t_noimp s <= nic ->
    let s' := epochs false adaptive tol nic s l in
    length pre <= t_niter s' <= length (pre ++ l) /\ t_noimp s' <= t_niter s' /\ stale tol (pre ++ l) (t_niter s') (t_noimp s') /\ (t_niter s' < length (pre ++ l) -> t_noimp s' = S nic).
  Proof.
    intros l. revert pre. induction l as [|[[p lo] sc] l IH]; intros pre s HN HI HS HB HC; cbv zeta.
    { cbn [epochs]. rewrite app_nil_r in *. rewrite HN. split; [lia|]. split; [lia|]. split; [exact HS|lia]. }
    cbn [epochs]. destruct (epoch false adaptive tol nic s (p, lo, sc)) as [s1 stop] eqn:E.
    pose proof (epoch_facts false adaptive tol nic s p lo sc) as F. rewrite E in F. cbn [fst] in F. destruct F as (F1 & _ & _ & F4).
    set (ni := match t_loss s with None => 0 | Some b => if olt (Some (b - tol)%Q) lo then S (t_noimp s) else 0 end).
    assert (K : (stop = true /\ t_noimp s1 = ni /\ nic < ni) \/ (stop = false /\ t_noimp s1 <= nic /\ (t_noimp s1 = 0 \/ t_noimp s1 = ni))).
    { unfold epoch, update_noimp in E. cbn [t_params t_best t_score t_loss t_noimp t_lr t_niter] in E. fold ni in E.
      destruct (Nat.ltb_spec nic ni) as [L|L]; [|injection E as <- <-; right; cbn [t_noimp]; auto].
      unfold trigger in E. destruct adaptive; [destruct (Qle_bool _ _)|]; injection E as <- <-; cbn [t_noimp]; [left|right|left]; auto. split; [reflexivity|]. split; [lia|auto]. }
    assert (T : forall m, (m = 0 \/ m = ni) -> m <= S (length pre) /\ stale tol (pre ++ (p, lo, sc) :: l) (S (length pre)) m).
    { intros m [-> | ->]; [split; [lia|]; intros i Hi; lia|]. unfold ni. destruct (t_loss s) as [b|] eqn:EB; [|split; [lia|]; intros i Hi; lia].
      destruct lo as [lv|]; cbn [olt]; [|split; [lia|]; intros i Hi; lia]. destruct (Qltb_spec (b - tol) lv) as [L|L]; [|split; [lia|]; intros i Hi; lia].
      split; [lia|]. intros i Hi. destruct (Nat.eq_dec i (length pre)) as [-> | Ni].
      - destruct (HB b eq_refl) as (j & q & sq & Hj). exists j, q, b, sq, p, lv, sc. split; [apply nth_error_Some; congruence|]. split; [|split; [|exact L]].
        + rewrite nth_error_app1; [exact Hj|apply nth_error_Some; congruence].
        + rewrite nth_error_app2 by lia. now rewrite Nat.sub_diag.
      - apply HS. lia. }
    assert (HB1 : forall b, t_loss s1 = Some b -> exists j q sq, nth_error (pre ++ [(p, lo, sc)]) j = Some (q, Some b, sq)).
    { intros b Hb. rewrite F4 in Hb.
      assert (lo = Some b \/ t_loss s = Some b) as [-> | Hb'] by (destruct lo as [lv|]; [|now right]; destruct (t_loss s) as [bb|]; [destruct (Qltb lv bb); auto|auto]).
      - exists (length pre), p, sc. rewrite nth_error_app2 by lia. now rewrite Nat.sub_diag.
      - destruct (HB b Hb') as (j & q & sq & Hj). exists j, q, sq. rewrite nth_error_app1; [exact Hj|apply nth_error_Some; congruence]. }
    assert (A : pre ++ (p, lo, sc) :: l = (pre ++ [(p, lo, sc)]) ++ l) by now rewrite <- app_assoc.
    assert (AL : length (pre ++ [(p, lo, sc)]) = S (length pre)) by (rewrite app_length; cbn; lia).
    destruct K as [(-> & K1 & K2)|(-> & K1 & K2)].
    - destruct (T (t_noimp s1)) as [T1 T2]; [auto|]. rewrite F1, HN. rewrite app_length. cbn [length]. split; [lia|]. split; [lia|]. split; [exact T2|].
      intros _. rewrite K1. assert (ni <= S (t_noimp s)); [|lia]. unfold ni. destruct (t_loss s); [|lia]. destruct (olt _ _); lia.
    - destruct (T (t_noimp s1) K2) as [T1 T2]. rewrite A in *. specialize (IH (pre ++ [(p, lo, sc)]) s1). cbv zeta in IH. rewrite AL in IH.
      destruct IH as (I1 & I2 & I3 & I4); auto; [lia|lia|]. split; [lia|auto].
  Qed.
  (* the counter with early stopping: the last scores were not above the score at the start, or that of some epoch before, by tol *)
  Definition estale (s0 tol : Q) (l : list ep) (k m : nat) : Prop :=
    forall i, k - m <= i < k -> exists p lo v, nth_error l i = Some (p, lo, Some v) /\ ((v < s0 + tol)%Q \/ exists j p' lo' w, j < i /\ nth_error l j = Some (p', lo', Some w) /\ (v < w + tol)%Q).
  Lemma epochs_estale s0 adaptive tol nic (pre : list ep) : forall l (s : @train P), t_niter s = length pre -> t_noimp s <= t_niter s -> estale s0 tol (pre ++ l) (length pre) (t_noimp s) ->
    (t_score s = s0 \/ exists j p lo, nth_error pre j = Some (p, lo, Some (t_score s))) -> t_noimp s <= nic ->
    let s' := epochs true adaptive tol nic s l in
    length pre <= t_niter s' <= length (pre ++ l) /\ t_noimp s' <= t_niter s' /\ estale s0 tol (pre ++ l) (t_niter s') (t_noimp s') /\ (t_niter s' < length (pre ++ l) -> t_noimp s' = S nic).
  Proof.
    intros l. revert pre. induction l as [|[[p lo] sc] l IH]; intros pre s HN HI HS HB HC; cbv zeta.
    { cbn [epochs]. rewrite app_nil_r in *. rewrite HN. split; [lia|]. split; [lia|]. split; [exact HS|lia]. }
    cbn [epochs]. destruct (epoch true adaptive tol nic s (p, lo, sc)) as [s1 stop] eqn:E.
    pose proof (epoch_facts true adaptive tol nic s p lo sc) as F. rewrite E in F. cbn [fst] in F. destruct F as (F1 & _ & F3 & _).
    set (ni := if olt sc (Some (t_score s + tol)%Q) then S (t_noimp s) else 0).
    assert (K : (stop = true /\ t_noimp s1 = ni /\ nic < ni) \/ (stop = false /\ t_noimp s1 <= nic /\ (t_noimp s1 = 0 \/ t_noimp s1 = ni))).
    { unfold epoch in E. cbv zeta in E. set (s2 := update_noimp _ _ _ _ _) in E. assert (N2 : t_noimp s2 = ni).
      { unfold s2, update_noimp. cbn [t_params t_best t_score t_loss t_noimp t_lr t_niter]. fold ni. destruct sc as [v|]; [destruct (Qltb _ _)|]; reflexivity. }
      rewrite N2 in E. destruct (Nat.ltb_spec nic ni) as [L|L]; [|injection E as <- <-; right; rewrite N2; auto].
      unfold trigger in E. destruct adaptive; [destruct (Qle_bool _ _)|]; injection E as <- <-; cbn [t_noimp]; [left|right|left]; auto. split; [reflexivity|]. split; [lia|auto]. }
    assert (T : forall m, (m = 0 \/ m = ni) -> m <= S (length pre) /\ estale s0 tol (pre ++ (p, lo, sc) :: l) (S (length pre)) m).
    { intros m [-> | ->]; [split; [lia|]; intros i Hi; lia|]. unfold ni. destruct sc as [v|]; cbn [olt]; [|split; [lia|]; intros i Hi; lia]. destruct (Qltb_spec v (t_score s + tol)) as [L|L]; [|split; [lia|]; intros i Hi; lia].
      split; [lia|]. intros i Hi. destruct (Nat.eq_dec i (length pre)) as [-> | Ni].
      - exists p, lo, v. split; [rewrite nth_error_app2 by lia; now rewrite Nat.sub_diag|]. destruct HB as [<- | (j & q & lq & Hj)]; [now left|right].
        exists j, q, lq, (t_score s). split; [apply nth_error_Some; congruence|]. split; [|exact L]. rewrite nth_error_app1; [exact Hj|apply nth_error_Some; congruence].
      - apply HS. lia. }
    assert (HB1 : t_score s1 = s0 \/ exists j q lq, nth_error (pre ++ [(p, lo, sc)]) j = Some (q, lq, Some (t_score s1))).
    { assert ((exists v, sc = Some v /\ t_score s1 = v) \/ t_score s1 = t_score s) as [(v & -> & ->) | ->].
      { destruct sc as [v|]; [|right; now injection F3]. destruct (Qltb _ _); injection F3 as _ ->; eauto. }
      - right. exists (length pre), p, lo. rewrite nth_error_app2 by lia. now rewrite Nat.sub_diag.
      - destruct HB as [-> | (j & q & lq & Hj)]; [now left|right]. exists j, q, lq. rewrite nth_error_app1; [exact Hj|apply nth_error_Some; congruence]. }
    assert (A : pre ++ (p, lo, sc) :: l = (pre ++ [(p, lo, sc)]) ++ l) by now rewrite <- app_assoc.
    assert (AL : length (pre ++ [(p, lo, sc)]) = S (length pre)) by (rewrite app_length; cbn; lia).
    destruct K as [(-> & K1 & K2)|(-> & K1 & K2)].
    - destruct (T (t_noimp s1)) as [T1 T2]; [auto|]. rewrite F1, HN. rewrite app_length. cbn [length]. split; [lia|]. split; [lia|]. split; [exact T2|].
      intros _. rewrite K1. assert (ni <= S (t_noimp s)); [|lia]. unfold ni. destruct (olt _ _); lia.
    - destruct (T (t_noimp s1) K2) as [T1 T2]. rewrite A in *. specialize (IH (pre ++ [(p, lo, sc)]) s1). cbv zeta in IH. rewrite AL in IH.
      destruct IH as (I1 & I2 & I3 & I4); auto; [lia|lia|]. split; [lia|auto].
  Qed.
  Lemma first_epoch_false adaptive tol nic (s : @train P) p lo sc : t_loss s = None ->
    epoch false adaptive tol nic s (p, lo, sc) = (mktrain p (t_best s) (t_score s) lo 0 (t_lr s) (S (t_niter s)), false).
  Proof.
    intros H. unfold epoch, update_noimp. cbn [t_params t_best t_score t_loss t_noimp t_lr t_niter]. rewrite H.
    destruct (Nat.ltb_spec nic 0); [lia|]. now destruct lo.
  Qed.
End Train.

(* ------------------------------------------------------------------ Copy *)
Lemma nth_error_concat_const {A} (f : nat -> list A) c n : forall a, (forall r, a <= r < a + n -> length (f r) = c) ->
  forall r k, r < n -> k < c -> nth_error (concat (map f (seq a n))) (k + r * c) = nth_error (f (a + r)) k.
Proof.
  induction n as [|n IH]; intros a HL r k Hr Hk; [lia|]. cbn [seq map concat]. destruct r as [|r].
  - rewrite Nat.mul_0_l, !Nat.add_0_r. apply nth_error_app1. rewrite HL; lia.
  - rewrite nth_error_app2 by (rewrite HL; lia). rewrite HL by lia. replace (k + S r * c - c) with (k + r * c) by lia.
    rewrite IH; [f_equal; f_equal; lia|intros; apply HL; lia|lia|exact Hk].
Qed.
Lemma nth_error_copy1 {A} (z : A) size d p : p < size -> size <= length d -> nth_error (firstn size d ++ skipn (length d) (repeat z size)) p = nth_error d p.
Proof.
  intros Hp Hd. rewrite nth_error_app1 by (rewrite firstn_length; lia). rewrite nth_error_firstn'. destruct (Nat.ltb_spec p size); [reflexivity|lia].
Qed.
Definition swf {A} (a : @src A) : Prop := match a with SGeneral g | SRaw g => gwf g | SAt _ _ _ => True end.
Lemma copy_cells {A} (z : A) a r c : swf a -> (forall g, a = SGeneral g -> g_stride g = g_cols g) -> r < fst (s_dims a) -> c < snd (s_dims a) ->
  g_at (g_copy z a) r c = s_at a r c.
Proof.
  assert (C : forall g : gen A, gwf g -> g_stride g = g_cols g -> r < g_rows g -> c < g_cols g ->
    nth_error (firstn (g_rows g * g_cols g) (g_data g) ++ skipn (length (g_data g)) (repeat z (g_rows g * g_cols g))) (c + r * g_cols g) = nth_error (g_data g) (c + r * g_stride g)).
  { intros g [_ W] E Hr Hc. rewrite E. apply nth_error_copy1; [nia|]. specialize (W (g_rows g - 1)). rewrite E in W. nia. }
  destruct a as [g|g|rows cols f]; cbn [s_dims fst snd s_at swf]; intros W HG Hr Hc; unfold g_copy, s_dims, g_at; cbv zeta.
  - cbn [g_data g_stride]. apply C; auto.
  - destruct (Nat.eqb_spec (g_stride g) (g_cols g)) as [E|E]; cbn [g_data g_stride]; [now apply C|]. destruct W as [W1 W2].
    rewrite (nth_error_concat_const (fun r => slice (g_data g) (r * g_stride g) (g_cols g)) (g_cols g)); auto.
    + rewrite nth_error_slice. destruct (Nat.ltb_spec c (g_cols g)); [|lia]. f_equal. lia.
    + intros q Hq. apply slice_length. apply W2. lia.
  - cbn [g_data g_stride]. rewrite (nth_error_concat_const (fun r => map (f r) (seq 0 cols)) cols); auto.
    + rewrite nth_error_map, nth_error_seq. destruct (Nat.ltb_spec c cols); [reflexivity|lia].
    + intros q Hq. now rewrite map_length, seq_length.
Qed.

(* ------------------------------------------------------------------ LabelBinarizer64 *)
Lemma distinctz_in seen l x : In x (distinctz seen l) <-> In x l /\ ~ In x seen.
Proof.
  revert seen. induction l as [|y l IH]; intros seen; cbn [distinctz In]; [tauto|].
  destruct (existsb (Z.eqb y) seen) eqn:E.
  - rewrite IH. apply existsb_exists in E. destruct E as (w & Hw & E). apply Z.eqb_eq in E. subst w. split; [tauto|]. intros [[-> | H] N]; tauto.
  - cbn [In]. rewrite IH. cbn [In]. assert (~ In y seen) by (intros H; assert (existsb (Z.eqb y) seen = true); [apply existsb_exists; exists y; split; [exact H|apply Z.eqb_refl]|congruence]).
    split; [intros [-> | [H1 H2]]; tauto|]. intros [[-> | H1] H2]; [now left|]. destruct (Z.eq_dec y x); [now left|right; tauto].
Qed.
Lemma zinsert_in x y l : In x (zinsert y l) <-> x = y \/ In x l.
Proof. induction l as [|w l IH]; cbn [zinsert In]; [intuition|]. destruct (Z.leb y w); cbn [In]; [intuition|]. rewrite IH. tauto. Qed.
Lemma zsort_in x l : In x (zsort l) <-> In x l.
Proof. induction l as [|y l IH]; cbn [zsort fold_right In]; [tauto|]. fold (zsort l). rewrite zinsert_in, IH. intuition. Qed.
Lemma find_ix_spec x l : forall k, In x l -> exists m, find_ix x l k = Some (k + m) /\ nth_error l m = Some x.
Proof.
  induction l as [|y l IH]; intros k H; [destruct H|]. cbn [find_ix]. destruct (Z.eqb_spec x y) as [-> | E]; [exists 0; split; [f_equal; lia|reflexivity]|].
  destruct H as [-> | H]; [congruence|]. destruct (IH (S k) H) as (m & E1 & E2). exists (S m). split; [rewrite E1; f_equal; lia|exact E2].
Qed.
Lemma nth_onehot n k v i : k < n -> nth i (upd (repeat 0%Z n) k v) 0%Z = if i =? k then v else 0%Z.
Proof.
  intros Hk. destruct (nth_error (upd (repeat 0%Z n) k v) i) as [w|] eqn:E.
  - rewrite (nth_error_nth _ _ _ E). rewrite nth_error_upd, repeat_length in E. destruct (Nat.eqb_spec k i) as [-> | N].
    + rewrite Nat.eqb_refl. destruct (Nat.ltb_spec i n); [congruence|lia].
    + destruct (Nat.eqb_spec i k); [congruence|]. apply nth_error_In, repeat_spec in E. congruence.
  - apply nth_error_None in E. rewrite upd_length, repeat_length in E. rewrite nth_overflow by (rewrite upd_length, repeat_length; lia). destruct (Nat.eqb_spec i k); [lia|reflexivity].
Qed.
Lemma max_idx_onehot n k v : k < n -> (0 < v)%Z -> max_idx (upd (repeat 0%Z n) k v) = k.
Proof.
  intros Hk Hv. unfold max_idx. rewrite upd_length, repeat_length.
  assert (G : forall m, m <= n -> fold_left (fun mi i => if Z.ltb (nth mi (upd (repeat 0%Z n) k v) 0%Z) (nth i (upd (repeat 0%Z n) k v) 0%Z) then i else mi) (seq 0 m) 0 = if m <=? k then 0 else k).
  { induction m as [|m IH]; intros Hm; [reflexivity|]. rewrite seq_S, fold_left_app, IH by lia. cbn [fold_left plus]. rewrite !nth_onehot by assumption.
    destruct (Nat.leb_spec m k), (Nat.leb_spec (S m) k); try lia.
    - destruct (Nat.eqb_spec m k); [lia|]. destruct (Nat.eqb_spec 0 k); [|reflexivity]. lia.
    - assert (m = k) by lia. subst m. rewrite Nat.eqb_refl. destruct (Nat.eqb_spec 0 k) as [<- | ?]; [now rewrite Z.ltb_irrefl|]. destruct (Z.ltb_spec 0 v); [reflexivity|lia].
    - rewrite Nat.eqb_refl. destruct (Nat.eqb_spec m k); [lia|]. destruct (Z.ltb_spec v 0); [lia|reflexivity]. }
  rewrite G by lia. destruct (Nat.leb_spec n k); [lia|reflexivity].
Qed.
Lemma slice_concat {A} (T : list (list A)) c : (forall r, In r T -> length r = c) -> forall i r, nth_error T i = Some r -> slice (concat T) (i * c) c = r /\ i * c + c <= length (concat T).
Proof.
  intros H. induction T as [|x T IH]; intros [|i] r N; try discriminate N; cbn [concat nth_error] in *.
  - injection N as ->. specialize (H r (or_introl eq_refl)). rewrite app_length. split; [|lia]. unfold slice. cbn [skipn Nat.mul]. rewrite <- H, firstn_app, Nat.sub_diag, firstn_all. cbn [firstn]. apply app_nil_r.
  - destruct (IH ltac:(intros; apply H; now right) i r N) as [E1 E2]. assert (length x = c) by (apply H; now left). rewrite app_length. split; [|lia].
    rewrite <- E1. unfold slice. f_equal. replace (S i * c) with (length x + i * c) by lia. rewrite skipn_app, skipn_all2 by lia. cbn [app]. f_equal. lia.
Qed.
Lemma nth_error_slice_sub {A} (d r : list A) pos c a b : slice d pos c = r -> pos + c <= length d -> a + b <= c -> slice d (pos + a) b = slice r a b.
Proof.
  intros <- H1 H2. apply list_ext. intros k. rewrite !nth_error_slice. destruct (Nat.ltb_spec k b); [|reflexivity]. destruct (Nat.ltb_spec (a + k) c); [f_equal; lia|lia].
Qed.

(* one column *)
Lemma lb_row1 m cl v : lb_classes m = [cl] -> lb_row m [v] = match find_ix v cl 0 with Some k => upd (repeat 0%Z (length cl)) k (lb_pos m) | None => upd (repeat 0%Z (length cl)) 0 (lb_neg m) end.
Proof. intros E. unfold lb_row. rewrite E. cbn. apply app_nil_r. Qed.
Lemma lb_roundtrip1 neg pos ys : let m := lb_fit neg pos 1 (map (fun v => [v]) ys) in (0 < lb_pos m)%Z ->
  lb_inverse m (lb_transform m (map (fun v => [v]) ys)) = map (fun v => Some [v]) ys.
Proof.
  intros m Hp. set (cl := zsort (distinctz [] ys)).
  assert (EC : lb_classes m = [cl]). { unfold m, lb_fit. cbn [lb_classes seq map]. rewrite map_map. cbn [nth]. now rewrite map_id. }
  assert (IN : forall v, In v ys -> In v cl) by (intros v Hv; apply zsort_in, distinctz_in; auto).
  assert (ROW : forall v, In v ys -> exists k, nth_error cl k = Some v /\ lb_row m [v] = upd (repeat 0%Z (length cl)) k (lb_pos m)).
  { intros v Hv. destruct (@find_ix_spec v cl 0 (IN v Hv)) as (k & E1 & E2). exists k. split; [exact E2|]. rewrite (@lb_row1 m cl v EC). now rewrite E1. }
  assert (HT : forall r, In r (lb_transform m (map (fun v => [v]) ys)) -> length r = length cl).
  { intros r Hr. unfold lb_transform in Hr. rewrite map_map in Hr. apply in_map_iff in Hr. destruct Hr as (v & <- & Hv). destruct (ROW v Hv) as (k & _ & ->). now rewrite upd_length, repeat_length. }
  set (T := lb_transform m (map (fun v => [v]) ys)) in *.
  destruct ys as [|y0 ys0]; [reflexivity|]. set (ys := y0 :: ys0) in *.
  assert (HC : length (hd [] T) = length cl) by (apply HT; left; reflexivity).
  assert (C0 : 0 < length cl) by (destruct cl eqn:E; [destruct (IN y0 (or_introl eq_refl))|cbn; lia]).
  unfold lb_inverse. rewrite HC. apply list_ext. intros i. rewrite !nth_error_map, nth_error_seq.
  assert (LT : length T = length ys) by (unfold T, lb_transform; now rewrite !map_length).
  rewrite LT. destruct (Nat.ltb_spec i (length ys)) as [Hi|Hi]; cbn [option_map].
  2: { apply nth_error_None in Hi. now rewrite Hi. }
  destruct (nth_error ys i) as [v|] eqn:Ev; [|apply nth_error_None in Ev; lia]. cbn [option_map]. f_equal.
  assert (Hv : In v ys) by (eapply nth_error_In; eauto). destruct (ROW v Hv) as (k & Ek & Er).
  assert (ET : nth_error T i = Some (lb_row m [v])) by (unfold T, lb_transform; rewrite map_map, nth_error_map, Ev; reflexivity).
  destruct (@slice_concat _ T (length cl) HT i _ ET) as [E1 E2].
  assert (Kk : k < length cl) by (apply nth_error_Some; congruence).
  change (0 + i) with i. set (q := i * length cl) in *. unfold lb_inverse_row. rewrite EC. cbn [length].
  destruct (length cl) as [|n] eqn:EL; [lia|]. set (N := S n) in *. change (S N) with (S (S n)).
  cbn [lb_cols]. rewrite EC. cbn [nth_error]. rewrite EL. fold N. change (0 <? N) with true. cbv iota. cbn [plus]. rewrite !Nat.add_0_r.
  destruct (Nat.ltb_spec (length (concat T)) (q + N)); [lia|]. rewrite E1, Er, max_idx_onehot, Ek by assumption.
  destruct (Nat.ltb_spec (N + N) N); [lia|]. reflexivity.
Qed.

(* two columns, at least as many classes in the first: the second never comes back *)
Lemma lb_row2 m c0 c1 v w : lb_classes m = [c0; c1] -> lb_row m [v; w] =
  match find_ix v c0 0 with Some k => upd (repeat 0%Z (length c0)) k (lb_pos m) | None => upd (repeat 0%Z (length c0)) 0 (lb_neg m) end ++
  match find_ix w c1 0 with Some k => upd (repeat 0%Z (length c1)) k (lb_pos m) | None => upd (repeat 0%Z (length c1)) 0 (lb_neg m) end.
Proof. intros E. unfold lb_row. rewrite E. cbn. now rewrite app_nil_r. Qed.
Lemma lb_two neg pos ys : let Y := map (fun p => [fst p; snd p]) ys in let m := lb_fit neg pos 2 Y in (0 < lb_pos m)%Z ->
  length (nth 1 (lb_classes m) []) <= length (nth 0 (lb_classes m) []) ->
  lb_inverse m (lb_transform m Y) = map (fun p => Some [fst p; 0%Z]) ys.
Proof.
  intros Y m Hp HL. set (c0 := zsort (distinctz [] (map fst ys))). set (c1 := zsort (distinctz [] (map snd ys))).
  assert (EC : lb_classes m = [c0; c1]). { unfold m, lb_fit, Y. cbn [lb_classes seq map]. rewrite !map_map. reflexivity. }
  rewrite EC in HL. cbn [nth] in HL.
  assert (I0 : forall p, In p ys -> In (fst p) c0) by (intros p Hv; apply zsort_in, distinctz_in; split; [now apply in_map|auto]).
  assert (I1 : forall p, In p ys -> In (snd p) c1) by (intros p Hv; apply zsort_in, distinctz_in; split; [now apply in_map|auto]).
  assert (ROW : forall p, In p ys -> exists k w, nth_error c0 k = Some (fst p) /\ length w = length c1 /\ lb_row m [fst p; snd p] = upd (repeat 0%Z (length c0)) k (lb_pos m) ++ w).
  { intros p Hv. destruct (@find_ix_spec (fst p) c0 0 (I0 p Hv)) as (k & E1 & E2). destruct (@find_ix_spec (snd p) c1 0 (I1 p Hv)) as (k' & E1' & _).
    exists k, (upd (repeat 0%Z (length c1)) k' (lb_pos m)). split; [exact E2|]. split; [now rewrite upd_length, repeat_length|]. rewrite (@lb_row2 m c0 c1 _ _ EC). now rewrite E1, E1'. }
  assert (HT : forall r, In r (lb_transform m Y) -> length r = length c0 + length c1).
  { intros r Hr. unfold lb_transform, Y in Hr. rewrite map_map in Hr. apply in_map_iff in Hr. destruct Hr as (v & <- & Hv). destruct (ROW v Hv) as (k & w & _ & Lw & ->). now rewrite app_length, upd_length, repeat_length, Lw. }
  set (T := lb_transform m Y) in *.
  destruct ys as [|y0 ys0]; [reflexivity|]. set (ys := y0 :: ys0) in *.
  assert (HC : length (hd [] T) = length c0 + length c1) by (apply HT; left; reflexivity).
  assert (C0 : 0 < length c0) by (destruct c0 eqn:E; [destruct (I0 y0 (or_introl eq_refl))|cbn; lia]).
  unfold lb_inverse. rewrite HC. apply list_ext. intros i. rewrite !nth_error_map, nth_error_seq.
  assert (LT : length T = length ys) by (unfold T, lb_transform, Y; now rewrite !map_length).
  rewrite LT. destruct (Nat.ltb_spec i (length ys)) as [Hi|Hi]; cbn [option_map].
  2: { apply nth_error_None in Hi. now rewrite Hi. }
  destruct (nth_error ys i) as [v|] eqn:Ev; [|apply nth_error_None in Ev; lia]. cbn [option_map]. f_equal.
  assert (Hv : In v ys) by (eapply nth_error_In; eauto). destruct (ROW v Hv) as (k & w & Ek & Lw & Er).
  assert (ET : nth_error T i = Some (lb_row m [fst v; snd v])) by (unfold T, lb_transform, Y; rewrite map_map, nth_error_map, Ev; reflexivity).
  destruct (@slice_concat _ T _ HT i _ ET) as [E1 E2].
  assert (Kk : k < length c0) by (apply nth_error_Some; congruence).
  change (0 + i) with i. set (q := i * (length c0 + length c1)) in *.
  assert (E3 : slice (concat T) q (length c0) = upd (repeat 0%Z (length c0)) k (lb_pos m)).
  { pose proof (@nth_error_slice_sub _ (concat T) _ q _ 0 (length c0) E1 ltac:(lia) ltac:(lia)) as E4. rewrite Nat.add_0_r in E4. rewrite E4, Er.
    apply list_ext. intros t. rewrite nth_error_slice. destruct (Nat.ltb_spec t (length c0)) as [L|L].
    - rewrite nth_error_app1 by (rewrite upd_length, repeat_length; lia). reflexivity.
    - symmetry. apply nth_error_None. rewrite upd_length, repeat_length. lia. }
  clear E1. unfold lb_inverse_row. rewrite EC. cbn [length].
  destruct (length c0 + length c1) as [|n] eqn:EL; [lia|]. set (N := S n) in *. change (S N) with (S (S n)).
  cbn [lb_cols]. rewrite EC. cbn [nth_error]. change (0 <? N) with true. cbv iota. cbn [plus]. rewrite !Nat.add_0_r.
  destruct (Nat.ltb_spec (length (concat T)) (q + length c0)); [lia|]. rewrite E3, max_idx_onehot, Ek by assumption.
  destruct (Nat.ltb_spec (length c0 + length c0) N); [lia|]. reflexivity.
Qed.
(* cells of Transform on its own training data *)
Lemma lb_cells neg pos cols Y c : let m := lb_fit neg pos cols Y in In c (concat (lb_transform m Y)) -> c = 0%Z \/ c = lb_pos m.
Proof.
  intros m H. apply in_concat in H. destruct H as (r & Hr & Hc). unfold lb_transform in Hr. apply in_map_iff in Hr. destruct Hr as (row & <- & HY).
  unfold lb_row in Hc. apply in_concat in Hc. destruct Hc as (b & Hb & Hc). apply in_map_iff in Hb. destruct Hb as ([j cl] & <- & Hj).
  assert (HJ : cl = zsort (distinctz [] (map (fun r => nth j r 0%Z) Y))).
  { unfold m, lb_fit in Hj. cbn [lb_classes] in Hj. rewrite map_length, seq_length in Hj. clear - Hj. revert Hj. generalize 0. induction cols as [|n IH]; intros a H; [destruct H|]. cbn [seq map combine In] in H. destruct H as [H|H]; [injection H as <- <-; reflexivity|eauto]. }
  assert (IN : In (nth j row 0%Z) cl) by (rewrite HJ; apply zsort_in, distinctz_in; split; [apply (in_map (fun r => nth j r 0%Z)); exact HY|auto]).
  destruct (@find_ix_spec _ cl 0 IN) as (k & E & _). rewrite E in Hc. apply In_nth_error in Hc. destruct Hc as [p Hp]. rewrite nth_error_upd in Hp.
  destruct (_ =? _); [destruct (_ <? _); [right; congruence|discriminate]|]. left. apply nth_error_In, repeat_spec in Hp. exact Hp.
Qed.

(* ------------------------------------------------------------------ shuffles *)
Lemma swap_same_ix (l : list nat) i : i < length l -> swap l i i = l.
Proof. intros H. apply list_ext. intros k. rewrite nth_error_swap by assumption. destruct (Nat.eqb_spec k i) as [-> | ?]; reflexivity. Qed.
Lemma fold_same (l : list nat) js : (forall i, In i js -> i < length l) -> fold_left (fun m (e : nat * nat) => swap m (fst e) (snd e)) (map (fun i => (i, i)) js) l = l.
Proof. induction js as [|j js IH]; intros H; cbn [map fold_left fst snd]; [reflexivity|]. rewrite swap_same_ix by (apply H; now left). apply IH. intros i Hi. apply H. now right. Qed.
Lemma row_slice_at {A} (g g' : gen A) a b r k : gwf g -> g_rows g' = b - a -> row_slice g a b = Some g' -> b <= g_rows g -> r < b - a -> k < g_cols g -> g_at g' r k = g_at g (a + r) k.
Proof.
  intros [W1 W2] _ E Hb Hr Hk. unfold row_slice in E. destruct (_ || _); [discriminate|]. injection E as <-. unfold g_at. cbn [g_data g_stride]. rewrite nth_error_slice.
  destruct (Nat.ltb_spec (k + r * g_stride g) ((b - a) * g_stride g)); [f_equal; lia|nia].
Qed.
