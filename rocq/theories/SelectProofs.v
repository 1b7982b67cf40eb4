From Coq Require Import QArith Qround.
From Verif Require Import Common ParallelModel ParallelProofs SelectModel.
Open Scope nat_scope.

(* ------------------------------------------------------------------ KFold *)
Lemma kfold_rotate_perm cnt : forall i start N nt a, Permutation (kfold_rotate cnt i start N nt a) a.
Proof.
  induction cnt as [|c IH]; intros i start N nt a; cbn [kfold_rotate]; [reflexivity|].
  rewrite IH. apply swap_perm.
Qed.

Lemma kfold_shuffle_perm swaps : forall a, Permutation (kfold_shuffle swaps a) a.
Proof.
  unfold kfold_shuffle. induction swaps as [|s ss IH]; intros a; cbn [fold_left]; [reflexivity|].
  rewrite IH. apply swap_perm.
Qed.

Lemma kfold_ntest_le N k i : 0 < k -> i < k -> kfold_ntest N k i <= N.
Proof.
  intros Hk Hi. unfold kfold_ntest.
  pose proof (Nat.div_mod N k ltac:(lia)) as E.
  destruct (Nat.ltb_spec i (N mod k)); nia.
Qed.

Lemma kfold_one_spec shuffle N k i rnd tr te :
  0 < k -> i < k -> kfold_one shuffle N k i rnd = Some (tr, te) ->
  Permutation (tr ++ te) (seq 0 N) /\ length te = kfold_ntest N k i.
Proof.
  intros Hk Hi H. pose proof (kfold_ntest_le N k i Hk Hi) as Hle.
  assert (Hgen: forall a, Permutation a (seq 0 N) ->
     (firstn (N - kfold_ntest N k i) a, skipn (N - kfold_ntest N k i) a) = (tr, te) ->
     Permutation (tr ++ te) (seq 0 N) /\ length te = kfold_ntest N k i).
  { intros a Ha E. injection E as <- <-. rewrite firstn_skipn. split; auto.
    rewrite skipn_length, (Permutation_length Ha), seq_length. lia. }
  unfold kfold_one in H. destruct shuffle.
  - apply (Hgen (kfold_shuffle (fst rnd) (seq 0 N))); [apply kfold_shuffle_perm|]. congruence.
  - destruct N as [|n]; [discriminate|].
    apply (Hgen (kfold_rotate (kfold_ntest (S n) k i) 0 (snd rnd) (S n) (kfold_ntest (S n) k i) (seq 0 (S n))));
      [apply kfold_rotate_perm|]. congruence.
Qed.

Lemma kfold_loop_spec cnt : forall shuffle N k i0 rnds sps,
  kfold_loop cnt shuffle N k i0 rnds = Some sps ->
  length sps = cnt /\
  forall i sp, nth_error sps i = Some sp -> kfold_one shuffle N k (i0 + i) (rnds (i0 + i)) = Some sp.
Proof.
  induction cnt as [|c IH]; intros shuffle N k i0 rnds sps H; cbn [kfold_loop] in H.
  - injection H as <-. split; auto. intros [|i]; discriminate.
  - destruct (kfold_one shuffle N k i0 (rnds i0)) as [sp0|] eqn:E0; [|discriminate].
    destruct (kfold_loop c shuffle N k (i0 + 1) rnds) as [rest|] eqn:E1; [|discriminate].
    injection H as <-. destruct (IH _ _ _ _ _ _ E1) as [IHl IHn]. split; [simpl; lia|].
    intros [|i] sp Hn; cbn [nth_error] in Hn.
    + injection Hn as <-. now rewrite Nat.add_0_r.
    + replace (i0 + S i) with (i0 + 1 + i) by lia. now apply IHn.
Qed.

Lemma kfold_loop_total cnt : forall shuffle N k i0 rnds, (shuffle = true \/ 0 < N) ->
  exists sps, kfold_loop cnt shuffle N k i0 rnds = Some sps.
Proof.
  induction cnt as [|c IH]; intros shuffle N k i0 rnds H; cbn [kfold_loop]; [eauto|].
  destruct (IH shuffle N k (i0 + 1) rnds H) as [rest ->].
  assert (exists sp, kfold_one shuffle N k i0 (rnds i0) = Some sp) as [sp ->]; [|eauto].
  unfold kfold_one. destruct shuffle; [eauto|]. destruct N; [|eauto].
  destruct H; [discriminate|lia].
Qed.

Lemma kfold_nsplits_pos z : 0 < kfold_nsplits z.
Proof. unfold kfold_nsplits. destruct (Z.leb_spec z 0); lia. Qed.

Lemma sum_sizes q r : forall n a,
  list_sum (map (fun i => if Nat.ltb i r then q + 1 else q) (seq a n)) =
  n * q + (Nat.min (a + n) (Nat.max a r) - a).
Proof.
  induction n as [|n IH]; intros a; cbn [seq map list_sum fold_right]; [lia|].
  unfold list_sum in IH. rewrite IH. destruct (Nat.ltb_spec a r); nia.
Qed.

Lemma kfold_sizes_sum N k : 0 < k -> list_sum (map (kfold_ntest N k) (seq 0 k)) = N.
Proof.
  intros Hk. unfold kfold_ntest. rewrite sum_sizes.
  pose proof (Nat.div_mod N k ltac:(lia)). pose proof (Nat.mod_upper_bound N k ltac:(lia)). nia.
Qed.

Lemma map_nth_error_seq {A B} (f : nat -> B) (g : A -> B) (l : list A) :
  (forall i x, nth_error l i = Some x -> g x = f i) -> map g l = map f (seq 0 (length l)).
Proof.
  intros H. apply list_ext. intro i. rewrite !nth_error_map, nth_error_seq.
  destruct (Nat.ltb_spec i (length l)) as [Hi|Hi].
  - destruct (nth_error l i) eqn:E; [|apply nth_error_None in E; lia]. simpl. f_equal. auto.
  - rewrite (proj2 (nth_error_None l i)) by lia. reflexivity.
Qed.

Lemma kfold_split_spec NSplits shuffle N rnds sps :
  kfold_split NSplits shuffle N rnds = Some sps ->
  let k := if (NSplits <=? 0)%Z then 3 else Z.to_nat NSplits in
  length sps = k /\
  (forall i tr te, nth_error sps i = Some (tr, te) ->
     NoDup (tr ++ te) /\ (forall x, In x (tr ++ te) <-> x < N) /\
     length te = N / k + (if Nat.ltb i (N mod k) then 1 else 0)) /\
  list_sum (map (fun sp => length (snd sp)) sps) = N.
Proof.
  intros H k. unfold kfold_split in H. fold k in H. change (kfold_nsplits NSplits) with k in H.
  assert (Hk: 0 < k) by apply kfold_nsplits_pos.
  destruct (kfold_loop_spec _ _ _ _ _ _ _ H) as [Hl Hn]. split; auto.
  assert (Hs: forall i tr te, nth_error sps i = Some (tr, te) ->
     Permutation (tr ++ te) (seq 0 N) /\ length te = kfold_ntest N k i).
  { intros i tr te E. eapply kfold_one_spec; [exact Hk| |eapply (Hn i); exact E].
    assert (i < length sps) by (apply nth_error_Some; congruence). simpl. lia. }
  split.
  - intros i tr te E. destruct (Hs i tr te E) as [Hp Hsz]. repeat split.
    + eapply Permutation_NoDup; [symmetry; exact Hp|apply seq_NoDup].
    + intros Hx. apply (Permutation_in _ Hp) in Hx. apply in_seq in Hx. lia.
    + intros Hx. apply (Permutation_in _ (Permutation_sym Hp)). apply in_seq. lia.
    + rewrite Hsz. unfold kfold_ntest. destruct (Nat.ltb i (N mod k)); lia.
  - transitivity (list_sum (map (kfold_ntest N k) (seq 0 k))); [|now apply kfold_sizes_sum].
    f_equal. rewrite <- Hl at 2.
    apply map_nth_error_seq. intros i [tr te] E. exact (proj2 (Hs i tr te E)).
Qed.

(* --------------------------------------------------------- TrainTestSplit *)
Lemma gather_app {A} i1 : forall i2 (rows : list A),
  gather (i1 ++ i2) rows =
  match gather i1 rows, gather i2 rows with Some a, Some b => Some (a ++ b) | _, _ => None end.
Proof.
  induction i1 as [|j i1 IH]; intros i2 rows; cbn [gather app].
  - destruct (gather i2 rows); reflexivity.
  - rewrite IH. destruct (nth_error rows j), (gather i1 rows), (gather i2 rows); reflexivity.
Qed.

Lemma gather_length {A} ind : forall (rows : list A) xs, gather ind rows = Some xs -> length xs = length ind.
Proof.
  induction ind as [|j js IH]; intros rows xs H; cbn [gather] in H.
  - now injection H as <-.
  - destruct (nth_error rows j); [|discriminate]. destruct (gather js rows) eqn:E; [|discriminate].
    injection H as <-. simpl. f_equal. eauto.
Qed.

Lemma gather_total {A} ind : forall (rows : list A), Forall (fun j => j < length rows) ind ->
  exists xs, gather ind rows = Some xs.
Proof.
  induction ind as [|j js IH]; intros rows H; cbn [gather]; [eauto|].
  apply Forall_cons_iff in H. destruct H as [Hj H].
  destruct (nth_error rows j) eqn:E; [|apply nth_error_None in E; lia].
  destruct (IH rows H) as [xs ->]. eauto.
Qed.

Lemma nth_error_combine {A B} (X : list A) : forall (Y : list B) i,
  nth_error (combine X Y) i =
  match nth_error X i, nth_error Y i with Some a, Some b => Some (a, b) | _, _ => None end.
Proof.
  induction X as [|x X IH]; intros [|y Y] [|i]; cbn [combine nth_error]; auto.
  - destruct (nth_error X i); reflexivity.
Qed.

Lemma gather_combine {A B} ind : forall (X : list A) (Y : list B) xs ys,
  gather ind X = Some xs -> gather ind Y = Some ys -> gather ind (combine X Y) = Some (combine xs ys).
Proof.
  induction ind as [|j js IH]; intros X Y xs ys HX HY; cbn [gather] in *.
  - injection HX as <-. injection HY as <-. reflexivity.
  - rewrite nth_error_combine.
    destruct (nth_error X j); [|discriminate]. destruct (gather js X) eqn:E1; [|discriminate].
    destruct (nth_error Y j); [|discriminate]. destruct (gather js Y) eqn:E2; [|discriminate].
    injection HX as <-. injection HY as <-. now rewrite (IH _ _ _ _ E1 E2).
Qed.

Lemma gather_seq {A} (rows : list A) : forall pre, gather (seq (length pre) (length rows)) (pre ++ rows) = Some rows.
Proof.
  induction rows as [|r rows IH]; intros pre; cbn [length seq gather]; [reflexivity|].
  rewrite nth_error_app2 by lia. rewrite Nat.sub_diag. cbn [nth_error].
  specialize (IH (pre ++ [r])). rewrite app_length in IH. cbn [length] in IH.
  rewrite Nat.add_1_r, <- app_assoc in IH. cbn [app] in IH. now rewrite IH.
Qed.

Lemma gather_perm {A} (rows : list A) i1 i2 : Permutation i1 i2 -> forall x1, gather i1 rows = Some x1 ->
  exists x2, gather i2 rows = Some x2 /\ Permutation x1 x2.
Proof.
  induction 1 as [|j l l' H IH|j k l|l l' l'' H1 IH1 H2 IH2]; intros x1 E; cbn [gather] in *.
  - injection E as <-. eauto.
  - destruct (nth_error rows j); [|discriminate]. destruct (gather l rows) as [xs|] eqn:E1; [|discriminate].
    injection E as <-. destruct (IH xs eq_refl) as (x2 & -> & P). eauto.
  - destruct (nth_error rows k); [|discriminate]. destruct (nth_error rows j); [|discriminate].
    destruct (gather l rows) as [xs|] eqn:E1; [|discriminate]. injection E as <-. eexists; split; [reflexivity|].
    apply perm_swap.
  - destruct (IH1 x1 E) as (x2 & E2 & P2). destruct (IH2 x2 E2) as (x3 & E3 & P3).
    exists x3; split; auto. now rewrite P2.
Qed.

Lemma gather_all_perm {A} (rows : list A) ind xs :
  Permutation ind (seq 0 (length rows)) -> gather ind rows = Some xs -> Permutation xs rows.
Proof.
  intros Hp E. destruct (gather_perm rows _ _ Hp xs E) as (x2 & E2 & P).
  pose proof (gather_seq rows []) as E3. simpl in E3. rewrite E3 in E2. injection E2 as <-. exact P.
Qed.

Lemma combine_app {A B} (a1 : list A) : forall (b1 : list B) a2 b2, length a1 = length b1 ->
  combine (a1 ++ a2) (b1 ++ b2) = combine a1 b1 ++ combine a2 b2.
Proof.
  induction a1 as [|x a1 IH]; intros [|y b1] a2 b2 H; simpl in *; try discriminate; auto.
  f_equal. apply IH. lia.
Qed.

Lemma tts_spec {A B} (X : list A) (Y : list B) testsize ind :
  length X = length Y -> Permutation ind (seq 0 (length X)) ->
  (0 < tts_testlen (length X) testsize < Z.of_nat (length X))%Z ->
  exists xtr xte ytr yte,
    train_test_split X Y testsize ind = Some (xtr, xte, ytr, yte) /\
    Z.of_nat (length xte) = tts_testlen (length X) testsize /\ length yte = length xte /\
    length ytr = length xtr /\ length xtr + length xte = length X /\
    Permutation (combine xtr ytr ++ combine xte yte) (combine X Y).
Proof.
  intros HL Hp Ht. unfold train_test_split.
  set (tl := tts_testlen (length X) testsize) in *.
  destruct (Z.leb_spec tl 0); [lia|]. destruct (Z.leb_spec (Z.of_nat (length X) - tl) 0); [lia|].
  cbn [orb]. set (t := Z.to_nat tl).
  assert (HF: Forall (fun j => j < length X) ind).
  { apply Forall_forall. intros j Hj. apply (Permutation_in _ Hp) in Hj. apply in_seq in Hj. lia. }
  assert (HF': Forall (fun j => j < length Y) ind) by (now rewrite <- HL).
  assert (Hsplit: ind = firstn t ind ++ skipn t ind) by (symmetry; apply firstn_skipn).
  assert (HFs: forall n, n = length X -> Forall (fun j => j < n) (firstn t ind) /\ Forall (fun j => j < n) (skipn t ind)).
  { intros n ->. rewrite Hsplit in HF. now apply Forall_app in HF. }
  destruct (HFs (length X) eq_refl) as [F1 F2]. destruct (HFs (length Y) (eq_sym HL)) as [F3 F4].
  destruct (gather_total _ X F1) as [xte Exte]. destruct (gather_total _ X F2) as [xtr Extr].
  destruct (gather_total _ Y F3) as [yte Eyte]. destruct (gather_total _ Y F4) as [ytr Eytr].
  rewrite Exte, Extr, Eyte, Eytr.
  exists xtr, xte, ytr, yte. split; [reflexivity|].
  pose proof (gather_length _ _ _ Exte) as L1. pose proof (gather_length _ _ _ Extr) as L2.
  pose proof (gather_length _ _ _ Eyte) as L3. pose proof (gather_length _ _ _ Eytr) as L4.
  pose proof (Permutation_length Hp) as Lp. rewrite seq_length in Lp.
  rewrite firstn_length in L1, L3. rewrite skipn_length in L2, L4. unfold t in *.
  repeat split; try lia.
  rewrite Permutation_app_comm. rewrite <- combine_app by lia.
  apply (gather_all_perm (combine X Y) ind).
  - rewrite combine_length, <- HL, Nat.min_id. exact Hp.
  - apply gather_combine; rewrite Hsplit, gather_app.
    + now rewrite Exte, Extr.
    + now rewrite Eyte, Eytr.
Qed.

(* ---------------------------------------------------------- ParameterGrid *)
Section Grid.
Variables (K Val : Type).
Notation parameter_grid := (@parameter_grid K Val).

Lemma make_arr_length name (vs : list Val) prev : prev <> [] ->
  length (@make_arr K Val name vs prev) = length prev * length vs.
Proof.
  intros H. unfold make_arr. destruct prev as [|m ms]; [congruence|].
  remember (m :: ms) as prev. clear. induction prev as [|x prev IH]; simpl; auto.
  rewrite app_length, map_length, IH. lia.
Qed.

(* the accumulator relation after processing a prefix of the grid *)
Definition assigns (m : list (K * Val)) (g : list (K * list Val)) : Prop :=
  Forall2 (fun kv ent => fst kv = fst ent /\ In (snd kv) (snd ent)) m g.

Lemma assigns_snoc m g k v vs :
  assigns (m ++ [(k, v)]) (g ++ [(k, vs)]) <-> assigns m g /\ In v vs.
Proof.
  unfold assigns. split.
  - intros H. apply Forall2_app_inv_r in H. destruct H as (m1 & m2 & H1 & H2 & E).
    inversion H2 as [|kv ent m2' g2' Hkv H2']; subst. inversion H2'; subst.
    apply app_inj_tail in E. destruct E as [-> <-]. simpl in Hkv. tauto.
  - intros [H Hv]. apply Forall2_app; [exact H|]. constructor; [|constructor]. simpl; auto.
Qed.

Lemma assigns_snoc_inv m g k vs : assigns m (g ++ [(k, vs)]) ->
  exists m' v, m = m' ++ [(k, v)] /\ assigns m' g /\ In v vs.
Proof.
  unfold assigns. intros H. apply Forall2_app_inv_r in H. destruct H as (m1 & m2 & H1 & H2 & E).
  inversion H2 as [|kv ent m2' g2' Hkv H2']; subst. inversion H2'; subst.
  destruct kv as [k' v]. simpl in Hkv. destruct Hkv as [-> Hv]. eauto.
Qed.

Lemma grid_snoc g kv : parameter_grid (g ++ [kv]) = make_arr (fst kv) (snd kv) (parameter_grid g).
Proof. unfold SelectModel.parameter_grid. now rewrite fold_left_app. Qed.

Lemma grid_assigns : forall g, g <> [] -> Forall (fun kv => snd kv <> []) g ->
  parameter_grid g <> [] /\ forall m, In m (parameter_grid g) <-> assigns m g.
Proof.
  intros g. induction g as [|[k vs] g IH] using rev_ind; [congruence|]. intros _ HF.
  apply Forall_app in HF. destruct HF as [HF Hk]. apply Forall_cons_iff in Hk. destruct Hk as [Hvs _]. simpl in Hvs.
  rewrite grid_snoc. cbn [fst snd].
  destruct g as [|kv0 g0].
  - change (parameter_grid []) with (@nil (list (K * Val))). unfold make_arr.
    split; [destruct vs; simpl; congruence|]. intros m. rewrite in_map_iff. cbn [app]. unfold assigns. split.
    + intros (v & <- & Hv). repeat constructor; auto.
    + intros H. inversion H as [|kv ent m' g' [Hk Hv] H']; subst. inversion H'; subst.
      destruct kv as [k' v]. simpl in *. subst k'. exists v; auto.
  - remember (kv0 :: g0) as g. assert (Hg: g <> []) by (subst; discriminate).
    destruct (IH Hg HF) as [Hne IHm]. clear Heqg.
    unfold make_arr. destruct (parameter_grid g) as [|m0 ms] eqn:E; [congruence|]. rewrite <- E in *.
    split.
    + rewrite E. destruct vs; [congruence|]. simpl. discriminate.
    + intros m. rewrite in_flat_map. split.
      * intros (m1 & Hm1 & Hm). apply in_map_iff in Hm. destruct Hm as (v & <- & Hv).
        apply IHm in Hm1. apply assigns_snoc; auto.
      * intros H. apply assigns_snoc_inv in H. destruct H as (m' & v & -> & H1 & H2).
        exists m'. split; [now apply IHm|]. apply in_map_iff. eauto.
Qed.

Lemma NoDup_flat_map_inj {A B} (f : A -> list B) l :
  NoDup l -> (forall x, In x l -> NoDup (f x)) ->
  (forall x y b, In x l -> In y l -> In b (f x) -> In b (f y) -> x = y) -> NoDup (flat_map f l).
Proof.
  induction l as [|a l IH]; intros ND H1 H2; cbn [flat_map]; [constructor|].
  apply NoDup_cons_iff in ND. destruct ND as [Ha ND]. apply NoDup_app_iff. repeat split.
  - apply H1; simpl; auto.
  - apply IH; auto. + intros; apply H1; simpl; auto. + intros x y b Hx Hy. apply H2; simpl; auto.
  - intros b Hb Hb2. apply in_flat_map in Hb2. destruct Hb2 as (y & Hy & Hby).
    assert (a = y) by (apply (H2 a y b); simpl; auto). subst y. auto.
Qed.

Lemma NoDup_map_inj {A B} (f : A -> B) l : (forall x y, f x = f y -> x = y) -> NoDup l -> NoDup (map f l).
Proof.
  intros Hf. induction 1 as [|x l Hx H IH]; simpl; constructor; auto.
  rewrite in_map_iff. intros (y & E & Hy). apply Hf in E. now subst.
Qed.

Lemma grid_NoDup : forall g, Forall (fun kv => snd kv <> []) g -> Forall (fun kv => NoDup (snd kv)) g ->
  NoDup (parameter_grid g).
Proof.
  intros g. induction g as [|[k vs] g IH] using rev_ind; intros HF HN; [constructor|].
  apply Forall_app in HF. destruct HF as [HF Hk]. apply Forall_cons_iff in Hk. destruct Hk as [Hvs _].
  apply Forall_app in HN. destruct HN as [HN Hk]. apply Forall_cons_iff in Hk. destruct Hk as [Hnd _]. simpl in *.
  rewrite grid_snoc. cbn [fst snd]. unfold make_arr.
  destruct (parameter_grid g) as [|m0 ms] eqn:E.
  - apply NoDup_map_inj; auto. intros x y H. congruence.
  - rewrite <- E in *. apply NoDup_flat_map_inj; auto.
    + intros m _. apply NoDup_map_inj; auto. intros x y H. apply app_inj_tail in H. destruct H. congruence.
    + intros x y b _ _ Hx Hy. apply in_map_iff in Hx, Hy. destruct Hx as (v & <- & _). destruct Hy as (w & Ew & _).
      apply app_inj_tail in Ew. destruct Ew. auto.
Qed.

Lemma grid_length : forall g, g <> [] -> Forall (fun kv => snd kv <> []) g ->
  length (parameter_grid g) = fold_right (fun kv n => length (snd kv) * n) 1 g.
Proof.
  intros g. induction g as [|[k vs] g IH] using rev_ind; [congruence|]. intros _ HF.
  assert (Hfr: forall g0 n0, fold_right (fun (kv : K * list Val) n => length (snd kv) * n) n0 g0 =
             n0 * fold_right (fun kv n => length (snd kv) * n) 1 g0).
  { induction g0 as [|x g0 IHg]; intros n0; simpl; [lia|]. rewrite IHg. lia. }
  rewrite fold_right_app. rewrite Hfr. cbn [fold_right snd].
  apply Forall_app in HF. destruct HF as [HF _].
  rewrite grid_snoc. cbn [fst snd]. destruct g as [|kv0 g0].
  - cbn. rewrite map_length. lia.
  - remember (kv0 :: g0) as g. assert (Hg: g <> []) by (subst; discriminate).
    destruct (grid_assigns g Hg HF) as [Hne _]. rewrite make_arr_length by exact Hne.
    rewrite IH by auto. lia.
Qed.

(* lookups in the produced maps *)
Fixpoint lookup_in (eqk : K -> K -> bool) (k : K) (m : list (K * Val)) : option Val :=
  match m with
  | [] => None
  | (k', v) :: m' => if eqk k k' then Some v else lookup_in eqk k m'
  end.

End Grid.

(* ------------------------------------------------------- best candidate *)
Definition beats (lower : bool) (a b : Z) : Prop := if lower then (a < b)%Z else (b < a)%Z.

Lemma is_better_iff lower a b : is_better lower (Some a) (Some b) = true <-> beats lower a b.
Proof. unfold is_better, fless, beats. destruct lower; apply Z.ltb_lt. Qed.

Lemma is_better_false lower a b : is_better lower (Some a) (Some b) = false <-> ~ beats lower a b.
Proof. rewrite <- is_better_iff. destruct (is_better lower (Some a) (Some b)); intuition congruence. Qed.

Definition best_inv (lower : bool) (pre : list Z) (st : nat * option (nat * option Z)) : Prop :=
  fst st = length pre /\
  match snd st with
  | None => pre = []
  | Some (bi, bs) => exists b, bs = Some b /\ nth_error pre bi = Some b /\
      (forall j s, nth_error pre j = Some s -> ~ beats lower s b) /\
      (forall j s, j < bi -> nth_error pre j = Some s -> beats lower b s)
  end.

Lemma beats_trans lower a b c : beats lower a b -> ~ beats lower c b -> beats lower a c.
Proof. unfold beats; destruct lower; lia. Qed.

Lemma best_step_inv lower pre st s : best_inv lower pre st -> best_inv lower (pre ++ [s]) (best_step lower st (Some s)).
Proof.
  destruct st as [i best]. intros [Hi H]. cbn [fst snd] in *. unfold best_step, best_inv. cbn [fst snd].
  split; [rewrite app_length; simpl; lia|].
  assert (Hlast: nth_error (pre ++ [s]) i = Some s).
  { subst i. rewrite nth_error_app2 by lia. now rewrite Nat.sub_diag. }
  assert (Hcase: forall j x, nth_error (pre ++ [s]) j = Some x -> (j < length pre /\ nth_error pre j = Some x) \/ (j = length pre /\ x = s)).
  { intros j x E. destruct (Nat.ltb_spec j (length pre)).
    - left; split; auto. now rewrite nth_error_app1 in E.
    - right. rewrite nth_error_app2 in E by lia. destruct (j - length pre) as [|n] eqn:En.
      + simpl in E. split; [lia|congruence].
      + destruct n; discriminate. }
  destruct best as [[bi bs]|].
  - destruct H as (b & -> & Hb & Hall & Hlt).
    assert (Hbi: bi < length pre) by (apply nth_error_Some; congruence).
    destruct (is_better lower (Some s) (Some b)) eqn:E.
    + apply is_better_iff in E. exists s. repeat split; auto.
      * intros j x Hx. destruct (Hcase j x Hx) as [[_ Hj]|[_ ->]].
        -- specialize (Hall j x Hj). unfold beats in *; destruct lower; lia.
        -- unfold beats; destruct lower; lia.
      * intros j x Hj Hx. destruct (Hcase j x Hx) as [[_ Hj2]|[Hj2 _]]; [|lia].
        specialize (Hall j x Hj2). eapply beats_trans; eauto.
    + apply is_better_false in E. exists b. repeat split; auto.
      * rewrite nth_error_app1 by lia. auto.
      * intros j x Hx. destruct (Hcase j x Hx) as [[_ Hj]|[_ ->]]; eauto.
      * intros j x Hj Hx. destruct (Hcase j x Hx) as [[_ Hj2]|[Hj2 _]]; [eauto|lia].
  - subst pre. exists s. repeat split; auto.
    + intros j x Hx. destruct (Hcase j x Hx) as [[Hj _]|[_ ->]]; [simpl in Hj; lia|unfold beats; destruct lower; lia].
    + intros j x Hj Hx. simpl in Hi. lia.
Qed.

Lemma best_fold_inv lower scores : forall pre st, best_inv lower pre st ->
  best_inv lower (pre ++ scores) (fold_left (best_step lower) (map Some scores) st).
Proof.
  induction scores as [|s ss IH]; intros pre st H; cbn [map fold_left].
  - now rewrite app_nil_r.
  - replace (pre ++ s :: ss) with ((pre ++ [s]) ++ ss) by (rewrite <- app_assoc; reflexivity).
    apply IH. now apply best_step_inv.
Qed.

Lemma best_scan_spec lower scores : scores <> [] ->
  exists bi b, best_scan lower (map Some scores) = Some (bi, Some b) /\
    nth_error scores bi = Some b /\
    (forall j s, nth_error scores j = Some s -> ~ beats lower s b) /\
    (forall j s, j < bi -> nth_error scores j = Some s -> beats lower b s).
Proof.
  intros Hne. unfold best_scan.
  assert (H0: best_inv lower [] (0, None)) by (split; reflexivity).
  apply (best_fold_inv lower scores) in H0. cbn [app] in H0. destruct H0 as [_ H].
  destruct (snd (fold_left (best_step lower) (map Some scores) (0, None))) as [[bi bs]|]; [|congruence].
  destruct H as (b & -> & H). exists bi, b. tauto.
Qed.

Lemma gscv_fit_schedule lower numcpu njobs score_of ncand sched r : (0 < numcpu)%Z ->
  gscv_fit lower numcpu njobs score_of ncand sched = Some r ->
  r = best_scan lower (map score_of (seq 0 ncand)).
Proof.
  intros Hn H. unfold gscv_fit in H.
  destruct (parallelize_run _ _ _ _ _ _ _) as [scores|] eqn:E; [|discriminate]. injection H as <-.
  set (body := fun i : nat => [fun st : option Z * unit => (score_of i, snd st)]) in *.
  assert (Hloc: local_irrelevant (option Z) unit body tt (fun _ => True)) by (repeat split).
  pose proof (parallelize_run_correct (option Z) unit body tt (fun _ => True) Hloc numcpu njobs ncand sched (repeat None ncand) scores Hn) as HC.
  rewrite repeat_length in HC. specialize (HC (Nat.le_refl _) E).
  f_equal. rewrite HC. apply list_ext. intro j.
  rewrite (seq_loop_cells (option Z) unit body tt (fun _ => True) Hloc) by (now rewrite repeat_length).
  rewrite nth_error_map, nth_error_seq.
  destruct (Nat.ltb_spec j ncand) as [Hj|Hj].
  - destruct (nth_error (repeat None ncand) j) eqn:Er; [reflexivity|].
    apply nth_error_None in Er. rewrite repeat_length in Er. lia.
  - simpl. apply nth_error_None. now rewrite repeat_length.
Qed.

(* ---------------------------------------------------------- CrossValidate *)
Section CV.
Variables (XRow YRow Est Score : Type).
Variable fit : list XRow -> list YRow -> Est.
Variable score : Est -> list XRow -> list YRow -> Score.
Notation copy_row := (@copy_row XRow YRow Est Score).
Notation slot := (@slot Est Score).

Lemma firstn_upd_app {A} (l : list A) d x : d < length l ->
  firstn d l ++ x :: skipn (S d) l = upd l d x.
Proof. intros H. symmetry. now apply upd_split. Qed.

Lemma copy_rows_spec (X : list XRow) (Y : list YRow) srcs : forall d (sl : slot) xj yj xs ys,
  gather srcs X = Some xs -> gather srcs Y = Some ys ->
  d + length srcs <= length xj -> d + length srcs <= length yj ->
  fold_left (fun st f => f st) (map (fun p => copy_row X Y (fst p) (snd p)) (combine (seq d (length srcs)) srcs)) (sl, (xj, yj)) =
  (sl, (firstn d xj ++ xs ++ skipn (d + length srcs) xj, firstn d yj ++ ys ++ skipn (d + length srcs) yj)).
Proof.
  induction srcs as [|j js IH]; intros d sl xj yj xs ys HX HY Lx Ly; cbn [gather length seq combine map fold_left] in *.
  - injection HX as <-. injection HY as <-. rewrite Nat.add_0_r. cbn [app]. now rewrite !firstn_skipn.
  - destruct (nth_error X j) as [x|] eqn:Ex; [|discriminate]. destruct (gather js X) as [xs'|] eqn:E1; [|discriminate].
    destruct (nth_error Y j) as [y|] eqn:Ey; [|discriminate]. destruct (gather js Y) as [ys'|] eqn:E2; [|discriminate].
    injection HX as <-. injection HY as <-.
    unfold SelectModel.copy_row at 2. cbn [fst snd]. rewrite Ex, Ey.
    rewrite (IH (S d) sl _ _ xs' ys' eq_refl eq_refl) by (rewrite upd_length; lia).
    f_equal. f_equal.
    + rewrite <- (firstn_upd_app xj d x) by lia.
      rewrite (firstn_app (S d)), firstn_firstn, firstn_length, Nat.min_r by lia.
      rewrite Nat.min_l by lia. replace (S d - d) with 1 by lia. cbn [firstn].
      rewrite <- !app_assoc. cbn [app]. f_equal. f_equal. f_equal.
      rewrite skipn_app, firstn_length, Nat.min_l by lia.
      rewrite (skipn_all2 (firstn d xj)) by (rewrite firstn_length; lia). cbn [app].
      replace (S d + length js - d) with (S (length js)) by lia. cbn [skipn].
      change (match xj with [] => [] | _ :: l => skipn d l end) with (skipn (S d) xj).
      rewrite skipn_skipn. f_equal. lia.
    + rewrite <- (firstn_upd_app yj d y) by lia.
      rewrite (firstn_app (S d)), firstn_firstn, firstn_length, Nat.min_r by lia.
      rewrite Nat.min_l by lia. replace (S d - d) with 1 by lia. cbn [firstn].
      rewrite <- !app_assoc. cbn [app]. f_equal. f_equal. f_equal.
      rewrite skipn_app, firstn_length, Nat.min_l by lia.
      rewrite (skipn_all2 (firstn d yj)) by (rewrite firstn_length; lia). cbn [app].
      replace (S d + length js - d) with (S (length js)) by lia. cbn [skipn].
      change (match yj with [] => [] | _ :: l => skipn d l end) with (skipn (S d) yj).
      rewrite skipn_skipn. f_equal. lia.
Qed.

(* what one split must produce *)
Definition split_result (X : list XRow) (Y : list YRow) (sp : list nat * list nat) : option slot :=
  match gather (fst sp) X, gather (fst sp) Y, gather (snd sp) X, gather (snd sp) Y with
  | Some xtr, Some ytr, Some xte, Some yte =>
    let e := fit xtr ytr in Some (Some e, Some (score e xte yte))
  | _, _, _, _ => None
  end.

Lemma process_split_spec X Y sp sl xj yj r :
  length (fst sp) + length (snd sp) <= length xj ->
  length (fst sp) + length (snd sp) <= length yj ->
  split_result X Y sp = Some r ->
  exists xj' yj', length xj' = length xj /\ length yj' = length yj /\
  fold_left (fun st f => f st) (process_split fit score X Y sp) (sl, (xj, yj)) = (r, (xj', yj')).
Proof.
  destruct sp as [tr te]. unfold split_result. cbn [fst snd]. intros Lx Ly HR.
  destruct (gather tr X) as [xtr|] eqn:E1; [|discriminate].
  destruct (gather tr Y) as [ytr|] eqn:E2; [|discriminate].
  destruct (gather te X) as [xte|] eqn:E3; [|discriminate].
  destruct (gather te Y) as [yte|] eqn:E4; [|discriminate]. injection HR as <-.
  pose proof (gather_length _ _ _ E1) as L1. pose proof (gather_length _ _ _ E2) as L2.
  pose proof (gather_length _ _ _ E3) as L3. pose proof (gather_length _ _ _ E4) as L4.
  unfold process_split. cbn [fst snd]. rewrite !fold_left_app.
  rewrite (copy_rows_spec X Y tr 0 sl xj yj xtr ytr E1 E2) by lia. cbn [firstn app Nat.add].
  assert (Hlx: length (xtr ++ skipn (length tr) xj) = length xj) by (rewrite app_length, skipn_length; lia).
  assert (Hly: length (ytr ++ skipn (length tr) yj) = length yj) by (rewrite app_length, skipn_length; lia).
  rewrite (copy_rows_spec X Y te (length tr) sl _ _ xte yte E3 E4) by lia.
  rewrite (firstn_app (length tr) xtr), L1, Nat.sub_diag, firstn_O, app_nil_r.
  rewrite (firstn_app (length tr) ytr), L2, Nat.sub_diag, firstn_O, app_nil_r.
  rewrite (firstn_all2 xtr) by lia. rewrite (firstn_all2 ytr) by lia.
  set (xj' := xtr ++ xte ++ _). set (yj' := ytr ++ yte ++ _).
  assert (Fx: firstn (length tr) xj' = xtr).
  { unfold xj'. rewrite <- L1. rewrite firstn_app, Nat.sub_diag, firstn_O, app_nil_r. apply firstn_all. }
  assert (Fy: firstn (length tr) yj' = ytr).
  { unfold yj'. rewrite <- L2. rewrite firstn_app, Nat.sub_diag, firstn_O, app_nil_r. apply firstn_all. }
  assert (Sx: firstn (length te) (skipn (length tr) xj') = xte).
  { unfold xj'. rewrite <- L1 at 1. rewrite skipn_app, Nat.sub_diag, skipn_all. cbn [app skipn].
    rewrite <- L3 at 1. rewrite firstn_app, Nat.sub_diag, firstn_O, app_nil_r. apply firstn_all. }
  assert (Sy: firstn (length te) (skipn (length tr) yj') = yte).
  { unfold yj'. rewrite <- L2 at 1. rewrite skipn_app, Nat.sub_diag, skipn_all. cbn [app skipn].
    rewrite <- L4 at 1. rewrite firstn_app, Nat.sub_diag, firstn_O, app_nil_r. apply firstn_all. }
  exists xj', yj'. repeat split.
  - unfold xj'. rewrite !app_length, skipn_length, Hlx. lia.
  - unfold yj'. rewrite !app_length, skipn_length, Hly. lia.
  - destruct sl as [e0 s0]. cbn [fold_left do_fit do_score]. now rewrite Fx, Fy, Sx, Sy.
Qed.

Lemma cross_validate_spec (buf : job XRow YRow) numcpu NJobs X Y splits results sched res :
  (0 < numcpu)%Z -> length (fst buf) = length X -> length (snd buf) = length X ->
  Forall2 (fun sp r => length (fst sp) + length (snd sp) <= length X /\ split_result X Y sp = Some r) splits results ->
  cross_validate fit score buf numcpu NJobs X Y splits sched = Some res -> res = results.
Proof.
  intros Hn Lbx Lby HF H.
  pose (P := fun l : job XRow YRow => length (fst l) = length X /\ length (snd l) = length X).
  set (body := cv_body fit score X Y splits).
  assert (Hi: forall i v l, P l -> exists l', P l' /\
      fold_left (fun st f => f st) (body i) (v, l) = (match nth_error results i with Some r => r | None => v end, l')).
  { intros i v [xj yj] [P1 P2]. cbn [fst snd] in *. unfold body, cv_body.
    destruct (nth_error splits i) as [sp|] eqn:Es.
    - destruct (Forall2_nth_error i HF Es) as (r & Er & Hsz & Hr). rewrite Er.
      destruct (process_split_spec X Y sp v xj yj r) as (xj' & yj' & L1 & L2 & E); auto; try lia.
      exists (xj', yj'). split; [split; simpl; lia|exact E].
    - assert (nth_error results i = None) as ->.
      { apply nth_error_None. rewrite <- (Forall2_length HF). now apply nth_error_None. }
      exists (xj, yj). split; [split; auto|reflexivity]. }
  assert (Hloc: local_irrelevant _ _ body buf P).
  { unfold local_irrelevant, run_iter. split; [split; auto|]. split.
    - intros i v l HP. destruct (Hi i v l HP) as (l' & HP' & ->). exact HP'.
    - intros i v l HP. destruct (Hi i v l HP) as (l' & HP' & ->).
      destruct (Hi i v buf) as (l2 & HP2 & ->); [split; auto|]. reflexivity. }
  assert (Hseq: seq_loop body buf (length splits) (repeat (None, None) (length splits)) = results).
  { apply list_ext. intro j. rewrite (seq_loop_cells _ _ body buf P Hloc) by (now rewrite repeat_length).
    pose proof (Forall2_length HF) as Hlen.
    destruct (Nat.ltb_spec j (length splits)) as [Hj|Hj].
    - rewrite nth_error_repeat by lia.
      cbn [option_map]. unfold cell_result, run_iter.
      destruct (Hi j (None, None) buf) as (l' & _ & E0); [split; auto|].
      rewrite E0. cbn [fst]. destruct (nth_error results j) eqn:E; auto. apply nth_error_None in E. lia.
    - rewrite (proj2 (nth_error_None results j)) by lia. apply nth_error_None. now rewrite repeat_length. }
  unfold cross_validate in H. fold body in H. cbv zeta in H.
  match type of H with context [(1 <? ?z)%Z] => destruct (1 <? z)%Z end.
  - rewrite <- Hseq.
    apply (parallelize_run_correct _ _ body buf P Hloc _ _ _ _ _ _ Hn) in H; auto.
    now rewrite repeat_length.
  - injection H as <-. exact Hseq.
Qed.
End CV.

Lemma gather_map {A} ind : forall (rows : list A) xs,
  gather ind rows = Some xs <-> map (nth_error rows) ind = map Some xs.
Proof.
  induction ind as [|j js IH]; intros rows xs; cbn [gather map].
  - split; [intros H; injection H as <-; reflexivity|]. destruct xs; [reflexivity|discriminate].
  - specialize (IH rows). destruct (nth_error rows j) as [x|].
    + destruct (gather js rows) as [ys|].
      * split.
        -- intros H. injection H as <-. simpl. f_equal. now apply IH.
        -- destruct xs as [|x' xs]; [discriminate|]. simpl. intros H. injection H as -> H.
           apply IH in H. congruence.
      * split; [discriminate|]. destruct xs as [|x' xs]; [discriminate|]. simpl. intros H. injection H as -> H.
        apply IH in H. discriminate.
    + split; [discriminate|]. destruct xs; discriminate.
Qed.

Definition valid_split (N : nat) (sp : list nat * list nat) : Prop :=
  length (fst sp) + length (snd sp) <= N /\ Forall (fun j => j < N) (fst sp ++ snd sp).

Lemma split_result_total {XRow YRow Est Score} fit score (X : list XRow) (Y : list YRow) sp :
  length X = length Y -> valid_split (length X) sp ->
  exists xtr ytr xte yte,
    gather (fst sp) X = Some xtr /\ gather (fst sp) Y = Some ytr /\
    gather (snd sp) X = Some xte /\ gather (snd sp) Y = Some yte /\
    @split_result XRow YRow Est Score fit score X Y sp =
      Some (Some (fit xtr ytr), Some (score (fit xtr ytr) xte yte)).
Proof.
  intros HL [_ HF]. apply Forall_app in HF. destruct HF as [F1 F2].
  destruct (gather_total _ X F1) as [xtr E1]. destruct (gather_total _ X F2) as [xte E2].
  rewrite HL in F1, F2.
  destruct (gather_total _ Y F1) as [ytr E3]. destruct (gather_total _ Y F2) as [yte E4].
  exists xtr, ytr, xte, yte. unfold split_result. rewrite E1, E2, E3, E4. auto.
Qed.

Lemma cross_validate_full {XRow YRow Est Score} (fit : list XRow -> list YRow -> Est)
  (score : Est -> list XRow -> list YRow -> Score) buf numcpu NJobs X Y splits sched res :
  (0 < numcpu)%Z -> length X = length Y -> length (fst buf) = length X -> length (snd buf) = length X ->
  Forall (valid_split (length X)) splits ->
  cross_validate fit score buf numcpu NJobs X Y splits sched = Some res ->
  length res = length splits /\
  (forall i tr te, nth_error splits i = Some (tr, te) ->
    exists xtr ytr xte yte,
      map (nth_error X) tr = map Some xtr /\ map (nth_error Y) tr = map Some ytr /\
      map (nth_error X) te = map Some xte /\ map (nth_error Y) te = map Some yte /\
      nth_error res i = Some (Some (fit xtr ytr), Some (score (fit xtr ytr) xte yte))) /\
  cross_validate fit score buf numcpu 1 X Y splits [] = Some res.
Proof.
  intros Hn HL B1 B2 HV H.
  assert (exists results, Forall2 (fun sp r => length (fst sp) + length (snd sp) <= length X /\ split_result _ _ _ _ fit score X Y sp = Some r) splits results) as [results HF].
  { clear H. induction HV as [|sp sps Hv HV IH]; [exists []; constructor|].
    destruct IH as [rs IH]. destruct (split_result_total fit score X Y sp HL Hv) as (xtr & ytr & xte & yte & _ & _ & _ & _ & E).
    exists ((Some (fit xtr ytr), Some (score (fit xtr ytr) xte yte)) :: rs). constructor; auto. split; auto. apply Hv. }
  pose proof (cross_validate_spec _ _ _ _ fit score buf numcpu NJobs X Y splits results sched res Hn B1 B2 HF H) as ->.
  split; [symmetry; eapply Forall2_length; eauto|]. split.
  - intros i tr te E. destruct (Forall2_nth_error i HF E) as (r & Er & _ & HR).
    assert (Hv: valid_split (length X) (tr, te)).
    { rewrite Forall_forall in HV. apply HV. eapply nth_error_In; eauto. }
    destruct (split_result_total fit score X Y (tr, te) HL Hv) as (xtr & ytr & xte & yte & G1 & G2 & G3 & G4 & E5).
    exists xtr, ytr, xte, yte. cbn [fst snd] in *.
    repeat split; try (now apply gather_map). rewrite HR in E5. congruence.
  - destruct (cross_validate fit score buf numcpu 1 X Y splits []) as [res1|] eqn:E1.
    + f_equal. eapply (cross_validate_spec _ _ _ _ fit score buf numcpu 1 X Y splits results); eauto.
    + exfalso. unfold cross_validate in E1. unfold eff_threads in E1. change (1 <=? 0)%Z with false in E1. cbv zeta iota in E1.
      destruct (Z.of_nat (length splits) <? 1)%Z eqn:Ez.
      * destruct (Z.ltb_spec 1 (Z.of_nat (length splits))); [apply Z.ltb_lt in Ez; lia|]. discriminate.
      * discriminate.
Qed.

Lemma kfold_split_valid NSplits shuffle N rnds sps :
  kfold_split NSplits shuffle N rnds = Some sps -> Forall (valid_split N) sps.
Proof.
  intros H. destruct (kfold_split_spec _ _ _ _ _ H) as (_ & Hs & _).
  apply Forall_forall. intros [tr te] Hin. apply In_nth_error in Hin. destruct Hin as [i E].
  destruct (Hs i tr te E) as (Hnd & Hx & _). split; cbn [fst snd].
  - rewrite <- app_length.
    assert (Hp: Permutation (tr ++ te) (seq 0 N)).
    { apply NoDup_Permutation; auto; [apply seq_NoDup|]. intros x. rewrite Hx, in_seq. lia. }
    rewrite (Permutation_length Hp), seq_length. lia.
  - apply Forall_forall. intros x. apply Hx.
Qed.

Lemma tts_testlen_bounds N (t : Q) : (t <= 1)%Q ->
  let n := inject_Z (Z.of_nat N) in
  (n * t <= inject_Z (tts_testlen N t))%Q /\ (inject_Z (tts_testlen N t) < n * t + 1)%Q.
Proof.
  intros Ht n. unfold tts_testlen. apply Qle_bool_iff in Ht. rewrite Ht. fold n. split.
  - apply Qle_ceiling.
  - pose proof (Qceiling_lt (n * t)) as H.
    unfold Z.sub in H. rewrite inject_Z_plus in H. change (inject_Z (-(1))) with (-(1))%Q in H.
    rewrite Qlt_minus_iff in *. ring_simplify. ring_simplify in H. exact H.
Qed.

Lemma tts_testlen_count N (c : nat) : 1 < c -> tts_testlen N (inject_Z (Z.of_nat c)) = Z.of_nat (Nat.min N c).
Proof.
  intros Hc. unfold tts_testlen.
  assert (E: Qle_bool (inject_Z (Z.of_nat c)) 1 = false).
  { apply Bool.not_true_is_false. rewrite Qle_bool_iff. change 1%Q with (inject_Z 1). rewrite <- Zle_Qle. lia. }
  rewrite E. destruct (Qle_bool (inject_Z (Z.of_nat N)) (inject_Z (Z.of_nat c))) eqn:E2.
  - apply Qle_bool_iff in E2. rewrite <- Zle_Qle in E2. rewrite Qceiling_Z. lia.
  - assert (~ (Z.of_nat N <= Z.of_nat c)%Z).
    { rewrite Zle_Qle. rewrite <- Qle_bool_iff. congruence. }
    rewrite Qceiling_Z. lia.
Qed.

(* two iteration orders of the same grid give the same maps *)
Lemma assigns_lookup {K Val} (eqk : K -> K -> bool) (Heq : forall a b, eqk a b = true <-> a = b) m (g : list (K * list Val)) :
  assigns K Val m g -> NoDup (map fst g) ->
  (forall k, lookup_in K Val eqk k m = None <-> ~ In k (map fst g)) /\
  (forall k vs, In (k, vs) g -> exists v, lookup_in K Val eqk k m = Some v /\ In v vs).
Proof.
  intros H. induction H as [|[k0 v0] [k1 vs1] m g [Hk Hv] H IH]; intros ND; cbn [map fst] in *.
  - split; [simpl; tauto|]. intros k vs [].
  - simpl in Hk, Hv. subst k1. apply NoDup_cons_iff in ND. destruct ND as [Hn ND]. destruct (IH ND) as [IH1 IH2].
    cbn [lookup_in]. split.
    + intros k. destruct (eqk k k0) eqn:E.
      * apply Heq in E. subst. split; [discriminate|]. simpl. tauto.
      * rewrite IH1. simpl. split; [|tauto]. intros Hni [->|]; [|tauto].
        assert (eqk k k = true) by (now apply Heq). congruence.
    + intros k vs [Hin|Hin].
      * injection Hin as -> ->. assert (eqk k k = true) as -> by (now apply Heq). eauto.
      * destruct (eqk k k0) eqn:E; [|eauto]. apply Heq in E. subst. exfalso. apply Hn.
        apply in_map_iff. exists (k0, vs). auto.
Qed.

Lemma gscv_best lower numcpu njobs (scores : list Z) sched r :
  (0 < numcpu)%Z -> scores <> [] ->
  gscv_fit lower numcpu njobs (fun i => nth_error scores i) (length scores) sched = Some r ->
  exists bi b, r = Some (bi, Some b) /\ nth_error scores bi = Some b /\
    (forall j s, nth_error scores j = Some s -> ~ beats lower s b) /\
    (forall j s, j < bi -> nth_error scores j = Some s -> beats lower b s).
Proof.
  intros Hn Hne H. apply gscv_fit_schedule in H; auto.
  assert (E: map (nth_error scores) (seq 0 (length scores)) = map Some scores).
  { apply gather_map. apply (gather_seq scores []). }
  change (r = best_scan lower (map (nth_error scores) (seq 0 (length scores)))) in H.
  rewrite E in H. destruct (best_scan_spec lower scores Hne) as (bi & b & Hb & HR).
  exists bi, b. split; [congruence|tauto].
Qed.

Lemma grid_product (K Val : Type) (grid : list (K * list Val)) :
  grid <> [] -> Forall (fun kv => snd kv <> []) grid ->
  (forall m, In m (parameter_grid grid) <->
     Forall2 (fun kv ent => fst kv = fst ent /\ In (snd kv) (snd ent)) m grid) /\
  length (parameter_grid grid) = fold_right (fun kv n => length (snd kv) * n) 1 grid /\
  (Forall (fun kv => NoDup (snd kv)) grid -> NoDup (parameter_grid grid)).
Proof.
  intros H1 H2. split; [|split].
  - apply (proj2 (grid_assigns K Val grid H1 H2)).
  - now apply grid_length.
  - intros H3. now apply grid_NoDup.
Qed.

(* reorder an assignment along a permutation of the grid *)
Lemma assigns_perm {K Val} (g1 g2 : list (K * list Val)) : Permutation g1 g2 ->
  forall m1, assigns K Val m1 g1 -> exists m2, assigns K Val m2 g2 /\ Permutation m1 m2.
Proof.
  unfold assigns. induction 1 as [|x l l' H IH|x y l|l l' l'' H1 IH1 H2 IH2]; intros m1 Hm.
  - inversion Hm; subst. exists []. split; constructor.
  - inversion Hm as [|kv ent m g Hkv Hm']; subst. destruct (IH _ Hm') as (m2 & A & P).
    exists (kv :: m2). split; [constructor; auto|now constructor].
  - inversion Hm as [|kv ent m g Hkv Hm']; subst. inversion Hm' as [|kv2 ent2 m' g' Hkv2 Hm'']; subst.
    exists (kv2 :: kv :: m'). split; [repeat constructor; tauto|apply perm_swap].
  - destruct (IH1 _ Hm) as (m2 & A & P). destruct (IH2 _ A) as (m3 & A3 & P3).
    exists m3. split; auto. now rewrite P.
Qed.

Lemma lookup_perm {K Val} (eqk : K -> K -> bool) (Heq : forall a b, eqk a b = true <-> a = b)
  (m1 m2 : list (K * Val)) : Permutation m1 m2 -> NoDup (map fst m1) ->
  forall k, lookup_in K Val eqk k m1 = lookup_in K Val eqk k m2.
Proof.
  induction 1 as [|[k0 v0] l l' H IH|[k0 v0] [k1 v1] l|l l' l'' H1 IH1 H2 IH2]; intros ND k; cbn [lookup_in map fst] in *.
  - reflexivity.
  - apply NoDup_cons_iff in ND. destruct (eqk k k0); auto. now apply IH.
  - apply NoDup_cons_iff in ND. destruct ND as [Hn _].
    destruct (eqk k k1) eqn:E1, (eqk k k0) eqn:E0; auto.
    apply Heq in E1, E0. subst. exfalso. apply Hn. simpl; auto.
  - rewrite IH1 by auto. apply IH2. eapply Permutation_NoDup; [apply Permutation_map; exact H1|exact ND].
Qed.

Lemma grid_order {K Val : Type} (eqk : K -> K -> bool) :
  (forall a b, eqk a b = true <-> a = b) ->
  forall g1 g2 : list (K * list Val), Permutation g1 g2 -> g1 <> [] ->
  NoDup (map fst g1) -> Forall (fun kv => snd kv <> []) g1 ->
  forall m1, In m1 (parameter_grid g1) ->
  exists m2, In m2 (parameter_grid g2) /\ forall k, lookup_in K Val eqk k m1 = lookup_in K Val eqk k m2.
Proof.
  intros Heq g1 g2 HP Hne ND HF m1 Hm1.
  assert (Hne2: g2 <> []) by (intros ->; apply Permutation_sym, Permutation_nil in HP; congruence).
  assert (HF2: Forall (fun kv => snd kv <> []) g2) by (eapply Permutation_Forall; eauto).
  apply (proj2 (grid_assigns K Val g1 Hne HF)) in Hm1.
  destruct (assigns_perm g1 g2 HP m1 Hm1) as (m2 & A2 & P2).
  exists m2. split; [now apply (proj2 (grid_assigns K Val g2 Hne2 HF2))|].
  intros k. apply lookup_perm; auto.
  assert (map fst m1 = map fst g1) as ->; [|exact ND].
  clear -Hm1. induction Hm1 as [|kv ent m g [H _] Hm IH]; simpl; congruence.
Qed.

Lemma grid_empty_last {K Val : Type} (grid : list (K * list Val)) k :
  parameter_grid (grid ++ [(k, [])]) = [].
Proof.
  rewrite grid_snoc. cbn [fst snd]. unfold make_arr. destruct (parameter_grid grid) as [|m ms]; [reflexivity|].
  simpl. induction ms as [|x xs IH]; simpl; auto.
Qed.
