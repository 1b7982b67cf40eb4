(* Proofs about LabelModel. *)
From Verif Require Import Common LabelModel.
Open Scope Z_scope.

(* ------------------------------------------------------------- bsearch *)
Lemma bsearch_spec f n : (forall h h', (h <= h')%nat -> (h' < n)%nat -> f h = true -> f h' = true) ->
  forall fuel i j, (i <= j)%nat -> (j <= n)%nat -> (j - i <= fuel)%nat ->
  let r := bsearch fuel f i j in
  (i <= r <= j)%nat /\ (forall h, (i <= h < r)%nat -> f h = false) /\ (forall h, (r <= h < j)%nat -> f h = true).
Proof.
  intros Hm. induction fuel as [|fuel IH]; intros i j Hij Hj Hf; cbn [bsearch].
  - repeat split; try lia; intros h Hh; lia.
  - destruct (Nat.ltb_spec i j) as [Hlt|Hge].
    + cbv zeta.
      assert (Hh: (i <= Nat.div (i + j) 2 < j)%nat).
      { pose proof (Nat.div_mod (i + j) 2 ltac:(lia)) as E. pose proof (Nat.mod_upper_bound (i + j) 2 ltac:(lia)). lia. }
      set (h0 := Nat.div (i + j) 2) in *. clearbody h0.
      destruct (f h0) eqn:E.
      * destruct (IH i h0) as (A & B & C); try lia. split; [lia|]. split; [exact B|].
        intros h Hh2. destruct (Nat.ltb_spec h h0); [apply C; lia|]. apply (Hm h0 h); auto; lia.
      * destruct (IH (S h0) j) as (A & B & C); try lia. split; [lia|]. split; [|exact C].
        intros h Hh2. destruct (Nat.leb_spec (S h0) h); [apply B; lia|].
        destruct (f h) eqn:E2; auto. assert (f h0 = true) by (apply (Hm h h0); auto; lia). congruence.
    + repeat split; try lia; intros h Hh; lia.
Qed.

Lemma sorted_nth_lt (a : list Z) : StronglySorted Z.lt a ->
  forall h h', (h < h')%nat -> (h' < length a)%nat -> nth h a 0 < nth h' a 0.
Proof.
  induction 1 as [|x l HS IH HF]; intros h h' H1 H2; cbn [length] in *; [lia|].
  destruct h' as [|h']; [lia|]. destruct h as [|h]; cbn [nth].
  - rewrite Forall_forall in HF. apply HF. apply nth_In. lia.
  - apply IH; lia.
Qed.

Lemma search_spec a x : StronglySorted Z.lt a ->
  let r := search_floats a x in
  (r <= length a)%nat /\ (forall h, (h < r)%nat -> nth h a 0 < x) /\
  (forall h, (r <= h < length a)%nat -> x <= nth h a 0).
Proof.
  intros HS. cbv zeta. unfold search_floats.
  destruct (bsearch_spec (fun h => x <=? nth h a 0) (length a)) with (fuel := length a) (i := 0%nat) (j := length a)
    as (A & B & C); try lia.
  - intros h h' H1 H2 H3. apply Z.leb_le in H3. apply Z.leb_le.
    destruct (Nat.eq_dec h h'); [subst; auto|]. pose proof (sorted_nth_lt a HS h h'). lia.
  - split; [lia|]. split.
    + intros h Hh. specialize (B h ltac:(lia)). apply Z.leb_gt in B. exact B.
    + intros h Hh. specialize (C h ltac:(lia)). apply Z.leb_le in C. exact C.
Qed.

(* the rank: how many classes are smaller *)
Definition rank (a : list Z) (x : Z) : nat := length (filter (fun c => c <? x) a).

Lemma search_rank a x : StronglySorted Z.lt a -> search_floats a x = rank a x.
Proof.
  intros HS. destruct (search_spec a x HS) as (A & B & C).
  set (r := search_floats a x) in *. clearbody r. unfold rank. clear HS.
  revert r A B C. induction a as [|y a IH]; intros r A B C; cbn [length filter] in *; [lia|].
  destruct r as [|r].
  - assert (Hy: x <= y) by (apply (C 0%nat); lia).
    destruct (Z.ltb_spec y x); [lia|]. apply IH; try lia.
    intros h Hh. apply (C (S h)). lia.
  - assert (Hy: y < x) by (apply (B 0%nat); lia).
    destruct (Z.ltb_spec y x); [|lia]. cbn [length]. f_equal. apply IH; try lia.
    + intros h Hh. apply (B (S h)). lia.
    + intros h Hh. apply (C (S h)). lia.
Qed.

Lemma search_found a x : StronglySorted Z.lt a -> In x a ->
  (search_floats a x < length a)%nat /\ nth (search_floats a x) a 0 = x.
Proof.
  intros HS Hin. destruct (search_spec a x HS) as (A & B & C).
  apply (In_nth a x 0) in Hin. destruct Hin as (n & Hn & E).
  set (r := search_floats a x) in *.
  assert (r <= n)%nat by (destruct (Nat.leb_spec r n); auto; specialize (B n ltac:(lia)); lia).
  split; [lia|].
  destruct (Nat.eq_dec r n) as [->|]; auto.
  pose proof (sorted_nth_lt a HS r n ltac:(lia) ltac:(lia)). specialize (C r ltac:(lia)). lia.
Qed.

Lemma shift_insert (a : list Z) x v pos : (pos <= length a)%nat ->
  upd (shift_right (a ++ [x]) pos (length a)) pos v = firstn pos a ++ v :: skipn pos a.
Proof.
  intros H. unfold shift_right.
  assert (E1: firstn (S pos) (a ++ [x]) = firstn pos a ++ [nth pos (a ++ [x]) 0]).
  { rewrite <- (firstn_skipn pos a) at 1. rewrite <- app_assoc, firstn_app.
    rewrite firstn_length_le by auto. replace (S pos - pos)%nat with 1%nat by lia.
    rewrite firstn_firstn. replace (Nat.min (S pos) pos) with pos by lia. f_equal.
    destruct (skipn pos a) as [|y ys] eqn:E; cbn.
    - assert (pos = length a). { apply (f_equal (@length Z)) in E. rewrite skipn_length in E. cbn in E. lia. }
      subst. rewrite app_nth2 by lia. now rewrite Nat.sub_diag.
    - rewrite app_nth1. 2:{ apply (f_equal (@length Z)) in E. rewrite skipn_length in E. cbn in E. lia. }
      assert (E2: nth_error (firstn pos a ++ skipn pos a) pos = Some y).
      { rewrite E, nth_error_app2; rewrite firstn_length_le by auto; [now rewrite Nat.sub_diag|lia]. }
      rewrite firstn_skipn in E2. erewrite nth_error_nth; eauto. }
  assert (E2: firstn (length a - pos) (skipn pos (a ++ [x])) = skipn pos a).
  { rewrite skipn_app. rewrite firstn_app, skipn_length.
    replace (length a - pos - (length a - pos))%nat with 0%nat by lia. cbn [firstn]. rewrite app_nil_r.
    apply firstn_all2. rewrite skipn_length. lia. }
  rewrite E1, E2. rewrite <- app_assoc.
  replace (upd (firstn pos a ++ [nth pos (a ++ [x]) 0] ++ skipn pos a) pos v)
    with (upd (firstn pos a ++ [nth pos (a ++ [x]) 0] ++ skipn pos a) (length (firstn pos a) + 0) v)
    by (f_equal; rewrite firstn_length_le; lia).
  rewrite upd_app_r. reflexivity.
Qed.

Lemma shift_nth (a : list Z) x pos : (pos <= length a)%nat ->
  nth pos (shift_right (a ++ [x]) pos (length a)) 0 = nth pos (a ++ [x]) 0.
Proof.
  intros H. unfold shift_right. rewrite app_nth1.
  - assert (Hl: (pos < length (firstn (S pos) (a ++ [x])))%nat) by (rewrite firstn_length, app_length; cbn [length]; lia).
    pose proof (app_nth1 (firstn (S pos) (a ++ [x])) (skipn (S pos) (a ++ [x])) 0 Hl) as E.
    rewrite firstn_skipn in E. now symmetry.
  - rewrite firstn_length, app_length. cbn [length]. lia.
Qed.

Definition insert_at (pos : nat) (v : Z) (a : list Z) := firstn pos a ++ v :: skipn pos a.

Lemma le_add_eq classes support v : length support = length classes -> StronglySorted Z.lt classes ->
  le_add (classes, support) v =
  if existsb (Z.eqb v) classes then
    (classes, upd support (rank classes v) (nth (rank classes v) support 0 + 1))
  else
    (insert_at (rank classes v) v classes,
     insert_at (rank classes v) (nth (rank classes v) (support ++ [0]) 0 + 1) support).
Proof.
  intros HL HS. unfold le_add. rewrite search_rank by auto.
  pose proof (search_spec classes v HS) as (A & B & C). rewrite search_rank in A, B, C by auto.
  destruct (existsb (Z.eqb v) classes) eqn:E.
  - apply existsb_exists in E. destruct E as (x & Hin & Hx). apply Z.eqb_eq in Hx. subst x.
    pose proof (search_found classes v HS Hin) as [H1 H2]. rewrite search_rank in H1, H2 by auto.
    destruct (Nat.ltb_spec (rank classes v) (length classes)); [|lia].
    rewrite H2, Z.eqb_refl. reflexivity.
  - assert (Hni: ~ In v classes).
    { intros Hin. assert (existsb (Z.eqb v) classes = true) by (apply existsb_exists; exists v; split; auto; apply Z.eqb_refl). congruence. }
    assert (Hc: (Nat.ltb (rank classes v) (length classes) && (nth (rank classes v) classes 0 =? v))%bool = false).
    { destruct (Nat.ltb_spec (rank classes v) (length classes)); auto. cbn [andb].
      apply Z.eqb_neq. intros Heq. apply Hni. rewrite <- Heq. now apply nth_In. }
    rewrite Hc. unfold insert_at. f_equal.
    + now apply shift_insert.
    + rewrite <- HL. rewrite shift_insert by lia. rewrite shift_nth by lia. reflexivity.
Qed.

Lemma sorted_app_iff (l1 l2 : list Z) : StronglySorted Z.lt (l1 ++ l2) <->
  StronglySorted Z.lt l1 /\ StronglySorted Z.lt l2 /\ (forall x y, In x l1 -> In y l2 -> x < y).
Proof.
  induction l1 as [|a l1 IH]; cbn [app].
  - split; [intros H; repeat split; auto; [constructor|contradiction]|tauto].
  - split.
    + intros H. apply StronglySorted_inv in H. destruct H as [H HF]. apply IH in H. destruct H as (H1 & H2 & H3).
      apply Forall_app in HF. destruct HF as [F1 F2]. repeat split; auto; [now constructor|].
      intros x y [->|Hx] Hy; [|auto]. rewrite Forall_forall in F2; auto.
    + intros (H1 & H2 & H3). apply StronglySorted_inv in H1. destruct H1 as [H1 F1]. constructor.
      * apply IH. repeat split; auto. intros; apply H3; simpl; auto.
      * apply Forall_app. split; auto. apply Forall_forall. intros; apply H3; simpl; auto.
Qed.

Lemma insert_sorted classes v : StronglySorted Z.lt classes -> ~ In v classes ->
  StronglySorted Z.lt (insert_at (rank classes v) v classes).
Proof.
  intros HS Hni. pose proof (search_spec classes v HS) as (A & B & C). rewrite search_rank in A, B, C by auto.
  set (r := rank classes v) in *. unfold insert_at.
  pose proof HS as HS'. rewrite <- (firstn_skipn r classes) in HS'. apply sorted_app_iff in HS'.
  destruct HS' as (S1 & S2 & S3).
  assert (Hlo: forall x, In x (firstn r classes) -> x < v).
  { intros x Hx. apply (In_nth _ _ 0) in Hx. destruct Hx as (n & Hn & <-).
    rewrite firstn_length_le in Hn by auto.
    specialize (B n Hn).
    pose proof (app_nth1 (firstn r classes) (skipn r classes) 0 (n := n)) as E.
    rewrite firstn_skipn, firstn_length_le in E by auto. specialize (E Hn). lia. }
  assert (Hhi: forall x, In x (skipn r classes) -> v < x).
  { intros x Hx. assert (x <> v) by (intros ->; apply Hni; rewrite <- (firstn_skipn r classes); apply in_or_app; auto).
    apply (In_nth _ _ 0) in Hx. destruct Hx as (n & Hn & <-). rewrite skipn_length in Hn.
    specialize (C (r + n)%nat ltac:(lia)).
    pose proof (app_nth2_plus (firstn r classes) (skipn r classes) 0 n) as E.
    rewrite firstn_skipn, firstn_length_le in E by auto. lia. }
  apply sorted_app_iff. split; auto. split.
  - constructor; auto. apply Forall_forall. auto.
  - intros x y Hx [<-|Hy]; auto.
Qed.

Lemma insert_at_In pos v a x : In x (insert_at pos v a) <-> x = v \/ In x a.
Proof.
  unfold insert_at. rewrite in_app_iff. cbn [In].
  rewrite <- (firstn_skipn pos a) at 3. rewrite in_app_iff. intuition.
Qed.
Lemma insert_at_length pos v a : (pos <= length a)%nat -> length (insert_at pos v a) = S (length a).
Proof. intros H. unfold insert_at. rewrite app_length. cbn. rewrite firstn_length_le, skipn_length by auto. lia. Qed.

Lemma rank_le a x : (rank a x <= length a)%nat.
Proof. unfold rank. induction a as [|y a IH]; cbn; [lia|]. destruct (y <? x); cbn; lia. Qed.

Lemma existsb_eqb_In v l : existsb (Z.eqb v) l = true <-> In v l.
Proof.
  rewrite existsb_exists. split.
  - intros (x & H & E). apply Z.eqb_eq in E. now subst.
  - intros H. exists v. split; auto. apply Z.eqb_refl.
Qed.

(* invariant of a column: sorted classes, right class set, one support each *)
Definition le_inv (labels : list Z) (st : le_col) : Prop :=
  StronglySorted Z.lt (fst st) /\ (forall v, In v (fst st) <-> In v labels) /\ length (snd st) = length (fst st).

Lemma le_add_inv labels st v : le_inv labels st -> le_inv (labels ++ [v]) (le_add st v).
Proof.
  destruct st as [c s]. intros (HS & Hin & HL). cbn [fst snd] in *. rewrite le_add_eq by auto.
  destruct (existsb (Z.eqb v) c) eqn:E.
  - apply existsb_eqb_In in E. split; [exact HS|]. cbn [fst snd]. split; [|now rewrite upd_length].
    intros x. rewrite Hin, in_app_iff. cbn. split; [tauto|]. intros [?|[<-|[]]]; auto. now apply Hin.
  - assert (Hni: ~ In v c) by (rewrite <- existsb_eqb_In, E; discriminate).
    split; cbn [fst snd]; [now apply insert_sorted|]. split.
    + intros x. rewrite insert_at_In, Hin, in_app_iff. cbn. intuition.
    + pose proof (rank_le c v). rewrite !insert_at_length by lia. lia.
Qed.

Lemma le_adds_inv vs : forall labels st, le_inv labels st -> le_inv (labels ++ vs) (fold_left le_add vs st).
Proof.
  induction vs as [|v vs IH]; intros labels st H; cbn [fold_left]; [now rewrite app_nil_r|].
  replace (labels ++ v :: vs) with ((labels ++ [v]) ++ vs) by (now rewrite <- app_assoc).
  apply IH. now apply le_add_inv.
Qed.

Lemma le_inv_nil : le_inv [] ([], []).
Proof. repeat split; cbn; auto; constructor. Qed.

(* matrix level *)
Definition le_run (ncols : nat) (batches : list (list (list Z))) (st : list le_col) : list le_col :=
  fold_left (fun st rows => le_partial_fit st ncols rows) batches st.

Lemma le_partial_fit_nth st ncols rows j : length st = ncols ->
  nth_error (le_partial_fit st ncols rows) j =
  match nth_error st j with Some s => Some (fold_left le_add (column j rows) s) | None => None end.
Proof.
  intros HL. unfold le_partial_fit. rewrite <- HL, Nat.eqb_refl.
  rewrite nth_error_map.
  assert (E: nth_error (combine (seq 0 (length st)) st) j = match nth_error st j with Some s => Some (j, s) | None => None end).
  { clear. assert (forall k, nth_error (combine (seq k (length st)) st) j = match nth_error st j with Some s => Some ((k + j)%nat, s) | None => None end).
    { revert j. induction st as [|s st IH]; intros j k; cbn.
      - destruct j; reflexivity.
      - destruct j; cbn; [f_equal; f_equal; lia|]. rewrite IH. destruct (nth_error st j); auto. f_equal. f_equal. lia. }
    apply (H 0%nat). }
  rewrite E. destruct (nth_error st j); reflexivity.
Qed.

Lemma le_partial_fit_length st ncols rows : length (le_partial_fit st ncols rows) = ncols.
Proof.
  unfold le_partial_fit. rewrite map_length, combine_length, seq_length.
  destruct (Nat.eqb_spec (length st) ncols) as [->|]; [lia|]. rewrite repeat_length. lia.
Qed.

Lemma column_app j r1 r2 : column j (r1 ++ r2) = column j r1 ++ column j r2.
Proof. apply map_app. Qed.

Lemma le_run_nth ncols batches : forall st j, length st = ncols ->
  nth_error (le_run ncols batches st) j =
  match nth_error st j with Some s => Some (fold_left le_add (column j (concat batches)) s) | None => None end.
Proof.
  induction batches as [|b bs IH]; intros st j HL; cbn [le_run fold_left concat].
  - destruct (nth_error st j); reflexivity.
  - unfold le_run in IH. rewrite IH by apply le_partial_fit_length. rewrite le_partial_fit_nth by auto.
    destruct (nth_error st j); auto. now rewrite column_app, fold_left_app.
Qed.

Lemma le_history ncols rows0 batches j : (j < ncols)%nat ->
  nth_error (le_run ncols batches (le_fit ncols rows0)) j =
  Some (fold_left le_add (column j (rows0 ++ concat batches)) ([], [])).
Proof.
  intros Hj. rewrite le_run_nth by apply le_partial_fit_length. unfold le_fit.
  rewrite le_partial_fit_nth by apply repeat_length.
  rewrite nth_error_repeat by auto. now rewrite column_app, fold_left_app.
Qed.

Lemma sorted_lt_unique (l1 l2 : list Z) : StronglySorted Z.lt l1 -> StronglySorted Z.lt l2 ->
  (forall x, In x l1 <-> In x l2) -> l1 = l2.
Proof.
  intros H. revert l2. induction H as [|a l1 H IH HF]; intros l2 H2 Hx.
  - destruct l2 as [|b l2]; auto. exfalso. apply (Hx b). simpl; auto.
  - destruct H2 as [|b l2 H2 HF2].
    + exfalso. apply (Hx a). simpl; auto.
    + rewrite Forall_forall in HF, HF2.
      assert (a = b).
      { assert (In a (b :: l2)) as [|Ha] by (apply Hx; simpl; auto); [auto|].
        assert (In b (a :: l1)) as [|Hb] by (apply Hx; simpl; auto); [auto|].
        specialize (HF2 a Ha). specialize (HF b Hb). lia. }
      subst b. f_equal. apply IH; auto. intros x. split; intros Hin.
      * assert (In x (a :: l2)) as [->|] by (apply Hx; simpl; auto); auto. specialize (HF x Hin). lia.
      * assert (In x (a :: l1)) as [->|] by (apply Hx; simpl; auto); auto. specialize (HF2 x Hin). lia.
Qed.

Lemma le_classes_spec ncols rows0 batches j : (j < ncols)%nat ->
  exists classes support,
    nth_error (le_run ncols batches (le_fit ncols rows0)) j = Some (classes, support) /\
    StronglySorted Z.lt classes /\
    (forall v, In v classes <-> In v (column j (rows0 ++ concat batches))) /\
    length support = length classes.
Proof.
  intros Hj. rewrite le_history by auto.
  pose proof (le_adds_inv (column j (rows0 ++ concat batches)) [] ([], []) le_inv_nil) as (A & B & C).
  destruct (fold_left le_add _ _) as [c s]. exists c, s. auto.
Qed.

Lemma column_In_perm j r1 r2 : Permutation r1 r2 -> Permutation (column j r1) (column j r2).
Proof. apply Permutation_map. Qed.

Lemma le_classes_order ncols rows0 batches rows0' batches' j c s c' s' : (j < ncols)%nat ->
  Permutation (rows0 ++ concat batches) (rows0' ++ concat batches') ->
  nth_error (le_run ncols batches (le_fit ncols rows0)) j = Some (c, s) ->
  nth_error (le_run ncols batches' (le_fit ncols rows0')) j = Some (c', s') -> c = c'.
Proof.
  intros Hj HP H1 H2.
  destruct (le_classes_spec ncols rows0 batches j Hj) as (c1 & s1 & E1 & A1 & B1 & _).
  destruct (le_classes_spec ncols rows0' batches' j Hj) as (c2 & s2 & E2 & A2 & B2 & _).
  assert (c1 = c /\ c2 = c') as [-> ->] by (split; congruence).
  apply sorted_lt_unique; auto. intros x. rewrite B1, B2.
  split; apply Permutation_in; [|symmetry]; now apply column_In_perm.
Qed.

(* Support is right when new labels only ever appear above all earlier ones. *)
Definition news_ascend (labels : list Z) : Prop :=
  forall l1 v l2, labels = l1 ++ v :: l2 -> ~ In v l1 -> forall x, In x l1 -> x < v.

Definition count (l : list Z) (v : Z) : Z := Z.of_nat (count_occ Z.eq_dec l v).

Lemma news_ascend_app l1 l2 : news_ascend (l1 ++ l2) -> news_ascend l1.
Proof. intros H a v b E. apply (H a v (b ++ l2)). rewrite E, <- app_assoc. reflexivity. Qed.

Lemma rank_all a v : (forall x, In x a -> x < v) -> rank a v = length a.
Proof.
  unfold rank. induction a as [|y a IH]; intros H; cbn; auto.
  destruct (Z.ltb_spec y v); [|specialize (H y); cbn in H; lia]. cbn. rewrite IH; auto. intros; apply H; cbn; auto.
Qed.

Lemma support_ascend labels : news_ascend labels ->
  let st := fold_left le_add labels ([], []) in snd st = map (count labels) (fst st).
Proof.
  induction labels as [|v labels IH] using rev_ind; intros HN; [reflexivity|].
  rewrite fold_left_app. cbn [fold_left].
  pose proof (le_adds_inv labels [] ([], []) le_inv_nil) as (A & B & C).
  specialize (IH (news_ascend_app _ _ HN)). cbv zeta in *.
  destruct (fold_left le_add labels ([], [])) as [c s]. cbn [fst snd app] in *.
  rewrite le_add_eq by auto.
  assert (Hcount: forall x, count (labels ++ [v]) x = count labels x + (if Z.eq_dec v x then 1 else 0)).
  { intros x. unfold count. rewrite count_occ_app. cbn. destruct (Z.eq_dec v x); lia. }
  destruct (existsb (Z.eqb v) c) eqn:E; cbn [fst snd].
  - apply existsb_eqb_In in E. destruct (search_found c v A E) as [H1 H2]. rewrite search_rank in H1, H2 by auto.
    apply list_ext. intros i. rewrite nth_error_map.
    destruct (Nat.eq_dec i (rank c v)) as [->|Hne].
    + rewrite nth_error_upd_same by (rewrite C; exact H1).
      rewrite (nth_error_nth' c 0) by auto. cbn. f_equal. rewrite H2, Hcount.
      destruct (Z.eq_dec v v); [|congruence]. f_equal.
      rewrite IH. rewrite nth_indep with (d' := count labels 0) by (now rewrite map_length).
      rewrite map_nth, H2. reflexivity.
    + rewrite nth_error_upd_other by auto. rewrite IH, nth_error_map.
      destruct (nth_error c i) as [x|] eqn:Ei; auto. cbn. f_equal. rewrite Hcount.
      destruct (Z.eq_dec v x) as [<-|]; [|lia]. exfalso.
      assert (Hi: (i < length c)%nat) by (apply nth_error_Some; congruence).
      apply (nth_error_nth c i 0) in Ei.
      destruct (Nat.lt_total i (rank c v)) as [Hl|[?|Hl]]; auto.
      * pose proof (sorted_nth_lt c A i (rank c v) Hl H1). lia.
      * pose proof (sorted_nth_lt c A (rank c v) i Hl Hi). lia.
  - assert (Hni: ~ In v labels) by (rewrite <- B, <- existsb_eqb_In, E; discriminate).
    assert (Hall: forall x, In x c -> x < v).
    { intros x Hx. apply B in Hx. apply (HN labels v []); auto. }
    rewrite (rank_all c v Hall). unfold insert_at.
    rewrite !firstn_all2, !skipn_all2 by lia.
    rewrite app_nth2 by lia. rewrite C, Nat.sub_diag. cbn [nth].
    rewrite map_app. cbn [map]. f_equal.
    + rewrite IH. apply map_ext_in. intros x Hx. rewrite Hcount. destruct (Z.eq_dec v x); [|lia].
      subst. specialize (Hall x Hx). lia.
    + rewrite Hcount. destruct (Z.eq_dec v v); [|congruence].
      unfold count. rewrite (proj1 (count_occ_not_In Z.eq_dec labels v) Hni). reflexivity.
Qed.

(* --------------------------------------------------- encode and decode *)
Lemma le_encode_spec c v : StronglySorted Z.lt c ->
  le_encode c v = if existsb (fun x => v <=? x) c then Z.of_nat (rank c v) else -1.
Proof.
  intros HS. unfold le_encode. rewrite search_rank by auto.
  pose proof (search_spec c v HS) as (A & B & C). rewrite search_rank in A, B, C by auto.
  destruct (existsb (fun x => v <=? x) c) eqn:E.
  - apply existsb_exists in E. destruct E as (x & Hin & Hx). apply Z.leb_le in Hx.
    apply (In_nth c x 0) in Hin. destruct Hin as (n & Hn & E).
    destruct (Nat.leb_spec (length c) (rank c v)); auto.
    specialize (B n ltac:(lia)). lia.
  - destruct (Nat.leb_spec (length c) (rank c v)); auto. exfalso.
    assert (existsb (fun x => v <=? x) c = true); [|congruence].
    apply existsb_exists. exists (nth (rank c v) c 0). split; [now apply nth_In|].
    apply Z.leb_le. apply C. lia.
Qed.

Lemma le_encode_seen c v : StronglySorted Z.lt c -> In v c ->
  le_encode c v = Z.of_nat (rank c v) /\ (rank c v < length c)%nat /\ nth_error c (rank c v) = Some v.
Proof.
  intros HS Hin. rewrite le_encode_spec by auto.
  assert (existsb (fun x => v <=? x) c = true) as ->.
  { apply existsb_exists. exists v. split; auto. apply Z.leb_refl. }
  destruct (search_found c v HS Hin) as [H1 H2]. rewrite search_rank in H1, H2 by auto.
  split; auto. split; auto. rewrite (nth_error_nth' c 0) by auto. now rewrite H2.
Qed.

Lemma le_row_roundtrip (st : list le_col) (row : list Z) :
  Forall2 (fun s v => StronglySorted Z.lt (fst s) /\ In v (fst s)) st row ->
  exists codes, le_transform_row st row = Some codes /\
    codes = map (fun p => Z.of_nat (rank (fst (fst p)) (snd p))) (combine st row) /\
    Forall2 (fun s code => 0 <= code < Z.of_nat (length (fst s))) st codes /\
    le_inverse_row st codes = Some (map Some row).
Proof.
  induction 1 as [|[c s] v st row [HS Hin] HF IH]; cbn [le_transform_row combine map].
  - exists []. repeat split; constructor.
  - destruct IH as (codes & E1 & E2 & E3 & E4). cbn [fst] in *.
    destruct (le_encode_seen c v HS Hin) as (Ee & Hr & En).
    rewrite E1. eexists. split; [reflexivity|]. split; [cbn [fst snd]; rewrite <- E2, Ee; reflexivity|].
    rewrite Ee. split; [constructor; auto; cbn [fst]; lia|].
    cbn [le_inverse_row].
    destruct (Z.ltb_spec (Z.of_nat (rank c v)) 0); [lia|].
    destruct (Z.ltb_spec (Z.of_nat (length c)) (Z.of_nat (rank c v))); [lia|].
    cbn [orb]. rewrite Nat2Z.id, En, E4. reflexivity.
Qed.

Lemma le_fit_run_Forall2 ncols rows0 batches row :
  In row (rows0 ++ concat batches) -> length row = ncols ->
  Forall2 (fun s v => StronglySorted Z.lt (fst s) /\ In v (fst s)) (le_run ncols batches (le_fit ncols rows0)) row.
Proof.
  intros Hin HL. set (st := le_run ncols batches (le_fit ncols rows0)).
  assert (HLs: length st = ncols).
  { unfold st. assert (forall l s, length s = ncols -> length (le_run ncols l s) = ncols).
    { induction l as [|b l IH]; intros s Hs; cbn; auto. apply IH. apply le_partial_fit_length. }
    apply H. apply le_partial_fit_length. }
  assert (H: forall j s v, nth_error st j = Some s -> nth_error row j = Some v -> StronglySorted Z.lt (fst s) /\ In v (fst s)).
  { intros j s v Es Ev. assert (Hj: (j < ncols)%nat) by (rewrite <- HL; apply nth_error_Some; congruence).
    destruct (le_classes_spec ncols rows0 batches j Hj) as (c & sup & E & HS & Hi & _).
    unfold st in Es. rewrite E in Es. injection Es as <-. cbn [fst]. split; auto. apply Hi.
    unfold column. apply in_map_iff. exists row. split; auto. now apply nth_error_nth. }
  clearbody st. clear Hin. revert row ncols HL HLs H. induction st as [|s st IH]; intros [|v row] ncols HL HLs H; cbn in *; try lia; [constructor|].
  constructor.
  - apply (H 0%nat s v); reflexivity.
  - apply (IH row (length row)); auto; [lia|]. intros j. apply (H (S j)).
Qed.

(* ------------------------------------------------------------- lb_classes *)
Lemma ins_perm x l : Permutation (ins x l) (x :: l).
Proof.
  induction l as [|y l IH]; cbn [ins]; [reflexivity|]. destruct (x <=? y); [reflexivity|].
  rewrite IH. apply perm_swap.
Qed.
Lemma isort_perm l : Permutation (isort l) l.
Proof. induction l as [|x l IH]; cbn [isort fold_right]; [reflexivity|]. rewrite ins_perm. now constructor. Qed.
Lemma ins_sorted x l : StronglySorted Z.le l -> StronglySorted Z.le (ins x l).
Proof.
  induction 1 as [|y l HS IH HF]; cbn [ins]; [repeat constructor|].
  destruct (Z.leb_spec x y).
  - constructor; [now constructor|]. constructor; auto. eapply Forall_impl; [|exact HF]. intros; lia.
  - constructor; auto. apply Forall_forall. intros z Hz. apply (Permutation_in _ (ins_perm x l)) in Hz.
    destruct Hz as [<-|Hz]; [lia|]. rewrite Forall_forall in HF. auto.
Qed.
Lemma isort_sorted l : StronglySorted Z.le (isort l).
Proof. induction l as [|x l IH]; cbn [isort fold_right]; [constructor|]. now apply ins_sorted. Qed.

Lemma sorted_le_NoDup_lt l : StronglySorted Z.le l -> NoDup l -> StronglySorted Z.lt l.
Proof.
  induction 1 as [|y l HS IH HF]; intros ND; [constructor|].
  apply NoDup_cons_iff in ND. destruct ND as [Hn ND]. constructor; auto.
  rewrite Forall_forall in *. intros x Hx. specialize (HF x Hx).
  assert (x <> y) by (intros ->; auto). lia.
Qed.
Lemma sorted_lt_NoDup l : StronglySorted Z.lt l -> NoDup l.
Proof.
  induction 1 as [|y l HS IH HF]; constructor; auto. intros Hin. rewrite Forall_forall in HF.
  specialize (HF y Hin). lia.
Qed.

Lemma first_seen_spec l : NoDup (first_seen l) /\ forall x, In x (first_seen l) <-> In x l.
Proof.
  unfold first_seen.
  assert (H: forall acc, NoDup acc -> let r := fold_left (fun acc v => if existsb (Z.eqb v) acc then acc else v :: acc) l acc in
    NoDup r /\ forall x, In x r <-> In x acc \/ In x l).
  { induction l as [|v l IH]; intros acc ND; cbn [fold_left].
    - split; auto. intros x. cbn. tauto.
    - destruct (existsb (Z.eqb v) acc) eqn:E.
      + destruct (IH acc ND) as [A B]. split; auto. intros x. rewrite B. cbn.
        apply existsb_eqb_In in E. intuition. subst. auto.
      + assert (~ In v acc) by (rewrite <- existsb_eqb_In, E; discriminate).
        destruct (IH (v :: acc)) as [A B]; [constructor; auto|]. split; auto. intros x. rewrite B. cbn. tauto. }
  destruct (H [] (NoDup_nil _)) as [A B]. split; [now apply NoDup_rev|].
  intros x. rewrite <- in_rev, B. cbn. tauto.
Qed.

Lemma lb_classes_spec l : StronglySorted Z.lt (lb_classes l) /\ forall x, In x (lb_classes l) <-> In x l.
Proof.
  destruct (first_seen_spec l) as [A B]. unfold lb_classes. split.
  - apply sorted_le_NoDup_lt; [apply isort_sorted|].
    eapply Permutation_NoDup; [symmetry; apply isort_perm|auto].
  - intros x. rewrite <- B. split; apply Permutation_in; [|symmetry]; apply isort_perm.
Qed.

(* ------------------------------------------------------------ class_index *)
Lemma map_index_spec v c : NoDup c -> forall i acc,
  (In v c -> exists k, map_index v c i acc = Some (i + k)%nat /\ nth_error c k = Some v) /\
  (~ In v c -> map_index v c i acc = acc).
Proof.
  induction 1 as [|x c Hn ND IH]; intros i acc; cbn [map_index].
  - split; [intros []|auto].
  - destruct (Z.eqb_spec x v) as [->|Hne].
    + split; [|cbn; tauto]. intros _. exists 0%nat.
      rewrite (proj2 (IH (S i) (Some i))) by auto. split; [f_equal; lia|reflexivity].
    + split.
      * intros [?|Hin]; [congruence|]. destruct (proj1 (IH (S i) acc) Hin) as (k & E & En).
        exists (S k). rewrite E. split; [f_equal; lia|auto].
      * intros Hni. apply (IH (S i) acc). cbn in Hni. tauto.
Qed.
Lemma class_index_in v c : NoDup c -> In v c -> exists k, class_index v c = Some k /\ nth_error c k = Some v.
Proof. intros ND Hin. apply (proj1 (map_index_spec v c ND 0%nat None) Hin). Qed.
Lemma class_index_out v c : NoDup c -> ~ In v c -> class_index v c = None.
Proof. intros ND Hin. apply (proj2 (map_index_spec v c ND 0%nat None) Hin). Qed.

(* the one-hot block of label v over classes c *)
Definition hot (pos : Z) (c : list Z) (v : Z) : list Z := map (fun x => if x =? v then pos else 0) c.

Lemma hot_upd pos c v k : NoDup c -> nth_error c k = Some v -> upd (repeat 0 (length c)) k pos = hot pos c v.
Proof.
  intros ND. revert k. induction ND as [|x c Hn ND IH]; intros [|k] E; cbn in *; try discriminate.
  - injection E as ->. rewrite Z.eqb_refl. f_equal.
    clear -Hn. induction c as [|y c IH]; cbn in *; auto. destruct (Z.eqb_spec y v); [tauto|]. f_equal. apply IH. tauto.
  - destruct (Z.eqb_spec x v) as [->|]; [exfalso; apply Hn; eapply nth_error_In; eauto|]. f_equal. now apply IH.
Qed.
Lemma hot_out pos c v : ~ In v c -> hot pos c v = repeat 0 (length c).
Proof.
  induction c as [|x c IH]; intros H; cbn in *; auto. destruct (Z.eqb_spec x v); [tauto|]. f_equal. apply IH. tauto.
Qed.

Lemma firstn_hot_app pos c v r : firstn (length c) (hot pos c v ++ r) = hot pos c v.
Proof.
  assert (length (hot pos c v) = length c) by (unfold hot; now rewrite map_length).
  rewrite firstn_app, H, Nat.sub_diag. cbn [firstn]. rewrite app_nil_r. apply firstn_all2. lia.
Qed.

Lemma max_idx_from_zero l i best bv : 0 < bv -> (forall x, In x l -> x <= bv) -> max_idx_from l i best bv = best.
Proof.
  revert i. induction l as [|x l IH]; intros i Hb H; cbn [max_idx_from]; auto.
  destruct (Z.ltb_spec bv x); [specialize (H x); cbn in H; lia|]. apply IH; auto. intros; apply H; cbn; auto.
Qed.
Lemma max_idx_from_hot pos c v k : 0 < pos -> NoDup c -> nth_error c k = Some v ->
  forall i best, max_idx_from (hot pos c v) i best 0 = (i + k)%nat.
Proof.
  intros Hp ND. revert k. induction ND as [|x c Hn ND IH]; intros [|k] E i best; cbn in E; try discriminate.
  - injection E as ->. cbn [hot map max_idx_from]. rewrite Z.eqb_refl. destruct (Z.ltb_spec 0 pos); [|lia].
    rewrite max_idx_from_zero; [lia|auto|].
    intros y Hy. apply in_map_iff in Hy. destruct Hy as (z & <- & _). destruct (z =? v); lia.
  - cbn [hot map max_idx_from]. destruct (Z.eqb_spec x v) as [->|]; [exfalso; apply Hn; eapply nth_error_In; eauto|].
    cbn. fold (hot pos c v). rewrite IH with (k := k); auto. lia.
Qed.
Lemma max_idx_hot pos c v k : 0 < pos -> NoDup c -> nth_error c k = Some v -> max_idx (hot pos c v) = Some k.
Proof.
  intros Hp ND E. destruct c as [|x c]; [destruct k; discriminate|]. cbn [hot map max_idx]. f_equal.
  apply NoDup_cons_iff in ND. destruct ND as [Hn ND]. destruct (Z.eqb_spec x v) as [->|Hne].
  - destruct k as [|k]; [|cbn in E; exfalso; apply Hn; eapply nth_error_In; eauto].
    apply max_idx_from_zero; auto. intros y Hy. apply in_map_iff in Hy. destruct Hy as (z & <- & _). destruct (z =? v); lia.
  - destruct k as [|k]; cbn in E; [congruence|]. rewrite (max_idx_from_hot pos c v k); auto.
Qed.

Lemma repeat_plus {A} (x : A) n m : repeat x (n + m) = repeat x n ++ repeat x m.
Proof. induction n; cbn; congruence. Qed.

(* block written by LabelBinarizer for any label *)
Definition lb_block (neg pos : Z) (c : list Z) (v : Z) : list Z :=
  if existsb (Z.eqb v) c then hot pos c v else upd (repeat 0 (length c)) 0 neg.

Lemma lb_row_loop_spec neg pos row : forall cls pre,
  (length row <= length cls)%nat -> Forall (fun c => NoDup c /\ c <> []) cls ->
  lb_row_loop neg pos cls row (length pre) (pre ++ repeat 0 (n_outputs cls)) =
  Some (pre ++ concat (map (fun p => lb_block neg pos (fst p) (snd p)) (combine cls row)) ++
        repeat 0 (n_outputs (skipn (length row) cls))).
Proof.
  induction row as [|v row IH]; intros cls pre HL HF; cbn [lb_row_loop].
  - destruct cls; reflexivity.
  - destruct cls as [|c cls]; cbn [length] in HL; [lia|].
    apply Forall_cons_iff in HF. destruct HF as [[ND Hne] HF].
    cbn [lb_row_loop]. cbv zeta.
    set (w := match class_index v c with Some k => ((length pre + k)%nat, pos) | None => (length pre, neg) end).
    assert (Hw: exists k z, w = ((length pre + k)%nat, z) /\ (k < length c)%nat /\ upd (repeat 0 (length c)) k z = lb_block neg pos c v).
    { unfold w, lb_block. destruct (existsb (Z.eqb v) c) eqn:E.
      - apply existsb_eqb_In in E. destruct (class_index_in v c ND E) as (k & Ek & En). rewrite Ek.
        exists k, pos. split; auto. split; [apply nth_error_Some; congruence|]. now apply hot_upd.
      - rewrite class_index_out; auto. 2:{ rewrite <- existsb_eqb_In, E. discriminate. }
        exists 0%nat, neg. split; [f_equal; lia|]. split; [destruct c; cbn; [congruence|lia]|reflexivity]. }
    destruct Hw as (k & z & -> & Hk & Hb). cbn [fst snd].
    destruct (Nat.ltb_spec (length pre + k) (length (pre ++ repeat 0 (n_outputs (c :: cls))))) as [_|Hbad].
    2:{ rewrite app_length, repeat_length in Hbad. cbn [n_outputs fold_right] in Hbad. lia. }
    cbn [n_outputs fold_right]. rewrite upd_app_r, repeat_plus, upd_app_l by (now rewrite repeat_length).
    rewrite Hb. specialize (IH cls (pre ++ lb_block neg pos c v)).
    assert (Hbl: length (lb_block neg pos c v) = length c).
    { rewrite <- Hb, upd_length, repeat_length. reflexivity. }
    rewrite app_length, Hbl, <- app_assoc in IH. fold (n_outputs cls). rewrite IH by (auto; lia).
    cbn [combine map concat fst snd length skipn]. now rewrite <- !app_assoc.
Qed.

Lemma lb_transform_row_spec m row : length row = length (lb_cls m) ->
  Forall (fun c => NoDup c /\ c <> []) (lb_cls m) ->
  lb_transform_row m row =
  Some (concat (map (fun p => lb_block (lb_neg m) (lb_pos m) (fst p) (snd p)) (combine (lb_cls m) row))).
Proof.
  intros HL HF. unfold lb_transform_row.
  pose proof (lb_row_loop_spec (lb_neg m) (lb_pos m) row (lb_cls m) [] ltac:(lia) HF) as H.
  cbn [length app] in H. rewrite H. rewrite HL, skipn_all. cbn. now rewrite app_nil_r.
Qed.

(* --------------------------------------------------- inverse, flat data *)
Lemma omap_length {A B} (f : A -> option B) l r : omap f l = Some r -> length r = length l.
Proof.
  revert r. induction l as [|x l IH]; intros r H; cbn in *; [now injection H as <-|].
  destruct (f x); [|discriminate]. destruct (omap f l); [|discriminate]. injection H as <-. cbn. f_equal. auto.
Qed.
Lemma omap_Some {A B} (f : A -> option B) (g : A -> B) l : (forall x, In x l -> f x = Some (g x)) -> omap f l = Some (map g l).
Proof.
  induction l as [|x l IH]; intros H; cbn; auto. rewrite (H x) by (cbn; auto). rewrite IH; auto. intros; apply H; cbn; auto.
Qed.

Lemma concat_skip {A} (rows : list (list A)) w : Forall (fun r => length r = w) rows ->
  forall i, (i <= length rows)%nat -> skipn (i * w) (concat rows) = concat (skipn i rows).
Proof.
  induction 1 as [|r rows Hr HF IH]; intros i Hi; cbn [length] in Hi.
  - replace i with 0%nat by lia. reflexivity.
  - destruct i as [|i]; [reflexivity|]. cbn [concat skipn]. rewrite skipn_app.
    rewrite skipn_all2 by lia. cbn [app]. replace (S i * w - length r)%nat with (i * w)%nat by lia. apply IH. lia.
Qed.
Lemma concat_len {A} (rows : list (list A)) w : Forall (fun r => length r = w) rows -> length (concat rows) = (length rows * w)%nat.
Proof. induction 1 as [|r rows Hr HF IH]; cbn; auto. rewrite app_length. lia. Qed.

Lemma slice_concat rows w i base n r : Forall (fun r => length r = w) rows ->
  nth_error rows i = Some r -> (base + n <= w)%nat ->
  slice (concat rows) (i * w + base) (i * w + base + n) = Some (firstn n (skipn base r)).
Proof.
  intros HF E Hb. assert (Hi: (i < length rows)%nat) by (apply nth_error_Some; congruence).
  assert (Hr: length r = w) by (rewrite Forall_forall in HF; apply HF; eapply nth_error_In; eauto).
  unfold slice. rewrite (concat_len rows w HF).
  destruct (Nat.leb_spec (i * w + base + n) (length rows * w)); [|nia]. f_equal.
  replace (i * w + base + n - (i * w + base))%nat with n by lia.
  replace (skipn (i * w + base) (concat rows)) with (skipn base (skipn (i * w) (concat rows))).
  2:{ rewrite skipn_skipn. reflexivity. }
  rewrite (concat_skip rows w HF) by lia.
  destruct (nth_error_split _ _ E) as (l1 & l2 & -> & Hl).
  rewrite skipn_app, <- Hl, skipn_all, Nat.sub_diag. cbn [skipn app concat].
  rewrite skipn_app, firstn_app. rewrite skipn_length.
  replace (n - (length r - base))%nat with 0%nat by lia. cbn [firstn]. now rewrite app_nil_r.
Qed.

Lemma lb_inv_rows_spec rows w nout j base c dec :
  Forall (fun r => length r = w) rows -> (base + length c <= w)%nat -> (j < nout)%nat ->
  (forall i r, nth_error rows i = Some r -> exists k, max_idx (firstn (length c) (skipn base r)) = Some k /\ nth_error c k = Some (dec i)) ->
  forall cnt i yo, (i + cnt = length rows)%nat -> length yo = (length rows * nout)%nat ->
  lb_inv_rows cnt i w nout j base c (concat rows) yo =
  Some (fold_left (fun yo i => upd yo (i * nout + j) (dec i)) (seq i cnt) yo).
Proof.
  intros HF Hb Hj Hdec. induction cnt as [|cnt IH]; intros i yo Hi Hyo; cbn [lb_inv_rows seq fold_left]; auto.
  destruct (nth_error rows i) as [r|] eqn:E. 2:{ apply nth_error_None in E. lia. }
  rewrite (slice_concat rows w i base (length c) r HF E Hb).
  destruct (Hdec i r E) as (k & -> & ->).
  destruct (Nat.ltb_spec (i * nout + j) (length yo)) as [_|Hbad]; [|nia].
  apply IH; [lia|]. now rewrite upd_length.
Qed.

Lemma fold_upd_length {A} (f : nat -> nat) (g : nat -> A) is : forall yo, length (fold_left (fun yo i => upd yo (f i) (g i)) is yo) = length yo.
Proof. induction is as [|i is IH]; intros yo; cbn; auto. rewrite IH. apply upd_length. Qed.
Lemma fold_upd_other {A} (f : nat -> nat) (g : nat -> A) p is : (forall i, In i is -> f i <> p) ->
  forall yo, nth_error (fold_left (fun yo i => upd yo (f i) (g i)) is yo) p = nth_error yo p.
Proof.
  induction is as [|i is IH]; intros H yo; cbn; auto. rewrite IH by (intros; apply H; cbn; auto).
  apply nth_error_upd_other. apply H. cbn; auto.
Qed.
Lemma fold_upd_same {A} (f : nat -> nat) (g : nat -> A) i is : NoDup is -> In i is -> (forall a b, f a = f b -> a = b) ->
  forall yo, (f i < length yo)%nat -> nth_error (fold_left (fun yo i => upd yo (f i) (g i)) is yo) (f i) = Some (g i).
Proof.
  intros ND Hin Hinj. induction ND as [|x is Hn ND IH]; intros yo Hl; cbn; [destruct Hin|].
  destruct (Nat.eq_dec x i) as [->|Hne].
  - rewrite fold_upd_other. 2:{ intros y Hy He. apply Hinj in He. subst. auto. }
    now apply nth_error_upd_same.
  - destruct Hin as [|Hin]; [congruence|]. apply IH; auto. now rewrite upd_length.
Qed.

Lemma max_idx_from_nth l : forall i best bv, (best < i)%nat -> (max_idx_from l i best bv < i + length l)%nat.
Proof.
  induction l as [|x l IH]; intros i best bv H; cbn [max_idx_from length]; [lia|].
  destruct (bv <? x); [specialize (IH (S i) i x)|specialize (IH (S i) best bv)]; lia.
Qed.

(* later columns never write to output column 0 *)
Lemma lb_inv_rows_keep cnt : forall i w nout j base c data yo yo' p, (0 < j < nout)%nat ->
  lb_inv_rows cnt i w nout j base c data yo = Some yo' ->
  nth_error yo' (p * nout) = nth_error yo (p * nout) /\ length yo' = length yo.
Proof.
  induction cnt as [|cnt IH]; intros i w nout j base c data yo yo' p Hj H; cbn [lb_inv_rows] in H.
  - now injection H as ->.
  - destruct (slice _ _ _); [|discriminate]. destruct (max_idx _); [|discriminate].
    destruct (nth_error c _); [|discriminate]. destruct (Nat.ltb _ _); [|discriminate].
    apply (IH _ _ _ _ _ _ _ _ _ p Hj) in H. destruct H as [H1 H2]. rewrite H1, H2, upd_length. split; auto.
    apply nth_error_upd_other. intros He.
    assert (p <= i \/ i < p)%nat as [?|?] by lia; nia.
Qed.
Lemma lb_inv_loop_keep fuel : forall nrows w j base cls data yo yo' p, (0 < j)%nat ->
  lb_inv_loop fuel nrows w (length cls) j base cls data yo = Some yo' ->
  nth_error yo' (p * length cls) = nth_error yo (p * length cls).
Proof.
  induction fuel as [|fuel IH]; intros nrows w j base cls data yo yo' p Hj H; cbn [lb_inv_loop] in H; [discriminate|].
  destruct (Nat.ltb base w); [|now injection H as ->].
  destruct (nth_error cls j) as [c|] eqn:E; [|discriminate].
  assert (Hjl: (j < length cls)%nat) by (apply nth_error_Some; congruence).
  destruct (lb_inv_rows nrows 0 w (length cls) j base c data yo) as [yo1|] eqn:E1; [|discriminate].
  apply (IH _ _ _ _ _ _ _ _ p) in H; [|lia]. rewrite H.
  apply (lb_inv_rows_keep _ _ _ _ _ _ _ _ _ _ p) in E1; [tauto|lia].
Qed.

Definition lb_wf (m : lb) : Prop := 0 < lb_pos m /\ Forall (fun c => NoDup c /\ c <> []) (lb_cls m).
Definition lb_known (m : lb) (row : list Z) : Prop := Forall2 (fun c v => In v c) (lb_cls m) row.

Lemma lb_block_known neg pos c v : In v c -> lb_block neg pos c v = hot pos c v.
Proof. intros H. unfold lb_block. apply existsb_eqb_In in H. now rewrite H. Qed.

Lemma lb_transform_known m row : lb_wf m -> lb_known m row ->
  lb_transform_row m row = Some (concat (map (fun p => hot (lb_pos m) (fst p) (snd p)) (combine (lb_cls m) row))).
Proof.
  intros [_ HF] HK. rewrite lb_transform_row_spec; auto. 2:{ symmetry. eapply Forall2_length; eauto. }
  f_equal. f_equal. unfold lb_known in HK. clear HF. induction HK as [|c v cls row Hin HK IH]; cbn; auto.
  rewrite lb_block_known by auto. now rewrite IH.
Qed.

Definition enc_row (m : lb) (row : list Z) : list Z :=
  concat (map (fun p => hot (lb_pos m) (fst p) (snd p)) (combine (lb_cls m) row)).
Lemma enc_row_length m row : lb_known m row -> length (enc_row m row) = n_outputs (lb_cls m).
Proof.
  unfold enc_row, lb_known. induction 1 as [|c v cls row Hin HK IH]; cbn; auto.
  rewrite app_length, IH. unfold hot. now rewrite map_length.
Qed.

Lemma lb_first_column m rows : lb_wf m -> lb_cls m <> [] -> Forall (lb_known m) rows ->
  forall Y, lb_transform m rows = Some Y ->
  forall out, lb_inverse m (n_outputs (lb_cls m)) Y = Some out ->
  forall i row, nth_error rows i = Some row -> nth_error out (i * length (lb_cls m)) = nth_error row 0.
Proof.
  intros Hwf Hne HK Y HY out Hout i row Ei.
  assert (EY: Y = map (enc_row m) rows).
  { unfold lb_transform in HY. rewrite (omap_Some _ (enc_row m)) in HY; [congruence|].
    intros x Hx. rewrite Forall_forall in HK. apply lb_transform_known; auto. }
  subst Y. unfold lb_inverse in Hout. rewrite map_length in Hout.
  destruct m as [neg pos cls]. cbn [lb_cls lb_neg lb_pos] in *. destruct cls as [|c cls]; [congruence|].
  set (w := n_outputs (c :: cls)) in *. set (nout := length (c :: cls)) in *.
  cbn [lb_inv_loop] in Hout.
  destruct Hwf as [Hpos HF]. pose proof HF as HF0. cbn [lb_cls lb_pos] in *. apply Forall_cons_iff in HF. destruct HF as [[NDc Hc] HF].
  assert (Hw: (length c <= w)%nat) by (unfold w; cbn; lia).
  destruct (Nat.ltb_spec 0 w) as [_|Hbad]; [|destruct c; [congruence|cbn [length] in Hw; lia]].
  cbn [nth_error] in Hout.
  set (mm := {| lb_neg := neg; lb_pos := pos; lb_cls := c :: cls |}) in *.
  assert (Hrows: Forall (fun r => length r = w) (map (enc_row mm) rows)).
  { apply Forall_map. eapply Forall_impl; [|exact HK]. intros r Hr. apply (enc_row_length mm r Hr). }
  set (dec := fun i => match nth_error rows i with Some (v :: _) => v | _ => 0 end).
  assert (Hr: lb_inv_rows (length rows) 0 w nout 0 0 c (concat (map (enc_row mm) rows)) (repeat 0 (length rows * nout)) =
    Some (fold_left (fun yo i => upd yo (i * nout + 0) (dec i)) (seq 0 (length rows)) (repeat 0 (length rows * nout)))).
  { rewrite <- (map_length (enc_row mm) rows).
    apply (lb_inv_rows_spec (map (enc_row mm) rows) w nout 0 0 c dec); auto; try (unfold nout; cbn [length]; lia).
    - intros i' r E'. rewrite nth_error_map in E'. unfold dec. destruct (nth_error rows i') as [row'|] eqn:Er; [|discriminate].
      injection E' as <-. rewrite Forall_forall in HK. specialize (HK row' (nth_error_In _ _ Er)).
      unfold lb_known in HK. cbn [lb_cls mm] in HK. inversion HK as [|? v ? row2 Hin HK2]; subst.
      unfold enc_row. cbn [lb_cls lb_pos mm combine map concat fst snd skipn].
      rewrite firstn_hot_app.
      apply In_nth_error in Hin. destruct Hin as [k Hk]. exists k. split; auto. now apply max_idx_hot.
    - now rewrite repeat_length, map_length. }
  rewrite Hr in Hout.
  assert (Hi: (i < length rows)%nat) by (apply nth_error_Some; congruence).
  change (nth_error out (i * length (c :: cls)) = nth_error row 0).
  rewrite (lb_inv_loop_keep _ _ _ _ _ (c :: cls) _ _ _ i (Nat.lt_0_1) Hout).
  fold nout. replace (i * nout)%nat with ((fun i => i * nout + 0) i)%nat by (cbn; lia).
  rewrite (fold_upd_same (fun i => i * nout + 0)%nat dec i).
  - unfold dec. rewrite Ei. rewrite Forall_forall in HK. specialize (HK row (nth_error_In _ _ Ei)).
    inversion HK; subst. reflexivity.
  - apply seq_NoDup.
  - apply in_seq. lia.
  - intros a b Hab. cbv beta in Hab. assert (0 < nout)%nat by (unfold nout; cbn; lia). nia.
  - cbv beta. rewrite repeat_length. assert (0 < nout)%nat by (unfold nout; cbn; lia). nia.
Qed.

(* one output column: everything is restored, and nothing panics *)
Lemma lb_single m c rows : lb_wf m -> lb_cls m = [c] -> Forall (fun v => In v c) rows ->
  exists Y, lb_transform m (map (fun v => [v]) rows) = Some Y /\ Y = map (hot (lb_pos m) c) rows /\
    lb_inverse m (length c) Y = Some rows.
Proof.
  intros Hwf Hc HK.
  assert (HKs: Forall (lb_known m) (map (fun v => [v]) rows)).
  { apply Forall_map. eapply Forall_impl; [|exact HK]. intros v Hv. unfold lb_known. rewrite Hc. repeat constructor; auto. }
  assert (HY: lb_transform m (map (fun v => [v]) rows) = Some (map (hot (lb_pos m) c) rows)).
  { unfold lb_transform. rewrite (omap_Some _ (enc_row m)).
    - f_equal. rewrite map_map. apply map_ext. intros v. unfold enc_row. rewrite Hc. cbn. apply app_nil_r.
    - intros x Hx. rewrite Forall_forall in HKs. apply lb_transform_known; auto. }
  exists (map (hot (lb_pos m) c) rows). split; auto. split; auto.
  destruct Hwf as [Hpos HF]. rewrite Hc in HF. apply Forall_cons_iff in HF. destruct HF as [[ND Hne] _].
  unfold lb_inverse. rewrite Hc. cbn [length lb_inv_loop nth_error]. rewrite map_length.
  destruct (Nat.ltb_spec 0 (length c)) as [Hlt|Hbad]; [|destruct c; [congruence|cbn in Hbad; lia]].
  set (dec := fun i => nth i rows 0).
  assert (Hr: lb_inv_rows (length rows) 0 (length c) 1 0 0 c (concat (map (hot (lb_pos m) c) rows)) (repeat 0 (length rows * 1)) =
    Some (fold_left (fun yo i => upd yo (i * 1 + 0) (dec i)) (seq 0 (length rows)) (repeat 0 (length rows * 1)))).
  { rewrite <- (map_length (hot (lb_pos m) c) rows).
    apply (lb_inv_rows_spec (map (hot (lb_pos m) c) rows) (length c) 1 0 0 c dec); auto; try lia.
    - apply Forall_map, Forall_forall. intros v _. unfold hot. now rewrite map_length.
    - intros i r E. rewrite nth_error_map in E. destruct (nth_error rows i) as [v|] eqn:Ev; [|discriminate].
      injection E as <-. cbn [skipn]. replace (length c) with (length (hot (lb_pos m) c v)) by (unfold hot; now rewrite map_length).
      rewrite firstn_all. rewrite Forall_forall in HK. pose proof (HK v (nth_error_In _ _ Ev)) as Hin.
      apply In_nth_error in Hin. destruct Hin as [k Hk]. exists k. unfold dec. rewrite (nth_error_nth _ _ 0 Ev).
      split; auto. now apply max_idx_hot.
    - now rewrite repeat_length, map_length. }
  rewrite Hr. destruct (length c) as [|n] eqn:El; [lia|]. cbn [lb_inv_loop].
  destruct (Nat.ltb_spec (0 + S n + S n) (S n)); [lia|]. f_equal.
  apply nth_error_ext_len.
  - rewrite fold_upd_length, repeat_length. lia.
  - intros i Hi. rewrite fold_upd_length, repeat_length in Hi.
    replace i with ((fun i => i * 1 + 0) i)%nat at 1 by (cbn; lia).
    rewrite (fold_upd_same (fun i => i * 1 + 0)%nat dec i); [|apply seq_NoDup|apply in_seq; lia|intros; lia|rewrite repeat_length; lia].
    unfold dec. symmetry. apply nth_error_nth'. lia.
Qed.

Lemma lb_fit_wf m ncols rows : rows <> [] -> 0 < lb_pos (lb_fit m ncols rows) -> lb_wf (lb_fit m ncols rows).
Proof.
  intros Hne Hp. split; auto. cbn [lb_cls lb_fit]. apply Forall_map, Forall_forall. intros j _.
  destruct (lb_classes_spec (column j rows)) as [A B]. split; [now apply sorted_lt_NoDup|].
  intros E. destruct rows as [|r rows]; [congruence|]. specialize (B (nth j r 0)). rewrite E in B. apply B. cbn; auto.
Qed.

Lemma lb_fit_single m col : col <> [] -> 0 < lb_pos (lb_fit m 1 (map (fun v => [v]) col)) ->
  let m' := lb_fit m 1 (map (fun v => [v]) col) in
  exists c, lb_cls m' = [c] /\ StronglySorted Z.lt c /\ (forall v, In v c <-> In v col) /\
  forall rows, Forall (fun v => In v col) rows ->
  exists Y, lb_transform m' (map (fun v => [v]) rows) = Some Y /\
    Y = map (fun v => map (fun x => if x =? v then lb_pos m' else 0) c) rows /\
    lb_inverse m' (length c) Y = Some rows.
Proof.
  intros Hne Hp. cbv zeta. set (m' := lb_fit m 1 (map (fun v => [v]) col)) in *.
  destruct (lb_classes_spec (column 0 (map (fun v => [v]) col))) as [A B].
  assert (Hcol: column 0 (map (fun v => [v]) col) = col).
  { unfold column. rewrite map_map. cbn. apply map_id. }
  rewrite Hcol in A, B. exists (lb_classes col).
  assert (E: lb_cls m' = [lb_classes col]) by (cbn [m' lb_cls lb_fit seq map]; now rewrite Hcol).
  split; auto. split; auto. split; auto. intros rows HK.
  apply lb_single; auto.
  - apply lb_fit_wf; auto. destruct col; [congruence|discriminate].
  - eapply Forall_impl; [|exact HK]. intros v Hv. now apply B.
Qed.

Lemma lb_fit_known m ncols rows row : In row rows -> length row = ncols -> lb_known (lb_fit m ncols rows) row.
Proof.
  intros Hin HL. unfold lb_known. cbn [lb_fit lb_cls].
  assert (forall k r, (forall j v, nth_error r j = Some v -> nth (k + j) row 0 = v) ->
    Forall2 (fun c v => In v c) (map (fun j => lb_classes (column j rows)) (seq k (length r))) r).
  { intros k r. revert k. induction r as [|v r IH]; intros k H; cbn [seq map length]; constructor.
    - apply lb_classes_spec. unfold column. apply in_map_iff. exists row. split; auto.
      rewrite <- (H 0%nat v eq_refl). f_equal. lia.
    - apply IH. intros j w E. rewrite <- (H (S j) w E). f_equal. lia. }
  rewrite <- HL. apply H. intros j v E. cbn. now apply nth_error_nth.
Qed.

(* ---------------------------------------------------- MultiLabelBinarizer *)
Lemma mlb_row_loop_spec c row : NoDup c -> forall pre,
  mlb_row_loop c row (length pre) (pre ++ repeat 0 (length row * length c)) =
  Some (pre ++ concat (map (hot 1 c) row)).
Proof.
  intros ND. induction row as [|v row IH]; intros pre; cbn [mlb_row_loop length].
  - cbn. reflexivity.
  - cbn [map concat Nat.mul]. rewrite repeat_plus.
    specialize (IH (pre ++ hot 1 c v)). rewrite app_length, <- !app_assoc in IH.
    replace (length (hot 1 c v)) with (length c) in IH by (unfold hot; now rewrite map_length).
    destruct (existsb (Z.eqb v) c) eqn:E.
    + apply existsb_eqb_In in E. destruct (class_index_in v c ND E) as (k & Ek & En). rewrite Ek.
      assert (Hk: (k < length c)%nat) by (apply nth_error_Some; congruence).
      destruct (Nat.ltb_spec (length pre + k) (length (pre ++ repeat 0 (length c) ++ repeat 0 (length row * length c)))) as [_|Hbad].
      2:{ rewrite !app_length, !repeat_length in Hbad. lia. }
      rewrite upd_app_r, upd_app_l by (now rewrite repeat_length).
      rewrite (hot_upd 1 c v k ND En). exact IH.
    + assert (Hni: ~ In v c) by (rewrite <- existsb_eqb_In, E; discriminate).
      rewrite class_index_out by auto. rewrite (hot_out 1 c v Hni) in IH |- *. exact IH.
Qed.

Lemma mlb_transform_row_spec c row : NoDup c -> mlb_transform_row c row = Some (concat (map (hot 1 c) row)).
Proof. intros ND. apply (mlb_row_loop_spec c row ND []). Qed.

Lemma mlb_inv_row_spec c row : NoDup c -> Forall (fun v => In v c) row -> forall pre,
  mlb_inv_row (length row) (length pre) c (concat (map (hot 1 c) (pre ++ row))) = Some row.
Proof.
  intros ND HK. induction HK as [|v row Hin HK IH]; intros pre; cbn [mlb_inv_row length]; auto.
  assert (Hlen: Forall (fun r => length r = length c) (map (hot 1 c) (pre ++ v :: row))).
  { apply Forall_map, Forall_forall. intros x _. unfold hot. now rewrite map_length. }
  assert (Es: slice (concat (map (hot 1 c) (pre ++ v :: row))) (length pre * length c) ((length pre + 1) * length c) = Some (hot 1 c v)).
  { replace (length pre * length c)%nat with (length pre * length c + 0)%nat by lia.
    replace ((length pre + 1) * length c)%nat with (length pre * length c + 0 + length c)%nat by lia.
    rewrite (slice_concat _ (length c) (length pre) 0 (length c) (hot 1 c v)); auto.
    - cbn [skipn]. replace (length c) with (length (hot 1 c v)) by (unfold hot; now rewrite map_length). now rewrite firstn_all.
    - rewrite nth_error_map, nth_error_app2, Nat.sub_diag by lia. reflexivity. }
  rewrite Es. apply In_nth_error in Hin. destruct Hin as [k Hk].
  rewrite (max_idx_hot 1 c v k) by (auto; lia). rewrite Hk.
  specialize (IH (pre ++ [v])). rewrite app_length, <- app_assoc in IH. cbn [length app] in IH.
  rewrite Nat.add_1_r in IH. rewrite IH. reflexivity.
Qed.

Lemma mlb_roundtrip_row c row : NoDup c -> c <> [] -> Forall (fun v => In v c) row ->
  exists Y, mlb_transform_row c row = Some Y /\ Y = concat (map (hot 1 c) row) /\ mlb_inverse_row c Y = Some row.
Proof.
  intros ND Hne HK. eexists. split; [now apply mlb_transform_row_spec|]. split; [reflexivity|].
  unfold mlb_inverse_row. destruct c as [|x c'] eqn:Ec; [congruence|]. rewrite <- Ec in *.
  assert (El: length (concat (map (hot 1 c) row)) = (length row * length c)%nat).
  { rewrite (concat_len _ (length c)); [now rewrite map_length|].
    apply Forall_map, Forall_forall. intros y _. unfold hot. now rewrite map_length. }
  rewrite El, Nat.div_mul. 2:{ rewrite Ec. discriminate. }
  apply (mlb_inv_row_spec c row ND HK []).
Qed.

Lemma mlb_roundtrip rows : rows <> [] -> Forall (fun r => r <> []) rows ->
  let c := mlb_fit rows in
  exists Y, omap (mlb_transform_row c) rows = Some Y /\
    Y = map (fun row => concat (map (fun v => map (fun x => if x =? v then 1 else 0) c) row)) rows /\
    omap (mlb_inverse_row c) Y = Some rows.
Proof.
  intros Hne Hr c. destruct (lb_classes_spec (concat rows)) as [A B]. fold c in A, B.
  change (lb_classes (concat rows)) with c in A, B.
  assert (ND: NoDup c) by (now apply sorted_lt_NoDup).
  assert (Hc: c <> []).
  { destruct rows as [|r rows]; [congruence|]. apply Forall_cons_iff in Hr. destruct Hr as [Hr _].
    destruct r as [|v r]; [congruence|]. intros E. specialize (B v). rewrite E in B. apply B. cbn; auto. }
  assert (HK: forall row, In row rows -> Forall (fun v => In v c) row).
  { intros row Hin. apply Forall_forall. intros v Hv. apply B. apply in_concat. eauto. }
  exists (map (fun row => concat (map (hot 1 c) row)) rows). split.
  - apply omap_Some. intros row Hin. now apply mlb_transform_row_spec.
  - split; [reflexivity|].
    assert (G: forall l, (forall row, In row l -> Forall (fun v => In v c) row) ->
      omap (mlb_inverse_row c) (map (fun row => concat (map (hot 1 c) row)) l) = Some l).
    { induction l as [|row l IH]; intros H; cbn [map omap]; auto.
      destruct (mlb_roundtrip_row c row ND Hc) as (Y & _ & -> & E); [apply H; cbn; auto|]. rewrite E.
      rewrite IH; auto. intros; apply H; cbn; auto. }
    apply G. exact HK.
Qed.

(* ---------------------------------------------------------- OneHotEncoder *)
Lemma oh_row_loop_spec row : forall vals pre, Forall (fun c => NoDup c) vals ->
  Forall2 (fun c v => In v c) vals row ->
  oh_row_loop vals row (length pre) (pre ++ repeat 0 (n_outputs vals)) =
  Some (pre ++ concat (map (fun p => hot 1 (fst p) (snd p)) (combine vals row))).
Proof.
  induction row as [|v row IH]; intros vals pre HF HK; inversion HK as [|c ? vals' ? Hin HK']; subst; cbn [oh_row_loop].
  - reflexivity.
  - apply Forall_cons_iff in HF. destruct HF as [ND HF].
    destruct (class_index_in v c ND Hin) as (k & Ek & En). rewrite Ek. cbv zeta.
    assert (Hk: (k < length c)%nat) by (apply nth_error_Some; congruence).
    destruct (Nat.ltb_spec (length pre + k) (length (pre ++ repeat 0 (n_outputs (c :: vals'))))) as [_|Hbad].
    2:{ rewrite !app_length, !repeat_length in Hbad. cbn [n_outputs fold_right] in Hbad. lia. }
    cbn [n_outputs fold_right]. rewrite upd_app_r, repeat_plus, upd_app_l by (now rewrite repeat_length).
    rewrite (hot_upd 1 c v k ND En). fold (n_outputs vals').
    specialize (IH vals' (pre ++ hot 1 c v) HF HK'). rewrite app_length, <- !app_assoc in IH.
    replace (length (hot 1 c v)) with (length c) in IH by (unfold hot; now rewrite map_length).
    exact IH.
Qed.

Lemma oh_inv_row_spec row : forall vals pre, Forall (fun c => NoDup c) vals ->
  Forall2 (fun c v => In v c) vals row ->
  exists idx, oh_inv_row vals (length pre) (pre ++ concat (map (fun p => hot 1 (fst p) (snd p)) (combine vals row))) = Some idx /\
  Forall2 (fun p k => exists n, k = Z.of_nat n /\ nth_error (fst p) n = Some (snd p)) (combine vals row) idx.
Proof.
  induction row as [|v row IH]; intros vals pre HF HK; inversion HK as [|c ? vals' ? Hin HK']; subst; cbn [oh_inv_row combine map concat fst snd].
  - exists []. split; constructor.
  - apply Forall_cons_iff in HF. destruct HF as [ND HF].
    assert (Hl: length (hot 1 c v) = length c) by (unfold hot; now rewrite map_length).
    specialize (IH vals' (pre ++ hot 1 c v) HF HK'). rewrite app_length, <- !app_assoc, Hl in IH.
    destruct IH as (idx & E & HI).
    set (rest := concat (map (fun p => hot 1 (fst p) (snd p)) (combine vals' row))) in *.
    unfold slice at 1. destruct (Nat.leb_spec (length pre + length c) (length (pre ++ hot 1 c v ++ rest))) as [_|Hbad].
    2:{ rewrite !app_length in Hbad. lia. }
    replace (length pre + length c - length pre)%nat with (length c) by lia.
    rewrite skipn_app, skipn_all, Nat.sub_diag. cbn [app skipn].
    rewrite firstn_hot_app.
    apply In_nth_error in Hin. destruct Hin as [k Hk].
    rewrite (max_idx_hot 1 c v k) by (auto; lia). rewrite E.
    eexists. split; [reflexivity|]. constructor; auto. exists k. auto.
Qed.

Lemma oh_fit_known ncols rows row : In row rows -> length row = ncols -> Forall2 (fun c v => In v c) (oh_fit ncols rows) row.
Proof. intros H1 H2. apply (lb_fit_known {| lb_neg := 0; lb_pos := 1; lb_cls := [] |} ncols rows row H1 H2). Qed.
Lemma oh_fit_sorted ncols rows : Forall (StronglySorted Z.lt) (oh_fit ncols rows).
Proof. apply Forall_map, Forall_forall. intros j _. apply lb_classes_spec. Qed.

Lemma oh_spec ncols rows row : In row rows -> length row = ncols ->
  let vals := oh_fit ncols rows in
  exists Y, oh_transform_row vals row = Some Y /\
    Y = concat (map (fun p => map (fun x => if x =? snd p then 1 else 0) (fst p)) (combine vals row)) /\
    exists idx, oh_inverse_row vals Y = Some idx /\ length idx = ncols /\
      forall j c v k, nth_error vals j = Some c -> nth_error row j = Some v -> nth_error idx j = Some k ->
        0 <= k /\ nth_error c (Z.to_nat k) = Some v.
Proof.
  intros Hin HL vals.
  pose proof (oh_fit_known ncols rows row Hin HL) as HK. fold vals in HK.
  assert (HF: Forall (fun c => NoDup c) vals).
  { eapply Forall_impl; [|apply oh_fit_sorted]. intros c. apply sorted_lt_NoDup. }
  assert (Hlen: length vals = length row) by (eapply Forall2_length; eauto).
  eexists. split.
  - unfold oh_transform_row. rewrite Hlen, Nat.leb_refl. rewrite <- Hlen, firstn_all.
    apply (oh_row_loop_spec row vals [] HF HK).
  - split; [reflexivity|]. destruct (oh_inv_row_spec row vals [] HF HK) as (idx & E & HI).
    exists idx. split; [exact E|]. assert (Hl: length idx = ncols).
    { rewrite <- (Forall2_length HI), combine_length. lia. }
    split; auto. intros j c v k E1 E2 E3.
    assert (Ec: nth_error (combine vals row) j = Some (c, v)).
    { clear -E1 E2. revert row j E1 E2. induction vals as [|a vals IH]; intros [|b row] [|j] E1 E2; cbn in *; try discriminate; [congruence|auto]. }
    destruct (Forall2_nth_error j HI Ec) as (k' & Ek & n & -> & En). assert (k = Z.of_nat n) by congruence. subst k.
    rewrite Nat2Z.id. split; [lia|auto].
Qed.
