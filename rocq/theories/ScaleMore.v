From Verif Require Import QCommon ScaleModel ScaleProofs.
Open Scope Q_scope.

(* --------------------------------------------------------------- Binarizer *)
Lemma bin_compact thr X : raw_wf X -> rstride X = rcols X ->
  exists X', bin_transform thr X = Some X' /\ rrows X' = rrows X /\ rcols X' = rcols X /\
    forall i j, (i < rrows X)%nat -> (j < rcols X)%nat -> cell X' i j = if Qltb thr (cell X i j) then 1 else 0.
Proof.
  intros (Hc & Hr & HL) Es. unfold bin_transform.
  destruct (fill_new_spec row_major (fun i j => if Qltb thr (nth (i * rstride X + j) (rdata X) 0) then 1 else 0) (rrows X) (rcols X))
    as (m' & E & R & C & W & V); try lia; [apply row_major_NoDup|intros; apply row_major_In|].
  unfold raw_fill in E. cbn [rstride rrows rcols new_raw] in E. rewrite Es in *.
  destruct (write_all _ _) as [d|] eqn:EW in E; [|discriminate]. injection E as <-. rewrite EW.
  eexists. split; [reflexivity|]. cbn [rrows rcols]. repeat split; auto. intros i j Hi Hj.
  unfold cell. rewrite !raw_cell by auto. rewrite Es. cbn [rstride rdata] in *. apply V; auto.
Qed.
Lemma bin_view_panics thr X : raw_wf X -> (rcols X < rstride X)%nat -> (2 <= rrows X)%nat -> bin_transform thr X = None.
Proof.
  intros (Hc & Hr & HL) Hs H2. unfold bin_transform.
  erewrite (write_all_oob _ ((rrows X - 1) * rstride X + (rcols X - 1))%nat); [reflexivity| |].
  - apply in_map_iff. exists ((rrows X - 1)%nat, (rcols X - 1)%nat). split; [reflexivity|]. apply row_major_In. lia.
  - cbn [new_raw rdata]. rewrite repeat_length. destruct (rrows X) as [|r]; [lia|].
    replace (S r - 1)%nat with r by lia. assert (r * S (rcols X) <= r * rstride X)%nat by (apply Nat.mul_le_mono_l; lia).
    replace (S r * rcols X)%nat with (r * rcols X + rcols X)%nat by (cbn; lia).
    replace (r * S (rcols X))%nat with (r * rcols X + r)%nat in H by lia. lia.
Qed.

(* ----------------------------------------------------------- sort, quantile *)
Lemma qins_perm x l : Permutation (qins x l) (x :: l).
Proof. induction l as [|y l IH]; cbn; auto. destruct (Qle_bool x y); auto. rewrite IH. apply perm_swap. Qed.
Lemma qsort_perm l : Permutation (qsort l) l.
Proof. induction l as [|x l IH]; cbn; auto. rewrite qins_perm. now constructor. Qed.
Lemma qins_sorted x l : StronglySorted Qle l -> StronglySorted Qle (qins x l).
Proof.
  induction 1 as [|y l HS IH HF]; cbn; [repeat constructor|]. destruct (Qleb_spec x y) as [H|H].
  - constructor; [now constructor|]. constructor; auto. eapply Forall_impl; [|exact HF]. intros; lra.
  - constructor; auto. apply Forall_forall. intros z Hz. apply (Permutation_in _ (qins_perm x l)) in Hz.
    destruct Hz as [<-|Hz]; [lra|]. rewrite Forall_forall in HF. auto.
Qed.
Lemma qsort_sorted l : StronglySorted Qle (qsort l).
Proof. induction l as [|x l IH]; cbn; [constructor|]. now apply qins_sorted. Qed.

Definition count_le (v : Q) (l : list Q) : nat := length (filter (fun x => Qle_bool x v) l).
Definition count_lt (v : Q) (l : list Q) : nat := length (filter (fun x => Qltb x v) l).
Lemma filter_perm_length {A} (f : A -> bool) l l' : Permutation l l' -> length (filter f l) = length (filter f l').
Proof. induction 1 as [|x l l' H IH|x y l|l l' l'' H1 IH1 H2 IH2]; cbn; auto; [destruct (f x); cbn; auto|destruct (f x), (f y); auto|congruence]. Qed.

Lemma quantile_from_spec target l : forall k, target <= qn (k + length l) -> l <> [] ->
  exists i v, nth_error l i = Some v /\ quantile_from k target l = Some v /\ target <= qn (k + S i) /\ (i = 0%nat \/ qn (k + i) < target).
Proof.
  induction l as [|x l IH]; intros k Ht Hne; [congruence|]. cbn [quantile_from]. destruct (Qleb_spec target (qn (S k))) as [H|H].
  - exists 0%nat, x. repeat split; auto. now rewrite Nat.add_1_r.
  - destruct l as [|y l].
    { cbn [length] in Ht. rewrite Nat.add_1_r in Ht. lra. }
    destruct (IH (S k)) as (i & v & E1 & E2 & H3 & H4).
    { cbn [length] in *. replace (S k + S (length l))%nat with (k + S (S (length l)))%nat by lia. exact Ht. }
    { discriminate. }
    exists (S i), v. split; auto. split; auto. replace (k + S (S i))%nat with (S k + S i)%nat by lia. split; auto. right.
    replace (k + S i)%nat with (S k + i)%nat by lia. destruct H4 as [->|H4]; auto. now rewrite Nat.add_0_r.
Qed.

Lemma sorted_count_le l : StronglySorted Qle l -> forall i v, nth_error l i = Some v -> (S i <= count_le v l)%nat /\ (count_lt v l <= i)%nat.
Proof.
  unfold count_le, count_lt. induction 1 as [|x l HS IH HF]; intros i v E; [destruct i; discriminate|]. cbn [filter].
  rewrite Forall_forall in HF. destruct i as [|i].
  - injection E as <-. destruct (Qleb_spec x x); [|lra]. destruct (Qltb_spec x x); [lra|]. cbn [length]. split; [lia|].
    assert (Z: filter (fun y => Qltb y x) l = []).
    { clear -HF. induction l as [|y l IH]; cbn; auto. destruct (Qltb_spec y x).
      - specialize (HF y (or_introl eq_refl)). lra.
      - apply IH. intros; apply HF; cbn; auto. }
    rewrite Z. cbn. lia.
  - destruct (IH i v E) as [H1 H2]. assert (x <= v) by (apply HF; eapply nth_error_In; eauto).
    destruct (Qleb_spec x v); [|lra]. cbn [length]. split; [lia|]. destruct (Qltb x v); cbn [length]; lia.
Qed.

Lemma quantile_spec p l : l <> [] -> p <= 1 ->
  exists v, quantile p (qsort l) = Some v /\ In v l /\
    p * qn (length l) <= qn (count_le v l) /\
    (qn (count_lt v l) < p * qn (length l) \/ (forall x, In x l -> v <= x)).
Proof.
  intros Hne Hp. unfold quantile. pose proof (qsort_perm l) as HP. pose proof (Permutation_length HP) as HL.
  rewrite HL. destruct (quantile_from_spec (p * qn (length l)) (qsort l) 0) as (i & v & E1 & E2 & H3 & H4).
  { rewrite HL. cbn [Nat.add]. pose proof (qn_nonneg (length l)).
    assert (p * qn (length l) <= 1 * qn (length l)) by (apply Qmult_le_compat_r; auto). lra. }
  { intros E. rewrite E in HL. destruct l; [congruence|discriminate]. }
  exists v. split; auto. split; [apply (Permutation_in _ HP); eapply nth_error_In; eauto|].
  destruct (sorted_count_le _ (qsort_sorted l) i v E1) as [C1 C2].
  unfold count_le, count_lt in *. rewrite (filter_perm_length _ _ _ HP) in C1. rewrite (filter_perm_length _ _ _ HP) in C2. cbn [Nat.add] in *.
  split.
  - apply qn_le in C1. lra.
  - destruct H4 as [->|H4].
    + right. intros x Hx. apply (Permutation_in x (Permutation_sym HP)) in Hx. pose proof (qsort_sorted l) as HS.
      destruct (qsort l) as [|y t]; [destruct Hx|]. cbn in E1. injection E1 as ->.
      apply StronglySorted_inv in HS. destruct HS as [_ HF]. rewrite Forall_forall in HF. destruct Hx as [<-|Hx]; [lra|auto].
    + left. apply qn_le in C2. lra.
Qed.

(* ------------------------------------------------------------ RobustScaler *)
Lemma qsort_length l : length (qsort l) = length l.
Proof. apply Permutation_length, qsort_perm. Qed.
Lemma set_prefix_full tmp col : length tmp = length col -> set_prefix tmp col = Some col.
Proof.
  intros H. unfold set_prefix. rewrite H. rewrite (proj2 (Nat.leb_le _ _)) by lia.
  rewrite skipn_all2 by lia. now rewrite app_nil_r.
Qed.

Definition is_quantile (p : Q) (col : list Q) (v : Q) : Prop :=
  In v col /\ p * qn (length col) <= qn (count_le v col) /\
  (qn (count_lt v col) < p * qn (length col) \/ (forall x, In x col -> v <= x)).

Lemma rb_fit_spec ql qr st cols n : (0 < n)%nat -> cols <> [] -> Forall (fun c => length c = n) cols -> ql <= 1 -> qr <= 1 ->
  (rb_tmp st = None \/ exists t, rb_tmp st = Some t /\ length t = n) ->
  exists st', rb_fit ql qr st cols = Some st' /\
    Forall2 (fun c m => is_quantile (1 # 2) c m) cols (rb_median st') /\
    Forall2 (fun c d => exists q1 q2, is_quantile ql c q1 /\ is_quantile qr c q2 /\ d = if Qeq_bool (q2 - q1) 0 then 1 else q2 - q1) cols (rb_div st').
Proof.
  intros Hn Hne HF Hl Hr Ht. unfold rb_fit.
  assert (G: forall cols tmp, Forall (fun c => length c = n) cols -> length tmp = n ->
    exists t ms ds, rb_columns ql qr tmp cols = Some (t, ms, ds) /\
      Forall2 (fun c m => is_quantile (1 # 2) c m) cols ms /\
      Forall2 (fun c d => exists q1 q2, is_quantile ql c q1 /\ is_quantile qr c q2 /\ d = if Qeq_bool (q2 - q1) 0 then 1 else q2 - q1) cols ds).
  { clear Hne HF Ht cols. induction cols as [|c cols IH]; intros tmp HF HT; cbn [rb_columns].
    - exists tmp, [], []. repeat split; constructor.
    - apply Forall_cons_iff in HF. destruct HF as [Hc HF]. unfold rb_column.
      rewrite set_prefix_full by lia.
      assert (Hcn: c <> []) by (intros ->; cbn in Hc; lia).
      destruct (quantile_spec (1 # 2) c Hcn) as (m & E1 & Q1); [lra|].
      destruct (quantile_spec ql c Hcn Hl) as (q1 & E2 & Q2).
      destruct (quantile_spec qr c Hcn Hr) as (q2 & E3 & Q3).
      rewrite E1, E2, E3. destruct (IH (qsort c) HF) as (t & ms & ds & E & F1 & F2); [now rewrite qsort_length|].
      rewrite E. exists t, (m :: ms), (nonzero (q2 - q1) :: ds). split; auto. split; constructor; auto.
      exists q1, q2. repeat split; try apply Q2; try apply Q3. }
  destruct cols as [|c cols]; [congruence|].
  set (tmp := match rb_tmp st with Some t => t | None => repeat 0 (length (hd [] (c :: cols))) end).
  assert (HT: length tmp = n).
  { unfold tmp. destruct Ht as [-> | (t & -> & HT)]; auto. rewrite repeat_length. cbn [hd]. inversion HF; auto. }
  destruct (G (c :: cols) tmp HF HT) as (t & ms & ds & E & F1 & F2). rewrite E.
  eexists. split; [reflexivity|]. cbn [rb_median rb_div]. auto.
Qed.

(* -------------------------------------------------------------- Normalizer *)
Lemma norm1_nonneg l : 0 <= norm1 l.
Proof. unfold norm1. apply qsum_nonneg. intros x Hx. apply in_map_iff in Hx. destruct Hx as (y & <- & _). apply Qabs_nonneg. Qed.
Lemma norm1_scale c l : norm1 (map (Qmult c) l) == Qabs c * norm1 l.
Proof. unfold norm1. rewrite map_map, <- qsum_map_scale. apply qsum_map_ext. intros x _. apply Qabs_Qmult. Qed.

Lemma norm_max_spec l : 0 <= norm_max l /\ (forall x, In x l -> Qabs x <= norm_max l) /\
  (norm_max l = 0 \/ exists x, In x l /\ norm_max l = Qabs x).
Proof.
  unfold norm_max.
  assert (G: forall l a, let m := fold_left (fun m x => qmax m (Qabs x)) l a in
    a <= m /\ (forall x, In x l -> Qabs x <= m) /\ (m = a \/ exists x, In x l /\ m = Qabs x)).
  { clear l. induction l as [|x l IH]; intros a m; cbn [fold_left] in m.
    - subst m. repeat split; auto; [lra|intros x []].
    - destruct (IH (qmax a (Qabs x))) as (H1 & H2 & H3). fold m in H1, H2, H3. destruct (qmax_spec a (Qabs x)) as (A & B & C).
      split; [lra|]. split.
      + intros y [<-|Hy]; [lra|auto].
      + destruct H3 as [->|(y & Hy & E)]; [|right; exists y; cbn; auto]. destruct C as [-> | ->]; [auto|right; exists x; cbn; auto]. }
  apply G.
Qed.
Lemma norm_max_scale c l : norm_max (map (Qmult c) l) == Qabs c * norm_max l.
Proof.
  destruct (norm_max_spec l) as (A0 & A1 & A2). destruct (norm_max_spec (map (Qmult c) l)) as (B0 & B1 & B2).
  pose proof (Qabs_nonneg c). apply Qle_antisym.
  - destruct B2 as [-> | (y & Hy & ->)]; [apply Qmult_le_0_compat; auto|].
    apply in_map_iff in Hy. destruct Hy as (x & <- & Hx). rewrite Qabs_Qmult. rewrite !(Qmult_comm (Qabs c)).
    apply Qmult_le_compat_r; auto.
  - destruct A2 as [-> | (x & Hx & ->)]; [rewrite Qmult_0_r; auto|]. rewrite <- Qabs_Qmult. apply B1. now apply in_map.
Qed.
Lemma nz_vec_unit nrm v : (forall l, 0 <= nrm l) -> (forall c l, nrm (map (Qmult c) l) == Qabs c * nrm l) ->
  (~ nrm v == 0 -> nrm (nz_vec nrm v) == 1) /\ (nrm v == 0 -> nz_vec nrm v = v).
Proof.
  intros H0 H1. unfold nz_vec. destruct (Qeqb_spec (nrm v) 0) as [E|E]; split; intros H; try tauto.
  rewrite H1. specialize (H0 v). assert (P: 0 < nrm v) by (destruct (Qlt_le_dec 0 (nrm v)); auto; exfalso; apply E; lra).
  rewrite Qabs_pos; [field; lra|]. apply Qle_shift_div_l; lra.
Qed.

(* ---------------------------------------------------------- KernelCenterer *)
Definition dot (d : nat) (u v : list Q) : Q := qsum (map (fun t => nth t u 0 * nth t v 0) (seq 0 d)).
Definition mean_vec (d : nat) (P : list (list Q)) : list Q :=
  map (fun t => qsum (map (fun u => nth t u 0) P) / qn (length P)) (seq 0 d).
Definition sub_vec (d : nat) (u v : list Q) : list Q := map (fun t => nth t u 0 - nth t v 0) (seq 0 d).

Lemma qsum_zero {A} (f : A -> Q) l : (forall x, In x l -> f x == 0) -> qsum (map f l) == 0.
Proof.
  intros H. transitivity (qsum (map (fun _ => 0) l)); [apply qsum_map_ext; auto|]. rewrite qsum_const. ring.
Qed.
Lemma qsum_exchange {A B} (f : A -> B -> Q) l m :
  qsum (map (fun a => qsum (map (fun b => f a b) m)) l) == qsum (map (fun b => qsum (map (fun a => f a b) l)) m).
Proof.
  induction l as [|a l IH]; cbn [map].
  - rewrite qsum_nil. symmetry. apply qsum_zero. reflexivity.
  - rewrite qsum_cons, IH. rewrite <- qsum_map_plus. apply qsum_map_ext. intros b _. rewrite qsum_cons. reflexivity.
Qed.
Lemma nth_map_seq {A} (f : nat -> A) d n t : (t < n)%nat -> nth t (map f (seq 0 n)) d = f t.
Proof.
  intros H. rewrite (nth_indep _ d (f 0%nat)) by (now rewrite map_length, seq_length).
  rewrite map_nth, seq_nth by auto. reflexivity.
Qed.
Lemma dot_comm d u v : dot d u v == dot d v u.
Proof. unfold dot. apply qsum_map_ext. intros; ring. Qed.
Lemma dot_mean d P v : P <> [] -> qsum (map (fun u => dot d u v) P) / qn (length P) == dot d (mean_vec d P) v.
Proof.
  intros Hne. pose proof (qn_neq0 P Hne). unfold dot. rewrite qsum_exchange.
  assert (E: qsum (map (fun b => qsum (map (fun u => nth b u 0 * nth b v 0) P)) (seq 0 d)) / qn (length P) ==
    (1 / qn (length P)) * qsum (map (fun b => qsum (map (fun u => nth b u 0 * nth b v 0) P)) (seq 0 d))) by (field; auto).
  rewrite E, <- qsum_map_scale. apply qsum_map_ext. intros t Ht. apply in_seq in Ht. unfold mean_vec. rewrite nth_map_seq by lia.
  assert (E2: qsum (map (fun u => nth t u 0 * nth t v 0) P) == nth t v 0 * qsum (map (fun u => nth t u 0) P)).
  { rewrite <- qsum_map_scale. apply qsum_map_ext. intros; ring. }
  rewrite E2. field. auto.
Qed.
Lemma dot_sub d u v m : dot d (sub_vec d u m) (sub_vec d v m) == dot d u v - dot d m v - dot d u m + dot d m m.
Proof.
  unfold dot. assert (E: forall f g h k : nat -> Q, forall l, qsum (map f l) - qsum (map g l) - qsum (map h l) + qsum (map k l) == qsum (map (fun t => f t - g t - h t + k t) l)).
  { intros f g h k l. induction l as [|x l IH]; cbn [map]; [rewrite !qsum_nil; ring|]. rewrite !qsum_cons, <- IH. ring. }
  rewrite E. apply qsum_map_ext. intros t Ht. apply in_seq in Ht. unfold sub_vec. rewrite !nth_map_seq by lia. ring.
Qed.
Lemma dot_proper_l d u u' v : (forall t, (t < d)%nat -> nth t u 0 == nth t u' 0) -> dot d u v == dot d u' v.
Proof. intros H. unfold dot. apply qsum_map_ext. intros t Ht. apply in_seq in Ht. rewrite H by lia. reflexivity. Qed.

Lemma kc_main d P T : P <> [] -> (length T <= length P)%nat ->
  let gram U V := map (fun u => map (fun v => dot d u v) V) U in
  exists out, kc_transform (kc_fit (length P) (gram P P)) (length P) (gram T P) = Some out /\
    length out = length P /\
    forall i j u v, nth_error T i = Some u -> nth_error P j = Some v ->
      nth j (nth i out []) 0 == dot d (sub_vec d u (mean_vec d P)) (sub_vec d v (mean_vec d P)).
Proof.
  intros Hne HT gram. unfold kc_transform.
  assert (LG: forall U V, length (gram U V) = length U) by (intros; unfold gram; apply map_length).
  rewrite !LG. rewrite (proj2 (Nat.leb_le _ _) HT). eexists. split; [reflexivity|].
  split. { rewrite app_length, repeat_length, map_length, LG. lia. }
  pose proof (qn_neq0 P Hne) as NQ.
  set (kr := fst (kc_fit (length P) (gram P P))). set (ka := snd (kc_fit (length P) (gram P P))).
  assert (LK: length kr = length P) by (unfold kr, kc_fit; cbn [fst]; now rewrite map_length, seq_length).
  assert (EK: forall j v, nth_error P j = Some v -> nth j kr 0 == dot d (mean_vec d P) v).
  { intros j v Hv. assert (Hj: (j < length P)%nat) by (apply nth_error_Some; congruence).
    unfold kr, kc_fit. cbn [fst]. rewrite nth_map_seq by auto. rewrite LG. unfold gram. rewrite map_map.
    rewrite <- dot_mean by auto.
    assert (E: qsum (map (fun x => nth j (map (fun v0 => dot d x v0) P) 0) P) == qsum (map (fun u => dot d u v) P)).
    { apply qsum_map_ext. intros x _. rewrite (nth_error_nth (map (fun v0 => dot d x v0) P) j 0 (x:=dot d x v)); [reflexivity|].
      rewrite nth_error_map, Hv. reflexivity. }
    rewrite E. reflexivity. }
  assert (EA: ka == dot d (mean_vec d P) (mean_vec d P)).
  { unfold ka. cbn [kc_fit snd]. change (qsum kr / qn (length (gram P P)) == dot d (mean_vec d P) (mean_vec d P)).
    rewrite LG. rewrite <- (dot_mean d P (mean_vec d P)) by auto.
    assert (E: qsum kr == qsum (map (fun u => dot d u (mean_vec d P)) P)).
    { assert (G: Forall2 Qeq kr (map (fun u => dot d u (mean_vec d P)) P)).
      { apply Forall2_nth_Q; [now rewrite map_length|]. intros j Hj. rewrite map_length in Hj.
        destruct (nth_error P j) as [v|] eqn:Ev; [|apply nth_error_None in Ev; lia].
        rewrite (EK j v Ev). rewrite (nth_error_nth (map (fun u => dot d u (mean_vec d P)) P) j 0 (x:=dot d v (mean_vec d P))).
        - apply dot_comm.
        - rewrite nth_error_map, Ev. reflexivity. }
      clear -G. induction G as [|x y l l' H G IH]; [reflexivity|]. rewrite !qsum_cons, IH, H. reflexivity. }
    rewrite E. reflexivity. }
  intros i j u v Hu Hv. assert (Hj: (j < length P)%nat) by (apply nth_error_Some; congruence).
  assert (Hi: (i < length T)%nat) by (apply nth_error_Some; congruence).
  rewrite app_nth1 by (rewrite map_length, LG; auto).
  fold kr ka. unfold gram. rewrite map_map.
  rewrite (nth_error_nth (map _ T) i [] (x:=zip (fun k v0 => v0 - k - qsum (map (fun v1 => dot d u v1) P) / qn (length kr) + ka) kr (map (fun v1 => dot d u v1) P))).
  2:{ rewrite nth_error_map, Hu. reflexivity. }
  rewrite (nth_zip _ _ _ _ 0 0) by (rewrite ?map_length; lia).
  rewrite (nth_error_nth (map (fun v1 => dot d u v1) P) j 0 (x:=dot d u v)) by (rewrite nth_error_map, Hv; reflexivity).
  rewrite dot_sub, LK, EA, (EK j v Hv).
  assert (E: qsum (map (fun v1 => dot d u v1) P) / qn (length P) == dot d u (mean_vec d P)).
  { rewrite (dot_comm d u (mean_vec d P)). rewrite <- dot_mean by auto.
    assert (E: qsum (map (fun v1 => dot d u v1) P) == qsum (map (fun u0 => dot d u0 u) P)) by (apply qsum_map_ext; intros; apply dot_comm).
    rewrite E. reflexivity. }
  rewrite E. ring.
Qed.

(* ------------------------------------------------ DenseMean, AddDummyFeature *)
Lemma dense_mean_at xmean rows j : (j < length xmean)%nat -> rows <> [] ->
  nth j (dense_mean xmean rows) 0 * qn (length rows) == nth j xmean 0 + qsum (map (fun r => nth j r 0) rows).
Proof.
  intros Hj HR. assert (N : 0 < qn (length rows)) by (apply qn_pos; destruct rows; [contradiction|cbn [length]; lia]).
  unfold dense_mean. set (f := fun jv : nat * Q => fold_left (fun v r => v + nth (fst jv) r 0) rows (snd jv) / qn (length rows)).
  rewrite (nth_indep _ 0 (f (0%nat, 0))) by (rewrite map_length, combine_length, seq_length; lia).
  rewrite map_nth, combine_nth by (now rewrite seq_length). rewrite seq_nth by exact Hj. unfold f. cbn [fst snd Nat.add].
  assert (G : forall l a, fold_left (fun v r => v + nth j r 0) l a == a + qsum (map (fun r => nth j r 0) l)).
  { induction l as [|r l IH]; intros a; [unfold qsum; cbn [map fold_left]; ring|]. cbn [fold_left map]. rewrite IH, qsum_cons. ring. }
  rewrite G. field. lra.
Qed.
Lemma dense_mean_length xmean rows : length (dense_mean xmean rows) = length xmean.
Proof. unfold dense_mean. rewrite map_length, combine_length, seq_length. lia. Qed.
