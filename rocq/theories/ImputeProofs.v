From Coq Require Import Qround.
From Verif Require Import QCommon ScaleModel ScaleProofs ScaleMore ImputeModel.
Open Scope Q_scope.

(* ----------------------------------------------------------------- Imputer *)
Lemma present_In col v : In v (present col) <-> In (Some v) col.
Proof.
  unfold present. rewrite in_flat_map. split.
  - intros (c & Hc & H). destruct c as [w|]; [|destruct H]. destruct H as [->|[]]. exact Hc.
  - intros H. exists (Some v). split; cbn; auto.
Qed.

Definition keys_of (order l : list Q) : Prop :=
  (forall v, In v order -> In v l) /\ (forall v, In v l -> exists w, In w order /\ w == v).

Lemma mode_fold (l : list Q) order : forall v0 c0, c0 = 0%nat \/ (In v0 l /\ c0 = qcount v0 l) ->
  (forall v, In v order -> In v l) ->
  let r := fold_left (fun acc v => if Nat.ltb (snd acc) (qcount v l) then (v, qcount v l) else acc) order (v0, c0) in
  (snd r = 0%nat \/ (In (fst r) l /\ snd r = qcount (fst r) l)) /\ (c0 <= snd r)%nat /\
  (forall v, In v order -> (qcount v l <= snd r)%nat).
Proof.
  induction order as [|v order IH]; intros v0 c0 H0 HI; cbn [fold_left].
  - repeat split; auto. intros v [].
  - destruct (IH (fst (if Nat.ltb c0 (qcount v l) then (v, qcount v l) else (v0, c0)))
                 (snd (if Nat.ltb c0 (qcount v l) then (v, qcount v l) else (v0, c0)))) as (A & B & C).
    + destruct (Nat.ltb c0 (qcount v l)); cbn; auto. right. split; auto. apply HI. now left.
    + intros w Hw. apply HI. now right.
    + cbn [snd fst]. rewrite <- surjective_pairing in *. split; [exact A|]. split.
      * etransitivity; [|exact B]. destruct (Nat.ltb_spec c0 (qcount v l)); cbn; lia.
      * intros w [->|Hw]; auto. etransitivity; [|exact B]. destruct (Nat.ltb_spec c0 (qcount w l)); cbn; lia.
Qed.

Lemma qcount_eq v w l : v == w -> qcount v l = qcount w l.
Proof.
  intros E. unfold qcount. f_equal. apply filter_ext. intros a.
  destruct (Qeqb_spec v a), (Qeqb_spec w a); auto; exfalso; rewrite E in *; auto.
Qed.
Lemma qcount_pos v l : In v l -> (0 < qcount v l)%nat.
Proof.
  intros H. unfold qcount. destruct (filter (Qeq_bool v) l) eqn:E; cbn; [|lia].
  assert (HI: In v (filter (Qeq_bool v) l)) by (apply filter_In; split; auto; apply Qeq_bool_iff; reflexivity).
  rewrite E in HI. destruct HI.
Qed.
Lemma mode_spec order l : keys_of order l -> l <> [] ->
  In (mode order l) l /\ forall v, In v l -> (qcount v l <= qcount (mode order l) l)%nat.
Proof.
  intros (H1 & H2) Hne. unfold mode.
  destruct (mode_fold l order 0 0 (or_introl eq_refl) H1) as (A & _ & C). cbv zeta in *.
  set (r := fold_left _ order (0, 0%nat)) in *.
  destruct l as [|x l]; [congruence|].
  destruct A as [A|(A1 & A2)].
  - exfalso. destruct (H2 x (or_introl eq_refl)) as (w & Hw & Ew). specialize (C w Hw). rewrite A in C.
    rewrite (qcount_eq _ _ _ Ew) in C. pose proof (qcount_pos x (x :: l) (or_introl eq_refl)). lia.
  - split; auto. intros v Hv. destruct (H2 v Hv) as (w & Hw & Ew). rewrite <- (qcount_eq _ _ _ Ew), <- A2. auto.
Qed.

(* what the statistic of a feature with at least one present value is *)
Definition is_stat (s : strategy) (l : list Q) (v : Q) : Prop :=
  match s with
  | SMean => v * qn (length l) == qsum l
  | SMedian => is_quantile (1 # 2) l v
  | SMostFrequent => In v l /\ forall w, In w l ->
      (length (filter (Qeq_bool w) l) <= length (filter (Qeq_bool v) l))%nat
  end.

Lemma imp_stat_spec s order l : l <> [] -> (s = SMostFrequent -> keys_of order l) ->
  exists v, imp_stat s order l = Some (Some v) /\ is_stat s l v.
Proof.
  intros Hne Hk. destruct s; cbn [imp_stat is_stat].
  - destruct l as [|x l]; [congruence|]. eexists. split; [reflexivity|].
    assert (~ qn (length (x :: l)) == 0) by (pose proof (qn_pos (length (x :: l)) ltac:(cbn; lia)); lra). field; auto.
  - destruct (quantile_spec (1 # 2) l Hne ltac:(lra)) as (v & E & Hv). rewrite E. exists v. split; auto.
  - eexists. split; [reflexivity|]. apply mode_spec; auto.
Qed.

Lemma imp_fit_spec s : forall cols orders, length orders = length cols ->
  (forall j, (j < length cols)%nat -> present (nth j cols []) <> [] /\
     (s = SMostFrequent -> keys_of (nth j orders []) (present (nth j cols [])))) ->
  exists ms, imp_fit s orders cols = Some ms /\ length ms = length cols /\
    forall j, (j < length cols)%nat -> exists v, nth j ms None = Some v /\ is_stat s (present (nth j cols [])) v.
Proof.
  induction cols as [|c cols IH]; intros orders HL H; cbn [imp_fit].
  - exists []. repeat split; auto. cbn. intros; lia.
  - destruct orders as [|o orders]; [discriminate|]. cbn [hd tl].
    destruct (H 0%nat ltac:(cbn; lia)) as (H1 & H2). cbn [nth] in *.
    destruct (imp_stat_spec s o (present c) H1 H2) as (v & Ev & Sv). rewrite Ev.
    destruct (IH orders) as (ms & E & L & V). { cbn in HL. lia. } { intros j Hj. apply (H (S j)). cbn; lia. }
    rewrite E. exists (Some v :: ms). split; auto. split; [cbn; lia|]. intros [|j] Hj; cbn [nth].
    + eauto.
    + apply V. cbn in Hj; lia.
Qed.

Lemma fill_new_gen {A} (d : A) (order : nat -> nat -> list (nat * nat)) (f : nat -> nat -> A) r c :
  (0 < r)%nat -> (0 < c)%nat -> NoDup (order r c) -> (forall i j, In (i, j) (order r c) <-> (i < r /\ j < c)%nat) ->
  exists m', raw_fill (order r c) f (new_raw d r c) = Some m' /\ rrows m' = r /\ rcols m' = c /\ raw_wf m' /\
    (forall i j, (i < r)%nat -> (j < c)%nat -> nth (i * rstride m' + j) (rdata m') d = f i j).
Proof.
  intros Hr Hc ND HI. pose proof (new_raw_wf d r c Hr Hc) as HW.
  destruct (raw_fill_rows d (order r c) f (new_raw d r c) HW ND HI) as (m' & E & E1 & E2 & E3 & E4 & E5 & _).
  exists m'. cbn [rrows rcols rstride new_raw] in *. split; [exact E|]. split; [exact E1|]. split; [exact E2|].
  split; [unfold raw_wf in *; rewrite E1, E2, E3, E4; exact HW|].
  intros i j Hi Hj. rewrite <- (raw_cell d m' i j) by lia. rewrite E5.
  rewrite (nth_indep _ [] (map (f 0%nat) (seq 0 c))) by (rewrite map_length, seq_length; lia).
  rewrite (map_nth (fun i => map (f i) (seq 0 c))). rewrite seq_nth by auto.
  rewrite (nth_indep _ d (f (0 + i)%nat 0%nat)) by (rewrite map_length, seq_length; lia).
  rewrite (map_nth (f (0 + i)%nat)). now rewrite seq_nth by auto.
Qed.

Lemma imp_transform_spec missing X : raw_wf X -> (rcols X <= length missing)%nat ->
  exists X', imp_transform missing X = Some X' /\ rrows X' = rrows X /\ rcols X' = rcols X /\ raw_wf X' /\
    forall i j, (i < rrows X)%nat -> (j < rcols X)%nat ->
      nth (i * rstride X' + j) (rdata X') None =
      match nth (i * rstride X + j) (rdata X) None with Some v => Some v | None => nth j missing None end.
Proof.
  intros (Hc & Hr & HL) Hm. unfold imp_transform. destruct (Nat.leb_spec (rcols X) (length missing)); [|lia].
  destruct (fill_new_gen (Some 0) col_major
    (fun i j => match nth (i * rstride X + j) (rdata X) None with Some v => Some v | None => nth j missing None end) (rrows X) (rcols X))
    as (m & E & R & C & W & V); try lia; [apply col_major_NoDup|intros; apply col_major_In|].
  exists m. repeat split; auto; try apply W. intros i j Hi Hj. rewrite <- V by auto.
  apply nth_indep. destruct W as (W1 & W2 & W3). rewrite R, C in *.
  pose proof (cell_bound (rstride m) (rcols X) (rrows X) i j Hi Hj). lia.
Qed.

Lemma raw_cols_nth {A} (d : A) (X : raw A) j : (j < rcols X)%nat ->
  nth j (raw_cols d X) [] = map (fun i => nth (i * rstride X + j) (rdata X) d) (seq 0 (rrows X)).
Proof. intros H. unfold raw_cols.
  rewrite (nth_indep _ [] ((fun j => map (fun i => nth (i * rstride X + j) (rdata X) d) (seq 0 (rrows X))) 0%nat)) by (now rewrite map_length, seq_length).
  rewrite (map_nth (fun j => map (fun i => nth (i * rstride X + j) (rdata X) d) (seq 0 (rrows X)))). now rewrite seq_nth. Qed.

Lemma imputer_main s orders X : raw_wf X -> length orders = rcols X ->
  let col j := map (fun i => nth (i * rstride X + j) (rdata X) None) (seq 0 (rrows X)) in
  (forall j, (j < rcols X)%nat -> (exists i v, (i < rrows X)%nat /\ nth (i * rstride X + j) (rdata X) None = Some v) /\
     (s = SMostFrequent -> keys_of (nth j orders []) (present (col j)))) ->
  exists ms, imp_fit s orders (raw_cols None X) = Some ms /\ length ms = rcols X /\
    (forall j, (j < rcols X)%nat -> exists v, nth j ms None = Some v /\ is_stat s (present (col j)) v) /\
    (forall Z, raw_wf Z -> rcols Z = rcols X -> exists Z', imp_transform ms Z = Some Z' /\ rrows Z' = rrows Z /\ rcols Z' = rcols Z /\
       forall i j, (i < rrows Z)%nat -> (j < rcols Z)%nat ->
         let old := nth (i * rstride Z + j) (rdata Z) None in let new := nth (i * rstride Z' + j) (rdata Z') None in
         (old <> None -> new = old) /\ (old = None -> new = nth j ms None) /\ new <> None).
Proof.
  intros W HO col H. destruct (imp_fit_spec s (raw_cols None X) orders) as (ms & E & L & V).
  { unfold raw_cols. now rewrite map_length, seq_length. }
  { unfold raw_cols at 1. rewrite map_length, seq_length. intros j Hj. rewrite raw_cols_nth by auto. destruct (H j Hj) as ((i & v & Hi & Ev) & Hk).
    split; auto. intros E0. assert (HI: In v (present (col j))).
    { apply present_In. unfold col. rewrite <- Ev. apply (in_map (fun i => nth (i * rstride X + j) (rdata X) None)). apply in_seq. lia. }
    fold (col j) in E0. rewrite E0 in HI. destruct HI. }
  assert (LL: length (raw_cols None X) = rcols X) by (unfold raw_cols; now rewrite map_length, seq_length).
  rewrite LL in *. exists ms. split; auto. split; auto.
  assert (V': forall j, (j < rcols X)%nat -> exists v, nth j ms None = Some v /\ is_stat s (present (col j)) v).
  { intros j Hj. destruct (V j Hj) as (v & E1 & E2). rewrite raw_cols_nth in E2 by auto. eauto. }
  split; auto.
  intros Z WZ CZ. destruct (imp_transform_spec ms Z WZ ltac:(lia)) as (Z' & EZ & RZ & CZ' & WZ' & VZ).
  exists Z'. split; [exact EZ|]. split; [exact RZ|]. split; [exact CZ'|]. intros i j Hi Hj. cbv zeta. rewrite VZ by auto.
  destruct (V' j) as (v & E1 & _); [lia|]. rewrite E1.
  destruct (nth (i * rstride Z + j) (rdata Z) None); repeat split; try congruence.
Qed.

(* ------------------------------------------------------- KBinsDiscretizer *)
Lemma kb_scan_spec edges x : forall k ith, let r := kb_scan k ith edges x in
  (ith <= r <= ith + k)%nat /\ (forall b, (ith < b <= r)%nat -> nth b edges 0 <= x) /\
  (r = (ith + k)%nat \/ x < nth (S r) edges 0).
Proof.
  induction k as [|k IH]; intros ith; cbn [kb_scan].
  - split; [lia|]. split; [intros; lia|]. left; lia.
  - destruct (Qleb_spec (nth (S ith) edges 0) x) as [H|H].
    + destruct (IH (S ith)) as (A & B & C). cbv zeta in *. split; [lia|]. split.
      * intros b Hb. destruct (Nat.eq_dec b (S ith)) as [->|]; auto. apply B. lia.
      * destruct C as [C|C]; auto. left. lia.
    + split; [lia|]. split; [intros; lia|]. now right.
Qed.

Definition mono (edges : list Q) : Prop := forall a b, (a <= b < length edges)%nat -> nth a edges 0 <= nth b edges 0.

(* the bin of x: first and last bins are open-ended *)
Definition in_bin (nb : nat) (edges : list Q) (x : Q) (k : nat) : Prop :=
  (k < nb)%nat /\ (k = 0%nat \/ nth k edges 0 <= x) /\ (k = (nb - 1)%nat \/ x < nth (S k) edges 0).

Lemma kb_code_spec nb edges x : (1 <= nb)%nat -> length edges = S nb -> mono edges ->
  in_bin nb edges x (kb_code nb edges x) /\ (forall k, in_bin nb edges x k -> k = kb_code nb edges x).
Proof.
  intros Hn HL HM. unfold kb_code. destruct (kb_scan_spec edges x (nb - 1) 0) as (A & B & C). cbv zeta in *.
  set (r := kb_scan _ _ _ _) in *. split.
  - repeat split; try lia.
    + destruct (Nat.eq_dec r 0); auto. right. apply B. lia.
    + destruct C as [C|C]; auto.
  - intros k (K1 & K2 & K3). destruct (Nat.lt_trichotomy k r) as [H|[H|H]]; auto; exfalso.
    + destruct K3 as [K3|K3]; [lia|]. assert (nth (S k) edges 0 <= x) by (apply B; lia). lra.
    + destruct C as [C|C]; [lia|]. destruct K2 as [K2|K2]; [lia|].
      assert (nth (S r) edges 0 <= nth k edges 0) by (apply HM; lia). lra.
Qed.

Lemma fold_qmin_spec l : forall x, (forall y, In y (x :: l) -> fold_left qmin l x <= y) /\ In (fold_left qmin l x) (x :: l).
Proof.
  induction l as [|z l IH]; intros x; cbn [fold_left].
  - split; [intros y [->|[]]; lra|now left].
  - destruct (IH (qmin x z)) as (A & B). unfold qmin in *. split.
    + intros y [->|[->|Hy]].
      * specialize (A _ (or_introl eq_refl)). destruct (Qleb_spec y z) in A |- *; lra.
      * specialize (A _ (or_introl eq_refl)). destruct (Qleb_spec x y) in A |- *; lra.
      * apply A. now right.
    + destruct B as [B|B]; [|now right; right]. rewrite <- B. destruct (Qle_bool x z); cbn; auto.
Qed.
Lemma fold_qmax_spec l : forall x, (forall y, In y (x :: l) -> y <= fold_left qmax l x) /\ In (fold_left qmax l x) (x :: l).
Proof.
  induction l as [|z l IH]; intros x; cbn [fold_left].
  - split; [intros y [->|[]]; lra|now left].
  - destruct (IH (qmax x z)) as (A & B). unfold qmax in *. split.
    + intros y [->|[->|Hy]].
      * specialize (A _ (or_introl eq_refl)). destruct (Qleb_spec y z) in A |- *; lra.
      * specialize (A _ (or_introl eq_refl)). destruct (Qleb_spec x y) in A |- *; lra.
      * apply A. now right.
    + destruct B as [B|B]; [|now right; right]. rewrite <- B. destruct (Qle_bool x z); cbn; auto.
Qed.

Lemma kb_edges_nth nb mn mx b : (b <= nb)%nat ->
  nth b (map (fun b => mn + qn b / qn nb * (mx - mn)) (seq 0 (S nb))) 0 = mn + qn b / qn nb * (mx - mn).
Proof. intros H. apply (nth_map_seq (fun b => mn + qn b / qn nb * (mx - mn))). lia. Qed.

Lemma qn_div_le a b n : (0 < n)%nat -> (a <= b)%nat -> qn a / qn n <= qn b / qn n.
Proof. intros Hn H. unfold Qdiv. apply Qmult_le_compat_r; [now apply qn_le|]. apply Qinv_le_0_compat, qn_nonneg. Qed.
Lemma qn_div_lt a b n : (0 < n)%nat -> (a < b)%nat -> qn a / qn n < qn b / qn n.
Proof. intros Hn H. unfold Qdiv. apply Qmult_lt_compat_r; [|now apply qn_lt]. apply Qinv_lt_0_compat, qn_pos; auto. Qed.

Lemma kb_uniform_main nb col : (1 <= nb)%nat -> col <> [] ->
  exists edges mn mx, kb_edges_uniform nb col = Some edges /\ length edges = S nb /\
    (forall y, In y col -> mn <= y <= mx) /\ In mn col /\ In mx col /\
    nth 0 edges 0 == mn /\ nth nb edges 0 == mx /\
    (forall b, (b < nb)%nat -> nth (S b) edges 0 - nth b edges 0 == (mx - mn) / qn nb) /\
    mono edges /\ (mn < mx -> forall a b, (a < b <= nb)%nat -> nth a edges 0 < nth b edges 0).
Proof.
  intros Hn Hc. destruct col as [|x l]; [congruence|]. unfold kb_edges_uniform, fmin, fmax.
  destruct (fold_qmin_spec l x) as (A1 & A2). destruct (fold_qmax_spec l x) as (B1 & B2).
  set (mn := fold_left qmin l x) in *. set (mx := fold_left qmax l x) in *.
  assert (Hmm: mn <= mx) by (apply A1; exact B2).
  pose proof (qn_pos nb ltac:(lia)) as Hp.
  exists (map (fun b => mn + qn b / qn nb * (mx - mn)) (seq 0 (S nb))), mn, mx.
  split; [reflexivity|]. split; [now rewrite map_length, seq_length|].
  split; [intros y Hy; split; auto|]. split; [exact A2|]. split; [exact B2|].
  assert (Hnz: ~ qn nb == 0) by lra.
  split; [|split; [|split; [|split]]].
  - rewrite kb_edges_nth by lia. change (qn 0) with 0. field; auto.
  - rewrite kb_edges_nth by lia. field; auto.
  - intros b Hb. rewrite !kb_edges_nth by lia. rewrite qn_S. field; auto.
  - intros a b Hab. rewrite map_length, seq_length in Hab. rewrite !kb_edges_nth by lia.
    assert (qn a / qn nb <= qn b / qn nb) by (apply qn_div_le; lia). nra.
  - intros Hlt a b Hab. rewrite !kb_edges_nth by lia.
    assert (qn a / qn nb < qn b / qn nb) by (apply qn_div_lt; lia). nra.
Qed.

Lemma kb_mid_code nb edges k : (1 <= nb)%nat -> length edges = S nb -> (forall a b, (a < b <= nb)%nat -> nth a edges 0 < nth b edges 0) ->
  (k < nb)%nat -> kb_code nb edges (kb_mid edges k) = k.
Proof.
  intros Hn HL HS Hk. symmetry. apply kb_code_spec; auto.
  - intros a b Hab. destruct (Nat.eq_dec a b) as [->|]; [lra|]. apply Qlt_le_weak, HS. lia.
  - assert (H: nth k edges 0 < nth (S k) edges 0) by (apply HS; lia). unfold kb_mid. repeat split; auto; right; lra.
Qed.

Lemma kb_clamp_nat nb k : (k < nb)%nat -> kb_clamp nb (Z.of_nat k) = k.
Proof. intros H. unfold kb_clamp. destruct (Z.ltb_spec (Z.of_nat k) 0); [lia|]. destruct (Z.ltb_spec (Z.of_nat (nb - 1)) (Z.of_nat k)); [lia|]. lia. Qed.

(* one-hot rows *)
Lemma onehot_fold nb : forall codes f0 out, (forall k, In k codes -> (k < nb)%nat) -> ((f0 + length codes) * nb <= length out)%nat ->
  let r := fold_left (fun out fk => upd out (fst fk * nb + snd fk)%nat (1:Q)) (combine (seq f0 (length codes)) codes) out in
  length r = length out /\
  forall c b, (b < nb)%nat -> (c * nb + b < length out)%nat ->
    nth (c * nb + b) r 0 =
    if (Nat.leb f0 c && Nat.ltb c (f0 + length codes) && Nat.eqb b (nth (c - f0) codes 0%nat))%bool then 1 else nth (c * nb + b) out 0.
Proof.
  induction codes as [|k codes IH]; intros f0 out Hk HL; cbn [length seq combine fold_left] in *.
  - split; auto. intros c b Hb Hc. destruct (Nat.leb_spec f0 c); auto. cbn [andb]. destruct (Nat.ltb_spec c (f0 + 0)); auto; lia.
  - cbn [fst snd]. assert (Hk0: (k < nb)%nat) by (apply Hk; now left).
    destruct (IH (S f0) (upd out (f0 * nb + k)%nat 1)) as (A & B).
    { intros; apply Hk; now right. } { rewrite upd_length. lia. }
    rewrite upd_length in *. split; [exact A|]. intros c b Hb Hc. rewrite B by auto.
    assert (Hlen: (f0 * nb + k < length out)%nat) by nia.
    assert (HU: nth (c * nb + b) (upd out (f0 * nb + k) 1) 0 = if (Nat.eqb c f0 && Nat.eqb b k)%bool then 1 else nth (c * nb + b) out 0).
    { destruct (Nat.eqb_spec c f0) as [->|Hn0]; cbn [andb].
      - destruct (Nat.eqb_spec b k) as [->|].
        + apply nth_error_nth. now apply nth_error_upd_same.
        + apply nth_error_nth. rewrite nth_error_upd_other by lia. now apply nth_error_nth'.
      - apply nth_error_nth. rewrite nth_error_upd_other. { now apply nth_error_nth'. }
        intros E. apply Hn0. destruct (cell_inj nb f0 k c b Hk0 Hb E) as (? & ?). congruence. }
    rewrite HU. destruct (Nat.leb_spec (S f0) c), (Nat.leb_spec f0 c), (Nat.ltb_spec c (S f0 + length codes)), (Nat.ltb_spec c (f0 + S (length codes)));
      cbn [andb]; try lia.
    + replace (c - f0)%nat with (S (c - S f0)) by lia. cbn [nth]. destruct (Nat.eqb_spec c f0); [lia|]. reflexivity.
    + destruct (Nat.eqb_spec c f0); [lia|]. reflexivity.
    + replace c with f0 by lia. rewrite Nat.eqb_refl, Nat.sub_diag. reflexivity.
    + destruct (Nat.eqb_spec c f0); [lia|]. reflexivity.
Qed.

Lemma argmax_onehot nb f row k : (k < nb)%nat ->
  (forall b, (b < nb)%nat -> nth (f * nb + b) row 0 = if Nat.eqb b k then 1 else 0) -> kb_argmax nb f row = k.
Proof.
  intros Hk HR. unfold kb_argmax.
  assert (G: forall m b0 ith, (b0 + m = nb)%nat -> (ith < b0)%nat -> ith = 0%nat \/ ith = k -> ((k < b0)%nat -> ith = k) ->
    fold_left (fun ith c => if Qltb (nth (f * nb + ith) row 0) (nth c row 0) then (c - f * nb)%nat else ith) (seq (f * nb + b0) m) ith = k).
  { induction m as [|m IH]; intros b0 ith Hm Hi Ho Hkb; cbn [seq fold_left].
    - apply Hkb. lia.
    - rewrite !HR by lia. replace (f * nb + b0 - f * nb)%nat with b0 by lia. replace (S (f * nb + b0)) with (f * nb + S b0)%nat by lia.
      destruct (Nat.eqb_spec b0 k) as [->|Hn].
      + destruct (Nat.eqb_spec ith k); [lia|]. cbn. apply IH; lia.
      + destruct (Nat.eqb_spec ith k) as [->|Hn2].
        * cbn. apply IH; lia.
        * cbn. apply IH; [lia|lia|lia|]. intros. apply Hkb. lia. }
  apply (G (nb - 1)%nat 1%nat 0%nat); lia.
Qed.

Lemma kb_onehot_main nb edges row : (1 <= nb)%nat -> length edges = length row ->
  length (kb_onehot_row nb edges row) = (length row * nb)%nat /\
  (forall f b, (f < length row)%nat -> (b < nb)%nat ->
     nth (f * nb + b) (kb_onehot_row nb edges row) 0 =
     if Nat.eqb b (kb_code nb (nth f edges []) (nth f row 0)) then 1 else 0) /\
  kb_inverse_onehot nb edges (kb_onehot_row nb edges row) =
    zip (fun e x => kb_mid e (kb_code nb e x)) edges row.
Proof.
  intros Hn HL.
  assert (LO: length (kb_ordinal_row nb edges row) = length row) by (unfold kb_ordinal_row; rewrite zip_length; auto).
  assert (HC: forall e x, (kb_code nb e x < nb)%nat).
  { intros e x. unfold kb_code. destruct (kb_scan_spec e x (nb - 1) 0) as (A & _). cbv zeta in A. lia. }
  assert (HN: forall f, (f < length row)%nat -> nth f (kb_ordinal_row nb edges row) 0%nat = kb_code nb (nth f edges []) (nth f row 0)).
  { intros f Hf. unfold kb_ordinal_row. rewrite (nth_zip _ _ _ f [] 0); auto. lia. }
  destruct (onehot_fold nb (kb_ordinal_row nb edges row) 0 (repeat 0 (length (kb_ordinal_row nb edges row) * nb))) as (A & B).
  { intros k Hk. destruct (In_nth _ _ 0%nat Hk) as (f & Hf & <-). rewrite LO in Hf. rewrite HN by auto. apply HC. }
  { rewrite repeat_length. lia. }
  rewrite LO in A, B. rewrite repeat_length in A, B. cbv zeta in *.
  change (fold_left _ _ _) with (kb_onehot_row nb edges row) in A.
  assert (B': forall c b, (b < nb)%nat -> (c * nb + b < length row * nb)%nat -> nth (c * nb + b) (kb_onehot_row nb edges row) 0 =
    if (Nat.leb 0 c && Nat.ltb c (0 + length row) && Nat.eqb b (nth (c - 0) (kb_ordinal_row nb edges row) 0%nat))%bool then 1
    else nth (c * nb + b) (repeat 0 (length row * nb)) 0) by exact B. clear B. rename B' into B.
  set (out := kb_onehot_row nb edges row) in *.
  assert (G: forall f b, (f < length row)%nat -> (b < nb)%nat ->
     nth (f * nb + b) out 0 = if Nat.eqb b (kb_code nb (nth f edges []) (nth f row 0)) then 1 else 0).
  { intros f b Hf Hb. rewrite B by (auto; nia).
    rewrite nth_repeat. replace (f - 0)%nat with f by lia. rewrite HN by auto.
    destruct (Nat.leb_spec 0 f); [|lia]. destruct (Nat.ltb_spec f (0 + length row)); [|lia]. reflexivity. }
  split; [exact A|]. split; [exact G|].
  unfold kb_inverse_onehot.
  apply (nth_ext _ _ 0 0).
  { rewrite map_length, combine_length, seq_length, zip_length by auto. lia. }
  intros f Hf. rewrite map_length, combine_length, seq_length in Hf.
  rewrite (nth_zip _ _ _ f [] 0) by (auto; lia).
  rewrite (nth_indep _ 0 ((fun fe => kb_mid (snd fe) (kb_clamp nb (Z.of_nat (kb_argmax nb (fst fe) out)))) (0%nat, []))) by (rewrite map_length, combine_length, seq_length; lia).
  rewrite (map_nth (fun fe => kb_mid (snd fe) (kb_clamp nb (Z.of_nat (kb_argmax nb (fst fe) out))))).
  rewrite combine_nth by (now rewrite seq_length). rewrite seq_nth by lia. cbn [fst snd Nat.add].
  f_equal. rewrite (argmax_onehot nb f out (kb_code nb (nth f edges []) (nth f row 0))).
  - apply kb_clamp_nat, HC.
  - apply HC.
  - intros b Hb. apply G; lia.
Qed.

Lemma kb_ordinal_inverse nb edges row : (1 <= nb)%nat -> length edges = length row ->
  kb_inverse_ordinal nb edges (map (fun k => qn k) (kb_ordinal_row nb edges row)) =
    zip (fun e x => kb_mid e (kb_code nb e x)) edges row.
Proof.
  intros Hn. revert row. induction edges as [|e edges IH]; intros [|x row] HL; try discriminate; [reflexivity|].
  unfold kb_inverse_ordinal, kb_ordinal_row in *. cbn [zip map]. rewrite IH by (cbn in HL; lia). f_equal. f_equal.
  unfold qn. rewrite Qfloor_Z. apply kb_clamp_nat. unfold kb_code. destruct (kb_scan_spec e x (nb - 1) 0) as (A & _). cbv zeta in A. lia.
Qed.

(* quantile strategy *)
Lemma sortedb_iff l : sortedb l = true <-> Sorted Qle l.
Proof.
  induction l as [|x l IH]; [split; auto|]. destruct l as [|y l].
  - split; [repeat constructor|reflexivity].
  - cbn [sortedb]. rewrite andb_true_iff, Qle_bool_iff. change (sortedb (y :: l) = true <-> Sorted Qle (y :: l)) in IH. rewrite IH. split.
    + intros (H1 & H2). constructor; auto.
    + intros H. inversion H as [|? ? H1 H2]; subst. inversion H2; subst. auto.
Qed.
Lemma kb_quantile_unsorted nb col : ~ Sorted Qle col -> kb_edges_quantile nb col = None.
Proof.
  intros H. unfold kb_edges_quantile. destruct (fmin col); auto. cbn [seq kb_quantiles].
  destruct (sortedb col) eqn:E; auto. apply sortedb_iff in E. contradiction.
Qed.
Lemma qsort_id l : StronglySorted Qle l -> qsort l = l.
Proof.
  induction 1 as [|x l HS IH HF]; [reflexivity|]. cbn [qsort fold_right]. fold (qsort l). rewrite IH.
  destruct l as [|y l]; [reflexivity|]. cbn [qins]. inversion HF; subst. destruct (Qleb_spec x y); [reflexivity|lra].
Qed.
Lemma kb_quantile_sorted nb col : (1 <= nb)%nat -> col <> [] -> Sorted Qle col ->
  exists edges, kb_edges_quantile nb col = Some edges /\ length edges = S nb /\
    forall b, (b <= nb)%nat -> is_quantile (qn b / qn nb) col (nth b edges 0).
Proof.
  intros Hn Hne HS. assert (HSS: StronglySorted Qle col) by (apply Sorted_StronglySorted; auto; intros a b c; apply Qle_trans).
  unfold kb_edges_quantile. destruct (fmin col) eqn:Em; [|destruct col; [congruence|discriminate]]. clear Em.
  assert (G: forall bs, (forall b, In b bs -> (b <= nb)%nat) -> exists qs, kb_quantiles bs nb col = Some qs /\ length qs = length bs /\
     forall i, (i < length bs)%nat -> is_quantile (qn (nth i bs 0%nat) / qn nb) col (nth i qs 0)).
  { induction bs as [|b bs IH]; intros Hb; cbn [kb_quantiles].
    - exists []. split; auto. split; auto. intros i Hi. cbn in Hi; lia.
    - apply sortedb_iff in HS. rewrite HS. destruct (quantile_spec (qn b / qn nb) col) as (v & Ev & Hv); auto; [|rewrite (qsort_id _ HSS) in Ev].
      { assert (H: qn b / qn nb <= qn nb / qn nb) by (apply qn_div_le; [lia|apply Hb; now left]).
        assert (NZ: ~ qn nb == 0) by (pose proof (qn_pos nb ltac:(lia)) as P0; lra).
        assert (E1: qn nb / qn nb == 1) by (field; exact NZ). rewrite E1 in H. exact H. }
      rewrite Ev. destruct IH as (qs & E & L & V); [intros; apply Hb; now right|]. rewrite E.
      exists (v :: qs). split; auto. split; [cbn; lia|]. intros [|i] Hi; cbn [nth]; auto. apply V. cbn in Hi; lia. }
  destruct (G (seq 0 (S nb))) as (qs & E & L & V). { intros b Hb. apply in_seq in Hb. lia. }
  exists qs. rewrite seq_length in *. split; auto. split; auto. intros b Hb. specialize (V b ltac:(lia)). now rewrite seq_nth in V by lia.
Qed.

Lemma kb_clamp_spec nb x : (1 <= nb)%nat -> let k := kb_clamp nb (Qfloor x) in (k < nb)%nat /\
  (x < 0 -> k = 0%nat) /\ (qn nb <= x -> k = (nb - 1)%nat) /\ (0 <= x < qn nb -> qn k <= x < qn k + 1).
Proof.
  intros Hn k. unfold k, kb_clamp. pose proof (Qfloor_le x) as F1. pose proof (Qlt_floor x) as F2.
  rewrite inject_Z_plus in F2. change (inject_Z 1) with 1 in F2.
  assert (M: forall z, (Qfloor x < z)%Z <-> x < inject_Z z).
  { intros z. split; intros H.
    - assert (Qfloor x + 1 <= z)%Z by lia. rewrite Zle_Qle, inject_Z_plus in H0. change (inject_Z 1) with 1 in H0. lra.
    - rewrite Zlt_Qlt. lra. }
  assert (QN: forall n, qn n == inject_Z (Z.of_nat n)) by (intros; unfold qn; reflexivity).
  destruct (Z.ltb_spec (Qfloor x) 0) as [A|A].
  - assert (x < 0) by (apply (M 0%Z); lia). assert (0 <= qn nb) by (rewrite QN; change 0 with (inject_Z 0); rewrite <- Zle_Qle; lia).
    repeat split; try lia; intros; lra.
  - assert (0 <= x). { destruct (Qlt_le_dec x 0) as [L|L]; auto. exfalso. apply (M 0%Z) in L. lia. }
    destruct (Z.ltb_spec (Z.of_nat (nb - 1)) (Qfloor x)) as [B|B].
    + assert (qn nb <= x). { destruct (Qlt_le_dec x (qn nb)) as [L|L]; auto. exfalso. rewrite QN in L. apply M in L. lia. }
      repeat split; try lia; intros; lra.
    + assert (x < qn nb) by (rewrite QN; apply M; lia).
      assert (E: qn (Z.to_nat (Qfloor x)) == inject_Z (Qfloor x)) by (rewrite QN, Z2Nat.id by lia; reflexivity).
      rewrite E. split; [lia|]. split; [intros; lra|]. split; [intros; lra|]. intros _. split; [exact F1|exact F2].
Qed.
Lemma kb_inverse_any nb edges row : (1 <= nb)%nat -> length edges = length row ->
  forall f, (f < length row)%nat -> exists k, (k < nb)%nat /\
    nth f (kb_inverse_ordinal nb edges row) 0 = (1 # 2) * (nth k (nth f edges []) 0 + nth (S k) (nth f edges []) 0) /\
    let x := nth f row 0 in
    (x < 0 -> k = 0%nat) /\ (qn nb <= x -> k = (nb - 1)%nat) /\ (0 <= x < qn nb -> qn k <= x < qn k + 1).
Proof.
  intros Hn HL f Hf. destruct (kb_clamp_spec nb (nth f row 0) Hn) as (A & B & C & D). exists (kb_clamp nb (Qfloor (nth f row 0))).
  split; [exact A|]. split; [|split; [exact B|]; split; [exact C|exact D]].
  unfold kb_inverse_ordinal. rewrite (nth_zip _ edges row f [] 0 0) by lia. reflexivity.
Qed.
