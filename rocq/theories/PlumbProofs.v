From Coq Require Import QArith String Ascii Lqa.
From Verif Require Import Common QCommon SelectModel SelectProofs PlumbModel.
Open Scope nat_scope.

(* ---------------------------------------------------------------- writing distinct positions of a list *)
Section Writes.
Context {A X : Type}.
Variables (pos : X -> nat) (v : X -> A).
Definition writes (l : list X) (a : list A) : list A := fold_left (fun a x => upd a (pos x) (v x)) l a.
Lemma writes_length l : forall a, length (writes l a) = length a.
Proof. unfold writes. induction l as [|x l IH]; intros a; cbn [fold_left]; auto. rewrite IH. apply upd_length. Qed.
Lemma writes_out l q : forall a, ~ In q (map pos l) -> nth_error (writes l a) q = nth_error a q.
Proof.
  unfold writes. induction l as [|x l IH]; intros a H; cbn [fold_left map] in *; auto.
  rewrite IH by (intros I; apply H; now right). apply nth_error_upd_other. intros E. apply H. now left.
Qed.
Lemma writes_in l x : forall a, NoDup (map pos l) -> In x l -> pos x < length a -> nth_error (writes l a) (pos x) = Some (v x).
Proof.
  induction l as [|y l IH]; intros a ND I L; [contradiction|]. cbn [map] in ND. inversion ND as [|? ? N1 N2]; subst.
  change (writes (y :: l) a) with (writes l (upd a (pos y) (v y))).
  destruct I as [->|I].
  - rewrite writes_out by assumption. now apply nth_error_upd_same.
  - apply IH; auto. rewrite upd_length. exact L.
Qed.
End Writes.

Lemma in_cells n k i j : In (i, j) (cells n k) <-> i < n /\ j < k.
Proof. unfold cells. rewrite in_prod_iff, !in_seq. lia. Qed.

Lemma div_mod_inj s a b c d : b < s -> d < s -> a * s + b = c * s + d -> a = c /\ b = d.
Proof. intros. assert (a = c) by nia. subst. lia. Qed.

Lemma NoDup_map_inj {X Y} (g : X -> Y) (l : list X) : NoDup l -> (forall x y, In x l -> In y l -> g x = g y -> x = y) -> NoDup (map g l).
Proof.
  induction 1 as [|x l N ND IH]; intros H; cbn [map]; constructor.
  - rewrite in_map_iff. intros (y & E & I). apply N. replace x with y; auto. apply H; cbn; auto.
  - apply IH. intros a b Ia Ib. apply H; cbn; auto.
Qed.
Lemma NoDup_prod {X Y} (l : list X) (l' : list Y) : NoDup l -> NoDup l' -> NoDup (list_prod l l').
Proof.
  intros H H'. induction H as [|x l N ND IH]; cbn [list_prod]; [constructor|]. apply NoDup_app_iff. split; [|split; auto].
  - apply NoDup_map_inj; auto. congruence.
  - intros [a b] I1 I2. rewrite in_map_iff in I1. destruct I1 as (y & E & I1). injection E as <- <-. apply in_prod_iff in I2. tauto.
Qed.
Lemma cells_nodup n k : NoDup (cells n k).
Proof. apply NoDup_prod; apply seq_NoDup. Qed.

Lemma cells_pos_nodup off n k s : k <= s -> NoDup (map (fun rc => off + (fst rc * s + snd rc)) (cells n k)).
Proof.
  intros H. apply NoDup_map_inj; [apply cells_nodup|]. intros [a b] [c d] I1 I2 E. apply in_cells in I1, I2. cbn [fst snd] in E.
  destruct (div_mod_inj s a b c d) as [-> ->]; auto; lia.
Qed.

(* ---------------------------------------------------------------- memory *)
Section Mem.
Context {A : Type}.
Variable z : A.
Implicit Types (m : mem A) (h : hdr).

Definition cell m (a q : nat) : option A := match nth_error (arrs m) a with Some l => nth_error l q | None => None end.
Definition in_region h (q : nat) : Prop := exists i j, i < h_rows h /\ j < h_cols h /\ q = h_off h + (i * h_stride h + j).
Definition wf_h m h : Prop :=
  h_cols h <= h_stride h /\ (forall i j, i < h_rows h -> j < h_cols h -> i * h_stride h + j < h_len h) /\
  exists a, nth_error (arrs m) (h_arr h) = Some a /\ h_off h + h_len h <= length a.

Lemma hat_cell m h i j : wf_h m h -> i < h_rows h -> j < h_cols h -> hat m h i j = cell m (h_arr h) (h_off h + (i * h_stride h + j)).
Proof.
  intros (W1 & W2 & a & Ea & W3) Hi Hj. unfold hat, dget, cell. specialize (W2 i j Hi Hj).
  destruct (Nat.ltb_spec i (h_rows h)); [|lia]. destruct (Nat.ltb_spec j (h_cols h)); [|lia]. cbn [andb].
  destruct (Nat.ltb_spec (i * h_stride h + j) (h_len h)); [|lia]. reflexivity.
Qed.

(* a loop of writes into one array; the values may be read from the memory but do not change *)
Lemma iter_dset {X} (g : X -> mem A -> option A) (pos : X -> nat) (v : X -> A) h (a0 : list A) l : forall m a,
  nth_error (arrs m) (h_arr h) = Some a -> length a = length a0 -> h_off h + h_len h <= length a0 ->
  (forall x, In x l -> pos x < h_len h) ->
  (forall x a', In x l -> length a' = length a0 -> g x (mkmem (upd (arrs m) (h_arr h) a') (hdrs m) (tabs m)) = Some (v x)) ->
  iter_opt (fun x m => match g x m with Some w => dset m h (pos x) w | None => None end) l m =
  Some (mkmem (upd (arrs m) (h_arr h) (writes (fun x => h_off h + pos x) v l a)) (hdrs m) (tabs m)).
Proof.
  induction l as [|x l IH]; intros m a Ea La Lh Hp Hg; cbn [iter_opt].
  - unfold writes. cbn [fold_left]. rewrite upd_same by exact Ea. now destruct m.
  - assert (G0: g x m = Some (v x)).
    { rewrite <- (Hg x a); [|now left|exact La]. rewrite upd_same by exact Ea. now destruct m. }
    rewrite G0. unfold dset at 1. rewrite Ea.
    assert (Px: pos x < h_len h) by (apply Hp; now left).
    destruct (Nat.ltb_spec (pos x) (h_len h)); [|lia].
    destruct (Nat.ltb_spec (h_off h + pos x) (length a)); [|lia].
    assert (Hlt: h_arr h < length (arrs m)) by (apply nth_error_Some; now rewrite Ea).
    rewrite (IH (mkmem (upd (arrs m) (h_arr h) (upd a (h_off h + pos x) (v x))) (hdrs m) (tabs m)) (upd a (h_off h + pos x) (v x))).
    + cbn [arrs hdrs tabs]. rewrite upd_upd. reflexivity.
    + cbn [arrs]. now apply nth_error_upd_same.
    + rewrite upd_length. exact La.
    + exact Lh.
    + intros y I. apply Hp. now right.
    + intros y a' I L'. cbn [arrs hdrs tabs]. rewrite upd_upd. apply Hg; [now right|exact L'].
Qed.

Definition after_fill m h n k (f : nat -> nat -> A) (a : list A) : mem A :=
  mkmem (upd (arrs m) (h_arr h) (writes (fun rc => h_off h + (fst rc * h_stride h + snd rc)) (fun rc => f (fst rc) (snd rc)) (cells n k) a)) (hdrs m) (tabs m).

Lemma iter_opt_ext {X} (f g : X -> mem A -> option (mem A)) l : forall m, (forall x m, In x l -> f x m = g x m) -> iter_opt f l m = iter_opt g l m.
Proof.
  induction l as [|x l IH]; intros m H; cbn [iter_opt]; auto. rewrite (H x m) by now left.
  destruct (g x m); auto. apply IH. intros. apply H. now right.
Qed.

Lemma fill_spec m p h n k f a : nth_error (hdrs m) p = Some h -> nth_error (arrs m) (h_arr h) = Some a -> wf_h m h -> n <= h_rows h -> k <= h_cols h ->
  fill m p n k f = Some (after_fill m h n k f a).
Proof.
  intros Eh Ea (W1 & W2 & a' & Ea' & W3) Hn Hk. rewrite Ea in Ea'. injection Ea' as <-. unfold fill. rewrite Eh. unfold after_fill.
  rewrite <- (iter_dset (fun rc _ => Some (f (fst rc) (snd rc))) (fun rc => fst rc * h_stride h + snd rc) (fun rc => f (fst rc) (snd rc)) h a (cells n k) m a Ea eq_refl W3).
  - apply iter_opt_ext. intros [i j] m' I. apply in_cells in I. cbn [fst snd]. unfold hset.
    destruct (Nat.ltb_spec i (h_rows h)); [|lia]. destruct (Nat.ltb_spec j (h_cols h)); [|lia]. reflexivity.
  - intros [i j] I. apply in_cells in I. cbn [fst snd]. apply W2; lia.
  - reflexivity.
Qed.

Lemma cell_after_in m h n k f a i j : nth_error (arrs m) (h_arr h) = Some a -> wf_h m h -> n <= h_rows h -> k <= h_cols h -> i < n -> j < k ->
  cell (after_fill m h n k f a) (h_arr h) (h_off h + (i * h_stride h + j)) = Some (f i j).
Proof.
  intros Ea (W1 & W2 & a' & Ea' & W3) Hn Hk Hi Hj. rewrite Ea in Ea'. injection Ea' as <-. unfold cell, after_fill. cbn [arrs].
  rewrite nth_error_upd_same by (apply nth_error_Some; now rewrite Ea).
  change (h_off h + (i * h_stride h + j)) with ((fun rc : nat * nat => h_off h + (fst rc * h_stride h + snd rc)) (i, j)).
  rewrite writes_in; auto.
  - apply cells_pos_nodup. lia.
  - now apply in_cells.
  - cbn [fst snd]. specialize (W2 i j). lia.
Qed.

Lemma cell_after_out m h n k f a b q : nth_error (arrs m) (h_arr h) = Some a -> n <= h_rows h -> k <= h_cols h -> (b = h_arr h -> ~ in_region h q) ->
  cell (after_fill m h n k f a) b q = cell m b q.
Proof.
  intros Ea Hn Hk Ho. unfold cell, after_fill. cbn [arrs]. destruct (Nat.eq_dec b (h_arr h)) as [->|N].
  - rewrite nth_error_upd_same by (apply nth_error_Some; now rewrite Ea). rewrite Ea. apply writes_out.
    rewrite in_map_iff. intros ([i j] & E & I). apply in_cells in I. cbn [fst snd] in E. apply Ho; auto. exists i, j. lia.
  - rewrite nth_error_upd_other by auto. reflexivity.
Qed.

Lemma wf_after m h' h n k f a : nth_error (arrs m) (h_arr h) = Some a -> wf_h m h' -> wf_h (after_fill m h n k f a) h'.
Proof.
  intros Ea (W1 & W2 & b & Eb & W3). split; [exact W1|split; [exact W2|]]. unfold after_fill. cbn [arrs].
  destruct (Nat.eq_dec (h_arr h') (h_arr h)) as [E|N].
  - rewrite E in *. rewrite Ea in Eb. injection Eb as <-. eexists. split; [apply nth_error_upd_same; apply nth_error_Some; now rewrite Ea|].
    rewrite writes_length. exact W3.
  - exists b. rewrite nth_error_upd_other by auto. auto.
Qed.

(* destinations and what they show *)
Definition dst_ok m (o : obj) (n k : nat) : Prop :=
  match o with
  | ONil => True
  | ODense p => exists h, nth_error (hdrs m) p = Some h /\ h_rows h = n /\ h_cols h = k /\ wf_h m h
  | ORaw h => h_rows h = n /\ h_cols h = k /\ wf_h m h
  | OTab t r c => r = n /\ c = k /\ exists rows, nth_error (tabs m) t = Some rows /\ length rows = n /\ Forall (fun row => length row = k) rows
  end.
Definition is_empty_dense m (o : obj) : Prop := exists p h, o = ODense p /\ nth_error (hdrs m) p = Some h /\ h_stride h = 0 /\ h_len h = 0 /\ h_rows h = 0 /\ h_cols h = 0.
Definition oat m (o : obj) (i j : nat) : option A :=
  match o with ONil => None | ODense p => label_at m p i j | ORaw h => hat m h i j | OTab t _ _ => tat m t i j end.
(* the cells that belong to a destination *)
Definition owns m (o : obj) (a q : nat) : Prop :=
  match o with
  | ODense p => exists h, nth_error (hdrs m) p = Some h /\ h_arr h = a /\ in_region h q
  | ORaw h => h_arr h = a /\ in_region h q
  | _ => False
  end.
(* only the destination changed *)
Definition frame m (o : obj) m' : Prop :=
  (forall a q, a < length (arrs m) -> ~ owns m o a q -> cell m' a q = cell m a q) /\
  (forall t, match o with OTab t' _ _ => t <> t' | _ => True end -> nth_error (tabs m') t = nth_error (tabs m) t) /\
  (forall q, q < length (hdrs m) -> o <> ODense q -> nth_error (hdrs m') q = nth_error (hdrs m) q).

Lemma new_wf m r c (data : list A) m1 h : new_array m r c data = (m1, h) -> length data = r * c -> wf_h m1 h.
Proof.
  unfold new_array. intros E L. injection E as <- <-. split; [cbn; lia|]. split; [cbn; intros; nia|]. exists data. cbn [arrs h_arr h_off h_len].
  rewrite nth_error_app2, Nat.sub_diag by lia. split; [reflexivity|lia].
Qed.

Lemma copy_same m h : 0 < h_len h -> copy_raw m h h = Some m.
Proof. intros H. unfold copy_raw. destruct (Nat.eqb_spec (h_len h) 0); [lia|]. rewrite !Nat.eqb_refl. reflexivity. Qed.

Lemma wf_pos m h : wf_h m h -> 0 < h_rows h -> 0 < h_cols h -> 0 < h_len h /\ 0 < h_stride h.
Proof. intros (W1 & W2 & _) Hr Hc. specialize (W2 0 0 Hr Hc). lia. Qed.

(* ---- the loop that writes a matrix without raw data *)
Lemma iter_tset {X} (g : X -> mem A -> option A) (pos : X -> nat * nat) (v : X -> A) t n k l : forall m rows,
  nth_error (tabs m) t = Some rows -> length rows = n -> Forall (fun row => length row = k) rows ->
  (forall x, In x l -> fst (pos x) < n /\ snd (pos x) < k) ->
  (forall x tb, In x l -> g x (mkmem (arrs m) (hdrs m) tb) = Some (v x)) ->
  NoDup (map pos l) ->
  exists rows', iter_opt (fun x m => match g x m with Some w => tset m t (fst (pos x)) (snd (pos x)) w | None => None end) l m =
    Some (mkmem (arrs m) (hdrs m) (upd (tabs m) t rows')) /\ length rows' = n /\ Forall (fun row => length row = k) rows' /\
    (forall x, In x l -> (match nth_error rows' (fst (pos x)) with Some row => nth_error row (snd (pos x)) | None => None end) = Some (v x)) /\
    (forall i j, ~ In (i, j) (map pos l) -> (match nth_error rows' i with Some row => nth_error row j | None => None end) = (match nth_error rows i with Some row => nth_error row j | None => None end)).
Proof.
  induction l as [|x l IH]; intros m rows Et Ln Hk Hp Hg ND; cbn [iter_opt].
  - exists rows. rewrite upd_same by exact Et. destruct m. cbn. repeat split; auto. contradiction.
  - assert (G0: g x m = Some (v x)).
    { specialize (Hg x (tabs m) (or_introl eq_refl)). now destruct m. }
    rewrite G0. destruct (Hp x (or_introl eq_refl)) as [P1 P2]. destruct (pos x) as [i j] eqn:Epx. cbn [fst snd] in *.
    unfold tset at 1. rewrite Et.
    destruct (nth_error rows i) as [row|] eqn:Er; [|apply nth_error_None in Er; lia].
    assert (Lr: length row = k) by (rewrite Forall_forall in Hk; apply Hk; eapply nth_error_In; eassumption).
    destruct (Nat.ltb_spec j (length row)); [|lia].
    cbn [map] in ND. rewrite Epx in ND. inversion ND as [|? ? N1 N2]; subst.
    set (rows1 := upd rows i (upd row j (v x))).
    assert (Ht: t < length (tabs m)) by (apply nth_error_Some; now rewrite Et).
    destruct (IH (mkmem (arrs m) (hdrs m) (upd (tabs m) t rows1)) rows1) as (rows' & E' & L' & K' & I' & O'); cbn [arrs hdrs tabs].
    + now apply nth_error_upd_same.
    + unfold rows1. now rewrite upd_length.
    + apply Forall_forall. intros r Ir. apply In_nth_error in Ir. destruct Ir as [q Eq]. unfold rows1 in Eq. rewrite nth_error_upd in Eq.
      destruct (Nat.eqb_spec i q); [destruct (q <? length rows); [|discriminate]; injection Eq as <-; now rewrite upd_length|].
      rewrite Forall_forall in Hk. apply Hk. eapply nth_error_In; eassumption.
    + intros y I. apply Hp. now right.
    + intros y tb I. apply Hg. now right.
    + exact N2.
    + exists rows'. split; [rewrite E'; cbn [arrs hdrs tabs]; now rewrite upd_upd|]. split; [exact L'|split; [exact K'|split]].
      * intros y [<-|I]; [|now apply I']. rewrite Epx. cbn [fst snd]. rewrite O' by exact N1.
        unfold rows1. rewrite nth_error_upd_same by (apply nth_error_Some; now rewrite Er). now apply nth_error_upd_same.
      * intros i' j' N. cbn [map] in N. rewrite Epx in N. rewrite O' by (intros I; apply N; now right).
        unfold rows1. rewrite nth_error_upd. destruct (Nat.eqb_spec i i') as [<-|Ni]; [|reflexivity].
        destruct (Nat.ltb_spec i (length rows)); [|lia]. rewrite Er. apply nth_error_upd_other. intros E. apply N. left. congruence.
Qed.

Lemma cells_pairs_nodup n k : NoDup (map (fun rc : nat * nat => rc) (cells n k)).
Proof. rewrite map_id. apply cells_nodup. Qed.

Lemma copy_tab m t p h n k f rows : nth_error (hdrs m) p = Some h -> wf_h m h -> h_rows h = n -> h_cols h = k ->
  (forall i j, i < n -> j < k -> hat m h i j = Some (f i j)) ->
  nth_error (tabs m) t = Some rows -> length rows = n -> Forall (fun row => length row = k) rows ->
  exists m', from_dense m (OTab t n k) p = Some m' /\ arrs m' = arrs m /\ hdrs m' = hdrs m /\ (forall t', t' <> t -> nth_error (tabs m') t' = nth_error (tabs m) t') /\
  forall i j, i < n -> j < k -> tat m' t i j = Some (f i j).
Proof.
  intros Eh W Hr Hc Hf Et Ln Hk. unfold from_dense. rewrite Eh, Hr, Hc.
  destruct (iter_tset (fun rc m => dget m h (fst rc * h_stride h + snd rc)) (fun rc => rc) (fun rc => f (fst rc) (snd rc)) t n k (cells n k) m rows) as (rows' & E & L' & K' & I' & O'); auto.
  - intros [i j] I. now apply in_cells in I.
  - intros [i j] tb I. apply in_cells in I. cbn [fst snd]. rewrite <- (Hf i j) by tauto. unfold hat. rewrite Hr, Hc.
    destruct (Nat.ltb_spec i n); [|lia]. destruct (Nat.ltb_spec j k); [|lia]. reflexivity.
  - apply cells_pairs_nodup.
  - eexists. split; [exact E|]. cbn [arrs hdrs tabs]. split; [reflexivity|split; [reflexivity|split]].
    + intros t' N. apply nth_error_upd_other; auto.
    + intros i j Hi Hj. unfold tat. cbn [tabs]. rewrite nth_error_upd_same by (apply nth_error_Some; now rewrite Et).
      specialize (I' (i, j)). cbn [fst snd] in I'. apply I'. now apply in_cells.
Qed.

Lemma concat_len (rows : list (list A)) n k : length rows = n -> Forall (fun row => length row = k) rows -> length (concat rows) = n * k.
Proof. intros L F. revert n L. induction F as [|r l Hr F IH]; intros n L; cbn in *; subst n; [reflexivity|]. rewrite app_length, (IH _ eq_refl), Hr. reflexivity. Qed.

(* a pointer to a header that is not on an existing array, filled *)
Lemma push_nth m h : nth_error (hdrs (fst (push m h))) (snd (push m h)) = Some h.
Proof. unfold push. cbn [fst snd hdrs]. rewrite nth_error_app2, Nat.sub_diag by lia. reflexivity. Qed.

(* the memory seen by the caller is that of m *)
Definition extends m m1 : Prop :=
  (forall a, a < length (arrs m) -> nth_error (arrs m1) a = nth_error (arrs m) a) /\ tabs m1 = tabs m /\
  (forall q, q < length (hdrs m) -> nth_error (hdrs m1) q = nth_error (hdrs m) q).

Lemma frame_fill m m1 o h n k f a : extends m m1 -> nth_error (arrs m1) (h_arr h) = Some a -> n <= h_rows h -> k <= h_cols h ->
  (h_arr h < length (arrs m) -> forall q, in_region h q -> owns m o (h_arr h) q) -> frame m o (after_fill m1 h n k f a).
Proof.
  intros (E1 & E2 & E3) Ea Hn Hk Ho. split; [|split].
  - intros b q Hb N. rewrite cell_after_out; auto.
    + unfold cell. now rewrite E1.
    + intros -> R. apply N. now apply Ho.
  - intros t _. unfold after_fill. cbn [tabs]. now rewrite E2.
  - intros q Hq _. unfold after_fill. cbn [hdrs]. now apply E3.
Qed.

(* the common case: a Dense over memory of the right size has been found or made, is filled and handed back *)
Theorem std_nonempty m o n k f : 0 < n -> 0 < k -> dst_ok m o n k -> o <> ONil -> forall nout,
  exists m' p, predict_std z m o nout n k f = Some (m', p) /\ (forall i j, i < n -> j < k -> label_at m' p i j = Some (f i j)) /\
  (forall i j, i < n -> j < k -> oat m' o i j = Some (f i j)) /\ frame m o m'.
Proof.
  intros Hn Hk D ON nout. destruct o as [|p|h|t r c]; [congruence| | |].
  - destruct D as (h & Eh & Hr & Hc & W). destruct (wf_pos m h W) as [P1 P2]; try lia.
    pose proof W as (W1 & W2 & a & Ea & W3).
    unfold predict_std. cbn [to_dense]. rewrite Eh. destruct (Nat.eqb_spec (h_stride h) 0); [lia|].
    rewrite (fill_spec m p h n k f a) by (auto; lia). unfold from_dense, after_fill. cbn [hdrs]. rewrite Eh. rewrite copy_same by exact P1.
    fold (after_fill m h n k f a). exists (after_fill m h n k f a), p. split; [reflexivity|].
    assert (R: forall i j, i < n -> j < k -> label_at (after_fill m h n k f a) p i j = Some (f i j)).
    { intros i j Hi Hj. unfold label_at. replace (nth_error (hdrs (after_fill m h n k f a)) p) with (Some h) by (symmetry; exact Eh).
      rewrite hat_cell by (try lia; now apply wf_after). apply cell_after_in; auto; lia. }
    split; [exact R|split; [exact R|]]. apply frame_fill; auto; try lia.
    + repeat split; auto.
    + intros _ q I. exists h. auto.
  - destruct D as (Hr & Hc & W). destruct (wf_pos m h W) as [P1 P2]; try lia.
    pose proof W as (W1 & W2 & a & Ea & W3).
    unfold predict_std. cbn [to_dense]. unfold push. set (m1 := mkmem (arrs m) (hdrs m ++ [h]) (tabs m)). set (p := length (hdrs m)).
    assert (Eh: nth_error (hdrs m1) p = Some h) by (unfold m1, p; cbn [hdrs]; rewrite nth_error_app2, Nat.sub_diag by lia; reflexivity).
    rewrite Eh. destruct (Nat.eqb_spec (h_stride h) 0); [lia|].
    assert (W': wf_h m1 h) by exact W.
    rewrite (fill_spec m1 p h n k f a) by (auto; lia). unfold from_dense, after_fill. cbn [hdrs]. rewrite Eh. rewrite copy_same by exact P1.
    fold (after_fill m1 h n k f a). exists (after_fill m1 h n k f a), p. split; [reflexivity|].
    assert (R: forall i j, i < n -> j < k -> hat (after_fill m1 h n k f a) h i j = Some (f i j)).
    { intros i j Hi Hj. rewrite hat_cell by (try lia; now apply wf_after). apply cell_after_in; auto; lia. }
    split; [|split; [exact R|]].
    + intros i j Hi Hj. unfold label_at. replace (nth_error (hdrs (after_fill m1 h n k f a)) p) with (Some h) by (symmetry; exact Eh). now apply R.
    + apply frame_fill; auto; try lia; [|intros _ q I; split; auto]. unfold m1. repeat split; auto. cbn [hdrs]. intros q Hq. now apply nth_error_app1.
  - destruct D as (-> & -> & rows & Et & Ln & Fk).
    unfold predict_std. cbn [to_dense]. rewrite Et. unfold new_array, push. cbn [arrs hdrs tabs].
    set (h := mkh (length (arrs m)) 0 n k k (n * k)). set (m1 := mkmem (arrs m ++ [concat rows]) (hdrs m ++ [h]) (tabs m)). set (p := length (hdrs m)).
    assert (Eh: nth_error (hdrs m1) p = Some h) by (unfold m1, p; cbn [hdrs]; rewrite nth_error_app2, Nat.sub_diag by lia; reflexivity).
    assert (Ea: nth_error (arrs m1) (h_arr h) = Some (concat rows)) by (unfold m1, h; cbn [arrs h_arr]; rewrite nth_error_app2, Nat.sub_diag by lia; reflexivity).
    assert (W: wf_h m1 h).
    { split; [cbn; lia|]. split; [cbn; intros; nia|]. exists (concat rows). split; [exact Ea|]. rewrite (concat_len rows n k) by auto. cbn. lia. }
    change (hdrs m ++ [h]) with (hdrs m1). rewrite Eh. cbn [h_stride h]. destruct (Nat.eqb_spec k 0); [lia|].
    rewrite (fill_spec m1 p h n k f (concat rows)) by (auto; cbn; lia). set (m2 := after_fill m1 h n k f (concat rows)).
    assert (R: forall i j, i < n -> j < k -> hat m2 h i j = Some (f i j)).
    { intros i j Hi Hj. unfold m2. rewrite hat_cell by (try (cbn; lia); now apply wf_after). apply cell_after_in; auto; cbn; lia. }
    destruct (copy_tab m2 t p h n k f rows) as (m3 & E3 & A3 & H3 & T3 & F3); auto.
    { apply wf_after; auto. }
    rewrite E3. exists m3, p. split; [reflexivity|split; [|split; [exact F3|]]].
    + intros i j Hi Hj. unfold label_at. rewrite H3. replace (nth_error (hdrs m2) p) with (Some h) by (symmetry; exact Eh).
      unfold hat, dget in *. rewrite A3. now apply R.
    + destruct (frame_fill m m1 (OTab t n k) h n k f (concat rows)) as (F1 & F2 & F4); auto; cbn; try lia.
      { unfold m1. repeat split; cbn [arrs hdrs]; intros; now apply nth_error_app1. }
      split; [|split].
      * intros b q Hb No. unfold cell. rewrite A3. apply F1; auto.
      * intros t' N. rewrite T3 by exact N. apply F2. exact N.
      * intros q Hq N. rewrite H3. apply F4; auto.
Qed.

(* nil or an empty Dense: new memory is used *)
Theorem std_nil m n k f : 0 < n -> 0 < k ->
  exists m' p, predict_std z m ONil (Some k) n k f = Some (m', p) /\ (forall i j, i < n -> j < k -> label_at m' p i j = Some (f i j)) /\ frame m ONil m'.
Proof.
  intros Hn Hk. unfold predict_std. cbn [to_dense]. unfold push. set (m1 := mkmem (arrs m) (hdrs m ++ [h_empty]) (tabs m)). set (p := length (hdrs m)).
  assert (Eh: nth_error (hdrs m1) p = Some h_empty) by (unfold m1, p; cbn [hdrs]; rewrite nth_error_app2, Nat.sub_diag by lia; reflexivity).
  rewrite Eh. cbn [h_stride h_empty Nat.eqb]. unfold alloc_if_empty. rewrite Eh. cbn [h_stride h_empty Nat.eqb]. unfold new_array. cbn [arrs hdrs tabs].
  set (h := mkh (length (arrs m1)) 0 n k k (n * k)). set (m2 := mkmem (arrs m1 ++ [repeat z (n * k)]) (upd (hdrs m1) p h) (tabs m1)).
  assert (Hp: p < length (hdrs m1)) by (apply nth_error_Some; now rewrite Eh).
  assert (Eh2: nth_error (hdrs m2) p = Some h) by (unfold m2; cbn [hdrs]; now apply nth_error_upd_same).
  assert (Ea: nth_error (arrs m2) (h_arr h) = Some (repeat z (n * k))) by (unfold m2, h; cbn [arrs h_arr]; rewrite nth_error_app2, Nat.sub_diag by lia; reflexivity).
  assert (W: wf_h m2 h).
  { split; [cbn; lia|]. split; [cbn; intros; nia|]. exists (repeat z (n * k)). split; [exact Ea|]. rewrite repeat_length. cbn. lia. }
  rewrite (fill_spec m2 p h n k f _ Eh2 Ea) by (auto; cbn; lia). cbn [from_dense]. set (m3 := after_fill m2 h n k f (repeat z (n * k))).
  exists m3, p. split; [reflexivity|]. split.
  - intros i j Hi Hj. unfold label_at. replace (nth_error (hdrs m3) p) with (Some h) by (symmetry; exact Eh2).
    unfold m3. rewrite hat_cell by (try (cbn; lia); now apply wf_after). apply cell_after_in; auto; cbn; lia.
  - apply frame_fill; auto; cbn; try lia. unfold m2, m1. repeat split; cbn [arrs hdrs].
    + intros b Hb. now apply nth_error_app1.
    + intros q Hq. rewrite nth_error_upd_other by (unfold p; lia). now apply nth_error_app1.
Qed.

Theorem std_empty m o n k f : 0 < n -> 0 < k -> is_empty_dense m o ->
  exists m' p, predict_std z m o (Some k) n k f = Some (m', p) /\ o = ODense p /\ (forall i j, i < n -> j < k -> label_at m' p i j = Some (f i j)) /\ frame m o m'.
Proof.
  intros Hn Hk (p & h0 & -> & E0 & S0 & _). unfold predict_std. cbn [to_dense]. rewrite E0, S0. cbn [Nat.eqb]. unfold alloc_if_empty. rewrite E0, S0. cbn [Nat.eqb].
  unfold new_array. cbn [arrs hdrs tabs].
  set (h := mkh (length (arrs m)) 0 n k k (n * k)). set (m2 := mkmem (arrs m ++ [repeat z (n * k)]) (upd (hdrs m) p h) (tabs m)).
  assert (Hp: p < length (hdrs m)) by (apply nth_error_Some; now rewrite E0).
  assert (Eh2: nth_error (hdrs m2) p = Some h) by (unfold m2; cbn [hdrs]; now apply nth_error_upd_same).
  assert (Ea: nth_error (arrs m2) (h_arr h) = Some (repeat z (n * k))) by (unfold m2, h; cbn [arrs h_arr]; rewrite nth_error_app2, Nat.sub_diag by lia; reflexivity).
  assert (W: wf_h m2 h).
  { split; [cbn; lia|]. split; [cbn; intros; nia|]. exists (repeat z (n * k)). split; [exact Ea|]. rewrite repeat_length. cbn. lia. }
  rewrite (fill_spec m2 p h n k f _ Eh2 Ea) by (auto; cbn; lia).
  assert (P1: 0 < h_len h) by (cbn; nia).
  unfold from_dense, after_fill. cbn [hdrs]. rewrite Eh2. rewrite copy_same by exact P1. fold (after_fill m2 h n k f (repeat z (n * k))).
  set (m3 := after_fill m2 h n k f (repeat z (n * k))). exists m3, p. split; [reflexivity|split; [reflexivity|split]].
  - intros i j Hi Hj. unfold label_at. replace (nth_error (hdrs m3) p) with (Some h) by (symmetry; exact Eh2).
    unfold m3. rewrite hat_cell by (try (cbn; lia); now apply wf_after). apply cell_after_in; auto; cbn; lia.
  - split; [|split].
    + intros b q Hb No. unfold m3. rewrite cell_after_out; auto; try (cbn; lia).
      unfold cell, m2. cbn [arrs]. now rewrite nth_error_app1.
    + intros t _. reflexivity.
    + intros q Hq N. unfold m3, after_fill, m2. cbn [hdrs]. apply nth_error_upd_other. congruence.
Qed.

(* ---- FromDense between different arrays *)
Lemma copy_raw_spec m d s f (ad : list A) : nth_error (arrs m) (h_arr d) = Some ad -> h_off d + h_len d <= length ad ->
  0 < h_len d -> 0 < h_len s -> h_arr d <> h_arr s ->
  (forall i j, i < h_rows s -> j < h_cols s -> dget m s (i * h_stride s + j) = Some (f i j)) ->
  (forall i j, i < h_rows s -> j < h_cols s -> i * h_stride d + j < h_len d) ->
  copy_raw m d s = Some (after_fill m d (h_rows s) (h_cols s) f ad).
Proof.
  intros Ea L Pd Ps N Hg Hd. unfold copy_raw. destruct (Nat.eqb_spec (h_len d) 0); [lia|]. destruct (Nat.eqb_spec (h_len s) 0); [lia|]. cbn [orb].
  destruct (Nat.eqb_spec (h_arr d) (h_arr s)); [contradiction|]. cbn [andb].
  rewrite (iter_dset (fun rc m => dget m s (fst rc * h_stride s + snd rc)) (fun rc => fst rc * h_stride d + snd rc) (fun rc => f (fst rc) (snd rc)) d ad _ m ad Ea eq_refl L).
  - reflexivity.
  - intros [i j] I. apply in_cells in I. cbn [fst snd]. now apply Hd.
  - intros [i j] a' I _. apply in_cells in I. cbn [fst snd]. rewrite <- (Hg i j) by tauto. unfold dget. cbn [arrs]. now rewrite nth_error_upd_other by exact N.
Qed.

Theorem copy_raw_cells m d s f : wf_h m d -> 0 < h_rows s -> 0 < h_cols s -> h_rows d = h_rows s -> h_cols d = h_cols s -> 0 < h_len s -> h_arr d <> h_arr s ->
  (forall i j, i < h_rows s -> j < h_cols s -> dget m s (i * h_stride s + j) = Some (f i j)) ->
  exists m', copy_raw m d s = Some m' /\ (forall i j, i < h_rows s -> j < h_cols s -> hat m' d i j = Some (f i j)) /\
  (forall a q, (a = h_arr d -> ~ in_region d q) -> cell m' a q = cell m a q) /\ hdrs m' = hdrs m /\ tabs m' = tabs m.
Proof.
  intros W Pr Pc Er Ec Ps N Hg. pose proof W as (W1 & W2 & ad & Ea & W3). destruct (wf_pos m d W) as [P1 P2]; try lia.
  eexists. split; [apply (copy_raw_spec m d s f ad); auto; intros; apply W2; lia|]. split; [|split; [|split; reflexivity]].
  - intros i j Hi Hj. rewrite hat_cell by (try lia; now apply wf_after). apply cell_after_in; auto; lia.
  - intros a q Ho. apply cell_after_out; auto; lia.
Qed.

(* a destination with too few columns: the cell to the right of its first row is overwritten *)
Lemma writes_hit {X} (pos : X -> nat) (v : X -> A) l q : forall a, In q (map pos l) -> q < length a -> exists x, In x l /\ pos x = q /\ nth_error (writes pos v l a) q = Some (v x).
Proof.
  induction l as [|y l IH]; intros a I L; [contradiction|]. change (writes pos v (y :: l) a) with (writes pos v l (upd a (pos y) (v y))).
  destruct (in_dec Nat.eq_dec q (map pos l)) as [I'|N].
  - destruct (IH (upd a (pos y) (v y)) I') as (x & Ix & Ex & E); [now rewrite upd_length|]. exists x. cbn. auto.
  - destruct I as [E|I]; [|contradiction]. exists y. split; [now left|split; [exact E|]]. rewrite writes_out by exact N. subst q. now apply nth_error_upd_same.
Qed.

Theorem copy_raw_narrow m d s f ad : nth_error (arrs m) (h_arr d) = Some ad -> h_off d + h_len d <= length ad -> h_arr d <> h_arr s ->
  0 < h_len d -> 0 < h_len s -> 0 < h_rows s -> h_cols d < h_cols s -> h_cols s <= h_stride d ->
  (forall i j, i < h_rows s -> j < h_cols s -> dget m s (i * h_stride s + j) = Some (f i j)) ->
  (forall i j, i < h_rows s -> j < h_cols s -> i * h_stride d + j < h_len d) ->
  exists m', copy_raw m d s = Some m' /\ cell m' (h_arr d) (h_off d + h_cols d) = Some (f 0 (h_cols d)) /\ ~ in_region d (h_off d + h_cols d).
Proof.
  intros Ea L N Pd Ps Pr Hc Hs Hg Hd. eexists. split; [apply (copy_raw_spec m d s f ad); auto|]. split.
  - unfold cell, after_fill. cbn [arrs]. rewrite nth_error_upd_same by (apply nth_error_Some; now rewrite Ea).
    assert (E0: h_off d + h_cols d = (fun rc : nat * nat => h_off d + (fst rc * h_stride d + snd rc)) (0, h_cols d)) by (cbn; lia).
    rewrite E0. rewrite (writes_in (fun rc : nat * nat => h_off d + (fst rc * h_stride d + snd rc)) (fun rc => f (fst rc) (snd rc)) (cells (h_rows s) (h_cols s)) (0, h_cols d)); auto.
    + apply cells_pos_nodup. exact Hs.
    + apply in_cells. lia.
    + cbn [fst snd]. specialize (Hd 0 (h_cols d)). lia.
  - intros (i & j & Hi & Hj & E). assert (i * h_stride d + j = 0 * h_stride d + h_cols d) as E' by lia. apply div_mod_inj in E'; lia.
Qed.

(* ---- LogisticRegression *)
Theorem logistic_ok m o n k f : 0 < n -> 0 < k -> dst_ok m o n k ->
  exists m' p, predict_logistic z m o n k f = Some (m', p) /\ (forall i j, i < n -> j < k -> label_at m' p i j = Some (f i j)) /\
  (o <> ONil -> forall i j, i < n -> j < k -> oat m' o i j = Some (f i j)).
Proof.
  intros Hn Hk D. unfold predict_logistic, new_array, push. cbn [arrs hdrs tabs].
  set (h := mkh (length (arrs m)) 0 n k k (n * k)). set (m1 := mkmem (arrs m ++ [repeat z (n * k)]) (hdrs m ++ [h]) (tabs m)). set (p := length (hdrs m)).
  assert (Eh: nth_error (hdrs m1) p = Some h) by (unfold m1, p; cbn [hdrs]; rewrite nth_error_app2, Nat.sub_diag by lia; reflexivity).
  assert (Ea: nth_error (arrs m1) (h_arr h) = Some (repeat z (n * k))) by (unfold m1, h; cbn [arrs h_arr]; rewrite nth_error_app2, Nat.sub_diag by lia; reflexivity).
  assert (W: wf_h m1 h).
  { split; [cbn; lia|]. split; [cbn; intros; nia|]. exists (repeat z (n * k)). split; [exact Ea|]. rewrite repeat_length. cbn. lia. }
  assert (P1: 0 < h_len h) by (cbn; nia).
  rewrite (fill_spec m1 p h n k f _ Eh Ea) by (auto; cbn; lia). set (m2 := after_fill m1 h n k f (repeat z (n * k))).
  assert (W2: wf_h m2 h) by now apply wf_after.
  assert (Eh2: nth_error (hdrs m2) p = Some h) by exact Eh.
  assert (R: forall i j, i < n -> j < k -> hat m2 h i j = Some (f i j)).
  { intros i j Hi Hj. unfold m2. rewrite hat_cell by (try (cbn; lia); now apply wf_after). apply cell_after_in; auto; cbn; lia. }
  assert (G: forall i j, i < n -> j < k -> dget m2 h (i * h_stride h + j) = Some (f i j)).
  { intros i j Hi Hj. rewrite <- (R i j) by auto. unfold hat. cbn [h_rows h_cols h]. destruct (Nat.ltb_spec i n); [|lia]. destruct (Nat.ltb_spec j k); [|lia]. reflexivity. }
  assert (Hold: forall h', wf_h m h' -> wf_h m2 h' /\ h_arr h' <> h_arr h).
  { intros h' (V1 & V2 & b & Eb & V3). assert (h_arr h' < length (arrs m)) by (apply nth_error_Some; now rewrite Eb). split; [|cbn; lia].
    unfold m2. apply wf_after; auto. split; [exact V1|split; [exact V2|]]. exists b. split; [|exact V3]. unfold m1. cbn [arrs]. now rewrite nth_error_app1. }
  destruct o as [|q|d|t r c].
  - cbn [from_dense]. exists m2, p. split; [reflexivity|split; [|congruence]]. intros i j Hi Hj. unfold label_at. rewrite Eh2. now apply R.
  - destruct D as (d & Eq & Hr & Hc & Wd). destruct (Hold d Wd) as [Wd2 Nd].
    assert (Hq: q < length (hdrs m)) by (apply nth_error_Some; now rewrite Eq).
    assert (Eq2: nth_error (hdrs m2) q = Some d) by (unfold m2, after_fill, m1; cbn [hdrs]; rewrite nth_error_app1 by exact Hq; exact Eq).
    unfold from_dense. rewrite Eh2, Eq2.
    destruct (copy_raw_cells m2 d h f) as (m3 & E3 & C3 & F3 & H3 & T3); auto; try (cbn; lia); try lia.
    rewrite E3. exists m3, p. split; [reflexivity|split].
    + intros i j Hi Hj. unfold label_at. rewrite H3, Eh2. rewrite <- (R i j) by auto. rewrite (hat_cell m2) by (auto; cbn; lia).
      assert (W3: wf_h m3 h).
      { destruct W2 as (V1 & V2 & b & Eb & V3). split; [exact V1|split; [exact V2|]]. pose proof (copy_raw_spec m2 d h f) as Sp.
        destruct Wd2 as (U1 & U2 & ad & Ead & U3). rewrite (Sp ad) in E3; auto; try lia; try (intros; apply U2; cbn in *; lia); [|specialize (U2 0 0); lia].
        injection E3 as <-. apply wf_after; auto. split; [exact V1|split; [exact V2|]]. exists b. auto. }
      rewrite hat_cell by (auto; cbn; lia). apply F3. intros E. exfalso. now apply Nd.
    + intros _ i j Hi Hj. unfold oat, label_at. rewrite H3, Eq2. now apply C3.
  - destruct D as (Hr & Hc & Wd). destruct (Hold d Wd) as [Wd2 Nd].
    unfold from_dense. rewrite Eh2.
    destruct (copy_raw_cells m2 d h f) as (m3 & E3 & C3 & F3 & H3 & T3); auto; try (cbn; lia); try lia.
    rewrite E3. exists m3, p. split; [reflexivity|split].
    + intros i j Hi Hj. unfold label_at. rewrite H3, Eh2. rewrite <- (R i j) by auto. rewrite (hat_cell m2) by (auto; cbn; lia).
      assert (W3: wf_h m3 h).
      { destruct W2 as (V1 & V2 & b & Eb & V3). split; [exact V1|split; [exact V2|]]. pose proof (copy_raw_spec m2 d h f) as Sp.
        destruct Wd2 as (U1 & U2 & ad & Ead & U3). rewrite (Sp ad) in E3; auto; try lia; try (intros; apply U2; cbn in *; lia); [|specialize (U2 0 0); lia].
        injection E3 as <-. apply wf_after; auto. split; [exact V1|split; [exact V2|]]. exists b. auto. }
      rewrite hat_cell by (auto; cbn; lia). apply F3. intros E. exfalso. now apply Nd.
    + intros _ i j Hi Hj. unfold oat. now apply C3.
  - destruct D as (-> & -> & rows & Et & Ln & Fk).
    destruct (copy_tab m2 t p h n k f rows) as (m3 & E3 & A3 & H3 & T3 & F3); auto.
    rewrite E3. exists m3, p. split; [reflexivity|split; [|auto]].
    intros i j Hi Hj. unfold label_at. rewrite H3, Eh2. unfold hat, dget in *. rewrite A3. now apply R.
Qed.

Lemma dset_hdrs m h i v m' : dset m h i v = Some m' -> hdrs m' = hdrs m.
Proof.
  unfold dset. destruct (i <? h_len h); [|discriminate]. destruct (nth_error (arrs m) (h_arr h)) as [a|]; [|discriminate].
  destruct (h_off h + i <? length a); [|discriminate]. intros E. injection E as <-. reflexivity.
Qed.
Lemma iter_hset_hdrs h (f : nat -> nat -> A) l : forall m m', iter_opt (fun rc m => hset m h (fst rc) (snd rc) (f (fst rc) (snd rc))) l m = Some m' -> hdrs m' = hdrs m.
Proof.
  induction l as [|x l IH]; intros m m' E; cbn [iter_opt] in E; [now injection E as <-|].
  destruct (hset m h (fst x) (snd x) (f (fst x) (snd x))) as [m1|] eqn:E1; [|discriminate]. rewrite (IH _ _ E).
  unfold hset in E1. destruct ((fst x <? h_rows h) && (snd x <? h_cols h))%bool; [|discriminate]. eapply dset_hdrs; eassumption.
Qed.
Lemma fill_hdrs m p n k f m' : fill m p n k f = Some m' -> hdrs m' = hdrs m.
Proof. unfold fill. destruct (nth_error (hdrs m) p) as [h|]; [|discriminate]. apply iter_hset_hdrs. Qed.

Theorem logistic_empty m o n k f : is_empty_dense m o -> predict_logistic z m o n k f = None.
Proof.
  intros (q & h0 & -> & E0 & S0 & L0 & _). unfold predict_logistic, new_array, push. cbn [arrs hdrs tabs].
  assert (Hq: q < length (hdrs m)) by (apply nth_error_Some; now rewrite E0).
  destruct (fill _ _ n k f) as [m3|] eqn:Ef; [|reflexivity].
  apply fill_hdrs in Ef. cbn [hdrs] in Ef. unfold from_dense. rewrite Ef.
  rewrite nth_error_app2, Nat.sub_diag by lia. cbn [nth_error]. rewrite nth_error_app1 by exact Hq. rewrite E0.
  unfold copy_raw. rewrite L0. reflexivity.
Qed.

(* ---- GaussianNB *)
Lemma fill_empty m p h n k f : nth_error (hdrs m) p = Some h -> h_rows h = 0 -> 0 < n -> 0 < k -> fill m p n k f = None.
Proof.
  intros Eh Hr Hn Hk. unfold fill. rewrite Eh. destruct n as [|n]; [lia|]. destruct k as [|k]; [lia|].
  unfold cells. cbn [seq list_prod map app iter_opt]. unfold hset at 1. rewrite Hr. reflexivity.
Qed.
Theorem nb_empty m o n f : 0 < n -> is_empty_dense m o -> predict_nb z m o n f = None.
Proof.
  intros Hn (q & h0 & -> & E0 & S0 & L0 & R0 & _). unfold predict_nb. cbn [to_dense]. rewrite (fill_empty m q h0) by (auto; lia). reflexivity.
Qed.
Lemma nb_std m o n f : 0 < n -> dst_ok m o n 1 -> o <> ONil -> predict_nb z m o n f = predict_std z m o None n 1 (fun i _ => f i).
Proof.
  intros Hn D N. unfold predict_nb, predict_std. destruct o as [|p|h|t r c]; [congruence| | |].
  - destruct D as (h & Eh & Hr & Hc & W). destruct (wf_pos m h W) as [P1 P2]; try lia. cbn [to_dense]. rewrite Eh.
    destruct (Nat.eqb_spec (h_stride h) 0); [lia|]. reflexivity.
  - destruct D as (Hr & Hc & W). destruct (wf_pos m h W) as [P1 P2]; try lia. cbn [to_dense]. unfold push. cbn [hdrs].
    rewrite nth_error_app2, Nat.sub_diag by lia. cbn [nth_error]. destruct (Nat.eqb_spec (h_stride h) 0); [lia|]. reflexivity.
  - destruct D as (-> & -> & rows & Et & Ln & Fk). cbn [to_dense]. rewrite Et. unfold new_array, push. cbn [hdrs arrs tabs].
    rewrite nth_error_app2, Nat.sub_diag by lia. cbn [nth_error h_stride Nat.eqb]. reflexivity.
Qed.
Theorem nb_nonempty m o n f : 0 < n -> dst_ok m o n 1 -> o <> ONil ->
  exists m' p, predict_nb z m o n f = Some (m', p) /\ (forall i, i < n -> label_at m' p i 0 = Some (f i)) /\
  (forall i, i < n -> oat m' o i 0 = Some (f i)) /\ frame m o m'.
Proof.
  intros Hn D N. rewrite nb_std by auto. destruct (std_nonempty m o n 1 (fun i _ => f i) Hn Nat.lt_0_1 D N None) as (m' & p & E & L & O & F).
  exists m', p. split; [exact E|]. split; [|split; [|exact F]]; intros i Hi; [apply (L i 0)|apply (O i 0)]; lia.
Qed.
Theorem nb_nil m n f : 0 < n -> exists m' p, predict_nb z m ONil n f = Some (m', p) /\ (forall i, i < n -> label_at m' p i 0 = Some (f i)) /\ frame m ONil m'.
Proof.
  intros Hn. unfold predict_nb. cbn [to_dense]. unfold push, new_array. cbn [arrs hdrs tabs].
  set (h := mkh (length (arrs m)) 0 n 1 1 (n * 1)). set (m2 := mkmem (arrs m ++ [repeat z n]) ((hdrs m ++ [h_empty]) ++ [h]) (tabs m)).
  set (p := length (hdrs m ++ [h_empty])).
  assert (Eh2: nth_error (hdrs m2) p = Some h) by (unfold m2, p; cbn [hdrs]; rewrite nth_error_app2, Nat.sub_diag by lia; reflexivity).
  assert (Ea: nth_error (arrs m2) (h_arr h) = Some (repeat z n)) by (unfold m2, h; cbn [arrs h_arr]; rewrite nth_error_app2, Nat.sub_diag by lia; reflexivity).
  assert (W: wf_h m2 h).
  { split; [cbn; lia|]. split; [cbn; intros; nia|]. exists (repeat z n). split; [exact Ea|]. rewrite repeat_length. cbn. lia. }
  rewrite (fill_spec m2 p h n 1 (fun i _ => f i) _ Eh2 Ea) by (auto; cbn; lia). cbn [from_dense]. set (m3 := after_fill m2 h n 1 (fun i _ => f i) (repeat z n)).
  exists m3, p. split; [reflexivity|]. split.
  - intros i Hi. unfold label_at. replace (nth_error (hdrs m3) p) with (Some h) by (symmetry; exact Eh2).
    unfold m3. rewrite hat_cell by (try (cbn; lia); now apply wf_after). apply (cell_after_in m2 h n 1 (fun i _ => f i)); auto; cbn; lia.
  - apply frame_fill; auto; cbn; try lia. unfold m2. repeat split; cbn [arrs hdrs].
    + intros b Hb. now apply nth_error_app1.
    + intros q Hq. rewrite <- app_assoc. now apply nth_error_app1.
Qed.

(* ---- NearestCentroid *)
Theorem nc_nil m o n k f : o = ONil \/ is_empty_dense m o -> predict_std z m o (nc_outputs None) n k f = None.
Proof.
  intros [->|(q & h0 & -> & E0 & S0 & _)]; unfold predict_std; cbn [to_dense].
  - unfold push. cbn [hdrs]. rewrite nth_error_app2, Nat.sub_diag by lia. reflexivity.
  - rewrite E0, S0. reflexivity.
Qed.

(* ---- labels kept by Fit *)
(* any sequence of writes of the program through headers it already had; headers and arrays are not removed *)
Inductive later (m0 : mem A) : mem A -> mem A -> Prop :=
| later_refl m : later m0 m m
| later_set m m1 m2 h i v : h_arr h < length (arrs m0) -> dset m h i v = Some m1 -> later m0 m1 m2 -> later m0 m m2
| later_hdr m p h m2 : p < length (hdrs m0) -> later m0 (mkmem (arrs m) (upd (hdrs m) p h) (tabs m)) m2 -> later m0 m m2
| later_tab m tb m2 : later m0 (mkmem (arrs m) (hdrs m) tb) m2 -> later m0 m m2.

Lemma later_arr m0 m m2 : later m0 m m2 -> forall a, length (arrs m0) <= a -> nth_error (arrs m2) a = nth_error (arrs m) a.
Proof.
  induction 1 as [m|m m1 m2 h i v Hh E L IH|m p h m2 Hp L IH|m tb m2 L IH]; intros a Ha; try reflexivity; try (now rewrite IH).
  rewrite IH by exact Ha. unfold dset in E. destruct (i <? h_len h); [|discriminate]. destruct (nth_error (arrs m) (h_arr h)) as [b|]; [|discriminate].
    destruct (h_off h + i <? length b); [|discriminate]. injection E as <-. cbn [arrs]. apply nth_error_upd_other. lia.
Qed.
Lemma later_hdrs m0 m m2 : later m0 m m2 -> forall p, length (hdrs m0) <= p -> nth_error (hdrs m2) p = nth_error (hdrs m) p.
Proof.
  induction 1 as [m|m m1 m2 h i v Hh E L IH|m p h m2 Hp L IH|m tb m2 L IH]; intros q Hq; try reflexivity; try (now rewrite IH).
  - rewrite IH by exact Hq. now rewrite (dset_hdrs _ _ _ _ _ E).
  - rewrite IH by exact Hq. cbn [hdrs]. apply nth_error_upd_other. lia.
Qed.
Lemma to_dense_grows m y m1 p : to_dense m y = Some (m1, p) -> length (arrs m) <= length (arrs m1) /\ length (hdrs m) <= length (hdrs m1).
Proof.
  destruct y as [|q|h|t r c]; cbn [to_dense]; unfold push, new_array.
  - intros E. injection E as <- _. cbn [arrs hdrs]. rewrite app_length. lia.
  - intros E. injection E as <- _. lia.
  - intros E. injection E as <- _. cbn [arrs hdrs]. rewrite app_length. lia.
  - destruct (nth_error (tabs m) t); [|discriminate]. intros E. injection E as <- _. cbn [arrs hdrs]. rewrite !app_length. lia.
Qed.
(* whatever the caller writes afterwards, the labels of KNeighborsRegressor stay *)
Theorem knr_keeps m0 y m p m2 : knr_fit z m0 y = Some (m, p) -> later m0 m m2 -> forall i o, label_at m2 p i o = label_at m p i o.
Proof.
  unfold knr_fit. destruct (to_dense m0 y) as [[m1 q]|] eqn:E1; [|discriminate]. apply to_dense_grows in E1. destruct E1 as [G1 G2].
  unfold dense_copy. destruct (nth_error (hdrs m1) q) as [h|]; [|discriminate]. unfold new_array, push. cbn [arrs hdrs tabs]. intros E. injection E as <- <-.
  intros L i o. unfold label_at. rewrite (later_hdrs _ _ _ L) by lia. cbn [hdrs]. rewrite nth_error_app2, Nat.sub_diag by lia. cbn [nth_error].
  unfold hat, dget. cbn [h_arr h_rows h_cols h_stride h_off h_len]. rewrite (later_arr _ _ _ L) by lia. reflexivity.
Qed.
Lemma nth_error_cells n k i j : i < n -> j < k -> nth_error (cells n k) (i * k + j) = Some (i, j).
Proof.
  unfold cells. intros Hi Hj. assert (G: forall s, nth_error (list_prod (seq s n) (seq 0 k)) (i * k + j) = Some (s + i, j)).
  { revert i Hi. induction n as [|n IH]; intros i Hi s; [lia|]. cbn [seq list_prod]. destruct i as [|i].
    - rewrite nth_error_app1 by (rewrite map_length, seq_length; lia). cbn [Nat.mul Nat.add]. rewrite nth_error_map.
      rewrite (nth_error_nth' _ 0) by (rewrite seq_length; lia). rewrite seq_nth by lia. cbn [option_map]. f_equal. f_equal; lia.
    - rewrite nth_error_app2 by (rewrite map_length, seq_length; nia). rewrite map_length, seq_length.
      replace (S i * k + j - k) with (i * k + j) by lia. rewrite IH by lia. f_equal. f_equal. lia. }
  rewrite G. reflexivity.
Qed.
(* ... and they are those of Y at the time of the fit *)
Theorem knr_labels m0 y m p n k : dst_ok m0 y n k -> y <> ONil -> knr_fit z m0 y = Some (m, p) -> forall i o, i < n -> o < k -> label_at m p i o = oat m0 y i o.
Proof.
  intros D N. unfold knr_fit. destruct (to_dense m0 y) as [[m1 q]|] eqn:E1; [|discriminate].
  unfold dense_copy. destruct (nth_error (hdrs m1) q) as [h|] eqn:Eh; [|discriminate].
  assert (Hh: h_rows h = n /\ h_cols h = k /\ wf_h m1 h /\ forall i o, i < n -> o < k -> hat m1 h i o = oat m0 y i o).
  { destruct y as [|q'|h'|t r c]; [congruence| | |]; cbn [to_dense] in E1.
    - injection E1 as <- <-. destruct D as (h' & E' & Hr & Hc & W). rewrite Eh in E'. injection E' as <-. repeat split; auto; try apply W.
      intros i o _ _. unfold oat, label_at. now rewrite Eh.
    - unfold push in E1. injection E1 as <- <-. cbn [hdrs] in Eh. rewrite nth_error_app2, Nat.sub_diag in Eh by lia. injection Eh as <-.
      destruct D as (Hr & Hc & W). repeat split; auto; apply W.
    - destruct D as (-> & -> & rows & Et & Ln & Fk). rewrite Et in E1. unfold new_array, push in E1. cbn [arrs hdrs tabs] in E1. injection E1 as <- <-.
      cbn [hdrs] in Eh. rewrite nth_error_app2, Nat.sub_diag in Eh by lia. injection Eh as <-. split; [reflexivity|split; [reflexivity|split]].
      + apply (new_wf m0 n k (concat rows) (mkmem (arrs m0 ++ [concat rows]) (hdrs m0) (tabs m0))); [reflexivity|now apply concat_len].
      + intros i o Hi Ho. unfold hat, dget, oat, tat. cbn [h_arr h_rows h_cols h_stride h_off h_len arrs]. rewrite Et.
        rewrite (proj2 (Nat.ltb_lt i n)) by lia. rewrite (proj2 (Nat.ltb_lt o k)) by lia. cbn [andb]. rewrite (proj2 (Nat.ltb_lt (i * k + o) (n * k))) by nia.
        rewrite nth_error_app2, Nat.sub_diag by lia. cbn [nth_error Nat.add]. clear N Et. revert i rows n Ln Fk Hi.
        induction i as [|i IH]; intros rows n Ln Fk Hi.
        * destruct rows as [|r rows]; [cbn in Ln; lia|]. inversion Fk; subst. cbn [concat nth_error Nat.mul Nat.add]. now rewrite nth_error_app1 by lia.
        * destruct rows as [|r rows]; [cbn in Ln; lia|]. inversion Fk; subst. cbn [concat nth_error]. rewrite nth_error_app2 by nia.
          replace (S i * length r + o - length r) with (i * length r + o) by lia. cbn in Hi. apply (IH rows (length rows)); auto; lia. }
  destruct Hh as (Hr & Hc & W & Hv). unfold new_array, push. cbn [arrs hdrs tabs]. rewrite Hr, Hc. intros E. injection E as <- <-. intros i o Hi Ho.
  rewrite <- Hv by auto. unfold label_at. cbn [hdrs]. rewrite nth_error_app2, Nat.sub_diag by lia. cbn [nth_error].
  unfold hat at 1, dget. cbn [h_arr h_rows h_cols h_stride h_off h_len arrs].
  destruct (Nat.ltb_spec i n); [|lia]. destruct (Nat.ltb_spec o k); [|lia]. cbn [andb]. destruct (Nat.ltb_spec (i * k + o) (n * k)); [|nia].
  rewrite nth_error_app2, Nat.sub_diag by lia. cbn [nth_error Nat.add]. rewrite nth_error_map, nth_error_cells by auto. cbn [option_map fst snd].
  rewrite hat_cell by (auto; lia). pose proof W as (V1 & V2 & a & Ea & V3). unfold cell. rewrite Ea.
  destruct (nth_error a (h_off h + (i * h_stride h + o))) eqn:En; [reflexivity|]. apply nth_error_None in En. specialize (V2 i o). lia.
Qed.
(* those of KNeighborsClassifier are the caller's memory: for every fit on a Dense or another RawMatrixer, every cell and every new value *)
Theorem knc_follows m0 y n k m p i o v : (exists q, y = ODense q) \/ (exists h, y = ORaw h) -> dst_ok m0 y n k -> i < n -> o < k -> knc_fit m0 y = Some (m, p) ->
  exists h m2, hset m h i o v = Some m2 /\ later m0 m m2 /\ label_at m2 p i o = Some v.
Proof.
  intros Hy D Hi Ho E.
  assert (Hh: exists h, nth_error (hdrs m) p = Some h /\ h_rows h = n /\ h_cols h = k /\ wf_h m h /\ arrs m = arrs m0).
  { destruct Hy as [[q ->]|[h ->]]; cbn in E.
    - injection E as <- <-. destruct D as (h & Eh & Hr & Hc & W). exists h. auto.
    - unfold push in E. injection E as <- <-. destruct D as (Hr & Hc & W). exists h. cbn [hdrs]. rewrite nth_error_app2, Nat.sub_diag by lia. auto. }
  destruct Hh as (h & Eh & Hr & Hc & W & Ea0). pose proof W as (W1 & W2 & a & Ea & W3). specialize (W2 i o ltac:(lia) ltac:(lia)).
  assert (Hl: h_arr h < length (arrs m)) by (apply nth_error_Some; now rewrite Ea).
  assert (Ed: dset m h (i * h_stride h + o) v = Some (mkmem (upd (arrs m) (h_arr h) (upd a (h_off h + (i * h_stride h + o)) v)) (hdrs m) (tabs m))).
  { unfold dset. rewrite Ea. destruct (Nat.ltb_spec (i * h_stride h + o) (h_len h)); [|lia].
    destruct (Nat.ltb_spec (h_off h + (i * h_stride h + o)) (length a)); [|lia]. reflexivity. }
  exists h. eexists. split; [|split].
  - unfold hset. destruct (Nat.ltb_spec i (h_rows h)); [|lia]. destruct (Nat.ltb_spec o (h_cols h)); [|lia]. cbn [andb]. exact Ed.
  - eapply later_set; [|exact Ed|apply later_refl]. rewrite <- Ea0. exact Hl.
  - unfold label_at. cbn [hdrs]. rewrite Eh. unfold hat, dget. cbn [arrs]. destruct (Nat.ltb_spec i (h_rows h)); [|lia]. destruct (Nat.ltb_spec o (h_cols h)); [|lia]. cbn [andb].
    destruct (Nat.ltb_spec (i * h_stride h + o) (h_len h)); [|lia]. rewrite nth_error_upd_same by exact Hl. apply nth_error_upd_same. lia.
Qed.
End Mem.

(* ---------------------------------------------------------------- the buffers of CrossValidate *)
Section CVBuf.
Context {XRow YRow : Type}.
Implicit Types (X xj : list XRow) (Y yj : list YRow).
(* a split whose rows exist *)
Definition split_in X Y (sp : list nat * list nat) (n : nat) : Prop :=
  length (fst sp) + length (snd sp) = n /\ (forall i, In i (fst sp ++ snd sp) -> i < length X /\ i < length Y).

Lemma gather_ok {B} (rows : list B) l : (forall i, In i l -> i < length rows) -> exists r, gather l rows = Some r.
Proof.
  induction l as [|i l IH]; intros H; cbn [gather]; [eauto|]. destruct IH as [r E]; [intros; apply H; now right|]. rewrite E.
  destruct (nth_error rows i) eqn:En; [eauto|]. apply nth_error_None in En. specialize (H i (or_introl eq_refl)). lia.
Qed.

Lemma job_step X Y sp xj yj n : length xj = n -> length yj = n -> split_in X Y sp n ->
  exists xs ys, gather (fst sp ++ snd sp) X = Some xs /\ gather (fst sp ++ snd sp) Y = Some ys /\ job_after X Y [sp] (xj, yj) = (xs, ys) /\ length xs = n /\ length ys = n.
Proof.
  destruct sp as [tr te]. intros Lx Ly [Hn Hi]. cbn [fst snd] in *.
  destruct (gather_ok X tr) as [xtr E1]; [intros i I; apply Hi; apply in_or_app; now left|].
  destruct (gather_ok Y tr) as [ytr E2]; [intros i I; apply Hi; apply in_or_app; now left|].
  destruct (gather_ok X te) as [xte E3]; [intros i I; apply Hi; apply in_or_app; now right|].
  destruct (gather_ok Y te) as [yte E4]; [intros i I; apply Hi; apply in_or_app; now right|].
  pose proof (gather_length _ _ _ E1) as L1. pose proof (gather_length _ _ _ E2) as L2.
  pose proof (gather_length _ _ _ E3) as L3. pose proof (gather_length _ _ _ E4) as L4.
  exists (xtr ++ xte), (ytr ++ yte). rewrite !gather_app, E1, E2, E3, E4. split; [reflexivity|split; [reflexivity|]].
  rewrite !app_length. split; [|lia].
  unfold job_after, process_split. cbn [fold_left fst snd]. rewrite !fold_left_app.
  pose proof (copy_rows_spec XRow YRow unit unit X Y tr 0 (None, None) xj yj xtr ytr E1 E2 ltac:(lia) ltac:(lia)) as C1. cbn [firstn app Nat.add] in C1.
  match type of C1 with ?l = ?r => match goal with |- context [fold_left ?F (map ?g (combine (seq 0 (length tr)) tr)) ?s] => change (fold_left F (map g (combine (seq 0 (length tr)) tr)) s) with l end end.
  rewrite C1.
  assert (Hlx: length (xtr ++ skipn (length tr) xj) = length xj) by (rewrite app_length, skipn_length; lia).
  assert (Hly: length (ytr ++ skipn (length tr) yj) = length yj) by (rewrite app_length, skipn_length; lia).
  rewrite (copy_rows_spec XRow YRow unit unit X Y te (length tr) (None, None) _ _ xte yte E3 E4) by lia.
  rewrite (firstn_app (length tr) xtr), L1, Nat.sub_diag, firstn_O, app_nil_r.
  rewrite (firstn_app (length tr) ytr), L2, Nat.sub_diag, firstn_O, app_nil_r.
  rewrite (firstn_all2 xtr) by lia. rewrite (firstn_all2 ytr) by lia.
  rewrite !(skipn_all2 (_ ++ skipn _ _)) by lia. rewrite !app_nil_r. cbn [fold_left do_fit do_score snd]. reflexivity.
Qed.

Lemma job_after_app X Y a b j : job_after X Y (a ++ b) j = job_after X Y b (job_after X Y a j).
Proof. unfold job_after. apply fold_left_app. Qed.

Lemma job_len X Y splits n : forall xj yj, length xj = n -> length yj = n -> (forall sp, In sp splits -> split_in X Y sp n) ->
  length (fst (job_after X Y splits (xj, yj))) = n /\ length (snd (job_after X Y splits (xj, yj))) = n.
Proof.
  induction splits as [|sp l IH]; intros xj yj Lx Ly H; [cbn; auto|].
  change (sp :: l) with ([sp] ++ l). rewrite job_after_app.
  destruct (job_step X Y sp xj yj n Lx Ly (H sp (or_introl eq_refl))) as (xs & ys & _ & _ & -> & L1 & L2). apply IH; auto. intros; apply H; now right.
Qed.

(* after the job is done the buffer shows the rows of its last split, whatever came before *)
Theorem buffer_last X Y splits last n xj yj : length xj = n -> length yj = n -> (forall sp, In sp (splits ++ [last]) -> split_in X Y sp n) ->
  exists ys, gather (fst last ++ snd last) Y = Some ys /\ snd (job_after X Y (splits ++ [last]) (xj, yj)) = ys /\ length ys = n.
Proof.
  intros Lx Ly H. rewrite job_after_app. destruct (job_len X Y splits n xj yj) as [L1 L2]; auto; [intros; apply H; apply in_or_app; now left|].
  destruct (job_after X Y splits (xj, yj)) as [xj1 yj1]. cbn [fst snd] in *.
  destruct (job_step X Y last xj1 yj1 n L1 L2) as (xs & ys & _ & E2 & -> & _ & L4); [apply H; apply in_or_app; right; now left|].
  exists ys. auto.
Qed.

Theorem copied_own X Y before sp n xj yj : length xj = n -> length yj = n -> (forall s, In s (before ++ [sp]) -> split_in X Y s n) ->
  gather (fst sp) Y = Some (copied X Y before sp (xj, yj)).
Proof.
  intros Lx Ly H. destruct (buffer_last X Y before sp n xj yj Lx Ly H) as (ys & E & Eb & L). unfold copied. rewrite Eb.
  rewrite gather_app in E. destruct (gather (fst sp) Y) as [a|] eqn:Ea; [|discriminate]. destruct (gather (snd sp) Y) as [b|]; [|discriminate].
  injection E as <-. apply gather_length in Ea. rewrite <- Ea, firstn_app, firstn_all, Nat.sub_diag, firstn_O, app_nil_r. reflexivity.
Qed.

Theorem kept_last X Y before sp after last n xj yj : length xj = n -> length yj = n ->
  (forall s, In s ((before ++ [sp]) ++ after ++ [last]) -> split_in X Y s n) ->
  gather (firstn (length (fst sp)) (fst last ++ snd last)) Y = Some (kept sp (job_after X Y ((before ++ [sp]) ++ after ++ [last]) (xj, yj))).
Proof.
  intros Lx Ly H. rewrite app_assoc in *. destruct (buffer_last X Y _ last n xj yj Lx Ly H) as (ys & E & Eb & L). unfold kept. rewrite Eb.
  pose proof (firstn_skipn (length (fst sp)) (fst last ++ snd last)) as FS. rewrite <- FS in E. rewrite gather_app in E.
  destruct (gather (firstn (length (fst sp)) (fst last ++ snd last)) Y) as [a|] eqn:Ea; [|discriminate].
  destruct (gather (skipn (length (fst sp)) (fst last ++ snd last)) Y) as [b|]; [|discriminate]. injection E as <-. f_equal.
  apply gather_length in Ea. rewrite firstn_length in Ea.
  assert (Hs: split_in X Y sp n) by (apply H; apply in_or_app; left; apply in_or_app; left; apply in_or_app; right; now left).
  assert (Hl: split_in X Y last n) by (apply H; apply in_or_app; right; now left).
  destruct Hs as [Hs _], Hl as [Hl _]. rewrite app_length in Ea. rewrite Nat.min_l in Ea by lia.
  rewrite <- Ea, firstn_app, firstn_all, Nat.sub_diag, firstn_O, app_nil_r. reflexivity.
Qed.
End CVBuf.

(* ---------------------------------------------------------------- number of splits *)
Lemma fold_rows_pos n k : 0 < k -> k <= n -> forall i, 0 < fold_rows n k i.
Proof. intros Hk H i. unfold fold_rows. assert (0 < n / k) by (apply Nat.div_str_pos; lia). lia. Qed.
Lemma fold_rows_le n k i : 2 <= k -> k <= n -> fold_rows n k i < n.
Proof.
  intros Hk H. unfold fold_rows. pose proof (Nat.div_mod n k ltac:(lia)) as D. assert (0 < n / k) by (apply Nat.div_str_pos; lia).
  destruct (Nat.ltb_spec i (n mod k)); nia.
Qed.
Theorem cv_iff cv n : cv_returns cv n = true <-> exists k, cv = Some k /\ (2 <= k <= Z.of_nat n)%Z.
Proof.
  unfold cv_returns. destruct cv as [k|]; [|split; [discriminate|intros (k & E & _); discriminate]].
  destruct (Z.leb_spec k 0) as [H0|H0]; [split; [discriminate|intros (k' & E & Hk); injection E as <-; lia]|].
  rewrite forallb_forall. split.
  - intros H. exists k. split; [reflexivity|]. remember (Z.to_nat k) as q. assert (Hq: k = Z.of_nat q) by lia. subst k. clear Heqq.
    assert (H1: split_ok n q (q - 1) = true) by (apply H; apply in_seq; lia).
    unfold split_ok, row_slice_ok in H1. apply andb_prop in H1. destruct H1 as [A B]. apply Nat.ltb_lt in A, B.
    pose proof (Nat.mod_upper_bound n q ltac:(lia)) as M. pose proof (Nat.div_mod n q ltac:(lia)) as D.
    unfold fold_rows in *. destruct (Nat.ltb_spec (q - 1) (n mod q)); [lia|]. rewrite Nat.add_0_r in *.
    destruct (Nat.eq_dec q 1) as [->|]; [rewrite Nat.div_1_r in *; lia|]. split; [lia|]. assert (0 < n / q) by lia. nia.
  - intros (k' & E & Hk) i Hi. injection E as <-. apply in_seq in Hi. remember (Z.to_nat k) as q. assert (Hq: k = Z.of_nat q) by lia.
    unfold split_ok, row_slice_ok. pose proof (fold_rows_le n q i). pose proof (fold_rows_pos n q). specialize (H1 ltac:(lia) ltac:(lia) i).
    apply andb_true_intro. split; apply Nat.ltb_lt; lia.
Qed.

(* ---------------------------------------------------------------- setParam *)
Lemma upd_nth_other {B} (l : list B) i j x : i <> j -> nth_error (upd l i x) j = nth_error l j.
Proof. apply nth_error_upd_other. Qed.

(* what it means that the name k designates field i *)
Definition designates (l : list field) (k : string) (i : nat) : Prop :=
  exists f, nth_error l i = Some f /\ equal_fold (f_name f) k = true /\
  forall j g, nth_error l j = Some g -> equal_fold (f_name g) k = true -> j = i \/ f_depth f < f_depth g.

Lemma min_depth_spec k l : match min_depth k l with
  | None => forall f, In f l -> fmatch k f = false
  | Some d => (exists f, In f l /\ fmatch k f = true /\ f_depth f = d) /\ forall f, In f l -> fmatch k f = true -> d <= f_depth f
  end.
Proof.
  induction l as [|f l IH]; cbn [min_depth]; [contradiction|].
  destruct (fmatch k f) eqn:Em.
  - destruct (min_depth k l) as [d|].
    + destruct IH as [(g & Ig & Mg & Dg) Hm]. split.
      * destruct (Nat.le_gt_cases (f_depth f) d); [exists f; cbn; repeat split; auto; lia|exists g; cbn; repeat split; auto; lia].
      * intros g' [<-|I] M; [lia|]. specialize (Hm g' I M). lia.
    + split; [exists f; cbn; auto|]. intros g [<-|I] M; [lia|]. rewrite IH in M by exact I. discriminate.
  - destruct (min_depth k l) as [d|].
    + destruct IH as [(g & Ig & Mg & Dg) Hm]. split; [exists g; cbn; auto|]. intros g' [<-|I] M; [congruence|auto].
    + intros g [<-|I]; auto.
Qed.
Lemma positions_in p l : forall i q, In q (positions p l i) <-> exists f, i <= q /\ nth_error l (q - i) = Some f /\ p f = true.
Proof.
  induction l as [|f l IH]; intros i q; cbn [positions].
  - split; [contradiction|]. intros (f & _ & E & _). now destruct (q - i).
  - assert (G: In q (positions p l (S i)) <-> exists g, i < q /\ nth_error (f :: l) (q - i) = Some g /\ p g = true).
    { rewrite IH. split; intros (g & Hq & E & Hp); exists g; split; auto; split; auto; replace (q - i) with (S (q - S i)) in * by lia; exact E. }
    destruct (p f) eqn:Ep; cbn [In]; rewrite G; split.
    + intros [<-|(g & Hq & E & Hg)]; [exists f; rewrite Nat.sub_diag; repeat split; auto|exists g; split; [lia|auto]].
    + intros (g & Hq & E & Hg). destruct (Nat.eq_dec i q) as [->|]; [now left|right]. exists g. split; [lia|auto].
    + intros (g & Hq & E & Hg). exists g. split; [lia|auto].
    + intros (g & Hq & E & Hg). destruct (Nat.eq_dec i q) as [->|]; [rewrite Nat.sub_diag in E; cbn in E; injection E as <-; congruence|]. exists g. split; [lia|auto].
Qed.
Lemma positions_nodup p l : forall i, NoDup (positions p l i).
Proof.
  induction l as [|f l IH]; intros i; cbn [positions]; [constructor|]. destruct (p f); [|apply IH]. constructor; [|apply IH].
  rewrite positions_in. intros (g & Hq & _). lia.
Qed.
Theorem find_field_spec l k i : find_field l k = Some i <-> designates l k i.
Proof.
  unfold find_field. pose proof (min_depth_spec k l) as M. destruct (min_depth k l) as [d|].
  - destruct M as [(f0 & I0 & M0 & D0) Hm]. split.
    + destruct (positions (at_depth k d) l 0) as [|q [|q' t]] eqn:Ep; try discriminate. intros E. injection E as <-.
      assert (Iq: In q (positions (at_depth k d) l 0)) by (rewrite Ep; now left). apply positions_in in Iq. destruct Iq as (f & _ & Ef & Hf).
      rewrite Nat.sub_0_r in Ef. unfold at_depth in Hf. apply andb_prop in Hf. destruct Hf as [Hf1 Hf2]. apply Nat.eqb_eq in Hf2.
      exists f. split; [exact Ef|split; [exact Hf1|]]. intros j g Eg Hg. pose proof (Hm g (nth_error_In _ _ Eg) Hg) as Hle.
      destruct (Nat.eq_dec (f_depth g) d) as [E|]; [left|right; lia].
      assert (Ij: In j (positions (at_depth k d) l 0)).
      { apply positions_in. exists g. rewrite Nat.sub_0_r. split; [lia|split; [exact Eg|]]. unfold at_depth, fmatch. rewrite Hg, E, Nat.eqb_refl. reflexivity. }
      rewrite Ep in Ij. destruct Ij as [<-|[]]. reflexivity.
    + intros (f & Ef & Hf & Hu).
      assert (Df: f_depth f = d).
      { pose proof (Hm f (nth_error_In _ _ Ef) Hf) as L1. apply In_nth_error in I0. destruct I0 as [j Ej]. destruct (Hu j f0 Ej M0) as [->|L2]; [congruence|lia]. }
      assert (Ii: In i (positions (at_depth k d) l 0)).
      { apply positions_in. exists f. rewrite Nat.sub_0_r. split; [lia|split; [exact Ef|]]. unfold at_depth, fmatch. rewrite Hf, Df, Nat.eqb_refl. reflexivity. }
      assert (Un: forall j, In j (positions (at_depth k d) l 0) -> j = i).
      { intros j Ij. apply positions_in in Ij. destruct Ij as (g & _ & Eg & Hg). rewrite Nat.sub_0_r in Eg. unfold at_depth in Hg. apply andb_prop in Hg.
        destruct Hg as [Hg1 Hg2]. apply Nat.eqb_eq in Hg2. destruct (Hu j g Eg Hg1); [auto|lia]. }
      pose proof (positions_nodup (at_depth k d) l 0) as ND. destruct (positions (at_depth k d) l 0) as [|q [|q' t]]; [contradiction| |].
      * f_equal. apply Un. now left.
      * exfalso. inversion ND as [|? ? N1 _]; subst. apply N1. left. rewrite (Un q), (Un q'); cbn; auto.
  - split; [discriminate|]. intros (f & Ef & Hf & _). specialize (M f (nth_error_In _ _ Ef)). unfold fmatch in M. congruence.
Qed.

Definition with_val (f : field) (w : val) : field := mkf (f_name f) (f_depth f) (f_exported f) (f_ty f) w.
Theorem set_param_spec l k v l' : set_param l k v = Some l' <->
  exists i f w, designates l k i /\ nth_error l i = Some f /\ f_exported f = true /\ convert (f_ty f) v = Some w /\
  length l' = length l /\ nth_error l' i = Some (with_val f w) /\ forall j, j <> i -> nth_error l' j = nth_error l j.
Proof.
  unfold set_param. split.
  - destruct (find_field l k) as [i|] eqn:Ef; [|discriminate]. destruct (nth_error l i) as [f|] eqn:En; [|discriminate].
    destruct (f_exported f) eqn:Ex; [|discriminate]. destruct (convert (f_ty f) v) as [w|] eqn:Ec; [|discriminate]. intros E. injection E as <-.
    exists i, f, w. apply find_field_spec in Ef. repeat split; auto.
    + apply upd_length.
    + unfold with_val. rewrite Ex. apply nth_error_upd_same. apply nth_error_Some. now rewrite En.
    + intros j N. apply nth_error_upd_other. auto.
  - intros (i & f & w & D & En & Ex & Ec & L & E1 & E2). apply find_field_spec in D. rewrite D, En, Ex, Ec. f_equal. apply list_ext. intro j.
    rewrite nth_error_upd. destruct (Nat.eqb_spec i j) as [<-|N].
    + rewrite E1. unfold with_val. rewrite Ex. destruct (Nat.ltb_spec i (length l)); [reflexivity|]. exfalso. assert (i < length l) by (apply nth_error_Some; now rewrite En). lia.
    + symmetry. apply E2. auto.
Qed.

(* names and depths do not change, so later names designate the same fields *)
Definition same_shape (l l' : list field) : Prop := map f_name l = map f_name l' /\ map f_depth l = map f_depth l'.
Lemma map_upd_same {B C} (g : B -> C) l : forall i x y, nth_error l i = Some x -> g y = g x -> map g (upd l i y) = map g l.
Proof. intros i x y E Hg. apply list_ext. intro j. rewrite !nth_error_map, nth_error_upd. destruct (Nat.eqb_spec i j) as [<-|]; [|reflexivity].
  rewrite E. destruct (Nat.ltb_spec i (length l)); [cbn; now rewrite Hg|]. exfalso. assert (i < length l) by (apply nth_error_Some; now rewrite E). lia. Qed.
Lemma set_param_shape l k v l' : set_param l k v = Some l' -> same_shape l l'.
Proof.
  unfold set_param. destruct (find_field l k) as [i|]; [|discriminate]. destruct (nth_error l i) as [f|] eqn:En; [|discriminate].
  destruct (f_exported f); [|discriminate]. destruct (convert (f_ty f) v) as [w|]; [|discriminate]. intros E. injection E as <-.
  split; symmetry; eapply map_upd_same; eauto.
Qed.
Lemma shape_designates l l' k i : same_shape l l' -> designates l k i -> designates l' k i.
Proof.
  intros [S1 S2] (f & Ef & Hf & Hu).
  assert (G: forall j (g : field), nth_error l' j = Some g -> exists g0, nth_error l j = Some g0 /\ f_name g0 = f_name g /\ f_depth g0 = f_depth g).
  { intros j g Eg. assert (Hn: nth_error (map f_name l) j = Some (f_name g)) by (rewrite S1, nth_error_map, Eg; reflexivity).
    assert (Hd: nth_error (map f_depth l) j = Some (f_depth g)) by (rewrite S2, nth_error_map, Eg; reflexivity).
    rewrite nth_error_map in Hn, Hd. destruct (nth_error l j) as [g0|]; [|discriminate]. cbn in Hn, Hd. exists g0. split; [reflexivity|split; congruence]. }
  destruct (nth_error l' i) as [f'|] eqn:Ef'.
  - destruct (G i f' Ef') as (f0 & E0 & N0 & D0). rewrite Ef in E0. injection E0 as <-. exists f'. split; [exact Ef'|split; [rewrite <- N0; exact Hf|]].
    intros j g Eg Hg. destruct (G j g Eg) as (g0 & Eg0 & Ng & Dg). rewrite <- Ng in Hg. rewrite <- D0, <- Dg. now apply Hu with (j := j).
  - exfalso. apply nth_error_None in Ef'. assert (length l = length l') by (rewrite <- (map_length f_name l), S1; apply map_length).
    assert (i < length l) by (apply nth_error_Some; now rewrite Ef). lia.
Qed.
Lemma shape_sym l l' : same_shape l l' -> same_shape l' l. Proof. intros [A B]. split; auto. Qed.
Lemma shape_find l l' k : same_shape l l' -> find_field l k = find_field l' k.
Proof.
  intros Sh. destruct (find_field l k) as [i|] eqn:E.
  - apply find_field_spec in E. symmetry. apply find_field_spec. eapply shape_designates; eauto.
  - destruct (find_field l' k) as [i|] eqn:E'; [|reflexivity]. apply find_field_spec in E'. apply (shape_designates _ l) in E'; [|now apply shape_sym].
    apply find_field_spec in E'. congruence.
Qed.

(* two parameters for different fields can be set in either order *)
Lemma set_param_comm l k1 v1 k2 v2 : find_field l k1 <> find_field l k2 \/ find_field l k1 = None ->
  (match set_param l k1 v1 with Some l1 => set_param l1 k2 v2 | None => None end) =
  (match set_param l k2 v2 with Some l1 => set_param l1 k1 v1 | None => None end).
Proof.
  intros H.
  assert (G: forall k v k' v', find_field l k <> find_field l k' \/ find_field l k = None -> (match set_param l k v with Some l1 => set_param l1 k' v' | None => None end) =
    match find_field l k, find_field l k' with
    | Some i, Some j =>
        match nth_error l i, nth_error l j with
        | Some f, Some g => if (f_exported f && f_exported g)%bool then
            match convert (f_ty f) v, convert (f_ty g) v' with Some w, Some w' => Some (upd (upd l i (with_val f w)) j (with_val g w')) | _, _ => None end else None
        | _, _ => None end
    | _, _ => None end).
  { intros k v k' v' N. destruct (set_param l k v) as [l1|] eqn:E1.
    - unfold set_param in E1. pose proof (set_param_shape l k v l1) as Sh. unfold set_param in Sh. specialize (Sh E1).
      destruct (find_field l k) as [i|] eqn:Ei; [|discriminate]. destruct (nth_error l i) as [f|] eqn:En; [|discriminate].
      destruct (f_exported f) eqn:Ex; [|discriminate]. destruct (convert (f_ty f) v) as [w|] eqn:Ec; [|discriminate]. injection E1 as <-.
      unfold set_param. rewrite <- (shape_find _ _ k' Sh). destruct (find_field l k') as [j|] eqn:Ej; [|reflexivity].
      assert (i <> j) by (destruct N as [N|N]; congruence). rewrite nth_error_upd_other by auto. destruct (nth_error l j) as [g|]; [|reflexivity].
      unfold with_val. rewrite Ex. cbn [andb]. destruct (f_exported g); [|reflexivity]. destruct (convert (f_ty g) v'); reflexivity.
    - unfold set_param in E1. destruct (find_field l k) as [i|]; [|reflexivity]. destruct (nth_error l i) as [f|]; [|now destruct (find_field l k')].
      destruct (find_field l k') as [j|]; [|reflexivity]. destruct (nth_error l j) as [g|]; [|reflexivity].
      destruct (f_exported f); [|reflexivity]. cbn [andb]. destruct (f_exported g); [|reflexivity]. destruct (convert (f_ty f) v); [discriminate|reflexivity]. }
  destruct (find_field l k1) as [i|] eqn:Ei.
  - rewrite (G k1 v1 k2 v2) by (rewrite Ei; exact H). rewrite Ei. destruct (find_field l k2) as [j|] eqn:Ej.
    + assert (N: i <> j) by (destruct H as [H|H]; congruence).
      rewrite (G k2 v2 k1 v1) by (left; congruence). rewrite Ei, Ej.
      destruct (nth_error l i) as [f|] eqn:En; [|now destruct (nth_error l j)]. destruct (nth_error l j) as [g|] eqn:Em; [|reflexivity].
      rewrite (andb_comm (f_exported g)). destruct (f_exported f && f_exported g)%bool; [|reflexivity].
      destruct (convert (f_ty f) v1); [|now destruct (convert (f_ty g) v2)]. destruct (convert (f_ty g) v2); [|reflexivity]. f_equal.
      apply list_ext. intro q. rewrite !nth_error_upd, !upd_length. destruct (Nat.eqb_spec i q), (Nat.eqb_spec j q); try reflexivity. congruence.
    + unfold set_param. rewrite Ej. reflexivity.
  - unfold set_param at 1. rewrite Ei. destruct (set_param l k2 v2) as [l1|] eqn:E2; [|reflexivity]. apply set_param_shape in E2.
    unfold set_param. rewrite <- (shape_find _ _ k1 E2), Ei. reflexivity.
Qed.

(* all the names of a candidate designate different fields *)
Definition distinct_targets (l : list field) (ps : list (string * val)) : Prop :=
  NoDup (map fst ps) /\ forall k1 k2, In k1 (map fst ps) -> In k2 (map fst ps) -> k1 <> k2 -> find_field l k1 <> find_field l k2 \/ find_field l k1 = None.
Lemma distinct_shape l l' ps : same_shape l l' -> distinct_targets l ps -> distinct_targets l' ps.
Proof. intros Sh [ND H]. split; [exact ND|]. intros k1 k2 I1 I2 N. rewrite <- !(shape_find l l') by exact Sh. now apply H. Qed.

Theorem set_params_perm ps qs : Permutation ps qs -> forall l, distinct_targets l ps -> set_params l ps = set_params l qs.
Proof.
  induction 1 as [|[k v] ps qs P IH|[k1 v1] [k2 v2] ps|ps qs rs P1 IH1 P2 IH2]; intros l D; auto.
  - cbn [set_params]. destruct (set_param l k v) as [l1|] eqn:E; [|reflexivity]. apply IH. apply (distinct_shape l); [eapply set_param_shape; eauto|].
    destruct D as [ND H]. cbn [map fst] in *. inversion ND; subst. split; auto. intros a b Ia Ib. apply H; now right.
  - cbn [set_params]. destruct D as [ND H]. cbn [map fst] in *.
    assert (N: k1 <> k2) by (inversion ND as [|? ? N1 _]; subst; intros ->; apply N1; now left).
    pose proof (set_param_comm l k2 v2 k1 v1) as C. specialize (C (H k2 k1 ltac:(now left) ltac:(right; now left) ltac:(auto))).
    destruct (set_param l k2 v2) as [l2|]; destruct (set_param l k1 v1) as [l1|]; try rewrite C; try reflexivity; now rewrite <- C.
  - rewrite IH1 by exact D. apply IH2. destruct D as [ND H]. split; [eapply Permutation_NoDup; [|exact ND]; now apply Permutation_map|].
    intros a b Ia Ib. apply H; eapply Permutation_in; try (apply Permutation_map; apply Permutation_sym; exact P1); assumption.
Qed.

(* a candidate with each name once, applied completely: every designated field has its converted value, all other fields are as before *)
Theorem set_params_spec ps : forall l l', distinct_targets l ps -> set_params l ps = Some l' ->
  length l' = length l /\
  (forall k v, In (k, v) ps -> exists i f w, designates l k i /\ nth_error l i = Some f /\ convert (f_ty f) v = Some w /\ nth_error l' i = Some (with_val f w)) /\
  (forall j, (forall k, In k (map fst ps) -> ~ designates l k j) -> nth_error l' j = nth_error l j).
Proof.
  induction ps as [|[k v] ps IH]; intros l l' D E; cbn [set_params] in E.
  - injection E as <-. split; [reflexivity|split; [intros; contradiction|auto]].
  - destruct (set_param l k v) as [l1|] eqn:E1; [|discriminate]. pose proof (set_param_shape _ _ _ _ E1) as Sh.
    assert (D1: distinct_targets l1 ps).
    { apply (distinct_shape l); [exact Sh|]. destruct D as [ND H]. cbn [map fst] in *. inversion ND; subst. split; auto. intros a b Ia Ib. apply H; now right. }
    destruct (IH l1 l' D1 E) as (L & HI & HO). apply set_param_spec in E1. destruct E1 as (i & f & w & Di & Ef & Ex & Ec & L1 & Ei & Eo).
    assert (Ni: forall k', In k' (map fst ps) -> ~ designates l1 k' i).
    { intros k' I' D'. apply (shape_designates _ l) in D'; [|now apply shape_sym]. destruct D as [ND H]. cbn [map fst] in *.
      assert (k <> k') by (inversion ND as [|? ? N1 _]; subst; intros ->; contradiction).
      apply find_field_spec in Di, D'. destruct (H k k' ltac:(now left) ltac:(now right) ltac:(auto)) as [H1|H1]; congruence. }
    split; [congruence|split].
    + intros k' v' [Ek|I'].
      * injection Ek as <- <-. exists i, f, w. repeat split; auto. rewrite HO by exact Ni. exact Ei.
      * destruct (HI k' v' I') as (i' & f' & w' & D' & Ef' & Ec' & E').
        assert (N: i' <> i) by (intros ->; apply (Ni k'); [now apply in_map with (f := fst) in I'|exact D']).
        exists i', f', w'. rewrite Eo in Ef' by exact N. repeat split; auto. apply (shape_designates l1); [now apply shape_sym|exact D'].
    + intros j Hj. rewrite HO.
      * apply Eo. intros ->. apply (Hj k); [now left|exact Di].
      * intros k' I' D'. apply (Hj k'); [now right|]. apply (shape_designates l1); [now apply shape_sym|exact D'].
Qed.

(* ---------------------------------------------------------------- hyperparameters that stick *)
Open Scope Q_scope.
Lemma inv_nat_pos n : (0 < n)%nat -> 0 < 1 / inject_Z (Z.of_nat n).
Proof. intros H. apply Qlt_shift_div_l; [|lra]. change 0 with (inject_Z 0). rewrite <- Zlt_Qlt. lia. Qed.
Theorem svm_first g n : (0 < n)%nat -> (0 < g -> svm_gamma g n = g) /\ (g <= 0 -> svm_gamma g n = 1 / inject_Z (Z.of_nat n)) /\ 0 < svm_gamma g n.
Proof.
  intros Hn. unfold svm_gamma. pose proof (inv_nat_pos n Hn) as P. destruct (Qle_bool g 0) eqn:E.
  - apply Qle_bool_iff in E. split; [intros; lra|split; [auto|exact P]].
  - assert (~ g <= 0) as N by (rewrite <- Qle_bool_iff; congruence). split; [auto|split; [intros; lra|lra]].
Qed.
Theorem svm_sticks g n1 n2 : (0 < n1)%nat -> svm_gamma (svm_gamma g n1) n2 = svm_gamma g n1.
Proof.
  intros Hn. destruct (svm_first g n1 Hn) as (_ & _ & P). unfold svm_gamma at 1. destruct (Qle_bool (svm_gamma g n1) 0) eqn:E; [|reflexivity].
  apply Qle_bool_iff in E. lra.
Qed.
Theorem svm_refit_wrong g n1 n2 : (0 < n1)%nat -> (0 < n2)%nat -> n1 <> n2 -> g <= 0 -> ~ svm_gamma (svm_gamma g n1) n2 == svm_gamma g n2.
Proof.
  intros H1 H2 N Hg. rewrite svm_sticks by exact H1. destruct (svm_first g n1 H1) as (_ & -> & _); auto. destruct (svm_first g n2 H2) as (_ & -> & _); auto.
  intros E. apply N. assert (P1: 0 < inject_Z (Z.of_nat n1)) by (change 0 with (inject_Z 0); rewrite <- Zlt_Qlt; lia).
  assert (P2: 0 < inject_Z (Z.of_nat n2)) by (change 0 with (inject_Z 0); rewrite <- Zlt_Qlt; lia).
  assert (E2: inject_Z (Z.of_nat n1) == inject_Z (Z.of_nat n2)).
  { assert (E': inject_Z (Z.of_nat n1) == 1 / (1 / inject_Z (Z.of_nat n1))) by (field; lra). rewrite E', E. field. lra. }
  unfold inject_Z, Qeq in E2. cbn in E2. lia.
Qed.
Open Scope Z_scope.
Theorem mlp_batch_range lb bs n : (0 < n)%nat -> 0 < mlp_batch lb bs n <= Z.of_nat n.
Proof. intros H. unfold mlp_batch. destruct lb; [lia|]. destruct (Z.leb_spec bs 0); [lia|]. destruct (Z.ltb_spec (Z.of_nat n) bs); lia. Qed.
Theorem mlp_batch_sticks bs n1 n2 : (0 < n1)%nat -> (n1 <= n2)%nat -> mlp_batch false (mlp_batch false bs n1) n2 = mlp_batch false bs n1.
Proof.
  intros H1 H2. pose proof (mlp_batch_range false bs n1 H1). unfold mlp_batch at 1. destruct (Z.leb_spec (mlp_batch false bs n1) 0); [lia|].
  destruct (Z.ltb_spec (Z.of_nat n2) (mlp_batch false bs n1)); lia.
Qed.

(* ------------------------------------------------------ the value setParam stores *)
(* a value of a Go type: a non-nil value of any type may stand in a field of interface type *)
Definition typed (t : ty) (v : val) : Prop :=
  match t with
  | TString => exists s, v = VStr s
  | TFloat64 => exists q, v = VF64 q
  | TInt => exists n, v = VInt n
  | TIface => v <> VNil
  | TOther k => exists x, v = VOther k x
  end.
(* the number a value denotes *)
Definition number (v : val) : option Q :=
  match v with VInt n => Some (inject_Z n) | VF32 q => Some q | VF64 q => Some q | _ => None end.
Lemma convert_value : forall t v w, convert t v = Some w -> typed t w /\ number w = number v /\ (t <> TFloat64 -> w = v).
Proof.
  intros t v w H. destruct t, v; cbn in H; try discriminate; try (injection H as <-; cbn; repeat split; eauto; try discriminate; congruence).
  destruct (t =? t0)%nat eqn:E; [|discriminate]. injection H as <-. apply Nat.eqb_eq in E. subst. cbn. repeat split; eauto.
Qed.
Lemma set_param_value : forall l k v l', (forall f, In f l -> f_val f <> VNil -> typed (f_ty f) (f_val f)) -> set_param l k v = Some l' ->
  (forall f, In f l' -> f_val f <> VNil -> typed (f_ty f) (f_val f)) /\
  exists i f, designates l k i /\ nth_error l' i = Some f /\ typed (f_ty f) (f_val f) /\ number (f_val f) = number v /\ (f_ty f <> TFloat64 -> f_val f = v).
Proof.
  intros l k v l' T H. apply set_param_spec in H as (i & f & w & D & En & _ & C & _ & En' & O). apply convert_value in C as (C1 & C2 & C3). split.
  - intros g Hg Hn. apply In_nth_error in Hg as (j & Ej). destruct (Nat.eq_dec j i) as [->|N].
    + rewrite En' in Ej. injection Ej as <-. exact C1.
    + rewrite O in Ej by assumption. apply T; [|assumption]. now apply nth_error_In in Ej.
  - exists i, (with_val f w). repeat split; auto.
Qed.
