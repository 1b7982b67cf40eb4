From Verif Require Import QCommon ScaleModel.
Open Scope Q_scope.

Definition rows_ok (n : nat) (rows : list (list Q)) : Prop := Forall (fun r => length r = n) rows.
Definition mat_eq : list (list Q) -> list (list Q) -> Prop := Forall2 (Forall2 Qeq).

(* ------------------------------------------------------ column of a fold *)
Lemma fold_zip_length n (f : Q -> Q -> Q) rows : rows_ok n rows -> forall d, length d = n -> length (fold_left (zip f) rows d) = n.
Proof.
  induction 1 as [|r rows Hr HF IH]; intros d Hd; cbn [fold_left]; auto.
  apply IH. rewrite zip_length; lia.
Qed.
Lemma fold_zip_nth n (f : Q -> Q -> Q) rows j : rows_ok n rows -> (j < n)%nat -> forall d, length d = n ->
  nth j (fold_left (zip f) rows d) 0 = fold_left f (map (fun r => nth j r 0) rows) (nth j d 0).
Proof.
  intros H Hj. induction H as [|r rows Hr HF IH]; intros d Hd; cbn [fold_left map]; auto.
  rewrite IH by (rewrite zip_length; lia). f_equal. apply nth_zip; lia.
Qed.

Lemma qmin_spec x y : qmin x y <= x /\ qmin x y <= y /\ (qmin x y = x \/ qmin x y = y).
Proof. unfold qmin. destruct (Qleb_spec x y); repeat split; auto; lra. Qed.
Lemma qmax_spec x y : x <= qmax x y /\ y <= qmax x y /\ (qmax x y = x \/ qmax x y = y).
Proof. unfold qmax. destruct (Qleb_spec x y); repeat split; auto; lra. Qed.

Lemma fold_qmin_spec l : forall a, let m := fold_left qmin l a in
  m <= a /\ (forall x, In x l -> m <= x) /\ (m = a \/ In m l).
Proof.
  induction l as [|x l IH]; intros a m; cbn [fold_left] in m.
  - subst m. repeat split; auto; [lra|intros x []].
  - destruct (IH (qmin a x)) as (H1 & H2 & H3). fold m in H1, H2, H3. destruct (qmin_spec a x) as (A & B & C). split; [lra|]. split.
    + intros y [<-|Hy]; [lra|auto].
    + destruct H3 as [->|H3]; [|right; cbn; auto]. destruct C as [-> | ->]; cbn; auto.
Qed.
Lemma fold_qmax_spec l : forall a, let m := fold_left qmax l a in
  a <= m /\ (forall x, In x l -> x <= m) /\ (m = a \/ In m l).
Proof.
  induction l as [|x l IH]; intros a m; cbn [fold_left] in m.
  - subst m. repeat split; auto; [lra|intros x []].
  - destruct (IH (qmax a x)) as (H1 & H2 & H3). fold m in H1, H2, H3. destruct (qmax_spec a x) as (A & B & C). split; [lra|]. split.
    + intros y [<-|Hy]; [lra|auto].
    + destruct H3 as [->|H3]; [|right; cbn; auto]. destruct C as [-> | ->]; cbn; auto.
Qed.

(* ------------------------------------------------------------ MinMaxScaler *)
Definition mm_of (lo hi : Q) (r0 : list Q) (rows : list (list Q)) : minmax :=
  let dmin := fold_left (zip qmin) rows r0 in
  let dmax := fold_left (zip qmax) rows r0 in
  let range := map nonzero (zip Qminus dmax dmin) in
  let scale := map (fun x => (hi - lo) / x) range in
  mkmm lo hi (length rows) dmin dmax range scale (zip (fun d s => lo - d * s) dmin scale).

Lemma mm_fit_of st r0 rows : mm_fit st (r0 :: rows) = mm_of (mm_lo st) (mm_hi st) r0 (r0 :: rows).
Proof. reflexivity. Qed.
Lemma mm_partial_of lo hi r0 rows b : rows <> [] -> mm_partial_fit (mm_of lo hi r0 rows) b = mm_of lo hi r0 (rows ++ b).
Proof.
  intros H. destruct b as [|b0 b]; [now rewrite app_nil_r|].
  unfold mm_partial_fit. cbn [mm_of mm_seen mm_lo mm_hi mm_dmin mm_dmax].
  destruct (Nat.eqb_spec (length rows) 0) as [E|E]; [destruct rows; [congruence|discriminate]|].
  unfold mm_of. rewrite !fold_left_app, app_length. reflexivity.
Qed.
Lemma mm_history st r0 rows batches :
  fold_left mm_partial_fit batches (mm_fit st (r0 :: rows)) = mm_of (mm_lo st) (mm_hi st) r0 ((r0 :: rows) ++ concat batches).
Proof.
  rewrite mm_fit_of. assert (H: forall acc, acc <> [] -> fold_left mm_partial_fit batches (mm_of (mm_lo st) (mm_hi st) r0 acc) =
    mm_of (mm_lo st) (mm_hi st) r0 (acc ++ concat batches)).
  { induction batches as [|b batches IH]; intros acc Hacc; cbn [fold_left concat]; [now rewrite app_nil_r|].
    rewrite mm_partial_of by auto. rewrite IH by (destruct acc; [congruence|discriminate]). now rewrite app_assoc. }
  apply H. discriminate.
Qed.

Lemma nonzero_spec x : ~ nonzero x == 0 /\ (x == 0 -> nonzero x == 1) /\ (~ x == 0 -> nonzero x == x) /\ (0 <= x -> 0 < nonzero x).
Proof.
  unfold nonzero. destruct (Qeqb_spec x 0) as [E|E]; repeat split; try lra; try tauto.
Qed.

Lemma nth_map_Q (f : Q -> Q) l j : (j < length l)%nat -> nth j (map f l) 0 = f (nth j l 0).
Proof. intros H. rewrite (nth_indep _ 0 (f 0)) by (now rewrite map_length). apply map_nth. Qed.
Lemma nth_combine_Q (l m : list Q) j : length l = length m -> nth j (combine l m) (0, 0) = (nth j l 0, nth j m 0).
Proof. apply combine_nth. Qed.

Lemma mm_fields n lo hi r0 rows j : rows_ok n rows -> length r0 = n -> (j < n)%nat ->
  let st := mm_of lo hi r0 rows in
  let c := map (fun r => nth j r 0) rows in
  length (mm_dmin st) = n /\ length (mm_dmax st) = n /\ length (mm_scale st) = n /\ length (mm_min st) = n /\
  nth j (mm_dmin st) 0 = fold_left qmin c (nth j r0 0) /\
  nth j (mm_dmax st) 0 = fold_left qmax c (nth j r0 0) /\
  nth j (mm_scale st) 0 = (hi - lo) / nonzero (nth j (mm_dmax st) 0 - nth j (mm_dmin st) 0) /\
  nth j (mm_min st) 0 = lo - nth j (mm_dmin st) 0 * nth j (mm_scale st) 0.
Proof.
  intros HR H0 Hj st c. unfold st, mm_of. cbn [mm_dmin mm_dmax mm_scale mm_min].
  pose proof (fold_zip_length n qmin rows HR r0 H0) as L1. pose proof (fold_zip_length n qmax rows HR r0 H0) as L2.
  set (dmin := fold_left (zip qmin) rows r0) in *. set (dmax := fold_left (zip qmax) rows r0) in *.
  assert (L3: length (zip Qminus dmax dmin) = n) by (rewrite zip_length; lia).
  assert (L4: length (map (fun x => (hi - lo) / x) (map nonzero (zip Qminus dmax dmin))) = n) by (now rewrite !map_length).
  split; auto. split; auto. split; auto. split; [rewrite zip_length; lia|].
  split; [apply fold_zip_nth with n; auto|]. split; [apply fold_zip_nth with n; auto|].
  assert (E: nth j (map (fun x => (hi - lo) / x) (map nonzero (zip Qminus dmax dmin))) 0 = (hi - lo) / nonzero (nth j dmax 0 - nth j dmin 0)).
  { rewrite nth_map_Q by (rewrite map_length; lia). rewrite nth_map_Q by lia. now rewrite (nth_zip Qminus _ _ _ 0 0) by lia. }
  split; [exact E|]. rewrite (nth_zip _ _ _ _ 0 0) by lia. reflexivity.
Qed.

Lemma mm_transform_nth st row j n : length (mm_min st) = n -> length (mm_scale st) = n -> length row = n -> (j < n)%nat ->
  nth j (mm_transform st row) 0 = nth j (mm_min st) 0 + nth j row 0 * nth j (mm_scale st) 0.
Proof.
  intros H1 H2 H3 Hj. unfold mm_transform.
  rewrite (nth_zip _ _ _ _ (0,0) 0) by (rewrite combine_length; lia).
  rewrite nth_combine_Q by lia. reflexivity.
Qed.
Lemma mm_inverse_nth st row j n : length (mm_min st) = n -> length (mm_scale st) = n -> length row = n -> (j < n)%nat ->
  nth j (mm_inverse st row) 0 = (nth j row 0 - nth j (mm_min st) 0) / nth j (mm_scale st) 0.
Proof.
  intros H1 H2 H3 Hj. unfold mm_inverse.
  rewrite (nth_zip _ _ _ _ (0,0) 0) by (rewrite combine_length; lia).
  rewrite nth_combine_Q by lia. reflexivity.
Qed.
Lemma mm_transform_len st row n : length (mm_min st) = n -> length (mm_scale st) = n -> length row = n -> length (mm_transform st row) = n.
Proof. intros. unfold mm_transform. rewrite zip_length; rewrite combine_length; lia. Qed.
Lemma mm_inverse_len st row n : length (mm_min st) = n -> length (mm_scale st) = n -> length row = n -> length (mm_inverse st row) = n.
Proof. intros. unfold mm_inverse. rewrite zip_length; rewrite combine_length; lia. Qed.

Lemma Forall2_nth_Q (l l' : list Q) : length l = length l' ->
  (forall j, (j < length l')%nat -> nth j l 0 == nth j l' 0) -> Forall2 Qeq l l'.
Proof.
  revert l'. induction l as [|x l IH]; intros [|y l'] HL H; try discriminate; constructor.
  - apply (H 0%nat). cbn. lia.
  - apply IH; [cbn in HL; lia|]. intros j Hj. apply (H (S j)). cbn. lia.
Qed.

Lemma Qdiv_le_1 a b : 0 < b -> a <= b -> a / b <= 1.
Proof. intros Hb H. apply Qle_shift_div_r; lra. Qed.

Lemma mm_main st n r0 rows batches : let all := (r0 :: rows) ++ concat batches in
  rows_ok n all -> mm_lo st < mm_hi st ->
  let fin := fold_left mm_partial_fit batches (mm_fit st (r0 :: rows)) in
  let lo := mm_lo st in let hi := mm_hi st in
  (forall j, (j < n)%nat ->
     let dmin := nth j (mm_dmin fin) 0 in let dmax := nth j (mm_dmax fin) 0 in
     (forall row, In row all -> dmin <= nth j row 0 <= dmax) /\
     (exists row, In row all /\ nth j row 0 = dmin) /\ (exists row, In row all /\ nth j row 0 = dmax)) /\
  (forall row j, In row all -> (j < n)%nat -> lo <= nth j (mm_transform fin row) 0 <= hi) /\
  (forall row j, length row = n -> (j < n)%nat -> nth j (mm_dmin fin) 0 < nth j (mm_dmax fin) 0 ->
     (nth j row 0 == nth j (mm_dmin fin) 0 -> nth j (mm_transform fin row) 0 == lo) /\
     (nth j row 0 == nth j (mm_dmax fin) 0 -> nth j (mm_transform fin row) 0 == hi)) /\
  (forall row, length row = n -> Forall2 Qeq (mm_inverse fin (mm_transform fin row)) row) /\
  (forall row, length row = n -> Forall2 Qeq (mm_transform fin (mm_inverse fin row)) row).
Proof.
  intros all HR Hlt fin lo hi.
  assert (Efin: fin = mm_of lo hi r0 all) by apply mm_history. rewrite Efin. clear Efin fin.
  assert (Hlh: lo < hi) by exact Hlt.
  set (fin := mm_of lo hi r0 all) in *.
  assert (H0: length r0 = n) by (inversion HR; auto).
  assert (HF: forall j, (j < n)%nat -> _) by (intros j Hj; exact (mm_fields n lo hi r0 all j HR H0 Hj)).
  cbv zeta in HF. fold fin in HF.
  assert (HD: forall j, (j < n)%nat ->
     (forall row, In row all -> nth j (mm_dmin fin) 0 <= nth j row 0 <= nth j (mm_dmax fin) 0) /\
     (exists row, In row all /\ nth j row 0 = nth j (mm_dmin fin) 0) /\ (exists row, In row all /\ nth j row 0 = nth j (mm_dmax fin) 0)).
  { intros j Hj. destruct (HF j Hj) as (_ & _ & _ & _ & E1 & E2 & _ & _).
    destruct (fold_qmin_spec (map (fun r => nth j r 0) all) (nth j r0 0)) as (A1 & A2 & A3).
    destruct (fold_qmax_spec (map (fun r => nth j r 0) all) (nth j r0 0)) as (B1 & B2 & B3).
    cbv zeta in *. rewrite <- E1 in *. rewrite <- E2 in *. split; [|split].
    - intros row Hrow. assert (In (nth j row 0) (map (fun r => nth j r 0) all)) by (apply in_map_iff; eauto).
      split; auto.
    - destruct A3 as [A3|A3]; [exists r0; split; [left; auto|auto]|]. apply in_map_iff in A3. destruct A3 as (r & Er & Hr). exists r; auto.
    - destruct B3 as [B3|B3]; [exists r0; split; [left; auto|auto]|]. apply in_map_iff in B3. destruct B3 as (r & Er & Hr). exists r; auto. }
  assert (HS: forall j, (j < n)%nat -> 0 < nth j (mm_scale fin) 0).
  { intros j Hj. destruct (HF j Hj) as (_ & _ & _ & _ & _ & _ & -> & _). destruct (HD j Hj) as (A & _ & _).
    specialize (A r0 (or_introl eq_refl)). apply Qlt_shift_div_l; [|lra].
    apply nonzero_spec. lra. }
  assert (HT: forall row j, length row = n -> (j < n)%nat ->
     nth j (mm_transform fin row) 0 == lo + (nth j row 0 - nth j (mm_dmin fin) 0) * nth j (mm_scale fin) 0).
  { intros row j HL Hj. destruct (HF j Hj) as (_ & _ & L1 & L2 & _ & _ & _ & Em).
    rewrite (mm_transform_nth fin row j n) by auto. rewrite Em. ring. }
  split; [exact HD|]. split; [|split; [|split]].
  - intros row j Hrow Hj. assert (HL: length row = n) by (unfold rows_ok in HR; rewrite Forall_forall in HR; auto).
    rewrite HT by auto. destruct (HF j Hj) as (_ & _ & _ & _ & _ & _ & Es & _).
    destruct (HD j Hj) as (A & _ & _). specialize (A row Hrow). specialize (HS j Hj).
    set (dmin := nth j (mm_dmin fin) 0) in *. set (dmax := nth j (mm_dmax fin) 0) in *. set (x := nth j row 0) in *.
    split.
    + assert (0 <= (x - dmin) * nth j (mm_scale fin) 0) by (apply Qmult_le_0_compat; lra). lra.
    + rewrite Es. destruct (nonzero_spec (dmax - dmin)) as (N1 & N2 & N3 & N4).
      assert (E: (x - dmin) * ((hi - lo) / nonzero (dmax - dmin)) == (hi - lo) * ((x - dmin) / nonzero (dmax - dmin))) by (field; auto).
      rewrite E. assert ((x - dmin) / nonzero (dmax - dmin) <= 1).
      { destruct (Qeq_dec (dmax - dmin) 0) as [Z|Z].
        - rewrite (N2 Z). assert (x - dmin == 0) by lra. rewrite H. unfold Qdiv. lra.
        - apply Qdiv_le_1; [apply N4; lra|]. rewrite (N3 Z). lra. }
      assert (0 <= hi - lo) by lra.
      assert ((hi - lo) * ((x - dmin) / nonzero (dmax - dmin)) <= (hi - lo) * 1).
      { rewrite !(Qmult_comm (hi - lo)). apply Qmult_le_compat_r; auto. }
      lra.
  - intros row j HL Hj Hlt'. rewrite !HT by auto. split; intros E; rewrite E.
    + ring.
    + destruct (HF j Hj) as (_ & _ & _ & _ & _ & _ & Es & _). rewrite Es.
      destruct (nonzero_spec (nth j (mm_dmax fin) 0 - nth j (mm_dmin fin) 0)) as (N1 & _ & N3 & _).
      rewrite N3 by lra. field. lra.
  - intros row HL. destruct n as [|n'].
    { destruct row; [|discriminate]. unfold mm_transform, mm_inverse. destruct (combine _ _); cbn; constructor. }
    destruct (HF 0%nat ltac:(lia)) as (_ & _ & L1 & L2 & _).
    assert (HLT: length (mm_transform fin row) = S n') by (apply mm_transform_len; auto).
    apply Forall2_nth_Q; [rewrite HL; apply mm_inverse_len; auto|]. intros j Hj. rewrite HL in Hj.
    rewrite (mm_inverse_nth fin _ j (S n')) by auto. rewrite (mm_transform_nth fin _ j (S n')) by auto.
    specialize (HS j Hj). field. lra.
  - intros row HL. destruct n as [|n'].
    { destruct row; [|discriminate]. unfold mm_transform, mm_inverse. destruct (combine _ _); cbn; constructor. }
    destruct (HF 0%nat ltac:(lia)) as (_ & _ & L1 & L2 & _).
    assert (HLT: length (mm_inverse fin row) = S n') by (apply mm_inverse_len; auto).
    apply Forall2_nth_Q; [rewrite HL; apply mm_transform_len; auto|]. intros j Hj. rewrite HL in Hj.
    rewrite (mm_transform_nth fin _ j (S n')) by auto. rewrite (mm_inverse_nth fin _ j (S n')) by auto.
    specialize (HS j Hj). field. lra.
Qed.

(* ------------------------------------------------------------ raw helpers *)
Lemma raw_rows_eq (a b : raw Q) : rrows a = rrows b -> rcols a = rcols b ->
  (forall i j, (i < rrows a)%nat -> (j < rcols a)%nat ->
     nth (i * rstride a + j) (rdata a) 0 == nth (i * rstride b + j) (rdata b) 0) ->
  mat_eq (raw_rows 0 a) (raw_rows 0 b).
Proof.
  intros Hr Hc H. unfold mat_eq, raw_rows. rewrite <- Hr, <- Hc.
  assert (G: forall l, (forall i, In i l -> (i < rrows a)%nat) -> Forall2 (Forall2 Qeq)
     (map (fun i => map (fun j => nth (i * rstride a + j) (rdata a) 0) (seq 0 (rcols a))) l)
     (map (fun i => map (fun j => nth (i * rstride b + j) (rdata b) 0) (seq 0 (rcols a))) l)).
  { induction l as [|i l IH]; intros Hl; cbn [map]; constructor.
    - assert (G2: forall k, (forall j, In j k -> (j < rcols a)%nat) -> Forall2 Qeq
         (map (fun j => nth (i * rstride a + j) (rdata a) 0) k) (map (fun j => nth (i * rstride b + j) (rdata b) 0) k)).
      { induction k as [|j k IHk]; intros Hk; cbn [map]; constructor.
        - apply H; [apply Hl|apply Hk]; cbn; auto.
        - apply IHk. intros; apply Hk; cbn; auto. }
      apply G2. intros j Hj. apply in_seq in Hj. lia.
    - apply IH. intros; apply Hl; cbn; auto. }
  apply G. intros i Hi. apply in_seq in Hi. lia.
Qed.

(* a transform filling a new matrix from the cells of X *)
Lemma fill_new_spec (order : nat -> nat -> list (nat * nat)) (f : nat -> nat -> Q) r c :
  (0 < r)%nat -> (0 < c)%nat -> NoDup (order r c) -> (forall i j, In (i, j) (order r c) <-> (i < r /\ j < c)%nat) ->
  exists m', raw_fill (order r c) f (new_raw 0 r c) = Some m' /\ rrows m' = r /\ rcols m' = c /\ raw_wf m' /\
    (forall i j, (i < r)%nat -> (j < c)%nat -> nth (i * rstride m' + j) (rdata m') 0 = f i j).
Proof.
  intros Hr Hc ND HI. pose proof (new_raw_wf 0 r c Hr Hc) as HW.
  destruct (raw_fill_rows 0 (order r c) f (new_raw 0 r c) HW ND HI) as (m' & E & E1 & E2 & E3 & E4 & E5 & _).
  exists m'. cbn [rrows rcols rstride new_raw] in *. split; [exact E|]. split; [exact E1|]. split; [exact E2|].
  split; [unfold raw_wf in *; rewrite E1, E2, E3, E4; exact HW|].
  - intros i j Hi Hj. rewrite <- (raw_cell 0 m' i j) by lia. rewrite E5.
    rewrite (nth_indep _ [] (map (f 0%nat) (seq 0 c))) by (rewrite map_length, seq_length; lia).
    rewrite (map_nth (fun i => map (f i) (seq 0 c))). rewrite seq_nth by auto.
    rewrite (nth_indep _ 0 (f (0 + i)%nat 0%nat)) by (rewrite map_length, seq_length; lia).
    rewrite map_nth, seq_nth by auto. reflexivity.
Qed.

Definition cell (m : raw Q) (i j : nat) : Q := nth j (nth i (raw_rows 0 m) []) 0.

(* ---------------------------------------------------------- StandardScaler *)
Lemma sd_transform_spec wm ws mean scale X : raw_wf X ->
  (wm = true -> (rcols X <= length mean)%nat) -> (ws = true -> (rcols X <= length scale)%nat) ->
  exists X', sd_transform wm ws mean scale X = Some X' /\ rrows X' = rrows X /\ rcols X' = rcols X /\ raw_wf X' /\
    forall i j, (i < rrows X)%nat -> (j < rcols X)%nat ->
      nth (i * rstride X' + j) (rdata X') 0 =
      (nth (i * rstride X + j) (rdata X) 0 - (if wm then nth j mean 0 else 0)) / (if ws then nth j scale 0 else 1).
Proof.
  intros (Hc & Hr & HL) Hm Hs. unfold sd_transform.
  assert (G: ((negb wm || Nat.leb (rcols X) (length mean)) && (negb ws || Nat.leb (rcols X) (length scale)) = true)%bool).
  { apply andb_true_intro. split; apply orb_true_iff; [destruct wm|destruct ws]; cbn; auto; right; apply Nat.leb_le; auto. }
  rewrite G.
  apply (fill_new_spec col_major (fun i j => (nth (i * rstride X + j) (rdata X) 0 - (if wm then nth j mean 0 else 0)) / (if ws then nth j scale 0 else 1)));
    try lia; [apply col_major_NoDup|intros; apply col_major_In].
Qed.
Lemma sd_inverse_spec wm ws mean scale X : raw_wf X ->
  (wm = true -> (rcols X <= length mean)%nat) -> (ws = true -> (rcols X <= length scale)%nat) ->
  exists X', sd_inverse wm ws mean scale X = Some X' /\ rrows X' = rrows X /\ rcols X' = rcols X /\ raw_wf X' /\
    forall i j, (i < rrows X)%nat -> (j < rcols X)%nat ->
      nth (i * rstride X' + j) (rdata X') 0 =
      (if wm then nth j mean 0 else 0) + nth (i * rstride X + j) (rdata X) 0 * (if ws then nth j scale 0 else 1).
Proof.
  intros (Hc & Hr & HL) Hm Hs. unfold sd_inverse.
  assert (G: ((negb wm || Nat.leb (rcols X) (length mean)) && (negb ws || Nat.leb (rcols X) (length scale)) = true)%bool).
  { apply andb_true_intro. split; apply orb_true_iff; [destruct wm|destruct ws]; cbn; auto; right; apply Nat.leb_le; auto. }
  rewrite G.
  apply (fill_new_spec col_major (fun i j => (if wm then nth j mean 0 else 0) + nth (i * rstride X + j) (rdata X) 0 * (if ws then nth j scale 0 else 1)));
    try lia; [apply col_major_NoDup|intros; apply col_major_In].
Qed.

Lemma sd_roundtrip wm ws mean scale X : raw_wf X ->
  (wm = true -> length mean = rcols X) ->
  (ws = true -> length scale = rcols X /\ Forall (fun s => ~ s == 0) scale) ->
  (exists X1 X2, sd_transform wm ws mean scale X = Some X1 /\ sd_inverse wm ws mean scale X1 = Some X2 /\
     rrows X1 = rrows X /\ rcols X1 = rcols X /\
     (forall i j, (i < rrows X)%nat -> (j < rcols X)%nat ->
        cell X1 i j = (cell X i j - (if wm then nth j mean 0 else 0)) / (if ws then nth j scale 0 else 1)) /\
     mat_eq (raw_rows 0 X2) (raw_rows 0 X)) /\
  (exists X1 X2, sd_inverse wm ws mean scale X = Some X1 /\ sd_transform wm ws mean scale X1 = Some X2 /\
     rrows X1 = rrows X /\ rcols X1 = rcols X /\ mat_eq (raw_rows 0 X2) (raw_rows 0 X)).
Proof.
  intros HW Hm Hs.
  assert (Hm': wm = true -> (rcols X <= length mean)%nat) by (intros; rewrite Hm; auto).
  assert (Hs': ws = true -> (rcols X <= length scale)%nat) by (intros E; destruct (Hs E) as [-> _]; auto).
  assert (NZ: forall j, (j < rcols X)%nat -> ~ (if ws then nth j scale 0 else 1) == 0).
  { intros j Hj. destruct ws; [|lra]. destruct (Hs eq_refl) as [E HF]. rewrite Forall_forall in HF. apply HF, nth_In. lia. }
  split.
  - destruct (sd_transform_spec wm ws mean scale X HW Hm' Hs') as (X1 & E1 & R1 & C1 & W1 & V1).
    destruct (sd_inverse_spec wm ws mean scale X1 W1) as (X2 & E2 & R2 & C2 & W2 & V2); [rewrite C1; auto|rewrite C1; auto|].
    exists X1, X2. repeat split; auto.
    + intros i j Hi Hj. unfold cell. rewrite !raw_cell by lia. auto.
    + apply raw_rows_eq; [congruence|congruence|]. rewrite R2, C2, R1, C1. intros i j Hi Hj.
      rewrite V2, V1 by lia. field. auto.
  - destruct (sd_inverse_spec wm ws mean scale X HW Hm' Hs') as (X1 & E1 & R1 & C1 & W1 & V1).
    destruct (sd_transform_spec wm ws mean scale X1 W1) as (X2 & E2 & R2 & C2 & W2 & V2); [rewrite C1; auto|rewrite C1; auto|].
    exists X1, X2. repeat split; auto.
    apply raw_rows_eq; [congruence|congruence|]. rewrite R2, C2, R1, C1. intros i j Hi Hj.
    rewrite V2, V1 by lia. field. auto.
Qed.

Lemma rb_roundtrip center scale med div row : length med = length row -> length div = length row ->
  (scale = true -> Forall (fun s => ~ s == 0) div) ->
  Forall2 Qeq (rb_inverse center scale med div (rb_transform center scale med div row)) row /\
  Forall2 Qeq (rb_transform center scale med div (rb_inverse center scale med div row)) row.
Proof.
  intros H1 H2 NZ. unfold rb_inverse, rb_transform.
  revert med div H1 H2 NZ. induction row as [|x row IH]; intros [|m med] [|d div] H1 H2 NZ; try discriminate; cbn [combine zip]; [split; constructor|].
  assert (NZ': scale = true -> Forall (fun s => ~ s == 0) div) by (intros E; specialize (NZ E); inversion NZ; auto).
  assert (Nd: scale = true -> ~ d == 0) by (intros E; specialize (NZ E); inversion NZ; auto).
  destruct (IH med div) as [A B]; cbn in *; auto.
  split; constructor; auto; cbn [fst snd]; destruct center, scale; cbn; try field; auto; try ring.
Qed.

(* moments *)
Lemma fold_map_comm {A B} (g : A -> B -> A) (h : B -> B) l : forall a, fold_left (fun acc r => g acc (h r)) l a = fold_left g (map h l) a.
Proof. induction l as [|x l IH]; intros a; cbn; auto. Qed.

Lemma sum_cols n rows j : rows_ok n rows -> (j < n)%nat ->
  nth j (fold_left (zip Qplus) rows (repeat 0 n)) 0 == qsum (map (fun r => nth j r 0) rows).
Proof.
  intros HR Hj. rewrite (fold_zip_nth n) by (auto; apply repeat_length). rewrite nth_repeat. reflexivity.
Qed.

Lemma inc_first n rows lastMean lastVar : rows_ok n rows -> rows <> [] -> length lastMean = n ->
  exists mean var, inc_mean_var n rows lastMean lastVar 0 = Some (mean, var, length rows) /\
    length mean = n /\ length var = n /\
    forall j, (j < n)%nat ->
      nth j mean 0 == qsum (map (fun r => nth j r 0) rows) / qn (length rows) /\
      nth j var 0 == qsum (map (fun r => (nth j r 0 - nth j mean 0) * (nth j r 0 - nth j mean 0)) rows) / qn (length rows).
Proof.
  intros HR Hne HM. unfold inc_mean_var. rewrite Nat.eqb_refl. rewrite !Nat.add_0_l.
  assert (Hpos: 0 < qn (length rows)) by (apply qn_pos; destruct rows; [congruence|cbn; lia]).
  eexists _, _. split; [reflexivity|].
  pose proof (fold_zip_length n Qplus rows HR (repeat 0 n) (repeat_length _ _)) as LS.
  set (newSum := fold_left (zip Qplus) rows (repeat 0 n)) in *.
  set (newMean := map (Qmult (1 / qn (length rows))) newSum).
  assert (LM: length newMean = n) by (unfold newMean; now rewrite map_length).
  rewrite (fold_map_comm (zip Qplus) (fun row => map (fun d => d * d) (zip Qminus row newMean))).
  assert (HR': rows_ok n (map (fun row => map (fun d => d * d) (zip Qminus row newMean)) rows)).
  { unfold rows_ok in *. apply Forall_map. eapply Forall_impl; [|exact HR]. cbn. intros r Hr. rewrite map_length, zip_length; lia. }
  assert (LZ: length (zip Qplus (map (Qmult (qn 0)) lastMean) newSum) = n) by (rewrite zip_length; rewrite map_length; lia).
  split; [now rewrite map_length|]. split; [rewrite map_length; apply fold_zip_length; auto; apply repeat_length|].
  intros j Hj.
  assert (Emean: nth j (map (Qmult (1 / qn (length rows))) (zip Qplus (map (Qmult (qn 0)) lastMean) newSum)) 0 == qsum (map (fun r => nth j r 0) rows) / qn (length rows)).
  { rewrite nth_map_Q by lia. rewrite (nth_zip _ _ _ _ 0 0) by (rewrite ?map_length; lia).
    rewrite nth_map_Q by lia. unfold newSum. rewrite sum_cols by auto. unfold qn at 2. cbn [Z.of_nat inject_Z]. field. lra. }
  split; [exact Emean|].
  rewrite nth_map_Q by (rewrite (fold_zip_length n); auto; apply repeat_length).
  rewrite sum_cols by auto. rewrite map_map.
  assert (E2: qsum (map (fun r => nth j (map (fun d => d * d) (zip Qminus r newMean)) 0) rows) ==
     qsum (map (fun r => (nth j r 0 - nth j (map (Qmult (1 / qn (length rows))) (zip Qplus (map (Qmult (qn 0)) lastMean) newSum)) 0) * (nth j r 0 - nth j (map (Qmult (1 / qn (length rows))) (zip Qplus (map (Qmult (qn 0)) lastMean) newSum)) 0)) rows)).
  { apply qsum_map_ext. intros r Hr. assert (HRr: length r = n) by (unfold rows_ok in HR; rewrite Forall_forall in HR; auto).
    rewrite nth_map_Q by (rewrite zip_length; lia). rewrite (nth_zip _ _ _ _ 0 0) by lia. rewrite Emean.
    unfold newMean. rewrite nth_map_Q by lia. unfold newSum. rewrite (sum_cols n rows j HR Hj).
    assert (E3: 1 / qn (length rows) * qsum (map (fun r0 => nth j r0 0) rows) == qsum (map (fun r0 => nth j r0 0) rows) / qn (length rows)) by (field; lra).
    rewrite E3. reflexivity. }
  rewrite E2. field. lra.
Qed.

Lemma sd_fit_moments sq nf st rows : rows_ok nf rows -> rows <> [] ->
  exists st', sd_fit sq nf st rows = Some st' /\ sd_seen st' = length rows /\
    length (sd_mean st') = nf /\ length (sd_var st') = nf /\ sd_scale st' = map (fun v => sq (nonzero v)) (sd_var st') /\
    forall j, (j < nf)%nat ->
      nth j (sd_mean st') 0 == qsum (map (fun r => nth j r 0) rows) / qn (length rows) /\
      nth j (sd_var st') 0 == qsum (map (fun r => (nth j r 0 - nth j (sd_mean st') 0) * (nth j r 0 - nth j (sd_mean st') 0)) rows) / qn (length rows).
Proof.
  intros HR Hne. unfold sd_fit, sd_partial_fit. cbn [sd_seen]. rewrite Nat.eqb_refl.
  destruct (inc_first nf rows (repeat 0 nf) (repeat 0 nf) HR Hne (repeat_length _ _)) as (mean & var & E & L1 & L2 & H).
  destruct rows as [|r0 rows]; [congruence|]. rewrite E. eexists. split; [reflexivity|].
  cbn [sd_seen sd_mean sd_var sd_scale]. repeat split; auto; apply H; auto.
Qed.

(* the mean is right for every batching of one-feature data *)
Lemma inc_mean_one rows mean var cnt all : rows_ok 1 rows -> rows <> [] -> length mean = 1%nat -> length var = 1%nat ->
  (cnt = 0%nat -> all = []) -> cnt = length all -> nth 0 mean 0 * qn cnt == qsum (map (fun r => nth 0 r 0) all) ->
  exists mean' var', inc_mean_var 1 rows mean var cnt = Some (mean', var', (cnt + length rows)%nat) /\
    length mean' = 1%nat /\ length var' = 1%nat /\
    nth 0 mean' 0 * qn (cnt + length rows) == qsum (map (fun r => nth 0 r 0) (all ++ rows)).
Proof.
  intros HR Hne LM LV H0 Hcnt HS.
  assert (Hpos: 0 < qn (cnt + length rows)) by (apply qn_pos; destruct rows; [congruence|cbn; lia]).
  unfold inc_mean_var. rewrite Nat.eqb_refl.
  pose proof (fold_zip_length 1 Qplus rows HR (repeat 0 1) (repeat_length _ _)) as LS.
  assert (Mean: nth 0 (map (Qmult (1 / qn (cnt + length rows))) (zip Qplus (map (Qmult (qn cnt)) mean) (fold_left (zip Qplus) rows (repeat 0 1)))) 0 * qn (cnt + length rows) ==
     qsum (map (fun r => nth 0 r 0) (all ++ rows))).
  { rewrite nth_map_Q by (rewrite zip_length; rewrite map_length; lia).
    rewrite (nth_zip _ _ _ _ 0 0) by (rewrite ?map_length; lia). rewrite nth_map_Q by lia.
    rewrite sum_cols by (auto; lia). rewrite map_app, qsum_app, <- HS. field. lra. }
  assert (LL: length (map (Qmult (1 / qn (cnt + length rows))) (zip Qplus (map (Qmult (qn cnt)) mean) (fold_left (zip Qplus) rows (repeat 0 1)))) = 1%nat)
    by (rewrite map_length, zip_length; rewrite map_length; lia).
  assert (LU: forall m, length m = 1%nat -> length (fold_left (fun acc row => zip Qplus acc (map (fun d => d * d) (zip Qminus row m))) rows (repeat 0 1)) = 1%nat).
  { intros m Hm. rewrite (fold_map_comm (zip Qplus) (fun row => map (fun d => d * d) (zip Qminus row m))).
    apply fold_zip_length; [|apply repeat_length]. unfold rows_ok in *. apply Forall_map. eapply Forall_impl; [|exact HR].
    cbn. intros r Hr. rewrite map_length, zip_length; lia. }
  assert (LNM: length (map (Qmult (1 / qn (length rows))) (fold_left (zip Qplus) rows (repeat 0 1))) = 1%nat) by (rewrite map_length; exact LS).
  specialize (LU _ LNM).
  destruct (Nat.eqb cnt 0).
  - eexists _, _. split; [reflexivity|]. split; [exact LL|]. split; [rewrite map_length; exact LU|exact Mean].
  - eexists _, _. split; [reflexivity|]. split; [exact LL|]. split; [|exact Mean].
    rewrite map_length. rewrite !zip_length; rewrite ?map_length, ?zip_length; rewrite ?map_length; try lia; rewrite zip_length; rewrite ?map_length; lia.
Qed.

Fixpoint ofold {A B} (f : A -> B -> option A) (l : list B) (a : A) : option A :=
  match l with [] => Some a | x :: l' => match f a x with Some a' => ofold f l' a' | None => None end end.

Lemma sd_mean_one sq rows0 batches st : rows_ok 1 (rows0 ++ concat batches) -> rows0 <> [] ->
  exists st0 st', sd_fit sq 1 st rows0 = Some st0 /\ ofold (sd_partial_fit sq 1) batches st0 = Some st' /\
    sd_seen st' = length (rows0 ++ concat batches) /\
    nth 0 (sd_mean st') 0 == qsum (map (fun r => nth 0 r 0) (rows0 ++ concat batches)) / qn (length (rows0 ++ concat batches)).
Proof.
  intros HR Hne. unfold rows_ok in HR. apply Forall_app in HR. destruct HR as [HR0 HRb].
  destruct (sd_fit_moments sq 1 st rows0 HR0 Hne) as (st0 & E0 & S0 & L1 & L2 & _ & HM). exists st0.
  destruct (HM 0%nat ltac:(lia)) as [HM0 _].
  assert (G: forall batches all st0, Forall (fun r => length r = 1%nat) (concat batches) -> all <> [] -> sd_seen st0 = length all ->
    length (sd_mean st0) = 1%nat -> length (sd_var st0) = 1%nat ->
    nth 0 (sd_mean st0) 0 * qn (length all) == qsum (map (fun r => nth 0 r 0) all) ->
    exists st', ofold (sd_partial_fit sq 1) batches st0 = Some st' /\ sd_seen st' = length (all ++ concat batches) /\
      nth 0 (sd_mean st') 0 * qn (length (all ++ concat batches)) == qsum (map (fun r => nth 0 r 0) (all ++ concat batches))).
  { clear. induction batches as [|b batches IH]; intros all st0 HR Hne HS LM LV HM; cbn [ofold concat].
    - exists st0. rewrite app_nil_r. auto.
    - cbn [concat] in HR. apply Forall_app in HR. destruct HR as [HRb HR].
      destruct b as [|b0 b].
      + cbn [sd_partial_fit app]. apply IH; auto.
      + unfold sd_partial_fit at 1. rewrite HS. destruct (Nat.eqb_spec (length all) 0) as [E|E]; [destruct all; [congruence|discriminate]|].
        destruct (inc_mean_one (b0 :: b) (sd_mean st0) (sd_var st0) (length all) all) as (m' & v' & Ei & Lm & Lv & Hm); auto; [discriminate|lia|].
        rewrite Ei. destruct (IH (all ++ b0 :: b) (mkstd m' v' (map (fun v => sq (nonzero v)) v') (length all + length (b0 :: b)))) as (st' & E' & S' & M'); auto.
        * destruct all; [congruence|discriminate].
        * cbn [sd_seen]. now rewrite app_length.
        * cbn [sd_mean]. rewrite app_length. exact Hm.
        * exists st'. rewrite <- app_assoc in S', M'. auto. }
  assert (Hpos: forall l : list (list Q), l <> [] -> 0 < qn (length l)) by (intros l Hl; apply qn_pos; destruct l; [congruence|cbn; lia]).
  destruct (G batches rows0 st0 HRb Hne S0 L1 L2) as (st' & E' & S' & M').
  { rewrite HM0. specialize (Hpos rows0 Hne). field. lra. }
  exists st'. repeat split; auto.
  assert (Hp: 0 < qn (length (rows0 ++ concat batches))) by (apply Hpos; destruct rows0; [congruence|discriminate]).
  rewrite <- M'. field. lra.
Qed.

(* zero mean and unit variance of the transformed training data *)
Lemma qn_neq0 {A} (l : list A) : l <> [] -> ~ qn (length l) == 0.
Proof. intros H. assert (0 < qn (length l)) by (apply qn_pos; destruct l; [congruence|cbn; lia]). lra. Qed.

Lemma centered_sum (l : list Q) m : l <> [] -> m == qsum l / qn (length l) -> qsum (map (fun x => x - m) l) == 0.
Proof.
  intros Hl Hm. pose proof (qn_neq0 l Hl).
  assert (E: qsum (map (fun x => x - m) l) == qsum l - qn (length l) * m).
  { clear Hm H Hl. induction l as [|x l IH]; cbn [map length]; [rewrite !qsum_nil; unfold qn; cbn; ring|].
    rewrite !qsum_cons, IH, qn_S. ring. }
  rewrite E, Hm. field. auto.
Qed.

Lemma sd_output_moments rows j mean var s :
  rows <> [] -> mean == qsum (map (fun r => nth j r 0) rows) / qn (length rows) ->
  var == qsum (map (fun r => (nth j r 0 - mean) * (nth j r 0 - mean)) rows) / qn (length rows) ->
  s * s == nonzero var -> ~ s == 0 ->
  qsum (map (fun r => (nth j r 0 - mean) / s) rows) == 0 /\
  (~ var == 0 -> qsum (map (fun r => ((nth j r 0 - mean) / s) * ((nth j r 0 - mean) / s)) rows) / qn (length rows) == 1).
Proof.
  intros Hne Hm Hv Hs NZ.
  assert (Hc: qsum (map (fun r => nth j r 0 - mean) rows) == 0).
  { rewrite <- (map_map (fun r => nth j r 0) (fun x => x - mean)). apply centered_sum; [destruct rows; [congruence|discriminate]|].
    rewrite map_length. exact Hm. }
  pose proof (qn_neq0 rows Hne) as NQ. split.
  - assert (E: qsum (map (fun r => (nth j r 0 - mean) / s) rows) == (1 / s) * qsum (map (fun r => nth j r 0 - mean) rows)).
    { rewrite <- qsum_map_scale. apply qsum_map_ext. intros. field. auto. }
    rewrite E, Hc. ring.
  - intros Vn. destruct (nonzero_spec var) as (_ & _ & N3 & _). rewrite (N3 Vn) in Hs.
    assert (E: qsum (map (fun r => ((nth j r 0 - mean) / s) * ((nth j r 0 - mean) / s)) rows) ==
       (1 / (s * s)) * qsum (map (fun r => (nth j r 0 - mean) * (nth j r 0 - mean)) rows)).
    { rewrite <- qsum_map_scale. apply qsum_map_ext. intros. field. auto. }
    rewrite E, Hs. set (T := qsum (map (fun r => (nth j r 0 - mean) * (nth j r 0 - mean)) rows)) in *.
    rewrite Hv. field. split; auto. intros E0. apply Vn. rewrite Hv, E0. field. auto.
Qed.

(* NumpyLike.Var *)
Lemma np_var_exact n col : col <> [] -> (0 < n)%nat ->
  np_var n col * qn n == qn (length col) * (qsum (map (fun x => (x - np_mean col) * (x - np_mean col)) col) / qn (length col)).
Proof.
  intros Hc Hn. unfold np_var. assert (0 < qn n) by (now apply qn_pos). pose proof (qn_neq0 col Hc).
  assert (E: qsum (map (fun x => (x + - np_mean col) * (x + - np_mean col)) col) == qsum (map (fun x => (x - np_mean col) * (x - np_mean col)) col)).
  { apply qsum_map_ext. intros. ring. }
  rewrite E. field. lra.
Qed.

(* ------------------------------------------------------------ MaxAbsScaler *)
Lemma ma_step_spec m v : m <= ma_step m v /\ Qabs v <= ma_step m v /\ (ma_step m v = m \/ ma_step m v == Qabs v).
Proof.
  unfold ma_step. destruct (Qltb_spec v 0) as [H|H].
  - assert (E: Qabs v == - v) by (apply Qabs_neg; lra).
    destruct (Qltb_spec m (- v)); rewrite E; repeat split; try lra; first [left; reflexivity|right; lra].
  - assert (E: Qabs v == v) by (apply Qabs_pos; lra).
    destruct (Qltb_spec m v); rewrite E; repeat split; try lra; first [left; reflexivity|right; lra].
Qed.
Lemma fold_ma_spec l : forall a, let m := fold_left ma_step l a in
  a <= m /\ (forall x, In x l -> Qabs x <= m) /\ (m = a \/ exists x, In x l /\ m == Qabs x).
Proof.
  induction l as [|x l IH]; intros a m; cbn [fold_left] in m.
  - subst m. repeat split; auto; [lra|intros x []].
  - destruct (IH (ma_step a x)) as (H1 & H2 & H3). fold m in H1, H2, H3. destruct (ma_step_spec a x) as (A & B & C). split; [lra|]. split.
    + intros y [<-|Hy]; [lra|auto].
    + destruct H3 as [->|(y & Hy & E)]; [|right; exists y; cbn; auto]. destruct C as [->|C]; [left; auto|right; exists x; cbn; auto].
Qed.

Lemma ma_partial_eq n st rows : length (ma_max st) = n -> rows_ok n rows ->
  exists mx, ma_partial_fit st rows = Some (mkma mx (map (fun v => if Qltb 0 v then v else 1) mx) (ma_seen st + length rows)) /\
    mx = fold_left (zip ma_step) rows (ma_max st).
Proof.
  intros HL HR. unfold ma_partial_fit.
  assert (G: forallb (fun r => Nat.leb (length r) (length (ma_max st))) rows = true).
  { apply forallb_forall. intros r Hr. unfold rows_ok in HR. rewrite Forall_forall in HR. apply Nat.leb_le. rewrite HR by auto. lia. }
  rewrite G. eexists. split; [reflexivity|].
  revert HL. generalize (ma_max st). induction HR as [|r rows Hr HR IH]; intros m Hm; cbn [fold_left]; auto.
  rewrite Hm, Hr, Nat.sub_diag. cbn [repeat]. rewrite app_nil_r. apply IH; [|rewrite zip_length; lia].
  cbn in G. apply andb_true_iff in G. tauto.
Qed.
Definition ma_of n (rows : list (list Q)) seen : maxabs :=
  let mx := fold_left (zip ma_step) rows (repeat 0 n) in mkma mx (map (fun v => if Qltb 0 v then v else 1) mx) seen.
Lemma ma_history n st rows0 batches : rows_ok n (rows0 ++ concat batches) ->
  exists st0, ma_fit st n rows0 = Some st0 /\
  ofold ma_partial_fit batches st0 = Some (ma_of n (rows0 ++ concat batches) (ma_seen st + length (rows0 ++ concat batches))).
Proof.
  intros HR. unfold rows_ok in HR. apply Forall_app in HR. destruct HR as [HR0 HRb].
  destruct (ma_partial_eq n (mkma (repeat 0 n) (repeat 0 n) (ma_seen st)) rows0) as (mx & E & Emx); [apply repeat_length|auto|].
  eexists. split; [exact E|]. cbn [ma_max ma_seen] in *. subst mx.
  assert (G: forall batches acc seen, Forall (fun r => length r = n) (acc ++ concat batches) ->
    ofold ma_partial_fit batches (ma_of n acc seen) = Some (ma_of n (acc ++ concat batches) (seen + length (concat batches)))).
  { clear. induction batches as [|b batches IH]; intros acc seen HR; cbn [ofold concat].
    - rewrite app_nil_r, Nat.add_0_r. reflexivity.
    - cbn [concat] in HR. apply Forall_app in HR. destruct HR as [HA HB]. apply Forall_app in HB. destruct HB as [HB HC].
      destruct (ma_partial_eq n (ma_of n acc seen) b) as (mx & E & Emx); auto.
      { cbn [ma_of ma_max]. apply fold_zip_length; auto. apply repeat_length. }
      rewrite E. cbn [ma_of ma_max ma_seen] in Emx |- *. rewrite <- fold_left_app in Emx. subst mx.
      change (mkma _ _ _) with (ma_of n (acc ++ b) (seen + length b)).
      rewrite IH by (rewrite <- app_assoc; apply Forall_app; split; auto; apply Forall_app; auto).
      rewrite <- app_assoc, app_length. f_equal. f_equal. lia. }
  specialize (G batches rows0 (ma_seen st + length rows0)%nat). unfold ma_of at 1 in G. cbv zeta in G. rewrite G by (apply Forall_app; auto).
  rewrite app_length. f_equal. f_equal. lia.
Qed.

Lemma ma_transform_spec st X : raw_wf X -> (rcols X <= length (ma_scale st))%nat ->
  exists X', ma_transform st X = Some X' /\ rrows X' = rrows X /\ rcols X' = rcols X /\ raw_wf X' /\
    forall i j, (i < rrows X)%nat -> (j < rcols X)%nat ->
      nth (i * rstride X' + j) (rdata X') 0 = nth (i * rstride X + j) (rdata X) 0 / nth j (ma_scale st) 0.
Proof.
  intros (Hc & Hr & HL) Hs. unfold ma_transform. rewrite (proj2 (Nat.leb_le _ _) Hs).
  apply (fill_new_spec row_major (fun i j => nth (i * rstride X + j) (rdata X) 0 / nth j (ma_scale st) 0)); try lia; [apply row_major_NoDup|intros; apply row_major_In].
Qed.
Lemma ma_inverse_spec st X : raw_wf X -> (rcols X <= length (ma_scale st))%nat ->
  exists X', ma_inverse st X = Some X' /\ rrows X' = rrows X /\ rcols X' = rcols X /\ raw_wf X' /\
    forall i j, (i < rrows X)%nat -> (j < rcols X)%nat ->
      nth (i * rstride X' + j) (rdata X') 0 = nth (i * rstride X + j) (rdata X) 0 * nth j (ma_scale st) 0.
Proof.
  intros (Hc & Hr & HL) Hs. unfold ma_inverse. rewrite (proj2 (Nat.leb_le _ _) Hs).
  apply (fill_new_spec row_major (fun i j => nth (i * rstride X + j) (rdata X) 0 * nth j (ma_scale st) 0)); try lia; [apply row_major_NoDup|intros; apply row_major_In].
Qed.

Lemma ma_main n st rows0 batches : let all := rows0 ++ concat batches in rows_ok n all ->
  exists st0 fin, ma_fit st n rows0 = Some st0 /\ ofold ma_partial_fit batches st0 = Some fin /\
    length (ma_max fin) = n /\
    (forall j, (j < n)%nat ->
       (forall row, In row all -> Qabs (nth j row 0) <= nth j (ma_max fin) 0) /\
       (all <> [] -> exists row, In row all /\ nth j (ma_max fin) 0 == Qabs (nth j row 0))) /\
    (forall X, raw_wf X -> rcols X = n -> exists X1 X2,
       ma_transform fin X = Some X1 /\ ma_inverse fin X1 = Some X2 /\ rrows X1 = rrows X /\ rcols X1 = rcols X /\
       (forall i, (i < rrows X)%nat -> In (nth i (raw_rows 0 X) []) all -> forall j, (j < n)%nat -> -(1) <= cell X1 i j <= 1) /\
       mat_eq (raw_rows 0 X2) (raw_rows 0 X)).
Proof.
  intros all HR. destruct (ma_history n st rows0 batches HR) as (st0 & E0 & E1). fold all in E1.
  exists st0, (ma_of n all (ma_seen st + length all)). split; auto. split; auto. cbn [ma_of ma_max].
  set (mx := fold_left (zip ma_step) all (repeat 0 n)).
  assert (LM: length mx = n) by (apply fold_zip_length; auto; apply repeat_length). split; auto.
  assert (HM: forall j, (j < n)%nat -> 0 <= nth j mx 0 /\
       (forall row, In row all -> Qabs (nth j row 0) <= nth j mx 0) /\
       (all <> [] -> exists row, In row all /\ nth j mx 0 == Qabs (nth j row 0))).
  { intros j Hj. unfold mx. rewrite (fold_zip_nth n) by (auto; apply repeat_length). rewrite nth_repeat.
    destruct (fold_ma_spec (map (fun r => nth j r 0) all) 0) as (A & B & C). split; [exact A|]. split.
    - intros row Hrow. apply B. apply in_map_iff. eauto.
    - intros Hne. destruct C as [C|(x & Hx & C)].
      + destruct all as [|r all']; [congruence|]. exists r. split; [left; auto|]. rewrite C.
        pose proof (B (nth j r 0) (or_introl eq_refl)) as B0. rewrite C in B0.
        pose proof (Qabs_nonneg (nth j r 0)). lra.
      + apply in_map_iff in Hx. destruct Hx as (r & <- & Hr). eauto. }
  split; [intros j Hj; apply HM; auto|].
  intros X HW HX.
  assert (LS: length (ma_scale (ma_of n all (ma_seen st + length all))) = n) by (cbn [ma_of ma_scale]; rewrite map_length; exact LM).
  destruct (ma_transform_spec (ma_of n all (ma_seen st + length all)) X HW) as (X1 & F1 & R1 & C1 & W1 & V1); [lia|].
  destruct (ma_inverse_spec (ma_of n all (ma_seen st + length all)) X1 W1) as (X2 & F2 & R2 & C2 & W2 & V2); [lia|].
  assert (ES: forall j, (j < n)%nat -> nth j (ma_scale (ma_of n all (ma_seen st + length all))) 0 = if Qltb 0 (nth j mx 0) then nth j mx 0 else 1).
  { intros j Hj. cbn [ma_of ma_scale]. fold mx. now rewrite nth_map_Q by lia. }
  assert (PS: forall j, (j < n)%nat -> 0 < nth j (ma_scale (ma_of n all (ma_seen st + length all))) 0).
  { intros j Hj. rewrite ES by auto. destruct (Qltb_spec 0 (nth j mx 0)); lra. }
  exists X1, X2. repeat split; auto.
  - unfold cell. rewrite raw_cell by lia. rewrite V1 by lia. specialize (PS j H1). destruct (HM j H1) as (Z & B & _).
    specialize (B _ H0). rewrite raw_cell in B by lia. set (x := nth (i * rstride X + j) (rdata X) 0) in *.
    rewrite ES in * by auto. destruct (Qltb_spec 0 (nth j mx 0)) as [P|P].
    + apply Qle_shift_div_l; auto. pose proof (Qle_Qabs (- x)). rewrite Qabs_opp in H2. lra.
    + assert (x == 0) by (pose proof (Qle_Qabs x); pose proof (Qle_Qabs (- x)); rewrite Qabs_opp in H3; lra).
      rewrite H2. unfold Qdiv. lra.
  - unfold cell. rewrite raw_cell by lia. rewrite V1 by lia. specialize (PS j H1). destruct (HM j H1) as (Z & B & _).
    specialize (B _ H0). rewrite raw_cell in B by lia. set (x := nth (i * rstride X + j) (rdata X) 0) in *.
    rewrite ES in * by auto. destruct (Qltb_spec 0 (nth j mx 0)) as [P|P].
    + apply Qle_shift_div_r; auto. pose proof (Qle_Qabs x). lra.
    + assert (x == 0) by (pose proof (Qle_Qabs x); pose proof (Qle_Qabs (- x)); rewrite Qabs_opp in H3; lra).
      rewrite H2. unfold Qdiv. lra.
  - apply raw_rows_eq; [congruence|congruence|]. rewrite R2, C2, R1, C1. intros i j Hi Hj.
    rewrite V2, V1 by lia. specialize (PS j ltac:(lia)). field. lra.
Qed.
