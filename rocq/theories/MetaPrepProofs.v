(* Laws that relate two runs of a transformer: another unit, another order of the samples, applying it twice. *)
From Coq Require Import Qround Factorial.
From Verif Require Import QCommon ScaleModel ScaleProofs ScaleMore ImputeModel ImputeProofs PolyModel PolyProofs.
Open Scope Q_scope.

(* row' is row in other units: feature j is multiplied by a j and shifted by b j *)
Definition rescaled (n : nat) (a b : nat -> Q) (row row' : list Q) : Prop :=
  length row = n /\ length row' = n /\ forall j, (j < n)%nat -> nth j row' 0 == a j * nth j row 0 + b j.
(* each row of one data set has its counterpart in the other *)
Definition rescaled_set (n : nat) (a b : nat -> Q) (rows rows' : list (list Q)) : Prop :=
  (forall r, In r rows -> exists r', In r' rows' /\ rescaled n a b r r') /\
  (forall r', In r' rows' -> exists r, In r rows /\ rescaled n a b r r').
(* the same, each row as often *)
Definition rescaled_bag (n : nat) (a b : nat -> Q) (rows rows' : list (list Q)) : Prop :=
  exists mid, Permutation rows mid /\ Forall2 (rescaled n a b) mid rows'.

Lemma Forall2_In_l {A B} (R : A -> B -> Prop) l l' x : Forall2 R l l' -> In x l -> exists y, In y l' /\ R x y.
Proof. induction 1 as [|u v l l' H HF IH]; intros Hin; [destruct Hin|]. destruct Hin as [<-|Hin]; [exists v; cbn; auto|]. destruct (IH Hin) as (y & Hy & Ry). exists y; cbn; auto. Qed.
Lemma Forall2_In_r {A B} (R : A -> B -> Prop) l l' y : Forall2 R l l' -> In y l' -> exists x, In x l /\ R x y.
Proof. induction 1 as [|u v l l' H HF IH]; intros Hin; [destruct Hin|]. destruct Hin as [<-|Hin]; [exists u; cbn; auto|]. destruct (IH Hin) as (x & Hx & Rx). exists x; cbn; auto. Qed.
Lemma bag_set n a b rows rows' : rescaled_bag n a b rows rows' -> rescaled_set n a b rows rows'.
Proof.
  intros (mid & P & F). split.
  - intros r Hr. eapply Forall2_In_l; eauto. eapply Permutation_in; eauto.
  - intros r' Hr'. destruct (Forall2_In_r _ _ _ _ F Hr') as (r & Hr & R). exists r. split; auto. eapply Permutation_in; [symmetry; eauto|auto].
Qed.
Lemma set_ok n a b rows rows' : rescaled_set n a b rows rows' -> rows_ok n rows /\ rows_ok n rows'.
Proof.
  intros (H1 & H2). split; apply Forall_forall; intros r Hr; [destruct (H1 r Hr) as (r' & _ & (A & _ & _)); auto|destruct (H2 r Hr) as (r' & _ & (_ & A & _)); auto].
Qed.
Lemma set_nil n a b rows rows' : rescaled_set n a b rows rows' -> rows <> [] -> rows' <> [].
Proof. intros (H1 & _) Hne ->. destruct rows as [|r rows]; [congruence|]. destruct (H1 r (or_introl eq_refl)) as (r' & [] & _). Qed.
Lemma bag_length n a b rows rows' : rescaled_bag n a b rows rows' -> length rows = length rows'.
Proof. intros (mid & P & F). rewrite (Permutation_length P). eapply Forall2_length; eauto. Qed.

(* ------------------------------------------------------------ extrema *)
Definition minimum (l : list Q) (m : Q) : Prop := (forall x, In x l -> m <= x) /\ exists x, In x l /\ x == m.
Definition maximum (l : list Q) (m : Q) : Prop := (forall x, In x l -> x <= m) /\ exists x, In x l /\ x == m.
Lemma col_min rows r0 j : In r0 rows -> minimum (map (fun r => nth j r 0) rows) (fold_left qmin (map (fun r => nth j r 0) rows) (nth j r0 0)).
Proof.
  intros H0. destruct (ScaleProofs.fold_qmin_spec (map (fun r => nth j r 0) rows) (nth j r0 0)) as (A & B & C). cbv zeta in *. split; auto.
  destruct C as [->|C]; [|eexists; split; [exact C|reflexivity]]. exists (nth j r0 0). split; [|reflexivity]. apply in_map_iff. eauto.
Qed.
Lemma col_max rows r0 j : In r0 rows -> maximum (map (fun r => nth j r 0) rows) (fold_left qmax (map (fun r => nth j r 0) rows) (nth j r0 0)).
Proof.
  intros H0. destruct (ScaleProofs.fold_qmax_spec (map (fun r => nth j r 0) rows) (nth j r0 0)) as (A & B & C). cbv zeta in *. split; auto.
  destruct C as [->|C]; [|eexists; split; [exact C|reflexivity]]. exists (nth j r0 0). split; [|reflexivity]. apply in_map_iff. eauto.
Qed.
Lemma aff_mono c d x y : 0 < c -> (c * x + d <= c * y + d <-> x <= y).
Proof.
  intros Hc. split; intros H.
  - apply (Qmult_le_l x y c Hc). lra.
  - apply (Qmult_le_l x y c Hc) in H. lra.
Qed.
Lemma min_rescaled n a b rows rows' j m m' : (j < n)%nat -> 0 < a j -> rescaled_set n a b rows rows' ->
  minimum (map (fun r => nth j r 0) rows) m -> minimum (map (fun r => nth j r 0) rows') m' -> m' == a j * m + b j.
Proof.
  intros Hj Ha (H1 & H2) (A1 & x & A2 & A3) (B1 & y & B2 & B3).
  apply in_map_iff in A2 as (r & <- & Hr). apply in_map_iff in B2 as (s' & <- & Hs).
  destruct (H1 r Hr) as (r' & Hr' & (_ & _ & R)). destruct (H2 s' Hs) as (s & Hs' & (_ & _ & S)).
  specialize (R j Hj). specialize (S j Hj).
  assert (U: m' <= nth j r' 0) by (apply B1, in_map_iff; eauto). assert (V: m <= nth j s 0) by (apply A1, in_map_iff; eauto).
  rewrite R, A3 in U. rewrite S in B3. apply (aff_mono (a j) (b j)) in V; auto. lra.
Qed.
Lemma max_rescaled n a b rows rows' j m m' : (j < n)%nat -> 0 < a j -> rescaled_set n a b rows rows' ->
  maximum (map (fun r => nth j r 0) rows) m -> maximum (map (fun r => nth j r 0) rows') m' -> m' == a j * m + b j.
Proof.
  intros Hj Ha (H1 & H2) (A1 & x & A2 & A3) (B1 & y & B2 & B3).
  apply in_map_iff in A2 as (r & <- & Hr). apply in_map_iff in B2 as (s' & <- & Hs).
  destruct (H1 r Hr) as (r' & Hr' & (_ & _ & R)). destruct (H2 s' Hs) as (s & Hs' & (_ & _ & S)).
  specialize (R j Hj). specialize (S j Hj).
  assert (U: nth j r' 0 <= m') by (apply B1, in_map_iff; eauto). assert (V: nth j s 0 <= m) by (apply A1, in_map_iff; eauto).
  rewrite R, A3 in U. rewrite S in B3. apply (aff_mono (a j) (b j)) in V; auto. lra.
Qed.

(* ------------------------------------------------------------ MinMaxScaler *)
Lemma Qmult_0 c x : ~ c == 0 -> (c * x == 0 <-> x == 0).
Proof. intros Hc. split; intros H; [|rewrite H; ring]. destruct (Qmult_integral _ _ H); tauto. Qed.

Lemma mm_units st n a b rows rows' : rescaled_set n a b rows rows' -> rows <> [] -> (forall j, (j < n)%nat -> 0 < a j) ->
  let fin := mm_fit st rows in let fin' := mm_fit st rows' in
  forall row row' j, rescaled n a b row row' -> (j < n)%nat ->
    (a j == 1 \/ In row rows \/ exists r1 r2, In r1 rows /\ In r2 rows /\ ~ nth j r1 0 == nth j r2 0) ->
    nth j (mm_transform fin' row') 0 == nth j (mm_transform fin row) 0.
Proof.
  intros S Hne Ha fin fin' row row' j HR Hj HC. destruct (set_ok _ _ _ _ _ S) as (O & O'). pose proof (set_nil _ _ _ _ _ S Hne) as Hne'.
  destruct rows as [|r0 rt] eqn:ER; [congruence|]. destruct rows' as [|r0' rt'] eqn:ER'; [congruence|]. rewrite <- ER, <- ER' in *.
  assert (L0: length r0 = n) by (rewrite ER in O; inversion O; auto). assert (L0': length r0' = n) by (rewrite ER' in O'; inversion O'; auto).
  assert (E: fin = mm_of (mm_lo st) (mm_hi st) r0 rows) by (unfold fin; rewrite ER; apply mm_fit_of).
  assert (E': fin' = mm_of (mm_lo st) (mm_hi st) r0' rows') by (unfold fin'; rewrite ER'; apply mm_fit_of).
  clearbody fin fin'. subst fin fin'.
  destruct (mm_fields n (mm_lo st) (mm_hi st) r0 rows j O L0 Hj) as (_ & _ & L1 & L2 & D1 & D2 & D3 & D4).
  destruct (mm_fields n (mm_lo st) (mm_hi st) r0' rows' j O' L0' Hj) as (_ & _ & L1' & L2' & D1' & D2' & D3' & D4'). cbv zeta in *.
  set (fin := mm_of (mm_lo st) (mm_hi st) r0 rows) in *. set (fin' := mm_of (mm_lo st) (mm_hi st) r0' rows') in *.
  assert (I0: In r0 rows) by (rewrite ER; left; auto). assert (I0': In r0' rows') by (rewrite ER'; left; auto).
  pose proof (col_min rows r0 j I0) as Mn. pose proof (col_max rows r0 j I0) as Mx.
  pose proof (col_min rows' r0' j I0') as Mn'. pose proof (col_max rows' r0' j I0') as Mx'.
  rewrite <- D1 in Mn. rewrite <- D2 in Mx. rewrite <- D1' in Mn'. rewrite <- D2' in Mx'.
  pose proof (min_rescaled n a b rows rows' j _ _ Hj (Ha j Hj) S Mn Mn') as Emin.
  pose proof (max_rescaled n a b rows rows' j _ _ Hj (Ha j Hj) S Mx Mx') as Emax.
  destruct HR as (LR & LR' & HR). specialize (HR j Hj). specialize (Ha j Hj).
  rewrite (mm_transform_nth fin row j n), (mm_transform_nth fin' row' j n) by auto. rewrite D4, D4', D3, D3'.
  set (dmin := nth j (mm_dmin fin) 0) in *. set (dmax := nth j (mm_dmax fin) 0) in *. set (dmin' := nth j (mm_dmin fin') 0) in *. set (dmax' := nth j (mm_dmax fin') 0) in *.
  set (x := nth j row 0) in *. set (x' := nth j row' 0) in *.
  destruct (nonzero_spec (dmax - dmin)) as (N1 & N2 & N3 & _). destruct (nonzero_spec (dmax' - dmin')) as (N1' & N2' & N3' & _).
  assert (T: forall lo hi d z y, ~ z == 0 -> lo - d * ((hi - lo) / z) + y * ((hi - lo) / z) == lo + (hi - lo) * ((y - d) / z)) by (intros; field; auto).
  rewrite !T by auto.
  assert (Ed: dmax' - dmin' == a j * (dmax - dmin)) by (rewrite Emin, Emax; ring).
  assert (Ex: x' - dmin' == a j * (x - dmin)) by (rewrite Emin, HR; ring).
  destruct (Qeq_dec (dmax - dmin) 0) as [Z|Z].
  - destruct HC as [One|HC].
    { rewrite One in *. rewrite !Qmult_1_l in *. rewrite N2, N2' by (rewrite ?Ed; auto). rewrite Ex. reflexivity. }
    assert (H: x == dmin).
    { destruct HC as [Hin|(r1 & r2 & I1 & I2 & Hn)].
      - assert (H: In x (map (fun r => nth j r 0) rows)) by (apply in_map_iff; exists row; split; [reflexivity|exact Hin]). pose proof (proj1 Mn x H). pose proof (proj1 Mx x H). lra.
      - exfalso. apply Hn. assert (A1: In (nth j r1 0) (map (fun r => nth j r 0) rows)) by (apply in_map_iff; eauto).
        assert (A2: In (nth j r2 0) (map (fun r => nth j r 0) rows)) by (apply in_map_iff; eauto).
        pose proof (proj1 Mn _ A1). pose proof (proj1 Mx _ A1). pose proof (proj1 Mn _ A2). pose proof (proj1 Mx _ A2). lra. }
    assert (H0: x - dmin == 0) by lra. rewrite H0 in Ex. rewrite Ex, H0. unfold Qdiv. ring.
  - rewrite N3 by auto. rewrite N3' by (rewrite Ed; intros Q0; apply Qmult_0 in Q0; lra). rewrite Ed, Ex. field. split; lra.
Qed.

(* ------------------------------------------------------------ MaxAbsScaler *)
Lemma ma_units n st a rows rows' : rescaled_set n a (fun _ => 0) rows rows' -> (forall j, (j < n)%nat -> 0 < a j) ->
  exists fin fin', ma_fit st n rows = Some fin /\ ma_fit st n rows' = Some fin' /\
  forall X X', raw_wf X -> raw_wf X' -> rcols X = n -> rcols X' = n -> rrows X' = rrows X ->
    (forall i j, (i < rrows X)%nat -> (j < n)%nat -> cell X' i j == a j * cell X i j) ->
    exists Y Y', ma_transform fin X = Some Y /\ ma_transform fin' X' = Some Y' /\
    forall i j, (i < rrows X)%nat -> (j < n)%nat -> (a j == 1 \/ exists r, In r rows /\ (cell X i j == nth j r 0 \/ ~ nth j r 0 == 0)) -> cell Y' i j == cell Y i j.
Proof.
  intros S Ha. destruct (set_ok _ _ _ _ _ S) as (O & O').
  destruct (ma_history n st rows []) as (f & E1 & E2). { cbn. now rewrite app_nil_r. }
  destruct (ma_history n st rows' []) as (f' & E1' & E2'). { cbn. now rewrite app_nil_r. }
  cbn [concat ofold] in *. rewrite app_nil_r in *. injection E2 as ->. injection E2' as ->.
  eexists. eexists. split; [exact E1|]. split; [exact E1'|].
  set (fin := ma_of n rows _) in *. set (fin' := ma_of n rows' _) in *.
  assert (HM: forall rows seen j, rows_ok n rows -> (j < n)%nat -> let mx := ma_max (ma_of n rows seen) in
     0 <= nth j mx 0 /\ (forall row, In row rows -> Qabs (nth j row 0) <= nth j mx 0) /\
     (nth j mx 0 == 0 \/ exists row, In row rows /\ nth j mx 0 == Qabs (nth j row 0)) /\
     length mx = n /\ nth j (ma_scale (ma_of n rows seen)) 0 = (if Qltb 0 (nth j mx 0) then nth j mx 0 else 1) /\ length (ma_scale (ma_of n rows seen)) = n).
  { clear. intros rows seen j O Hj mx. cbn [ma_of ma_max ma_scale] in *.
    assert (LM: length mx = n) by (apply fold_zip_length; auto; apply repeat_length).
    assert (EM: nth j mx 0 = fold_left ma_step (map (fun r => nth j r 0) rows) 0).
    { unfold mx. rewrite (fold_zip_nth n) by (auto; apply repeat_length). now rewrite nth_repeat. }
    destruct (fold_ma_spec (map (fun r => nth j r 0) rows) 0) as (A & B & C). cbv zeta in *. rewrite <- EM in *. split; [exact A|]. split; [|split; [|split; [exact LM|split]]].
    - intros row Hrow. apply B. apply in_map_iff. eauto.
    - destruct C as [C|(x & Hx & C)]; [left; rewrite C; reflexivity|]. apply in_map_iff in Hx as (r & <- & Hr). eauto.
    - unfold mx. rewrite nth_map_Q; auto. unfold mx in LM. lia.
    - rewrite map_length. exact LM. }
  intros X X' W W' CX CX' RX HX.
  destruct n as [|n'].
  { destruct W as ((W & _) & _). lia. }
  destruct (HM rows (ma_seen st + length rows)%nat 0%nat O ltac:(lia)) as (_ & _ & _ & _ & _ & LS).
  destruct (HM rows' (ma_seen st + length rows')%nat 0%nat O' ltac:(lia)) as (_ & _ & _ & _ & _ & LS').
  fold fin in LS. fold fin' in LS'.
  destruct (ma_transform_spec fin X W) as (Y & F1 & R1 & C1 & W1 & V1); [lia|].
  destruct (ma_transform_spec fin' X' W') as (Y' & F1' & R1' & C1' & W1' & V1'); [lia|].
  exists Y, Y'. split; [exact F1|]. split; [exact F1'|]. intros i j Hi Hj HC.
  specialize (HX i j Hi Hj). unfold cell in *. rewrite !raw_cell in * by lia. rewrite V1, V1' by lia.
  destruct (HM rows (ma_seen st + length rows)%nat j O Hj) as (M0 & M1 & M2 & _ & M4 & _).
  destruct (HM rows' (ma_seen st + length rows')%nat j O' Hj) as (M0' & M1' & M2' & _ & M4' & _). cbv zeta in *. fold fin in M0, M1, M2, M4. fold fin' in M0', M1', M2', M4'.
  rewrite M4, M4'. set (m := nth j (ma_max fin) 0) in *. set (m' := nth j (ma_max fin') 0) in *.
  set (x := nth (i * rstride X + j) (rdata X) 0) in *. set (x' := nth (i * rstride X' + j) (rdata X') 0) in *.
  pose proof (Ha j Hj) as Haj. assert (Aa: Qabs (a j) == a j) by (apply Qabs_pos; lra). destruct S as (S1 & S2).
  assert (Em: m' == a j * m).
  { apply Qle_antisym.
    - destruct M2' as [M2'|(r' & Hr' & M2')].
      + rewrite M2'. apply Qmult_le_0_compat; lra.
      + destruct (S2 r' Hr') as (s & Hs & (_ & _ & R)). specialize (R j Hj). rewrite M2', R.
        assert (T: Qabs (a j * nth j s 0 + 0) == a j * Qabs (nth j s 0)) by (rewrite Qplus_0_r, Qabs_Qmult, Aa; reflexivity). rewrite T.
        apply Qmult_le_l; auto.
    - destruct M2 as [M2|(s & Hs & M2)].
      + rewrite M2. rewrite Qmult_0_r. exact M0'.
      + destruct (S1 s Hs) as (r' & Hr' & (_ & _ & R)). specialize (R j Hj). specialize (M1' r' Hr'). rewrite R in M1'.
        assert (T: Qabs (a j * nth j s 0 + 0) == a j * Qabs (nth j s 0)) by (rewrite Qplus_0_r, Qabs_Qmult, Aa; reflexivity). rewrite T in M1'. rewrite M2. exact M1'. }
  destruct (Qltb_spec 0 m) as [P|P]; destruct (Qltb_spec 0 m') as [P'|P'].
  - rewrite HX, Em. field. split; lra.
  - assert (0 < a j * m) by (apply Qmult_lt_0_compat; lra). lra.
  - assert (m == 0) by lra. rewrite H in Em. rewrite Qmult_0_r in Em. lra.
  - assert (Z: m == 0) by lra. destruct HC as [One|(r & Hr & HC)]; [rewrite HX, One; unfold Qdiv; ring|]. assert (Zr: nth j r 0 == 0).
    { specialize (M1 r Hr). rewrite Z in M1. pose proof (Qle_Qabs (nth j r 0)). pose proof (Qle_Qabs (- nth j r 0)). rewrite Qabs_opp in H0. lra. }
    destruct HC as [HC|HC]; [|tauto]. rewrite HX, HC, Zr. unfold Qdiv. ring.
Qed.

(* ------------------------------------------------------------ StandardScaler *)
Lemma bag_sum n a b rows rows' (f g : Q -> Q) j : rescaled_bag n a b rows rows' -> (j < n)%nat -> (forall x y, y == a j * x + b j -> g y == f x) ->
  qsum (map (fun r => g (nth j r 0)) rows') == qsum (map (fun r => f (nth j r 0)) rows).
Proof.
  intros (mid & P & F) Hj H. rewrite (qsum_perm _ _ (Permutation_map (fun r => f (nth j r 0)) P)).
  induction F as [|r r' mid rows' R F IH] in rows, P |- *; cbn [map]; [reflexivity|]. rewrite !qsum_cons, (IH mid (Permutation_refl _)). rewrite (H (nth j r 0) (nth j r' 0)); [reflexivity|]. apply R. exact Hj.
Qed.
Lemma sd_moments_units sq n st a b rows rows' : rescaled_bag n a b rows rows' -> rows <> [] ->
  exists fin fin', sd_fit sq n st rows = Some fin /\ sd_fit sq n st rows' = Some fin' /\ sd_seen fin' = sd_seen fin /\
  length (sd_mean fin) = n /\ length (sd_mean fin') = n /\ length (sd_var fin) = n /\ length (sd_var fin') = n /\
  sd_scale fin = map (fun v => sq (nonzero v)) (sd_var fin) /\ sd_scale fin' = map (fun v => sq (nonzero v)) (sd_var fin') /\
  forall j, (j < n)%nat -> nth j (sd_mean fin') 0 == a j * nth j (sd_mean fin) 0 + b j /\ nth j (sd_var fin') 0 == a j * a j * nth j (sd_var fin) 0.
Proof.
  intros S Hne. pose proof (bag_set _ _ _ _ _ S) as SS. destruct (set_ok _ _ _ _ _ SS) as (O & O'). pose proof (set_nil _ _ _ _ _ SS Hne) as Hne'.
  destruct (sd_fit_moments sq n st rows O Hne) as (fin & E & E1 & E2 & E3 & E4 & E5).
  destruct (sd_fit_moments sq n st rows' O' Hne') as (fin' & E' & E1' & E2' & E3' & E4' & E5').
  exists fin, fin'. split; [exact E|]. split; [exact E'|]. split; [rewrite E1, E1'; symmetry; eapply bag_length; eauto|].
  split; [exact E2|]. split; [exact E2'|]. split; [exact E3|]. split; [exact E3'|]. split; [exact E4|]. split; [exact E4'|].
  intros j Hj. destruct (E5 j Hj) as (A & B). destruct (E5' j Hj) as (A' & B').
  rewrite <- (bag_length _ _ _ _ _ S) in A', B'. pose proof (qn_neq0 rows Hne) as Hq.
  assert (M: nth j (sd_mean fin') 0 == a j * nth j (sd_mean fin) 0 + b j).
  { rewrite A', A. rewrite (bag_sum n a b rows rows' (fun x => a j * x + b j) (fun y => y) j S Hj) by auto.
    rewrite (qsum_map_plus (fun r => a j * nth j r 0) (fun _ => b j)), qsum_const, (qsum_map_scale (fun r => nth j r 0)). field. exact Hq. }
  split; [exact M|]. rewrite B', B.
  rewrite (bag_sum n a b rows rows' (fun x => a j * a j * ((x - nth j (sd_mean fin) 0) * (x - nth j (sd_mean fin) 0)))
     (fun y => (y - nth j (sd_mean fin') 0) * (y - nth j (sd_mean fin') 0)) j S Hj).
  - rewrite (qsum_map_scale (fun r => (nth j r 0 - nth j (sd_mean fin) 0) * (nth j r 0 - nth j (sd_mean fin) 0))). field. exact Hq.
  - intros x y E0. rewrite E0, M. ring.
Qed.
Lemma nonzero_0 v : v == 0 -> nonzero v = 1.
Proof. intros H. unfold nonzero. destruct (Qeqb_spec v 0); tauto. Qed.
(* sq gives the square root of v *)
Definition root_at (sq : Q -> Q) (v : Q) : Prop := 0 < sq v /\ sq v * sq v == v.
Lemma root_unique s t : 0 < s -> 0 < t -> s * s == t * t -> s == t.
Proof. intros Hs Ht H. assert (F: (s - t) * (s + t) == 0) by lra. destruct (Qmult_integral _ _ F); lra. Qed.
Lemma sd_units sq n st a b rows rows' : rescaled_bag n a b rows rows' -> rows <> [] -> (forall j, (j < n)%nat -> 0 < a j) ->
  exists fin fin', sd_fit sq n st rows = Some fin /\ sd_fit sq n st rows' = Some fin' /\
  ((forall v, In v (sd_var fin) \/ In v (sd_var fin') -> root_at sq (if Qeq_bool v 0 then 1 else v)) ->
   forall X X', raw_wf X -> raw_wf X' -> rcols X = n -> rcols X' = n -> rrows X' = rrows X ->
    (forall i j, (i < rrows X)%nat -> (j < n)%nat -> cell X' i j == a j * cell X i j + b j) ->
    exists Y Y', sd_transform true true (sd_mean fin) (sd_scale fin) X = Some Y /\ sd_transform true true (sd_mean fin') (sd_scale fin') X' = Some Y' /\
    forall i j, (i < rrows X)%nat -> (j < n)%nat -> (a j == 1 \/ ~ nth j (sd_var fin) 0 == 0 \/ cell X i j == nth j (sd_mean fin) 0) -> cell Y' i j == cell Y i j).
Proof.
  intros S Hne Ha. destruct (sd_moments_units sq n st a b rows rows' S Hne) as (fin & fin' & E & E' & _ & L1 & L1' & L2 & L2' & C & C' & M).
  exists fin, fin'. split; [exact E|]. split; [exact E'|]. intros HQ X X' W W' CX CX' RX HX.
  assert (LS: length (sd_scale fin) = n) by (rewrite C, map_length; auto). assert (LS': length (sd_scale fin') = n) by (rewrite C', map_length; auto).
  destruct (sd_transform_spec true true (sd_mean fin) (sd_scale fin) X W) as (Y & F1 & R1 & C1 & W1 & V1); [intros; lia|intros; lia|].
  destruct (sd_transform_spec true true (sd_mean fin') (sd_scale fin') X' W') as (Y' & F1' & R1' & C1' & W1' & V1'); [intros; lia|intros; lia|].
  exists Y, Y'. split; [exact F1|]. split; [exact F1'|]. intros i j Hi Hj HC.
  specialize (HX i j Hi Hj). unfold cell in *. rewrite !raw_cell in * by lia. rewrite V1, V1' by lia.
  destruct (M j Hj) as (Mm & Mv).
  assert (Q1: root_at sq (nonzero (nth j (sd_var fin) 0))) by (apply HQ; left; apply nth_In; lia).
  assert (Q2: root_at sq (nonzero (nth j (sd_var fin') 0))) by (apply HQ; right; apply nth_In; lia).
  rewrite C, C', !nth_map_Q by lia. set (s := sq (nonzero (nth j (sd_var fin) 0))) in *. set (s' := sq (nonzero (nth j (sd_var fin') 0))) in *.
  destruct Q1 as (P1 & Q1). destruct Q2 as (P2 & Q2). fold s in P1, Q1. fold s' in P2, Q2. specialize (Ha j Hj).
  rewrite HX, Mm.
  destruct (Qeq_dec (nth j (sd_var fin) 0) 0) as [Z|Z].
  { destruct HC as [One|[HC|HC]]; [|tauto|].
    - assert (Es: s' = s). { unfold s, s'. rewrite !nonzero_0; auto. rewrite Mv, Z. ring. }
      fold s s'. rewrite Es, One. field. lra.
    - rewrite HC. fold s s'. assert (T: forall m, a j * m + b j - (a j * m + b j) == 0) by (intros; ring). rewrite T. assert (T2: forall m : Q, m - m == 0) by (intros; ring). rewrite T2. unfold Qdiv. ring. }
  clear HC. rename Z into HC.
  { assert (Es: s' == a j * s).
    { apply root_unique; auto; [apply Qmult_lt_0_compat; auto|]. fold s' in Q2. rewrite Q2.
      assert (T: a j * s * (a j * s) == a j * a j * (s * s)) by ring. rewrite T. fold s in Q1. rewrite Q1.
      destruct (nonzero_spec (nth j (sd_var fin) 0)) as (_ & _ & N & _). destruct (nonzero_spec (nth j (sd_var fin') 0)) as (_ & _ & N' & _).
      rewrite N by auto. rewrite N'; [exact Mv|]. rewrite Mv. intros Q0. apply Qmult_0 in Q0; [auto|].
      intros Q3. apply Qmult_0 in Q3; lra. }
    fold s s'. rewrite Es. field. split; lra. }
Qed.

(* ------------------------------------------------------------ RobustScaler *)
(* the columns of two data sets, each value as often, in other units *)
Definition col_units (c d : Q) (col col' : list Q) : Prop := exists mid, Permutation col mid /\ Forall2 (fun x y => y == c * x + d) mid col'.
Lemma count_le_units c d col col' v v' : 0 < c -> col_units c d col col' -> v' == c * v + d -> count_le v' col' = count_le v col.
Proof.
  intros Hc (mid & P & F) Hv. unfold count_le. rewrite (filter_perm_length _ _ _ P). clear P col.
  induction F as [|x y mid col' R F IH]; cbn [filter]; auto.
  assert (E: Qle_bool y v' = Qle_bool x v).
  { apply Bool.eq_iff_eq_true. rewrite !Qle_bool_iff. rewrite R, Hv. now apply aff_mono. }
  rewrite E. destruct (Qle_bool x v); cbn [length]; auto.
Qed.
Lemma count_lt_units c d col col' v v' : 0 < c -> col_units c d col col' -> v' == c * v + d -> count_lt v' col' = count_lt v col.
Proof.
  intros Hc (mid & P & F) Hv. unfold count_lt. rewrite (filter_perm_length _ _ _ P). clear P col.
  induction F as [|x y mid col' R F IH]; cbn [filter]; auto.
  assert (E: Qltb y v' = Qltb x v).
  { unfold Qltb. f_equal. apply Bool.eq_iff_eq_true. rewrite !Qle_bool_iff. rewrite R, Hv. now apply aff_mono. }
  rewrite E. destruct (Qltb x v); cbn [length]; auto.
Qed.
Lemma col_units_length c d col col' : col_units c d col col' -> length col = length col'.
Proof. intros (mid & P & F). rewrite (Permutation_length P). eapply Forall2_length; eauto. Qed.
Lemma filter_length_le {A} (f g : A -> bool) l : (forall x, In x l -> f x = true -> g x = true) -> (length (filter f l) <= length (filter g l))%nat.
Proof.
  induction l as [|x l IH]; intros H; cbn [filter]; auto. specialize (IH ltac:(intros; apply H; cbn; auto)).
  destruct (f x) eqn:E; [rewrite (H x) by (cbn; auto); cbn; lia|]. destruct (g x); cbn; lia.
Qed.
Lemma quantile_unique p col v w : is_quantile p col v -> is_quantile p col w -> v == w.
Proof.
  assert (H: forall v w, is_quantile p col v -> is_quantile p col w -> ~ v < w).
  { clear. intros v w (I1 & G1 & _) (I2 & _ & [L2|L2]) Hlt.
    - assert (C: (count_le v col <= count_lt w col)%nat).
      { apply filter_length_le. intros x _ Hx. apply Qle_bool_iff in Hx. destruct (Qltb_spec x w); auto. lra. }
      apply qn_le in C. lra.
    - specialize (L2 v I1). lra. }
  intros Hv Hw. destruct (Qlt_le_dec v w) as [A|A]; [destruct (H v w Hv Hw A)|]. destruct (Qlt_le_dec w v) as [B|B]; [destruct (H w v Hw Hv B)|]. now apply Qle_antisym.
Qed.
Lemma quantile_units c d p col col' v v' : 0 < c -> col_units c d col col' -> is_quantile p col v -> is_quantile p col' v' -> v' == c * v + d.
Proof.
  intros Hc U Hv Hv'. pose proof U as (mid & P & F).
  assert (Iv: In v mid) by (eapply Permutation_in; [exact P|apply Hv]). destruct (Forall2_In_l _ _ _ _ F Iv) as (w & Hw & Ew).
  assert (Q: is_quantile p col' w).
  { destruct Hv as (I1 & G1 & G2). split; [exact Hw|].
    rewrite (count_le_units c d col col' v w), (count_lt_units c d col col' v w) by auto. rewrite <- (col_units_length _ _ _ _ U). split; auto.
    destruct G2 as [G2|G2]; [left; auto|right]. intros y Hy. destruct (Forall2_In_r _ _ _ _ F Hy) as (x & Hx & Ex). rewrite Ex, Ew. apply aff_mono; auto.
    apply G2. eapply Permutation_in; [symmetry; exact P|auto]. }
  rewrite (quantile_unique p col' v' w Hv' Q). exact Ew.
Qed.
Lemma rb_units ql qr cols cols' n a b : (0 < n)%nat -> cols <> [] -> Forall (fun c => length c = n) cols -> length cols' = length cols -> ql <= 1 -> qr <= 1 ->
  (forall j, (j < length cols)%nat -> 0 < a j /\ col_units (a j) (b j) (nth j cols []) (nth j cols' [])) ->
  exists st st', rb_fit ql qr rb_new cols = Some st /\ rb_fit ql qr rb_new cols' = Some st' /\
  forall row row', rescaled (length cols) a b row row' -> forall j, (j < length cols)%nat ->
   a j == 1 \/ (exists q1 q2, is_quantile ql (nth j cols []) q1 /\ is_quantile qr (nth j cols []) q2 /\ ~ q1 == q2) \/ nth j row 0 == nth j (rb_median st) 0 ->
   nth j (rb_transform true true (rb_median st') (rb_div st') row') 0 == nth j (rb_transform true true (rb_median st) (rb_div st) row) 0.
Proof.
  intros Hn Hne HF HL H1 H2 HU.
  assert (HF': Forall (fun c => length c = n) cols').
  { apply Forall_forall. intros c Hc. destruct (In_nth _ _ [] Hc) as (j & Hj & <-). rewrite HL in Hj. destruct (HU j Hj) as (_ & U).
    rewrite <- (col_units_length _ _ _ _ U). rewrite Forall_forall in HF. apply HF, nth_In. exact Hj. }
  assert (Hne': cols' <> []) by (intros ->; destruct cols; [congruence|discriminate]).
  destruct (rb_fit_spec ql qr rb_new cols n Hn Hne HF H1 H2 (or_introl eq_refl)) as (st & E & M & D).
  destruct (rb_fit_spec ql qr rb_new cols' n Hn Hne' HF' H1 H2 (or_introl eq_refl)) as (st' & E' & M' & D').
  exists st, st'. split; [exact E|]. split; [exact E'|]. intros row row' (R1 & R2 & R3) j Hj HC.
  assert (NF: forall (R : list Q -> Q -> Prop) (l : list (list Q)) m, Forall2 R l m -> length l = length m /\ forall j, (j < length l)%nat -> R (nth j l []) (nth j m 0)).
  { clear. induction 1 as [|x y l m H F IH]; cbn [length]; [split; auto; intros; lia|]. destruct IH as (A & B). split; [lia|]. intros [|j] Hj; cbn [nth]; auto. apply B. lia. }
  destruct (NF _ _ _ M) as (LM & NM). destruct (NF _ _ _ D) as (LD & ND). destruct (NF _ _ _ M') as (LM' & NM'). destruct (NF _ _ _ D') as (LD' & ND').
  specialize (NM j Hj). specialize (ND j Hj). specialize (NM' j ltac:(lia)). specialize (ND' j ltac:(lia)).
  destruct (HU j Hj) as (Ha & U). specialize (R3 j Hj). cbv beta in *.
  destruct ND as (q1 & q2 & Q1 & Q2 & ED). destruct ND' as (q1' & q2' & Q1' & Q2' & ED').
  pose proof (quantile_units _ _ _ _ _ _ _ Ha U NM NM') as Em. pose proof (quantile_units _ _ _ _ _ _ _ Ha U Q1 Q1') as E1. pose proof (quantile_units _ _ _ _ _ _ _ Ha U Q2 Q2') as E2.
  unfold rb_transform. rewrite !(nth_zip _ _ _ _ (0, 0) 0) by (rewrite combine_length; lia). rewrite !nth_combine_Q by lia. cbn [fst snd].
  rewrite R3, Em, ED, ED'. set (x := nth j row 0) in *. set (m := nth j (rb_median st) 0) in *.
  assert (Ed: q2' - q1' == a j * (q2 - q1)) by (rewrite E1, E2; ring).
  assert (Ex: a j * x + b j - (a j * m + b j) == a j * (x - m)) by ring. rewrite Ex.
  destruct HC as [One|[(p1 & p2 & P1 & P2 & Hp)|HC]].
  - rewrite One in *. rewrite Qmult_1_l in *. destruct (Qeqb_spec (q2 - q1) 0) as [Z|Z]; destruct (Qeqb_spec (q2' - q1') 0) as [Z'|Z']; [reflexivity|rewrite Ed in Z'; tauto|rewrite Ed in Z'; tauto|rewrite Ed; reflexivity].
  - assert (Hd: ~ q2 - q1 == 0). { intros Z. apply Hp. rewrite (quantile_unique _ _ _ _ P1 Q1), (quantile_unique _ _ _ _ P2 Q2). lra. }
    destruct (Qeqb_spec (q2 - q1) 0) as [Z|Z]; [tauto|]. destruct (Qeqb_spec (q2' - q1') 0) as [Z'|Z'].
    + rewrite Ed in Z'. apply Qmult_0 in Z'; lra.
    + rewrite Ed. field. split; lra.
  - assert (Z: x - m == 0) by lra. rewrite Z. unfold Qdiv. ring.
Qed.

(* ------------------------------------------------------------ KBinsDiscretizer *)
Lemma kb_scan_mono edges x y : x <= y -> forall k ith ith', (ith <= ith')%nat -> (ith' <= ith + k)%nat -> (forall b, (ith < b <= ith')%nat -> nth b edges 0 <= y) ->
  (kb_scan k ith edges x <= kb_scan (ith + k - ith') ith' edges y)%nat.
Proof.
  intros Hxy. induction k as [|k IH]; intros ith ith' H1 H2 H3; cbn [kb_scan].
  - replace (ith + 0 - ith')%nat with 0%nat by lia. cbn. lia.
  - destruct (Nat.eq_dec ith ith') as [<-|N].
    + replace (ith + S k - ith)%nat with (S k) by lia. cbn [kb_scan].
      destruct (Qleb_spec (nth (S ith) edges 0) x) as [A|A].
      * destruct (Qleb_spec (nth (S ith) edges 0) y) as [B|B]; [|lra].
        specialize (IH (S ith) (S ith) ltac:(lia) ltac:(lia) ltac:(intros; lia)). replace (S ith + k - S ith)%nat with k in IH by lia. exact IH.
      * destruct (Qle_bool (nth (S ith) edges 0) y); [|lia].
        pose proof (kb_scan_spec edges y k (S ith)) as (S1 & _). lia.
    + destruct (Qle_bool (nth (S ith) edges 0) x) eqn:A.
      * specialize (IH (S ith) ith' ltac:(lia) ltac:(lia) ltac:(intros; apply H3; lia)). replace (S ith + k - ith')%nat with (ith + S k - ith')%nat in IH by lia. exact IH.
      * pose proof (kb_scan_spec edges y (ith + S k - ith') ith') as (S1 & _). lia.
Qed.
Lemma kb_code_mono nb edges x y : x <= y -> (kb_code nb edges x <= kb_code nb edges y)%nat.
Proof.
  intros H. unfold kb_code. pose proof (kb_scan_mono edges x y H (nb - 1) 0 0 ltac:(lia) ltac:(lia) ltac:(intros; lia)) as M. cbn [Nat.add] in M. rewrite Nat.sub_0_r in M. exact M.
Qed.
Lemma kb_scan_units c d edges edges' x x' : 0 < c -> length edges' = length edges -> (forall b, (b < length edges)%nat -> nth b edges' 0 == c * nth b edges 0 + d) -> x' == c * x + d ->
  forall k ith, (ith + k < length edges)%nat -> kb_scan k ith edges' x' = kb_scan k ith edges x.
Proof.
  intros Hc HL HE Hx. induction k as [|k IH]; intros ith Hi; cbn [kb_scan]; auto.
  assert (E: Qle_bool (nth (S ith) edges' 0) x' = Qle_bool (nth (S ith) edges 0) x).
  { apply Bool.eq_iff_eq_true. rewrite !Qle_bool_iff. rewrite HE by lia. rewrite Hx. now apply aff_mono. }
  rewrite E. destruct (Qle_bool (nth (S ith) edges 0) x); auto. apply IH. lia.
Qed.
Lemma fmin_min l m : fmin l = Some m -> minimum l m.
Proof.
  destruct l as [|x l]; cbn; [discriminate|]. intros E. injection E as <-. destruct (ImputeProofs.fold_qmin_spec l x) as (A & B). split; [exact A|]. eexists. split; [exact B|reflexivity].
Qed.
Lemma fmax_max l m : fmax l = Some m -> maximum l m.
Proof.
  destruct l as [|x l]; cbn; [discriminate|]. intros E. injection E as <-. destruct (ImputeProofs.fold_qmax_spec l x) as (A & B). split; [exact A|]. eexists. split; [exact B|reflexivity].
Qed.
Lemma kb_uniform_units nb c d col col' : (1 <= nb)%nat -> 0 < c -> col <> [] ->
  (forall x, In x col -> exists y, In y col' /\ y == c * x + d) -> (forall y, In y col' -> exists x, In x col /\ y == c * x + d) ->
  exists edges edges', kb_edges_uniform nb col = Some edges /\ kb_edges_uniform nb col' = Some edges' /\
  (forall b, (b <= nb)%nat -> nth b edges' 0 == c * nth b edges 0 + d) /\
  forall x x', x' == c * x + d -> kb_code nb edges' x' = kb_code nb edges x.
Proof.
  intros Hnb Hc Hne H1 H2.
  assert (Hne': col' <> []) by (intros ->; destruct col as [|x col]; [congruence|]; destruct (H1 x (or_introl eq_refl)) as (y & [] & _)).
  unfold kb_edges_uniform.
  destruct (fmin col) as [mn|] eqn:Emn; [|destruct col; [congruence|discriminate]]. destruct (fmax col) as [mx|] eqn:Emx; [|destruct col; [congruence|discriminate]].
  destruct (fmin col') as [mn'|] eqn:Emn'; [|destruct col'; [congruence|discriminate]]. destruct (fmax col') as [mx'|] eqn:Emx'; [|destruct col'; [congruence|discriminate]].
  apply fmin_min in Emn, Emn'. apply fmax_max in Emx, Emx'.
  assert (A: mn' == c * mn + d).
  { destruct Emn as (A1 & x & A2 & A3). destruct Emn' as (B1 & y & B2 & B3). destruct (H1 x A2) as (y' & I1 & E1). destruct (H2 y B2) as (x' & I2 & E2).
    specialize (A1 x' I2). specialize (B1 y' I1). apply (aff_mono c d) in A1; auto. rewrite E1, A3 in B1. lra. }
  assert (B: mx' == c * mx + d).
  { destruct Emx as (A1 & x & A2 & A3). destruct Emx' as (B1 & y & B2 & B3). destruct (H1 x A2) as (y' & I1 & E1). destruct (H2 y B2) as (x' & I2 & E2).
    specialize (A1 x' I2). specialize (B1 y' I1). apply (aff_mono c d) in A1; auto. rewrite E1, A3 in B1. lra. }
  eexists. eexists. split; [reflexivity|]. split; [reflexivity|].
  set (e := map (fun b => mn + qn b / qn nb * (mx - mn)) (seq 0 (S nb))). set (e' := map (fun b => mn' + qn b / qn nb * (mx' - mn')) (seq 0 (S nb))).
  assert (HE: forall b, (b <= nb)%nat -> nth b e' 0 == c * nth b e 0 + d).
  { intros b Hb. unfold e, e'. rewrite !kb_edges_nth by auto. rewrite A, B. ring. }
  split; [exact HE|]. intros x x' Hx. unfold kb_code. assert (LE: length e = S nb) by (unfold e; now rewrite map_length, seq_length).
  apply kb_scan_units with c d; auto; [unfold e, e'; now rewrite !map_length|intros; apply HE; lia|lia].
Qed.

(* ------------------------------------------------------------ Imputer *)
Lemma imp_twice missing X X1 : raw_wf X -> imp_transform missing X = Some X1 ->
  exists X2, imp_transform missing X1 = Some X2 /\ rrows X2 = rrows X1 /\ rcols X2 = rcols X1 /\
    forall i j, (i < rrows X1)%nat -> (j < rcols X1)%nat -> nth (i * rstride X2 + j) (rdata X2) None = nth (i * rstride X1 + j) (rdata X1) None.
Proof.
  intros W E. assert (HL: (rcols X <= length missing)%nat). { unfold imp_transform in E. destruct (Nat.leb_spec (rcols X) (length missing)); [auto|discriminate]. }
  destruct (imp_transform_spec missing X W HL) as (Y & EY & R & C & WY & V). rewrite E in EY. injection EY as <-.
  destruct (imp_transform_spec missing X1 WY ltac:(lia)) as (X2 & E2 & R2 & C2 & W2 & V2).
  exists X2. repeat split; auto. intros i j Hi Hj. rewrite V2 by auto. rewrite V by lia.
  destruct (nth (i * rstride X + j) (rdata X) None); auto. now destruct (nth j missing None).
Qed.
(* the statistic of a column in other units, in any order of the samples *)
Lemma imp_stat_units s c d l l' v v' o o' : s <> SMostFrequent -> 0 < c -> l <> [] -> col_units c d l l' ->
  imp_stat s o l = Some (Some v) -> imp_stat s o' l' = Some (Some v') -> v' == c * v + d.
Proof.
  intros Hs Hc Hne U E E'. pose proof (col_units_length _ _ _ _ U) as HL. assert (Hne': l' <> []) by (intros ->; destruct l; [congruence|discriminate]).
  destruct (imp_stat_spec s o l Hne) as (w & Ew & Sw); [tauto|]. destruct (imp_stat_spec s o' l' Hne') as (w' & Ew' & Sw'); [tauto|].
  rewrite E in Ew. injection Ew as <-. rewrite E' in Ew'. injection Ew' as <-.
  destruct s; [|eapply quantile_units; eauto|congruence]. cbn [is_stat] in *. rewrite <- HL in Sw'.
  pose proof (qn_neq0 l Hne) as Hq. apply (Qmult_inj_r _ _ (qn (length l)) Hq). rewrite Sw'.
  assert (T: (c * v + d) * qn (length l) == c * (v * qn (length l)) + qn (length l) * d) by ring. rewrite T, Sw.
  destruct U as (mid & P & F). rewrite (qsum_perm _ _ P), (Permutation_length P). clear -F.
  induction F as [|x y mid l' R F IH]; cbn [length]; [rewrite !qsum_nil; unfold qn; cbn; ring|]. rewrite !qsum_cons, IH, R, qn_S. ring.
Qed.

(* ------------------------------------------------------------ the number of monomials *)
Open Scope nat_scope.
Fixpoint binom (n k : nat) : nat :=
  match k, n with
  | 0, _ => 1
  | S _, 0 => 0
  | S k', S n' => binom n' k' + binom n' k
  end.
Lemma binom_0 n : binom n 0 = 1. Proof. now destruct n. Qed.
Lemma binom_SS n k : binom (S n) (S k) = binom n k + binom n (S k). Proof. reflexivity. Qed.
Lemma binom_over m : forall j, binom m (m + S j) = 0.
Proof. induction m as [|m IH]; intros j; cbn [Nat.add]; [reflexivity|]. rewrite binom_SS, IH. replace (S (m + S j)) with (m + S (S j)) by lia. apply IH. Qed.
Lemma binom_diag k : binom k k = 1.
Proof. induction k as [|k IH]; [reflexivity|]. rewrite binom_SS, IH. replace (S k) with (k + 1) by lia. now rewrite binom_over. Qed.
Lemma binom_fact n : forall k, binom (n + k) k * (fact n * fact k) = fact (n + k).
Proof.
  induction n as [|n IH]; intros k.
  - cbn [Nat.add fact]. rewrite binom_diag. lia.
  - induction k as [|k IHk].
    + rewrite Nat.add_0_r, binom_0. cbn [fact]. lia.
    + replace (S n + S k) with (S (n + S k)) by lia. rewrite binom_SS.
      specialize (IH (S k)). replace (n + S k) with (S n + k) in * by lia. 
      change (fact (S (S n + k))) with (S (S n + k) * fact (S n + k)).
      replace (S (S n + k)) with (S k + S n) by lia.
      change (fact (S k)) with (S k * fact k) in *. change (fact (S n)) with (S n * fact n) in *.
      rewrite Nat.mul_add_distr_r. rewrite (Nat.mul_add_distr_r (S k) (S n)).
      rewrite <- IHk at 1. rewrite <- IH. nia.
Qed.
Lemma flat_map_length_sum {A B} (f : A -> list B) l : length (flat_map f l) = list_sum (map (fun x => length (f x)) l).
Proof. induction l as [|x l IH]; cbn; auto. rewrite app_length, IH. reflexivity. Qed.
Lemma sum_ext {A} (f g : A -> nat) l : (forall x, In x l -> f x = g x) -> list_sum (map f l) = list_sum (map g l).
Proof. intros H. f_equal. now apply map_ext_in. Qed.
(* multisets of size r over m symbols *)
Definition multi (m r : nat) : nat :=
  match m with
  | 0 => match r with 0 => 1 | S _ => 0 end
  | S m' => binom (m' + r) r
  end.
Lemma hockey r : forall m, list_sum (map (fun i => binom (i + r) r) (seq 0 m)) = match m with 0 => 0 | S m' => binom (m' + S r) (S r) end.
Proof.
  intros m. destruct m as [|m]; [reflexivity|]. induction m as [|m IH].
  - cbn [seq map list_sum fold_right Nat.add]. rewrite Nat.add_0_r.
    rewrite !binom_diag. reflexivity.
  - rewrite seq_S, map_app, list_sum_app. rewrite IH. cbn [map list_sum fold_right Nat.add]. rewrite Nat.add_0_r.
    replace (m + S r) with (S m + r) by lia. rewrite binom_SS. replace (m + S r) with (S (m + r)) by lia. cbn [Nat.add]. lia.
Qed.
Lemma sum_rev_seq (f : nat -> nat) n : forall lo, list_sum (map (fun x => f (lo + n - 1 - x)) (seq lo n)) = list_sum (map f (seq 0 n)).
Proof.
  induction n as [|n IH]; intros lo; [reflexivity|]. rewrite (seq_S n 0), map_app, list_sum_app. cbn [seq map list_sum fold_right Nat.add].
  replace (lo + S n - 1 - lo) with n by lia. fold (list_sum (map (fun x => f (lo + S n - 1 - x)) (seq (S lo) n))).
  rewrite <- (IH (S lo)). rewrite (sum_ext _ (fun x => f (S lo + n - 1 - x))); [unfold list_sum; cbn; lia|]. intros x _. f_equal. lia.
Qed.
Lemma lex_cwr_count n r : forall lo, lo <= n -> length (lex_cwr lo n r) = multi (n - lo) r.
Proof.
  induction r as [|r IH]; intros lo Hlo.
  - cbn. destruct (n - lo); cbn; auto. now rewrite binom_0.
  - cbn [lex_cwr]. rewrite flat_map_length_sum.
    rewrite (sum_ext _ (fun x => (fun k => binom (k + r) r) (lo + (n - lo) - 1 - x))).
    + rewrite (sum_rev_seq (fun k => binom (k + r) r)). rewrite hockey. destruct (n - lo); reflexivity.
    + intros x Hx. apply in_seq in Hx. rewrite map_length, IH by lia. replace (n - x) with (S (lo + (n - lo) - 1 - x)) by lia. reflexivity.
Qed.
Lemma lex_comb_count n r : forall lo, lo <= n -> length (lex_comb lo n r) = binom (n - lo) r.
Proof.
  induction r as [|r IH]; intros lo Hlo.
  - cbn. now rewrite binom_0.
  - cbn [lex_comb]. rewrite flat_map_length_sum.
    rewrite (sum_ext _ (fun x => (fun k => binom k r) (lo + (n - lo) - 1 - x))).
    + rewrite (sum_rev_seq (fun k => binom k r)). clear. induction (n - lo) as [|m IHm]; [reflexivity|].
      rewrite seq_S, map_app, list_sum_app. cbn [map list_sum fold_right Nat.add]. rewrite IHm, binom_SS. lia.
    + intros x Hx. apply in_seq in Hx. rewrite map_length, IH by lia. f_equal. lia.
Qed.
Lemma lex_deg_count interaction n i : length (lex_deg interaction n i) = if interaction then binom n i else multi n i.
Proof. unfold lex_deg. rewrite map_length. destruct interaction; [rewrite lex_comb_count by lia|rewrite lex_cwr_count by lia]; now rewrite Nat.sub_0_r. Qed.
Lemma multi_sum n d : list_sum (map (multi n) (seq 0 (S d))) = binom (n + d) d.
Proof.
  destruct n as [|n].
  - cbn [Nat.add]. induction d as [|d IH]; [reflexivity|]. rewrite seq_S, map_app, list_sum_app, IH. cbn [map list_sum fold_right Nat.add].
    rewrite !binom_diag. reflexivity.
  - induction d as [|d IH]; [cbn; now rewrite !binom_0|]. rewrite seq_S, map_app, list_sum_app, IH. cbn [map list_sum fold_right Nat.add multi].
    replace (n + S d) with (S (n + d)) by lia. rewrite !binom_SS. cbn [Nat.add]. lia.
Qed.
Lemma poly_count d interaction n : exists f0 p1 p0, (forall fuel, f0 <= fuel -> poly_fit fuel (Z.of_nat d) interaction true n = Some p1 /\ poly_fit fuel (Z.of_nat d) interaction false n = Some p0) /\
  length p1 = S (length p0) /\ length p1 = if interaction then list_sum (map (binom n) (seq 0 (S d))) else binom (n + d) d.
Proof.
  destruct (poly_loop_correct interaction n (S d) 0) as (f1 & H1). destruct (poly_loop_correct interaction n d 1) as (f2 & H2).
  exists (Nat.max f1 f2). eexists. eexists. split.
  - intros fuel Hf. unfold poly_fit. cbv iota. replace (Z.to_nat (Z.of_nat d + 1 - Z.of_nat 0)) with (S d) by lia. replace (Z.to_nat (Z.of_nat d + 1 - Z.of_nat 1)) with d by lia.
    rewrite H1, H2 by lia. split; reflexivity.
  - rewrite !flat_map_length_sum. split.
    + cbn [seq map list_sum fold_right]. rewrite lex_deg_count. destruct interaction; [rewrite binom_0|destruct n; cbn [multi]; rewrite ?binom_0]; reflexivity.
    + rewrite (sum_ext _ (fun i => if interaction then binom n i else multi n i)) by (intros; apply lex_deg_count). destruct interaction; [reflexivity|]. apply multi_sum.
Qed.
Lemma binom_small m k : m < k -> binom m k = 0.
Proof. intros H. replace k with (m + S (k - m - 1)) by lia. apply binom_over. Qed.
Lemma binom_sum_fact n d : list_sum (map (binom n) (seq 0 (S d))) = list_sum (map (fun k => fact n / (fact k * fact (n - k))) (seq 0 (S (Nat.min d n)))).
Proof.
  assert (H: list_sum (map (binom n) (seq 0 (S d))) = list_sum (map (binom n) (seq 0 (S (Nat.min d n))))).
  { induction d as [|d IH]; [reflexivity|]. destruct (Nat.le_gt_cases (S d) n) as [L|L].
    - now rewrite Nat.min_l by lia.
    - rewrite seq_S, map_app, list_sum_app, IH. cbn [map list_sum fold_right Nat.add]. rewrite (binom_small n (S d)) by lia. rewrite !Nat.min_r by lia. lia. }
  rewrite H. apply sum_ext. intros k Hk. apply in_seq in Hk. pose proof (binom_fact (n - k) k) as B. replace (n - k + k) with n in B by lia.
  rewrite <- B, (Nat.mul_comm (fact k)). symmetry. apply Nat.div_mul. pose proof (lt_O_fact k). pose proof (lt_O_fact (n - k)). nia.
Qed.
