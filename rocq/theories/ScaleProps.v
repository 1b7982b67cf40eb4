(* Properties C17 - C21, C64 - C72. *)
From Verif Require Import QCommon ScaleModel ScaleProofs ShufProofs ScaleMore.
Open Scope Q_scope.

(* C17: any cell type, any strides of the inputs, any permutation *)
Theorem C17_shuffler_pairs_and_inverts : forall (A B : Type) (da : A) (db : B) perm (X : raw A) (Y : raw B),
  raw_wf X -> raw_wf Y -> rrows Y = rrows X -> Permutation perm (seq 0 (rrows X)) ->
  exists X1 Y1 X2 Y2 p,
    shuf_transform da perm X = Some X1 /\ shuf_transform db perm Y = Some Y1 /\
    shuf_inverse perm X1 = Some X2 /\ shuf_inverse perm Y1 = Some Y2 /\
    Permutation p (seq 0 (rrows X)) /\
    raw_rows da X1 = map (fun k => nth k (raw_rows da X) []) p /\
    raw_rows db Y1 = map (fun k => nth k (raw_rows db Y) []) p /\
    raw_rows da X2 = raw_rows da X /\ raw_rows db Y2 = raw_rows db Y.
Proof. exact @shuffler_main. Qed.
Print Assumptions C17_shuffler_pairs_and_inverts.

Example C17_example :
  (* a 3x2 view (stride 3) of a 3x3 matrix *)
  shuf_transform 0%Z [1; 2; 0]%nat (mkraw 3 2 3 [1; 2; 9; 3; 4; 9; 5; 6]%Z) =
    Some (mkraw 3 2 2 [3; 4; 5; 6; 1; 2]%Z) /\
  shuf_inverse [1; 2; 0]%nat (mkraw 3 2 2 [3; 4; 5; 6; 1; 2]%Z) = Some (mkraw 3 2 2 [1; 2; 3; 4; 5; 6]%Z).
Proof. vm_compute. split; reflexivity. Qed.

(* C65: false.  No permutation drawn by Fit makes Transform return the rows in
   the order (2, 0, 1). *)
Theorem C65_shuffler_reaches_every_order_refuted :
  exists (n : nat) (order : list nat), Permutation order (seq 0 n) /\
    forall perm X1, Permutation perm (seq 0 n) ->
      shuf_transform 0%nat perm (mkraw n 1 1 (seq 0 n)) = Some X1 ->
      concat (raw_rows 0%nat X1) <> order.
Proof.
  exists 3%nat, [2; 0; 1]%nat. split.
  - apply (Permutation_cons_append [0; 1]%nat 2%nat).
  - intros perm X1 HP E.
    pose proof (Permutation_length HP) as HL. cbn in HL.
    destruct perm as [|a [|b [|c [|]]]]; try discriminate HL.
    assert (Ha: In a [0; 1; 2]%nat) by (apply (Permutation_in _ HP); cbn; auto).
    assert (Hb: In b [0; 1; 2]%nat) by (apply (Permutation_in _ HP); cbn; auto).
    assert (Hc: In c [0; 1; 2]%nat) by (apply (Permutation_in _ HP); cbn; auto).
    assert (ND: NoDup [a; b; c]) by (eapply Permutation_NoDup; [apply Permutation_sym; exact HP|apply seq_NoDup]).
    intros EQ.
    cbn in Ha, Hb, Hc.
    destruct Ha as [<-|[<-|[<-|[]]]], Hb as [<-|[<-|[<-|[]]]], Hc as [<-|[<-|[<-|[]]]];
      try (exfalso; inversion ND as [|? ? N1 N2]; inversion N2 as [|? ? N3 N4]; cbn in N1, N3; tauto);
      vm_compute in E; injection E as <-; vm_compute in EQ; discriminate EQ.
Qed.
Print Assumptions C65_shuffler_reaches_every_order_refuted.
(* in general: whatever the number of rows, if they are distinct the first two rows of the result are never a later row k >= 2 and row 0 *)
Theorem C65_orders_refuted : forall A (d : A) perm (X X1 : raw A) k, raw_wf X -> NoDup (raw_rows d X) -> Permutation perm (seq 0 (rrows X)) -> (2 <= k < rrows X)%nat ->
  shuf_transform d perm X = Some X1 -> nth_error (raw_rows d X1) 0 = nth_error (raw_rows d X) k -> nth_error (raw_rows d X1) 1 = nth_error (raw_rows d X) 0 -> False.
Proof.
  intros A d perm X X1 k W ND HP Hk E E0 E1. destruct (shuf_transform_rows d perm X W HP) as (X' & E' & _ & _ & _ & R). rewrite E in E'. injection E' as <-. rewrite R in E0, E1.
  eapply row_swaps_order; [exact ND| |rewrite raw_rows_length; exact Hk|exact E0|exact E1]. now rewrite raw_rows_length.
Qed.
Print Assumptions C65_orders_refuted.

(* C66: false.  On a view, InverseTransform exchanges Stride cells instead of
   Cols: it indexes past the end, or changes cells outside the view. *)
Theorem C66_shuffler_inverse_stays_inside_refuted :
  (exists perm (X : raw nat), raw_wf X /\ Permutation perm (seq 0 (rrows X)) /\ shuf_inverse perm X = None) /\
  (exists perm (X X' : raw nat) p, raw_wf X /\ Permutation perm (seq 0 (rrows X)) /\ shuf_inverse perm X = Some X' /\
     (forall i j, (i < rrows X)%nat -> (j < rcols X)%nat -> p <> (i * rstride X + j)%nat) /\
     nth_error (rdata X') p <> nth_error (rdata X) p).
Proof.
  split.
  - exists [1; 0]%nat, (mkraw 2 1 2 [1; 7; 2]%nat). split; [unfold raw_wf; cbn; lia|]. split; [apply perm_swap|]. reflexivity.
  - exists [1; 0]%nat, (mkraw 2 1 2 [1; 7; 2; 8]%nat), (mkraw 2 1 2 [2; 8; 1; 7]%nat), 1%nat.
    split; [unfold raw_wf; cbn; lia|]. split; [apply perm_swap|]. split; [reflexivity|]. split; [|discriminate].
    cbn. intros i j Hi Hj. lia.
Qed.
Print Assumptions C66_shuffler_inverse_stays_inside_refuted.

(* C18 *)
Theorem C18_minmax : forall st n r0 rows batches, let all := (r0 :: rows) ++ concat batches in
  Forall (fun r => length r = n) all -> mm_lo st < mm_hi st ->
  let fin := fold_left mm_partial_fit batches (mm_fit st (r0 :: rows)) in
  let lo := mm_lo st in let hi := mm_hi st in
  (forall j, (j < n)%nat ->
     let dmin := nth j (mm_dmin fin) 0 in let dmax := nth j (mm_dmax fin) 0 in
     (forall row, In row all -> dmin <= nth j row 0 <= dmax) /\
     (exists row, In row all /\ nth j row 0 = dmin) /\ (exists row, In row all /\ nth j row 0 = dmax)) /\
  (forall row j, In row all -> (j < n)%nat -> lo <= nth j (mm_transform fin row) 0 <= hi) /\
  (forall row j, length row = n -> (j < n)%nat -> nth j (mm_dmin fin) 0 < nth j (mm_dmax fin) 0 ->
     (nth j row 0 == nth j (mm_dmin fin) 0 -> nth j (mm_transform fin row) 0 == lo) /\
     (nth j row 0 == nth j (mm_dmax fin) 0 -> nth j (mm_transform fin row) 0 == hi)) /\
  (forall row, length row = n -> Forall2 Qeq (mm_inverse fin (mm_transform fin row)) row) /\
  (forall row, length row = n -> Forall2 Qeq (mm_transform fin (mm_inverse fin row)) row).
Proof. exact mm_main. Qed.
Print Assumptions C18_minmax.
(* a new scaler may start with PartialFit; Fit forgets what was fitted before *)
Theorem C18_minmax_start : forall lo hi st rows, rows <> [] -> mm_lo st = lo -> mm_hi st = hi ->
  mm_partial_fit (mm_new lo hi) rows = mm_fit st rows.
Proof. intros lo hi st [|r0 rows] H E1 E2; [destruct (H eq_refl)|]. subst. reflexivity. Qed.
Print Assumptions C18_minmax_start.

Example C18_example :
  let fin := mm_partial_fit (mm_fit (mm_new 0 1) [[1; 5]; [3; 5]]) [[-(1); 5]] in
  mm_dmin fin = [-(1); 5] /\ mm_dmax fin = [3; 5] /\ map Qred (mm_transform fin [1; 5]) = [1 # 2; 0] /\
  map Qred (mm_inverse fin (mm_transform fin [7; 2])) = [7; 2].
Proof. vm_compute. repeat split. Qed.

(* C19 *)
Theorem C19_maxabs : forall n st rows0 batches, let all := rows0 ++ concat batches in
  Forall (fun r => length r = n) all ->
  exists st0 fin, ma_fit st n rows0 = Some st0 /\ ofold ma_partial_fit batches st0 = Some fin /\
    length (ma_max fin) = n /\
    (forall j, (j < n)%nat ->
       (forall row, In row all -> Qabs (nth j row 0) <= nth j (ma_max fin) 0) /\
       (all <> [] -> exists row, In row all /\ nth j (ma_max fin) 0 == Qabs (nth j row 0))) /\
    (forall X, raw_wf X -> rcols X = n -> exists X1 X2,
       ma_transform fin X = Some X1 /\ ma_inverse fin X1 = Some X2 /\ rrows X1 = rrows X /\ rcols X1 = rcols X /\
       (forall i, (i < rrows X)%nat -> In (nth i (raw_rows 0 X) []) all -> forall j, (j < n)%nat -> -(1) <= cell X1 i j <= 1) /\
       Forall2 (Forall2 Qeq) (raw_rows 0 X2) (raw_rows 0 X)).
Proof. exact ma_main. Qed.
Print Assumptions C19_maxabs.

Example C19_example :
  match ma_fit (mkma [] [] 0) 2 [[1; -(4)]; [-(3); 2]] with
  | Some st => ma_max st = [3; 4] /\
      match ma_transform st (mkraw 2 2 3 [1; -(4); 77; -(3); 2]) with
      | Some X1 => map (map Qred) (raw_rows 0 X1) = [[1 # 3; -(1)]; [-(1); 1 # 2]] | None => False end
  | None => False end.
Proof. vm_compute. split; reflexivity. Qed.

(* C64: NSamplesSeen counts the rows of the current fit: true for MinMax and
   Standard, false for MaxAbs, whose Fit does not reset it *)
Theorem C64_minmax_samples_seen : forall st r0 rows batches,
  mm_seen (fold_left mm_partial_fit batches (mm_fit st (r0 :: rows))) = length ((r0 :: rows) ++ concat batches).
Proof. intros. rewrite mm_history. reflexivity. Qed.
Print Assumptions C64_minmax_samples_seen.
Theorem C64_standard_samples_seen : forall sq nf st rows, Forall (fun r => length r = nf) rows -> rows <> [] ->
  exists st', sd_fit sq nf st rows = Some st' /\ sd_seen st' = length rows.
Proof. intros sq nf st rows H H0. destruct (sd_fit_moments sq nf st rows H H0) as (st' & E & S & _). eauto. Qed.
Print Assumptions C64_standard_samples_seen.
Theorem C64_maxabs_samples_seen_refuted : exists st0 st1 rows st2,
  ma_fit st0 1 rows = Some st1 /\ ma_fit st1 1 rows = Some st2 /\ ma_seen st1 = length rows /\ ma_seen st2 <> length rows.
Proof.
  exists (mkma [] [] 0), (mkma [2] [2] 2), [[1]; [2]], (mkma [2] [2] 4).
  repeat split; vm_compute; discriminate.
Qed.
Print Assumptions C64_maxabs_samples_seen_refuted.

Example C64_example : mm_seen (mm_partial_fit (mm_fit (mm_fit (mm_new 0 1) [[9]; [8]]) [[1]]) [[2]; [3]]) = 3%nat.
Proof. reflexivity. Qed.

(* C20: one Fit, any number of rows and features, any earlier state *)
Theorem C20_fit_moments : forall sq nf st rows,
  Forall (fun r => length r = nf) rows -> rows <> [] ->
  exists st', sd_fit sq nf st rows = Some st' /\ sd_seen st' = length rows /\
    length (sd_mean st') = nf /\ length (sd_var st') = nf /\
    sd_scale st' = map (fun v => sq (if Qeq_bool v 0 then 1 else v)) (sd_var st') /\
    forall j, (j < nf)%nat ->
      nth j (sd_mean st') 0 == qsum (map (fun r => nth j r 0) rows) / qn (length rows) /\
      nth j (sd_var st') 0 ==
        qsum (map (fun r => (nth j r 0 - nth j (sd_mean st') 0) * (nth j r 0 - nth j (sd_mean st') 0)) rows) / qn (length rows).
Proof. exact sd_fit_moments. Qed.
Print Assumptions C20_fit_moments.

(* C20: batches, one feature: the mean is right ... *)
Theorem C20_batches_mean_one_feature : forall sq rows0 batches st,
  Forall (fun r => length r = 1%nat) (rows0 ++ concat batches) -> rows0 <> [] ->
  exists st0 st', sd_fit sq 1 st rows0 = Some st0 /\ ofold (sd_partial_fit sq 1) batches st0 = Some st' /\
    sd_seen st' = length (rows0 ++ concat batches) /\
    nth 0 (sd_mean st') 0 == qsum (map (fun r => nth 0 r 0) (rows0 ++ concat batches)) / qn (length (rows0 ++ concat batches)).
Proof. exact sd_mean_one. Qed.
Print Assumptions C20_batches_mean_one_feature.

(* ... the variance is not, and with two or more features the second batch panics *)
Theorem C20_batches_variance_refuted :
  (forall sq : Q -> Q, exists rows0 rows1 st0 st1 st2,
     sd_fit sq 1 sd_new rows0 = Some st0 /\ sd_partial_fit sq 1 st0 rows1 = Some st1 /\
     sd_fit sq 1 sd_new (rows0 ++ rows1) = Some st2 /\
     ~ nth 0 (sd_var st1) 0 == nth 0 (sd_var st2) 0) /\
  (forall sq nf st0 rows0 rows1, (2 <= nf)%nat -> rows0 <> [] -> rows1 <> [] -> Forall (fun r => length r = nf) rows0 ->
     sd_fit sq nf sd_new rows0 = Some st0 -> sd_partial_fit sq nf st0 rows1 = None).
Proof.
  split.
  - intros sq. eexists [[1]; [3]], [[1]; [3]], _, _, _. split; [vm_compute; reflexivity|].
    split; [vm_compute; reflexivity|]. split; [vm_compute; reflexivity|]. vm_compute. discriminate.
  - intros sq nf st0 rows0 rows1 Hnf H0 H1 HF E.
    destruct (sd_fit_moments sq nf sd_new rows0 HF H0) as (st' & E' & S & _). rewrite E in E'. injection E' as <-.
    destruct rows1 as [|r rows1]; [congruence|]. unfold sd_partial_fit. rewrite S.
    destruct (Nat.eqb_spec (length rows0) 0) as [Z|Z]; [destruct rows0; [congruence|discriminate]|].
    unfold inc_mean_var. destruct (Nat.eqb_spec (length rows0) 0); [lia|]. destruct (Nat.eqb_spec nf 1); [lia|]. reflexivity.
Qed.
Print Assumptions C20_batches_variance_refuted.

Example C20_example :
  match sd_fit (fun v => v) 2 sd_new [[1; 0]; [3; 4]; [5; 2]] with
  | Some st => map Qred (sd_mean st) = [3; 2] /\ map Qred (sd_var st) = [8 # 3; 8 # 3] | None => False end.
Proof. vm_compute. split; reflexivity. Qed.

(* C71: the transformed training column has mean 0 and variance 1 (variance 0
   when the column is constant), for any s with s*s = Var *)
Theorem C71_standard_output_moments : forall rows j mean var s,
  rows <> [] -> mean == qsum (map (fun r => nth j r 0) rows) / qn (length rows) ->
  var == qsum (map (fun r => (nth j r 0 - mean) * (nth j r 0 - mean)) rows) / qn (length rows) ->
  s * s == (if Qeq_bool var 0 then 1 else var) -> ~ s == 0 ->
  qsum (map (fun r => (nth j r 0 - mean) / s) rows) == 0 /\
  (~ var == 0 -> qsum (map (fun r => ((nth j r 0 - mean) / s) * ((nth j r 0 - mean) / s)) rows) / qn (length rows) == 1).
Proof. exact sd_output_moments. Qed.
Print Assumptions C71_standard_output_moments.
Example C71_example : let rows := [[1]; [5]] in
  qsum (map (fun r => nth 0 r 0) rows) / qn 2 == 3 /\
  qsum (map (fun r => (nth 0 r 0 - 3) * (nth 0 r 0 - 3)) rows) / qn 2 == 2 * 2.
Proof. vm_compute. split; reflexivity. Qed.

(* C21 *)
Theorem C21_standard_roundtrip : forall wm ws mean scale X, raw_wf X ->
  (wm = true -> length mean = rcols X) ->
  (ws = true -> length scale = rcols X /\ Forall (fun s => ~ s == 0) scale) ->
  (exists X1 X2, sd_transform wm ws mean scale X = Some X1 /\ sd_inverse wm ws mean scale X1 = Some X2 /\
     rrows X1 = rrows X /\ rcols X1 = rcols X /\
     (forall i j, (i < rrows X)%nat -> (j < rcols X)%nat ->
        cell X1 i j = (cell X i j - (if wm then nth j mean 0 else 0)) / (if ws then nth j scale 0 else 1)) /\
     Forall2 (Forall2 Qeq) (raw_rows 0 X2) (raw_rows 0 X)) /\
  (exists X1 X2, sd_inverse wm ws mean scale X = Some X1 /\ sd_transform wm ws mean scale X1 = Some X2 /\
     rrows X1 = rrows X /\ rcols X1 = rcols X /\ Forall2 (Forall2 Qeq) (raw_rows 0 X2) (raw_rows 0 X)).
Proof. exact sd_roundtrip. Qed.
Print Assumptions C21_standard_roundtrip.

Theorem C21_robust_roundtrip : forall center scale med div row,
  length med = length row -> length div = length row -> (scale = true -> Forall (fun s => ~ s == 0) div) ->
  Forall2 Qeq (rb_inverse center scale med div (rb_transform center scale med div row)) row /\
  Forall2 Qeq (rb_transform center scale med div (rb_inverse center scale med div row)) row.
Proof. exact rb_roundtrip. Qed.
Print Assumptions C21_robust_roundtrip.

Example C21_example :
  match sd_transform true true [1; 2] [2; 4] (mkraw 2 2 3 [3; 6; 99; 5; 2]) with
  | Some X1 => map (map Qred) (raw_rows 0 X1) = [[1; 1]; [2; 0]] | None => False end /\
  map Qred (rb_transform true true [1; 2] [2; 4] [3; 6]) = [1; 1].
Proof. vm_compute. split; reflexivity. Qed.

(* C67: a first Fit (or a refit with the same number of rows) gives the
   empirical median and quantile range of each column *)
Theorem C67_robust_fit : forall ql qr st cols n,
  (0 < n)%nat -> cols <> [] -> Forall (fun c => length c = n) cols -> ql <= 1 -> qr <= 1 ->
  (rb_tmp st = None \/ exists t, rb_tmp st = Some t /\ length t = n) ->
  let is_quantile p col v :=
    In v col /\ p * qn (length col) <= qn (length (filter (fun x => Qle_bool x v) col)) /\
    (qn (length (filter (fun x => Qltb x v) col)) < p * qn (length col) \/ (forall x, In x col -> v <= x)) in
  exists st', rb_fit ql qr st cols = Some st' /\
    Forall2 (fun c m => is_quantile (1 # 2) c m) cols (rb_median st') /\
    Forall2 (fun c d => exists q1 q2, is_quantile ql c q1 /\ is_quantile qr c q2 /\
                                      d = if Qeq_bool (q2 - q1) 0 then 1 else q2 - q1) cols (rb_div st').
Proof. exact rb_fit_spec. Qed.
Print Assumptions C67_robust_fit.

(* C67: refitting with another number of rows: Tmp is not resized *)
Theorem C67_robust_refit_refuted :
  (exists cols0 st0 cols1, rb_fit (1 # 4) (3 # 4) rb_new cols0 = Some st0 /\ rb_fit (1 # 4) (3 # 4) st0 cols1 = None /\
     exists st1, rb_fit (1 # 4) (3 # 4) rb_new cols1 = Some st1) /\
  (exists cols0 st0 cols1 st1 st1', rb_fit (1 # 4) (3 # 4) rb_new cols0 = Some st0 /\
     rb_fit (1 # 4) (3 # 4) st0 cols1 = Some st1 /\ rb_fit (1 # 4) (3 # 4) rb_new cols1 = Some st1' /\
     rb_median st1 <> rb_median st1').
Proof.
  split.
  - eexists [[1]], _, [[1; 2]]. split; [vm_compute; reflexivity|]. split; [vm_compute; reflexivity|]. eexists. vm_compute. reflexivity.
  - eexists [[7; 8; 9]], _, [[1]], _, _. split; [vm_compute; reflexivity|]. split; [vm_compute; reflexivity|].
    split; [vm_compute; reflexivity|]. vm_compute. discriminate.
Qed.
Print Assumptions C67_robust_refit_refuted.
Example C67_example : match rb_fit (1 # 4) (3 # 4) rb_new [[4; 1; 3; 2]; [5; 5; 5; 5]] with
  | Some st => rb_median st = [2; 5] /\ map Qred (rb_div st) = [2; 1] | None => False end.
Proof. vm_compute. split; reflexivity. Qed.

(* C68: Normalizer, norms l1 and max *)
Theorem C68_normalizer_unit_columns : forall nrm, nrm = norm1 \/ nrm = norm_max -> forall cols,
  exists out, nz_transform_cols nrm cols = Some out /\
    Forall2 (fun c o => (~ nrm c == 0 -> nrm o == 1) /\ (nrm c == 0 -> o = c)) cols out.
Proof.
  intros nrm Hn cols. exists (map (nz_vec nrm) cols). split; [reflexivity|].
  induction cols as [|c cols IH]; cbn; constructor; auto.
  destruct Hn as [-> | ->]; apply nz_vec_unit; auto using norm1_nonneg, norm1_scale, norm_max_scale; apply norm_max_spec.
Qed.
Print Assumptions C68_normalizer_unit_columns.
Theorem C68_normalizer_unit_rows_square : forall nrm, nrm = norm1 \/ nrm = norm_max -> forall rows,
  exists out, nz_transform_rows nrm (length rows) rows = Some out /\
    Forall2 (fun r o => (~ nrm r == 0 -> nrm o == 1) /\ (nrm r == 0 -> o = r)) rows out.
Proof.
  intros nrm Hn rows. unfold nz_transform_rows. rewrite Nat.eqb_refl. eexists. split; [reflexivity|].
  induction rows as [|c cols IH]; cbn; constructor; auto.
  destruct Hn as [-> | ->]; apply nz_vec_unit; auto using norm1_nonneg, norm1_scale, norm_max_scale; apply norm_max_spec.
Qed.
Print Assumptions C68_normalizer_unit_rows_square.
(* false for every non-square matrix with the default Axis=1, and
   InverseTransform panics on every matrix *)
Theorem C68_normalizer_rows_refuted :
  (forall nrm nf rows, nf <> length rows -> nz_transform_rows nrm nf rows = None) /\
  (forall r rows, nz_inverse (r :: rows) = None).
Proof.
  split; [|reflexivity]. intros nrm nf rows H. unfold nz_transform_rows. destruct (Nat.eqb_spec nf (length rows)); [congruence|reflexivity].
Qed.
Print Assumptions C68_normalizer_rows_refuted.
Example C68_example : match nz_transform_rows norm1 2 [[1; -(3)]; [0; 0]] with
  | Some out => map (map Qred) out = [[1 # 4; -(3) # 4]; [0; 0]] | None => False end.
Proof. vm_compute. reflexivity. Qed.

(* C69: centring the Gram matrix of features P gives the Gram matrix of the
   features centred on the mean of P, for training and for test rows T *)
Theorem C69_kernel_centering : forall d P T, P <> [] -> (length T <= length P)%nat ->
  let gram U V := map (fun u => map (fun v => dot d u v) V) U in
  exists out, kc_transform (kc_fit (length P) (gram P P)) (length P) (gram T P) = Some out /\
    length out = length P /\
    forall i j u v, nth_error T i = Some u -> nth_error P j = Some v ->
      nth j (nth i out []) 0 == dot d (sub_vec d u (mean_vec d P)) (sub_vec d v (mean_vec d P)).
Proof. exact kc_main. Qed.
Print Assumptions C69_kernel_centering.
(* the output has Cols rows instead of Rows *)
Theorem C69_kernel_centering_shape_refuted :
  (exists fit c rows, kc_transform fit c rows = None /\ Forall (fun r => length r = c) rows /\ length (fst fit) = c) /\
  (exists fit c rows out, kc_transform fit c rows = Some out /\ length out <> length rows).
Proof.
  split.
  - exists ([1], 1), 1%nat, [[1]; [2]]. repeat split. repeat constructor.
  - exists ([1; 1], 1), 2%nat, [[1; 2]]. eexists. split; [reflexivity|]. cbn. discriminate.
Qed.
Print Assumptions C69_kernel_centering_shape_refuted.
Example C69_example : match kc_transform (kc_fit 2 [[1; 2]; [2; 4]]) 2 [[1; 2]; [2; 4]] with
  | Some out => map (map Qred) out = [[1 # 4; -(1) # 4]; [-(1) # 4; 1 # 4]] | None => False end.
Proof. vm_compute. reflexivity. Qed.

(* C70: NumpyLike.Var of an m x n matrix is the population variance times m/n *)
Theorem C70_numpy_var_refuted : exists n col, col <> [] /\ (0 < n)%nat /\
  ~ np_var n col == qsum (map (fun x => (x - qsum col / qn (length col)) * (x - qsum col / qn (length col))) col) / qn (length col).
Proof. exists 1%nat, [1; 3]. split; [discriminate|]. split; [lia|]. vm_compute. discriminate. Qed.
Print Assumptions C70_numpy_var_refuted.
Theorem C70_numpy_var_exact : forall n col, col <> [] -> (0 < n)%nat ->
  np_var n col * qn n == qn (length col) * (qsum (map (fun x => (x - qsum col / qn (length col)) * (x - qsum col / qn (length col))) col) / qn (length col)).
Proof. exact np_var_exact. Qed.
Print Assumptions C70_numpy_var_exact.
Example C70_example : np_var 2 [1; 3] == 1 /\ np_var 1 [1; 3] == 2.
Proof. vm_compute. split; reflexivity. Qed.

(* C72: Binarizer *)
Theorem C72_binarizer_compact : forall thr X, raw_wf X -> rstride X = rcols X ->
  exists X', bin_transform thr X = Some X' /\ rrows X' = rrows X /\ rcols X' = rcols X /\
    forall i j, (i < rrows X)%nat -> (j < rcols X)%nat -> cell X' i j = if Qltb thr (cell X i j) then 1 else 0.
Proof. exact bin_compact. Qed.
Print Assumptions C72_binarizer_compact.
(* every proper view with two or more rows makes it panic *)
Theorem C72_binarizer_view_refuted : forall thr X, raw_wf X -> (rcols X < rstride X)%nat -> (2 <= rrows X)%nat ->
  bin_transform thr X = None.
Proof. exact bin_view_panics. Qed.
Print Assumptions C72_binarizer_view_refuted.
Example C72_example : bin_transform 1 (mkraw 2 2 2 [0; 1; 2; 3]) = Some (mkraw 2 2 2 [0; 0; 1; 1]).
Proof. vm_compute. reflexivity. Qed.

(* C231: DenseMean and AddDummyFeature.  What DenseMean leaves in each cell times the number of samples is the sum of the
   column plus what the cell held before *)
Theorem C231_dense_mean_partial : forall xmean rows, rows <> [] -> length (dense_mean xmean rows) = length xmean /\
  forall j, (j < length xmean)%nat ->
  nth j (dense_mean xmean rows) 0 * qn (length rows) == nth j xmean 0 + qsum (map (fun r => nth j r 0) rows) /\
  (nth j (dense_mean xmean rows) 0 == qsum (map (fun r => nth j r 0) rows) / qn (length rows) <-> nth j xmean 0 == 0).
Proof.
  intros xmean rows HR. split; [apply dense_mean_length|]. intros j Hj. pose proof (dense_mean_at xmean rows j Hj HR) as E. split; [exact E|].
  assert (N : 0 < qn (length rows)) by (apply qn_pos; destruct rows; [contradiction|cbn [length]; lia]). split; intros K.
  - rewrite K in E. assert (F : qsum (map (fun r => nth j r 0) rows) / qn (length rows) * qn (length rows) == qsum (map (fun r => nth j r 0) rows)) by (field; lra). lra.
  - apply Qmult_inj_r with (z := qn (length rows)); [lra|]. rewrite E, K. field. lra.
Qed.
Print Assumptions C231_dense_mean_partial.
(* so a matrix that is used twice holds something else than the mean *)
Theorem C231_reuse_refuted : exists rows, dense_mean [0] rows = [(0 + 4 + 6) / 2] /\
  match dense_mean (dense_mean [0] rows) rows with [m] => m == 15 # 2 | _ => False end.
Proof. exists [[4]; [6]]. split; [reflexivity|vm_compute; reflexivity]. Qed.
Print Assumptions C231_reuse_refuted.
(* AddDummyFeature: the first coefficient becomes the intercept *)
Theorem C231_dummy : forall row b w, length w = length row ->
  length (add_dummy row) = S (length row) /\ qsum (zip Qmult (b :: w) (add_dummy row)) == b + qsum (zip Qmult w row) /\ tl (add_dummy row) = row.
Proof. intros row b w H. split; [reflexivity|]. split; [|reflexivity]. unfold add_dummy. cbn [zip]. rewrite qsum_cons. ring. Qed.
Print Assumptions C231_dummy.
