(* Properties C225 and C226. *)
From Coq Require Import String.
From Verif Require Import QCommon DistModel MetricModel MetricProofs.
From Coq Require Import Lra Lia.
Open Scope R_scope.

(* C225: the metric asked for is the metric used.  More than one feature (one: C31) *)
Theorem C225_names_partial : forall m a b, length a = length b -> length a <> 1%nat ->
  exists d, nn_distance (nn_fit m) = Some d /\
    (nMetric m = "manhattan" \/ nMetric m = "cityblock" -> d a b = l1 a b)%string /\
    (nMetric m = "euclidean" -> d a b = l2 a b)%string /\
    (nMetric m = "minkowski" -> (forall p, 1 <= p -> nP m = Pfin p -> d a b = lp p a b) /\ (nP m = Pinf -> d a b = rmaxl (map Rabs (zip Rminus a b))))%string /\
    (nMetric m = "l2" -> nP m = Pfin 2 -> d a b = l2 a b)%string.
Proof.
  intros m a b HL H1. eexists. split; [reflexivity|]. split; [|split; [|split]].
  - intros [E|E]; rewrite E; cbn; now apply lp1_l1.
  - intros E; rewrite E; cbn; now apply lp2_l2.
  - intros E; rewrite E; cbn. split.
    + intros p Hp EP. rewrite EP. now apply mink_lp.
    + intros EP. rewrite EP. now apply inf_max.
  - intros E EP; rewrite E, EP; cbn. now apply lp2_l2.
Qed.
Print Assumptions C225_names_partial.
(* brute force and the k-d tree use the same exponent; fitting again changes nothing *)
Theorem C225_tree : forall m, nn_distance (nn_fit m) = Some (minkowski (nn_tree_p (nn_fit m))) /\ nn_fit (nn_fit m) = nn_fit m.
Proof.
  intros m. split; [reflexivity|]. unfold nn_fit. cbn.
  destruct (String.eqb (nMetric m) "manhattan"), (String.eqb (nMetric m) "cityblock"), (String.eqb (nMetric m) "euclidean"); reflexivity.
Qed.
Print Assumptions C225_tree.
Example C225_example : exists d, nn_distance (nn_fit nn_new) = Some d /\ d [0; 0] [3; 4] = 5 /\
  exists d1, nn_distance (nn_fit (mknn "cityblock" (Pfin 2) None)) = Some d1 /\ d1 [0; 0] [3; 4] = 7.
Proof.
  eexists. split; [reflexivity|]. split; [apply l2_34|]. exists (minkowski (Pfin 1)). split; [reflexivity|]. rewrite lp1_l1 by (cbn; lia). apply l1_34.
Qed.
(* the documented names l1 and cosine are not known: with the default P, l1 is
   the Euclidean distance and finds another nearest neighbour *)
Theorem C225_l1_refuted : exists m d q a b, nMetric m = "l1"%string /\ nP m = nP nn_new /\ nn_distance (nn_fit m) = Some d /\
  d [0; 0] [3; 4] = 5 /\ l1 [0; 0] [3; 4] = 7 /\ nearer d q a b /\ nearer l1 q b a.
Proof.
  exists (mknn "l1" (Pfin 2) None), (minkowski (Pfin 2)), [0; 0], [3; 4], [6; 0]. split; [reflexivity|]. split; [reflexivity|]. split; [reflexivity|].
  unfold nearer. rewrite l2_34, l2_60, l1_34, l1_60. lra.
Qed.
Print Assumptions C225_l1_refuted.
(* cosine orders samples differently from what is used, whatever P *)
Theorem C225_cosine_refuted : forall p, 1 <= p -> exists d q a b, nn_distance (nn_fit (mknn "cosine" (Pfin p) None)) = Some d /\
  nearer cosine q a b /\ nearer d q b a.
Proof.
  intros p Hp. exists (minkowski (Pfin p)), [1; 0], [10; 0], [1; 1]. split; [reflexivity|]. unfold nearer. rewrite lp_axis, lp_up, cos_axis by auto.
  split; [apply cos_up|lra].
Qed.
Print Assumptions C225_cosine_refuted.
(* a misspelt name is not reported *)
Theorem C225_unknown_refuted : forall s m, (s <> "manhattan" -> s <> "cityblock" -> s <> "euclidean" -> nMetric m = s ->
  nn_distance (nn_fit m) = Some (minkowski (nP m)))%string.
Proof.
  intros s m H1 H2 H3 E. unfold nn_fit. rewrite E. cbn.
  apply String.eqb_neq in H1, H2, H3. now rewrite H1, H2, H3.
Qed.
Print Assumptions C225_unknown_refuted.
(* the field Distance of KNeighborsClassifier and KNeighborsRegressor is never used *)
Theorem C225_distance_refuted : (forall d m, knn_distance (knn_fit (mkknn (Some d) m)) = knn_distance (knn_fit (mkknn None m))) /\
  exists d q a b, knn_distance (knn_fit (mkknn (Some l1) nn_new)) = Some d /\ nearer l1 q b a /\ nearer d q a b.
Proof.
  split; [reflexivity|]. exists (minkowski (Pfin 2)), [0; 0], [3; 4], [6; 0]. split; [reflexivity|]. unfold nearer. rewrite l2_34, l2_60, l1_34, l1_60. lra.
Qed.
Print Assumptions C225_distance_refuted.
(* nor is the field P of DBSCAN *)
Theorem C225_dbscan_refuted : (forall s P P', nn_distance (dbscan_nn s P) = nn_distance (dbscan_nn s P')) /\
  exists d, nn_distance (dbscan_nn "minkowski" (Pfin 1)) = Some d /\ d [0; 0] [3; 4] = 5 /\ lp 1 [0; 0] [3; 4] = 7.
Proof.
  split; [reflexivity|]. eexists. split; [reflexivity|]. split; [apply l2_34|]. rewrite <- mink_lp by (cbn; lra || lia). rewrite lp1_l1 by (cbn; lia). apply l1_34.
Qed.
Print Assumptions C225_dbscan_refuted.

(* C226: the distance of two vectors depends on their elements only.  Contiguous
   vectors, among them the rows of a matrix, and vectors without RawVector *)
Theorem C226_elements_partial : forall p a b, wf_vec a -> wf_vec b -> vN a = vN b ->
  (vInc a = 1%nat /\ vInc b = 1%nat \/ vRaw a = false \/ vRaw b = false) ->
  vminkowski p a b = Some (minkowski p (elements a) (elements b)) /\ veuclidean a b = Some (euclidean (elements a) (elements b)).
Proof.
  intros p a b HA HB HN HC.
  assert (HC': vInc a = 1%nat /\ vInc b = 1%nat \/ (vRaw a && vRaw b)%bool = false) by (destruct HC as [H|[H|H]]; rewrite ?H, ?Bool.andb_false_r; auto).
  split; [now apply vmink_good|now apply veuclid_good].
Qed.
Print Assumptions C226_elements_partial.
Theorem C226_rows : forall p rows cols data i k, length data = (rows * cols)%nat -> (1 <= cols)%nat -> (i < rows)%nat -> (k < rows)%nat ->
  let a := row_view cols data i in let b := row_view cols data k in
  elements a = firstn cols (skipn (i * cols) data) /\ vminkowski p a b = Some (minkowski p (elements a) (elements b)).
Proof.
  intros p rows cols data i k HL HC HI HK a b.
  assert (WA: wf_vec a) by (eapply row_view_wf; eauto). assert (WB: wf_vec b) by (eapply row_view_wf; eauto).
  split; [now apply elements_contig|]. apply vmink_good; auto.
Qed.
Print Assumptions C226_rows.
(* EuclideanDistance of package cluster, all vectors *)
Theorem C226_cluster : forall a b, wf_vec a -> wf_vec b -> vN a = vN b -> ceuclidean a b = euclidean (elements a) (elements b).
Proof. intros a b (HA & _) _ HN. now apply ceuclid_good. Qed.
Print Assumptions C226_cluster.
Example C226_example : veuclidean (row_view 2 [0; 0; 3; 4] 0) (row_view 2 [0; 0; 3; 4] 1) = Some 5.
Proof.
  rewrite veuclid_good by (auto; unfold wf_vec; cbn; lia). change (Some (euclidean [0; 0] [3; 4]) = Some 5). f_equal. rewrite DistProofs.euclid_mink by (cbn; lia). apply l2_34.
Qed.
(* columns of a matrix: the loop runs over Data without Inc, so the other columns
   count too.  Two equal columns have a positive distance *)
Theorem C226_columns_refuted : exists A B, elements (col_view 2 2 A 0) = elements (col_view 2 2 B 0) /\
  veuclidean (col_view 2 2 A 0) (col_view 2 2 B 0) = Some 7 /\ vminkowski (Pfin 1) (col_view 2 2 A 0) (col_view 2 2 B 0) = Some 7.
Proof.
  exists [1; 0; 2; 0], [1; 7; 2; 0]. split; [reflexivity|]. split.
  - unfold veuclidean, pairs, raw_pairs, rsum. cbn. f_equal. replace (0 + (1 - 1) * (1 - 1) + (7 - 0) * (7 - 0) + (2 - 2) * (2 - 2)) with (7 * 7) by ring. apply sqrt_square. lra.
  - unfold vminkowski, vminkowski_p, pairs, raw_pairs, rsum. cbn. destruct (Req_EM_T 1 1); [|congruence]. rewrite !DistProofs.rpow_1 by apply Rabs_pos.
    replace (1 - 1) with 0 by ring. replace (2 - 2) with 0 by ring. replace (7 - 0) with 7 by ring. rewrite Rabs_R0. rewrite Rabs_pos_eq by lra. f_equal. ring.
Qed.
Print Assumptions C226_columns_refuted.
(* and every comparison of a column of a wider matrix with a contiguous vector panics *)
Theorem C226_panic_refuted : forall p rows cols data j v, (2 <= rows)%nat -> (2 <= cols)%nat -> length data = (rows * cols)%nat -> (j < cols)%nat ->
  wf_vec v -> vN v = rows -> vInc v = 1%nat -> vRaw v = true ->
  vminkowski p (col_view rows cols data j) v = None /\ veuclidean (col_view rows cols data j) v = None /\
  (exists d, vminkowski p v (col_view rows cols data j) = Some d).
Proof.
  intros p rows cols data j v HR HC HL HJ (H1 & H2 & HV) HN HI HW.
  destruct (col_view_wf rows cols data j HL ltac:(lia) HJ) as (_ & _ & HD). cbn [vN vInc] in HD. rewrite HI, HN in HV.
  assert (Q: Nat.leb (length (vData (col_view rows cols data j))) (length (vData v)) = false) by (apply Nat.leb_gt; cbn [col_view vN vInc] in HD; nia).
  assert (Q2: Nat.leb (length (vData v)) (length (vData (col_view rows cols data j))) = true) by (apply Nat.leb_le; cbn [col_view vN vInc] in HD; nia).
  assert (R1: Nat.eqb rows 1 = false) by (apply Nat.eqb_neq; lia).
  split; [|split].
  - unfold vminkowski, vminkowski_p, pairs, raw_pairs. rewrite Q, HW. cbn [col_view vN vRaw andb]. now rewrite R1.
  - unfold veuclidean, pairs, raw_pairs. rewrite Q, HW. cbn [col_view vN vRaw andb]. now rewrite R1.
  - unfold vminkowski, vminkowski_p, pairs, raw_pairs. rewrite Q2, HW, HN, R1. cbn [col_view vRaw andb]. eauto.
Qed.
Print Assumptions C226_panic_refuted.
