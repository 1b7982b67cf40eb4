(* Properties C182-C188: destinations of Predict, references kept by Fit, splits of CrossValidate, setParam, settings changed by Fit and Score. *)
From Coq Require Import QArith String Ascii.
From Verif Require Import Common QCommon SelectModel PlumbModel PlumbProofs.
From Verif Require MtModel KernModel.
Open Scope nat_scope.

(* C182: for every destination of the right size Predict fills it, returns a matrix that shows the same values, and changes nothing else *)
Theorem C182_given_partial : forall A (z : A) m o n k f nout, 0 < n -> 0 < k -> dst_ok m o n k -> o <> ONil ->
  exists m' p, predict_std z m o nout n k f = Some (m', p) /\ (forall i j, i < n -> j < k -> label_at m' p i j = Some (f i j)) /\
  (forall i j, i < n -> j < k -> oat m' o i j = Some (f i j)) /\ frame m o m'.
Proof. intros. now apply std_nonempty. Qed.
Print Assumptions C182_given_partial.
(* without one, a matrix of the right size is made *)
Theorem C182_nil_partial : forall A (z : A) m n k f, 0 < n -> 0 < k ->
  exists m' p, predict_std z m ONil (Some k) n k f = Some (m', p) /\ (forall i j, i < n -> j < k -> label_at m' p i j = Some (f i j)) /\ frame m ONil m'.
Proof. intros. now apply std_nil. Qed.
Print Assumptions C182_nil_partial.
(* and an empty Dense is given its memory *)
Theorem C182_empty_partial : forall A (z : A) m o n k f, 0 < n -> 0 < k -> is_empty_dense m o ->
  exists m' p, predict_std z m o (Some k) n k f = Some (m', p) /\ o = ODense p /\ (forall i j, i < n -> j < k -> label_at m' p i j = Some (f i j)) /\ frame m o m'.
Proof. intros. now apply std_empty. Qed.
Print Assumptions C182_empty_partial.
(* FromDense between matrices of the same size over different memory copies the values and touches nothing outside the destination *)
Theorem C182_copy_partial : forall A (m : mem A) d s f, wf_h m d -> 0 < h_rows s -> 0 < h_cols s -> h_rows d = h_rows s -> h_cols d = h_cols s -> 0 < h_len s -> h_arr d <> h_arr s ->
  (forall i j, i < h_rows s -> j < h_cols s -> dget m s (i * h_stride s + j) = Some (f i j)) ->
  exists m', copy_raw m d s = Some m' /\ (forall i j, i < h_rows s -> j < h_cols s -> hat m' d i j = Some (f i j)) /\
  (forall a q, (a = h_arr d -> ~ in_region d q) -> cell m' a q = cell m a q) /\ hdrs m' = hdrs m /\ tabs m' = tabs m.
Proof. intros. now apply copy_raw_cells. Qed.
Print Assumptions C182_copy_partial.
(* a destination with too few columns, a view of a wider matrix: FromDense writes beside it, in every such case *)
Theorem C182_refuted : forall A (m : mem A) d s f ad, nth_error (arrs m) (h_arr d) = Some ad -> h_off d + h_len d <= length ad -> h_arr d <> h_arr s ->
  0 < h_len d -> 0 < h_len s -> 0 < h_rows s -> h_cols d < h_cols s -> h_cols s <= h_stride d ->
  (forall i j, i < h_rows s -> j < h_cols s -> dget m s (i * h_stride s + j) = Some (f i j)) ->
  (forall i j, i < h_rows s -> j < h_cols s -> i * h_stride d + j < h_len d) ->
  exists m', copy_raw m d s = Some m' /\ cell m' (h_arr d) (h_off d + h_cols d) = Some (f 0 (h_cols d)) /\ ~ in_region d (h_off d + h_cols d).
Proof. intros A m d s f ad. apply copy_raw_narrow. Qed.
Print Assumptions C182_refuted.
(* a 2x1 view into the middle column of a 2x3 array is filled with 5 and 6; the other cells stay *)
Example C182_example : match predict_std 0 (mkmem [[1; 2; 3; 4; 7; 8]] [mkh 0 1 2 1 3 4] []) (ODense 0) None 2 1 (fun i _ => 5 + i) with
  Some (m, p) => arrs m = [[1; 5; 3; 4; 6; 8]] /\ p = 0 | None => False end.
Proof. now vm_compute. Qed.
Example C182_example_tab : match predict_std 0 (mkmem [] [] [[[1]; [2]]]) (OTab 0 2 1) None 2 1 (fun i _ => 5 + i) with
  Some (m, p) => tabs m = [[[5]; [6]]] | None => False end.
Proof. now vm_compute. Qed.
(* logistic.go: two outputs for a destination that is one column of a 2x3 matrix *)
Example C182_refuted_example : match predict_logistic 0 (mkmem [[1; 2; 3; 4; 7; 8]] [mkh 0 0 2 1 3 6] []) (ODense 0) 2 2 (fun i j => 50 + 10 * i + j) with
  Some (m, _) => nth_error (arrs m) 0 = Some [50; 51; 3; 60; 61; 8] | None => False end.
Proof. now vm_compute. Qed.

(* C183: the estimators that do not follow the common pattern *)
Theorem C183_logistic_partial : forall A (z : A) m o n k f, 0 < n -> 0 < k -> dst_ok m o n k ->
  exists m' p, predict_logistic z m o n k f = Some (m', p) /\ (forall i j, i < n -> j < k -> label_at m' p i j = Some (f i j)) /\
  (o <> ONil -> forall i j, i < n -> j < k -> oat m' o i j = Some (f i j)).
Proof. intros. now apply logistic_ok. Qed.
Print Assumptions C183_logistic_partial.
Theorem C183_logistic_refuted : forall A (z : A) m o n k f, is_empty_dense m o -> predict_logistic z m o n k f = None.
Proof. intros. now apply logistic_empty. Qed.
Print Assumptions C183_logistic_refuted.
Theorem C183_nb_partial : forall A (z : A) m o n f, 0 < n -> dst_ok m o n 1 -> exists m' p, predict_nb z m o n f = Some (m', p) /\
  (forall i, i < n -> label_at m' p i 0 = Some (f i)) /\ (o <> ONil -> forall i, i < n -> oat m' o i 0 = Some (f i)) /\ frame m o m'.
Proof.
  intros A z m o n f Hn D. destruct o as [|p|h|t r c].
  - destruct (nb_nil z m n f Hn) as (m' & p & E & L & F). exists m', p. repeat split; auto; try apply F. congruence.
  - destruct (nb_nonempty z m (ODense p) n f Hn D) as (m' & q & E & L & O & F); [discriminate|]. exists m', q. auto.
  - destruct (nb_nonempty z m (ORaw h) n f Hn D) as (m' & q & E & L & O & F); [discriminate|]. exists m', q. auto.
  - destruct (nb_nonempty z m (OTab t r c) n f Hn D) as (m' & q & E & L & O & F); [discriminate|]. exists m', q. auto.
Qed.
Print Assumptions C183_nb_partial.
Theorem C183_nb_refuted : forall A (z : A) m o n f, 0 < n -> is_empty_dense m o -> predict_nb z m o n f = None.
Proof. intros. now apply nb_empty. Qed.
Print Assumptions C183_nb_refuted.
(* a NearestCentroid made by NewNearestCentroid *)
Theorem C183_centroid_refuted : forall A (z : A) m o n k f, o = ONil \/ is_empty_dense m o -> predict_std z m o (nc_outputs None) n k f = None.
Proof. intros. now apply nc_nil. Qed.
Print Assumptions C183_centroid_refuted.
Example C183_example : match predict_logistic 0 (mkmem [] [] []) ONil 2 1 (fun i _ => 5 + i) with Some (m, p) => label_at m p 1 0 = Some 6 | None => False end
  /\ match predict_nb 0 (mkmem [[9; 9]] [mkh 0 0 2 1 1 2] []) (ODense 0) 2 (fun i => 5 + i) with Some (m, p) => arrs m = [[5; 6]] | None => False end
  /\ is_empty_dense (A := nat) (mkmem [] [h_empty] []) (ODense 0).
Proof. repeat split; try now vm_compute. exists 0, h_empty. now repeat split. Qed.

(* C184: the labels of a KNeighborsRegressor are those of Y at the time of Fit, whatever is written afterwards *)
Theorem C184_regressor_partial : forall A (z : A) m0 y m p n k m2, dst_ok m0 y n k -> y <> ONil -> knr_fit z m0 y = Some (m, p) -> later m0 m m2 ->
  forall i o, i < n -> o < k -> label_at m2 p i o = oat m0 y i o.
Proof. intros A z m0 y m p n k m2 D N E L i o Hi Ho. rewrite (knr_keeps z m0 y m p m2 E L). eapply knr_labels; eauto. Qed.
Print Assumptions C184_regressor_partial.
(* those of a KNeighborsClassifier change with Y, for every cell and every new value *)
Theorem C184_classifier_refuted : forall A (m0 : mem A) y n k m p i o v, (exists q, y = ODense q) \/ (exists h, y = ORaw h) -> dst_ok m0 y n k -> i < n -> o < k ->
  knc_fit m0 y = Some (m, p) -> exists h m2, hset m h i o v = Some m2 /\ later m0 m m2 /\ label_at m2 p i o = Some v.
Proof. intros. eapply knc_follows; eauto. Qed.
Print Assumptions C184_classifier_refuted.
(* the estimators returned by CrossValidate: one that copies its labels has those of its own training rows ... *)
Theorem C184_cv_partial : forall XRow YRow (X : list XRow) (Y : list YRow) before sp n xj yj, length xj = n -> length yj = n -> (forall s, In s (before ++ [sp]) -> split_in X Y s n) ->
  gather (fst sp) Y = Some (copied X Y before sp (xj, yj)).
Proof. intros. eapply copied_own; eauto. Qed.
Print Assumptions C184_cv_partial.
(* ... one that keeps the matrix it was given has, afterwards, rows of the last split of its job *)
Theorem C184_cv_refuted : forall XRow YRow (X : list XRow) (Y : list YRow) before sp after last n xj yj, length xj = n -> length yj = n ->
  (forall s, In s ((before ++ [sp]) ++ after ++ [last]) -> split_in X Y s n) ->
  gather (firstn (length (fst sp)) (fst last ++ snd last)) Y = Some (kept sp (job_after X Y ((before ++ [sp]) ++ after ++ [last]) (xj, yj))).
Proof. intros. eapply kept_last; eauto. Qed.
Print Assumptions C184_cv_refuted.
Example C184_example : match knc_fit (mkmem [[1; 2]] [mkh 0 0 2 1 1 2] []) (ODense 0) with
    Some (m, p) => label_at m p 1 0 = Some 2 /\ match dset m (mkh 0 0 2 1 1 2) 1 7 with Some m2 => label_at m2 p 1 0 = Some 7 | None => False end | None => False end
  /\ match knr_fit 0 (mkmem [[1; 2]] [mkh 0 0 2 1 1 2] []) (ODense 0) with
    Some (m, p) => match dset m (mkh 0 0 2 1 1 2) 1 7 with Some m2 => label_at m2 p 1 0 = Some 2 | None => False end | None => False end.
Proof. now vm_compute. Qed.
Example C184_cv_example : let X := [10; 11; 12] in let Y := [20; 21; 22] in let s1 := ([1; 2], [0]) in let s2 := ([0; 2], [1]) in
  copied X Y [] s1 ([0; 0; 0], [0; 0; 0]) = [21; 22] /\ kept s1 (job_after X Y [s1; s2] ([0; 0; 0], [0; 0; 0])) = [20; 22].
Proof. now vm_compute. Qed.

(* C185: CrossValidate with a KFold returns exactly when 2 <= NSplits <= NSamples *)
Theorem C185_partial : forall cv n, cv_returns cv n = true <-> exists k, cv = Some k /\ (2 <= k <= Z.of_nat n)%Z.
Proof. exact cv_iff. Qed.
Print Assumptions C185_partial.
(* neither the nil Splitter nor the zero KFold, both of which the code gives a default of 3 splits, work *)
Theorem C185_refuted : forall n k, (k <= 0)%Z -> cv_returns None n = false /\ cv_returns (Some k) n = false.
Proof. intros n k Hk. split; [reflexivity|]. unfold cv_returns. destruct (Z.leb_spec k 0); [reflexivity|lia]. Qed.
Print Assumptions C185_refuted.
(* through GridSearchCV the nil Splitter works *)
Theorem C185_search_partial : forall n, gscv_returns None n = true <-> 3 <= n.
Proof.
  intros n. unfold gscv_returns. rewrite cv_iff. split; [intros (k & E & H); injection E as <-; lia|]. intros H. exists 3%Z. split; [reflexivity|lia].
Qed.
Print Assumptions C185_search_partial.
(* estimators of the package that CrossValidate cannot clone or ask for their number of outputs *)
Theorem C185_estimators_refuted : cv_calls_ok knc_meths = false /\ cv_calls_ok nc_meths = false /\ cv_calls_ok knr_meths = true.
Proof. repeat split. Qed.
Print Assumptions C185_estimators_refuted.
Example C185_example : cv_returns (Some 3%Z) 10 = true /\ cv_returns (Some 1%Z) 10 = false /\ cv_returns (Some 11%Z) 10 = false /\ cv_returns (Some 10%Z) 10 = true.
Proof. now vm_compute. Qed.

(* C186: setParam changes the field the name designates, to the converted value, and nothing else; otherwise it panics *)
Theorem C186_partial : forall l k v l', set_param l k v = Some l' <->
  exists i f w, designates l k i /\ nth_error l i = Some f /\ f_exported f = true /\ convert (f_ty f) v = Some w /\
  length l' = length l /\ nth_error l' i = Some (with_val f w) /\ forall j, j <> i -> nth_error l' j = nth_error l j.
Proof. exact set_param_spec. Qed.
Print Assumptions C186_partial.
(* the stored value has the type of the field and denotes the number given *)
Theorem C186_value_partial : forall l k v l', (forall f, In f l -> f_val f <> VNil -> typed (f_ty f) (f_val f)) -> set_param l k v = Some l' ->
  (forall f, In f l' -> f_val f <> VNil -> typed (f_ty f) (f_val f)) /\
  exists i f, designates l k i /\ nth_error l' i = Some f /\ typed (f_ty f) (f_val f) /\ number (f_val f) = number v /\ (f_ty f <> TFloat64 -> f_val f = v).
Proof. exact set_param_value. Qed.
Print Assumptions C186_value_partial.
(* a candidate whose names designate different fields: the order of the map does not matter, every parameter has its value *)
Theorem C186_order_partial : forall ps qs l, Permutation ps qs -> distinct_targets l ps -> set_params l ps = set_params l qs.
Proof. intros ps qs l P D. now apply set_params_perm. Qed.
Print Assumptions C186_order_partial.
Theorem C186_all_partial : forall ps l l', distinct_targets l ps -> set_params l ps = Some l' -> length l' = length l /\
  (forall k v, In (k, v) ps -> exists i f w, designates l k i /\ nth_error l i = Some f /\ convert (f_ty f) v = Some w /\ nth_error l' i = Some (with_val f w)) /\
  (forall j, (forall k, In k (map fst ps) -> ~ designates l k j) -> nth_error l' j = nth_error l j).
Proof. intros. now apply set_params_spec. Qed.
Print Assumptions C186_all_partial.
(* a grid with two spellings of one name: the fitted estimator depends on the iteration order of the map *)
Theorem C186_order_refuted : exists l ps qs l1 l2, NoDup (map fst ps) /\ Permutation ps qs /\ set_params l ps = Some l1 /\ set_params l qs = Some l2 /\ l1 <> l2.
Proof.
  exists [mkf "Alpha" 0 true TFloat64 (VF64 0)], [("Alpha"%string, VF64 1); ("alpha"%string, VF64 2)], [("alpha"%string, VF64 2); ("Alpha"%string, VF64 1)].
  eexists. eexists. split; [|split; [|split; [now vm_compute|split; [now vm_compute|discriminate]]]].
  - cbn. constructor; [|repeat constructor; auto]. intros [E|[]]. discriminate.
  - apply perm_swap.
Qed.
Print Assumptions C186_order_refuted.
(* a float64 for an int field always panics, also when it is a whole number *)
Theorem C186_int_refuted : forall l k q f i, find_field l k = Some i -> nth_error l i = Some f -> f_ty f = TInt -> set_param l k (VF64 q) = None.
Proof. intros l k q f i E En Ht. unfold set_param. rewrite E, En, Ht. now destruct (f_exported f). Qed.
Print Assumptions C186_int_refuted.
Example C186_example : let l := [mkf "Alpha" 0 true TFloat64 (VF64 0); mkf "MaxIter" 0 true TInt (VInt 5); mkf "alpha" 1 true TString VNil] in
  set_param l "ALPHA" (VInt 3) = Some [mkf "Alpha" 0 true TFloat64 (VF64 3); mkf "MaxIter" 0 true TInt (VInt 5); mkf "alpha" 1 true TString VNil]
  /\ set_param l "max_iter" (VInt 3) = None /\ set_param l "maxiter" (VF64 3) = None.
Proof. now vm_compute. Qed.

(* C187: the first Fit uses 1/NFeatures for a Gamma <= 0 and the given one otherwise; a batch has at least one and at most all rows *)
Theorem C187_gamma_partial : forall g n, 0 < n -> (0 < g -> svm_gamma g n = g)%Q /\ (g <= 0 -> svm_gamma g n = 1 / inject_Z (Z.of_nat n))%Q /\ (0 < svm_gamma g n)%Q.
Proof. exact svm_first. Qed.
Print Assumptions C187_gamma_partial.
(* a second Fit on data of another width does not use the default of that width, whatever the widths *)
Theorem C187_gamma_refuted : forall g n1 n2, 0 < n1 -> 0 < n2 -> n1 <> n2 -> (g <= 0)%Q -> ~ (svm_gamma (svm_gamma g n1) n2 == svm_gamma g n2)%Q.
Proof. exact svm_refit_wrong. Qed.
Print Assumptions C187_gamma_refuted.
Theorem C187_batch_partial : forall lb bs n, 0 < n -> (0 < mlp_batch lb bs n <= Z.of_nat n)%Z.
Proof. exact mlp_batch_range. Qed.
Print Assumptions C187_batch_partial.
(* a Fit on few rows lowers BatchSize for all later ones *)
Theorem C187_batch_refuted : forall bs n1 n2, 0 < n1 -> n1 < n2 -> (Z.of_nat n1 < bs <= Z.of_nat n2)%Z ->
  mlp_batch false bs n2 = bs /\ mlp_batch false (mlp_batch false bs n1) n2 = Z.of_nat n1.
Proof.
  intros bs n1 n2 H1 H2 Hb. rewrite mlp_batch_sticks by lia. unfold mlp_batch. destruct (Z.leb_spec bs 0); [lia|]. split.
  - destruct (Z.ltb_spec (Z.of_nat n2) bs); lia.
  - destruct (Z.ltb_spec (Z.of_nat n1) bs); lia.
Qed.
Print Assumptions C187_batch_refuted.
Example C187_example : svm_gamma 0 4 = (1 / 4)%Q /\ (svm_gamma (svm_gamma 0 4) 8 == 1 # 4)%Q /\ mlp_batch false 0 1000 = 200%Z /\ mlp_batch false (mlp_batch false 0 10) 1000 = 10%Z.
Proof. now vm_compute. Qed.

(* C188: Score on test data replaces the training data of the model by the test data, and does not return *)
Theorem C188_refuted : forall pw p k n ry X Y n' ry' X' Y' r2 m, KernModel.gpr_fit (KernModel.new_regressor k) n ry X Y = Some m ->
  let '(m', s) := gpr_score pw p m n' ry' X' Y' r2 in KernModel.g_xtrain m' = Some (n', X') /\ KernModel.g_ytrain m' = Some (ry', Y') /\ s = None.
Proof.
  intros pw p k n ry X Y n' ry' X' Y' r2 m E. unfold KernModel.gpr_fit in E. destruct (_ && _)%bool; [discriminate|]. injection E as <-.
  unfold gpr_score, KernModel.gpr_fit. cbn. destruct (KernModel.eval pw p k X' X'); [|auto]. destruct n' as [|[|n']]; cbn; auto.
Qed.
Print Assumptions C188_refuted.
Example C188_example : KernModel.gpr_fit (KernModel.new_regressor (KernModel.KConst Rdefinitions.R1 (Rdefinitions.R1, Rdefinitions.R1))) 3 1 (fun _ _ => Rdefinitions.R0) (fun _ _ => Rdefinitions.R1) <> None.
Proof. discriminate. Qed.
