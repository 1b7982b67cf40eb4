(* Properties of neural_network: Unmarshal, scores, SumRows, kinds of matrices, views, warm start, refitting. *)
From Coq Require Import String Ascii.
From Verif Require Import Common QCommon MlpModel MlpIoModel MlpIoProofs.
From Verif Require PlumbModel.
Import ListNotations.
Open Scope nat_scope.
Open Scope list_scope.

(* C189: after Unmarshal of weights and intercepts of matching shapes, every weight and intercept of the estimator is the number in
   the JSON arrays, whatever the estimator held, the initial draws and the order of map iteration *)
Theorem C189_load : forall A order rnd (n : net A) mp fs us Ws Is,
  let ps := match jget "params" mp with Some (JObj pm) => pm | Some _ => [] | None => mp end in
  set_params (n_fields n) (order ps) = Some fs -> (forall k, length (rnd k) = k) ->
  jget "coefs_" mp = Some (JArr (map jmat Ws)) -> jget "intercepts_" mp = Some (JArr (map jvec Is)) -> shaped us Ws Is -> Ws <> [] ->
  exists n', unmarshal order rnd n mp = UOk n' /\ n_units n' = us /\ n_fields n' = fs /\
    forall i W bi, nth_error Ws i = Some W -> nth_error Is i = Some bi ->
      (forall r row c w, nth_error W r = Some row -> nth_error row c = Some w -> coef_at n' i r c = Some w) /\
      (forall c w, nth_error bi c = Some w -> intercept_at n' i c = Some w).
Proof.
  intros A order rnd n mp fs us Ws Is ps H1 H2 H3 H4 H5 H6. eexists. split; [eapply unmarshal_loads; eauto|]. split; [reflexivity|]. split; [reflexivity|].
  intros i W bi. apply loaded_cells; auto.
Qed.
Print Assumptions C189_load.
(* a weight matrix without rows, with a row shorter than the first, or with something that is not a number panics *)
Theorem C189_empty_matrix : forall A order rnd (n : net A) mp c64 ints, jget "coefs_" mp = Some (JArr c64) -> jget "intercepts_" mp = Some (JArr ints) -> In (JArr []) c64 ->
  unmarshal order rnd n mp = UPanic.
Proof.
  intros A order rnd n mp c64 ints Hc Hi Hin. unfold unmarshal. destruct (set_params _ _); [|reflexivity]. rewrite Hc, Hi.
  destruct c64 as [|c c64]; [destruct Hin|]. now rewrite (omap_none _ _ _ Hin eq_refl).
Qed.
Print Assumptions C189_empty_matrix.
Theorem C189_short_row : forall A order rnd (n : net A) mp c64 ints r0 r1 rows, jget "coefs_" mp = Some (JArr c64) -> jget "intercepts_" mp = Some (JArr ints) ->
  In (JArr (jvec r0 :: rows)) c64 -> In (jvec r1) rows -> length r1 < length r0 -> unmarshal order rnd n mp = UPanic.
Proof.
  intros A order rnd n mp c64 ints r0 r1 rows Hc Hi Hin Hr Hl. unfold unmarshal. destruct (set_params _ _); [|reflexivity]. rewrite Hc, Hi.
  destruct c64 as [|c c64]; [destruct Hin|]. rewrite (omap_none _ _ _ Hin); [reflexivity|].
  unfold blas_from. unfold jvec at 1. rewrite map_length. rewrite (omap_none _ (jvec r0 :: rows) (jvec r1)); [reflexivity|cbn; auto|].
  rewrite floats_jvec. destruct (Nat.ltb_spec (length r1) (length r0)); [reflexivity|lia].
Qed.
Print Assumptions C189_short_row.
(* weights without intercepts, or not in arrays, or none at all, are reported as an error that leaves the weights as they were;
   without weights only the settings are read *)
Theorem C189_error : forall A order rnd (n : net A) mp fs jc,
  let ps := match jget "params" mp with Some (JObj pm) => pm | Some _ => [] | None => mp end in
  set_params (n_fields n) (order ps) = Some fs ->
  let kept := mknet fs (n_units n) (n_hidden n) (n_soft n) (n_mem n) in
  (jget "coefs_" mp = None -> unmarshal order rnd n mp = UOk kept) /\
  (jget "coefs_" mp = Some jc -> (forall l, jget "intercepts_" mp <> Some (JArr l)) \/ (forall x l, jc <> JArr (x :: l)) -> unmarshal order rnd n mp = UErr kept).
Proof.
  intros A order rnd n mp fs jc ps H kept. unfold unmarshal. fold ps. rewrite H. split; intros ->; [reflexivity|]. intros [H1|H1].
  - destruct (jget "intercepts_" mp) as [[| | | |l|]|]; try reflexivity. destruct (H1 l eq_refl).
  - destruct (jget "intercepts_" mp) as [[| | | |l|]|]; try reflexivity. destruct jc as [| | | |[|x cs]|]; try reflexivity. destruct (H1 x cs eq_refl).
Qed.
Print Assumptions C189_error.
Example C189_ex : exists n', unmarshal (fun l => l) (fun k => repeat 0%Z k) (mknet [] [] [] false [])
    [("coefs_"%string, JArr [jmat [[1; 2; 3]; [4; 5; 6]]%Z; jmat [[7]; [8]; [9]]%Z]); ("intercepts_"%string, JArr [jvec [10; 20; 30]%Z; jvec [40]%Z])] = UOk n' /\
  n_mem n' = [10; 20; 30; 1; 2; 3; 4; 5; 6; 40; 7; 8; 9]%Z /\ coef_at n' 0 1 2 = Some 6%Z /\ coef_at n' 1 2 0 = Some 9%Z /\ intercept_at n' 1 0 = Some 40%Z /\ n_hidden n' = [0].
Proof. eexists. split; [vm_compute; reflexivity|]. vm_compute. auto. Qed.

(* C190: a network loaded with a hidden layer cannot predict: Unmarshal sets HiddenLayerSizes to zeros, Predict allocates the hidden
   activations with that width and the first Gemm panics, whatever the rows and the destination *)
Theorem C190_hidden_refuted : forall A order rnd (n n' : net A) mp fs us Ws Is,
  let ps := match jget "params" mp with Some (JObj pm) => pm | Some _ => [] | None => mp end in
  set_params (n_fields n) (order ps) = Some fs -> (forall k, length (rnd k) = k) ->
  jget "coefs_" mp = Some (JArr (map jmat Ws)) -> jget "intercepts_" mp = Some (JArr (map jvec Is)) -> shaped us Ws Is -> 2 <= length Ws ->
  unmarshal order rnd n mp = UOk n' -> forall X Y, predict_ok (n_units n') (n_hidden n') X Y = false.
Proof.
  intros A order rnd n n' mp fs us Ws Is ps H1 H2 H3 H4 H5 H6 H7 X Y.
  rewrite (unmarshal_loads order rnd n mp fs us Ws Is) in H7; auto; [|destruct Ws; [cbn in H6; lia|discriminate]]. injection H7 as <-.
  cbn [n_units n_hidden]. destruct H5 as [u|a b us' W Ws' bi Is' Ha HW HF Hb Hsh]; [cbn in H6; lia|]. cbn [length] in *.
  unfold predict_ok, predict_acts. destruct (length Ws') as [|k] eqn:E; [lia|]. cbn [Nat.sub repeat map app unit_pairs]. apply forward_zero.
Qed.
Print Assumptions C190_hidden_refuted.
(* with no hidden layer the shapes are right *)
Theorem C190_shapes_partial : forall p q rows sx lx sy ly, 1 <= p <= sx -> 1 <= q <= sy -> sx * (rows - 1) + p <= lx -> sy * (rows - 1) + q <= ly ->
  predict_ok [p; q] [] (mkshape rows p sx lx) (mkshape rows q sy ly) = true.
Proof.
  intros p q rows sx lx sy ly Hp Hq Hx Hy. unfold predict_ok, predict_acts. cbn [map app unit_pairs forward_ok]. unfold gemm_ok, add_ok, full, mem_ok. cbn [sh_rows sh_cols sh_stride sh_len].
  replace (q * (p - 1) + q <=? p * q) with true by (symmetry; apply Nat.leb_le; nia).
  apply Nat.leb_le in Hx, Hy. rewrite Hx, Hy. cbn [andb]. rewrite !orb_true_r, !andb_true_r. rewrite Nat.leb_refl, orb_true_r, andb_true_r.
  repeat (apply andb_true_intro; split); apply Nat.leb_le; lia.
Qed.
Print Assumptions C190_shapes_partial.
Example C190_ex : predict_ok [2; 3; 1] [3] (full 4 2) (full 4 1) = true /\ predict_ok [2; 3; 1] [0] (full 4 2) (full 4 1) = false.
Proof. vm_compute. auto. Qed.

(* C191: a setting given under the Go name of a float, string or bool field is stored, and no other setting changes *)
Theorem C191_go_names_partial : forall A (vals : string -> json A) nm tag t v, In (nm, Some tag, t) mlp_decl ->
  (t = TyFloat /\ (exists a, v = JNum a) \/ t = TyStr /\ (exists s, v = JStr s) \/ t = TyBool /\ exists b, v = JBool b) ->
  set_params (mlp_fields vals) [(nm, v)] = Some (mlp_fields (fun x => if String.eqb x nm then v else vals x)).
Proof.
  intros A vals nm tag t v HI Hv. assert (Ha: assignable t v = true) by (destruct Hv as [(-> & a & ->)|[(-> & a & ->)|(-> & a & ->)]]; reflexivity). cbn [set_params]. now rewrite (set_one_ok vals nm tag t v HI Ha).
Qed.
Print Assumptions C191_go_names_partial.
(* settings under names with an underscore are dropped: scikit-learn's names and the json tags of the fields, such as max_iter *)
Theorem C191_underscore_refuted : forall A (vals : string -> json A) kvs, (forall kv, In kv kvs -> has_us (fst kv) = true) ->
  set_params (mlp_fields vals) kvs = Some (mlp_fields vals).
Proof. intros A vals kvs H. apply set_us; auto. intros f. apply mlp_names. Qed.
Print Assumptions C191_underscore_refuted.
(* and a number given for an integer setting under its Go name panics *)
Theorem C191_int_refuted : forall A (vals : string -> json A) nm tag v kvs, In (nm, tag, TyInt) mlp_decl -> In (nm, v) kvs -> set_params (mlp_fields vals) kvs = None.
Proof. intros A vals nm tag v kvs HI HK. eapply set_params_panic; eauto. intros l' HS. eapply int_key_panics; eauto. Qed.
Print Assumptions C191_int_refuted.
(* so what json.Marshal writes for an estimator is not read back: Unmarshal panics in every order of iteration *)
Theorem C191_marshal_refuted : forall A order rnd (n : net A) vals, n_fields n = mlp_fields vals -> (forall l kv, In kv l -> In kv (order l)) ->
  unmarshal order rnd n (mlp_marshal (n_fields n)) = UPanic.
Proof.
  intros A order rnd n vals E HO. unfold unmarshal. rewrite E. replace (jget "params" (mlp_marshal (mlp_fields vals))) with (@None (json A)) by (vm_compute; reflexivity).
  rewrite (C191_int_refuted A vals "NLayers" (Some "NLayers"%string) (vals "NLayers"%string)); [reflexivity| |].
  - unfold mlp_decl. cbn [In]. tauto.
  - apply HO. vm_compute. tauto.
Qed.
Print Assumptions C191_marshal_refuted.
Example C191_ex : In ("MaxIter"%string, Some "max_iter"%string, TyInt) mlp_decl /\ has_us "max_iter" = true /\ has_us "hidden_layer_sizes" = true /\
  set_params (mlp_fields (fun _ => JNull)) [("alpha"%string, JNum 5); ("solver"%string, JStr "sgd")] =
    Some (mlp_fields (fun x => if String.eqb x "Alpha" then JNum 5 else if String.eqb x "Solver" then JStr "sgd" else JNull)).
Proof. split; [unfold mlp_decl; cbn [In]; tauto|]. vm_compute. auto. Qed.

(* C192: accuracyScore64 is the proportion of rows equal in every column, for any strides *)
Theorem C192_accuracy : forall Y H, cells_in Y (g_rows Y) (g_cols Y) -> cells_in H (g_rows Y) (g_cols Y) ->
  accuracy64 Y H = Some (inject_Z (Z.of_nat (length (filter (fun i => forallb (fun c => Qeq_bool (cell H i c) (cell Y i c)) (seq 0 (g_cols Y))) (seq 0 (g_rows Y))))) /
                         inject_Z (Z.of_nat (g_rows Y)))%Q.
Proof. exact accuracy_spec. Qed.
Print Assumptions C192_accuracy.
(* r2Score64 is the mean over the columns of 1 - (residual sum of squares) / (total sum of squares) when both strides agree and no column is constant *)
Theorem C192_r2_partial : forall Yt Yp, cells_in Yt (g_rows Yt) (g_cols Yt) -> cells_in Yp (g_rows Yt) (g_cols Yt) -> g_stride Yp = g_stride Yt ->
  (forall c, c < g_cols Yt -> ~ (ss_tot Yt c == 0)%Q) ->
  r2_64 Yt Yp = Some (qsum (map (fun c => (1 - ss_res Yt Yp c / ss_tot Yt c)%Q) (seq 0 (g_cols Yt))) / inject_Z (Z.of_nat (g_cols Yt)))%Q.
Proof. exact r2_spec. Qed.
Print Assumptions C192_r2_partial.
(* MLPRegressor.Score on targets that are a view of some columns of a wider matrix panics *)
Theorem C192_view_refuted : forall Yt Yp, 2 <= g_rows Yt -> 1 <= g_cols Yt -> g_cols Yt < g_stride Yt -> length (g_data Yp) = g_rows Yt * g_cols Yt -> r2_64 Yt Yp = None.
Proof. exact r2_strided. Qed.
Print Assumptions C192_view_refuted.
(* as it does on a constant target *)
Theorem C192_constant_refuted : forall Yt Yp c v, c < g_cols Yt -> (forall r, r < g_rows Yt -> nth_error (g_data Yt) (r * g_stride Yt + c) = Some v) -> 1 <= g_rows Yt -> r2_64 Yt Yp = None.
Proof. exact r2_constant. Qed.
Print Assumptions C192_constant_refuted.
Example C192_ex : accuracy64 (mkgen 3 2 3 [1; 2; 90; 3; 4; 91; 5; 6]%Q) (mkgen 3 2 2 [1; 2; 3; 5; 5; 6]%Q) = Some (2 # 3)%Q /\
  (exists v, r2_64 (mkgen 3 1 1 [1; 2; 3]%Q) (mkgen 3 1 1 [1; 2; 4]%Q) = Some v /\ v == 1 # 2)%Q /\
  r2_64 (mkgen 3 1 2 [1; 90; 2; 90; 3]%Q) (mkgen 3 1 1 [1; 2; 4]%Q) = None.
Proof. split; [reflexivity|]. split; [|reflexivity]. eexists. split; [vm_compute; reflexivity|reflexivity]. Qed.

(* C195: SumRows leaves the last row in the receiver, whatever the other rows are *)
Theorem C195_last_row_refuted : forall A (a : gen A) d, gin a -> g_cols a <= length d -> 1 <= g_rows a -> exists d', sum_rows d a = Some d' /\
  (forall c, c < g_cols a -> nth_error d' c = g_at a (g_rows a - 1) c) /\ forall p, g_cols a <= p -> nth_error d' p = nth_error d p.
Proof. intros A a d. apply sum_rows_last. Qed.
Print Assumptions C195_last_row_refuted.
(* which is the sum for one row *)
Theorem C195_one_row_partial : forall A (a : gen A) d, gin a -> g_cols a <= length d -> g_rows a = 1 -> exists d', sum_rows d a = Some d' /\
  forall c, c < g_cols a -> nth_error d' c = g_at a 0 c.
Proof. intros A a d G HL H. destruct (sum_rows_last a d G HL) as (d' & E & HC & _); [lia|]. exists d'. split; auto. intros c Hc. rewrite HC by auto. now rewrite H. Qed.
Print Assumptions C195_one_row_partial.
Example C195_ex : sum_rows [0; 0] (mkgen 3 2 2 [1; 2; 3; 4; 5; 6]) = Some [5; 6].
Proof. reflexivity. Qed.

(* C196: Fit and Predict of the base type read both matrices, unless X has RawMatrix and Y has not (and, for Fit, Shuffle is off) *)
Theorem C196_reads_partial : forall xraw yraw shuffle M (X Y : M),
  (fit_reads xraw yraw shuffle X Y = Some (X, Y) <-> (xraw = true -> shuffle = false -> yraw = true)) /\
  (predict_reads xraw yraw X Y = Some (X, Y) <-> (xraw = true -> yraw = true)).
Proof.
  intros [] [] [] M X Y; unfold fit_reads, predict_reads; cbn; repeat split; intros; try reflexivity; try discriminate;
    repeat match goal with H : true = true -> _ |- _ => specialize (H eq_refl) | H : false = false -> _ |- _ => specialize (H eq_refl) end; discriminate.
Qed.
Print Assumptions C196_reads_partial.
Theorem C196_mixed_refuted : forall M (X Y : M), fit_reads true false false X Y = None /\ predict_reads true false X Y = None.
Proof. auto. Qed.
Print Assumptions C196_mixed_refuted.
Example C196_ex : fit_reads false false false 1 2 = Some (1, 2) /\ fit_reads true false true 1 2 = Some (1, 2) /\ predict_reads true true 1 2 = Some (1, 2).
Proof. auto. Qed.

(* C197: the labels MLPClassifier.Predict finds reach the cells of a destination with contiguous rows *)
Theorem C197_contiguous_partial : forall A (Y : gen A) vals r c, g_stride Y = g_cols Y -> length vals = g_rows Y * g_cols Y -> length vals <= length (g_data Y) -> r < g_rows Y -> c < g_cols Y ->
  g_at (mkgen (g_rows Y) (g_cols Y) (g_stride Y) (predict_labels Y vals)) r c = nth_error vals (r * g_cols Y + c).
Proof.
  intros A Y vals r c HS HL HD Hr Hc. unfold g_at, predict_labels. cbn [g_data g_stride]. destruct (Nat.ltb_spec (length (g_data Y)) (length vals)); [lia|].
  rewrite HS. unfold blit. cbn [firstn app Nat.add]. rewrite nth_error_app1 by nia. f_equal. lia.
Qed.
Print Assumptions C197_contiguous_partial.
(* into a view they are written without gaps: the cell behind the first row, outside the view, gets the first label of the second row *)
Theorem C197_view_refuted : forall A (Y : gen A) vals, g_cols Y < g_stride Y -> 2 <= g_rows Y -> 1 <= g_cols Y -> length vals = g_rows Y * g_cols Y -> length vals <= length (g_data Y) ->
  nth_error (predict_labels Y vals) (g_cols Y) = nth_error vals (g_cols Y) /\
  forall p, length vals <= p -> nth_error (predict_labels Y vals) p = nth_error (g_data Y) p.
Proof.
  intros A Y vals HS Hr Hc HL HD. unfold predict_labels. destruct (Nat.ltb_spec (length (g_data Y)) (length vals)); [lia|]. unfold blit. cbn [firstn app Nat.add]. split.
  - rewrite nth_error_app1 by nia. reflexivity.
  - intros p Hp. rewrite nth_error_app2 by lia. rewrite <- (firstn_skipn (length vals) (g_data Y)) at 2. rewrite nth_error_app2; rewrite firstn_length_le by lia; auto.
Qed.
Print Assumptions C197_view_refuted.
Example C197_ex : predict_labels (mkgen 3 1 2 [0; 90; 0; 91; 0]) [7; 8; 9] = [7; 8; 9; 91; 0] /\ predict_labels (mkgen 3 1 1 [0; 0; 0]) [7; 8; 9] = [7; 8; 9].
Proof. auto. Qed.

(* C198: with contiguous targets the deltas of the output layer are the outputs minus the targets *)
Theorem C198_deltas_partial : forall A (sub : A -> A -> A) D H y bs, gin y -> g_stride y = g_cols y -> g_rows y <= bs -> length D = bs * g_cols y -> length H = bs * g_cols y ->
  exists D', out_deltas sub D H y = Some D' /\ (forall r c, r < g_rows y -> c < g_cols y -> exists h v, nth_error H (r * g_cols y + c) = Some h /\ g_at y r c = Some v /\
     nth_error D' (r * g_cols y + c) = Some (sub h v)) /\ (forall p, g_rows y * g_cols y <= p -> nth_error D' p = nth_error D p).
Proof. intros A sub D H y bs. apply out_deltas_full. Qed.
Print Assumptions C198_deltas_partial.
(* with targets that are a view of some columns of a wider matrix MLPRegressor.Fit panics in the first full batch *)
Theorem C198_view_refuted : forall A (sub : A -> A -> A) D H y, g_cols y < g_stride y -> 2 <= g_rows y -> 1 <= g_cols y -> length H = g_rows y * g_cols y -> out_deltas sub D H y = None.
Proof. intros A sub D H y. apply out_deltas_strided. Qed.
Print Assumptions C198_view_refuted.
Example C198_ex : out_deltas Nat.sub [0; 0; 0] [5; 6; 7] (mkgen 2 1 1 [1; 2]) = Some [4; 4; 0] /\ out_deltas Nat.sub [0; 0] [5; 6] (mkgen 2 1 2 [1; 90; 2]) = None.
Proof. auto. Qed.

(* C199: with WarmStart a Fit after a Fit lays out its gradients iff the network is not larger than before *)
Theorem C199_warm_partial : forall us packed, us <> [] -> warm_ok (length us) packed us = match us with [_] => true | _ => packed_size us <=? packed end.
Proof. intros us packed H. unfold warm_ok. rewrite grads_ok_spec by auto. destruct us; [now elim H|]. reflexivity. Qed.
Print Assumptions C199_warm_partial.
(* the first Fit of a new estimator panics *)
Theorem C199_first_refuted : forall packed us, warm_ok 0 packed us = false.
Proof. reflexivity. Qed.
Print Assumptions C199_first_refuted.
Example C199_ex : warm_ok 3 (packed_size [2; 3; 1]) [2; 3; 1] = true /\ warm_ok 3 (packed_size [2; 3; 1]) [2; 4; 1] = false.
Proof. auto. Qed.

(* C200: after the first Fit of a classifier the forward pass of Predict is as wide as the network *)
Theorem C200_first_fit_partial : forall cols Y, let '(lb, nout) := fit_lb None cols Y in predict_width lb cols = nout.
Proof. intros cols Y. unfold fit_lb. destruct (forallb _ Y); reflexivity. Qed.
Print Assumptions C200_first_fit_partial.
(* after a Fit on labels with two or more classes, a Fit on one column of 0 and 1 keeps the old label binarizer, and Predict panics *)
Theorem C200_refit_refuted : forall m Y rows, 2 <= length (concat (lb_classes m)) -> forallb (forallb (fun v => Z.eqb v 0 || Z.eqb v 1)) Y = true -> 1 <= rows ->
  let '(lb, nout) := fit_lb (Some m) 1 Y in nout = 1 /\ forall X units hidden, last units 0 = nout -> length units = length hidden + 2 -> predict_ok units hidden X (full rows (predict_width lb 1)) = false.
Proof.
  intros m Y rows Hm HY Hr. unfold fit_lb. rewrite HY. split; [reflexivity|]. intros X units hidden HL Hlen.
  destruct (unit_pairs_last units) as (l & r & E & HLl); [lia|]. unfold predict_ok, predict_acts. rewrite E, HL. apply forward_last_false; [|rewrite map_length; lia].
  unfold add_ok, full. cbn [sh_rows sh_cols predict_width].
  replace (length (concat (lb_classes m)) <=? 1) with false by (symmetry; apply Nat.leb_gt; lia). replace (rows =? 0) with false by (symmetry; apply Nat.eqb_neq; lia). reflexivity.
Qed.
Print Assumptions C200_refit_refuted.
Example C200_ex : let '(lb, _) := fit_lb None 1 [[1]; [2]; [3]]%Z in fit_lb lb 1 [[0]; [1]]%Z = (lb, 1) /\ predict_width lb 1 = 3.
Proof. vm_compute. auto. Qed.
