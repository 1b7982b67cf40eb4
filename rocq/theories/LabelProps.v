(* Properties C10 - C15, C61, C62. *)
From Verif Require Import Common LabelModel LabelProofs.
Open Scope Z_scope.

(* C10, classes: after Fit and any PartialFit calls, Classes of column j is the
   strictly increasing list of the labels seen in that column. *)
Theorem C10_classes_sorted_distinct : forall ncols rows0 batches j, (j < ncols)%nat ->
  exists classes support,
    nth_error (fold_left (fun st rows => le_partial_fit st ncols rows) batches (le_fit ncols rows0)) j
      = Some (classes, support) /\
    StronglySorted Z.lt classes /\
    (forall v, In v classes <-> In v (map (fun r => nth j r 0) (rows0 ++ concat batches))) /\
    length support = length classes.
Proof. exact le_classes_spec. Qed.
Print Assumptions C10_classes_sorted_distinct.

(* ... hence they do not depend on order or batching *)
Theorem C10_classes_order_irrelevant : forall ncols rows0 batches rows0' batches' j c s c' s',
  (j < ncols)%nat -> Permutation (rows0 ++ concat batches) (rows0' ++ concat batches') ->
  nth_error (fold_left (fun st rows => le_partial_fit st ncols rows) batches (le_fit ncols rows0)) j = Some (c, s) ->
  nth_error (fold_left (fun st rows => le_partial_fit st ncols rows) batches' (le_fit ncols rows0')) j = Some (c', s') ->
  c = c'.
Proof. exact le_classes_order. Qed.
Print Assumptions C10_classes_order_irrelevant.

(* C10, supports: false.  A label inserted before an existing class takes over
   that class's support; the supports depend on the order of the rows. *)
Theorem C10_support_refuted :
  (exists rows c s, le_fit 1 rows = [(c, s)] /\ c = [1; 2] /\
     s <> map (fun v => Z.of_nat (count_occ Z.eq_dec (column 0 rows) v)) c) /\
  (exists rows rows' c s s', Permutation rows rows' /\
     le_fit 1 rows = [(c, s)] /\ le_fit 1 rows' = [(c, s')] /\ s <> s').
Proof.
  split.
  - exists [[2]; [2]; [1]], [1; 2], [3; 2]. repeat split. vm_compute. discriminate.
  - exists [[2]; [1]], [[1]; [2]], [1; 2], [2; 1], [1; 1]. split; [apply perm_swap|].
    repeat split. discriminate.
Qed.
Print Assumptions C10_support_refuted.

(* ... they are right when every new label is larger than all earlier ones *)
Theorem C10_support_ascending : forall labels,
  (forall l1 v l2, labels = l1 ++ v :: l2 -> ~ In v l1 -> forall x, In x l1 -> x < v) ->
  let st := fold_left le_add labels ([], []) in
  snd st = map (fun v => Z.of_nat (count_occ Z.eq_dec labels v)) (fst st).
Proof. exact support_ascend. Qed.
Print Assumptions C10_support_ascending.

Example C10_example :
  le_partial_fit (le_fit 2 [[3; 1]; [2; 2]]) 2 [[2; 2]; [5; 1]] = [([2; 3; 5], [3; 1; 1]); ([1; 2], [2; 2])].
Proof. vm_compute. reflexivity. Qed.
Example C10_example_support : fold_left le_add [1; 1; 4; 1; 7] ([], []) = ([1; 4; 7], [3; 1; 1]).
Proof. vm_compute. reflexivity. Qed.

(* C11 *)
Theorem C11_encode_decode : forall ncols rows0 batches row,
  In row (rows0 ++ concat batches) -> length row = ncols ->
  let st := fold_left (fun st rows => le_partial_fit st ncols rows) batches (le_fit ncols rows0) in
  exists codes, le_transform_row st row = Some codes /\
    codes = map (fun p => Z.of_nat (length (filter (fun c => c <? snd p) (fst (fst p))))) (combine st row) /\
    Forall2 (fun s code => 0 <= code < Z.of_nat (length (fst s))) st codes /\
    le_inverse_row st codes = Some (map Some row).
Proof. exact (fun n r b row H L => le_row_roundtrip _ row (le_fit_run_Forall2 n r b row H L)). Qed.
Print Assumptions C11_encode_decode.

Example C11_example :
  let st := le_fit 2 [[30; 5]; [10; 6]; [20; 5]] in
  le_transform_row st [30; 6] = Some [2; 1] /\ le_inverse_row st [2; 1] = Some [Some 30; Some 6].
Proof. vm_compute. auto. Qed.

(* C12 is false: an unseen label below the largest class gets another class's code. *)
Theorem C12_unseen_label_refuted :
  exists rows v code, let st := le_fit 1 rows in
    ~ In v (column 0 rows) /\ le_transform_row st [v] = Some [code] /\ code <> -1 /\
    exists w, w <> v /\ In w (column 0 rows) /\ le_inverse_row st [code] = Some [Some w].
Proof.
  exists [[1]; [3]], 2, 1. vm_compute. repeat split; try discriminate.
  - intros [|[|[]]]; discriminate.
  - exists 3. repeat split; auto; discriminate.
Qed.
Print Assumptions C12_unseen_label_refuted.

(* What Transform does for every label: the number of smaller classes, or -1
   exactly when the label exceeds all classes. *)
Theorem C12_encode_every_label : forall c v, StronglySorted Z.lt c ->
  le_encode c v = if existsb (fun x => v <=? x) c
                  then Z.of_nat (length (filter (fun x => x <? v) c)) else -1.
Proof. exact le_encode_spec. Qed.
Print Assumptions C12_encode_every_label.

(* C13 *)
Theorem C13_binarizer_single_column : forall m col, col <> [] ->
  0 < lb_pos (lb_fit m 1 (map (fun v => [v]) col)) ->
  let m' := lb_fit m 1 (map (fun v => [v]) col) in
  exists c, lb_cls m' = [c] /\ StronglySorted Z.lt c /\ (forall v, In v c <-> In v col) /\
  forall rows, Forall (fun v => In v col) rows ->
  exists Y, lb_transform m' (map (fun v => [v]) rows) = Some Y /\
    Y = map (fun v => map (fun x => if x =? v then lb_pos m' else 0) c) rows /\
    lb_inverse m' (length c) Y = Some rows.
Proof. exact lb_fit_single. Qed.
Print Assumptions C13_binarizer_single_column.
(* Fit keeps the two labels when they differ; a binarizer left at its zero value gets PosLabel 1 *)
Theorem C13_default_labels : forall m ncols rows, let m' := lb_fit m ncols rows in
  lb_neg m' = lb_neg m /\ (lb_pos m <> lb_neg m -> lb_pos m' = lb_pos m) /\ (lb_pos m = lb_neg m -> lb_pos m' = lb_neg m + 1).
Proof. intros m ncols rows m'. unfold m', lb_fit. cbn. destruct (Z.eqb_spec (lb_pos m) (lb_neg m)) as [E|N]; repeat split; congruence. Qed.
Print Assumptions C13_default_labels.

Example C13_example :
  let m := lb_fit {| lb_neg := 0; lb_pos := 1; lb_cls := [] |} 1 [[5]; [2]; [5]; [9]] in
  lb_transform m [[9]; [2]] = Some [[0; 0; 1]; [1; 0; 0]] /\ lb_inverse m 3 [[0; 0; 1]; [1; 0; 0]] = Some [9; 2].
Proof. vm_compute. auto. Qed.

(* C14 is false: two columns decode wrongly, or InverseTransform panics. *)
Theorem C14_binarizer_columns_refuted :
  let m0 := {| lb_neg := 0; lb_pos := 1; lb_cls := [] |} in
  (exists rows Y out, let m := lb_fit m0 2 rows in
     lb_transform m rows = Some Y /\ lb_inverse m (n_outputs (lb_cls m)) Y = Some out /\ out <> concat rows) /\
  (exists rows Y, let m := lb_fit m0 2 rows in
     lb_transform m rows = Some Y /\ lb_inverse m (n_outputs (lb_cls m)) Y = None).
Proof.
  split.
  - exists [[1; 7]; [2; 8]], [[1; 0; 1; 0]; [0; 1; 0; 1]], [1; 0; 2; 0].
    vm_compute. repeat split. discriminate.
  - exists [[1; 7]; [1; 8]; [1; 9]], [[1; 1; 0; 0]; [1; 0; 1; 0]; [1; 0; 0; 1]]. vm_compute. auto.
Qed.
Print Assumptions C14_binarizer_columns_refuted.

(* ... the first output column is always right, when nothing panics *)
Theorem C14_first_column : forall m rows, 0 < lb_pos m ->
  Forall (fun c => NoDup c /\ c <> []) (lb_cls m) -> lb_cls m <> [] ->
  Forall (fun row => Forall2 (fun c v => In v c) (lb_cls m) row) rows ->
  forall Y, lb_transform m rows = Some Y ->
  forall out, lb_inverse m (n_outputs (lb_cls m)) Y = Some out ->
  forall i row, nth_error rows i = Some row -> nth_error out (i * length (lb_cls m)) = nth_error row 0.
Proof. exact (fun m rows Hp HF => lb_first_column m rows (conj Hp HF)). Qed.
Print Assumptions C14_first_column.

(* ... and Transform itself is one-hot per column for any number of columns *)
Theorem C14_transform_blocks : forall m ncols rows row, rows <> [] ->
  0 < lb_pos (lb_fit m ncols rows) -> In row rows -> length row = ncols ->
  let m' := lb_fit m ncols rows in
  lb_transform_row m' row =
  Some (concat (map (fun p => map (fun x => if x =? snd p then lb_pos m' else 0) (fst p)) (combine (lb_cls m') row))).
Proof. exact (fun m n rows row Hne Hp Hin HL => lb_transform_known _ row (lb_fit_wf m n rows Hne Hp) (lb_fit_known m n rows row Hin HL)). Qed.
Print Assumptions C14_transform_blocks.

(* C15: one-hot holds; the decoded number is the position of the value ... *)
Theorem C15_onehot_partial : forall ncols rows row, In row rows -> length row = ncols ->
  let vals := oh_fit ncols rows in
  exists Y, oh_transform_row vals row = Some Y /\
    Y = concat (map (fun p => map (fun x => if x =? snd p then 1 else 0) (fst p)) (combine vals row)) /\
    exists idx, oh_inverse_row vals Y = Some idx /\ length idx = ncols /\
      forall j c v k, nth_error vals j = Some c -> nth_error row j = Some v -> nth_error idx j = Some k ->
        0 <= k /\ nth_error c (Z.to_nat k) = Some v.
Proof. exact oh_spec. Qed.
Print Assumptions C15_onehot_partial.

(* ... and not the value, so decoding is not the inverse of encoding. *)
Theorem C15_decode_refuted : exists rows row Y out, In row rows /\
  oh_transform_row (oh_fit 1 rows) row = Some Y /\
  oh_inverse_row (oh_fit 1 rows) Y = Some out /\ out <> row.
Proof. exists [[5]; [7]], [7], [0; 1], [1]. vm_compute. repeat split; auto. discriminate. Qed.
Print Assumptions C15_decode_refuted.

(* the values of each feature are the strictly increasing distinct training values *)
Theorem C15_values_sorted : forall ncols rows, Forall (StronglySorted Z.lt) (oh_fit ncols rows).
Proof. exact oh_fit_sorted. Qed.
Print Assumptions C15_values_sorted.

Example C15_example :
  let vals := oh_fit 2 [[5; 1]; [7; 3]; [6; 1]] in
  oh_transform_row vals [6; 3] = Some [0; 1; 0; 0; 1] /\ oh_inverse_row vals [0; 1; 0; 0; 1] = Some [1; 1].
Proof. vm_compute. auto. Qed.

(* C61 *)
Theorem C61_multilabel_roundtrip : forall rows, rows <> [] -> Forall (fun r => r <> []) rows ->
  let c := mlb_fit rows in
  exists Y, omap (mlb_transform_row c) rows = Some Y /\
    Y = map (fun row => concat (map (fun v => map (fun x => if x =? v then 1 else 0) c) row)) rows /\
    omap (mlb_inverse_row c) Y = Some rows.
Proof. exact mlb_roundtrip. Qed.
Print Assumptions C61_multilabel_roundtrip.

Example C61_example :
  mlb_fit [[5; 1]; [7; 5]] = [1; 5; 7] /\
  mlb_transform_row [1; 5; 7] [5; 1] = Some [0; 1; 0; 1; 0; 0] /\
  mlb_inverse_row [1; 5; 7] [0; 1; 0; 1; 0; 0] = Some [5; 1].
Proof. vm_compute. auto. Qed.

(* C62 is false: an unknown code in one column wipes the later columns of the
   row, and the code nClasses panics instead of giving NaN. *)
Theorem C62_decode_unknown_refuted :
  (exists rows, let st := le_fit 2 rows in
     le_inverse_row st [-1; 1] = Some [None; Some 0] /\ le_inverse_row st [0; 1] = Some [Some 4; Some 9]) /\
  (exists rows, le_inverse_row (le_fit 1 rows) [2] = None /\ le_inverse_row (le_fit 1 rows) [3] = Some [None] /\
     length (lb_classes (column 0 rows)) = 2%nat).
Proof.
  split.
  - exists [[4; 8]; [5; 9]]. vm_compute. auto.
  - exists [[4]; [5]]. vm_compute. auto.
Qed.
Print Assumptions C62_decode_unknown_refuted.
