(* Properties C24-C30 and C74-C77. *)
From Verif Require Import QCommon LabelModel MetricsModel MetricsProofs RankProofs.
Open Scope Q_scope.

(* C24: samples are ((true row, predicted row), weight) *)
Theorem C24_accuracy : forall s : list (list Z * list Z * Q),
  (forall x, In x s -> 0 <= snd x /\ length (fst (fst x)) = length (snd (fst x))) ->
  let hit x := if list_eq_dec Z.eq_dec (fst (fst x)) (snd (fst x)) then snd x else 0 in
  let tot := qsum (map snd s) in
  (exists a, accuracy false (Some (map snd s)) (map fst s) = Some a /\ a == qsum (map hit s)) /\
  (tot == 0 -> accuracy true (Some (map snd s)) (map fst s) = None) /\
  (~ tot == 0 -> exists a, accuracy true (Some (map snd s)) (map fst s) = Some a /\ a == qsum (map hit s) / tot /\ 0 <= a <= 1 /\
     (a == 1 <-> forall x, In x s -> ~ snd x == 0 -> fst (fst x) = snd (fst x))) /\
  (forall norm s', Permutation s s' ->
     match accuracy norm (Some (map snd s)) (map fst s), accuracy norm (Some (map snd s')) (map fst s') with
     | Some a, Some b => a == b | None, None => True | _, _ => False end).
Proof.
  intros s H hit tot. destruct (accuracy_main s H) as (A & B & C). split; [exact A|]. split; [exact B|]. split; [exact C|].
  intros norm s' HP. exact (accuracy_perm norm s s' HP).
Qed.
Print Assumptions C24_accuracy.

(* no weights: all weights 1 *)
Theorem C24_accuracy_unweighted : forall norm rows, accuracy norm None rows = accuracy norm (Some (repeat 1 (length rows))) rows.
Proof. exact accuracy_none. Qed.
Print Assumptions C24_accuracy_unweighted.
Example C24_example : exists a, accuracy true (Some [1; 2; 1]) [([1;2], [1;2]); ([1;3], [1;2]); ([4;4], [4;4])]%Z = Some a /\ a == 1 # 2.
Proof. eexists; split; vm_compute; reflexivity. Qed.

(* C25: samples are ((true, predicted), weight) *)
Theorem C25_confusion : forall s : list (Z * Z * Q), s <> [] ->
  (forall x, In x s -> In (snd (fst x)) (map (fun x => fst (fst x)) s)) ->
  let wsum (P : Z -> Z -> bool) := qsum (map (fun x => if P (fst (fst x)) (snd (fst x)) then snd x else 0) s) in
  exists c cm, confusion (Some (map snd s)) 1 (map (fun x => ([fst (fst x)], [snd (fst x)])) s) = Some (length c, cm) /\
    StronglySorted Z.lt c /\ (forall v, In v c <-> In v (map (fun x => fst (fst x)) s)) /\
    length cm = (length c * length c)%nat /\
    (forall i j, (i < length c)%nat -> (j < length c)%nat ->
      nth (i * length c + j) cm 0 == wsum (fun t p => Z.eqb t (nth i c 0%Z) && Z.eqb p (nth j c 0%Z))%bool) /\
    (forall i, (i < length c)%nat ->
      qsum (map (fun j => nth (i * length c + j) cm 0) (seq 0 (length c))) == wsum (fun t p => Z.eqb t (nth i c 0%Z))) /\
    qsum (map (fun i => qsum (map (fun j => nth (i * length c + j) cm 0) (seq 0 (length c)))) (seq 0 (length c))) == qsum (map snd s).
Proof.
  intros s Hs Hp wsum. destruct (confusion_main s Hs Hp) as (c & cm & E & S & V & L & X). exists c, cm.
  split; [exact E|]. split; [exact S|]. split; [exact V|]. split; [exact L|]. split; [exact X|].
  assert (R: forall i, (i < length c)%nat ->
      qsum (map (fun j => nth (i * length c + j) cm 0) (seq 0 (length c))) == wsum (fun t p => Z.eqb t (nth i c 0%Z))).
  { intros i Hi. apply (cm_row_spec c cm s i S); auto. intros x Hx. apply V. auto. }
  split; [exact R|].
  rewrite (qsum_map_ext _ (fun i => wsum (fun t p => Z.eqb t (nth i c 0%Z)))).
  - unfold wsum. rewrite (qsum_exch (fun i x => if Z.eqb (fst (fst x)) (nth i c 0%Z) then snd x else 0)).
    apply qsum_map_ext. intros x Hx. apply qsum_pick; [exact S|]. apply V. now apply (in_map (fun x => fst (fst x))).
  - intros i Hi. apply in_seq in Hi. apply R. lia.
Qed.
Print Assumptions C25_confusion.
Example C25_example : exists cm, confusion None 1 [([5],[5]); ([5],[7]); ([7],[7]); ([7],[5]); ([7],[7])]%Z = Some (2%nat, cm) /\ Forall2 Qeq cm [1;1;1;2].
Proof. eexists; split; [vm_compute; reflexivity|repeat constructor]. Qed.

(* C26: with true labels 0, 10 and the predictions 0, 5 the unknown label 5 is
   counted as a correct prediction of class 10; with predictions 0, 11 the code
   -1 lands in cell (r-1, K-1), a wrong cell of another row; and with the pair
   (0, 11) it panics *)
Theorem C26_unseen_prediction_refuted :
  (exists cm, confusion None 1 [([0],[0]); ([10],[5])]%Z = Some (2%nat, cm) /\ nth 3 cm 0 == 1) /\
  (exists cm, confusion None 1 [([0],[0]); ([10],[11])]%Z = Some (2%nat, cm) /\ nth 1 cm 0 == 1 /\ nth 2 cm 0 == 0 /\ nth 3 cm 0 == 0) /\
  confusion None 1 [([0],[11]); ([10],[0])]%Z = None.
Proof. split; [|split]; [| |vm_compute; reflexivity]; eexists; split; vm_compute; repeat split; reflexivity. Qed.
Print Assumptions C26_unseen_prediction_refuted.

(* C27 *)
Theorem C27_precision_recall : forall beta (s : list (Z * Z * Q)), s <> [] -> (forall x, In x s -> 0 <= snd x) ->
  (forall x, In x s -> In (snd (fst x)) (map (fun x => fst (fst x)) s)) ->
  let wsum (P : Z -> Z -> bool) := qsum (map (fun x => if P (fst (fst x)) (snd (fst x)) then snd x else 0) s) in
  exists c cm, confusion (Some (map snd s)) 1 (map (fun x => ([fst (fst x)], [snd (fst x)])) s) = Some (length c, cm) /\ length c <> 0%nat /\
    (forall v, In v c <-> In v (map (fun x => fst (fst x)) s)) /\ NoDup c /\
    (forall k, (k < length c)%nat -> let v := nth k c 0%Z in
       let TP := wsum (fun t p => Z.eqb t v && Z.eqb p v)%bool in
       let TRUE := wsum (fun t p => Z.eqb t v) in let PRED := wsum (fun t p => Z.eqb p v) in
       let '(p, r, f) := prf_class beta (length c) cm k in
       (0 <= p <= 1) /\ (0 <= r <= 1) /\ (0 <= f <= 1) /\
       (0 < PRED -> p == TP / PRED) /\ (PRED == 0 -> p == 0) /\ (0 < TRUE -> r == TP / TRUE) /\ (TRUE == 0 -> r == 0) /\
       f * (beta * beta * p + r) == (1 + beta * beta) * p * r /\ (beta * beta * p + r == 0 -> f == 0)) /\
    (let '(p, r, f, _) := prf_macro beta (length c) cm in
       (0 <= p <= 1) /\ (0 <= r <= 1) /\ (0 <= f <= 1) /\
       p * qn (length c) == qsum (map (fun k => fst (fst (prf_class beta (length c) cm k))) (seq 0 (length c))) /\
       r * qn (length c) == qsum (map (fun k => snd (fst (prf_class beta (length c) cm k))) (seq 0 (length c))) /\
       f * qn (length c) == qsum (map (fun k => snd (prf_class beta (length c) cm k)) (seq 0 (length c)))) /\
    (let '(p, r, f, _) := prf_micro beta (length c) cm in
       0 < qsum (map snd s) -> p == wsum Z.eqb / qsum (map snd s) /\ r == p /\ f == p).
Proof. exact prf_main. Qed.
Print Assumptions C27_precision_recall.
Example C27_example : exists cm, confusion None 1 [([5],[5]); ([5],[7]); ([7],[7]); ([7],[7])]%Z = Some (2%nat, cm) /\
  (let '(p, r, f) := prf_class 1 2 cm 1 in p == 2 # 3 /\ r == 1 /\ f == 4 # 5) /\
  (let '(p, r, f, _) := prf_micro 1 2 cm in p == 3 # 4 /\ r == 3 # 4 /\ f == 3 # 4).
Proof. eexists; split; [vm_compute; reflexivity|split; vm_compute; repeat split; reflexivity]. Qed.
(* "weighted" does not weight by support, and the returned support is 0: class 5
   has 3 samples of which 0 are recalled, class 7 has 1 sample recalled; the
   weighted recall should be 1/4, the code gives 1/2 *)
Theorem C27_weighted_refuted : exists cm,
  confusion None 1 [([5],[7]); ([5],[7]); ([5],[7]); ([7],[7])]%Z = Some (2%nat, cm) /\
  let '(p, r, f, support) := prf_weighted 1 2 cm in r == 1 # 2 /\ support == 0 /\
  ~ r == (3 * snd (fst (prf_class 1 2 cm 0)) + 1 * snd (fst (prf_class 1 2 cm 1))) / 4.
Proof. eexists; split; [vm_compute; reflexivity|]. vm_compute. repeat split; try reflexivity. discriminate. Qed.
Print Assumptions C27_weighted_refuted.

(* the support returned for posLabel = k: the number of true samples of the class when new labels only appear above all
   earlier ones; sampleWeight plays no part *)
Theorem C27_support_partial : forall (labels : list Z) k,
  (forall l1 v l2, labels = l1 ++ v :: l2 -> ~ In v l1 -> forall x, In x l1 -> (x < v)%Z) ->
  let st := le_fit 1 (map (fun v => [v]) labels) in
  let c := match st with (c, _) :: _ => c | [] => [] end in
  (k < length c)%nat -> prf_support st k = Z.of_nat (count_occ Z.eq_dec labels (nth k c 0%Z)).
Proof. exact support_of_class. Qed.
Print Assumptions C27_support_partial.
(* otherwise not: true labels 7, 5 give class 5 a support of 2 *)
Theorem C27_support_refuted : exists labels, let st := le_fit 1 (map (fun v => [v]) labels) in
  st = [([5; 7], [2; 1])]%Z /\ prf_support st 0 <> Z.of_nat (count_occ Z.eq_dec labels 5%Z).
Proof. exists [7; 5]%Z. split; [reflexivity|vm_compute; discriminate]. Qed.
Print Assumptions C27_support_refuted.

(* C28: [idx] is any order sort.Slice may return *)
Theorem C28_roc_curve : forall labels posLabel wt sc idx,
  let n := length labels in
  let wsum (P : nat -> bool) := qsum (map (fun i => if P i then weight wt i else 0) (seq 0 n)) in
  let pos i := Z.eqb (nth i labels 0%Z) posLabel in
  length sc = n -> Permutation idx (seq 0 n) -> StronglySorted (fun i j => nth j sc 0 <= nth i sc 0) idx ->
  (forall i, (i < n)%nat -> 0 <= weight wt i) -> 0 < wsum pos -> 0 < wsum (fun i => negb (pos i)) ->
  exists fpr tpr ths, roc_curve labels posLabel wt sc idx = Some (fpr, tpr, ths) /\
    length fpr = length ths /\ length tpr = length ths /\ (0 < length ths)%nat /\
    (forall k, (k < length ths)%nat ->
       nth k fpr 0 == wsum (fun i => negb (pos i) && Qle_bool (nth k ths 0) (nth i sc 0))%bool / wsum (fun i => negb (pos i)) /\
       nth k tpr 0 == wsum (fun i => pos i && Qle_bool (nth k ths 0) (nth i sc 0))%bool / wsum pos) /\
    (forall a b, (a < b < length ths)%nat -> nth b ths 0 < nth a ths 0 /\ nth a fpr 0 <= nth b fpr 0 /\ nth a tpr 0 <= nth b tpr 0) /\
    nth 0 fpr 0 == 0 /\ last fpr 0 == 1 /\ last tpr 0 == 1.
Proof.
  intros labels posLabel wt sc idx n wsum pos H1 H2 H3 H4 H5 H6.
  assert (EF: wsum (fun i => negb (pos i)) == Fs pos (weight wt) (seq 0 n)) by (apply qsum_map_ext; intros i _; destruct (pos i); reflexivity).
  rewrite EF in H6.
  destruct (roc_main labels posLabel wt sc idx H1 H2 H3 H4 H5 H6) as (fpr & tpr & ths & E & A & B & C & D & F & G & I & J & _).
  exists fpr, tpr, ths. split; [exact E|]. split; [exact A|]. split; [exact B|]. split; [exact C|]. split.
  { intros k Hk. destruct (D k Hk) as (D1 & D2). split; [rewrite EF; exact D1|exact D2]. }
  split; [exact F|]. split; [exact G|]. split; [exact I|exact J].
Qed.
Print Assumptions C28_roc_curve.
Example C28_example : exists fpr tpr ths, roc_curve [0;0;1;1]%Z 1 None [1#10; 4#10; 35#100; 8#10] [3;1;2;0]%nat = Some (fpr, tpr, ths) /\
  Forall2 Qeq fpr [0; 1#2; 1#2; 1] /\ Forall2 Qeq tpr [1#2; 1#2; 1; 1].
Proof. do 3 eexists; split; [vm_compute; reflexivity|]. split; repeat constructor. Qed.
(* the curve need not start at (0,0): here (also the documented example above)
   the first true positive rate is 1/2 *)
Theorem C28_roc_start_refuted : exists labels sc idx fpr tpr ths,
  Permutation idx (seq 0 (length labels)) /\ StronglySorted (fun i j => nth j sc 0 <= nth i sc 0) idx /\
  roc_curve labels 1 None sc idx = Some (fpr, tpr, ths) /\ nth 0 fpr 0 == 0 /\ nth 0 tpr 0 == 1 # 2.
Proof.
  exists [0;0;1;1]%Z, [1#10; 4#10; 35#100; 8#10], [3;1;2;0]%nat. do 3 eexists.
  split. { change (seq 0 (length [0;0;1;1]%Z)) with [0;1;2;3]%nat. apply NoDup_Permutation; [repeat constructor; cbn; intuition lia|repeat constructor; cbn; intuition lia|cbn; intuition]. }
  split. { repeat constructor; cbn; lra. }
  split; [vm_compute; reflexivity|]. split; reflexivity.
Qed.
Print Assumptions C28_roc_start_refuted.

(* C29 *)
Theorem C29_auc_mann_whitney : forall labels wt sc idx,
  let n := length labels in
  let wsum (P : nat -> bool) := qsum (map (fun i => if P i then weight wt i else 0) (seq 0 n)) in
  let pos i := Z.eqb (nth i labels 0%Z) 1 in
  let above a b := if Qltb b a then 1 else if Qeq_bool a b then 1 # 2 else 0 in
  let pairs sc := qsum (map (fun i => qsum (map (fun j =>
      (if pos i then 0 else weight wt i) * ((if pos j then weight wt j else 0) * above (nth j sc 0) (nth i sc 0))) (seq 0 n))) (seq 0 n)) in
  length sc = n -> Permutation idx (seq 0 n) -> StronglySorted (fun i j => nth j sc 0 <= nth i sc 0) idx ->
  (forall i, (i < n)%nat -> 0 <= weight wt i) -> 0 < wsum pos -> 0 < wsum (fun i => negb (pos i)) ->
  exists a, roc_auc_binary labels wt sc idx = Some a /\ a == pairs sc / (wsum (fun i => negb (pos i)) * wsum pos) /\ 0 <= a <= 1 /\
    (* only the order of the scores matters *)
    (forall sc' idx', length sc' = n -> Permutation idx' (seq 0 n) -> StronglySorted (fun i j => nth j sc' 0 <= nth i sc' 0) idx' ->
       (forall i j, (i < n)%nat -> (j < n)%nat -> (nth i sc 0 < nth j sc 0 <-> nth i sc' 0 < nth j sc' 0)) ->
       exists a', roc_auc_binary labels wt sc' idx' = Some a' /\ a' == a).
Proof.
  intros labels wt sc idx n wsum pos above pairs H1 H2 H3 H4 H5 H6.
  assert (EF: wsum (fun i => negb (pos i)) == Fs pos (weight wt) (seq 0 n)) by (apply qsum_map_ext; intros i _; destruct (pos i); reflexivity).
  rewrite EF in H6.
  assert (K: forall sc idx, length sc = n -> Permutation idx (seq 0 n) -> StronglySorted (fun i j => nth j sc 0 <= nth i sc 0) idx ->
     exists a, roc_auc_binary labels wt sc idx = Some a /\ a == pairs sc / (wsum (fun i => negb (pos i)) * wsum pos)).
  { clear H1 H2 H3 sc idx. intros sc idx H1 H2 H3.
    destruct (roc_main labels 1 wt sc idx H1 H2 H3 H4 H5 H6) as (fpr & tpr & ths & E & _ & _ & _ & _ & _ & _ & _ & _ & AU).
    exists (auc fpr tpr). unfold roc_auc_binary. rewrite E. split; [reflexivity|]. rewrite EF. exact AU. }
  destruct (K sc idx H1 H2 H3) as (a & Ea & Va). exists a. split; [exact Ea|]. split; [exact Va|]. split.
  - rewrite Va, EF. destruct (mwx_bounds sc pos (weight wt) (seq 0 n)) as (B1 & B2).
    { intros i Hi. apply in_seq in Hi. apply H4. lia. }
    apply qdiv_bounds; [exact B1|exact B2|]. change (wsum pos) with (Ts pos (weight wt) (seq 0 n)) in *.
    assert (0 < Fs pos (weight wt) (seq 0 n) * Ts pos (weight wt) (seq 0 n)) by (apply Qmult_lt_0_compat; assumption). lra.
  - intros sc' idx' H1' H2' H3' HO. destruct (K sc' idx' H1' H2' H3') as (a' & Ea' & Va'). exists a'. split; [exact Ea'|].
    rewrite Va, Va'. assert (EP: pairs sc' == pairs sc); [|rewrite EP; reflexivity].
    apply qsum_map_ext. intros i Hi. apply qsum_map_ext. intros j Hj. apply in_seq in Hi, Hj.
    pose proof (HO i j ltac:(lia) ltac:(lia)) as O1. pose proof (HO j i ltac:(lia) ltac:(lia)) as O2. unfold above.
    destruct (Qltb_spec (nth i sc 0) (nth j sc 0)), (Qltb_spec (nth i sc' 0) (nth j sc' 0)); try reflexivity; try (exfalso; lra).
    destruct (Qeqb_spec (nth j sc 0) (nth i sc 0)), (Qeqb_spec (nth j sc' 0) (nth i sc' 0)); try reflexivity; exfalso; lra.
Qed.
Print Assumptions C29_auc_mann_whitney.
Example C29_example : exists a, roc_auc_binary [0;0;1;1]%Z None [1#10; 4#10; 35#100; 8#10] [3;1;2;0]%nat = Some a /\ a == 3 # 4.
Proof. eexists; split; vm_compute; reflexivity. Qed.

(* C30: for n x 1 weights the code uses the first weight for every sample;
   loss is squared error or absolute error.  Two samples with errors 0 and 1 and
   weights 1, 3 give 1/2 instead of 3/4; two outputs panic *)
Theorem C30_sample_weight_refuted :
  (exists v, mse (Some [[1];[3]]) [[0];[0]] [[0];[1]] 0 = Some v /\ v == 1 # 2 /\ ~ v == (1 * 0 + 3 * 1) / (1 + 3)) /\
  (exists v, mae (Some [[1];[3]]) [[0];[0]] [[0];[1]] 0 = Some v /\ v == 1 # 2 /\ ~ v == (1 * 0 + 3 * 1) / (1 + 3)) /\
  mse (Some [[1];[3]]) [[0;0];[0;0]] [[0;0];[1;1]] 1 = None /\
  mse (Some [[0];[3]]) [[0];[0]] [[0];[1]] 0 = None.
Proof.
  split; [|split]; [| |split; vm_compute; reflexivity]; (eexists; split; [vm_compute; reflexivity|]; split; [reflexivity|]; vm_compute; discriminate).
Qed.
Print Assumptions C30_sample_weight_refuted.
(* what the code computes instead, for all inputs: without weights the mean
   loss; with weights the weight of row 0 is used for each sample, so it cancels *)
Theorem C30_regression_exact : forall loss w yt yp j, length yt = length yp -> yt <> [] ->
  match (match w with None => Some 1 | Some rows => nth_error (hd [] rows) j end) with
  | None => reg_err loss w yt yp j = None
  | Some wj =>
    if Qeq_bool wj 0 then reg_err loss w yt yp j = None
    else exists v, reg_err loss w yt yp j = Some v /\
      v == qsum (map (fun ab => loss (nth j (snd ab) 0 - nth j (fst ab) 0)) (combine yt yp)) / qn (length yt)
  end.
Proof. exact reg_err_spec. Qed.
Print Assumptions C30_regression_exact.

(* C74: "micro" averaging flattens the cells row by row but the weights column
   by column: with 2 samples of weights 1, 3 and 2 outputs, the second cell of
   sample 0 gets the weight of sample 1 *)
Theorem C74_micro_weights_refuted : exists (rows : list (list Z)) w i j,
  length w = length rows /\ (i < length rows)%nat /\ (j < 2)%nat /\ Forall (fun r => length r = 2%nat) rows /\
  nth (i * 2 + j) (micro_cells rows) 0%Z = nth j (nth i rows []) 0%Z /\
  ~ nth (i * 2 + j) (micro_weights (length rows) 2 w) 0 == nth i w 0.
Proof. exists [[1;2];[3;4]]%Z, [1;3], 0%nat, 1%nat. repeat split; try (cbn; lia); [repeat constructor|vm_compute; discriminate]. Qed.
Print Assumptions C74_micro_weights_refuted.
(* which weight a cell gets, for all sizes; it is the one of its sample when there is one column or all weights are the same *)
Theorem C74_weights_partial : forall n w i j, (i < length w)%nat -> (j < n)%nat ->
  length (micro_weights (length w) n w) = (length w * n)%nat /\
  nth (i * n + j) (micro_weights (length w) n w) 0 = nth ((i * n + j) mod length w) w 0 /\
  (n = 1%nat \/ (forall a b, (a < length w)%nat -> (b < length w)%nat -> nth a w 0 = nth b w 0) -> nth (i * n + j) (micro_weights (length w) n w) 0 = nth i w 0).
Proof.
  intros n w i j Hi Hj. rewrite micro_weights_concat by reflexivity. assert (K : nth (i * n + j) (concat (repeat w n)) 0 = nth ((i * n + j) mod length w) w 0) by (apply nth_concat_repeat; nia).
  split; [clear; induction n as [|n IH]; [cbn; lia|cbn [repeat concat]; rewrite app_length, IH; lia]|]. split; [exact K|]. intros H. rewrite K. destruct H as [->|H]; [|apply H; [apply Nat.mod_upper_bound; lia|exact Hi]]. replace j with 0%nat by lia. rewrite Nat.mul_1_r, Nat.add_0_r, Nat.mod_small by exact Hi. reflexivity.
Qed.
Print Assumptions C74_weights_partial.
Example C74_example : micro_weights 2 3 [1; 3] = [1; 3; 1; 3; 1; 3].
Proof. vm_compute. reflexivity. Qed.

(* C75 *)
Theorem C75_precision_recall_curve : forall labels posLabel wt sc idx,
  let n := length labels in
  let wsum (P : nat -> bool) := qsum (map (fun i => if P i then weight wt i else 0) (seq 0 n)) in
  let pos i := Z.eqb (nth i labels 0%Z) posLabel in
  length sc = n -> Permutation idx (seq 0 n) -> StronglySorted (fun i j => nth j sc 0 <= nth i sc 0) idx ->
  (forall i, (i < n)%nat -> 0 < weight wt i) -> 0 < wsum pos ->
  exists prec rec ths, pr_curve labels posLabel wt sc idx = Some (prec ++ [1], rec ++ [0], ths) /\
    length prec = length ths /\ length rec = length ths /\ (0 < length ths)%nat /\
    (forall k, (k < length ths)%nat ->
       let TP := wsum (fun i => pos i && Qle_bool (nth k ths 0) (nth i sc 0))%bool in
       let FP := wsum (fun i => negb (pos i) && Qle_bool (nth k ths 0) (nth i sc 0))%bool in
       0 < TP + FP /\ nth k prec 0 == TP / (TP + FP) /\ nth k rec 0 == TP / wsum pos /\
       0 <= nth k prec 0 <= 1 /\ 0 <= nth k rec 0 <= 1) /\
    (forall a b, (a < b < length ths)%nat -> nth a ths 0 < nth b ths 0 /\ nth b rec 0 <= nth a rec 0) /\
    nth 0 rec 0 == 1 /\ 0 <= ap_loop (prec ++ [1]) (rec ++ [0]) <= 1.
Proof.
  intros labels posLabel wt sc idx n wsum pos H1 H2 H3 H4 H5.
  destruct (pr_main labels posLabel wt sc idx H1 H2 H3 H4 H5) as (prec & rec & ths & E & A & B & C & D & F & G).
  exists prec, rec, ths. split; [exact E|]. split; [exact A|]. split; [exact B|]. split; [exact C|]. split; [exact D|]. split; [exact F|]. split; [exact G|].
  assert (BB: 0 <= ap_loop (prec ++ [1]) (rec ++ [0]) <= nth 0 (rec ++ [0]) 0 - last (rec ++ [0]) (nth 0 (rec ++ [0]) 0)).
  { apply ap_bounds.
    - rewrite !app_length. cbn. now rewrite A, B.
    - intros k Hk. rewrite app_length in Hk. cbn in Hk. destruct (Nat.lt_ge_cases k (length prec)).
      + rewrite app_nth1 by auto. apply (D k). lia.
      + rewrite app_nth2 by auto. replace (k - length prec)%nat with 0%nat by lia. cbn. lra.
    - intros a b Hab. rewrite app_length in Hab. cbn in Hab. rewrite (@app_nth1 _ rec [0] 0 a) by lia. destruct (Nat.lt_ge_cases b (length rec)).
      + rewrite app_nth1 by auto. apply F. lia.
      + rewrite app_nth2 by auto. replace (b - length rec)%nat with 0%nat by lia. cbn. apply (D a). lia. }
  rewrite last_last in BB. rewrite app_nth1 in BB by lia. rewrite G in BB. destruct BB as (B1 & B2). split; [exact B1|]. ring_simplify in B2. exact B2.
Qed.
Print Assumptions C75_precision_recall_curve.
Example C75_example : exists p r t, pr_curve [0;0;1;1]%Z 1 None [1#10; 4#10; 35#100; 8#10] [3;1;2;0]%nat = Some (p, r, t) /\
  Forall2 Qeq p [2#3; 1#2; 1; 1] /\ Forall2 Qeq r [1; 1#2; 1#2; 0] /\ Forall2 Qeq t [35#100; 4#10; 8#10] /\ ap_loop p r == 5 # 6.
Proof. do 3 eexists; split; [vm_compute; reflexivity|]. repeat split; repeat constructor. Qed.

(* C76: samples are ((true, predicted), weight) *)
Theorem C76_r2_score : forall s : list (Q * Q * Q), (forall x, In x s -> 0 <= snd x) ->
  let avg := (1 / qsum (map snd s)) * qsum (map (fun x => snd x * fst (fst x)) s) in
  let den := qsum (map (fun x => snd x * ((fst (fst x) - avg) * (fst (fst x) - avg))) s) in
  let num := qsum (map (fun x => snd x * ((snd (fst x) - fst (fst x)) * (snd (fst x) - fst (fst x)))) s) in
  r2_raw s <= 1 /\
  (r2_raw s == 1 <-> forall x, In x s -> ~ snd x == 0 -> snd (fst x) == fst (fst x)) /\
  ((1 # 100000000000000000000) <= den -> (forall x, In x s -> snd (fst x) == avg) -> r2_raw s == 0) /\
  ((1 # 100000000000000000000) <= den -> r2_raw s == 1 - num / den).
Proof. exact r2_main. Qed.
Print Assumptions C76_r2_score.
Theorem C76_r2_variance_weighted : forall outs, outs <> [] -> (forall s, In s outs -> (1 # 100000000000000000000) <= r2_den s) ->
  r2_variance_weighted outs == 1 - qsum (map r2_num outs) / qsum (map r2_den outs).
Proof. exact r2_vw. Qed.
Print Assumptions C76_r2_variance_weighted.
Theorem C76_r2_uniform : forall outs, outs <> [] -> (forall s x, In s outs -> In x s -> 0 <= snd x) ->
  r2_uniform outs * qn (length outs) == qsum (map r2_raw outs) /\ r2_uniform outs <= 1 /\
  (r2_uniform outs == 1 <-> forall s x, In s outs -> In x s -> ~ snd x == 0 -> snd (fst x) == fst (fst x)).
Proof. exact r2_uniform_main. Qed.
Print Assumptions C76_r2_uniform.
Example C76_example : r2_raw [(3, 25#10, 1); (-(1#2), 0, 1); (2, 2, 1); (7, 8, 1)] == 1 - (3 # 2) / (467 # 16).
Proof. vm_compute. reflexivity. Qed.
(* the tiny floor: a constant target predicted with an error gives a huge
   negative score, not 0 *)

(* C77: "operate only on 1st Y column": a second column changes the matrix *)
Theorem C77_first_column_only_refuted : exists rows cm cm1,
  confusion None 2 rows = Some (2%nat, cm) /\
  confusion None 1 (map (fun r => (firstn 1 (fst r), firstn 1 (snd r))) rows) = Some (2%nat, cm1) /\ ~ Forall2 Qeq cm cm1.
Proof.
  exists [([0;0],[0;1]); ([1;1],[1;1])]%Z. do 2 eexists. split; [vm_compute; reflexivity|]. split; [vm_compute; reflexivity|].
  intros H. inversion H; subst. inversion H5; subst. discriminate.
Qed.
Print Assumptions C77_first_column_only_refuted.
