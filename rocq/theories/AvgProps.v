(* C221: the averages of binary scores, metrics/base.go *)
From Verif Require Import QCommon ImputeModel MetricsModel AvgModel AvgProofs.
Open Scope Q_scope.

(* typeOfTarget: one column with at most two values is binary; several such columns are label indicators (any two values, not
   only 0 and 1) *)
Theorem C221_type n Y :
  (type_of_target n Y = TBinary <-> n = 1%nat /\ at_most_two (rcol 0 Y)) /\
  (type_of_target n Y = TMulti <-> n <> 1%nat /\ forall c, (c < n)%nat -> at_most_two (rcol c Y)) /\
  (type_of_target n Y = TUnknown <-> exists c, (c < n)%nat /\ ~ at_most_two (rcol c Y)).
Proof.
  assert (D : (forall c, (c < n)%nat -> at_most_two (rcol c Y)) \/ exists c, (c < n)%nat /\ ~ at_most_two (rcol c Y)).
  { destruct (forallb (fun c => two_valued (rcol c Y)) (seq 0 n)) eqn:E; [left; apply all_two; auto|right].
    assert (X : existsb (fun c => negb (two_valued (rcol c Y))) (seq 0 n) = true).
    { clear -E. induction (seq 0 n) as [|c l IH]; [discriminate|]. cbn in *.
      destruct (two_valued (rcol c Y)); cbn in *; auto. }
    apply existsb_exists in X. destruct X as (c & Hc & T). apply in_seq in Hc. exists c. split; [lia|].
    intros A. apply two_valued_spec in A. rewrite A in T. discriminate. }
  destruct D as [D|(c & Hc & D)].
  - pose proof D as D'. apply all_two in D'. unfold type_of_target. rewrite D'.
    assert (N : ~ exists c, (c < n)%nat /\ ~ at_most_two (rcol c Y)) by (intros (c & Hc & K); elim K; auto).
    destruct (Nat.eqb_spec n 1) as [E|E]; cbn [andb].
    + split; [|split]; (split; [intros X; try discriminate X|intros X]); try tauto.
      split; auto. apply D. lia.
    + split; [|split]; (split; [intros X; try discriminate X|intros X]); try tauto.
  - assert (F : forallb (fun c => two_valued (rcol c Y)) (seq 0 n) = false).
    { destruct (forallb _ _) eqn:E; [|auto]. elim D. revert c Hc D. intros c Hc _. eapply all_two; eauto. }
    unfold type_of_target. rewrite F, andb_false_r.
    split; [|split]; (split; [intros X; try discriminate X|intros X]); eauto.
    + destruct X as (-> & X). elim D. replace c with 0%nat by lia. auto.
    + destruct X as (_ & X). elim D. auto.
Qed.
Print Assumptions C221_type.

(* With two or more indicator columns: "macro" (and any unknown name) is the mean of the scores of the columns, "weighted" the
   mean weighted by the samples that have the label, "micro" without weights the score of all cells in one column.  A binary
   target ignores the average; any other target scores 0.  Partial: "micro" with weights (C74) and "samples" are refuted. *)
Theorem C221_averages_partial metric m n yt ys w :
  length yt = m -> length ys = m -> (2 <= n)%nat -> (forall c, (c < n)%nat -> at_most_two (rcol c yt)) ->
  let score c := metric (rcol c yt) (rcol c ys) w in
  (exists s, average_binary_score metric m n yt ys AMacro w = Some s /\ s == qsum (map score (seq 0 n)) / qn n) /\
  average_binary_score metric m n yt ys AOther w = average_binary_score metric m n yt ys AMacro w /\
  (~ qsum (map (fun c => support w c yt) (seq 0 n)) == 0 ->
   exists s, average_binary_score metric m n yt ys AWeighted w = Some s /\
   s == qsum (map (fun c => support w c yt * score c) (seq 0 n)) / qsum (map (fun c => support w c yt) (seq 0 n))) /\
  (exists s, average_binary_score metric m n yt ys AMicro None = Some s /\ s == metric (concat yt) (concat ys) None).
Proof.
  intros Hm1 Hm2 Hn H score. assert (T := type_multi n yt ltac:(lia) H). unfold average_binary_score. rewrite T.
  unfold class_scores. rewrite Nat.leb_refl. repeat split.
  - eexists. split; [reflexivity|]. rewrite map_length, seq_length. reflexivity.
  - intros N. assert (E : qsum (map (fun c => class_weight w c yt) (seq 0 n)) == qsum (map (fun c => support w c yt) (seq 0 n))).
    { apply qsum_map_ext. intros c _. apply class_weight_support. }
    destruct (Qeq_bool _ 0) eqn:Z; [apply Qeq_bool_iff in Z; rewrite E in Z; contradiction|].
    unfold stat_mean. rewrite !map_length, Nat.eqb_refl. eexists. split; [reflexivity|].
    rewrite zip_map_map, E.
    rewrite (qsum_map_ext (fun c => class_weight w c yt * metric (rcol c yt) (rcol c ys) w) (fun c => support w c yt * score c)); [reflexivity|].
    intros c _. rewrite class_weight_support. reflexivity.
  - cbn [Nat.leb seq map stat_mean length]. rewrite !rcol_singletons. eexists. split; [reflexivity|].
    unfold qsum, qn, micro_cells. cbn [fold_left length Z.of_nat]. change (Z.of_nat 1) with 1%Z. field.
Qed.
Print Assumptions C221_averages_partial.
Example C221_ex : let yt := [[1; 0]; [1; 1]; [0; 0]] in let w := Some [1; 2; 3] in
  type_of_target 2 yt = TMulti /\ support w 0 yt == 3 /\ support w 1 yt == 2 /\
  match average_binary_score (fun a b _ => qsum (zip Qmult a b)) 3 2 yt [[1 # 2; 1]; [1 # 4; 1 # 3]; [1; 1]] AWeighted w with
  | Some s => s == 7 # 12 | None => False end.
Proof. vm_compute. repeat split. Qed.

Theorem C221_degenerate metric m n yt ys avg w : length yt = m ->
  ((exists c, (c < n)%nat /\ ~ at_most_two (rcol c yt)) -> average_binary_score metric m n yt ys avg w = Some 0) /\
  (n = 1%nat -> at_most_two (rcol 0 yt) -> average_binary_score metric m n yt ys avg w = Some (metric (rcol 0 yt) (rcol 0 ys) w)).
Proof.
  intros Hm. destruct (C221_type n yt) as (B & _ & U). unfold average_binary_score. split.
  - intros H. apply U in H. rewrite H. reflexivity.
  - intros E H. rewrite (proj2 B (conj E H)). reflexivity.
Qed.
Print Assumptions C221_degenerate.

(* "samples": the loop runs over as many columns as there are rows.  More rows than columns: always a panic. *)
Theorem C221_samples_refuted metric m n yt ys w : length yt = m -> (2 <= n)%nat -> (n < m)%nat ->
  (forall c, (c < n)%nat -> at_most_two (rcol c yt)) -> average_binary_score metric m n yt ys ASamples w = None.
Proof.
  intros Hm Hn L H. unfold average_binary_score. rewrite (type_multi n yt ltac:(lia) H). unfold class_scores.
  destruct (Nat.leb_spec m n); [lia|reflexivity].
Qed.
Print Assumptions C221_samples_refuted.
(* No more rows than columns: the mean, weighted by sample weights, of the unweighted scores of the first m columns *)
Theorem C221_samples_columns_refuted metric m n yt ys w : length yt = m -> (2 <= n)%nat -> (m <= n)%nat ->
  (forall c, (c < n)%nat -> at_most_two (rcol c yt)) ->
  average_binary_score metric m n yt ys ASamples w = stat_mean (map (fun c => metric (rcol c yt) (rcol c ys) None) (seq 0 m)) w.
Proof.
  intros Hm Hn L H. unfold average_binary_score. rewrite (type_multi n yt ltac:(lia) H). unfold class_scores.
  destruct (Nat.leb_spec m n); [reflexivity|lia].
Qed.
Print Assumptions C221_samples_columns_refuted.
(* As many rows as columns: the scores of the columns, not of the rows *)
Theorem C221_samples_square_refuted : exists metric yt ys s t,
  average_binary_score metric 2 2 yt ys ASamples None = Some s /\ stat_mean (row_scores metric yt ys) None = Some t /\ ~ s == t.
Proof.
  exists (fun a b _ => nth 0 a 0 * nth 0 b 0), [[1; 1]; [0; 1]], [[1; 2]; [0; 3]]. eexists. eexists.
  split; [reflexivity|]. split; [reflexivity|]. vm_compute. discriminate.
Qed.
Print Assumptions C221_samples_square_refuted.
