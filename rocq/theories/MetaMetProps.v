(* Metrics of reordered, rescored and renamed samples: properties C207-C209 *)
From Verif Require Import QCommon LabelModel MetricsModel MetricsProofs RankProofs MetaMetProofs.
Open Scope Q_scope.

(* C207: curves and areas depend on the ranking of the samples only: not on the order of the samples, not on how sort.Slice
   orders ties, not on a strictly increasing transformation of the scores, not on the names of the classes *)
Theorem C207_roc : forall labels labels' pl pl' wt wt' sc sc' idx idx' sg, same_ranking labels labels' pl pl' wt wt' sc sc' sg ->
  let n := length labels in Permutation idx (seq 0 n) -> Permutation idx' (seq 0 n) ->
  StronglySorted (fun i j => nth j sc 0 <= nth i sc 0) idx -> StronglySorted (fun i j => nth j sc' 0 <= nth i sc' 0) idx' ->
  match roc_curve labels pl wt sc idx, roc_curve labels' pl' wt' sc' idx' with
  | Some (fpr, tpr, ths), Some (fpr', tpr', ths') => Forall2 Qeq fpr fpr' /\ Forall2 Qeq tpr tpr' /\ length ths = length ths' /\ auc fpr tpr == auc fpr' tpr'
  | None, None => True
  | _, _ => False
  end.
Proof.
  intros labels labels' pl pl' wt wt' sc sc' idx idx' sg HR n P P' D D'. pose proof (roc_same _ _ _ _ _ _ _ _ _ _ _ HR P P' D D') as S. unfold same_curve in S.
  destruct (roc_curve labels pl wt sc idx) as [[[x y] t]|]; destruct (roc_curve labels' pl' wt' sc' idx') as [[[x' y'] t']|]; auto.
  destruct S as (A & B & C). split; [exact A|]. split; [exact B|]. split; [exact C|]. apply auc_QQ; auto; reflexivity.
Qed.
Print Assumptions C207_roc.
Theorem C207_precision_recall : forall labels labels' pl pl' wt wt' sc sc' idx idx' sg, same_ranking labels labels' pl pl' wt wt' sc sc' sg ->
  let n := length labels in Permutation idx (seq 0 n) -> Permutation idx' (seq 0 n) ->
  StronglySorted (fun i j => nth j sc 0 <= nth i sc 0) idx -> StronglySorted (fun i j => nth j sc' 0 <= nth i sc' 0) idx' ->
  match pr_curve labels pl wt sc idx, pr_curve labels' pl' wt' sc' idx' with
  | Some (prec, rec, ths), Some (prec', rec', ths') => Forall2 Qeq prec prec' /\ Forall2 Qeq rec rec' /\ length ths = length ths' /\ ap_loop prec rec == ap_loop prec' rec'
  | None, None => True
  | _, _ => False
  end.
Proof.
  intros labels labels' pl pl' wt wt' sc sc' idx idx' sg HR n P P' D D'. pose proof (pr_same _ _ _ _ _ _ _ _ _ _ _ HR P P' D D') as S. unfold same_curve in S.
  destruct (pr_curve labels pl wt sc idx) as [[[x y] t]|]; destruct (pr_curve labels' pl' wt' sc' idx') as [[[x' y'] t']|]; auto.
  destruct S as (A & B & C). split; [exact A|]. split; [exact B|]. split; [exact C|]. apply ap_QQ; auto.
Qed.
Print Assumptions C207_precision_recall.
(* the same samples in reverse, scores doubled, classes renamed *)
Example C207_ex : same_ranking [0;0;1;1]%Z [9;9;4;4]%Z 1 9 None None [1#10; 4#10; 35#100; 8#10] [8#5; 7#10; 4#5; 1#5] (fun i => (3 - i)%nat) /\
  exists x y t x' y' t', roc_curve [0;0;1;1]%Z 1 None [1#10; 4#10; 35#100; 8#10] [3;1;2;0]%nat = Some (x, y, t) /\
    roc_curve [9;9;4;4]%Z 9 None [8#5; 7#10; 4#5; 1#5] [0;2;1;3]%nat = Some (x', y', t') /\ auc x y == 3 # 4 /\ auc x' y' == 3 # 4.
Proof.
  split.
  - split; [reflexivity|]. split; [|split].
    + change (map (fun i => (3 - i)%nat) (seq 0 4)) with (rev (seq 0 4)). symmetry. apply Permutation_rev.
    + intros i Hi. split; [|reflexivity]. do 4 (destruct i as [|i]; [cbn; split; congruence|]). cbn [length] in Hi. lia.
    + intros i j Hi Hj. cbn [length] in Hi, Hj.
      do 4 (destruct i as [|i]; [do 4 (destruct j as [|j]; [vm_compute; tauto|]); lia|]). lia.
  - do 6 eexists. repeat split; vm_compute; reflexivity.
Qed.

(* C208: renaming the classes (one name for each) and reordering the samples permutes the confusion matrix, precisions and recalls with the
   names, and leaves the averages alone *)
Theorem C208_renamed : forall (f : Z -> Z) (s s' : list (Z * Z * Q)) beta, (forall a b, f a = f b -> a = b) ->
  Permutation (map (fun x => ((f (fst (fst x)), f (snd (fst x))), snd x)) s) s' -> s <> [] ->
  (forall x, In x s -> In (snd (fst x)) (map (fun x => fst (fst x)) s)) ->
  exists c cm c' cm',
    confusion (Some (map snd s)) 1 (map (fun x => ([fst (fst x)], [snd (fst x)])) s) = Some (length c, cm) /\
    confusion (Some (map snd s')) 1 (map (fun x => ([fst (fst x)], [snd (fst x)])) s') = Some (length c', cm') /\
    StronglySorted Z.lt c /\ StronglySorted Z.lt c' /\ Permutation c' (map f c) /\
    (forall i j i' j', (i < length c)%nat -> (j < length c)%nat -> (i' < length c')%nat -> (j' < length c')%nat -> nth i' c' 0%Z = f (nth i c 0%Z) -> nth j' c' 0%Z = f (nth j c 0%Z) ->
       nth (i' * length c' + j') cm' 0 == nth (i * length c + j) cm 0) /\
    (forall k k', (k < length c)%nat -> (k' < length c')%nat -> nth k' c' 0%Z = f (nth k c 0%Z) -> eq3 (prf_class beta (length c') cm' k') (prf_class beta (length c) cm k)) /\
    eq3 (fst (prf_macro beta (length c') cm')) (fst (prf_macro beta (length c) cm)) /\
    eq3 (fst (prf_micro beta (length c') cm')) (fst (prf_micro beta (length c) cm)).
Proof. intros f s s' beta Hf HP Hne Hp. exact (renamed f s s' Hf HP beta Hne Hp). Qed.
Print Assumptions C208_renamed.
Theorem C208_accuracy : forall (f : Z -> Z) (s s' : list (list Z * list Z * Q)) norm, (forall a b, f a = f b -> a = b) ->
  (forall x, In x s -> length (fst (fst x)) = length (snd (fst x))) ->
  Permutation (map (fun x => ((map f (fst (fst x)), map f (snd (fst x))), snd x)) s) s' ->
  match accuracy norm (Some (map snd s)) (map fst s), accuracy norm (Some (map snd s')) (map fst s') with
  | Some a, Some b => a == b | None, None => True | _, _ => False end.
Proof. exact accuracy_renamed. Qed.
Print Assumptions C208_accuracy.
Example C208_ex : exists cm cm', confusion None 1 [([5],[5]); ([5],[7]); ([7],[7]); ([7],[7])]%Z = Some (2%nat, cm) /\
  confusion None 1 [([-7],[-7]); ([-5],[-7]); ([-7],[-7]); ([-5],[-5])]%Z = Some (2%nat, cm') /\ Forall2 Qeq cm [1; 1; 0; 2] /\ Forall2 Qeq cm' [2; 0; 1; 1].
Proof. do 2 eexists. split; [vm_compute; reflexivity|]. split; [vm_compute; reflexivity|]. split; repeat constructor. Qed.

(* C209: errors and R2 do not depend on the order of the samples *)
Theorem C209_errors : forall loss yt yp yt' yp' j, length yt = length yp -> yt <> [] -> length yt' = length yp' -> Permutation (combine yt yp) (combine yt' yp') ->
  exists v v', reg_err loss None yt yp j = Some v /\ reg_err loss None yt' yp' j = Some v' /\ v == v'.
Proof. exact reg_perm. Qed.
Print Assumptions C209_errors.
Theorem C209_r2 : forall s s', Permutation s s' -> r2_raw s == r2_raw s'.
Proof. exact r2_perm. Qed.
Print Assumptions C209_r2.
(* with sample weights the mean squared error does: the weight of the first sample decides between a number and NaN *)
Theorem C209_weights_refuted : forall loss (s : list (list Q * list Q)) wx wy ws a b, ~ wx == 0 -> wy == 0 ->
  reg_err loss (Some ([wx] :: [wy] :: ws)) (map fst (a :: b :: s)) (map snd (a :: b :: s)) 0 <> None /\
  reg_err loss (Some ([wy] :: [wx] :: ws)) (map fst (b :: a :: s)) (map snd (b :: a :: s)) 0 = None.
Proof.
  intros loss s wx wy ws a b Hx Hy.
  pose proof (reg_err_spec loss (Some ([wx] :: [wy] :: ws)) (map fst (a :: b :: s)) (map snd (a :: b :: s)) 0) as A.
  pose proof (reg_err_spec loss (Some ([wy] :: [wx] :: ws)) (map fst (b :: a :: s)) (map snd (b :: a :: s)) 0) as B.
  rewrite !map_length in A, B. specialize (A eq_refl ltac:(discriminate)). specialize (B eq_refl ltac:(discriminate)). cbn [nth_error hd] in A, B.
  destruct (Qeqb_spec wx 0); [tauto|]. destruct (Qeqb_spec wy 0); [|tauto]. destruct A as (v & -> & _). split; [discriminate|exact B].
Qed.
Print Assumptions C209_weights_refuted.
Example C209_ex : exists v v', mse None [[1]; [2]; [5]] [[2]; [2]; [3]] 0 = Some v /\ mse None [[5]; [1]; [2]] [[3]; [2]; [2]] 0 = Some v' /\ v == 5 # 3 /\ v' == 5 # 3.
Proof. do 2 eexists. repeat split; vm_compute; reflexivity. Qed.
