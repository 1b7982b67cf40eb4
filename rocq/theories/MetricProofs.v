(* Proofs about the choice of the distance and about vectors that are views. *)
From Coq Require Import String.
From Verif Require Import QCommon DistModel DistProofs MetricModel.
From Coq Require Import Lra Lia.
Open Scope R_scope.

Lemma zip_ext {A B C} (f g : A -> B -> C) : (forall x y, f x y = g x y) -> forall a b, zip f a b = zip g a b.
Proof. intros H a. induction a as [|x a IH]; intros [|y b]; cbn; auto. now rewrite H, IH. Qed.
Lemma rpow_one p : rpow 1 p = 1.
Proof. rewrite rpow_pos by lra. unfold Rpower. rewrite ln_1, Rmult_0_r, exp_0. reflexivity. Qed.
Lemma mink_lp p a b : 1 <= p -> length a = length b -> length a <> 1%nat -> minkowski (Pfin p) a b = lp p a b.
Proof.
  intros Hp HL H1. rewrite mink_formula by auto. unfold lp. f_equal. f_equal. apply zip_ext. intros x y. now rewrite Rabs_minus_sym.
Qed.
Lemma lp1_l1 a b : length a = length b -> length a <> 1%nat -> minkowski (Pfin 1) a b = l1 a b.
Proof.
  intros HL H1. rewrite mink_lp by (auto; lra). unfold lp, l1. replace (1 / 1) with 1 by lra. rewrite zip_map.
  rewrite rpow_1.
  - f_equal. apply zip_ext. intros x y. apply rpow_1. apply Rabs_pos.
  - apply rsum_nonneg. intros x HX. revert b HL HX. clear H1. induction a as [|u a IH]; intros [|v b] HL HX; cbn in *; try tauto; try lia.
    destruct HX as [<-|HX]; [rewrite rpow_1 by apply Rabs_pos; apply Rabs_pos|]. now apply (IH b); [lia|].
Qed.
Lemma lp2_l2 a b : length a = length b -> length a <> 1%nat -> minkowski (Pfin 2) a b = l2 a b.
Proof.
  intros HL H1. rewrite <- euclid_mink by auto. unfold euclidean, l2.
  destruct a as [|x [|x' a]]; destruct b as [|y b]; cbn in HL, H1; try lia; f_equal; f_equal; apply zip_ext; intros; ring.
Qed.
Lemma inf_max a b : length a = length b -> minkowski Pinf a b = rmaxl (map Rabs (zip Rminus a b)).
Proof.
  intros HL. unfold minkowski. rewrite mink_inf_unfold by auto. unfold dvec. rewrite !zip_map. f_equal. apply zip_ext. intros x y. apply Rabs_minus_sym.
Qed.

(* values used in examples *)
Lemma l2_34 : minkowski (Pfin 2) [0; 0] [3; 4] = 5.
Proof. rewrite lp2_l2 by (cbn; lia). unfold l2, rsum. cbn [zip fold_left]. replace (0 + (0 - 3) * (0 - 3) + (0 - 4) * (0 - 4)) with (5 * 5) by ring. apply sqrt_square. lra. Qed.
Lemma l2_60 : minkowski (Pfin 2) [0; 0] [6; 0] = 6.
Proof. rewrite lp2_l2 by (cbn; lia). unfold l2, rsum. cbn [zip fold_left]. replace (0 + (0 - 6) * (0 - 6) + (0 - 0) * (0 - 0)) with (6 * 6) by ring. apply sqrt_square. lra. Qed.
Lemma l1_34 : l1 [0; 0] [3; 4] = 7.
Proof. unfold l1, rsum. cbn [zip map fold_left]. rewrite (Rabs_left (0 - 3)), (Rabs_left (0 - 4)) by lra. lra. Qed.
Lemma l1_60 : l1 [0; 0] [6; 0] = 6.
Proof. unfold l1, rsum. cbn [zip map fold_left]. rewrite (Rabs_left (0 - 6)) by lra. rewrite (Rabs_pos_eq (0 - 0)) by lra. lra. Qed.
Lemma lp_axis p : 1 <= p -> minkowski (Pfin p) [1; 0] [10; 0] = 9.
Proof.
  intros Hp. rewrite mink_lp by (cbn; lia || auto). unfold lp, rsum. cbn [zip fold_left].
  replace (0 - 0) with 0 by ring. rewrite Rabs_R0, rpow_0. rewrite Rabs_left by lra. replace (- (1 - 10)) with 9 by ring. rewrite Rplus_0_l, Rplus_0_r.
  rewrite rpow_rpow by lra. replace (p * (1 / p)) with 1 by (field; lra). apply rpow_1. lra.
Qed.
Lemma lp_up p : 1 <= p -> minkowski (Pfin p) [1; 0] [1; 1] = 1.
Proof.
  intros Hp. rewrite mink_lp by (cbn; lia || auto). unfold lp, rsum. cbn [zip fold_left].
  replace (1 - 1) with 0 by ring. rewrite Rabs_R0, rpow_0. rewrite Rabs_left by lra. replace (- (0 - 1)) with 1 by ring. rewrite rpow_one.
  replace (0 + 0 + 1) with 1 by ring. apply rpow_one.
Qed.
Lemma cos_axis : cosine [1; 0] [10; 0] = 0.
Proof.
  unfold cosine, dot, rsum. cbn [zip fold_left]. replace (0 + 1 * 1 + 0 * 0) with (1 * 1) by ring. replace (0 + 10 * 10 + 0 * 0) with (10 * 10) by ring.
  rewrite !sqrt_square by lra. lra.
Qed.
Lemma cos_up : 0 < cosine [1; 0] [1; 1].
Proof.
  unfold cosine, dot, rsum. cbn [zip fold_left]. replace (0 + 1 * 1 + 0 * 0) with (1 * 1) by ring. rewrite sqrt_square by lra.
  replace (0 + 1 * 1 + 0 * 1) with 1 by ring. replace (0 + 1 * 1 + 1 * 1) with 2 by ring. rewrite Rmult_1_l.
  assert (H: 1 < sqrt 2) by (rewrite <- sqrt_1 at 1; apply sqrt_lt_1; lra).
  assert (H2: 1 / sqrt 2 < 1). { apply (Rmult_lt_reg_r (sqrt 2)); [lra|]. unfold Rdiv. rewrite Rmult_assoc, Rinv_l by lra. lra. } lra.
Qed.

(* --------------------------------------------------------------- vectors *)
Lemma map_nth_seq (l : list R) : forall k, map (fun i => nth (i - k) l 0) (seq k (length l)) = l.
Proof.
  induction l as [|x l IH]; intros k; [reflexivity|]. cbn [length seq map]. rewrite Nat.sub_diag. f_equal.
  transitivity (map (fun i => nth (i - S k) l 0) (seq (S k) (length l))); [|apply IH].
  apply map_ext_in. intros i HI. apply in_seq in HI. replace (i - k)%nat with (S (i - S k)) by lia. reflexivity.
Qed.
Lemma elements_len v : length (elements v) = vN v.
Proof. unfold elements. now rewrite map_length, seq_length. Qed.
Lemma elements_contig v : wf_vec v -> vInc v = 1%nat -> elements v = vData v.
Proof.
  intros (H1 & H2 & HL) HI. unfold elements, at_vec. rewrite HI in *. replace (vN v) with (length (vData v)) by lia.
  rewrite <- (map_nth_seq (vData v) 0) at 2. apply map_ext. intros i. now rewrite Nat.sub_0_r, Nat.mul_1_r.
Qed.
Lemma zip_map_seq {C} (g : R -> R -> C) (f h : nat -> R) l : zip g (map f l) (map h l) = map (fun j => g (f j) (h j)) l.
Proof. induction l; cbn; congruence. Qed.
Lemma at_pairs_el a b : vN a = vN b -> at_pairs a b = zip pair (elements a) (elements b).
Proof. intros H. unfold at_pairs, elements. rewrite H. now rewrite zip_map_seq. Qed.
Lemma pairs_good a b : wf_vec a -> wf_vec b -> vN a = vN b -> (vInc a = 1%nat /\ vInc b = 1%nat \/ (vRaw a && vRaw b)%bool = false) ->
  pairs a b = Some (zip pair (elements a) (elements b)).
Proof.
  intros HA HB HN HC. unfold pairs. destruct (vRaw a && vRaw b)%bool eqn:E; [|now rewrite at_pairs_el].
  destruct HC as [[IA IB]|HC]; [|congruence]. unfold raw_pairs. rewrite (elements_contig a), (elements_contig b) by auto.
  destruct HA as (_ & _ & LA), HB as (_ & _ & LB). rewrite IA in LA. rewrite IB in LB.
  replace (Nat.leb _ _) with true; [reflexivity|]. symmetry. apply Nat.leb_le. lia.
Qed.
Lemma map_zip_pair {C} (g : R -> R -> C) a : forall b, map (fun xy => g (fst xy) (snd xy)) (zip pair a b) = zip g a b.
Proof. intros b. rewrite (zip_map (fun xy => g (fst xy) (snd xy)) pair). now apply zip_ext. Qed.
Lemma elements_hd v : (1 <= vN v)%nat -> exists r, elements v = at_vec v 0 :: r.
Proof. intros H. unfold elements. destruct (vN v); [lia|]. cbn. eauto. Qed.
Lemma elements_1 v : vN v = 1%nat -> elements v = [at_vec v 0].
Proof. intros H. unfold elements. now rewrite H. Qed.
Lemma elements_2 v : (2 <= vN v)%nat -> exists x y r, elements v = x :: y :: r.
Proof. intros H. unfold elements. destruct (vN v) as [|[|n]]; try lia. cbn. eauto. Qed.

Lemma vmink_good p a b : wf_vec a -> wf_vec b -> vN a = vN b -> (vInc a = 1%nat /\ vInc b = 1%nat \/ (vRaw a && vRaw b)%bool = false) ->
  vminkowski p a b = Some (minkowski p (elements a) (elements b)).
Proof.
  intros HA HB HN HC. unfold vminkowski, minkowski.
  assert (E: vminkowski_p p a b = Some (minkowski_p p (elements a) (elements b))).
  { unfold vminkowski_p. rewrite (pairs_good a b) by auto. destruct (Nat.eqb_spec (vN a) 1) as [E|E].
    - rewrite (elements_1 a), (elements_1 b) by congruence. reflexivity.
    - destruct (elements_2 a) as (x & y & r & EA); [destruct HA; lia|]. destruct (elements_2 b) as (x' & y' & r' & EB); [destruct HB; lia|].
      rewrite EA, EB. unfold minkowski_p. f_equal. destruct p as [p|].
      + rewrite (map_zip_pair (fun u v => rpow (Rabs (v - u)) p)). reflexivity.
      + rewrite (map_zip_pair (fun u v => Rabs (v - u))). reflexivity. }
  rewrite E. destruct p; reflexivity.
Qed.
Lemma veuclid_good a b : wf_vec a -> wf_vec b -> vN a = vN b -> (vInc a = 1%nat /\ vInc b = 1%nat \/ (vRaw a && vRaw b)%bool = false) ->
  veuclidean a b = Some (euclidean (elements a) (elements b)).
Proof.
  intros HA HB HN HC. unfold veuclidean. rewrite (pairs_good a b) by auto. destruct (Nat.eqb_spec (vN a) 1) as [E|E].
  - rewrite (elements_1 a), (elements_1 b) by congruence. reflexivity.
  - destruct (elements_2 a) as (x & y & r & EA); [destruct HA; lia|]. destruct (elements_2 b) as (x' & y' & r' & EB); [destruct HB; lia|].
    rewrite EA, EB. unfold euclidean. rewrite (map_zip_pair (fun u v => (v - u) * (v - u))). reflexivity.
Qed.
Lemma ceuclid_good a b : (1 <= vN a)%nat -> vN a = vN b -> ceuclidean a b = euclidean (elements a) (elements b).
Proof.
  intros HA HN. unfold ceuclidean. rewrite at_pairs_el by auto. destruct (Nat.eqb_spec (vN a) 1) as [E|E].
  - rewrite (elements_1 a), (elements_1 b) by congruence. reflexivity.
  - destruct (elements_2 a) as (x & y & r & EA); [lia|]. destruct (elements_2 b) as (x' & y' & r' & EB); [lia|].
    rewrite EA, EB. unfold euclidean. rewrite (map_zip_pair (fun u v => (v - u) * (v - u))). reflexivity.
Qed.
Lemma row_view_wf rows cols data i : length data = (rows * cols)%nat -> (i < rows)%nat -> (1 <= cols)%nat -> wf_vec (row_view cols data i).
Proof.
  intros HL HI HC. unfold wf_vec, row_view. cbn. repeat split; try lia. rewrite firstn_length, skipn_length. rewrite HL.
  assert (cols <= rows * cols - i * cols)%nat by (rewrite <- Nat.mul_sub_distr_r; nia). lia.
Qed.
Lemma col_view_wf rows cols data j : length data = (rows * cols)%nat -> (1 <= rows)%nat -> (j < cols)%nat -> wf_vec (col_view rows cols data j).
Proof.
  intros HL HR HJ. unfold wf_vec, col_view. cbn [vN vInc vData]. repeat split; try lia. rewrite firstn_length, skipn_length. rewrite HL.
  destruct rows as [|r]; [lia|]. cbn [Nat.sub]. rewrite Nat.sub_0_r. cbn [Nat.mul]. nia.
Qed.
Lemma nth_firstn_lt (l : list R) : forall n i, (i < n)%nat -> nth i (firstn n l) 0 = nth i l 0.
Proof. induction l as [|x l IH]; intros [|n] [|i] H; cbn; try lia; auto. apply IH. lia. Qed.
Lemma nth_skipn_add (l : list R) : forall k i, nth i (skipn k l) 0 = nth (k + i) l 0.
Proof. induction l as [|x l IH]; intros [|k] i; cbn; auto. - now destruct i. Qed.
Lemma col_view_el rows cols data j : (1 <= rows)%nat -> elements (col_view rows cols data j) = map (fun i => nth (i * cols + j) data 0) (seq 0 rows).
Proof.
  intros HR. unfold elements, at_vec, col_view. cbn [vN vInc vData]. apply map_ext_in. intros i HI. apply in_seq in HI.
  rewrite nth_firstn_lt by nia. rewrite nth_skipn_add. f_equal. lia.
Qed.
