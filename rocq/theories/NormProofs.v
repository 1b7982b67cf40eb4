From Coq Require Import Reals String List ZArith Lra Lia Permutation.
From Verif Require Import NormModel.
Import ListNotations.
Open Scope R_scope.

Lemma rsum_nonneg l : (forall x, In x l -> 0 <= x) -> 0 <= rsum l.
Proof. induction l as [|x l IH]; intros H; cbn; [lra|]. pose proof (H x (or_introl eq_refl)). assert (0 <= rsum l) by (apply IH; intros; apply H; cbn; auto). unfold rsum in *. lra. Qed.
Lemma rsum_scale c l : rsum (map (Rmult c) l) = c * rsum l.
Proof. induction l as [|x l IH]; cbn; [ring|]. unfold rsum in *. rewrite IH. ring. Qed.
Lemma rsum_zero l : (forall x, In x l -> 0 <= x) -> rsum l = 0 -> forall x, In x l -> x = 0.
Proof.
  induction l as [|y l IH]; intros H E x Hx; [destruct Hx|]. cbn in E. fold (rsum l) in E.
  assert (A: 0 <= y) by (apply H; cbn; auto). assert (B: 0 <= rsum l) by (apply rsum_nonneg; intros; apply H; cbn; auto).
  destruct Hx as [<-|Hx]; [lra|]. apply IH; auto; [intros; apply H; cbn; auto|lra].
Qed.
Lemma norm_nonneg k v : 0 <= norm_of k v.
Proof.
  destruct k; cbn.
  - apply rsum_nonneg. intros x Hx. apply in_map_iff in Hx as (y & <- & _). apply Rabs_pos.
  - apply sqrt_pos.
  - induction v as [|x v IH]; cbn; [lra|]. eapply Rle_trans; [apply IH|apply Rmax_r].
Qed.
Lemma norm_scale k c v : norm_of k (map (Rmult c) v) = Rabs c * norm_of k v.
Proof.
  destruct k; cbn.
  - rewrite map_map. rewrite <- rsum_scale, map_map. f_equal. apply map_ext. intros x. apply Rabs_mult.
  - rewrite map_map. rewrite <- (sqrt_Rsqr_abs c), <- sqrt_mult_alt by apply Rle_0_sqr. f_equal. rewrite <- rsum_scale, map_map. f_equal. apply map_ext. intros x. unfold Rsqr. ring.
  - induction v as [|x v IH]; cbn; [ring|]. rewrite IH, Rabs_mult. rewrite RmaxRmult; auto. apply Rabs_pos.
Qed.
Lemma norm_zero k v : norm_of k v = 0 <-> forall x, In x v -> x = 0.
Proof.
  destruct k; cbn.
  - split.
    + intros E x Hx. assert (Rabs x = 0). { apply (rsum_zero (map Rabs v)); auto; [intros y Hy; apply in_map_iff in Hy as (z & <- & _); apply Rabs_pos|now apply in_map]. }
      destruct (Req_dec x 0) as [|N]; auto. apply Rabs_no_R0 in N. tauto.
    + intros H. induction v as [|x v IH]; cbn; auto. fold (rsum (map Rabs v)). rewrite IH by (intros; apply H; cbn; auto). rewrite (H x) by (cbn; auto). rewrite Rabs_R0. ring.
  - assert (P: forall y, In y (map (fun x => x * x) v) -> 0 <= y) by (intros y Hy; apply in_map_iff in Hy as (z & <- & _); apply Rle_0_sqr). split.
    + intros E x Hx. apply sqrt_eq_0 in E; [|now apply rsum_nonneg].
      assert (x * x = 0) by (apply (rsum_zero (map (fun x => x * x) v)); auto; apply in_map_iff; eauto). apply Rmult_integral in H. tauto.
    + intros H. replace (rsum (map (fun x => x * x) v)) with 0; [apply sqrt_0|]. clear P. induction v as [|x v IH]; cbn; auto. fold (rsum (map (fun x => x * x) v)).
      rewrite <- IH by (intros; apply H; cbn; auto). rewrite (H x) by (cbn; auto). ring.
  - split.
    + intros E x Hx. assert (G: forall v, In x v -> Rabs x <= fold_right (fun x m => Rmax (Rabs x) m) 0 v).
      { clear. induction v as [|y v IH]; intros Hin; [destruct Hin|]. cbn. destruct Hin as [<-|Hin]; [apply Rmax_l|]. eapply Rle_trans; [apply IH; auto|apply Rmax_r]. }
      specialize (G v Hx). rewrite E in G. pose proof (Rabs_pos x). destruct (Req_dec x 0) as [|N]; auto. apply Rabs_no_R0 in N. lra.
    + intros H. induction v as [|x v IH]; cbn; auto. rewrite IH by (intros; apply H; cbn; auto). rewrite (H x) by (cbn; auto). rewrite Rabs_R0. apply Rmax_left. lra.
Qed.
Lemma scale_vec_length k v : length (scale_vec k v) = length v.
Proof. unfold scale_vec. destruct (Req_EM_T _ _); auto. apply map_length. Qed.
(* what one vector becomes *)
Lemma scale_vec_spec k v : (forall x, In x v -> x = 0) /\ scale_vec k v = v \/
  (exists x, In x v /\ x <> 0) /\ 0 < norm_of k v /\ scale_vec k v = map (fun x => x / norm_of k v) v /\ norm_of k (scale_vec k v) = 1.
Proof.
  unfold scale_vec. destruct (Req_EM_T (norm_of k v) 0) as [E|E].
  - left. split; auto. now apply (norm_zero k v).
  - right. pose proof (norm_nonneg k v). assert (P: 0 < norm_of k v) by lra. split.
    + destruct (Exists_dec (fun x => x <> 0) v) as [X|X].
      * intros x. destruct (Req_EM_T x 0); [right|left]; tauto.
      * apply Exists_exists in X. exact X.
      * exfalso. apply E, norm_zero. intros x Hx. destruct (Req_EM_T x 0); auto. exfalso. apply X, Exists_exists. eauto.
    + split; auto. split; [apply map_ext; intros; field; auto|]. rewrite norm_scale, Rabs_right; [field; auto|]. apply Rle_ge. unfold Rdiv. rewrite Rmult_1_l. left. now apply Rinv_0_lt_compat.
Qed.
Lemma scale_vec_pos k c v : 0 < c -> scale_vec k (map (Rmult c) v) = scale_vec k v.
Proof.
  intros Hc. unfold scale_vec. rewrite norm_scale, Rabs_right by lra.
  destruct (Req_EM_T (c * norm_of k v) 0) as [E|E]; destruct (Req_EM_T (norm_of k v) 0) as [F|F].
  - pose proof (proj1 (norm_zero k v) F) as Z. clear -Z. induction v as [|x v IH]; cbn; auto. rewrite IH by (intros; apply Z; cbn; auto). rewrite (Z x) by (cbn; auto). f_equal. ring.
  - apply Rmult_integral in E. lra.
  - rewrite F in E. lra.
  - rewrite map_map. apply map_ext. intros x. field. split; lra.
Qed.
Lemma scale_vec_idem k v : scale_vec k (scale_vec k v) = scale_vec k v.
Proof.
  unfold scale_vec at 2 3. destruct (Req_EM_T (norm_of k v) 0) as [E|E].
  - unfold scale_vec. now destruct (Req_EM_T (norm_of k v) 0).
  - assert (P: 0 < 1 / norm_of k v). { unfold Rdiv. rewrite Rmult_1_l. apply Rinv_0_lt_compat. pose proof (norm_nonneg k v). lra. }
    rewrite scale_vec_pos by auto. unfold scale_vec. destruct (Req_EM_T (norm_of k v) 0); tauto.
Qed.
Lemma column_length X j : length (column X j) = length X. Proof. apply map_length. Qed.
Lemma nth_map_seq (f : nat -> R) n i : (i < n)%nat -> nth i (map f (seq 0 n)) 0 = f i.
Proof. intros H. rewrite (nth_indep _ 0 (f 0%nat)) by (now rewrite map_length, seq_length). rewrite map_nth, seq_nth; auto. Qed.
Lemma nth_map_seq_l (f : nat -> list R) n i : (i < n)%nat -> nth i (map f (seq 0 n)) [] = f i.
Proof. intros H. rewrite (nth_indep _ [] (f 0%nat)) by (now rewrite map_length, seq_length). rewrite map_nth, seq_nth; auto. Qed.
Lemma map_nth_seq (l : list R) n : length l = n -> map (fun i => nth i l 0) (seq 0 n) = l.
Proof.
  intros <-. apply (nth_ext _ _ 0 0); [now rewrite map_length, seq_length|]. rewrite map_length, seq_length. intros i Hi. now apply nth_map_seq.
Qed.
Lemma axis0_columns norm c X Y : norm_transform norm 0 c X = Some Y -> length Y = length X /\ Forall (fun r => length r = c) Y /\
  forall j, (j < c)%nat -> column Y j = scale_vec (norm_kind norm) (column X j).
Proof.
  unfold norm_transform. cbn [Z.eqb]. intros E. injection E as <-. split; [now rewrite map_length, seq_length|]. split.
  - apply Forall_forall. intros r Hr. apply in_map_iff in Hr as (i & <- & _). now rewrite map_length, seq_length.
  - intros j Hj. unfold column at 1. rewrite map_map.
    transitivity (map (fun i => nth i (scale_vec (norm_kind norm) (column X j)) 0) (seq 0 (length X))).
    + apply map_ext_in. intros i Hi. rewrite nth_map_seq, nth_map_seq_l by auto. reflexivity.
    + apply map_nth_seq. now rewrite scale_vec_length, column_length.
Qed.
(* the vectors the transformer works on: rows, or columns with Axis 0 *)
Definition lines (axis : Z) (c : nat) (X : list (list R)) : list (list R) :=
  if Z.eqb axis 0 then map (column X) (seq 0 c) else X.
Lemma norm_lines norm axis c X Y : norm_transform norm axis c X = Some Y -> lines axis c Y = map (scale_vec (norm_kind norm)) (lines axis c X).
Proof.
  intros E. unfold lines. destruct (Z.eqb_spec axis 0) as [->|N].
  - destruct (axis0_columns _ _ _ _ E) as (_ & _ & H). rewrite map_map. apply map_ext_in. intros j Hj. apply H. apply in_seq in Hj. lia.
  - unfold norm_transform in E. rewrite (proj2 (Z.eqb_neq _ _) N) in E. destruct X as [|r X]; [injection E as <-; reflexivity|].
    destruct (Nat.eqb c (length (r :: X))); [|discriminate]. injection E as <-. reflexivity.
Qed.
Lemma norm_shape norm axis c X Y : Forall (fun r => length r = c) X -> norm_transform norm axis c X = Some Y -> length Y = length X /\ Forall (fun r => length r = c) Y.
Proof.
  intros HF E. destruct (Z.eqb_spec axis 0) as [->|N].
  - destruct (axis0_columns _ _ _ _ E) as (A & B & _). auto.
  - unfold norm_transform in E. rewrite (proj2 (Z.eqb_neq _ _) N) in E. destruct X as [|r X]; [injection E as <-; auto|].
    destruct (Nat.eqb c (length (r :: X))); [|discriminate]. injection E as <-. change (scale_vec (norm_kind norm) r :: map (scale_vec (norm_kind norm)) X) with (map (scale_vec (norm_kind norm)) (r :: X)). split; [apply map_length|].
    apply Forall_forall. intros v Hv. apply in_map_iff in Hv as (u & <- & Hu). rewrite scale_vec_length. rewrite Forall_forall in HF. auto.
Qed.
Lemma rows_of_lines c : forall axis X Y, length X = length Y -> Forall (fun r => length r = c) X -> Forall (fun r => length r = c) Y -> lines axis c X = lines axis c Y -> X = Y.
Proof.
  intros axis X Y HL HX HY E. unfold lines in E. destruct (Z.eqb axis 0); auto.
  apply (nth_ext _ _ [] []); auto. intros i Hi. rewrite Forall_forall in HX, HY.
  apply (nth_ext _ _ 0 0). { rewrite HX, HY; auto; apply nth_In; lia. }
  intros j Hj. rewrite HX in Hj by (apply nth_In; auto).
  assert (C: column X j = column Y j).
  { rewrite <- (nth_map_seq_l (column X) c j Hj), <- (nth_map_seq_l (column Y) c j Hj). now rewrite E. }
  assert (G: forall Z i, (i < length Z)%nat -> nth i (column Z j) 0 = nth j (nth i Z []) 0).
  { clear. intros Z i Hi. unfold column. rewrite (nth_indep _ 0 (nth j [] 0)) by (now rewrite map_length). apply (map_nth (fun r => nth j r 0)). }
  rewrite <- G by auto. rewrite <- (G Y) by lia. now rewrite C.
Qed.
Lemma norm_defined norm axis c X : (axis = 0%Z \/ X = [] \/ c = length X) <-> exists Y, norm_transform norm axis c X = Some Y.
Proof.
  unfold norm_transform. destruct (Z.eqb_spec axis 0) as [->|N]; [split; eauto|]. destruct X as [|r X]; [split; eauto|].
  destruct (Nat.eqb_spec c (length (r :: X))); split; eauto; [intros [|[|]]; congruence|intros (Y & E); discriminate].
Qed.
