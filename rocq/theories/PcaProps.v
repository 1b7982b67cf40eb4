(* Properties of PCA *)
From Coq Require Import Reals Lra Lia List Arith.
From Verif Require Import MtModel MtProofs PcaModel PcaProofs.
Import ListNotations.
Open Scope R_scope.

(* the decomposition that SVD.Factorize promises, for r >= c *)
Definition svd_spec (r c : nat) (X U V : rmtx) (s : nat -> R) : Prop :=
  (forall i j, (i < r)%nat -> (j < c)%nat -> X i j = rs c (fun k => U i k * s k * V j k)) /\
  (forall a b, (a < c)%nat -> (b < c)%nat -> rs r (fun i => U i a * U i b) = (if Nat.eqb a b then 1 else 0)) /\
  (forall a b, (a < c)%nat -> (b < c)%nat -> rs c (fun j => V j a * V j b) = (if Nat.eqb a b then 1 else 0)) /\
  (forall a b, (a < c)%nat -> (b < c)%nat -> rs c (fun k => V a k * V b k) = (if Nat.eqb a b then 1 else 0)).

(* C135: when all components are kept, InverseTransform undoes Transform on every matrix *)
Theorem C135_round_trip_partial : forall m r c X U V s m' n Z Y, svd_spec r c X U V s -> pca_fit m r c V s = Some m' -> p_ncomp m' = c ->
  pca_transform m' c Z = Some Y -> exists W, pca_inverse m' (p_ncomp m') Y = Some W /\ forall i j, (i < n)%nat -> (j < c)%nat -> W i j = Z i j.
Proof.
  intros m r c X U V s m' n Z Y (S1 & S2 & S3 & S4) HF HK HT. unfold pca_fit in HF. destruct (r <? c)%nat; [discriminate|]. injection HF as <-.
  unfold pca_transform, pca_inverse in *. cbn [p_c p_ncomp p_V] in *. rewrite HK in *. rewrite Nat.ltb_irrefl, Nat.eqb_refl in *. injection HT as <-.
  eexists. split; [reflexivity|]. intros i j Hi Hj. transitivity (rs c (fun k => rs c (fun l => Z i l * (V l k * V j k)))).
  { apply rs_ext. intros k Hk. rewrite <- rs_scale_r. apply rs_ext. intros; ring. }
  rewrite rs_swap. transitivity (rs c (fun l => Z i l * delta l j)).
  { apply rs_ext. intros l Hl. rewrite rs_scale. f_equal. unfold delta. now apply S4. }
  now apply rs_delta.
Qed.
Print Assumptions C135_round_trip_partial.
(* when fewer are kept, InverseTransform of what Transform returned panics, for every data set *)
Theorem C135_reduced_refuted : forall m r c V s m' X, pca_fit m r c V s = Some m' -> (p_ncomp m' < c)%nat -> pca_inverse m' (p_ncomp m') X = None.
Proof.
  intros m r c V s m' X HF HK. unfold pca_fit in HF. destruct (r <? c)%nat; [discriminate|]. injection HF as <-. unfold pca_inverse. cbn [p_c p_ncomp] in *.
  match goal with |- (if Nat.eqb ?a c then _ else _) = _ => destruct (Nat.eqb_spec a c); [lia|reflexivity] end.
Qed.
Print Assumptions C135_reduced_refuted.

(* C136: ExplainedVarianceRatio: the ratios add up to 1, and ratio j is the part of the sum of squares of X that component j carries *)
Theorem C136_ratio_partial : forall m r c X U V s m', svd_spec r c X U V s -> pca_fit m r c V s = Some m' -> rs r (fun i => rs c (fun j => X i j * X i j)) <> 0 ->
  rs c (p_ratio m') = 1 /\ forall a, (a < c)%nat -> p_ratio m' a =
    rs r (fun i => rs c (fun j => X i j * V j a) * rs c (fun j => X i j * V j a)) / rs r (fun i => rs c (fun j => X i j * X i j)).
Proof.
  intros m r c X U V s m' (S1 & S2 & S3 & S4) HF HN. assert (HS : svd_of r c X U V s) by (constructor; unfold delta; auto).
  unfold pca_fit in HF. destruct (r <? c)%nat; [discriminate|]. injection HF as <-. cbn [p_ratio]. rewrite (frob _ _ _ _ _ _ HS) in *. split.
  - rewrite rs_scale. now apply Rinv_l.
  - intros a Ha. rewrite (proj_gram _ _ _ _ _ _ HS a a Ha Ha). unfold delta. rewrite Nat.eqb_refl. unfold Rdiv. ring.
Qed.
Print Assumptions C136_ratio_partial.
(* but the data are not centred: a column of equal values, which has variance 0, gets the ratio 1 *)
Theorem C136_variance_refuted : forall m n v m', (0 < n)%nat -> v <> 0 ->
  let X := fun _ _ : nat => v in let V := fun _ _ : nat => 1 in let s := fun _ : nat => sqrt (INR n) * v in let U := fun _ _ : nat => / sqrt (INR n) in
  svd_spec n 1 X U V s /\ (pca_fit m n 1 V s = Some m' -> p_ratio m' 0%nat = 1 /\
    rs n (fun i => (X i 0%nat - rs n (fun k => X k 0%nat) / INR n) * (X i 0%nat - rs n (fun k => X k 0%nat) / INR n)) = 0).
Proof.
  intros m n v m' Hn Hv X V s U. assert (HI : 0 < INR n) by now apply lt_0_INR. assert (HQ : sqrt (INR n) <> 0) by (apply Rgt_not_eq; now apply sqrt_lt_R0).
  assert (RC : forall c, rs n (fun _ => c) = INR n * c).
  { intros c. clear. induction n as [|n IH]; [cbn; ring|]. cbn [rs]. rewrite IH, S_INR. ring. }
  split.
  - unfold svd_spec, X, V, s, U. split; [|split; [|split]].
    + intros i j Hi Hj. cbn [rs]. field. exact HQ.
    + intros a b Ha Hb. assert (a = 0%nat) by lia. assert (b = 0%nat) by lia. subst. cbn [Nat.eqb]. rewrite RC. rewrite <- Rinv_mult. rewrite sqrt_sqrt by lra. now apply Rinv_r, Rgt_not_eq.
    + intros a b Ha Hb. assert (a = 0%nat) by lia. assert (b = 0%nat) by lia. subst. cbn. ring.
    + intros a b Ha Hb. assert (a = 0%nat) by lia. assert (b = 0%nat) by lia. subst. cbn. ring.
  - intros HF. unfold pca_fit in HF. destruct (n <? 1)%nat; [discriminate|]. injection HF as <-. cbn [p_ratio]. split.
    + cbn [rs]. rewrite Rplus_0_l. apply Rinv_l. unfold s. intros E. apply Rmult_integral in E. destruct E as [E|E]; apply Rmult_integral in E; destruct E; contradiction.
    + unfold X. rewrite !RC. field. lra.
Qed.
Print Assumptions C136_variance_refuted.

(* C137: with MinVarianceRatio set, NComponents is the least number of components that reaches it *)
Theorem C137_components : forall m r c V s m', 0 < p_min m -> pca_fit m r c V s = Some m' ->
  (p_ncomp m' <= c)%nat /\ (forall j, (j < p_ncomp m')%nat -> rs j (p_ratio m') < p_min m) /\ (p_ncomp m' = c \/ p_min m <= rs (p_ncomp m') (p_ratio m')).
Proof.
  intros m r c V s m' HM HF. unfold pca_fit in HF. destruct (r <? c)%nat; [discriminate|]. injection HF as <-. cbn [p_ncomp p_ratio]. destruct (rltb_spec 0 (p_min m)); [|lra].
  destruct (ncomp_spec (fun j => / rs c (fun k => s k * s k) * (s j * s j)) (p_min m) c 0) as (A & B & C). cbn [rs] in *. split; [lia|]. split; [intros j Hj; apply B; lia|].
  destruct C as [C|C]; [left; exact C|now right].
Qed.
Print Assumptions C137_components.
(* without it, the number of components of the first fit is kept: a later fit of fewer columns gives a PCA whose Transform panics on every matrix *)
Theorem C137_refit_refuted : forall m r c V s m1 r2 c2 V2 s2 m2, p_min m = 0 -> p_ncomp m = O -> pca_fit m r c V s = Some m1 -> (c2 < c)%nat ->
  pca_fit m1 r2 c2 V2 s2 = Some m2 -> forall cols X, pca_transform m2 cols X = None.
Proof.
  intros m r c V s m1 r2 c2 V2 s2 m2 HM HN H1 HC H2 cols X. unfold pca_fit in H1. destruct (r <? c)%nat; [discriminate|]. injection H1 as <-. rewrite HM, HN in H2.
  unfold pca_fit in H2. destruct (r2 <? c2)%nat; [discriminate|]. injection H2 as <-. cbn [p_min p_ncomp]. destruct (rltb_spec 0 0); [lra|]. cbn [Nat.eqb].
  unfold pca_transform. cbn [p_c p_ncomp]. destruct (Nat.eqb_spec c 0); [lia|]. destruct (Nat.ltb_spec c2 c); [reflexivity|lia].
Qed.
Print Assumptions C137_refit_refuted.

(* C138: the columns of the transformed training matrix are orthogonal and their lengths are the singular values *)
Theorem C138_orthogonal : forall m r c X U V s m' Y, svd_spec r c X U V s -> pca_fit m r c V s = Some m' -> pca_transform m' c X = Some Y ->
  forall a b, (a < p_ncomp m')%nat -> (b < p_ncomp m')%nat -> rs r (fun i => Y i a * Y i b) = if Nat.eqb a b then s a * s a else 0.
Proof.
  intros m r c X U V s m' Y (S1 & S2 & S3 & S4) HF HT a b Ha Hb. assert (HS : svd_of r c X U V s) by (constructor; unfold delta; auto).
  unfold pca_fit in HF. destruct (r <? c)%nat; [discriminate|]. injection HF as <-. unfold pca_transform in HT. cbn [p_c p_ncomp p_V] in *.
  match type of HT with (if (c <? ?k)%nat then _ else _) = _ => destruct (Nat.ltb_spec c k) as [HK|HK]; [discriminate|] end. rewrite Nat.eqb_refl in HT. injection HT as <-.
  rewrite (proj_gram _ _ _ _ _ _ HS a b) by lia. unfold delta. destruct (Nat.eqb_spec a b) as [->|N]; ring.
Qed.
Print Assumptions C138_orthogonal.

(* C139: a matrix with fewer rows than columns cannot be fitted, any other can *)
Theorem C139_tall_partial : forall m r c V s, (c <= r)%nat -> pca_fit m r c V s <> None.
Proof. intros m r c V s H. unfold pca_fit. destruct (Nat.ltb_spec r c); [lia|discriminate]. Qed.
Print Assumptions C139_tall_partial.
Theorem C139_wide_refuted : forall m r c V s, (r < c)%nat -> pca_fit m r c V s = None.
Proof. intros m r c V s H. unfold pca_fit. destruct (Nat.ltb_spec r c); [reflexivity|lia]. Qed.
Print Assumptions C139_wide_refuted.

(* the decomposition of a 3 by 2 matrix, on which all of the above applies *)
Definition exX : rmtx := fun i j => match i, j with 0%nat, 0%nat => 3 | 1%nat, 1%nat => 4 | _, _ => 0 end.
Definition exU : rmtx := fun i j => match i, j with 0%nat, 1%nat => 1 | 1%nat, 0%nat => 1 | _, _ => 0 end.
Definition exV : rmtx := fun i j => match i, j with 0%nat, 1%nat => 1 | 1%nat, 0%nat => 1 | _, _ => 0 end.
Definition exs (k : nat) : R := match k with 0%nat => 4 | _ => 3 end.
Example C135_ex : svd_spec 3 2 exX exU exV exs.
Proof.
  unfold svd_spec. repeat split.
  - intros i j Hi Hj. destruct i as [|[|[|i]]]; try lia; destruct j as [|[|j]]; try lia; cbn; ring.
  - intros a b Ha Hb. destruct a as [|[|a]]; try lia; destruct b as [|[|b]]; try lia; cbn; ring.
  - intros a b Ha Hb. destruct a as [|[|a]]; try lia; destruct b as [|[|b]]; try lia; cbn; ring.
  - intros a b Ha Hb. destruct a as [|[|a]]; try lia; destruct b as [|[|b]]; try lia; cbn; ring.
Qed.
Definition pca0 (t : R) : pca := mkpca t 0 0 (fun _ _ => 0) (fun _ => 0) (fun _ => 0).
Example C137_ex : exists m', pca_fit (pca0 (1 / 2)) 3 2 exV exs = Some m' /\ p_ncomp m' = 1%nat /\ p_ratio m' 0%nat = 16 / 25.
Proof.
  eexists. split; [reflexivity|]. cbn [p_ncomp p_ratio pca0 p_min]. split; [|cbn; field]. destruct (rltb_spec 0 (1 / 2)); [|lra]. cbn [ncomp].
  destruct (rltb_spec 0 (1 / 2)); [|lra]. cbn [rs exs]. destruct (rltb_spec (0 + / (0 + 4 * 4 + 3 * 3) * (4 * 4)) (1 / 2)) as [H|H]; [|reflexivity].
  exfalso. replace (0 + / (0 + 4 * 4 + 3 * 3) * (4 * 4)) with (16 / 25) in H by field. lra.
Qed.
Example C138_ex : exists m' Y, pca_fit (pca0 0) 3 2 exV exs = Some m' /\ p_ncomp m' = 2%nat /\ pca_transform m' 2 exX = Some Y /\ Y 1%nat 0%nat = 4.
Proof.
  eexists. eexists. split; [reflexivity|]. cbn [p_ncomp pca0 p_min]. destruct (rltb_spec 0 0); [lra|]. split; [reflexivity|]. unfold pca_transform. cbn [p_ncomp p_c]. split; [reflexivity|]. cbn. ring.
Qed.
