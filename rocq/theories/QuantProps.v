(* Properties of QuantileTransformer *)
From Coq Require Import Lia Qminmax.
From Verif Require Import QCommon QuantModel QuantProofs.
Import ListNotations.
Open Scope nat_scope.

(* C132: on a column that is sorted already the quantiles increase from its least to its greatest value *)
Theorem C132_sorted_partial : forall nq v, 2 <= nq -> v <> [] -> (forall i j, i <= j -> j < length v -> (nth i v 0 <= nth j v 0)%Q) ->
  (forall i j, i <= j -> j < nq -> (nth i (qt_fit nq v) 0 <= nth j (qt_fit nq v) 0)%Q) /\
  (nth 0 (qt_fit nq v) 0 == nth 0 v 0)%Q /\ (nth (nq - 1) (qt_fit nq v) 0 == nth (length v - 1) v 0)%Q.
Proof. exact qt_sorted. Qed.
Print Assumptions C132_sorted_partial.
(* but the column is never sorted: with as many quantiles as rows the quantiles are the column as it stands *)
Theorem C132_unsorted_refuted : forall v, 2 <= length v -> qt_fit (length v) v = v.
Proof. intros v H. now apply qt_all. Qed.
Print Assumptions C132_unsorted_refuted.
(* so the same rows in another order give other quantiles *)
Theorem C132_row_order_refuted : forall v w, Permutation.Permutation v w -> v <> w -> 2 <= length v -> qt_fit (length v) v <> qt_fit (length v) w.
Proof. intros v w HP HN HL. rewrite (qt_all _ v) by auto. rewrite (qt_all _ w); [exact HN| |exact HL]. symmetry. now apply Permutation.Permutation_length. Qed.
Print Assumptions C132_row_order_refuted.
Example C132_ex : qt_fit 3 [5; 1; 3]%Q = [5; 1; 3]%Q /\ (Forall2 Qeq (qt_fit 3 [1; 3; 5; 9]) [1; 4; 9])%Q.
Proof. split; [reflexivity|]. repeat constructor. Qed.

(* C133: when the quantiles increase strictly, values between the first and last one go into [eps, 1-eps] and keep their order *)
Theorem C133_range_partial : forall nq qs x, 2 <= nq -> (forall i j, i < j -> j <= nq - 1 -> (nth i qs 0 < nth j qs 0)%Q) ->
  (nth 0 qs 0 <= x)%Q -> (x <= nth (nq - 1) qs 0)%Q -> exists y, qt_cell nq qs x = Some y /\ (1 # 10000000 <= y)%Q /\ (y <= 1 - (1 # 10000000))%Q.
Proof. intros nq qs x Hq HS. exact (@cell_range nq qs Hq HS x). Qed.
Print Assumptions C133_range_partial.
Theorem C133_monotone_partial : forall nq qs x x', 2 <= nq -> (forall i j, i < j -> j <= nq - 1 -> (nth i qs 0 < nth j qs 0)%Q) ->
  (nth 0 qs 0 <= x)%Q -> (x <= x')%Q -> (x' <= nth (nq - 1) qs 0)%Q ->
  exists y y', qt_cell nq qs x = Some y /\ qt_cell nq qs x' = Some y' /\ (y <= y')%Q.
Proof. intros nq qs x x' Hq HS. exact (@cell_mono nq qs Hq HS x x'). Qed.
Print Assumptions C133_monotone_partial.
(* quantile number i goes to i/(NQuantiles-1), cut off at eps and 1-eps *)
Theorem C133_reference_partial : forall nq qs i, 2 <= nq -> (forall i j, i < j -> j <= nq - 1 -> (nth i qs 0 < nth j qs 0)%Q) -> i < nq ->
  exists y, qt_cell nq qs (nth i qs 0%Q) = Some y /\ (y == Qmin (1 - (1 # 10000000)) (Qmax (1 # 10000000) (qn i / qn (nq - 1))))%Q.
Proof. intros nq qs i Hq HS. exact (@cell_ref nq qs Hq HS i). Qed.
Print Assumptions C133_reference_partial.
(* a value above every quantile is mapped to 0, below all others *)
Theorem C133_above_refuted : forall nq qs x, (forall i, i < nq -> (nth i qs 0 < x)%Q) -> qt_cell nq qs x = Some 0%Q.
Proof. exact cell_above. Qed.
Print Assumptions C133_above_refuted.
(* a column of equal values is transformed to NaN *)
Theorem C133_constant_refuted : forall nq v c x, 2 <= nq -> v <> [] -> (forall a, In a v -> a = c) -> (x == c)%Q -> qt_cell nq (qt_fit nq v) x = None.
Proof.
  intros nq v c x Hq Hv HC HX. assert (HV : forall i, i < length v -> nth i v 0%Q = c) by (intros i Hi; apply HC, nth_In; exact Hi).
  assert (HL : 0 < length v) by (destruct v; [congruence|cbn; lia]).
  assert (HS : sortedq v) by (intros i j Hij Hj; rewrite !HV by lia; apply Qle_refl).
  destruct (@qt_sorted nq v Hq Hv HS) as (M & F & L). rewrite HV in F by lia. rewrite HV in L by lia.
  apply cell_tie; [exact Hq|lra|]. pose proof (M 0 1 ltac:(lia) ltac:(lia)). pose proof (M 1 (nq - 1) ltac:(lia) ltac:(lia)). lra.
Qed.
Print Assumptions C133_constant_refuted.
Example C133_ex : qt_cell 3 [1; 3; 7]%Q 10%Q = Some 0%Q /\ (exists y, qt_cell 3 [1; 3; 7]%Q 5%Q = Some y /\ y == 3 # 4)%Q.
Proof. split; [reflexivity|]. eexists. split; [vm_compute; reflexivity|]. reflexivity. Qed.

(* C134: columns with a number below NQuantiles are transformed with their own quantiles *)
Theorem C134_columns_partial : forall nq quantiles X c, c < length X -> c < nq ->
  nth c (qt_transform nq quantiles X) [] = map (qt_cell nq (nth c quantiles [])) (nth c X []).
Proof.
  intros nq quantiles X c HX Hq. unfold qt_transform.
  set (f := fun c => map (if c <? nq then qt_cell nq (nth c quantiles []) else fun _ => Some 0%Q) (nth c X [])).
  rewrite (nth_indep _ [] (f 0)) by (rewrite map_length, seq_length; exact HX). rewrite map_nth, seq_nth by exact HX. unfold f. cbn [Nat.add]. destruct (Nat.ltb_spec c nq); [reflexivity|lia].
Qed.
Print Assumptions C134_columns_partial.
(* all other columns become 0 *)
Theorem C134_columns_refuted : forall nq quantiles X c, c < length X -> nq <= c -> nth c (qt_transform nq quantiles X) [] = map (fun _ => Some 0%Q) (nth c X []).
Proof.
  intros nq quantiles X c HX Hq. unfold qt_transform.
  set (f := fun c => map (if c <? nq then qt_cell nq (nth c quantiles []) else fun _ => Some 0%Q) (nth c X [])).
  rewrite (nth_indep _ [] (f 0)) by (rewrite map_length, seq_length; exact HX). rewrite map_nth, seq_nth by exact HX. unfold f. cbn [Nat.add]. destruct (Nat.ltb_spec c nq); [lia|reflexivity].
Qed.
Print Assumptions C134_columns_refuted.
Example C134_ex : qt_transform 2 [[0; 1]; [0; 1]; [0; 1]]%Q [[1 # 2]; [1 # 2]; [1 # 2]]%Q = [[Some (1 # 2)]; [Some (1 # 2)]; [Some 0]]%Q.
Proof. vm_compute. reflexivity. Qed.
