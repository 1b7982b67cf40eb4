(* Properties of PowerTransformer *)
From Coq Require Import Reals Lra List.
From Verif Require Import MtModel MtProofs PowerModel PowerProofs.
Import ListNotations.
Open Scope R_scope.

(* C129: InverseTransform undoes Transform with Yeo-Johnson, with or without standardization, for every value and every lambda but 0 *)
Theorem C129_yeo_johnson_partial : forall l sc x, (x < 0 \/ l <> 0) -> (forall mu s, sc = Some (mu, s) -> s <> 0) ->
  bind (std sc (yj l x)) (fun y => yj_inv l (unstd sc y)) = Some x.
Proof. intros l sc x H HS. rewrite (std_round sc (yj l x) HS (yj_inv l)). now apply yj_round. Qed.
Print Assumptions C129_yeo_johnson_partial.
(* the same for whole matrices *)
Theorem C129_matrix_partial : forall par X, length par = length X ->
  (forall l sc, In (l, sc) par -> l <> 0 /\ forall mu s, sc = Some (mu, s) -> s <> 0) ->
  exists Y, snd (pt_transform YeoJohnson par X) = map (map (@Some R)) Y /\ pt_inverse YeoJohnson par Y = map (map (@Some R)) X.
Proof.
  induction par as [|[l sc] par IH]; intros [|c X] HL HP; try discriminate HL; [exists []; now split|].
  destruct (IH X ltac:(now injection HL)) as (Y & E1 & E2). { intros; apply HP; now right. }
  destruct (HP l sc (or_introl eq_refl)) as (Hl & Hs).
  set (f := fun x => match std sc (yj l x) with Some v => v | None => 0 end). exists (map f c :: Y).
  assert (F : forall x, std sc (yj l x) = Some (f x)) by (intros x; unfold f; rewrite (yj_val l x (or_intror Hl)); destruct sc as [[mu s]|]; reflexivity).
  unfold pt_transform, pt_inverse in *. cbn [combine map fst snd] in *. cbn [ptf ptinv] in *. split.
  - f_equal; [|exact E1]. rewrite !map_map. apply map_ext. exact F.
  - f_equal; [|exact E2]. rewrite !map_map. apply map_ext. intros x. pose proof (C129_yeo_johnson_partial l sc x (or_intror Hl) Hs) as R. rewrite F in R. exact R.
Qed.
Print Assumptions C129_matrix_partial.
(* lambda = 0 is never recognised, because Nextafter(1,1)-1 is 0: every non-negative value becomes NaN *)
(* the inverse is exact: for lambda other than 0, InverseTransform returns a number precisely for values some x is sent to, and that x *)
Theorem C129_inverse_exact_partial : forall l x y, l <> 0 -> (yj l x = Some y <-> yj_inv l y = Some x).
Proof.
  intros l x y N. split; [|now apply yj_back]. intros E. pose proof (yj_round l x (or_intror N)) as H. rewrite E in H. exact H.
Qed.
Print Assumptions C129_inverse_exact_partial.
(* so with a negative lambda large values cannot be inverted, and with lambda above 2 neither can large negative ones *)
Theorem C129_outside_partial : forall l y, (l < 0 -> 0 <= y -> (yj_inv l y = None <-> -1 / l <= y)) /\ (2 < l -> y < 0 -> (yj_inv l y = None <-> y <= -1 / (l - 2))).
Proof.
  intros l y. split; intros Hl Hy; unfold yj_inv, spacing.
  - destruct (rltb_spec y 0); [lra|]. destruct (rltb_spec (Rabs l) (1 - 1)) as [G|_]; [pose proof (Rabs_pos l); lra|].
    assert (A : y * l + 1 = - l * (-1 / l - y)) by (field; lra). pose proof (Rinv_lt_0_compat l Hl) as IL.
    destruct (Rtotal_order (y * l + 1) 0) as [B|[B|B]].
    + rewrite gpow_neg by exact B. split; [intros _; nra|reflexivity].
    + rewrite B, gpow_0. destruct (rltb_spec 0 (1 / l)) as [L|L]; [unfold Rdiv in L; lra|]. split; [intros _; nra|reflexivity].
    + rewrite gpow_pos by exact B. split; [discriminate|intros; nra].
  - destruct (rltb_spec y 0); [|lra]. destruct (rltb_spec (1 - 1) (Rabs (l - 2))) as [_|G]; [|exfalso; apply G; replace (1 - 1) with 0 by ring; apply Rabs_pos_lt; lra].
    assert (A : - (2 - l) * y + 1 = (l - 2) * (y - -1 / (l - 2))) by (field; lra). pose proof (Rinv_lt_0_compat (2 - l) ltac:(lra)) as IL.
    destruct (Rtotal_order (- (2 - l) * y + 1) 0) as [B|[B|B]].
    + rewrite gpow_neg by exact B. split; [intros _; nra|reflexivity].
    + rewrite B, gpow_0. destruct (rltb_spec 0 (1 / (2 - l))) as [L|L]; [unfold Rdiv in L; lra|]. split; [intros _; nra|reflexivity].
    + rewrite gpow_pos by exact B. split; [discriminate|intros; nra].
Qed.
Print Assumptions C129_outside_partial.
Theorem C129_lambda_zero_refuted : forall x, 0 <= x -> yj 0 x = None.
Proof. exact yj_zero. Qed.
Print Assumptions C129_lambda_zero_refuted.
(* Box-Cox: values above 1 come back, values below 1 come back as NaN, for every lambda *)
Theorem C129_box_cox_partial : forall l x, 1 < x -> bind (bc l x) (bc_inv l) = Some x.
Proof. exact bc_above. Qed.
Print Assumptions C129_box_cox_partial.
(* zeros are accepted by Box-Cox with a positive lambda but not given back *)
Theorem C129_box_cox_zero_refuted : forall l, (0 < l -> bc l 0 = Some (-1 / l) /\ bc_inv l (-1 / l) = None) /\ (l <= 0 -> bc l 0 = None).
Proof.
  intros l. unfold bc, bc_inv, bc_guard. destruct (rltb_spec 0 0); [lra|]. destruct (rltb_spec 0 l) as [L|L]; cbn [negb andb orb]; [|split; [lra|reflexivity]].
  split; [|lra]. intros _. destruct (reqb_spec l 0); [lra|]. rewrite gpow_0. destruct (rltb_spec 0 l); [|lra]. cbn [bind]. unfold gdiv. destruct (reqb_spec l 0); [lra|].
  assert (0 < / l) by now apply Rinv_0_lt_compat. split; [f_equal; f_equal; ring|].
  destruct (rltb_spec 0 (-1 / l)) as [G|_]; [unfold Rdiv in G; lra|]. destruct (rltb_spec (-1 / l) 0) as [_|G]; [reflexivity|unfold Rdiv in G; lra].
Qed.
Print Assumptions C129_box_cox_zero_refuted.
Theorem C129_box_cox_refuted : forall l x, 0 < x < 1 -> exists y, bc l x = Some y /\ bc_inv l y = None.
Proof. exact bc_below. Qed.
Print Assumptions C129_box_cox_refuted.
Example C129_ex : yj 2 1 = Some (3 / 2) /\ yj_inv 2 (3 / 2) = Some 1.
Proof.
  assert (E : yj 2 1 = Some (3 / 2)). { rewrite yj_val by (right; lra). f_equal. unfold yjr. destruct (rltb_spec 1 0); [lra|]. replace 2 with (INR 2) at 1 by reflexivity. rewrite Rpower_pow by lra. cbn. lra. }
  split; [exact E|]. pose proof (yj_round 2 1 ltac:(right; lra)) as R. rewrite E in R. exact R.
Qed.

(* C130: the transform keeps the order of the values *)
Theorem C130_monotone_partial : forall l x x', l <> 0 -> x < x' -> exists y y', yj l x = Some y /\ yj l x' = Some y' /\ y < y'.
Proof. exact yj_mono. Qed.
Print Assumptions C130_monotone_partial.
(* Box-Cox keeps the order of all positive values, whatever lambda, and zero stays below them when lambda is positive *)
Theorem C130_box_cox : forall l x x', (0 < x \/ (x = 0 /\ 0 < l)) -> x < x' -> exists y y', bc l x = Some y /\ bc l x' = Some y' /\ y < y'.
Proof.
  intros l x x' H L. rewrite (bc_val l x') by lra. destruct H as [P|[-> Pl]].
  - rewrite (bc_val l x P). eexists; eexists. split; [reflexivity|]. split; [reflexivity|]. destruct (reqb_spec l 0); [now apply ln_increasing|now apply quot_lt].
  - unfold bc, bc_guard. destruct (rltb_spec 0 0); [lra|]. destruct (rltb_spec 0 l) as [_|G]; [|lra]. cbn [negb andb orb]. destruct (reqb_spec l 0) as [E|N]; [lra|]. rewrite gpow_0. destruct (rltb_spec 0 l) as [_|G]; [|lra].
    cbn [bind]. unfold gdiv. destruct (reqb_spec l 0) as [E|_]; [lra|]. eexists; eexists. split; [reflexivity|]. split; [reflexivity|]. apply Rmult_lt_compat_r; [now apply Rinv_0_lt_compat|]. pose proof (Rpower_pos x' l). lra.
Qed.
Print Assumptions C130_box_cox.
(* standardization keeps the order too: Transform of a column is strictly increasing in the value *)
Theorem C130_standardized_partial : forall l mu s x x', l <> 0 -> 0 < s -> x < x' -> exists y y', std (Some (mu, s)) (yj l x) = Some y /\ std (Some (mu, s)) (yj l x') = Some y' /\ y < y'.
Proof.
  intros l mu s x x' N P L. destruct (yj_mono l x x' N L) as (y & y' & -> & -> & H). exists ((y - mu) / s), ((y' - mu) / s). split; [reflexivity|]. split; [reflexivity|]. apply Rmult_lt_compat_r; [now apply Rinv_0_lt_compat|lra].
Qed.
Print Assumptions C130_standardized_partial.
(* with lambda 0 there is no order to keep: the values that are not negative become NaN while the negative ones are numbers *)
Theorem C130_lambda_zero_refuted : forall x x', x < 0 <= x' -> yj 0 x = Some (- (Rpower (1 - x) 2 - 1) / 2) /\ yj 0 x' = None.
Proof.
  intros x x' [A B]. split; [|now apply yj_zero]. rewrite yj_val by now left. f_equal. unfold yjr. destruct (rltb_spec x 0); [|lra]. destruct (reqb_spec 0 2); [lra|].
  replace (2 - 0) with 2 by ring. unfold Rdiv; ring.
Qed.
Print Assumptions C130_lambda_zero_refuted.
Example C130_ex : exists y y', yj 1 (-3) = Some y /\ yj 1 4 = Some y' /\ y < y'.
Proof. apply C130_monotone_partial; lra. Qed.

(* C131: Transform overwrites the matrix it is given: with lambda 2 every positive cell changes *)
Theorem C131_input_refuted : forall sc (c : list R) x, In x c -> 0 < x ->
  exists i, nth_error (hd [] (fst (pt_transform YeoJohnson [(2, sc)] [c]))) i <> nth_error (map (@Some R) c) i.
Proof.
  intros sc c x HI Hx. apply In_nth_error in HI. destruct HI as (i & E). exists i. cbn [pt_transform combine map fst snd hd ptf].
  rewrite !nth_error_map, E. cbn [option_map]. rewrite yj_val by (right; lra). intros H. injection H as H. unfold yjr in H. destruct (rltb_spec x 0); [lra|].
  replace (Rpower (1 + x) 2) with ((1 + x) * (1 + x)) in H; [nra|]. replace 2 with (INR 2) by reflexivity. rewrite Rpower_pow by lra. cbn. ring.
Qed.
Print Assumptions C131_input_refuted.
(* with lambda 1 and no standardization it changes nothing *)
Theorem C131_identity_partial : forall X, fst (pt_transform YeoJohnson (map (fun _ => (1, None)) X) X) = map (map (@Some R)) X.
Proof.
  intros X. unfold pt_transform. cbn [fst ptf]. induction X as [|c X IH]; [reflexivity|]. cbn [map combine fst snd]. f_equal; [|exact IH]. apply map_ext. intros x.
  rewrite yj_val by (right; lra). f_equal. unfold yjr. destruct (rltb_spec x 0); [destruct (reqb_spec 1 2); [lra|]; replace (2 - 1) with 1 by ring|]; rewrite Rpower_1 by lra; field.
Qed.
Print Assumptions C131_identity_partial.
Example C131_ex : exists i, nth_error (hd [] (fst (pt_transform YeoJohnson [(2, None)] [[0; 5]]))) i <> nth_error (map (@Some R) [0; 5]) i.
Proof. apply (C131_input_refuted None [0; 5] 5); [cbn; auto|lra]. Qed.
