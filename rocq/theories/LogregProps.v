(* Properties C150-C155: logistic regression *)
From Coq Require Import Reals Lra Lia List Arith Bool ZArith.
From Verif Require Import MtModel MtProofs LossModel LossProofs MlpNetModel MlpNetProofs LogregModel LogregProofs.
Import ListNotations.
Open Scope R_scope.

(* C150: the gradient handed to the optimizer is that of the loss: along every change of the coefficients and intercepts the loss has
   the derivative <gradient, change>; for softmax when the targets of each sample sum to 1 (one-hot); where the outputs are inside the
   bounds the loss clips them to *)
Theorem C150_gradient_partial : forall hmin hmax alpha n p q X y o W b dW db, (0 < n)%nat ->
  (o = OSoftmax -> forall r, (r < n)%nat -> rs q (y r) = 1) ->
  o <> OIdentity -> (forall r c, (r < n)%nat -> (c < q)%nat -> hmin < lr_h p q X o W b r c < hmax) ->
  derivable_pt_lim (fun t => lr_loss hmin hmax alpha n p q X y o (fun i j => W i j + t * dW i j) (fun j => b j + t * db j)) 0
    (rs p (fun i => rs q (fun j => lr_gW alpha n p q X y o W b i j * dW i j)) + rs q (fun j => lr_gb n p q X y o W b j * db j)).
Proof. intros hmin hmax alpha n p q X y o W b dW db Hn HY HO HC. apply lr_gradient; [exact Hn|exact HY|]. intros r c Hr Hc. right. now apply HC. Qed.
Print Assumptions C150_gradient_partial.
(* with two labels that hold at once (0/1 targets in several columns, which get softmax) it is not: an intercept moved from the
   optimum has derivative 0 while the gradient says -1/2 *)
Theorem C150_multilabel_refuted : exists n p q X y W b db,
  let o := if (1 <? q)%nat then OSoftmax else OLogistic in (forall r c, y r c = 0 \/ y r c = 1) /\
  derivable_pt_lim (fun t => lr_loss 0 1 0 n p q X y o W (fun j => b j + t * db j)) 0 0 /\ rs q (fun j => lr_gb n p q X y o W b j * db j) = - (1 / 2).
Proof.
  exists 1%nat, 0%nat, 2%nat, (fun _ _ => 0), (fun _ _ => 1), (fun _ _ => 0), (fun _ => 0), (fun j => if Nat.eqb j 0 then 1 else 0). cbv zeta. cbn [Nat.ltb Nat.leb]. split; [auto|]. split.
  - assert (E : forall t, lr_loss 0 1 0 1 0 2 (fun _ _ => 0) (fun _ _ => 1) OSoftmax (fun _ _ => 0) (fun j => 0 + t * (if Nat.eqb j 0 then 1 else 0)) = 2 * ln (exp t + 1) - t).
    { intros t. assert (P : 0 < exp t) by apply exp_pos. unfold lr_loss, data_loss, lr_h, lr_pre, outF. cbn [rs Nat.eqb INR]. replace (0 + (0 + t * 1)) with t by ring. replace (0 + (0 + t * 0)) with 0 by ring. rewrite exp_0. replace (0 + exp t + 1) with (exp t + 1) by ring.
      destruct (reqb_spec 1 0); [lra|]. assert (C : forall x, 0 < x < 1 -> hclip 0 1 x = x) by (intros; now apply clip_in). rewrite !C.
      - unfold Rdiv. rewrite !ln_mult by (try apply Rinv_0_lt_compat; lra). rewrite ln_exp, ln_1, ln_Rinv by lra. field.
      - split; [apply Rdiv_lt_0_compat; lra|]. apply (Rmult_lt_reg_r (exp t + 1)); [lra|]. replace (1 / (exp t + 1) * (exp t + 1)) with 1 by (field; lra). lra.
      - split; [apply Rdiv_lt_0_compat; lra|]. apply (Rmult_lt_reg_r (exp t + 1)); [lra|]. replace (exp t / (exp t + 1) * (exp t + 1)) with (exp t) by (field; lra). lra. }
    apply (D_ext (fun t => 2 * ln (exp t + 1) - t)); [intros; now rewrite E|]. apply (D_val _ _ (2 * (/ (exp 0 + 1) * (exp 0 + 0)) - 1)); [rewrite exp_0; field|].
    apply derivable_pt_lim_minus; [|apply derivable_pt_lim_id]. apply derivable_pt_lim_scal. apply (derivable_pt_lim_comp (fun t => exp t + 1) ln); [apply derivable_pt_lim_plus; [apply derivable_pt_lim_exp|apply derivable_pt_lim_const]|].
    apply derivable_pt_lim_ln. rewrite exp_0. lra.
  - cbn [rs Nat.eqb]. unfold lr_gb, lr_h, lr_pre, outF. cbn [rs INR]. replace (0 + 0) with 0 by ring. rewrite exp_0. field.
Qed.
Print Assumptions C150_multilabel_refuted.

(* C151: the loss is convex: it lies above its tangents.  So parameters at which the gradient vanishes are optimal *)
Theorem C151_convex_partial : forall hmin hmax alpha n p q X y o W W' b b', (0 < n)%nat -> 0 <= alpha -> 0 <= hmin -> hmax <= 1 ->
  o <> OIdentity -> (o = OSoftmax -> forall r, (r < n)%nat -> rs q (y r) = 1) ->
  (forall r c, (r < n)%nat -> (c < q)%nat -> hmin < lr_h p q X o W b r c < hmax) ->
  (forall r c, (r < n)%nat -> (c < q)%nat -> hmin < lr_h p q X o W' b' r c < hmax) ->
  lr_loss hmin hmax alpha n p q X y o W' b' >= lr_loss hmin hmax alpha n p q X y o W b +
    (rs p (fun i => rs q (fun j => lr_gW alpha n p q X y o W b i j * (W' i j - W i j))) + rs q (fun j => lr_gb n p q X y o W b j * (b' j - b j))).
Proof. intros. now apply (convex hmin hmax alpha n p q X y W W' b b'). Qed.
Print Assumptions C151_convex_partial.
Theorem C151_optimal_partial : forall hmin hmax alpha n p q X y o W W' b b', (0 < n)%nat -> 0 <= alpha -> 0 <= hmin -> hmax <= 1 ->
  o <> OIdentity -> (o = OSoftmax -> forall r, (r < n)%nat -> rs q (y r) = 1) ->
  (forall r c, (r < n)%nat -> (c < q)%nat -> hmin < lr_h p q X o W b r c < hmax) ->
  (forall r c, (r < n)%nat -> (c < q)%nat -> hmin < lr_h p q X o W' b' r c < hmax) ->
  (forall i j, (i < p)%nat -> (j < q)%nat -> lr_gW alpha n p q X y o W b i j = 0) -> (forall j, (j < q)%nat -> lr_gb n p q X y o W b j = 0) ->
  lr_loss hmin hmax alpha n p q X y o W b <= lr_loss hmin hmax alpha n p q X y o W' b'.
Proof.
  intros hmin hmax alpha n p q X y o W W' b b' Hn Ha H0 H1 HO HY C1 C2 GW GB. pose proof (C151_convex_partial hmin hmax alpha n p q X y o W W' b b' Hn Ha H0 H1 HO HY C1 C2) as C.
  rewrite (rs_ext p _ (fun _ => 0)), (rs_ext q _ (fun _ => 0)) in C.
  - rewrite !rs_zero in C. lra.
  - intros j Hj. rewrite GB by exact Hj. ring.
  - intros i Hi. rewrite (rs_ext q _ (fun _ => 0)); [apply rs_zero|]. intros j Hj. rewrite GW by auto. ring.
Qed.
Print Assumptions C151_optimal_partial.
(* outside the clipping bounds the loss is flat while the gradient is not: whatever the bounds, it falls below a tangent *)
Theorem C151_clipped_refuted : forall hmin hmax, 0 < hmin < / 2 -> / 2 < hmax -> exists b' : R,
  let loss b := lr_loss hmin hmax 0 1 0 1 (fun _ _ => 0) (fun _ _ => 1) OLogistic (fun _ _ => 0) (fun _ => b) in
  let grad b := lr_gb 1 0 1 (fun _ _ => 0) (fun _ _ => 1) OLogistic (fun _ _ => 0) (fun _ => b) 0%nat in
  loss b' < loss 0 + grad 0 * (b' - 0).
Proof.
  intros hmin hmax [A B] C. exists (2 * ln hmin). cbv zeta. unfold lr_loss, lr_gb, data_loss, lr_h, lr_pre, outF, actF. cbn [rs INR].
  replace (- (0 + 0)) with 0 by ring. rewrite exp_0. set (h := 1 / (1 + exp (- (0 + 2 * ln hmin)))). replace (1 / (1 + 1)) with (/ 2) by lra.
  assert (E : hclip hmin hmax (/ 2) = / 2) by (unfold hclip; destruct (rltb_spec (/ 2) hmin); [lra|]; destruct (rltb_spec hmax (/ 2)); [lra|reflexivity]). rewrite E.
  assert (G : hmin <= hclip hmin hmax h) by (unfold hclip; destruct (rltb_spec h hmin); [lra|]; destruct (rltb_spec hmax h); lra).
  assert (L : ln hmin <= ln (hclip hmin hmax h)). { destruct G as [G|G]; [left; now apply ln_increasing|right; now f_equal]. }
  assert (P : ln (/ 2) < 0) by (rewrite <- ln_1; apply ln_increasing; lra). lra.
Qed.
Print Assumptions C151_clipped_refuted.
(* one sample, no feature, target 1, logistic: moving the intercept from 0 to 1 *)
Example C151_ex : lr_loss 0 1 0 1 0 1 (fun _ _ => 0) (fun _ _ => 1) OLogistic (fun _ _ => 0) (fun _ => 1) >= lr_loss 0 1 0 1 0 1 (fun _ _ => 0) (fun _ _ => 1) OLogistic (fun _ _ => 0) (fun _ => 0) - 1 / 2.
Proof.
  assert (B : forall z, 0 < actF ALogistic z < 1). { intros z. unfold actF. assert (0 < exp (- z)) by apply exp_pos. split; [apply Rdiv_lt_0_compat; lra|]. apply (Rmult_lt_reg_r (1 + exp (- z))); [lra|]. replace (1 / (1 + exp (- z)) * (1 + exp (- z))) with 1 by (field; lra). lra. }
  eapply Rge_trans; [apply (C151_convex_partial 0 1 0 1 0 1 (fun _ _ => 0) (fun _ _ => 1) OLogistic (fun _ _ => 0) (fun _ _ => 0) (fun _ => 0) (fun _ => 1)); try lra; try lia; try congruence; intros; apply B|].
  right. match goal with |- ?a + ?b = _ => replace b with (- (1 / 2)); [ring|] end. cbn [rs]. unfold lr_gb, lr_h, lr_pre, outF, actF. cbn [rs INR]. replace (- (0 + 0)) with 0 by ring. rewrite exp_0. field.
Qed.

(* C152: PredictProbas gives probabilities; Predict chooses a class no other is more probable than, the one with the largest
   linear score; with a single column, the label whose probability is above one half *)
Theorem C152_probas : forall p q X W b r, (0 < q)%nat ->
  (forall c, 0 < lr_h p q X OSoftmax W b r c) /\ rs q (lr_h p q X OSoftmax W b r) = 1 /\ (forall c, 0 < lr_h p q X OLogistic W b r c < 1).
Proof.
  intros p q X W b r Hq. unfold lr_h, outF. set (z := lr_pre p X W b r). assert (S : 0 < rs q (fun k => exp (z k))) by (apply rs_pos; [exact Hq|intros; apply exp_pos]). split; [|split].
  - intros c. apply Rdiv_lt_0_compat; [apply exp_pos|exact S].
  - unfold Rdiv. rewrite rs_scale_r. apply Rinv_r. lra.
  - intros c. unfold actF. assert (0 < exp (- z c)) by apply exp_pos. split; [apply Rdiv_lt_0_compat; lra|]. apply (Rmult_lt_reg_r (1 + exp (- z c))); [lra|]. replace (1 / (1 + exp (- z c)) * (1 + exp (- z c))) with 1 by (field; lra). lra.
Qed.
Print Assumptions C152_probas.
Theorem C152_multi : forall p q X W b r, (2 <= q)%nat -> exists M, (M < q)%nat /\
  (forall c, lr_predict p q X OSoftmax W b r c = if Nat.eqb c M then 1 else 0) /\
  forall c, (c < q)%nat -> lr_h p q X OSoftmax W b r c <= lr_h p q X OSoftmax W b r M /\ rs p (fun i => X r i * W i c) + b c <= rs p (fun i => X r i * W i M) + b M.
Proof.
  intros p q X W b r Hq. destruct (rmaxidx_spec q (lr_h p q X OSoftmax W b r) ltac:(lia)) as [A B]. exists (rmaxidx q (lr_h p q X OSoftmax W b r)). split; [exact A|]. split.
  - intros c. unfold lr_predict, to_logits. destruct (Nat.eqb_spec q 1); [lia|reflexivity].
  - intros c Hc. specialize (B c Hc). split; [exact B|]. apply (soft_order q (lr_pre p X W b r)); [lia|exact B].
Qed.
Print Assumptions C152_multi.
Theorem C152_binary : forall p X W b r, lr_predict p 1 X OLogistic W b r 0%nat = (if rltb 0 (rs p (fun i => X r i * W i 0%nat) + b 0%nat) then 1 else 0) /\
  (lr_predict p 1 X OLogistic W b r 0%nat = 1 <-> / 2 < lr_h p 1 X OLogistic W b r 0%nat).
Proof.
  intros p X W b r. unfold lr_predict, to_logits. cbn [Nat.eqb]. unfold lr_h, outF. pose proof (half_logistic (lr_pre p X W b r 0%nat)) as H. change (rs p (fun i => X r i * W i 0%nat) + b 0%nat) with (lr_pre p X W b r 0%nat).
  destruct (rltb_spec (/ 2) (actF ALogistic (lr_pre p X W b r 0%nat))) as [A|A]; destruct (rltb_spec 0 (lr_pre p X W b r 0%nat)) as [B|B]; split; try tauto; try (split; lra); exfalso; try (apply H in A; lra); apply H in B; lra.
Qed.
Print Assumptions C152_binary.
(* the columns of several outputs share one softmax: the probabilities of the classes of one output do not sum to 1 *)
Theorem C152_outputs_refuted : forall p q1 q2 X W b r, (0 < q1)%nat -> (0 < q2)%nat -> rs q1 (lr_h p (q1 + q2) X OSoftmax W b r) < 1.
Proof.
  intros p q1 q2 X W b r H1 H2. destruct (C152_probas p (q1 + q2) X W b r ltac:(lia)) as (P & S & _). rewrite rs_app in S. assert (0 < rs q2 (fun i => lr_h p (q1 + q2) X OSoftmax W b r (q1 + i)%nat)) by (apply rs_pos; auto). lra.
Qed.
Print Assumptions C152_outputs_refuted.
Example C152_ex : lr_predict 1 2 (fun _ _ => 3) OSoftmax (fun _ j => INR j) (fun _ => 0) 0 1%nat = 1.
Proof.
  destruct (C152_multi 1 2 (fun _ _ => 3) (fun _ j => INR j) (fun _ => 0) 0 ltac:(lia)) as (M & HM & E & L). rewrite E. destruct (Nat.eqb_spec 1 M) as [|N]; [reflexivity|]. exfalso. replace M with 0%nat in L by lia.
  destruct (L 1%nat ltac:(lia)) as [_ K]. cbn [rs INR] in K. lra.
Qed.

(* C153: the errors handed to the gradient are output minus target at every sample and output, when the targets are contiguous *)
Theorem C153_deltas_partial : forall {A} (sub : A -> A -> A) rows cols H y D, length H = (rows * cols)%nat -> length y = (rows * cols)%nat -> length D = (rows * cols)%nat ->
  exists D', lr_deltas sub rows cols cols H y D = Some D' /\ length D' = (rows * cols)%nat /\
  forall r c h v, (r < rows)%nat -> (c < cols)%nat -> nth_error H (r * cols + c) = Some h -> nth_error y (r * cols + c) = Some v -> nth_error D' (r * cols + c) = Some (sub h v).
Proof.
  intros A sub rows cols H y D LH LY LD. destruct (dstep_all sub cols H y (list_prod (seq 0 rows) (seq 0 cols)) D) as (D' & F & L & G).
  - intros [r c] I. apply in_prod_iff in I. rewrite !in_seq in I. cbn [fst snd]. nia.
  - lia.
  - lia.
  - exists D'. split; [exact F|]. split; [lia|]. intros r c h v Hr Hc Hh Hv. rewrite (G _ h v Hh Hv) by nia.
    assert (X : existsb (fun ro => Nat.eqb (fst ro * cols + snd ro) (r * cols + c)) (list_prod (seq 0 rows) (seq 0 cols)) = true); [|now rewrite X].
    apply existsb_exists. exists (r, c). split; [|apply Nat.eqb_refl]. apply in_prod_iff. rewrite !in_seq. lia.
Qed.
Print Assumptions C153_deltas_partial.
(* for a Y that is a view of some columns of a wider matrix Fit panics, whatever the data, as soon as there are two samples *)
Theorem C153_view_refuted : forall {A} (sub : A -> A -> A) rows cols stride H y D, (2 <= rows)%nat -> (0 < cols)%nat -> (cols < stride)%nat -> length D = (rows * cols)%nat ->
  lr_deltas sub rows cols stride H y D = None.
Proof.
  intros A sub rows cols stride H y D Hr Hc Hs LD. apply (dstep_out sub stride H y _ D (rows - 1, cols - 1)%nat).
  - apply in_prod_iff. rewrite !in_seq. lia.
  - cbn [fst snd]. rewrite LD. nia.
Qed.
Print Assumptions C153_view_refuted.
Example C153_ex : lr_deltas Z.sub 2 1 1 [5; 6]%Z [1; 0]%Z [0; 0]%Z = Some [4; 6]%Z /\ lr_deltas Z.sub 2 1 2 [5; 6]%Z [1; 7; 0; 8]%Z [0; 0]%Z = None.
Proof. split; reflexivity. Qed.

(* C154: on an estimator not fitted before, Predict decodes to what Fit was given: 0/1 columns, or the labels found in Y *)
Theorem C154_first_partial : forall {L} kx ky bin ycols (classes : list (list L)) m', lr_front (mklrst None 0) kx ky bin ycols classes = Some m' ->
  lr_decode m' = Some (if bin then None else Some classes).
Proof. intros L kx ky bin ycols classes m'. unfold lr_front. destruct (kx && negb ky)%bool; [discriminate|]. destruct bin; intros [= <-]; unfold lr_decode; cbn [lr_lb lr_nout]; [reflexivity|now rewrite Nat.eqb_refl]. Qed.
Print Assumptions C154_first_partial.
(* fitted first with labels and again with 0/1 targets, Predict decodes the new model with the labels of the old one, or panics when
   the numbers of columns differ *)
Theorem C154_refit_refuted : forall {L} m cl ycols (classes : list (list L)) m', lr_lb m = Some cl -> lr_front m true true true ycols classes = Some m' ->
  (list_sum (map (@length L) cl) = ycols -> lr_decode m' = Some (Some cl)) /\ (list_sum (map (@length L) cl) <> ycols -> lr_decode m' = None).
Proof. intros L m cl ycols classes m' E [= <-]. assert (F : fan cl = list_sum (map (@length L) cl)) by (unfold fan, list_sum; clear; induction cl as [|c cl IH]; [reflexivity|cbn [fold_right map]; rewrite IH; reflexivity]).
  rewrite <- F. unfold lr_decode. cbn [lr_lb lr_nout]. rewrite E. destruct (Nat.eqb_spec (fan cl) ycols); tauto. Qed.
Print Assumptions C154_refit_refuted.
(* X a *mat.Dense and Y another matrix type: Fit panics *)
Theorem C154_kinds_refuted : forall {L} (m : lrst L) bin ycols classes, lr_front m true false bin ycols classes = None.
Proof. reflexivity. Qed.
Print Assumptions C154_kinds_refuted.
Example C154_ex : lr_front (mklrst None 0) true true false 1 [[3; 5; 8]%Z] = Some (mklrst (Some [[3; 5; 8]%Z]) 3) /\ lr_front (mklrst (Some [[3; 5; 8]%Z]) 3) true true true 1 [] = Some (mklrst (Some [[3; 5; 8]%Z]) 1) /\
  lr_decode (mklrst (Some [[3; 5; 8]%Z]) 1) = None.
Proof. repeat split; reflexivity. Qed.

(* C155: the parameters kept are those of the last evaluation; they are the best ones only when the optimizer ends there *)
Theorem C155_last_partial : forall {P} (init w : P) evals, lr_params init (evals ++ [w]) = w.
Proof. intros. unfold lr_params. now rewrite fold_left_app. Qed.
Print Assumptions C155_last_partial.
Theorem C155_best_refuted : forall {P} (loss : P -> Z) (init a b : P), (loss a < loss b)%Z -> exists evals, In a evals /\ (loss a < loss (lr_params init evals))%Z.
Proof. intros P loss init a b H. exists [a; b]. split; [now left|exact H]. Qed.
Print Assumptions C155_best_refuted.
