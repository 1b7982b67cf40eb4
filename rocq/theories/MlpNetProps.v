(* Properties of neural_network: backpropagation, the optimizers, the kind of problem fit chooses. *)
From Coq Require Import Reals Lra Lia List Arith Bool.
From Verif Require Import MtModel MtProofs LossModel LossProofs MlpNetModel MlpNetProofs MlpOptProofs.
Import ListNotations.
Open Scope R_scope.

(* C121: on a full batch, for networks of any depth and width with identity, logistic or relu units, any of the three
   outputs, any penalty, and whatever the buffers held: the derivative of the loss in every direction of parameter space
   is the inner product of what backprop stores with that direction *)
Theorem C121_gradient_partial : forall hmin hmax a o alpha n X y ls ds oldA oldD, (0 < n)%nat -> ls <> [] -> length ds = length ls -> chain ls -> a <> ATanh ->
  smooth hmin hmax a o n X ls -> (o = OSoftmax -> forall r, (r < n)%nat -> rs (nout ls) (y r) = 1) ->
  derivable_pt_lim (fun t => net_loss hmin hmax a o alpha n n X y (moves t ls ds) oldA) 0 (dot ls (backprop a o alpha n n X y ls oldA oldD) ds).
Proof. exact net_gradient. Qed.
Print Assumptions C121_gradient_partial.
(* tanh units: each layer's part has the sign (-1)^(layers above it) *)
Theorem C121_tanh_signs : forall hmin hmax o n X y ls ds oldA oldD, (0 < n)%nat -> ls <> [] -> length ds = length ls -> chain ls ->
  smooth hmin hmax ATanh o n X ls -> (o = OSoftmax -> forall r, (r < n)%nat -> rs (nout ls) (y r) = 1) ->
  derivable_pt_lim (fun t => net_loss hmin hmax ATanh o 0 n n X y (moves t ls ds) oldA) 0 (sdot (-1) ls (backprop ATanh o 0 n n X y ls oldA oldD) ds).
Proof. exact net_tanh. Qed.
Print Assumptions C121_tanh_signs.
(* so with one hidden layer of tanh units the stored gradient of the first layer is minus the derivative *)
Theorem C121_tanh_refuted : forall hmin hmax o n X y l1 l2 d g1 g2 oldA oldD, (0 < n)%nat -> l_out l1 = l_in l2 ->
  smooth hmin hmax ATanh o n X [l1; l2] -> (o = OSoftmax -> forall r, (r < n)%nat -> rs (l_out l2) (y r) = 1) ->
  backprop ATanh o 0 n n X y [l1; l2] oldA oldD = [g1; g2] ->
  derivable_pt_lim (fun t => net_loss hmin hmax ATanh o 0 n n X y [move t l1 d; l2] oldA) 0 (- inner l1 g1 d).
Proof.
  intros hmin hmax o n X y l1 l2 d g1 g2 oldA oldD Hn HC HS HY HB. set (z := ((fun _ _ => 0, fun _ => 0) : dir)).
  pose proof (net_tanh hmin hmax o n X y [l1; l2] [d; z] oldA oldD Hn ltac:(discriminate) eq_refl (conj HC I) HS HY) as H. rewrite HB in H.
  apply (D_ext (fun t => net_loss hmin hmax ATanh o 0 n n X y (moves t [l1; l2] [d; z]) oldA)).
  - intros t. cbn [moves]. f_equal. f_equal. f_equal. unfold z, move. destruct l2 as [i q W b]. cbn [l_in l_out l_W l_b fst snd]. f_equal.
    + do 2 (apply FunctionalExtensionality.functional_extensionality; intro). ring.
    + apply FunctionalExtensionality.functional_extensionality; intro. ring.
  - apply (D_val _ _ (sdot (-1) [l1; l2] [g1; g2] [d; z])); [|exact H]. cbn [sdot length pow]. assert (E : inner l2 g2 z = 0).
    { unfold inner, z. cbn [fst snd]. assert (Z1 : rs (l_in l2) (fun i => rs (l_out l2) (fun j => fst g2 i j * 0)) = 0).
      { transitivity (rs (l_in l2) (fun _ => 0)); [|apply rs_zero]. apply rs_ext. intros i Hi. transitivity (rs (l_out l2) (fun _ => 0)); [|apply rs_zero]. apply rs_ext. intros; ring. }
      assert (Z2 : rs (l_out l2) (fun j => snd g2 j * 0) = 0) by (transitivity (rs (l_out l2) (fun _ => 0)); [apply rs_ext; intros; ring|apply rs_zero]). lra. }
    rewrite E. change (-1) with (Ropp 1). ring.
Qed.
Print Assumptions C121_tanh_refuted.
(* one sample, one unit per layer, weights 1: the gradient of the first layer is not 0 *)
Definition unit_layer : layer := mklayer 1 1 (fun _ _ => 1) (fun _ => 0).
Example C121_tanh_ex : let g := backprop ATanh OIdentity 0 1 1 (fun _ _ => 1) (fun _ _ => 0) [unit_layer; unit_layer] [] [] in
  smooth 0 1 ATanh OIdentity 1 (fun _ _ => 1) [unit_layer; unit_layer] /\ exists g1 g2, g = [g1; g2] /\ snd g1 0%nat = tanh (- 1) * (1 - tanh (- 1) * tanh (- 1)).
Proof.
  cbv zeta. split; [cbn; split; [discriminate|]; intros; now left|]. do 2 eexists. split; [reflexivity|]. cbn -[tanh]. change (IZR (-1)) with (Ropp 1).
  replace (0 + 1 * 1 + 0) with 1 by ring. field.
Qed.
(* a network without hidden layer on which the gradient of C121_gradient_partial is not 0 *)
Example C121_ex : let g := backprop AReLU OIdentity 0 1 1 (fun _ _ => 3) (fun _ _ => 1) [unit_layer] [] [] in exists g1, g = [g1] /\ fst g1 0%nat 0%nat = 6 /\ snd g1 0%nat = 2.
Proof. cbv zeta. eexists. split; [reflexivity|]. cbn. split; lra. Qed.
(* a last batch shorter than the buffers: the mean of the intercept gradient runs over the buffer, with the deltas of the batch before *)
Theorem C121_short_batch_refuted : forall a o alpha bs n X y l oldA B j, (n <= bs)%nat ->
  forall g, backprop a o alpha bs n X y [l] oldA [B] = [g] ->
  snd g j = (rs n (fun r => last (forward a o bs n X [l] oldA) (fun _ _ => 0) r j - y r j) + (rs bs (fun r => B r j) - rs n (fun r => B r j))) / INR bs.
Proof.
  intros a o alpha bs n X y l oldA B j Hn g E. unfold backprop in E. cbn [forward backward fst hd] in E. injection E as <-. unfold layer_grad. cbn [snd forward last].
  unfold Rdiv. f_equal. set (H := upd_rows bs _ _). clearbody H.
  assert (G : forall k, rs (n + k) (fun r => upd_rows n (fun r c => H r c - y r c) B r j) = rs n (fun r => H r j - y r j) + (rs (n + k) (fun r => B r j) - rs n (fun r => B r j))).
  { induction k as [|k IH].
    - rewrite Nat.add_0_r. replace (rs n (fun r => B r j) - rs n (fun r => B r j)) with 0 by ring. rewrite Rplus_0_r. apply rs_ext. intros r Hr. unfold upd_rows. destruct (Nat.ltb_spec r n); [reflexivity|lia].
    - rewrite Nat.add_succ_r. cbn [rs]. rewrite IH. unfold upd_rows at 1. destruct (Nat.ltb_spec (n + k) n); [lia|]. ring. }
  specialize (G (bs - n)%nat). replace (n + (bs - n))%nat with bs in G by lia. exact G.
Qed.
Print Assumptions C121_short_batch_refuted.
(* batches of 2 rows then 1: the second fits exactly, its loss is at the minimum, and the intercept gradient is 1/2 *)
Definition zero_layer : layer := mklayer 1 1 (fun _ _ => 0) (fun _ => 0).
Theorem C121_stale_rows_refuted : exists B g, B = snd (backward AIdentity 0 2 2 2 (fun _ _ => - 1) (fun _ _ => 0) [zero_layer] (forward AIdentity OIdentity 2 2 (fun _ _ => 0) [zero_layer] []) []) /\
  backprop AIdentity OIdentity 0 2 1 (fun _ _ => 0) (fun _ _ => 0) [zero_layer] [] [B] = [g] /\ snd g 0%nat = / 2 /\
  derivable_pt_lim (fun t => net_loss 0 1 AIdentity OIdentity 0 2 1 (fun _ _ => 0) (fun _ _ => 0) (moves t [zero_layer] [(fun _ _ => 0, fun _ => 1)]) []) 0 0.
Proof.
  do 2 eexists. split; [reflexivity|]. split; [reflexivity|]. split; [cbn; field|].
  apply (D_ext (fun t => / 4 * (t * t))); [intros t; cbn [moves]; unfold net_loss, data_loss; cbn; field|]. eapply D_val; [|apply D_scal, D_sq, D_id]. cbv beta. ring.
Qed.
Print Assumptions C121_stale_rows_refuted.
(* targets with two ones in a row: the softmax loss is at its minimum, the stored gradient is not 0 *)
Definition two_layer : layer := mklayer 1 2 (fun _ _ => 0) (fun _ => 0).
Theorem C121_multilabel_refuted : exists g, backprop AIdentity OSoftmax 0 1 1 (fun _ _ => 0) (fun _ _ => 1) [two_layer] [] [] = [g] /\ snd g 0%nat = - / 2 /\
  derivable_pt_lim (fun t => net_loss 0 1 AIdentity OSoftmax 0 1 1 (fun _ _ => 0) (fun _ _ => 1) (moves t [two_layer] [(fun _ _ => 0, fun j => if Nat.eqb j 0 then 1 else 0)]) []) 0 0.
Proof.
  eexists. split; [reflexivity|]. split.
  - cbn. replace (0 + 0 * 0 + 0) with 0 by ring. rewrite exp_0. field.
  - set (d := ((fun _ _ => 0, fun j => if Nat.eqb j 0 then 1 else 0) : dir)).
    apply (D_ext (fun t => data_loss 0 1 OSoftmax 1 1 2 (fun _ _ => 1) (fun r c => outF OSoftmax 2 (pre (fun _ _ => 0) (move t two_layer d) r) c))).
    { intros t. unfold net_loss. change (nout (moves t [two_layer] [d])) with 2%nat.
      transitivity (data_loss 0 1 OSoftmax 1 1 2 (fun _ _ => 1) (fun r c => outF OSoftmax 2 (pre (fun _ _ => 0) (move t two_layer d) r) c) + 0); [ring|].
      apply f_equal2; [|unfold Rdiv; ring]. apply data_loss_ext. intros r c Hr Hc. destruct (forward_hd AIdentity OSoftmax 1 (fun _ _ => 0) (move t two_layer d) [] []) as (H & E & EH).
      cbn [moves]. rewrite E. cbn [last forward]. now rewrite EH. }
    assert (E0 : forall r c, (c < 2)%nat -> outF OSoftmax 2 (pre (fun _ _ => 0) (move 0 two_layer d) r) c = / 2).
    { intros r c Hc. rewrite move_0. unfold outF, pre. cbn. replace (0 + 0 * 0 + 0) with 0 by ring. rewrite exp_0. field. }
    eapply D_val; [|apply (D_out 0 1 OSoftmax 1 2 (fun _ _ => 1) (fun t => pre (fun _ _ => 0) (move t two_layer d))
       (fun r c => rs (l_in two_layer) (fun i => 0 * l_W two_layer i c + 0 * fst d i c) + snd d c) (fun r => rs 2 (fun _ => 1)))].
    + cbv beta. cbn [rs]. rewrite !E0 by lia. cbn. field.
    + lia.
    + intros r c Hr Hc. apply (D_pre (fun _ _ _ => 0) (fun _ _ => 0) two_layer d r c). intros. apply D_const.
    + intros r c Hr Hc. right. rewrite E0 by exact Hc. lra.
    + intros; reflexivity.
Qed.
Print Assumptions C121_multilabel_refuted.

(* C51: with n parameters the update of parameter i at step t uses the exponent (t-1)*n + i + 1 *)
Theorem C51_exponent : forall lr b1 b2 eps n ps steps gs, length ps = n -> (forall g, In g (steps ++ [gs]) -> length g = n) ->
  forall i st g, nth_error (fst (fst (adam_run lr b1 b2 eps ps steps))) i = Some st -> nth_error gs i = Some g ->
  nth_error (fst (fst (adam_run lr b1 b2 eps ps (steps ++ [gs])))) i = Some (adam1 lr b1 b2 eps (length steps * n + i + 1) st g).
Proof. exact adam_next. Qed.
Print Assumptions C51_exponent.
(* which is the step number when there is one parameter *)
Theorem C51_single_partial : forall lr b1 b2 eps p steps g p0 m v, (forall x, In x steps -> length x = 1%nat) ->
  fst (fst (adam_run lr b1 b2 eps [p] steps)) = [(p0, m, v)] ->
  let t := S (length steps) in let m' := b1 * m + (1 - b1) * g in let v' := b2 * v + (1 - b2) * g * g in
  fst (fst (adam_run lr b1 b2 eps [p] (steps ++ [[g]]))) = [(p0 - lr * sqrt (1 - b2 ^ t) / (1 - b1 ^ t) * (m' / (sqrt v' + eps)), m', v')].
Proof.
  intros lr b1 b2 eps p steps g p0 m v HS E t m' v'.
  assert (HS2 : forall x, In x (steps ++ [[g]]) -> length x = 1%nat) by (intros x H; apply in_app_or in H; destruct H as [H|[<-|[]]]; auto).
  pose proof (adam_next lr b1 b2 eps 1 [p] steps [g] eq_refl HS2 0 (p0, m, v) g) as H. rewrite E in H. specialize (H eq_refl eq_refl).
  pose proof (adam_run_spec lr b1 b2 eps 1 [p] (steps ++ [[g]]) eq_refl HS2) as L. destruct (adam_run lr b1 b2 eps [p] (steps ++ [[g]])) as [[l c1] c2]. cbn [fst] in *.
  destruct L as (_ & _ & L). destruct l as [|x [|? ?]]; try discriminate L. cbn [nth_error] in H. injection H as ->. unfold adam1.
  replace (length steps * 1 + 0 + 1)%nat with t by (unfold t; lia). fold m' v'. f_equal. f_equal. f_equal. unfold Rdiv. ring.
Qed.
Print Assumptions C51_single_partial.
(* with two parameters that start equal and have equal gradients the first step separates them *)
Theorem C51_exchange_refuted : forall lr b1 b2 eps p g, 0 < b1 < 1 -> 0 < b2 < 1 -> lr <> 0 -> 0 < eps -> g <> 0 -> (1 + b1) * (1 + b1) <> 1 + b2 ->
  forall x y, fst (fst (adam_run lr b1 b2 eps [p; p] [[g; g]])) = [x; y] -> fst (fst x) <> fst (fst y).
Proof. exact adam_two. Qed.
Print Assumptions C51_exchange_refuted.
(* the default settings *)
Example C51_ex : 0 < 9 / 10 < 1 /\ 0 < 999 / 1000 < 1 /\ (1 + 9 / 10) * (1 + 9 / 10) <> 1 + 999 / 1000 /\
  exists x y, fst (fst (adam_run (1 / 1000) (9 / 10) (999 / 1000) (1 / 100000000) [0; 0] [[1; 1]])) = [x; y].
Proof. repeat split; try lra. do 2 eexists. reflexivity. Qed.

(* C124: SGD treats each parameter on its own *)
Theorem C124_coordinatewise : forall nest mom n ps steps i p, length ps = n -> (forall lr gs, In (lr, gs) steps -> length gs = n) -> nth_error ps i = Some p ->
  nth_error (sgd_run nest mom ps steps) i = Some (sgd_coord nest mom p (map (fun s => (fst s, nth i (snd s) 0)) steps)).
Proof. exact sgd_run_nth. Qed.
Print Assumptions C124_coordinatewise.
(* its velocity is the momentum-weighted sum of the past steps *)
Theorem C124_velocity : forall nest mom p steps, snd (sgd_coord nest mom p steps) =
  - rs (length steps) (fun k => mom ^ (length steps - 1 - k) * (fst (nth k steps (0, 0)) * snd (nth k steps (0, 0)))).
Proof. exact sgd_velocity. Qed.
Print Assumptions C124_velocity.
(* the parameter is the start plus all velocities; with Nesterov momentum it is that point plus momentum times the last velocity *)
Theorem C124_position : forall nest mom p steps, fst (sgd_coord nest mom p steps) - (if nest then mom * snd (sgd_coord nest mom p steps) else 0) =
  p + rs (length steps) (fun k => snd (sgd_coord nest mom p (firstn (S k) steps))).
Proof. exact sgd_position. Qed.
Print Assumptions C124_position.
Example C124_ex : sgd_run false (/ 2) [1; 2] [(1, [1; 0]); (1, [1; 4])] = [(1 + (/ 2 * 0 - 1 * 1) + (/ 2 * (/ 2 * 0 - 1 * 1) - 1 * 1), / 2 * (/ 2 * 0 - 1 * 1) - 1 * 1); (2 + (/ 2 * 0 - 1 * 0) + (/ 2 * (/ 2 * 0 - 1 * 0) - 1 * 4), / 2 * (/ 2 * 0 - 1 * 0) - 1 * 4)].
Proof. reflexivity. Qed.

(* C126: with some target other than 0 and 1, predict returns the network's output *)
Theorem C126_regression_partial : forall cols ydata q h c v, In v ydata -> v <> 0 -> v <> 1 -> predict_row (fit_out cols ydata) q h c = h c.
Proof.
  intros cols ydata q h c v HI H0 H1. unfold fit_out. replace (forallb (fun v => reqb v 0 || reqb v 1) ydata) with false; [reflexivity|].
  symmetry. apply not_true_is_false. intros E. rewrite forallb_forall in E. specialize (E v HI). apply orb_prop in E.
  destruct (reqb_spec v 0), (reqb_spec v 1); try contradiction; destruct E; discriminate.
Qed.
Print Assumptions C126_regression_partial.
(* when all targets are 0 or 1, MLPRegressor.Predict only ever returns 0 and 1: its outputs are thresholded *)
Theorem C126_zero_one_refuted : forall cols ydata q h c, (forall v, In v ydata -> v = 0 \/ v = 1) ->
  let r := predict_row (fit_out cols ydata) q h c in r = 0 \/ r = 1.
Proof.
  intros cols ydata q h c H r. assert (E : forallb (fun v => reqb v 0 || reqb v 1) ydata = true).
  { apply forallb_forall. intros v Hv. destruct (reqb_spec v 0), (reqb_spec v 1); auto. destruct (H v Hv); contradiction. }
  unfold r, fit_out. rewrite E. unfold predict_row, to_logits. destruct (1 <? cols)%nat, (Nat.eqb q 1); try (destruct (rltb _ _); auto); destruct (Nat.eqb _ _); auto.
Qed.
Print Assumptions C126_zero_one_refuted.
Example C126_ex : predict_row (fit_out 1 [0; 1; 1; 0]) 1 (fun _ => 1 / 4) 0 = 0 /\ predict_row (fit_out 1 [0; 1; 2; 0]) 1 (fun _ => 1 / 4) 0 = 1 / 4.
Proof.
  split.
  - unfold fit_out. cbn [forallb]. destruct (reqb_spec 0 0); [|lra]. destruct (reqb_spec 1 1); [|lra]. rewrite !orb_true_r. cbn. destruct (rltb_spec (/ 2) (1 / 4)); [lra|reflexivity].
  - apply (C126_regression_partial 1 [0; 1; 2; 0] 1 (fun _ => 1 / 4) 0 2); [cbn; auto|lra|lra].
Qed.

(* C127: after lbfgs the parameters are the last point evaluated; if another was better they are not the best *)
Theorem C127_lbfgs_partial : forall (P : Type) (init : P) evals w, lbfgs_params init (evals ++ [w]) = w.
Proof. intros P init evals w. unfold lbfgs_params. now rewrite fold_left_app. Qed.
Print Assumptions C127_lbfgs_partial.
Theorem C127_not_best_refuted : forall (P : Type) (f : P -> R) (init : P) evals w best, In best evals -> f best < f w ->
  ~ (forall x, In x (evals ++ [w]) -> f (lbfgs_params init (evals ++ [w])) <= f x).
Proof. intros P f init evals w best HI HL H. rewrite C127_lbfgs_partial in H. specialize (H best (in_or_app _ _ _ (or_introl HI))). lra. Qed.
Print Assumptions C127_not_best_refuted.
Example C127_ex : lbfgs_params 0 [3; 1; 2] = 2.
Proof. reflexivity. Qed.
