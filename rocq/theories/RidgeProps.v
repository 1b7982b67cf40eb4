(* Property C227. *)
From Verif Require Import QCommon LinModel LinProofs RidgeModel RidgeProofs.
Open Scope Q_scope.

(* C227: whatever Alpha > 0, a fitted Ridge minimises the squared errors plus
   ONE times the squared coefficients; for Alpha <= 0 the squared errors alone.
   The optimizer is any that stops where the gradient it is handed is 0 *)
Theorem C227_objective : forall nrm minimize fit norm alpha X Y p q old C b,
  rect X p -> rect Y q -> length Y = length X -> (fit = true \/ old = None) ->
  let pr := preprocess nrm fit norm X Y in
  stops_at_zero minimize alpha (pX pr) (pY pr) p q ->
  ridge_fit nrm minimize fit norm alpha X Y old = Some (C, b) ->
  forall o w' b', (o < q)%nat -> (fit = false -> b' == 0) ->
  let k := if Qltb 0 alpha then 1 else 0 in
  let scale := fun j => nth j (p_scale pr) 0 in
  ridge_obj k X Y scale p o (fun j => at2 C j o) (nth o b 0) <= ridge_obj k X Y scale p o w' b'.
Proof.
  intros nrm minimize fit norm alpha X Y p q old C b HX HY HL Hfo pr [HW HG] H o w' b' Ho Hb k scale. unfold ridge_fit in H. cbv zeta in H.
  rewrite (rect_ncols _ _ HY) in H. fold pr in H.
  refine (rd_min nrm fit norm X Y p q _ old C b HX HY HL Hfo HW H o Ho k _ w' b' Hb _); [|unfold k; destruct (Qltb 0 alpha); lra].
  intros j Hj. specialize (HG j o Hj Ho). apply grad_zero in HG; [|unfold pr; rewrite pX_length; destruct HX; lia].
  unfold pr in HG at 1. rewrite pX_length in HG. exact HG.
Qed.
Print Assumptions C227_objective.
(* so Alpha = 1 and Alpha = 0 do what is said *)
Theorem C227_alpha_partial : forall nrm minimize fit norm alpha X Y p q old C b,
  rect X p -> rect Y q -> length Y = length X -> (fit = true \/ old = None) -> alpha == 1 \/ alpha == 0 ->
  let pr := preprocess nrm fit norm X Y in
  stops_at_zero minimize alpha (pX pr) (pY pr) p q ->
  ridge_fit nrm minimize fit norm alpha X Y old = Some (C, b) ->
  forall o w' b', (o < q)%nat -> (fit = false -> b' == 0) ->
  let scale := fun j => nth j (p_scale pr) 0 in
  ridge_obj alpha X Y scale p o (fun j => at2 C j o) (nth o b 0) <= ridge_obj alpha X Y scale p o w' b'.
Proof.
  intros nrm minimize fit norm alpha X Y p q old C b HX HY HL Hfo HA pr HS H o w' b' Ho Hb scale.
  pose proof (C227_objective nrm minimize fit norm alpha X Y p q old C b HX HY HL Hfo HS H o w' b' Ho Hb) as P. cbv zeta in P. fold pr scale in P.
  rewrite (ridge_shift (if Qltb 0 alpha then 1 else 0) alpha), (ridge_shift (if Qltb 0 alpha then 1 else 0) alpha X Y scale p o w').
  assert (Z : alpha - (if Qltb 0 alpha then 1 else 0) == 0) by (destruct (Qltb_spec 0 alpha); destruct HA as [E|E]; lra).
  rewrite !Z. lra.
Qed.
Print Assumptions C227_alpha_partial.
(* for every other Alpha > 0 a fitted model with a coefficient other than 0 is
   not the best for its own Alpha *)
Theorem C227_alpha_refuted : forall nrm minimize fit norm alpha X Y p q old C b,
  rect X p -> rect Y q -> length Y = length X -> (fit = true \/ old = None) -> 0 < alpha -> ~ alpha == 1 ->
  let pr := preprocess nrm fit norm X Y in
  stops_at_zero minimize alpha (pX pr) (pY pr) p q ->
  ridge_fit nrm minimize fit norm alpha X Y old = Some (C, b) ->
  forall o, (o < q)%nat -> (exists j, (j < p)%nat /\ ~ at2 C j o == 0) ->
  let scale := fun j => nth j (p_scale pr) 0 in
  exists w' b', (fit = false -> b' == 0) /\ ridge_obj alpha X Y scale p o w' b' < ridge_obj alpha X Y scale p o (fun j => at2 C j o) (nth o b 0).
Proof.
  intros nrm minimize fit norm alpha X Y p q old C b HX HY HL Hfo HA HA1 pr [HW HG] H o Ho HC scale. unfold ridge_fit in H. cbv zeta in H.
  rewrite (rect_ncols _ _ HY) in H. fold pr in H.
  refine (rd_better nrm fit norm X Y p q _ old C b HX HY HL Hfo HW H o Ho _ alpha HA HA1 HC).
  intros j Hj. specialize (HG j o Hj Ho). apply grad_zero in HG; [|unfold pr; rewrite pX_length; destruct HX; lia].
  unfold pr in HG at 1. rewrite pX_length in HG. destruct (Qltb_spec 0 alpha); [exact HG|lra].
Qed.
Print Assumptions C227_alpha_refuted.
(* the same model for every Alpha > 0 *)
Theorem C227_same_refuted : forall alpha alpha' X Y p o w j, 0 < alpha -> 0 < alpha' ->
  ridge_grad alpha X Y p o w j = ridge_grad alpha' X Y p o w j.
Proof. intros alpha alpha' X Y p o w j H H'. unfold ridge_grad. destruct (Qltb_spec 0 alpha), (Qltb_spec 0 alpha'); try lra. reflexivity. Qed.
Print Assumptions C227_same_refuted.
(* the value handed to the optimizer does use Alpha: it is the objective over 2n *)
Theorem C227_value : forall alpha X Y p o w, 0 <= alpha -> X <> [] ->
  2 * qn (length X) * ridge_J alpha X Y p o w == ridge_obj alpha X Y (fun _ => 1) p o w 0.
Proof. exact ridge_value. Qed.
Print Assumptions C227_value.
(* so the gradient handed over beside it is not its gradient: along coordinate j the value has slope gradient + (Alpha-1) w_j / n *)
Theorem C227_gradient_refuted : forall alpha X Y p o w j, X <> [] -> (j < p)%nat -> 0 < alpha ->
  exists h, forall t, ridge_J alpha X Y p o (fun k => if Nat.eqb k j then w k + t else w k) ==
    ridge_J alpha X Y p o w + t * (ridge_grad alpha X Y p o w j + (alpha - 1) * w j / qn (length X)) + t * t * h.
Proof.
  intros alpha X Y p o w j HX Hj Ha. destruct (ridge_slope alpha X Y p o w j HX Hj) as (h & H). exists h. intros t. rewrite H.
  destruct (Qltb_spec 0 alpha); [reflexivity|lra].
Qed.
Print Assumptions C227_gradient_refuted.
(* y = 2x at x = 0 and 2: with Alpha 4 the slope is 4/3, where 2/3 is best *)
Example C227_example : let X := [[0]; [2]]%Q in let Y := [[0]; [4]]%Q in let mini := fun (_ : Q) (_ _ : mtx) => [[4 # 3]]%Q in
  let pr := preprocess (fun _ => 1) true false X Y in
  stops_at_zero mini 4 (pX pr) (pY pr) 1 1 /\
  exists C b, ridge_fit (fun _ => 1) mini true false 4 X Y None = Some (C, b) /\ at2 C 0 0 == 4 # 3 /\ nth 0 b 0 == 2 # 3 /\
    ridge_obj 4 X Y (fun _ => 1) 1 0 (fun _ => 2 # 3) (4 # 3) < ridge_obj 4 X Y (fun _ => 1) 1 0 (fun _ => 4 # 3) (2 # 3).
Proof.
  cbv zeta. split.
  - split; [reflexivity|]. intros [|j] [|o]; try lia. intros _ _. vm_compute. reflexivity.
  - eexists. eexists. split; [vm_compute; reflexivity|]. vm_compute. auto.
Qed.
