(* Properties C228-C230. *)
From Coq Require Import Reals Lra Lia List Arith Bool.
From Verif Require Import MtModel MtProofs KernModel KernProofs KernInvModel KernInvProofs.
Import ListNotations.
Open Scope R_scope.

(* C228: a kernel whose IsStationary is true depends on differences of samples only; missing: WhiteKernel *)
Theorem C228_stationary_partial : forall pw p k X Y t K, stationary k = true -> has_white k = false -> scales_ok k ->
  eval pw p k X Y = Some K ->
  exists K', eval pw p k (fun i f => X i f + t f) (fun j f => Y j f + t f) = Some K' /\ forall i j, K' i j = K i j.
Proof.
  intros pw p k X Y t K HS HW _ E. pose proof (shift_agree pw p k X Y t HS HW) as A. rewrite E in A.
  destruct (eval pw p k (fun i f => X i f + t f) (fun j f => Y j f + t f)) as [K'|]; [|destruct A]. exists K'. auto.
Qed.
Print Assumptions C228_stationary_partial.
(* a kernel whose IsStationary is false may depend on the origin: DotProduct does, for every translation *)
Theorem C228_dot : forall pw p s b t, (exists f, (f < p)%nat /\ t f <> 0) ->
  stationary (KDot s b) = false /\
  exists X Y K K', eval pw p (KDot s b) X Y = Some K /\ eval pw p (KDot s b) (fun i f => X i f + t f) (fun j f => Y j f + t f) = Some K' /\ K' 0%nat 0%nat <> K 0%nat 0%nat.
Proof.
  intros pw p s b t (f & Hf & Ht). split; [reflexivity|]. exists (fun _ _ => 0), (fun _ _ => 0). eexists. eexists. split; [reflexivity|]. split; [reflexivity|].
  cbv beta. intros E. rewrite (rs_ext p _ (fun f => t f * t f)) in E by (intros; ring). rewrite (rs_ext p (fun f => 0 * 0) (fun _ => 0)), rs_zero in E by (intros; ring).
  apply Ht. apply (rs_sq0 p t); [lra|exact Hf].
Qed.
Print Assumptions C228_dot.
(* WhiteKernel says it is stationary; two samples that differ by 1 are the same sample far from the origin *)
Theorem C228_white_refuted : forall pw v b, v <> 0 -> exists X Y t K K', stationary (KWhite v b) = true /\
  eval pw 1 (KWhite v b) X Y = Some K /\ eval pw 1 (KWhite v b) (fun i f => X i f + t f) (fun j f => Y j f + t f) = Some K' /\
  K 0%nat 0%nat = 0 /\ K' 0%nat 0%nat = v.
Proof.
  intros pw v b Hv. exists (fun _ _ => 0), (fun _ _ => 1), (fun _ => 10 ^ 9). eexists. eexists. split; [reflexivity|]. split; [reflexivity|]. split; [reflexivity|].
  cbv beta. cbn [near andb]. unfold approx. pose proof tol8_pos. assert (T : tol8 < 1 / 4) by (unfold tol8; lra).
  split.
  - replace (0 - 1) with (Ropp 1) by ring. rewrite Rabs_Ropp, Rabs_R1, Rabs_R0, Rmax_right by lra.
    destruct (Rle_dec 1 tol8); [lra|]. destruct (Rle_dec 1 (tol8 * 1)); [lra|reflexivity].
  - replace (0 + 10 ^ 9 - (1 + 10 ^ 9)) with (Ropp 1) by ring. rewrite Rabs_Ropp, Rabs_R1.
    destruct (Rle_dec 1 tol8); [reflexivity|].
    destruct (Rle_dec 1 (tol8 * Rmax (Rabs (0 + 10 ^ 9)) (Rabs (1 + 10 ^ 9)))) as [|N]; [reflexivity|]. exfalso. apply N.
    assert (M : 1 + 10 ^ 9 <= Rmax (Rabs (0 + 10 ^ 9)) (Rabs (1 + 10 ^ 9))) by (eapply Rle_trans; [|apply Rmax_r]; apply Rle_abs).
    eapply Rle_trans; [|apply Rmult_le_compat_l; [lra|exact M]]. unfold tol8. lra.
Qed.
Print Assumptions C228_white_refuted.
Example C228_ex : let k := KProd (KConst 3 (0, 1)) (KRBF [2; 1] [(0, 1); (0, 1)]) in let X := fun i f => match i, f with O, O => 1 | O, _ => 2 | _, O => 3 | _, _ => 4 end in
  stationary k = true /\ exists K, eval (fun _ _ => 0) 2 k X X = Some K /\ K 0%nat 1%nat = 3 * exp (- (1 / 2) * 5).
Proof. cbv zeta. split; [reflexivity|]. eexists. split; [reflexivity|]. cbn. f_equal. f_equal. lra. Qed.

(* C229: turning all samples about the origin changes nothing for DotProduct and for RBF with one length scale *)
Theorem C229_rotation : forall pw p k X Y U K, orthogonal p U -> isotropic k = true -> has_white k = false -> scales_ok k ->
  eval pw p k X Y = Some K -> exists K', eval pw p k (turn p U X) (turn p U Y) = Some K' /\ forall i j, K' i j = K i j.
Proof.
  intros pw p k X Y U K HU HI HW _ E. pose proof (turn_agree pw p k X Y U HU HI HW) as A. rewrite E in A.
  destruct (eval pw p k (turn p U X) (turn p U Y)) as [K'|]; [|destruct A]. exists K'. auto.
Qed.
Print Assumptions C229_rotation.
(* one length scale for each feature: turning by a right angle exchanges them *)
Theorem C229_anisotropic : exists X U K K', orthogonal 2 U /\ eval (fun _ _ => 0) 2 (KRBF [1; 2] [(0, 1); (0, 1)]) X X = Some K /\
  eval (fun _ _ => 0) 2 (KRBF [1; 2] [(0, 1); (0, 1)]) (turn 2 U X) (turn 2 U X) = Some K' /\ K 0%nat 1%nat = exp (- (1 / 2)) /\ K' 0%nat 1%nat = exp (- (1 / 8)).
Proof.
  exists (fun i f => match i, f with O, O => 1 | _, _ => 0 end), (fun f a => match f, a with O, O => 0 | O, _ => 1 | _, O => -1 | _, _ => 0 end).
  eexists. eexists. split.
  { intros [|[|f]] [|[|g]] Hf Hg; try lia; cbn; lra. }
  split; [reflexivity|]. split; [reflexivity|]. split; cbn; f_equal; unfold turn; cbn; lra.
Qed.
Print Assumptions C229_anisotropic.
(* WhiteKernel compares feature by feature: turning makes two samples different *)
Theorem C229_white : forall pw v b, v <> 0 -> exists X Y U K K', orthogonal 2 U /\ eval pw 2 (KWhite v b) X Y = Some K /\
  eval pw 2 (KWhite v b) (turn 2 U X) (turn 2 U Y) = Some K' /\ K 0%nat 0%nat = v /\ K' 0%nat 0%nat = 0.
Proof.
  intros pw v b Hv. exists (fun _ _ => 0), (fun _ _ => tol8), (fun f a => match f, a with O, O => 3 / 5 | O, _ => - (4 / 5) | _, O => 4 / 5 | _, _ => 3 / 5 end).
  eexists. eexists. split.
  { intros [|[|f]] [|[|g]] Hf Hg; try lia; cbn; lra. }
  split; [reflexivity|]. split; [reflexivity|]. pose proof tol8_pos. assert (T : tol8 < 1 / 4) by (unfold tol8; lra). cbn [near andb].
  assert (E0 : Rabs (0 - tol8) = tol8) by (rewrite Rabs_left; lra). split.
  - unfold approx. rewrite E0. destruct (Rle_dec tol8 tol8); [reflexivity|lra].
  - unfold turn. cbn [rs].
    replace (0 + 0 * (3 / 5) + 0 * (4 / 5)) with 0 by ring. replace (0 + tol8 * (3 / 5) + tol8 * (4 / 5)) with (7 / 5 * tol8) by field.
    assert (A : approx 0 (7 / 5 * tol8) = false).
    { unfold approx. replace (0 - 7 / 5 * tol8) with (- (7 / 5 * tol8)) by ring. rewrite Rabs_Ropp, Rabs_R0, (Rabs_pos_eq (7 / 5 * tol8)), Rmax_right by lra.
      destruct (Rle_dec (7 / 5 * tol8) tol8); [lra|]. destruct (Rle_dec (7 / 5 * tol8) (tol8 * (7 / 5 * tol8))); [nra|reflexivity]. }
    rewrite A. reflexivity.
Qed.
Print Assumptions C229_white.
Example C229_ex : let U := fun f a => match f, a with O, O => 3 / 5 | O, _ => - (4 / 5) | _, O => 4 / 5 | _, _ => 3 / 5 end in
  orthogonal 2 U /\ turn 2 U (fun _ f => match f with O => 5 | _ => 10 end) 0%nat 0%nat = 11.
Proof. cbv zeta. split; [intros [|[|f]] [|[|g]] Hf Hg; try lia; cbn; lra|unfold turn; cbn; lra]. Qed.

(* C230: changing the unit of all features and of the length scales changes nothing *)
Theorem C230_units : forall pw p k X Y c K, c <> 0 -> scales_ok k -> has_dot k = false -> has_white k = false ->
  eval pw p k X Y = Some K -> exists K', eval pw p (stretch c k) (fun i f => c * X i f) (fun j f => c * Y j f) = Some K' /\ forall i j, K' i j = K i j.
Proof.
  intros pw p k X Y c K Hc HK HD HW E. pose proof (stretch_agree pw p k X Y c Hc HK HD HW) as A. rewrite E in A.
  destruct (eval pw p (stretch c k) (fun i f => c * X i f) (fun j f => c * Y j f)) as [K'|]; [|destruct A]. exists K'. auto.
Qed.
Print Assumptions C230_units.
(* DotProduct: with Sigma0 in the new unit too, covariances come out in the square of the unit *)
Theorem C230_dot : forall pw p s b X Y c, exists K K', eval pw p (KDot s b) X Y = Some K /\
  eval pw p (KDot (c * s) b) (fun i f => c * X i f) (fun j f => c * Y j f) = Some K' /\ forall i j, K' i j = c ^ 2 * K i j.
Proof.
  intros. eexists. eexists. split; [reflexivity|]. split; [reflexivity|]. intros i j. cbv beta.
  rewrite (rs_ext p (fun f => c * X i f * (c * Y j f)) (fun f => c ^ 2 * (X i f * Y j f))) by (intros; ring). rewrite rs_scale. ring.
Qed.
Print Assumptions C230_dot.
Example C230_ex : exists K, eval (fun _ _ => 0) 1 (KRBF [20] [(0, 1)]) (fun i _ => match i with O => 10 | _ => 30 end) (fun i _ => match i with O => 10 | _ => 30 end) = Some K /\
  K 0%nat 1%nat = exp (- (1 / 2)).
Proof. eexists. split; [reflexivity|]. cbn. f_equal. lra. Qed.
