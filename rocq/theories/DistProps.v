(* Property C31. *)
From Verif Require Import QCommon DistModel DistProofs.
Open Scope R_scope.

(* C31: any number of features other than one *)
Theorem C31_minkowski_partial : forall p n, 1 <= p -> n <> 1%nat ->
  (forall a b, length a = n -> length b = n -> minkowski (Pfin p) a b = rpow (rsum (zip (fun x y => rpow (Rabs (y - x)) p) a b)) (1 / p)) /\
  is_metric n (minkowski (Pfin p)).
Proof.
  intros p n Hp Hn. split; [|now apply mink_metric]. intros a b HA HB. apply mink_formula; [exact Hp| |]; congruence.
Qed.
Print Assumptions C31_minkowski_partial.
(* p = +Inf, any number of features *)
Theorem C31_chebyshev : forall n,
  (forall a b, length a = n -> length b = n -> minkowski Pinf a b = rmaxl (map Rabs (zip (fun x y => y - x) a b))) /\ is_metric n (minkowski Pinf).
Proof. intros n. split; [|apply mink_inf_metric]. intros a b HA HB. apply mink_inf_unfold. congruence. Qed.
Print Assumptions C31_chebyshev.
Theorem C31_euclidean : forall a b, length a = length b -> length a <> 1%nat ->
  euclidean a b = minkowski (Pfin 2) a b /\ euclidean a b = sqrt (rsum (zip (fun x y => (y - x) * (y - x)) a b)).
Proof.
  intros a b HL H1. split; [now apply euclid_mink|]. unfold euclidean. destruct a as [|x [|x' a]]; destruct b as [|y b]; cbn in HL, H1; try lia; reflexivity.
Qed.
Print Assumptions C31_euclidean.
Example C31_example : euclidean [0; 0] [3; 4] = 5 /\ minkowski Pinf [0; 0] [3; -4] = 4 /\ minkowski (Pfin 1) [0; 0] [3; 4] = 7.
Proof.
  split; [|split].
  - unfold euclidean, rsum. cbn [zip fold_left]. replace (0 + (3 - 0) * (3 - 0) + (4 - 0) * (4 - 0)) with (5 * 5) by ring. apply sqrt_square. lra.
  - unfold minkowski, minkowski_p, rmaxl. cbn [zip fold_left]. rewrite Rabs_pos_eq by lra. rewrite Rabs_left by lra. unfold Rmax.
    repeat match goal with |- context [Rle_dec ?a ?b] => destruct (Rle_dec a b) end; lra.
  - unfold minkowski, minkowski_p, rsum. cbn [zip fold_left]. destruct (Req_EM_T 1 1); [|congruence]. rewrite !Rabs_pos_eq by lra. rewrite !rpow_1 by lra. ring.
Qed.
(* one feature: the p-th root is taken of a distance that was never powered *)
Theorem C31_one_feature_refuted : forall p, 1 < p ->
  (forall x y, minkowski (Pfin p) [x] [y] = rpow (Rabs (y - x)) (1 / p)) /\
  (exists x y, minkowski (Pfin p) [x] [y] <> Rabs (y - x)) /\
  minkowski (Pfin 2) [0] [4] = 2.
Proof.
  intros p Hp. split; [intros x y; apply mink_one; lra|]. split.
  - exists 0, 2. rewrite mink_one by lra. replace (2 - 0) with 2 by ring. rewrite Rabs_pos_eq by lra. rewrite rpow_pos by lra.
    intros E. assert (X: Rpower 2 (1 / p) < Rpower 2 1).
    { apply Rpower_lt; [lra|]. apply (Rmult_lt_reg_r p); [lra|]. unfold Rdiv. rewrite Rmult_assoc, Rinv_l by lra. lra. }
    rewrite Rpower_1 in X by lra. lra.
  - rewrite mink_one by lra. replace (4 - 0) with (2 * 2) by ring. rewrite Rabs_pos_eq by lra. rewrite rpow_half by lra. apply sqrt_square. lra.
Qed.
Print Assumptions C31_one_feature_refuted.
