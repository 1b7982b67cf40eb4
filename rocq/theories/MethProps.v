(* C224: the methods sgd, adagrad, rmsprop, adadelta and adam of GOMethodCreators *)
From Coq Require Import Reals Lra Bool.
From Verif Require Import MtModel MtProofs OptModel MethModel.
Open Scope R_scope.

(* The first iterate of method "adam" is never the one of the optimizer Adam, however the line search chooses, when two
   gradient components have different sizes *)
Theorem C224_adam_refuted P search grad x0 : o_var P = VAdam -> o_mom P <= 0 -> o_clip P <= 0 -> 0 < o_step P -> 0 < o_eps P ->
  o_b1 P <> 1 -> o_b2 P <> 1 -> 0 < grad x0 0%nat < grad x0 1%nat ->
  ~ forall j, (j < 2)%nat ->
      method_run P search grad x0 1 j = s_theta (opt_step P 2 (opt_new P (fun j _ => x0 j)) (fun j _ => grad x0 j)) j 0%nat.
Proof.
  intros V M C S E B1 B2 G H. pose proof (H 0%nat ltac:(auto with arith)) as H0. pose proof (H 1%nat ltac:(auto with arith)) as H1. clear H.
  assert (F : forall j, 0 < grad x0 j ->
    s_theta (opt_step P 2 (opt_new P (fun j _ => x0 j)) (fun j _ => grad x0 j)) j 0%nat = x0 j - o_step P * grad x0 j / (grad x0 j + o_eps P)).
  { intros j Hj. unfold opt_step, opt_new. cbn [s_t s_theta s_cell Nat.eqb]. unfold cell_update, clipped. rewrite V.
    destruct (rltb_spec 0 (o_clip P)) as [L|_]; [lra|]. cbn [andb]. destruct (rltb_spec 0 (o_mom P)) as [L|_]; [lra|].
    cbn [fst cell0 c_m c_v pow].
    replace ((o_b2 P * 0 + (1 - o_b2 P) * grad x0 j * grad x0 j) / (1 - o_b2 P * 1)) with (grad x0 j * grad x0 j) by (field; lra).
    rewrite sqrt_square by lra. field. split; lra. }
  rewrite F in H0, H1 by lra. cbn [method_run gd_run] in H0, H1. unfold method_run in H0, H1. cbn [gd_run] in H0, H1.
  set (a := grad x0 0%nat) in *. set (b := grad x0 1%nat) in *. set (t := search 0%nat) in *.
  assert (A : t = o_step P / (a + o_eps P)). { apply Rmult_eq_reg_r with a; [|lra]. transitivity (o_step P * a / (a + o_eps P)); [lra|field; lra]. }
  assert (B : t = o_step P / (b + o_eps P)). { apply Rmult_eq_reg_r with b; [|lra]. transitivity (o_step P * b / (b + o_eps P)); [lra|field; lra]. }
  assert (X : o_step P * (b + o_eps P) = o_step P * (a + o_eps P)).
  { transitivity (t * (a + o_eps P) * (b + o_eps P)); [rewrite A; field; lra|rewrite B; field; lra]. }
  apply Rmult_eq_reg_l in X; lra.
Qed.
Print Assumptions C224_adam_refuted.
(* the settings make no difference at all *)
Theorem C224_settings_refuted P P' search grad x0 k j : method_run P search grad x0 k j = method_run P' search grad x0 k j.
Proof. reflexivity. Qed.
Print Assumptions C224_settings_refuted.
(* what holds: the iterates are those of gradient descent, and a line search that never steps uphill keeps the loss from growing *)
Theorem C224_descent_partial P search grad x0 loss :
  (forall k, loss (fun j => gd_run search grad x0 k j - search k * grad (gd_run search grad x0 k) j) <= loss (gd_run search grad x0 k)) ->
  forall k, loss (method_run P search grad x0 k) <= loss x0.
Proof.
  intros H k. unfold method_run. induction k as [|k IH]; [cbn; lra|]. cbn. specialize (H k). lra.
Qed.
Print Assumptions C224_descent_partial.
Example C224_ex P : method_run P (fun _ => 1 / 2) (fun x j => 2 * (x j - 3)) (fun _ => 0) 1 0%nat = 3.
Proof. cbn. unfold method_run. cbn. lra. Qed.
