(* Properties C251-C253: the settings Fit accepts, what a rejected Fit leaves, the settings of the constructors *)
From Coq Require Import Reals ZArith List Bool String Lia Lra.
From Flocq Require Import Core.Core IEEE754.BinarySingleNaN.
From Verif Require Import FloatModel FloatProofs FloatDistProofs FloatScoreModel FloatScoreProofs FloatRegProofs HyperModel HyperProofs.
Import ListNotations.
Open Scope R_scope.

(* C251: when the numbers among the settings are finite, the perceptrons accept exactly the settings in the ranges of the messages (a hidden
   layer may have size 0) and LogisticRegression likewise *)
Theorem C251_accepts_partial : forall s, forallb is_finite [s_alpha s; s_lr_init s; s_momentum s; s_vfrac s; s_beta1 s; s_beta2 s; s_eps s] = true ->
  fit_check s = None <->
  (0 < s_max_iter s)%Z /\ 0 <= B2R (s_alpha s) /\ 0 < B2R (s_lr_init s) /\ 0 <= B2R (s_momentum s) <= 1 /\ 0 <= B2R (s_vfrac s) < 1 /\
  0 <= B2R (s_beta1 s) < 1 /\ 0 <= B2R (s_beta2 s) < 1 /\ 0 < B2R (s_eps s) /\ (0 < s_nnc s)%Z /\
  In (s_act s) ["identity"; "logistic"; "tanh"; "relu"; "softmax"]%string /\ In (s_lr s) ["constant"; "invscaling"; "adaptive"]%string /\
  In (s_solver s) ["sgd"; "adam"; "lbfgs"]%string /\ (forall h, In h (s_hidden s) -> (0 <= h)%Z).
Proof.
  intros s F. rewrite forallb_forall in F. assert (FA : is_finite (s_alpha s) = true) by (apply F; cbn; auto). assert (FL : is_finite (s_lr_init s) = true) by (apply F; cbn; auto). assert (FM : is_finite (s_momentum s) = true) by (apply F; cbn; auto).
  assert (FV : is_finite (s_vfrac s) = true) by (apply F; cbn; auto). assert (F1 : is_finite (s_beta1 s) = true) by (apply F; cbn; auto 10). assert (F2 : is_finite (s_beta2 s) = true) by (apply F; cbn; auto 10). assert (FE : is_finite (s_eps s) = true) by (apply F; cbn; auto 10).
  assert (HH : existsb (fun h => (h <? 0)%Z) (s_hidden s) = false <-> forall h, In h (s_hidden s) -> (0 <= h)%Z).
  { split.
    - intros E h I. destruct (Z.ltb_spec h 0) as [L|L]; [|exact L]. exfalso. assert (X : existsb (fun h => (h <? 0)%Z) (s_hidden s) = true) by (apply existsb_exists; exists h; split; [exact I|now apply Z.ltb_lt]). congruence.
    - intros H. destruct (existsb _ _) eqn:E; [|reflexivity]. apply existsb_exists in E as (h & I & L). apply Z.ltb_lt in L. specialize (H h I). lia. }
  assert (G : fit_check s = None <-> validate s = None /\ existsb (fun h => (h <? 0)%Z) (s_hidden s) = false).
  { unfold fit_check. destruct (validate s); [split; [discriminate|intros [X _]; discriminate X]|]. destruct (existsb _ _); split; [discriminate|intros [_ X]; discriminate X|auto|auto]. }
  rewrite G, validate_None, HH, (lt0 _ FA), (le0 _ FL), (gt1 _ FM), (lt0 _ FM), (lt0 _ FV), (ge1 _ FV), (lt0 _ F1), (ge1 _ F1), (lt0 _ F2), (ge1 _ F2), (le0 _ FE). unfold activations. tauto.
Qed.
Print Assumptions C251_accepts_partial.
Theorem C251_logistic_partial : forall mi alpha nnc, is_finite alpha = true -> lr_validate mi alpha nnc = None <-> (0 < mi)%Z /\ 0 <= B2R alpha /\ (0 < nnc)%Z.
Proof. intros mi alpha nnc F. unfold lr_validate. rewrite !step, !Z.leb_gt, (lt0 _ F). tauto. Qed.
Print Assumptions C251_logistic_partial.

(* NaN and, where there is no upper bound, +Inf are accepted in place of any value *)
Theorem C251_nan_refuted : forall s, fit_check s = None ->
  (forall x, In x [B754_nan; B754_infinity false] ->
     fit_check (mkset (s_max_iter s) x x (s_momentum s) (s_vfrac s) (s_beta1 s) (s_beta2 s) x (s_nnc s) (s_act s) (s_lr s) (s_solver s) (s_hidden s)) = None) /\
  fit_check (mkset (s_max_iter s) B754_nan B754_nan B754_nan B754_nan B754_nan B754_nan B754_nan (s_nnc s) (s_act s) (s_lr s) (s_solver s) (s_hidden s)) = None.
Proof.
  intros s H. unfold fit_check in *. destruct (validate s) as [w|] eqn:V; [discriminate|]. apply validate_None in V. assert (Q : forall t, validate t = None -> s_hidden t = s_hidden s -> match validate t with Some w => Some w | None => if existsb (fun h => (h <? 0)%Z) (s_hidden t) then Some "hiddenLayerSizes"%string else None end = None).
  { intros t E1 E2. now rewrite E1, E2. }
  split; [intros x [<-|[<-|[]]]|]; apply Q; try reflexivity; apply validate_None; cbn [s_max_iter s_alpha s_lr_init s_momentum s_vfrac s_beta1 s_beta2 s_eps s_nnc s_act s_lr s_solver]; repeat match goal with |- _ /\ _ => split end; try tauto; try reflexivity.
Qed.
Print Assumptions C251_nan_refuted.
(* "softmax" is accepted for the hidden layers, which backprop has no derivative for: training panics *)
Theorem C251_softmax_refuted : forall s, s_hidden s <> [] -> s_act s = "softmax"%string -> backprop_runs s = false /\
  exists t, fit_check t = None /\ s_act t = "softmax"%string /\ s_hidden t = [3%Z].
Proof. intros s N E. split; [unfold backprop_runs; rewrite E; destruct (s_hidden s); [congruence|reflexivity]|]. exists (new_mlp [3%Z] "softmax" "adam" f0). split; [vm_compute; reflexivity|split; reflexivity]. Qed.
Print Assumptions C251_softmax_refuted.
Theorem C251_runs_partial : forall s, fit_check s = None -> s_act s <> "softmax"%string -> backprop_runs s = true.
Proof.
  intros s H N. unfold fit_check in H. destruct (validate s) eqn:V; [discriminate|]. apply validate_None in V. unfold backprop_runs. destruct (s_hidden s); [reflexivity|]. apply smem_In. destruct V as (_ & _ & _ & _ & _ & _ & _ & _ & _ & A & _). cbn in A |- *. intuition congruence.
Qed.
Print Assumptions C251_runs_partial.
Example C251_example :
  fit_check (new_mlp [5; 0]%Z "relu" "adam" (fdiv f1 (fint 3))) = None /\ fit_check (new_mlp [5; -1]%Z "relu" "adam" f0) = Some "hiddenLayerSizes"%string /\
  fit_check (new_mlp [] "Relu" "adam" f0) = Some "activation"%string /\ fit_check (new_mlp [] "relu" "adam" (fint (-1))) = Some "alpha"%string /\ lr_validate 200 f0 0 = Some "nIterNoChange"%string.
Proof. vm_compute. repeat split. Qed.

(* C252: a Fit that is rejected leaves a regressor as it was, and a classifier too when its targets are 0 and 1 *)
Theorem C252_rejected_partial : forall L W D (bin : D -> bool) (flb : D -> L) (train : settings -> D -> option L -> W -> W) s d (e : est L W) w,
  fit_check s = Some w -> reg_fit train s d e = (e, Rejected w) /\ (bin d = true -> clf_fit bin flb train s d e = (e, Rejected w)).
Proof. intros L W D bin flb train s d e w H. unfold clf_fit, reg_fit. rewrite H. split; [reflexivity|]. intros B. now rewrite B. Qed.
Print Assumptions C252_rejected_partial.
(* otherwise the old weights stay beside the classes of the new targets *)
Theorem C252_rejected_refuted : forall L W D (bin : D -> bool) (flb : D -> L) (train : settings -> D -> option L -> W -> W) tr s mi alpha nnc d (e : est L W) w v, bin d = false ->
  (fit_check s = Some w -> clf_fit bin flb train s d e = (mkest (Some (flb d)) (e_w e), Rejected w)) /\
  (lr_validate mi alpha nnc = Some v -> lr_fit bin flb mi alpha nnc tr d e = (mkest (Some (flb d)) (e_w e), Rejected v)).
Proof. intros L W D bin flb train tr s mi alpha nnc d e w v B. unfold clf_fit, reg_fit, lr_fit. rewrite B. split; intros H; now rewrite H. Qed.
Print Assumptions C252_rejected_refuted.
Example C252_example : let bin := forallb (fun v => Z.eqb v 0 || Z.eqb v 1) in let tr (s : settings) (d : list Z) (lb : option (list Z)) (w : nat) := S w in
  clf_fit bin (fun d => d) tr (new_mlp [] "relu" "adam" f0) [2; 3]%Z (mkest None 7%nat) = (mkest (Some [2; 3]%Z) 8%nat, Trained) /\
  clf_fit bin (fun d => d) tr (new_mlp [] "relu" "" f0) [5; 6]%Z (mkest (Some [2; 3]%Z) 8%nat) = (mkest (Some [5; 6]%Z) 8%nat, Rejected "solver") /\
  clf_fit bin (fun d => d) tr (new_mlp [] "relu" "" f0) [0; 1]%Z (mkest (Some [2; 3]%Z) 8%nat) = (mkest (Some [2; 3]%Z) 8%nat, Rejected "solver").
Proof. vm_compute. repeat split. Qed.

(* C253: what NewMLPRegressor and NewMLPClassifier return can be fitted exactly if activation, solver, Alpha and the sizes are accepted *)
Theorem C253_new_partial : forall hidden act solver alpha, is_finite alpha = true ->
  fit_check (new_mlp hidden act solver alpha) = None <->
  0 <= B2R alpha /\ In act ["identity"; "logistic"; "tanh"; "relu"; "softmax"]%string /\ In solver ["sgd"; "adam"; "lbfgs"]%string /\ (forall h, In h hidden -> (0 <= h)%Z).
Proof.
  intros hidden act solver alpha F. assert (FF : forallb is_finite [s_alpha (new_mlp hidden act solver alpha); s_lr_init (new_mlp hidden act solver alpha); s_momentum (new_mlp hidden act solver alpha); s_vfrac (new_mlp hidden act solver alpha); s_beta1 (new_mlp hidden act solver alpha); s_beta2 (new_mlp hidden act solver alpha); s_eps (new_mlp hidden act solver alpha)] = true).
  { unfold new_mlp. cbn [s_alpha s_lr_init s_momentum s_vfrac s_beta1 s_beta2 s_eps forallb]. rewrite F. reflexivity. }
  rewrite (C251_accepts_partial _ FF). pose proof (C251_accepts_partial (new_mlp [] "relu" "adam" f0)) as K. assert (FK : forallb is_finite [s_alpha (new_mlp [] "relu" "adam" f0); s_lr_init (new_mlp [] "relu" "adam" f0); s_momentum (new_mlp [] "relu" "adam" f0); s_vfrac (new_mlp [] "relu" "adam" f0); s_beta1 (new_mlp [] "relu" "adam" f0); s_beta2 (new_mlp [] "relu" "adam" f0); s_eps (new_mlp [] "relu" "adam" f0)] = true) by (vm_compute; reflexivity).
  assert (KN : fit_check (new_mlp [] "relu" "adam" f0) = None) by (vm_compute; reflexivity). apply (K FK) in KN. clear K FK FF F.
  destruct KN as (A1 & _ & A3 & A4 & A5 & A6 & A7 & A8 & A9 & _ & A11 & _). unfold new_mlp in *. cbn [s_max_iter s_alpha s_lr_init s_momentum s_vfrac s_beta1 s_beta2 s_eps s_nnc s_act s_lr s_solver s_hidden] in *. tauto.
Qed.
Print Assumptions C253_new_partial.
(* the solvers the comments name besides sgd and adam, and the empty one that is said to mean adam, are refused by every Fit *)
Theorem C253_solver_refuted : forall hidden act alpha solver, In solver [""; "agd"; "adagrad"; "rmsprop"; "adadelta"]%string -> fit_check (new_mlp hidden act solver alpha) <> None.
Proof.
  intros hidden act alpha solver I H. unfold fit_check in H. destruct (validate _) eqn:V in H; [discriminate|]. apply validate_None in V. destruct V as (_ & _ & _ & _ & _ & _ & _ & _ & _ & _ & _ & S). cbn [new_mlp s_solver] in S. cbn in I, S. intuition congruence.
Qed.
Print Assumptions C253_solver_refuted.
Example C253_example : fit_check (new_mlp [10; 5]%Z "tanh" "lbfgs" f1) = None /\ fit_check (new_mlp [10]%Z "relu" "" f0) = Some "solver"%string /\ fit_check (new_mlp [10]%Z "relu" "adagrad" f0) = Some "solver"%string.
Proof. vm_compute. repeat split. Qed.
