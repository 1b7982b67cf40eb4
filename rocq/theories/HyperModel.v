(* The checks of settings at the start of Fit (neural_network/basemlp64.go, linear_model/logistic.go) and what a rejected Fit leaves behind.
   Numbers are float64 (FloatModel); strings are those of Go; log.Panicf is modelled by the name of the setting it complains about.
   basemlp32.go has the same checks. *)
From Coq Require Import ZArith List Bool String.
From Flocq Require Import IEEE754.BinarySingleNaN.
From Verif Require Import FloatModel.
Import ListNotations.
Open Scope string_scope.

(* basemlp64.go:25-50 the settings that are checked *)
Record settings := mkset {
  s_max_iter : Z; s_alpha : f64; s_lr_init : f64; s_momentum : f64; s_vfrac : f64; s_beta1 : f64; s_beta2 : f64; s_eps : f64; s_nnc : Z;
  s_act : string; s_lr : string; s_solver : string; s_hidden : list Z }.

(* basemlp64.go:78-118 the keys of Activations64 *)
Definition activations := ["identity"; "logistic"; "tanh"; "relu"; "softmax"].
Definition smem (x : string) (l : list string) : bool := existsb (String.eqb x) l.

(* basemlp64.go:626-674 validateHyperparameters: the first setting refused, if any; the comparisons are those of the code, so that those
   with NaN are false *)
Definition validate (s : settings) : option string :=
  if (s_max_iter s <=? 0)%Z then Some "maxIter"
  else if flt (s_alpha s) f0 then Some "alpha"
  else if fle (s_lr_init s) f0 then Some "learningRateInit"
  else if flt f1 (s_momentum s) || flt (s_momentum s) f0 then Some "momentum"
  else if flt (s_vfrac s) f0 || fle f1 (s_vfrac s) then Some "validationFraction"
  else if flt (s_beta1 s) f0 || fle f1 (s_beta1 s) then Some "beta_1"
  else if flt (s_beta2 s) f0 || fle f1 (s_beta2 s) then Some "beta_2"
  else if fle (s_eps s) f0 then Some "epsilon"
  else if (s_nnc s <=? 0)%Z then Some "nIterNoChange"
  else if negb (smem (s_act s) activations) then Some "activation"
  else if negb (smem (s_lr s) ["constant"; "invscaling"; "adaptive"]) then Some "learning rate"
  else if negb (smem (s_solver s) ["sgd"; "adam"; "lbfgs"]) then Some "solver"
  else None.
(* basemlp64.go:485-492 the start of fit *)
Definition fit_check (s : settings) : option string :=
  match validate s with
  | Some w => Some w
  | None => if existsb (fun h => (h <? 0)%Z) (s_hidden s) then Some "hiddenLayerSizes" else None
  end.

(* basemlp64.go:120-148 the keys of Derivatives64, and 391-399: backprop calls the derivative of Activation for every hidden layer; the
   missing one is a nil function, whose call panics *)
Definition derivatives := ["identity"; "logistic"; "tanh"; "relu"].
Definition backprop_runs (s : settings) : bool := match s_hidden s with [] => true | _ => smem (s_act s) derivatives end.

(* logistic.go:389-399 *)
Definition lr_validate (max_iter : Z) (alpha : f64) (nnc : Z) : option string :=
  if (max_iter <=? 0)%Z then Some "maxIter" else if flt alpha f0 then Some "alpha" else if (nnc <=? 0)%Z then Some "nIterNoChange" else None.

(* basemlp64.go:228-255 and multilayer_perceptron.go:19-28, 81-90 NewMLPRegressor and NewMLPClassifier; the decimal constants are
   quotients of integers rounded once, as the compiler rounds them *)
Definition new_mlp (hidden : list Z) (act solver : string) (alpha : f64) : settings :=
  mkset 200 alpha (fdiv f1 (fint 1000)) (fdiv (fint 9) (fint 10)) (fdiv f1 (fint 10)) (fdiv (fint 9) (fint 10)) (fdiv (fint 999) (fint 1000))
    (fdiv f1 (fint 100000000)) 10 act "constant" solver hidden.

(* What Fit stores: the label binarizer and the weights with the number of outputs.  L stands for fitted label binarizers, W for weights. *)
Section State.
  Context {L W D : Type}.
  Record est := mkest { e_lb : option L; e_w : W }.
  Inductive outcome := Rejected (what : string) | Trained.
  Variable binarized : D -> bool.   (* isBinarized64 of the targets *)
  Variable fit_lb : D -> L.         (* NewLabelBinarizer64(0, 1) fitted on the targets *)
  Variable train : settings -> D -> option L -> W -> W.   (* the rest of fit *)
  (* multilayer_perceptron.go:46-50 MLPRegressor.Fit: basemlp64.go:485 fit *)
  Definition reg_fit (s : settings) (d : D) (e : est) : est * outcome :=
    match fit_check s with
    | Some w => (e, Rejected w)
    | None => (mkest (e_lb e) (train s d (e_lb e) (e_w e)), Trained)
    end.
  (* basemlp64.go:579-600 Fit of a classifier: the binarizer is stored before fit checks the settings *)
  Definition clf_fit (s : settings) (d : D) (e : est) : est * outcome :=
    reg_fit s d (if binarized d then e else mkest (Some (fit_lb d)) (e_w e)).
  (* logistic.go:338-357 LogisticRegression.Fit: the same order *)
  Definition lr_fit (max_iter : Z) (alpha : f64) (nnc : Z) (tr : D -> option L -> W -> W) (d : D) (e : est) : est * outcome :=
    let e1 := if binarized d then e else mkest (Some (fit_lb d)) (e_w e) in
    match lr_validate max_iter alpha nnc with
    | Some w => (e1, Rejected w)
    | None => (mkest (e_lb e1) (tr d (e_lb e1) (e_w e1)), Trained)
    end.
End State.
Arguments est : clear implicits.
