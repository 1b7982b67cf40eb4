(* neural_network/basemlp64.go over the real numbers: what a network loaded by Unmarshal predicts, the initial weights, and
   BatchNormalize. *)
From Coq Require Import Reals List Arith Bool.
From Verif Require Import MtModel LossModel MlpNetModel.
From Verif Require MlpIoModel.
Import ListNotations.
Open Scope R_scope.

(* ------------------------------------------------------------------ a loaded network without hidden layers *)
(* the only layer, read from the memory Unmarshal filled (basemlp64.go:459-464) *)
Definition loaded_layer (n : MlpIoModel.net R) : layer :=
  mklayer (nth 0 (MlpIoModel.n_units n) O) (nth 1 (MlpIoModel.n_units n) O)
    (fun i j => match MlpIoModel.coef_at n 0 i j with Some w => w | None => 0 end)
    (fun j => match MlpIoModel.intercept_at n 0 j with Some w => w | None => 0 end).
(* basemlp64.go:419-431 as called from 1193: OutActivation is softmax or logistic, whatever the estimator *)
Definition loaded_out (n : MlpIoModel.net R) : out := if MlpIoModel.n_soft n then OSoftmax else OLogistic.
(* basemlp64.go:897-933 on rows rows of X, without a label binarizer: LossFuncName is one of the log losses, so predict calls toLogits64 *)
Definition loaded_predict (n : MlpIoModel.net R) (a : act) (rows : nat) (X Y : rmtx) : rmtx :=
  let l := loaded_layer n in
  let H := hd (fun _ _ => 0) (forward a (loaded_out n) rows rows X [l] [Y]) in
  fun r => predict_row (loaded_out n) (l_out l) (H r).

(* ------------------------------------------------------------------ initial weights *)
Section Init.
  Variable u : nat -> R.                (* the values of rndFloat64, in the order of the calls; each is in [0, 1) *)
  (* basemlp64.go:465-473 *)
  Definition init_factor (logistic : bool) : R := if logistic then 2 else 6.
  Definition init_bound (logistic : bool) (fan_in fan_out : nat) : R := sqrt (init_factor logistic / INR (fan_in + fan_out)).
  (* basemlp64.go:459-477: memory is filled in order, the intercepts of a layer and then its weights *)
  Fixpoint init_mem (logistic : bool) (pos : nat) (us : list nat) : list R :=
    match us with
    | a :: (b :: _) as t => map (fun k => u (pos + k)%nat * init_bound logistic a b) (seq 0 (b + a * b)) ++ init_mem logistic (pos + (b + a * b)) t
    | _ => []
    end.
End Init.

(* ------------------------------------------------------------------ BatchNormalize *)
(* basemlp64.go:278-300 batchNormalize, one hidden layer: the largest absolute value of each unit over the rows, and the quotients *)
Definition bn_max (rows : nat) (H : rmtx) (o : nat) : R := rmaxn rows (fun r => Rabs (H r o)).
Definition bn_div (rows : nat) (H : rmtx) : rmtx :=
  fun r o => if rltb 0 (bn_max rows H o) then (if (r <? rows)%nat then H r o / bn_max rows H o else H r o) else H r o.
(* basemlp64.go:302-309: the quotient is NaN or infinite (None) when the norm is 0 *)
Definition bn_delta (d m : R) : option R := if reqb m 0 then None else Some (d / m).
(* basemlp64.go:341-407 with BatchNormalize, a network of two layers on a full batch of n rows: the loss is that of the activations as
   forwardPass left them (347, 358); batchNormalize (348-351) then divided those of the hidden layer *)
Section BN.
  Variables (a : act) (o : out) (alpha : R) (n : nat) (X y : rmtx) (l1 l2 : layer) (oldA oldD : list rmtx).
  Definition bn_acts : rmtx * rmtx :=
    match forward a o n n X [l1; l2] oldA with [H1; H2] => (H1, H2) | _ => (fun _ _ => 0, fun _ _ => 0) end.
  Definition bn_out_delta : rmtx := upd_rows n (fun r c => snd bn_acts r c - y r c) (hd (fun _ _ => 0) (tl oldD)).
  (* the gradient of the output layer *)
  Definition bn_out_grad : rmtx * (nat -> R) := layer_grad alpha n n n (bn_div n (fst bn_acts)) bn_out_delta l2.
  (* the deltas of the hidden layer *)
  Definition bn_hid_delta (r i : nat) : option R :=
    bn_delta (rs (l_out l2) (fun j => bn_out_delta r j * l_W l2 i j) * hidFp a (bn_div n (fst bn_acts) r i)) (bn_max n (fst bn_acts) i).
End BN.
