(* neural_network/basemlp64.go over the real numbers: forward pass, loss and backpropagation on the reused buffers of
   fit, the optimizers, and what predict does with its outputs.
   A matrix is a function of row and column; n is the number of rows of the batch, bs that of the buffers (BatchSize).
   Strides equal the number of columns; BatchNormalize is false and WeightDecay is 0. *)
From Coq Require Import Reals List Arith Bool.
From Verif Require Import MtModel LossModel.
Import ListNotations.
Open Scope R_scope.

Definition upd_rows (m : nat) (f old : rmtx) : rmtx := fun r c => if (r <? m)%nat then f r c else old r c.
(* basemlp64.go:79-103 Activations64 of the hidden layers: tanh is computed of -z *)
Definition hidF (a : act) (z : R) : R := match a with ATanh => tanh (- z) | _ => actF a z end.
(* basemlp64.go:120-148 Derivatives64, from the value of the activation *)
Definition hidFp (a : act) (h : R) : R :=
  match a with AIdentity => 1 | ALogistic => h * (1 - h) | ATanh => 1 - h * h | AReLU => if reqb h 0 then 0 else 1 end.
(* basemlp64.go:419-431, the output activation and the loss that goes with it *)
Inductive out : Type := OIdentity | OSoftmax | OLogistic.
(* basemlp64.go:80-87, 104-116: one row of q outputs *)
Definition outF (o : out) (q : nat) (z : nat -> R) (c : nat) : R :=
  match o with OIdentity => z c | OLogistic => actF ALogistic (z c) | OSoftmax => exp (z c) / rs q (fun k => exp (z k)) end.

Record layer : Type := mklayer { l_in : nat; l_out : nat; l_W : rmtx; l_b : nat -> R }.

(* basemlp64.go:205-211, 260-275 forwardPass: Gemm writes as many rows as its first argument has, the intercepts are added and
   the activation applied to all bs rows of the buffer.  m is the number of rows of A; old are the buffers before. *)
Fixpoint forward (a : act) (o : out) (bs m : nat) (A : rmtx) (ls : list layer) (old : list rmtx) : list rmtx :=
  match ls with
  | [] => []
  | l :: ls' =>
      let B := hd (fun _ _ => 0) old in
      let G := upd_rows m (fun r c => rs (l_in l) (fun i => A r i * l_W l i c)) B in
      let Z := upd_rows bs (fun r c => G r c + l_b l c) G in
      let H := upd_rows bs (match ls' with [] => fun r => outF o (l_out l) (Z r) | _ => fun r c => hidF a (Z r c) end) Z in
      H :: forward a o bs bs H ls' (tl old)
  end.
Definition nout (ls : list layer) : nat := match rev ls with l :: _ => l_out l | [] => O end.

Section Losses.
  Variables (hmin hmax : R).   (* the clipping bounds: the least and greatest floats in (0, 1) *)
  Definition hclip (h : R) : R := if rltb h hmin then hmin else if rltb hmax h then hmax else h.
  (* basemlp64.go:151-196: the sum is over the n rows of y, divided by the bs rows of h *)
  Definition data_loss (o : out) (bs n q : nat) (y h : rmtx) : R :=
    match o with
    | OIdentity => rs n (fun r => rs q (fun c => (h r c - y r c) * (h r c - y r c))) / 2 / INR bs
    | OSoftmax => rs n (fun r => rs q (fun c => if reqb (y r c) 0 then 0 else - y r c * ln (hclip (h r c)))) / INR bs
    | OLogistic => rs n (fun r => rs q (fun c => - y r c * ln (hclip (h r c)) - (1 - y r c) * ln (1 - hclip (h r c)))) / INR bs
    end.
  (* basemlp64.go:311-319 *)
  Definition coef_squares (ls : list layer) : R := fold_right (fun l s => rs (l_in l) (fun i => rs (l_out l) (fun j => l_W l i j * l_W l i j)) + s) 0 ls.
  (* basemlp64.go:353-361: the value backprop returns *)
  Definition net_loss (a : act) (o : out) (alpha : R) (bs n : nat) (X y : rmtx) (ls : list layer) (old : list rmtx) : R :=
    data_loss o bs n (nout ls) y (last (forward a o bs n X ls old) (fun _ _ => 0)) + 1 / 2 * alpha * coef_squares ls / INR n.
End Losses.

(* basemlp64.go:213-225, 323-331 computeLossGrad: m rows of activations, bs rows of deltas *)
Definition layer_grad (alpha : R) (bs n m : nat) (A Dl : rmtx) (l : layer) : rmtx * (nat -> R) :=
  (fun i j => 1 / INR n * rs m (fun r => A r i * Dl r j) + alpha / INR n * l_W l i j, fun j => rs bs (fun r => Dl r j) / INR bs).
(* basemlp64.go:363-405, from the first layer on: the gradients of these layers and the deltas of the first.
   A is the input of the first layer, hs the activations after each layer, oldD the delta buffers before. *)
Fixpoint backward (a : act) (alpha : R) (bs n m : nat) (y A : rmtx) (ls : list layer) (hs oldD : list rmtx) : list (rmtx * (nat -> R)) * rmtx :=
  match ls with
  | [] => ([], A)
  | l :: ls' =>
      let H := hd (fun _ _ => 0) hs in let B := hd (fun _ _ => 0) oldD in
      match ls' with
      | [] => let Dl := upd_rows n (fun r c => H r c - y r c) B in ([layer_grad alpha bs n m A Dl l], Dl)
      | l2 :: _ =>
          let '(gs, D2) := backward a alpha bs n bs y H ls' (tl hs) (tl oldD) in
          let G := upd_rows bs (fun r i => rs (l_out l2) (fun j => D2 r j * l_W l2 i j)) B in
          let Dl := upd_rows bs (fun r i => G r i * hidFp a (H r i)) G in
          (layer_grad alpha bs n m A Dl l :: gs, Dl)
      end
  end.
(* basemlp64.go:341-407 backprop: activations[0] has the n rows of the batch *)
Definition backprop (a : act) (o : out) (alpha : R) (bs n : nat) (X y : rmtx) (ls : list layer) (oldA oldD : list rmtx) : list (rmtx * (nat -> R)) :=
  fst (backward a alpha bs n n y X ls (forward a o bs n X ls oldA) oldD).

(* ------------------------------------------------------------------ optimizers *)
(* basemlp64.go:1026-1041 SGDOptimizer64.updateParams on one parameter and its velocity *)
Definition sgd1 (nesterov : bool) (mom lr : R) (pv : R * R) (g : R) : R * R :=
  let v := mom * snd pv - lr * g in (if nesterov then fst pv + (mom * v - lr * g) else fst pv + v, v).
Fixpoint sgd_step (nesterov : bool) (mom lr : R) (ps : list (R * R)) (gs : list R) : list (R * R) :=
  match ps, gs with p :: ps', g :: gs' => sgd1 nesterov mom lr p g :: sgd_step nesterov mom lr ps' gs' | _, _ => ps end.
(* several steps, each with its learning rate; the velocities start at 0 *)
Definition sgd_run (nesterov : bool) (mom : R) (ps : list R) (steps : list (R * list R)) : list (R * R) :=
  fold_left (fun st s => sgd_step nesterov mom (fst s) st (snd s)) steps (map (fun p => (p, 0)) ps).

(* basemlp64.go:1056-1072 AdamOptimizer64.updateParams; a parameter is (value, m, v) *)
Section Adam.
  Variables (lr b1 b2 eps : R).
  Fixpoint adam_loop (b1t b2t : R) (ps : list (R * R * R)) (gs : list R) : list (R * R * R) * R * R :=
    match ps, gs with
    | (p, m, v) :: ps', g :: gs' =>
        let m' := b1 * m + (1 - b1) * g in
        let v' := b2 * v + (1 - b2) * g * g in
        let c1 := b1t * b1 in let c2 := b2t * b2 in
        let rate := lr * sqrt (1 - c2) / (1 - c1) in
        let p' := p + - rate * m' / (sqrt v' + eps) in
        let '(r, d1, d2) := adam_loop c1 c2 ps' gs' in ((p', m', v') :: r, d1, d2)
    | _, _ => (ps, b1t, b2t)
    end.
  Definition adam_run (ps : list R) (steps : list (list R)) : list (R * R * R) * R * R :=
    fold_left (fun st gs => let '(l, b1t, b2t) := st in adam_loop b1t b2t l gs) steps (map (fun p => (p, 0, 0)) ps, 1, 1).
End Adam.

(* ------------------------------------------------------------------ outputs *)
(* basemlp64.go:503-513: the kind of problem is read off the targets *)
Definition fit_out (cols : nat) (ydata : list R) : out :=
  if forallb (fun v => reqb v 0 || reqb v 1) ydata then if (1 <? cols)%nat then OSoftmax else OLogistic else OIdentity.
(* mathCompat.go:93-101 MaxIdx64 *)
Fixpoint rmaxidx (n : nat) (f : nat -> R) : nat := match n with O => O | S k => if rltb (f (rmaxidx k f)) (f k) then k else rmaxidx k f end.
(* basemlp64.go:1074-1095 toLogits64, one row *)
Definition to_logits (q : nat) (h : nat -> R) (c : nat) : R :=
  if Nat.eqb q 1 then if rltb (/ 2) (h c) then 1 else 0 else if Nat.eqb c (rmaxidx q h) then 1 else 0.
(* basemlp64.go:917-933 predict without a label binarizer *)
Definition predict_row (o : out) (q : nat) (h : nat -> R) (c : nat) : R := match o with OIdentity => h c | _ => to_logits q h c end.

(* basemlp64.go:676-728 fitLbfgs: Func stores every point it is given; the result of Minimize is not used *)
Definition lbfgs_params {P} (init : P) (evals : list P) : P := fold_left (fun _ w => w) evals init.
