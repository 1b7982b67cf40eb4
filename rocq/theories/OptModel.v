(* base/optimizers.go: SGDOptimizer over the real numbers.  Theta and the gradients have n rows; all but the clipping is done cell by cell. *)
From Coq Require Import Reals List Arith.
From Verif Require Import MtModel.
Import ListNotations.
Open Scope R_scope.

(* optimizers.go:71-74, 209, 226, 243, 264, 288: the flags, in the order in which GetUpdate looks at them *)
Inductive variant : Type := VRMSProp | VAdagrad | VAdadelta | VAdam | VSgd.
Record opar : Type := mkopar { o_var : variant; o_step : R; o_mom : R; o_clip : R; o_gamma : R; o_eps : R; o_b1 : R; o_b2 : R }.
(* one cell of PrevUpdate, AdagradG, AdadeltaU, Mt, Vt *)
Record cell : Type := mkcell { c_prev : R; c_G : R; c_U : R; c_m : R; c_v : R }.
(* optimizers.go:165-185: what the first call makes *)
Definition cell0 (P : opar) : cell := mkcell 0 (o_eps P) 1 0 0.
(* optimizers.go:190 *)
Definition eta (P : opar) (t : nat) : R := o_step P * 100 / (100 + INR t).

(* optimizers.go:209-300 for one cell: t is TimeStep after its increment, g the clipped gradient; the update and the new cell *)
Definition cell_update (P : opar) (t : nat) (c : cell) (g : R) : R * cell :=
  let '(u, c1) :=
    match o_var P with
    | VRMSProp =>
        (- (if ((1 <? t)%nat && rltb 1 (Rabs (c_G c)))%bool then o_step P / sqrt (c_G c + o_eps P) else o_step P) * g,
         mkcell (c_prev c) (c_G c * o_gamma P + (1 - o_gamma P) * g * g) (c_U c) (c_m c) (c_v c))
    | VAdagrad =>
        (- (if (1 <? t)%nat then o_step P / (sqrt (c_G c) + o_eps P) else o_step P) * g, mkcell (c_prev c) (c_G c + g * g) (c_U c) (c_m c) (c_v c))
    | VAdadelta =>
        let G := o_gamma P * c_G c + (1 - o_gamma P) * g * g in
        let u := - (if (1 <? t)%nat then sqrt (c_U c) / sqrt (G + o_eps P) else eta P t) * g in
        (u, mkcell (c_prev c) G (o_gamma P * c_U c + (1 - o_gamma P) * u * u) (c_m c) (c_v c))
    | VAdam =>
        let m := o_b1 P * c_m c + (1 - o_b1 P) * g in
        let v := o_b2 P * c_v c + (1 - o_b2 P) * g * g in
        (- o_step P * m / (1 - o_b1 P ^ t) / (sqrt (v / (1 - o_b2 P ^ t)) + o_eps P), mkcell (c_prev c) (c_G c) (c_U c) m v)
    | VSgd => (- eta P t * g / sqrt (1 * INR t), c)
    end in
  let u' := if rltb 0 (o_mom P) then o_mom P * c_prev c + u else u in
  (u', mkcell u' (c_G c1) (c_U c1) (c_m c1) (c_v c1)).

(* optimizers.go:191-202, 304-312: the gradient with its columns cut to the norm GradientClipping *)
Definition col_norm (n : nat) (g : rmtx) (o : nat) : R := sqrt (rs n (fun j => g j o * g j o)).
Definition clipped (P : opar) (n : nat) (g : rmtx) : rmtx := fun j o =>
  if (rltb 0 (o_clip P) && rltb (o_clip P) (col_norm n g o))%bool then g j o * (o_clip P / col_norm n g o) else g j o.

(* the optimizer: TimeStep, Theta, Update and the cells *)
Record ost : Type := mkost { s_t : nat; s_theta : rmtx; s_upd : rmtx; s_cell : nat -> nat -> cell }.
(* optimizers.go:148-151 SetTheta of a new optimizer *)
Definition opt_new (P : opar) (theta : rmtx) : ost := mkost 0 theta (fun _ _ => 0) (fun _ _ => cell0 P).
(* optimizers.go:160-161 with 163-303 UpdateParams, GetUpdate *)
Definition opt_step (P : opar) (n : nat) (s : ost) (g : rmtx) : ost :=
  let c0 := if Nat.eqb (s_t s) 0 then fun _ _ => cell0 P else s_cell s in
  let t := S (s_t s) in
  let r := fun j o => cell_update P t (c0 j o) (clipped P n g j o) in
  mkost t (fun j o => s_theta s j o + fst (r j o)) (fun j o => fst (r j o)) (fun j o => snd (r j o)).
Definition opt_run (P : opar) (n : nat) (s : ost) (gs : list rmtx) : ost := fold_left (opt_step P n) gs s.
(* optimizers.go:148-151 SetTheta of an optimizer that was used before: only Theta changes *)
Definition set_theta (s : ost) (theta : rmtx) : ost := mkost (s_t s) theta (s_upd s) (s_cell s).
