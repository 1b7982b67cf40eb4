(* base/activation.go, linear_model/loss.go, and the objective of SGDRegressor (linear_model/Base.go),
   over the real numbers.  n samples, p features, q outputs; a matrix is a function of row and column. *)
From Coq Require Import Reals List Arith.
From Verif Require Import MtModel.
Import ListNotations.
Open Scope R_scope.

(* activation.go:10-12 *)
Inductive act : Type := AIdentity | ALogistic | ATanh | AReLU.
(* activation.go:21, 30, 42, 51-56 *)
Definition actF (a : act) (x : R) : R :=
  match a with
  | AIdentity => x
  | ALogistic => 1 / (1 + exp (- x))
  | ATanh => tanh x
  | AReLU => if rltb x 0 then 0 else x
  end.
(* activation.go:24, 33, 45, 59-64: from the value y = F(x) *)
Definition actFp (a : act) (y : R) : R :=
  match a with
  | AIdentity => 1
  | ALogistic => y * (1 - y)
  | ATanh => 1 - y * y
  | AReLU => if Rle_dec y 0 then 0 else 1
  end.
(* loss.go:233-241 *)
Definition sgn (c : R) : R := if rltb c 0 then -1 else if rltb 0 c then 1 else 0.

Section Loss.
  Variables (n p q : nat) (X Y : rmtx).
  (* one entry changed *)
  Definition set2 (th : rmtx) (j o : nat) (t : R) : rmtx := fun a b => if (Nat.eqb a j && Nat.eqb b o)%bool then t else th a b.
  Definition zz (th : rmtx) (i o : nat) : R := rs p (fun j => X i j * th j o).
  (* the loops that start at feature jstart *)
  Definition rsf (skip : bool) (f : nat -> R) : R := rs p (fun j => if (skip && Nat.eqb j 0)%bool then 0 else f j).

  (* loss.go:250-293 regularization: the term added to J *)
  Definition reg_J (alpha l1 : R) (skip : bool) (th : rmtx) : R :=
    alpha * rsf skip (fun j =>
      rs q (fun o => if rltb l1 1 then (1 - l1) * (th j o * th j o) else 0) +
      l1 * (if rltb 0 l1 then (if Nat.eqb q 1 then rs q (fun o => Rabs (th j o)) else nrm2 q (th j)) else 0)).
  (* and what is added to the gradient at (j, o); None: 0/0 *)
  Definition reg_g (l1 : R) (skip : bool) (th : rmtx) (j o : nat) : option R :=
    if (skip && Nat.eqb j 0)%bool then Some 0
    else if (rltb 0 l1 && reqb (nrm2 q (th j)) 0)%bool then None
    else Some ((if rltb 0 l1 then l1 * th j o / nrm2 q (th j) else 0) + (if rltb l1 1 then (1 - l1) * th j o else 0)).

  (* loss.go:35-68 SquareLoss *)
  Definition sq_J (a : act) (alpha l1 : R) (skip : bool) (th : rmtx) : R :=
    (rs n (fun i => rs q (fun o => (actF a (zz th i o) - Y i o) * (actF a (zz th i o) - Y i o))) +
     (if rltb 0 alpha then reg_J alpha l1 skip th else 0)) / (2 * INR n).
  Definition sq_grad (a : act) (alpha l1 : R) (skip : bool) (th : rmtx) (j o : nat) : option R :=
    let d := match a with
      | AIdentity => rs n (fun i => X i j * (actF a (zz th i o) - Y i o))
      | _ => rs n (fun i => (actF a (zz th i o) - Y i o) * X i j * actFp a (actF a (zz th i o)))
      end in
    match (if rltb 0 alpha then reg_g l1 skip th j o else Some 0) with
    | None => None
    | Some r => Some (1 / INR n * (d + r))
    end.

  (* loss.go:77-107 LogLoss; clipped at exactly 0 and 1 *)
  Definition clip01 (h : R) : R := if reqb h 0 then h + / 10000000000 else if reqb h 1 then h - / 10000000000 else h.
  Definition log_J (a : act) (alpha l1 : R) (skip : bool) (th : rmtx) : R :=
    (rs n (fun i => rs q (fun o => - Y i o * ln (clip01 (actF a (zz th i o))))) + (if rltb 0 alpha then reg_J alpha l1 skip th else 0)) / INR n.
  Definition log_grad (a : act) (alpha l1 : R) (skip : bool) (th : rmtx) (j o : nat) : option R :=
    let d := rs n (fun i => - Y i o * actFp a (actF a (zz th i o)) / actF a (zz th i o)) in
    match (if rltb 0 alpha then reg_g l1 skip th j o else Some 0) with
    | None => None
    | Some r => Some (1 / INR n * (d + r))
    end.

  (* loss.go:118-210 CrossEntropyLoss *)
  Definition clip (h : R) : R := if Rle_dec h 0 then / 10000000000 else if Rle_dec 1 h then 1 - / 10000000000 else h.
  Definition ce_reg (alpha l1 : R) (skip : bool) (th : rmtx) : R :=
    alpha * (l1 * rsf skip (fun j => rs q (fun o => Rabs (th j o))) + (1 - l1) * rsf skip (fun j => rs q (fun o => th j o * th j o / 2))).
  Definition ce_J (a : act) (alpha l1 : R) (skip : bool) (th : rmtx) : R :=
    (rs n (fun i => rs q (fun o => let h := clip (actF a (zz th i o)) in - Y i o * ln h - (1 - Y i o) * ln (1 - h))) +
     (if rltb 0 alpha then ce_reg alpha l1 skip th else 0)) / INR n.
  (* None: division by 0 *)
  Definition ce_term (a : act) (y h : R) : R :=
    if reqb y 1 then - y * actFp a h / h
    else if reqb y 0 then (1 - y) * actFp a h / (1 - h)
    else - y * actFp a h / h + (1 - y) * actFp a h / (1 - h).
  Definition ce_grad (a : act) (alpha l1 : R) (skip : bool) (th : rmtx) (j o : nat) : R :=
    let d := match a with
      | ALogistic => rs n (fun i => X i j * (actF a (zz th i o) - Y i o))
      | _ => rs n (fun i => ce_term a (Y i o) (actF a (zz th i o)))
      end in
    1 / INR n * (d + (if rltb 0 alpha then if (skip && Nat.eqb j 0)%bool then 0 else alpha * (l1 * sgn (th j o) + (1 - l1) * th j o) else 0)).

  (* linear_model/Base.go:173-201 SGDRegressor: the function minimised for output o ... *)
  Definition sgd_J (alpha l1 : R) (o : nat) (c : nat -> R) : R :=
    rs n (fun i => (rs p (fun j => X i j * c j) - Y i o) * (rs p (fun j => X i j * c j) - Y i o)) / 2 / INR n +
    (if rltb 0 alpha then rs p (fun j => alpha * l1 / 2 / INR n * Rabs (c j)) + rs p (fun j => alpha * (1 - l1) / 2 / INR n * c j * c j) else 0).
  (* ... and linear_model/Base.go:216-243 the gradient handed to the optimizer *)
  Definition sgd_grad (alpha l1 : R) (o : nat) (c : nat -> R) (j : nat) : R :=
    let g := rs n (fun i => X i j * (rs p (fun k => X i k * c k) - Y i o)) in
    g + alpha * l1 / INR n * sgn g + alpha * (1 - l1) / INR n * g.
End Loss.

(* linear_model/Base.go:329-446 LinFit with a solver of package base: after every epoch the loss on all samples is compared
   with the best so far (+Inf at first, None here; so is NaN, which is not smaller than anything); the rmse
   is that of the last epoch.  An epoch is the parameters it ends with, their loss and their rmse. *)
Definition jless (j b : option R) : bool := match j, b with Some j, Some b => rltb j b | Some _, None => true | None, _ => false end.
Definition linfit_epoch {T} (st : T * option R * R) (e : T * option R * R) : T * option R * R :=
  let '(th, jb, _) := st in let '(t, j, r) := e in if jless j jb then (t, j, r) else (th, jb, r).
(* thetaSliceBest starts as zeros *)
Definition linfit {T} (zeros : T) (rmse0 : R) (epochs : list (T * option R * R)) : T * option R * R := fold_left linfit_epoch epochs (zeros, None, rmse0).
