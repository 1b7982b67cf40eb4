(* gaussian_process/gpr.go: LogMarginalLikelihood over the real numbers.  The Cholesky factor and the solutions of linear systems that
   gonum returns are arguments. *)
From Coq Require Import Reals List Arith Bool.
From Verif Require Import MtModel KernModel.
Import ListNotations.
Open Scope R_scope.

(* gpr.go:156-166: Alpha on the diagonal of the kernel matrix; None is an index panic *)
Definition alpha_at (al : list R) (i : nat) : option R := if Nat.eqb (length al) 1 then nth_error al 0 else nth_error al i.
Definition add_alpha (n : nat) (al : list R) (K : rmtx) : option rmtx :=
  if forallb (fun i => match alpha_at al i with Some _ => true | None => false end) (seq 0 n)
  then Some (fun i j => if Nat.eqb i j then K i j + match alpha_at al i with Some a => a | None => 0 end else K i j) else None.
(* gpr.go:193-211: n samples, cy outputs; A solves the system for Ytrain, L is the factor *)
Definition lml_value (n cy : nat) (L A Y : rmtx) : R :=
  rs cy (fun k => - (1 / 2) * rs n (fun i => Y i k * A i k) - rs n (fun i => ln (L i i)) - INR n / 2 * ln (2 * PI)).
(* gpr.go:222-268: Inv solves the system for the identity, Kg is the gradient tensor of the kernel *)
Definition lml_grad (n cy : nat) (A Inv : rmtx) (Kg : nat -> nat -> nat -> R) (m : nat) : R :=
  rs cy (fun l => 1 / 2 * rs n (fun i => rs n (fun j => (A i l * A j l - Inv i j) * Kg i j m))).
(* gpr.go:140-269.  st and k are the store and KernelOpt (KernModel), X and Y the n training rows, th Theta (None is nil), stored the
   field LogMarginalLikelihoodValue; fac, sol and inv are what gonum answers for a symmetric matrix: the factor (None: not positive
   definite), the solution for Ytrain and the one for the identity.  The outer None is a panic, an inner None minus infinity. *)
Section Lml.
  Variables (pw : R -> R -> R) (p : nat) (emptyok : bool) (st : list R) (k : kern nat) (al : list R) (n cy : nat) (X Y : rmtx) (stored : R).
  Variables (fac : rmtx -> option rmtx) (sol inv : rmtx -> rmtx).
  Definition lml_run (th : option (list R)) (grad : bool) : option (option R * list R) :=
    match th with
    | None => if grad then None else Some (Some stored, [])
    | Some th =>
        match clone emptyok st k th with
        | None => None
        | Some (st', k') =>
            match eval pw p (val st' k') X X, (if grad then evalg pw p n (val st' k') X else Some (O, fun _ => 0)) with
            | Some K, Some Kg =>
                match add_alpha n al K with
                | None => None
                | Some G =>
                    match fac G with
                    | None => Some (None, if grad then map (fun _ => 0) th else [])
                    | Some L => Some (Some (lml_value n cy L (sol G) Y), if grad then map (lml_grad n cy (sol G) (inv G) (gentry n Kg)) (seq 0 (fst Kg)) else [])
                    end
                end
            | _, _ => None
            end
        end
    end.
End Lml.
