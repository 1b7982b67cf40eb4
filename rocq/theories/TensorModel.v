(* gaussian_process/tensor/tensor.go: a dense tensor of float64.  The element type is a parameter; int is unbounded. *)
From Coq Require Import ZArith List Arith.
Import ListNotations.

(* tensor.go:105-112 NewDense: strides and size, last dimension first *)
Fixpoint mkst (s : list nat) : list nat * nat :=
  match s with
  | [] => ([], 1)
  | d :: s' => let '(st, sz) := mkst s' in (sz :: st, sz * d)
  end.

(* what a call of At can do: a value, ErrIndexOutOfBounds, or an index panic *)
Inductive res (A : Type) : Type := Val (v : A) | ErrOOB | Panic.
Arguments Val {A}. Arguments ErrOOB {A}. Arguments Panic {A}.

(* tensor.go:83-88: the loop over the arguments *)
Fixpoint at_loop (sh st : list nat) (args : list Z) (pos : nat) : res nat :=
  match args with
  | [] => Val pos
  | a :: args' =>
      match sh with
      | [] => Panic
      | d :: sh' =>
          if ((a <? 0) || (Z.of_nat d <=? a))%Z%bool then ErrOOB
          else match st with [] => Panic | t :: st' => at_loop sh' st' args' (pos + Z.to_nat a * t) end
      end
  end.

Record dense (A : Type) : Type := mkdense { t_shape : list nat; t_strides : list nat; t_data : list A }.
Arguments mkdense {A}. Arguments t_shape {A}. Arguments t_strides {A}. Arguments t_data {A}.

Section T.
  Context {A : Type}.
  (* tensor.go:104-120 NewDense; backing is the option WithBacking, tensor.go:123: its size is not checked *)
  Definition new_dense (zero : A) (s : list nat) (backing : option (list A)) : dense A :=
    let '(st, sz) := mkst s in mkdense s st (match backing with Some d => d | None => repeat zero sz end).
  (* tensor.go:81-92 At *)
  Definition t_at (t : dense A) (args : list Z) : res A :=
    match at_loop (t_shape t) (t_strides t) args 0 with
    | Val pos => match nth_error (t_data t) pos with Some v => Val v | None => Panic end
    | ErrOOB => ErrOOB
    | Panic => Panic
    end.

  (* tensor.go:55-72: Start and Next are the same function; the state is the index, None is ErrEndReached *)
  Definition it_start (t : dense A) (index : nat) : option nat * nat := ((if length (t_data t) <=? index then None else Some index), S index).
  Definition it_next (t : dense A) (index : nat) : option nat * nat := ((if length (t_data t) <=? index then None else Some index), S index).
  (* for i, e := it.Start(); e == nil; i, e = it.Next(): the positions visited and the index left behind *)
  Fixpoint it_rest (t : dense A) (fuel index : nat) : option (list nat * nat) :=
    match fuel with
    | O => None
    | S f => let '(r, ix) := it_next t index in
             match r with
             | None => Some ([], ix)
             | Some i => match it_rest t f ix with Some (l, ix') => Some (i :: l, ix') | None => None end
             end
    end.
  Definition it_all (t : dense A) (index : nat) : option (list nat * nat) :=
    let '(r, ix) := it_start t index in
    match r with
    | None => Some ([], ix)
    | Some i => match it_rest t (S (length (t_data t))) ix with Some (l, ix') => Some (i :: l, ix') | None => None end
    end.
End T.
