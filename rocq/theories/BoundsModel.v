(* The matrices Theta() and Bounds() of kernels as windows on the kernel (gaussian_process/kernels/kernels.go).
   A bound pair lives at an address; a kernel holds the addresses of its values and bounds.  V is the type of numbers with the comparison ==,
   lg and ex stand for math.Log and math.Exp.  Exponentiation is left out: its hyperparameters() does not return (KernModel.hyper). *)
From Coq Require Import List Arith Bool.
Import ListNotations.

Inductive bkern :=
| BLeaf (v b : nat)            (* ConstantKernel, WhiteKernel, DotProduct: kernels.go:328-332, 413-417, 633-636: an array field *)
| BRBF (ls bs : list nat)      (* RBF: kernels.go:508-513: two slices *)
| BOp (k1 k2 : bkern).         (* Sum and Product: kernels.go:105-107, 159-161, 213-215: two interface values, that is pointers *)

(* kernels.go:110-112, 335-339, 420-424, 516-523, 639-643 hyperparameters() of the kernel a pointer leads to; None: index out of range *)
Fixpoint params (k : bkern) : option (list (nat * nat)) :=
  match k with
  | BLeaf v b => Some [(v, b)]
  | BRBF ls bs => if length bs <? length ls then None else Some (combine ls bs)
  | BOp k1 k2 => match params k1, params k2 with Some p1, Some p2 => Some (p1 ++ p2) | _, _ => None end
  end.

Section Window.
  Context {V : Type} (dflt : V) (veq : V -> V -> bool) (lg ex : V -> V).
  Definition bnd (st : list (V * V)) (a : nat) : V * V := nth a st (dflt, dflt).
  (* kernels.go:26-28 IsFixed and 33-41 notFixed *)
  Definition free (st : list (V * V)) (ps : list (nat * nat)) : list (nat * nat) :=
    filter (fun p => negb (veq (snd (bnd st (snd p))) (fst (bnd st (snd p))))) ps.
  (* kernels.go:115-117, 342-344, 427-429, 526-528, 646-648 Theta(): the addresses of the values it shows *)
  Definition theta_view (st : list (V * V)) (k : bkern) : option (list nat) := option_map (fun ps => map fst (free st ps)) (params k).
  (* kernels.go:120-122, 347-349, 432-434, 531-533, 651-653 Bounds(): value receivers, so that the leaves are copied, bounds included, while
     the copy of an RBF has the slices of the original and that of an operator its pointers *)
  Definition bounds_view (st : list (V * V)) (k : bkern) : option (list (V * V) * list nat) :=
    match k with
    | BLeaf v b => let st' := st ++ [bnd st b] in Some (st', map snd (free st' [(v, length st)]))
    | _ => option_map (fun ps => (st, map snd (free st ps))) (params k)
    end.
  (* kernels.go:61-66: At and Set of a view; None: index out of range *)
  Definition at_ (st : list (V * V)) (view : list nat) (i j : nat) : option V :=
    match nth_error view i, j with
    | Some a, 0 => Some (lg (fst (bnd st a)))
    | Some a, 1 => Some (lg (snd (bnd st a)))
    | _, _ => None
    end.
  Fixpoint put (st : list (V * V)) (a : nat) (x : V * V) : list (V * V) :=
    match st, a with [], _ => [] | _ :: r, 0 => x :: r | y :: r, S a' => y :: put r a' x end.
  Definition set_ (st : list (V * V)) (view : list nat) (i j : nat) (v : V) : option (list (V * V)) :=
    match nth_error view i, j with
    | Some a, 0 => Some (put st a (ex v, snd (bnd st a)))
    | Some a, 1 => Some (put st a (fst (bnd st a), ex v))
    | _, _ => None
    end.
End Window.
