(* Model: the vote of the nearest neighbours in IEEE binary64 arithmetic *)
From Coq Require Import ZArith List Bool.
From Flocq Require Import IEEE754.BinarySingleNaN.
From Verif Require Import FloatModel.
Import ListNotations.
Open Scope Z_scope.

(* neighbors/classification.go:94 epsilon := 1e-15 (1 / 10^15 rounded once, as the constant is) *)
Definition keps : f64 := fdiv f1 (fint (10 ^ 15)).
(* classification.go:116-118 and neighbors/regression.go:97-98: the weight of a neighbour at distance d with Weight "distance" *)
Definition kweight (d : f64) : f64 := fdiv f1 (fadd keps d).
(* classification.go:122-126: one update of classw; labels are integers here (the code uses float64 as map keys, NaN labels are not modelled) *)
Fixpoint cw_add (m : list (Z * f64)) (c : Z) (w : f64) : list (Z * f64) :=
  match m with
  | [] => [(c, w)]
  | (c', t) :: r => if Z.eqb c c' then (c', fadd t w) :: r else (c', t) :: cw_add r c w
  end.
(* classification.go:113-127: the labels and weights of the neighbours, the nearest first *)
Definition classw (yw : list (Z * f64)) : list (Z * f64) := fold_left (fun m e => cw_add m (fst e) (snd e)) yw [].
(* classification.go:128-134: the loop over the map, in an order ord chosen by the runtime, and the label written to Y *)
Definition kvote (ord : list (Z * f64) -> list (Z * f64)) (yw : list (Z * f64)) : Z :=
  snd (fold_left (fun s e => if flt (fst s) (snd e) then (snd e, fst e) else s) (ord (classw yw)) (f0, 0)).
(* classification.go:136-138 with Weight "distance": the probability of a class that neighbours have; t is its entry of classw, sumweights is added up from 0 *)
Definition kproba (t : f64) (yw : list (Z * f64)) : f64 := fdiv t (fsum (map snd yw)).
