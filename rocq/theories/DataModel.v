(* datasets/base.go and datasets/samples_generator.go over the rationals; matrices are lists of rows, None is a panic.
   mat.NewDense panics when a dimension is 0. *)
From Coq Require Import QArith List Arith Bool.
From Verif Require Import QCommon.
Import ListNotations.
Open Scope Q_scope.

(* build an r by c matrix cell by cell, or panic *)
Fixpoint opt_all {A} (l : list (option A)) : option (list A) :=
  match l with [] => Some [] | None :: _ => None | Some x :: l' => match opt_all l' with Some r => Some (x :: r) | None => None end end.
Definition apply_new {A} (r c : nat) (f : nat -> nat -> option A) : option (list (list A)) :=
  if (Nat.eqb r 0 || Nat.eqb c 0)%bool then None else opt_all (map (fun i => opt_all (map (f i) (seq 0 c))) (seq 0 r)).

(* base.go:130-150 loadCsv: the cells that the csv reader returned, which all have the width of the first; parse is ParseFloat *)
Definition load_csv {A} (parse : A -> option Q) (cells : list (list A)) (nout : nat) : option (list (list Q) * list (list Q)) :=
  match cells with
  | [] => None
  | r0 :: _ =>
      if (length r0 <? nout)%nat then None else
      let nf := (length r0 - nout)%nat in
      let cell i j := match nth_error cells i with Some row => match nth_error row j with Some s => parse s | None => None end | None => None end in
      match apply_new (length cells) nf cell, apply_new (length cells) nout (fun i o => cell i nf) with
      | Some X, Some Y => Some (X, Y)
      | _, _ => None
      end
  end.

(* base.go:89-100 GetXY *)
Definition get_xy {N} (data : list (list Q)) (target : list Q) (names : list N) : option (list (list Q) * list (list Q)) :=
  match apply_new (length data) (length names) (fun i j => match nth_error data i with Some row => nth_error row j | None => None end),
        apply_new (length data) 1 (fun i _ => nth_error target i) with
  | Some X, Some Y => Some (X, Y)
  | _, _ => None
  end.

(* samples_generator.go:28-100 MakeRegression; s is the stream of rnd; a bias of another type than those listed is ignored (BNone) *)
Inductive bias : Type := BNone | BScalar (b : Q) | BRow (l : list Q).
Definition bias_at (b : bias) (t : nat) : option Q := match b with BNone => Some 0 | BScalar v => Some v | BRow l => nth_error l t end.
Definition make_regression (ns nf ni nt : nat) (b : bias) (s : nat -> Q) : option ((nat -> nat -> Q) * list (list Q) * (nat -> nat -> Q)) :=
  let ni' := Nat.min ni nf in
  if (Nat.eqb ns 0 || Nat.eqb nf 0 || Nat.eqb ni' 0 || Nat.eqb nt 0)%bool then None else
  let X i j := s (i * nf + j)%nat in
  let C i t := s (ns * nf + i * nt + t)%nat in
  match apply_new ns nt (fun i t => match bias_at b t with Some v => Some (qsum (map (fun k => X i k * C k t) (seq 0 ni')) + v) | None => None end) with
  | Some y => Some (X, y, C)
  | None => None
  end.

(* samples_generator.go:159-172 MakeBlobs: one coordinate of a centre; s is the stream of randNormFloat64, k the next draw.
   The loop has no bound; None when [fuel] draws were not enough *)
Fixpoint blob_coord (fuel : nat) (lo hi : Q) (s : nat -> Q) (k : nat) : option (Q * nat) :=
  match fuel with
  | O => None
  | S f => let c := (lo + hi) / 2 + s k * (Qabs.Qabs (hi - lo) / 2) in
           if (Qle_bool lo c && Qltb c hi)%bool then Some (c, S k) else blob_coord f lo hi s (S k)
  end.
Fixpoint blob_coords (fuel n : nat) (lo hi : Q) (s : nat -> Q) (k : nat) : option (list Q) :=
  match n with
  | O => Some []
  | S m => match blob_coord fuel lo hi s k with
           | Some (c, k') => match blob_coords fuel m lo hi s k' with Some l => Some (c :: l) | None => None end
           | None => None
           end
  end.
(* samples_generator.go:174-192: cl i is the cluster drawn for sample i: the goroutines share randIntn, so draw number [ord i] of its stream
   (an order chosen by the scheduler); noise is what distmv.Normal draws from the global source, since its source is nil.
   floats.Add panics when the row of Centers has another length than NFeatures *)
Definition blobs (ns nf : nat) (centers : list (list Q)) (intn : nat -> nat) (ord : nat -> nat) (noise : nat -> nat -> Q) : option (list (list Q) * list nat) :=
  match opt_all (map (fun i => match nth_error centers (intn (ord i)) with
                               | Some c => if Nat.eqb (length c) nf then Some (map (fun j => noise i j + nth j c 0) (seq 0 nf)) else None
                               | None => None end) (seq 0 ns)) with
  | Some X => Some (X, map (fun i => intn (ord i)) (seq 0 ns))
  | None => None
  end.
