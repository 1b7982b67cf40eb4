(* Model of /repo/preprocessing/imputation.go and
   /repo/preprocessing/discretization.go, exact arithmetic.  A cell is
   [option Q], None is NaN; an outer None is a panic.  The columns are split
   over goroutines by base.Parallelize (C01); each column is written by one
   goroutine only, so they are done here one after the other. *)
From Coq Require Import Qround.
From Verif Require Import QCommon ScaleModel.
Open Scope Q_scope.

(* ----------------------------------------------------------------- Imputer *)
(* imputation.go:37-43: the present values of a column, in row order *)
Definition present (col : list (option Q)) : list Q :=
  flat_map (fun c => match c with Some v => [v] | None => [] end) col.

(* gonum stat.Mode without weights: counts in a map, then a range over the map
   keeping the first strictly larger count.  [order] is the iteration order:
   the keys.  Values start at 0 and 0. *)
Definition qcount (v : Q) (l : list Q) : nat := length (filter (Qeq_bool v) l).
Definition mode (order : list Q) (l : list Q) : Q :=
  fst (fold_left (fun acc v => if Nat.ltb (snd acc) (qcount v l) then (v, qcount v l) else acc) order (0, 0%nat)).

(* imputation.go:13-17 *)
Inductive strategy := SMean | SMedian | SMostFrequent.

(* imputation.go:45-53.  Mean of nothing is 0/0 = NaN, Mode of nothing is 0,
   Quantile of nothing panics. *)
Definition imp_stat (s : strategy) (order : list Q) (l : list Q) : option (option Q) :=
  match s with
  | SMean => Some (match l with [] => None | _ => Some (qsum l / qn (length l)) end)
  | SMedian => match quantile (1 # 2) (qsort l) with Some q => Some (Some q) | None => None end
  | SMostFrequent => Some (Some (mode order l))
  end.

(* imputation.go:30-59, given the columns of X; [orders] are the iteration
   orders of stat.Mode, one per column *)
Fixpoint imp_fit (s : strategy) (orders : list (list Q)) (cols : list (list (option Q))) : option (list (option Q)) :=
  match cols with
  | [] => Some []
  | c :: cols' =>
    match imp_stat s (hd [] orders) (present c), imp_fit s (tl orders) cols' with
    | Some v, Some vs => Some (v :: vs)
    | _, _ => None
    end
  end.

(* the columns of a raw matrix, read as Xmat.Data[jX+i] (imputation.go:39-40) *)
Definition raw_cols {A} (d : A) (X : raw A) : list (list A) :=
  map (fun j => map (fun i => nth (i * rstride X + j) (rdata X) d) (seq 0 (rrows X))) (seq 0 (rcols X)).

(* imputation.go:62-84; None: more columns than MissingValues *)
Definition imp_transform (missing : list (option Q)) (X : raw (option Q)) : option (raw (option Q)) :=
  if Nat.leb (rcols X) (length missing) then
    raw_fill (col_major (rrows X) (rcols X))
      (fun i j => match nth (i * rstride X + j) (rdata X) None with Some v => Some v | None => nth j missing None end)
      (new_raw (Some 0) (rrows X) (rcols X))
  else None.

(* ------------------------------------------------------- KBinsDiscretizer *)
(* floats.Min, floats.Max; None: empty slice panics *)
Definition fmin (l : list Q) : option Q := match l with [] => None | x :: l' => Some (fold_left qmin l' x) end.
Definition fmax (l : list Q) : option Q := match l with [] => None | x :: l' => Some (fold_left qmax l' x) end.

(* discretization.go:42-51, Strategy uniform, one column *)
Definition kb_edges_uniform (nb : nat) (col : list Q) : option (list Q) :=
  match fmin col, fmax col with
  | Some mn, Some mx => Some (map (fun b => mn + qn b / qn nb * (mx - mn)) (seq 0 (S nb)))
  | _, _ => None
  end.

(* sort.Float64sAreSorted *)
Fixpoint sortedb (l : list Q) : bool :=
  match l with
  | x :: ((y :: _) as l') => (Qle_bool x y && sortedb l')%bool
  | _ => true
  end.
(* discretization.go:46-47, Strategy quantile: gonum stat.Quantile panics unless
   its argument is sorted, and the column is not sorted by the caller *)
Fixpoint kb_quantiles (bs : list nat) (nb : nat) (col : list Q) : option (list Q) :=
  match bs with
  | [] => Some []
  | b :: bs' =>
    if sortedb col then
      match quantile (qn b / qn nb) col, kb_quantiles bs' nb col with
      | Some q, Some qs => Some (q :: qs)
      | _, _ => None
      end
    else None
  end.
Definition kb_edges_quantile (nb : nat) (col : list Q) : option (list Q) :=
  match fmin col with Some _ => kb_quantiles (seq 0 (S nb)) nb col | None => None end.

(* discretization.go:73-81: k = number of loop steps left, at most NBins-1 *)
Fixpoint kb_scan (k ith : nat) (edges : list Q) (x : Q) : nat :=
  match k with
  | O => ith
  | S k' => if Qle_bool (nth (S ith) edges 0) x then kb_scan k' (S ith) edges x else ith
  end.
Definition kb_code (nb : nat) (edges : list Q) (x : Q) : nat := kb_scan (nb - 1) 0 edges x.

(* discretization.go:61-94, one row, Encode ordinal / onehot-dense; the row is
   as long as BinEdges *)
Definition kb_ordinal_row (nb : nat) (edges : list (list Q)) (row : list Q) : list nat :=
  zip (kb_code nb) edges row.
Definition kb_onehot_row (nb : nat) (edges : list (list Q)) (row : list Q) : list Q :=
  fold_left (fun out fk => upd out (fst fk * nb + snd fk)%nat 1)
    (combine (seq 0 (length row)) (kb_ordinal_row nb edges row)) (repeat 0 (length row * nb)).

(* discretization.go:120-125 *)
Definition kb_clamp (nb : nat) (ith : Z) : nat :=
  if Z.ltb ith 0 then 0%nat else if Z.ltb (Z.of_nat (nb - 1)) ith then (nb - 1)%nat else Z.to_nat ith.
Definition kb_mid (edges : list Q) (k : nat) : Q := (1 # 2) * (nth k edges 0 + nth (S k) edges 0).
(* discretization.go:103-134, one row *)
Definition kb_inverse_ordinal (nb : nat) (edges : list (list Q)) (row : list Q) : list Q :=
  zip (fun e x => kb_mid e (kb_clamp nb (Qfloor x))) edges row.
(* 114-119 *)
Definition kb_argmax (nb f : nat) (row : list Q) : nat :=
  fold_left (fun ith c => if Qltb (nth (f * nb + ith) row 0) (nth c row 0) then (c - f * nb)%nat else ith)
    (seq (f * nb + 1) (nb - 1)) 0%nat.
Definition kb_inverse_onehot (nb : nat) (edges : list (list Q)) (row : list Q) : list Q :=
  map (fun fe => kb_mid (snd fe) (kb_clamp nb (Z.of_nat (kb_argmax nb (fst fe) row))))
    (combine (seq 0 (length edges)) edges).
