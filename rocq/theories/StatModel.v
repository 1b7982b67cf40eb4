(* Column statistics of /repo/preprocessing/data.go:242-301 over the reals.  base.Parallelize over the columns is a map (C01, C02). *)
From Coq Require Import Reals List.
Import ListNotations.
Local Open Scope R_scope.

Definition rsum (l : list R) : R := fold_right Rplus 0 l.
(* gonum stat.Mean without weights *)
Definition mean (l : list R) : R := rsum l / INR (length l).
(* gonum stat.MeanStdDev without weights: the unbiased variance, divided by the number of values minus one *)
Definition sample_std (l : list R) : R := sqrt (rsum (map (fun x => (x - mean l) * (x - mean l)) l) / (INR (length l) - 1)).
(* a matrix is the list of its columns *)
(* data.go:259-271 Mean *)
Definition mean_cols (cols : list (list R)) : list R := map mean cols.
(* data.go:242-256 MeanStdDev; n is the number of columns *)
Definition mean_std_dev (cols : list (list R)) : list R * list R :=
  let n := INR (length cols) in (map mean cols, map (fun c => sample_std c * (n - 1) / n) cols).
(* data.go:277-291 NumpyLike.Var; n is the number of columns *)
Definition np_var (cols : list (list R)) : list R :=
  let n := INR (length cols) in map (fun c => rsum (map (fun x => (x + - mean c) * (x + - mean c)) c) / n) cols.
(* data.go:294-301 NumpyLike.Std *)
Definition np_std (cols : list (list R)) : list R := map sqrt (np_var cols).
