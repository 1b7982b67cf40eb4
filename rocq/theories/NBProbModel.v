(* naive_bayes/naivebayes.go: predictions of a fitted GaussianNB, over the reals. *)
From Coq Require Import Reals List.
Import ListNotations.
Local Open Scope R_scope.

(* naivebayes.go:243-254, one class: log prior, means, variances; one row *)
Definition nij (x th sg : list R) : R :=
  fold_left (fun n t => let '(xj, tj, sj) := t in n - / 2 * ln (2 * PI * sj) - / 2 * (xj - tj) * (xj - tj) / sj) (combine (combine x th) sg) 0.
Record cls : Type := mkcls { c_label : Z; c_prior : R; c_theta : list R; c_sigma : list R }.
Definition jll1 (c : cls) (x : list R) : R := ln (c_prior c) + nij x (c_theta c) (c_sigma c).
Definition jll (m : list cls) (x : list R) : list R := map (fun c => jll1 c x) m.

(* gonum floats.MaxIdx for numbers: the first index of the maximum *)
Fixpoint max_from (best : nat) (bv : R) (i : nat) (l : list R) : nat :=
  match l with [] => best | v :: r => if Rlt_dec bv v then max_from i v (S i) r else max_from best bv (S i) r end.
Definition max_idx (l : list R) : nat := match l with [] => 0%nat | v :: r => max_from 0 v 1 r end.
(* naivebayes.go:41-47 Predict of one row *)
Definition predict (m : list cls) (x : list R) : Z := c_label (nth (max_idx (jll m x)) m (mkcls 0 0 [] [])).

(* gonum floats.LogSumExp for finite numbers *)
Definition rmax (l : list R) : R := match l with [] => 0 | v :: r => fold_left Rmax r v end.
Definition rsum (l : list R) : R := fold_right Rplus 0 l.
Definition lse (l : list R) : R := ln (rsum (map (fun v => exp (v - rmax l)) l)) + rmax l.
(* naivebayes.go:62-68 PredictLogProbas of one row; 83-84 PredictProbas *)
Definition log_probas (m : list cls) (x : list R) : list R := map (fun v => v + - lse (jll m x)) (jll m x).
Definition probas (m : list cls) (x : list R) : list R := map exp (log_probas m x).
