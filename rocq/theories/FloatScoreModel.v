(* ROC curve, precision/recall/F-score, regression scores and KBinsDiscretizer in IEEE 754 binary64 arithmetic (operations of FloatModel) *)
From Coq Require Import ZArith List Bool.
From Flocq Require Import Core.Core IEEE754.BinarySingleNaN.
From Verif Require Import FloatModel.
Import ListNotations.

(* metrics/ranking.go:36-56 binaryClfCurve without weights (w = 1): the samples as groups of equal score in decreasing order of the
   score (lines 17-35; the order inside a group does not matter without weights), true for a sample with the positive label *)
Definition clf_step (a : f64 * f64) (tp : bool) : f64 * f64 := if tp then (fadd (fst a) f1, snd a) else (fst a, fadd (snd a) f1).
Fixpoint clf_curve (a : f64 * f64) (gs : list (list bool)) : list (f64 * f64) :=
  match gs with [] => [] | g :: r => let a' := fold_left clf_step g a in a' :: clf_curve a' r end.
(* ranking.go:83-101: NaN if the last count is not positive, otherwise floats.Scale(1./max, s), that is s[i] *= 1./max *)
Definition rate (l : list f64) : list f64 :=
  let m := last l f0 in if fle m f0 then map (fun _ => B754_nan) l else map (fun v => fmul v (fdiv f1 m)) l.
(* ranking.go:72-103 ROCCurve: fpr and tpr; without samples thresholds[0] panics, here the extra point alone *)
Definition roc (gs : list (list bool)) : list f64 * list f64 :=
  let c := clf_curve (f0, f0) gs in
  let c' := match c with [] => [(f0, f0)] | p :: _ => if feq (snd p) f0 then c else (f0, f0) :: c end in
  (rate (map snd c'), rate (map fst c')).
(* ranking.go:106-118 AUC *)
Definition auc (fpr tpr : list f64) : f64 :=
  fst (fold_left (fun st p => let '(s, (xp, yp)) := st in (fadd s (fdiv (fmul (fsub (fst p) xp) (fadd (snd p) yp)) (fint 2)), p)) (combine fpr tpr) (f0, (f0, f0))).

(* metrics/classification.go:83-101 prfs: precision, recall and F-score from the sums of a class *)
Definition f_prec (tp pr : f64) : f64 := if flt f0 pr then fdiv tp pr else f0.
Definition f_score (beta p r : f64) : f64 :=
  let b2 := fmul beta beta in
  let d := fadd (fmul b2 p) r in
  if flt f0 d then fdiv (fmul (fmul (fadd f1 b2) p) r) d else f0.

(* metrics/regression.go:83-131 R2Score of one output without weights, "raw_values" (the other averages of one score divide by 1).
   sampleWeight is all ones, so the products Mul are sums; they are taken in the order of the samples *)
Definition fmax (a b : f64) : f64 := if is_nan a || is_nan b then B754_nan else if flt a b then b else a.
Definition e20 : f64 := binary_normalize 53 1024 prec53 prec53_emax mode_NE 6646139978924579 (-119) false.   (* 1e-20 *)
Definition sqdiff (a b : f64) : f64 := let d := fsub a b in fmul d d.
Definition r2_num (yt yp : list f64) : f64 := fsum (map (fun p => sqdiff (snd p) (fst p)) (combine yt yp)).
Definition r2_avg (yt : list f64) : f64 := fmul (fdiv f1 (fsum (map (fun _ => f1) yt))) (fsum yt).
Definition r2_den (yt : list f64) : f64 := fsum (map (fun y => sqdiff y (r2_avg yt)) yt).
Definition r2 (yt yp : list f64) : f64 := fsub f1 (fdiv (r2_num yt yp) (fmax (r2_den yt) e20)).
(* regression.go:155-169 and 222-236 MeanSquaredError and MeanAbsoluteError of one output without weights *)
Definition mse (yt yp : list f64) : f64 := fdiv (r2_num yt yp) (fsum (map (fun _ => f1) yt)).
Definition mae (yt yp : list f64) : f64 := fdiv (fsum (map (fun p => fabs (fsub (snd p) (fst p))) (combine yt yp))) (fsum (map (fun _ => f1) yt)).

(* preprocessing/discretization.go:42-51 Fit with strategy "uniform": the edge b of a column with smallest value mn and largest mx *)
Definition kb_edge (nb : nat) (mn mx : f64) (b : nat) : f64 := fadd mn (fmul (fdiv (fint (Z.of_nat b)) (fint (Z.of_nat nb))) (fsub mx mn)).
(* discretization.go:74-82 Transform: the bin of x *)
Fixpoint kb_from (edge : nat -> f64) (x : f64) (ith left : nat) : nat :=
  match left with 0 => ith | S l => if fle (edge (S ith)) x then kb_from edge x (S ith) l else ith end.
Definition kb_bin (edge : nat -> f64) (nb : nat) (x : f64) : nat := kb_from edge x 0 (nb - 1).
(* discretization.go:128 InverseTransform of bin b *)
Definition kb_mid (edge : nat -> f64) (b : nat) : f64 := fmul (fdiv f1 (fint 2)) (fadd (edge b) (edge (S b))).
