(* Model: centering and scaling of one value by StandardScaler and RobustScaler in IEEE binary64 arithmetic *)
From Coq Require Import ZArith List Bool.
From Flocq Require Import IEEE754.BinarySingleNaN.
From Verif Require Import FloatModel.

(* preprocessing/data.go:190-199 StandardScaler.Transform, one element of a column whose Mean is m and whose Scale is s; wm and ws are WithMean and WithStd *)
Definition std_transform (wm ws : bool) (m s x : f64) : f64 := fdiv (fsub x (if wm then m else f0)) (if ws then s else f1).
(* preprocessing/data.go:219-230 StandardScaler.InverseTransform, one element *)
Definition std_inverse (wm ws : bool) (m s x : f64) : f64 := fadd (if wm then m else f0) (fmul x (if ws then s else f1)).
(* preprocessing/data.go:404-413 RobustScaler.Transform, one element; ce and sc are Center and Scale, m is Median and s is QuantileDivider of the column *)
Definition rob_transform (ce sc : bool) (m s x : f64) : f64 :=
  let res := if ce then fsub x m else x in if sc then fdiv res s else res.
(* preprocessing/data.go:429-438 RobustScaler.InverseTransform, one element *)
Definition rob_inverse (ce sc : bool) (m s x : f64) : f64 :=
  let res := if sc then fmul x s else x in if ce then fadd res m else res.
(* preprocessing/data.go:384-395 RobustScaler.Fit: the divider of a column whose quantiles are q1 and q2, with 0 replaced by 1. The quantiles themselves
   (stat.Quantile of gonum) are arguments *)
Definition rob_divider (q1 q2 : f64) : f64 := let d := fsub q2 q1 in if feq d f0 then f1 else d.
