(* The scalers, distances and accuracy in IEEE 754 binary64 arithmetic, as float64 has it in Go: every operation is rounded to nearest,
   ties to even, and there are infinities, NaN and signed zeros.  The operations are those of Flocq.  Go may fuse x*y + z into one
   rounding on some processors (not on amd64); here every operation is rounded.  A column of X is a list; min, max, sums and products are
   taken in the order of the rows, as gonum's Apply, Add, Sub, MulElem and Scale do element by element. *)
From Coq Require Import ZArith List Bool.
From Flocq Require Import Core.Core IEEE754.BinarySingleNaN.
Import ListNotations.

Definition f64 := binary_float 53 1024.
#[global] Instance prec53 : Prec_gt_0 53 := eq_refl.
#[global] Instance prec53_emax : Prec_lt_emax 53 1024 := eq_refl.
Definition fadd (x y : f64) : f64 := Bplus mode_NE x y.
Definition fsub (x y : f64) : f64 := Bminus mode_NE x y.
Definition fmul (x y : f64) : f64 := Bmult mode_NE x y.
Definition fdiv (x y : f64) : f64 := Bdiv mode_NE x y.
Definition fsqrt (x : f64) : f64 := Bsqrt mode_NE x.
Definition fabs (x : f64) : f64 := Babs x.
Definition fneg (x : f64) : f64 := Bopp x.
Definition flt (x y : f64) : bool := Bltb x y.
Definition fle (x y : f64) : bool := Bleb x y.
Definition feq (x y : f64) : bool := Beqb x y.
(* float64(n) of an int *)
Definition fint (n : Z) : f64 := binary_normalize 53 1024 prec53 prec53_emax mode_NE n 0 false.
Definition f0 : f64 := B754_zero false.
Definition f1 : f64 := fint 1.
Definition fsum (l : list f64) : f64 := fold_left fadd l f0.

(* preprocessing/data.go:937-960 MaxAbsScaler.PartialFit after Fit: MaxAbs and Scale of a column *)
Definition ma_abs (v : f64) : f64 := if flt v f0 then fneg v else v.
Definition ma_max (col : list f64) : f64 := fold_left (fun m v => if flt m (ma_abs v) then ma_abs v else m) col f0.
Definition ma_scale (col : list f64) : f64 := let m := ma_max col in if flt f0 m then m else f1.
(* data.go:963-975, 981-994 Transform and InverseTransform *)
Definition ma_transform (sc v : f64) : f64 := fdiv v sc.
Definition ma_inverse (sc v : f64) : f64 := fmul v sc.

(* data.go:66-101 MinMaxScaler.PartialFit after Reset, for finite values (math.Min and math.Max; the sign of a zero they return is not
   modelled: the first of two equal values stays); lo and hi are FeatureRange *)
Definition mm_min (c : f64) (cs : list f64) : f64 := fold_left (fun m v => if flt v m then v else m) cs c.
Definition mm_max (c : f64) (cs : list f64) : f64 := fold_left (fun m v => if flt m v then v else m) cs c.
Definition mm_scale (lo hi c : f64) (cs : list f64) : f64 :=
  let r := fsub (mm_max c cs) (mm_min c cs) in fdiv (fsub hi lo) (if feq r f0 then f1 else r).
Definition mm_off (lo hi c : f64) (cs : list f64) : f64 := fsub lo (fmul (mm_min c cs) (mm_scale lo hi c cs)).
(* data.go:104-111 Transform *)
Definition mm_transform (lo hi c : f64) (cs : list f64) (x : f64) : f64 := fadd (mm_off lo hi c cs) (fmul x (mm_scale lo hi c cs)).

(* data.go:474-538 IncrementalMeanAndVar from nothing (lastSampleCount 0, lastMean 0) on a column of n samples: mean and variance *)
Definition recip (n : nat) : f64 := fdiv f1 (fint (Z.of_nat n)).
Definition ss_mean (col : list f64) : f64 := fmul (recip (length col)) (fadd (fmul (fint 0) f0) (fsum col)).
Definition ss_var (col : list f64) : f64 :=
  let nm := fmul (recip (length col)) (fsum col) in
  fmul (recip (length col)) (fsum (map (fun x => let t := fsub x nm in fmul t t) col)).
(* data.go:164-180, 183-201 StandardScaler.PartialFit (the Scale) and Transform, WithMean and WithStd *)
Definition ss_scale (col : list f64) : f64 := let v := ss_var col in fsqrt (if feq v f0 then f1 else v).
Definition ss_transform (col : list f64) (x : f64) : f64 := fdiv (fsub x (ss_mean col)) (ss_scale col).

(* neighbors/distance.go:59-81 and cluster/distance.go:59-69 EuclideanDistance of vectors of the same length, stored contiguously *)
Definition euclid (a b : list f64) : f64 :=
  match a, b with
  | [x], [y] => fabs (fsub y x)
  | _, _ => fsqrt (fold_left (fun d2 p => let d := fsub (snd p) (fst p) in fadd d2 (fmul d d)) (combine a b) f0)
  end.

(* metrics/classification.go:12-35 AccuracyScore without weights, on one output column; normalize true *)
Definition accuracy (yt yp : list f64) : f64 :=
  let nd := fold_left (fun nd p => (if feq (fst p) (snd p) then fadd (fst nd) f1 else fst nd, fadd (snd nd) f1)) (combine yt yp) (f0, f0) in
  fdiv (fst nd) (snd nd).
