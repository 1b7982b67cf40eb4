(* Model: Normalizer on one row (or column) in IEEE binary64 arithmetic *)
From Coq Require Import ZArith List Bool.
From Flocq Require Import IEEE754.BinarySingleNaN.
From Verif Require Import FloatModel.
Import ListNotations.

(* preprocessing/data.go:1032-1036, 1044-1048 Normalizer.Transform: a vector whose norm is nrm (floats.Scale multiplies every element by 1/nrm) *)
Definition nz_scale (nrm : f64) (row : list f64) : list f64 := if feq nrm f0 then row else map (fun v => fmul v (fdiv f1 nrm)) row.
(* mat.Norm of a vector of finite numbers by its documentation, with norm +Inf (Norm "max") and 1 (Norm "l1"; the elements are added from first to last) *)
Definition nz_max (row : list f64) : f64 := fold_left (fun m v => if flt m (fabs v) then fabs v else m) row f0.
Definition nz_l1 (row : list f64) : f64 := fsum (map fabs row).
(* data.go:1016-1022, 1031, 1043: the norm chosen by Norm; l2 is not modelled here *)
Definition nz_transform (l1 : bool) (row : list f64) : list f64 := nz_scale (if l1 then nz_l1 row else nz_max row) row.
