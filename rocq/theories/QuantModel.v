(* preprocessing/data.go:1147-1219: QuantileTransformer, in exact arithmetic; None is NaN *)
From Coq Require Import Qminmax.
From Verif Require Import QCommon.
Import ListNotations.
Open Scope nat_scope.

(* data.go:1171-1184, one feature: v are the values of the column in the order of the rows.  realSample is i/(NQ-1)*(N-1);
   its floor and fraction are computed here by integer division.  NQuantiles >= 2 (with 1 the Go code divides 0 by 0). *)
Definition qt_quantile (nq : nat) (v : list Q) (i : nat) : Q :=
  let a := i * (length v - 1) in
  let i0 := Nat.min (a / (nq - 1)) (length v - 1) in
  let r := a mod (nq - 1) in
  if ((r =? 0) || (length v <=? i0 + 1))%bool then nth i0 v 0%Q
  else let p := (qn r / qn (nq - 1))%Q in (nth i0 v 0 * (1 - p) + nth (i0 + 1) v 0 * p)%Q.
Definition qt_fit (nq : nat) (v : list Q) : list Q := map (qt_quantile nq v) (seq 0 nq).
(* data.go:1168-1170 *)
Definition qt_ref (nq i : nat) : Q := (qn i / qn (nq - 1))%Q.
(* data.go:1193 *)
Definition qt_eps : Q := 1 # 10000000.
(* data.go:1201; x lies in [x0, x1], so x1 = x0 makes 0/0 *)
Definition qt_value (nq q : nat) (x0 x1 x : Q) : option Q :=
  if Qeq_bool x1 x0 then None
  else Some (Qmin (qt_ref nq (nq - 1) - qt_eps) (Qmax (qt_ref nq 0 + qt_eps) (qt_ref nq q + (x - x0) / (x1 - x0) * (qt_ref nq (q + 1) - qt_ref nq q))))%Q.
(* data.go:1194-1204, one cell: it starts as 0 and is written for every interval that contains x, from the last interval down *)
Definition qt_cell (nq : nat) (qs : list Q) (x : Q) : option Q :=
  fold_left (fun acc q => let x0 := nth q qs 0%Q in let x1 := nth (q + 1) qs 0%Q in
               if (Qle_bool x0 x && Qle_bool x x1)%bool then qt_value nq q x0 x1 x else acc) (rev (seq 0 (nq - 1))) (Some 0%Q).
(* data.go:1190-1207 Transform, a list of columns: only the first NQuantiles columns are looked at *)
Definition qt_transform (nq : nat) (quantiles : list (list Q)) (X : list (list Q)) : list (list (option Q)) :=
  map (fun c => map (if c <? nq then qt_cell nq (nth c quantiles []) else fun _ => Some 0%Q) (nth c X [])) (seq 0 (length X)).
