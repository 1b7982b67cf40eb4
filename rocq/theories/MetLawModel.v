(* neighbors/kdtree.go: the volume of a hyperrectangle and the distances between two.  Exact rational arithmetic; Volume and
   the vectors whose norm is taken (norm1, normi, norm2s of KnnModel). *)
From Verif Require Import QCommon KnnModel.
Open Scope Q_scope.

(* kdtree.go:36-42 *)
Definition volume (r : rect) : Q :=
  fold_left (fun v axis => v * (nth axis (maxes r) 0 - nth axis (mins r) 0)) (seq 0 (length (maxes r))) 1.
(* kdtree.go:95-102 *)
Definition rr_min_vec (r other : rect) : list Q :=
  map (fun d => qmax 0 (qmax (nth d (mins r) 0 - nth d (maxes other) 0) (nth d (mins other) 0 - nth d (maxes r) 0))) (seq 0 (length (maxes other))).
(* kdtree.go:108-115 *)
Definition rr_max_vec (r other : rect) : list Q :=
  map (fun d => qmax (nth d (maxes r) 0 - nth d (mins other) 0) (nth d (maxes other) 0 - nth d (mins r) 0)) (seq 0 (length (maxes other))).
