(* The predictions of the K nearest neighbour estimators for one query and one output, from what KNeighbors returned on. *)
From Verif Require Import QCommon NeighModel KnnModel.
Open Scope Q_scope.

(* classification.go:113-127 and regression.go:90-99: targets and weights of the neighbours; [res] holds (distance^p, sample) and
   [root] is the final math.Pow(., 1/p) *)
Definition knn_yw (bydist : bool) (epsilon : Q) (root : Q -> Q) (Y : list Q) (res : list nele) : list (Q * Q) :=
  combine (map (fun e => nth (snd e) Y 0) res) (knn_weights bydist epsilon (map (fun e => root (fst e)) res)).
(* regression.go:101 *)
Definition knn_regress bydist epsilon root Y res : Q := wmean (knn_yw bydist epsilon root Y res).
(* classification.go:128-134, 143 *)
Definition knn_classify ord bydist epsilon root Y res : Q := vote ord (knn_yw bydist epsilon root Y res).
(* classification.go:136-141, into a row of zeros *)
Definition knn_proba classes bydist epsilon root Y res : list Q := proba_row classes (knn_yw bydist epsilon root Y res) (repeat 0 (length classes)).
