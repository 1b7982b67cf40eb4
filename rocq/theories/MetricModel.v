(* Model of how the distance is chosen: /repo/neighbors/unsupervised.go:13-57,
   classification.go:16-50, regression.go (same lines of code), cluster/dbscan.go:70-90,
   and of the memory walk in /repo/neighbors/distance.go and cluster/distance.go
   for vectors that are not contiguous.  Real arithmetic, see DistModel. *)
From Coq Require Import String.
From Verif Require Import QCommon DistModel.
Open Scope R_scope.
Definition distf : Type := list R -> list R -> R.

(* unsupervised.go:21-31: the fields that matter.  Distance is a runtime member *)
Record nn : Type := mknn { nMetric : string; nP : pexp; nDist : option distf }.
(* unsupervised.go:34-36 *)
Definition nn_new : nn := mknn "euclidean" (Pfin 2) None.
(* unsupervised.go:39-49: the switch *)
Definition nn_fit (m : nn) : nn :=
  let P := if (String.eqb (nMetric m) "manhattan" || String.eqb (nMetric m) "cityblock")%bool then Pfin 1
           else if String.eqb (nMetric m) "euclidean" then Pfin 2
           else nP m in
  mknn (nMetric m) P (Some (minkowski P)).
(* unsupervised.go:82: brute force calls m.Distance (nil panics);
   unsupervised.go:66: the tree is given m.P *)
Definition nn_distance (m : nn) : option distf := nDist m.
Definition nn_tree_p (m : nn) : pexp := nP m.

(* classification.go:17-50, regression.go:16-60: an estimator with a Distance
   field of its own, defaulted to EuclideanDistance, around a NearestNeighbors *)
Record knn_est : Type := mkknn { eDist : option distf; eNN : nn }.
Definition knn_new : knn_est := mkknn None nn_new.
Definition knn_fit (m : knn_est) : knn_est :=
  mkknn (Some (match eDist m with Some d => d | None => euclidean end)) (nn_fit (eNN m)).
(* classification.go:97, regression.go:100: m.KNeighbors is that of NearestNeighbors *)
Definition knn_distance (m : knn_est) : option distf := nn_distance (eNN m).

(* dbscan.go:36-60 and 82-90 *)
Definition dbscan_nn (metric : string) (P : pexp) : nn :=
  nn_fit (mknn metric (nP nn_new) (Some (minkowski P))).

(* what the names mean *)
Definition l1 (a b : list R) : R := rsum (map Rabs (zip Rminus a b)).
Definition l2 (a b : list R) : R := sqrt (rsum (zip (fun x y => (x - y) * (x - y)) a b)).
Definition dot (a b : list R) : R := rsum (zip Rmult a b).
Definition cosine (a b : list R) : R := 1 - dot a b / (sqrt (dot a a) * sqrt (dot b b)).
Definition lp (p : R) (a b : list R) : R := rpow (rsum (zip (fun x y => rpow (Rabs (x - y)) p) a b)) (1 / p).
(* q is strictly nearer to a than to b *)
Definition nearer (d : distf) (q a b : list R) : Prop := d q a < d q b.

(* ------------------------------------------------- vectors that are views *)
(* a blas64.Vector: element i is Data[i*Inc]; raw = false stands for a mat.Vector
   without RawVector, which only has AtVec *)
Record vec : Type := mkvec { vN : nat; vInc : nat; vData : list R; vRaw : bool }.
Definition at_vec (v : vec) (i : nat) : R := nth (i * vInc v) (vData v) 0.
Definition elements (v : vec) : list R := map (at_vec v) (seq 0 (vN v)).
(* Dense.RowView and Dense.ColView of a matrix stored by rows *)
Definition row_view (cols : nat) (data : list R) (i : nat) : vec := mkvec cols 1 (firstn cols (skipn (i * cols) data)) true.
Definition col_view (rows cols : nat) (data : list R) (j : nat) : vec :=
  mkvec rows cols (firstn ((rows - 1) * cols + 1) (skipn j data)) true.
(* a vector as gonum makes it *)
Definition wf_vec (v : vec) : Prop := (1 <= vN v)%nat /\ (1 <= vInc v)%nat /\ length (vData v) = S ((vN v - 1) * vInc v).

(* distance.go:25-27, 36-38, 64-71: the loop over Data; an index beyond the end
   of braw panics *)
Definition raw_pairs (a b : vec) : option (list (R * R)) :=
  if Nat.leb (length (vData a)) (length (vData b)) then Some (zip pair (vData a) (vData b)) else None.
(* distance.go:29-31, 40-42, 73-76 *)
Definition at_pairs (a b : vec) : list (R * R) := map (fun j => (at_vec a j, at_vec b j)) (seq 0 (vN b)).
Definition pairs (a b : vec) : option (list (R * R)) := if (vRaw a && vRaw b)%bool then raw_pairs a b else Some (at_pairs a b).
(* distance.go:13-43 *)
Definition vminkowski_p (p : pexp) (a b : vec) : option R :=
  if Nat.eqb (vN a) 1 then Some (Rabs (at_vec b 0 - at_vec a 0))
  else match pairs a b with
  | None => None
  | Some l => Some (match p with
                    | Pinf => rmaxl (map (fun xy => Rabs (snd xy - fst xy)) l)
                    | Pfin p => rsum (map (fun xy => rpow (Rabs (snd xy - fst xy)) p) l)
                    end)
  end.
(* distance.go:46-56 *)
Definition vminkowski (p : pexp) (a b : vec) : option R :=
  match vminkowski_p p a b with
  | None => None
  | Some d => Some (match p with Pinf => d | Pfin p => if Req_EM_T p 1 then d else rpow d (1 / p) end)
  end.
(* neighbors/distance.go:59-82 *)
Definition veuclidean (a b : vec) : option R :=
  if Nat.eqb (vN a) 1 then Some (Rabs (at_vec b 0 - at_vec a 0))
  else match pairs a b with
  | None => None
  | Some l => Some (sqrt (rsum (map (fun xy => (snd xy - fst xy) * (snd xy - fst xy)) l)))
  end.
(* cluster/distance.go:59-69: always AtVec *)
Definition ceuclidean (a b : vec) : R :=
  if Nat.eqb (vN a) 1 then Rabs (at_vec b 0 - at_vec a 0)
  else sqrt (rsum (map (fun xy => (snd xy - fst xy) * (snd xy - fst xy)) (at_pairs a b))).
