(* Model of what is built on the neighbour search in /repo/neighbors: refitting
   (unsupervised.go), KNeighborsGraph, the K nearest neighbour classifier and
   regressor, NearestCentroid and the hyperrectangles of kdtree.go.  Exact
   rational arithmetic; the iteration order of Go maps is an argument [ord]. *)
From Verif Require Import QCommon NeighModel.
From Coq Require Import Qround.
Open Scope Q_scope.

(* --------------------------------------------------------------- fitting *)
(* unsupervised.go:52: what Algorithm asks for *)
Inductive algo : Type := Brute | TreeAlg | Auto.
(* m.X, and the data set m.Tree was built from (nil: None) *)
Record nn : Type := mknn { nnX : list (list Q); nnTree : option (list (list Q)) }.
Definition nn_new : nn := mknn [] None.
(* unsupervised.go:52 *)
Definition use_tree (a : algo) (X : list (list Q)) : bool :=
  match a with Brute => false | TreeAlg => true | Auto => Nat.ltb 1000 (length X * length (hd [] X)) end.
(* unsupervised.go:36-61; m.Tree is left alone when no tree is wanted *)
Definition nn_fit (a : algo) (m : nn) (X : list (list Q)) : nn := mknn X (if use_tree a X then Some X else nnTree m).
(* unsupervised.go:66-68 / 76-86: the samples a query looks at *)
Definition nn_searched (m : nn) : list (list Q) := match nnTree m with Some d => d | None => nnX m end.

(* ------------------------------------------------------ KNeighborsGraph *)
(* unsupervised.go:102-129, one row; [row] holds the (distance, index) pairs
   KNeighbors returned.  int() truncates; None: index out of range *)
Definition graph_row (nfit sample : nat) (connectivity includeSelf : bool) (row : list (Q * nat)) : option (list Q) :=
  fold_left (fun acc e =>
    match acc with
    | None => None
    | Some g =>
      let index := if connectivity then snd e else Z.to_nat (Qfloor (fst e)) in
      if (Nat.eqb sample index && negb includeSelf)%bool then Some g
      else if Nat.ltb index (length g) then Some (upd g index 1) else None
    end) row (Some (repeat 0 nfit)).

(* -------------------------------------------------- KNeighborsClassifier *)
(* classification.go:116-127: classw, kept in order of first insertion *)
Fixpoint vadd (m : list (Q * Q)) (cl w : Q) : list (Q * Q) :=
  match m with
  | [] => [(cl, w)]
  | (c, v) :: r => if Qeq_bool c cl then (c, v + w) :: r else (c, v) :: vadd r cl w
  end.
Definition classw (yw : list (Q * Q)) : list (Q * Q) := fold_left (fun m e => vadd m (fst e) (snd e)) yw [].
(* classification.go:128-134 *)
Definition vote (ord : list (Q * Q) -> list (Q * Q)) (yw : list (Q * Q)) : Q :=
  snd (fold_left (fun acc cw => if Qltb (fst acc) (snd cw) then (snd cw, fst cw) else acc) (ord (classw yw)) (0, 0)).
(* classification.go:92-98, 118-123: the weights.  [d] are distances *)
Definition knn_weights (bydist : bool) (epsilon : Q) (d : list Q) : list Q :=
  if bydist then map (fun x => 1 / (epsilon + x)) d else map (fun _ => 1) d.
(* classification.go:136-140: one row of Y, overwritten in place *)
Definition vfind (m : list (Q * Q)) (cl : Q) : option Q := option_map snd (find (fun e => Qeq_bool (fst e) cl) m).
Definition proba_row (classes : list Q) (yw : list (Q * Q)) (row : list Q) : list Q :=
  let sumw := qsum (map snd yw) in
  zip (fun cl old => match vfind (classw yw) cl with Some w => w / sumw | None => old end) classes row.
(* classification.go:158-184: one output; [ord] is the map order, which the
   counts keep while the classes are sorted *)
Fixpoint cadd (m : list (Q * nat)) (cl : Q) : list (Q * nat) :=
  match m with
  | [] => [(cl, 1%nat)]
  | (c, v) :: r => if Qeq_bool c cl then (c, S v) :: r else (c, v) :: cadd r cl
  end.
Definition get_classes (ord : list (Q * nat) -> list (Q * nat)) (fsort : list Q -> list Q) (y : list Q) : list Q * list nat :=
  let m := ord (fold_left cadd y []) in (fsort (map fst m), map snd m).

(* --------------------------------------------------- KNeighborsRegressor *)
(* regression.go:86-102 with stat.Mean(ys, weights) *)
Definition wmean (yw : list (Q * Q)) : Q := qsum (map (fun e => snd e * fst e) yw) / qsum (map snd yw).

(* -------------------------------------------------------- NearestCentroid *)
(* nearest_centroid.go:55-67, metric other than "manhattan": one coordinate *)
Definition centroid (X : list (list Q)) (Y : list Q) (cl : Q) (f : nat) : Q :=
  let col := map (fun xy => nth f (fst xy) 0) (filter (fun xy => Qeq_bool (snd xy) cl) (combine X Y)) in
  qsum col / qn (length col).
Definition centroids (X : list (list Q)) (Y : list Q) (classes : list Q) : list (list Q) :=
  map (fun cl => map (centroid X Y cl) (seq 0 (length (hd [] X)))) classes.
(* nearest_centroid.go:62 with metric "manhattan": stat.Quantile panics on an
   unsorted column (None) *)
Definition sortedb (l : list Q) : bool := forallb (fun i => Qle_bool (nth i l 0) (nth (S i) l 0)) (seq 0 (length l - 1)).
Definition median_col (X : list (list Q)) (Y : list Q) (cl : Q) (f : nat) : option (list Q) :=
  let col := map (fun xy => nth f (fst xy) 0) (filter (fun xy => Qeq_bool (snd xy) cl) (combine X Y)) in
  if sortedb col then Some col else None.
(* The embedded NearestNeighbors is the zero value (nearest_centroid.go:30-32):
   Metric "" and P = 0 (the field Metric set there is the outer one), so
   unsupervised.go:46 uses MinkowskiDistance(0): every |x|^0 is 1, and the sum
   is raised to 1/0 = +Inf.  None is +Inf. *)
Definition p0_distance (a b : list Q) : option Q :=
  match a, b with
  | [x], y :: _ => let d := Qabs (y - x) in if Qltb d 1 then Some 0 else if Qeq_bool d 1 then Some 1 else None
  | _, _ => if Nat.ltb 1 (length a) then None else Some (qn (length a))
  end.
Definition oltb (a b : option Q) : bool :=
  match a, b with Some x, Some y => Qltb x y | Some _, None => true | None, _ => false end.
(* unsupervised.go:76-91 with NNeighbors = 1 and nearest_centroid.go:96-99;
   [srt less l] is sort.Slice *)
Definition nc_predict (srt : (nat -> nat -> bool) -> list nat -> list nat) (C : list (list Q)) (classes : list Q) (x : list Q) : Q :=
  let dist i := p0_distance x (nth i C []) in
  let idx := srt (fun i j => oltb (dist i) (dist j)) (seq 0 (length C)) in
  nth (hd 0%nat idx) classes 0.

(* -------------------------------------------------------------- Rectangle *)
Record rect : Type := mkrect { maxes : list Q; mins : list Q }.
(* kdtree.go:54-63 *)
Definition rect_split (r : rect) (d : nat) (split : Q) : rect * rect :=
  (mkrect (mins r) (upd (maxes r) d split), mkrect (upd (mins r) d split) (maxes r)).
(* kdtree.go:69-76, 82-89: the vectors whose norm is taken *)
Definition min_vec (r : rect) (x : list Q) : list Q :=
  map (fun d => qmax 0 (qmax (nth d (mins r) 0 - nth d x 0) (nth d x 0 - nth d (maxes r) 0))) (seq 0 (length x)).
Definition max_vec (r : rect) (x : list Q) : list Q :=
  map (fun d => qmax (nth d (maxes r) 0 - nth d x 0) (nth d x 0 - nth d (mins r) 0)) (seq 0 (length x)).
(* mat.Norm of a column vector, norms 1 and +Inf, and the square of norm 2 *)
Definition norm1 (v : list Q) : Q := qsum (map Qabs v).
Definition normi (v : list Q) : Q := fold_left (fun a b => qmax a b) (map Qabs v) 0.
Definition norm2s (v : list Q) : Q := qsum (map (fun t => t * t) v).
