(* Model of /repo/neighbors: distance.go, kdtree.go, unsupervised.go (and the
   parts of classification.go, regression.go, nearest_centroid.go built on
   them), exact rational arithmetic.

   A power p is given as a flag [pinf] (p = +Inf) and a function [pw] standing
   for t -> math.Pow(t, p); the theorems ask of [pw] only that it is monotone on
   t >= 0 with pw 0 == 0 (integer powers are instances).  Distances stay p-th
   powers, as in the code's own variable ds; the final math.Pow(., 1/p), a
   strictly increasing map applied to every reported distance, is left out here
   and treated in DistModel.  sort.Slice is not stable: the sorts are arguments
   that return some sorted permutation. *)
From Verif Require Import QCommon.
Open Scope Q_scope.


(* ------------------------------------------------------------ distance.go *)
(* distance.go:13-43 *)
Definition mink_p (pinf : bool) (pw : Q -> Q) (a b : list Q) : Q :=
  match a, b with
  | [x], y :: _ => Qabs (y - x)
  | _, _ =>
    if pinf then fold_left (fun dp d => qmax dp d) (zip (fun x y => Qabs (y - x)) a b) 0
    else qsum (zip (fun x y => pw (Qabs (y - x))) a b)
  end.

(* -------------------------------------------------------------- kdtree.go *)
(* kdtree.go:194-217 *)
Inductive kd : Type := Leaf (idx : list nat) | Inner (d : nat) (split : Q) (less greater : kd).

(* tr.Data.At(i, d) *)
Definition dat (data : list (list Q)) (i d : nat) : Q := nth d (nth i data []) 0.

(* kdtree.go:229-237: the first axis with the largest side; M starts at -Inf *)
Definition widest (maxes mins : list Q) : nat :=
  fst (fold_left (fun acc id => let diff := snd id in
         match snd acc with
         | Some M => if Qltb M diff then (fst id, Some diff) else acc
         | None => (fst id, Some diff)
         end) (combine (seq 0 (length maxes)) (zip Qminus maxes mins)) (0%nat, None)).

(* kdtree.go:247-258 *)
Definition lgfill (data : list (list Q)) (d : nat) (idx : list nat) (split : Q) : list nat * list nat :=
  (filter (fun i => Qle_bool (dat data i d) split) idx, filter (fun i => Qltb split (dat data i d)) idx).
(* kdtree.go:261-266, 271-276: minimum / maximum over idx (not empty here) *)
Definition dmin (data : list (list Q)) (d : nat) (idx : list nat) : Q :=
  match idx with [] => 0 | i :: r => fold_left (fun M i => if Qltb (dat data i d) M then dat data i d else M) r (dat data i d) end.
Definition dmax (data : list (list Q)) (d : nat) (idx : list nat) : Q :=
  match idx with [] => 0 | i :: r => fold_left (fun M i => if Qltb M (dat data i d) then dat data i d else M) r (dat data i d) end.

(* kdtree.go:259-285: (split, lessIdx, greaterIdx) *)
Definition kd_split (data : list (list Q)) (d : nat) (idx : list nat) (split : Q) : Q * list nat * list nat :=
  let '(l, g) := lgfill data d idx split in
  let '(split, l, g) :=
    match l with [] => let s := dmin data d idx in let '(l, g) := lgfill data d idx s in (s, l, g) | _ => (split, l, g) end in
  let '(split, l, g) :=
    match g with [] => let s := dmax data d idx in let '(l, g) := lgfill data d idx s in (s, l, g) | _ => (split, l, g) end in
  match l with
  | [] => (dat data (hd 0%nat idx) d, seq 0 (length idx - 1), [(length idx - 1)%nat])
  | _ => (split, l, g)
  end.

(* kdtree.go:225-291.  [mid] is (maxval + minval)/2; None: out of fuel *)
Fixpoint kd_build (mid : Q -> Q -> Q) (fuel : nat) (data : list (list Q)) (leaf : nat) (idx : list nat) (maxes mins : list Q) : option kd :=
  match fuel with
  | O => None
  | S f =>
    if Nat.leb (length idx) leaf then Some (Leaf idx)
    else
      let d := widest maxes mins in
      let maxval := nth d maxes 0 in
      let minval := nth d mins 0 in
      if Qeq_bool maxval minval then Some (Leaf idx)
      else
        let '(split, l, g) := kd_split data d idx (mid maxval minval) in
        match kd_build mid f data leaf l (upd maxes d split) mins, kd_build mid f data leaf g maxes (upd mins d split) with
        | Some tl, Some tg => Some (Inner d split tl tg)
        | _, _ => None
        end
  end.
Definition exact_mid (a b : Q) : Q := (a + b) / 2.

(* kdtree.go:153-183.  The columns are split over goroutines, each written by
   one; None for no rows or out of fuel *)
Definition col_max (data : list (list Q)) (j : nat) : Q :=
  fold_left (fun M r => if Qltb M (nth j r 0) then nth j r 0 else M) (tl data) (nth j (hd [] data) 0).
Definition col_min (data : list (list Q)) (j : nat) : Q :=
  fold_left (fun M r => if Qltb (nth j r 0) M then nth j r 0 else M) (tl data) (nth j (hd [] data) 0).
Definition kd_maxes (data : list (list Q)) : list Q := map (col_max data) (seq 0 (length (hd [] data))).
Definition kd_mins (data : list (list Q)) : list Q := map (col_min data) (seq 0 (length (hd [] data))).
Definition kd_new (mid : Q -> Q -> Q) (fuel : nat) (data : list (list Q)) (leafsize : nat) : option kd :=
  match data with
  | [] => None
  | _ => kd_build mid fuel data (if Nat.ltb leafsize 1 then 1%nat else leafsize) (seq 0 (length data)) (kd_maxes data) (kd_mins data)
  end.

(* ------------------------------------------------------------ _query *)
(* an upper bound, None is +Inf *)
Definition below (x : Q) (b : option Q) : bool := match b with None => true | Some v => Qltb x v end.
Definition bscale (b : option Q) (f : Q) : option Q := match b with None => None | Some v => Some (v * f) end.
(* x > bound / x <= bound *)
Definition above (x : Q) (b : option Q) : bool := match b with None => false | Some v => Qltb v x end.

(* kdtree.go:315-319 *)
Definition qele : Type := (Q * list Q * kd)%type.
Definition qmind (e : qele) : Q := fst (fst e).
(* kdtree.go:334-337: (-distance^p, sample) *)
Definition nele : Type := (Q * nat)%type.

Section Query.
Variable data : list (list Q).
Variables (pinf : bool) (pw : Q -> Q).
Variable x : list Q.
Variable k : nat.
Variable epsfac : Q.
Variable qsrt : list qele -> list qele.   (* sort.Slice(q, qLess) *)
Variable nsrt : list nele -> list nele.   (* sort.Slice(neighbors, nLess) *)
Variable fsrt : list nele -> list nele.   (* the final sort, 427 *)

(* kdtree.go:368-380 *)
Definition leaf_step (st : list nele * option Q) (i : nat) : list nele * option Q :=
  let '(nb, dub) := st in
  let ds := mink_p pinf pw x (nth i data []) in
  let nb := if (below ds dub && Nat.eqb (length nb) k)%bool then tl nb else nb in
  let nb := nsrt (nb ++ [(- ds, i)]) in
  (nb, if Nat.eqb (length nb) k then Some (- fst (hd (0, 0%nat) nb)) else dub).

(* kdtree.go:361-420; None: out of fuel *)
Fixpoint query_loop (fuel : nat) (q : list qele) (nb : list nele) (dub : option Q) : option (list nele) :=
  match q with
  | [] => Some nb
  | (mind, sides, node) :: q' =>
    match fuel with
    | O => None
    | S f =>
      match node with
      | Leaf idx => let '(nb', dub') := fold_left leaf_step idx (nb, dub) in query_loop f q' nb' dub'
      | Inner d split less greater =>
        if above mind (bscale dub epsfac) then Some nb
        else
          let xd := nth d x 0 in
          let '(near, far) := if Qltb xd split then (less, greater) else (greater, less) in
          let q1 := qsrt (q' ++ [(mind, sides, near)]) in
          let '(mind', sides') :=
            if pinf then (qmax mind (Qabs (split - xd)), sides)
            else let s := pw (Qabs (split - xd)) in (mind - nth d sides 0 + s, upd sides d s) in
          let q2 := if above mind' (bscale dub epsfac) then q1 else qsrt (q1 ++ [(mind', sides', far)]) in
          query_loop f q2 nb dub
      end
    end
  end.

(* kdtree.go:294-310 *)
Definition side0 (maxes mins : list Q) (j : nat) : Q :=
  let d := qmax 0 (qmax (nth j x 0 - nth j maxes 0) (nth j mins 0 - nth j x 0)) in if pinf then d else pw d.
Definition sides0 (maxes mins : list Q) : list Q := map (side0 maxes mins) (seq 0 (length x)).
Definition mind0 (sides : list Q) : Q :=
  if pinf then match sides with [] => 0 | s :: r => fold_left qmax r s end else qsum sides.

Fixpoint kd_size (t : kd) : nat := match t with Leaf _ => 1 | Inner _ _ l g => S (kd_size l + kd_size g) end.

(* kdtree.go:293-432: what is passed to the callback, as (distance^p, sample).
   [dub] is already a p-th power (358-360). *)
Definition kd_query (maxes mins : list Q) (tree : kd) (dub : option Q) : option (list nele) :=
  let sides := sides0 maxes mins in
  match query_loop (kd_size tree) [(mind0 sides, sides, tree)] [] dub with
  | Some nb => Some (firstn k (fsrt (map (fun e => (- fst e, snd e)) nb)))
  | None => None
  end.
End Query.

(* ------------------------------------------------------- unsupervised.go *)
(* unsupervised.go:69-96, one sample: (distance^p, index) for ik < k; None: k
   larger than the number of fitted samples (index panic) *)
Definition knn_brute (pinf : bool) (pw : Q -> Q) (data : list (list Q)) (x : list Q) (k : nat) (isrt : list nat -> list nat) : option (list nele) :=
  if Nat.leb k (length data) then
    Some (map (fun i => (mink_p pinf pw x (nth i data []), i)) (firstn k (isrt (seq 0 (length data)))))
  else None.
(* kdtree.go:470-495 (one row of dd, ii): cells without a neighbour keep 0 *)
Definition kd_row (k : nat) (res : list nele) : list nele := res ++ repeat (0, 0%nat) (k - length res).

(* unsupervised.go:149-164: stop at the first distance beyond the radius; [r] is
   the p-th power of the radius *)
Fixpoint radius_scan (r : Q) (l : list nele) : list nele :=
  match l with
  | [] => []
  | e :: l' => if Qltb r (fst e) then [] else e :: radius_scan r l'
  end.
Definition radius_brute pinf pw data x (r : Q) isrt : option (list nele) :=
  match knn_brute pinf pw data x (length data) isrt with Some l => Some (radius_scan r l) | None => None end.
(* unsupervised.go:165-179 *)
Definition radius_tree data pinf pw x qsrt nsrt fsrt maxes mins tree (r : Q) : option (list nele) :=
  match kd_query data pinf pw x (length data) 1 qsrt nsrt fsrt maxes mins tree (Some r) with
  | Some l => Some (filter (fun e => Qle_bool (fst e) r) l)
  | None => None
  end.
