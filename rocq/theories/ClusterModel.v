(* Model of /repo/cluster: dbscan.go and kmeans.go (distance.go is the same code
   as neighbors/distance.go, see DistModel and NeighModel). *)
From Verif Require Import QCommon NeighModel.
Open Scope Q_scope.

(* ----------------------------------------------------------------- dbscan *)
Section Inner.
Variable isCore : list bool.
Variable neighborhoods : list (list nat).

Definition isc (i : nat) : bool := nth i isCore false.
Definition nbrs (i : nat) : list nat := nth i neighborhoods [].
Definition lab (labels : list Z) (i : nat) : Z := nth i labels (-1)%Z.

(* dbscan.go:167-180: the search started at sample i.  The head of [work] is the
   current i, the rest the stack, top first.  The inner loop variable i shadows
   nothing that is read again: i is taken from the stack before its next use,
   and the range statement at 155 sets it afresh.  None: out of fuel *)
Fixpoint dfs (fuel : nat) (num : Z) (work : list nat) (labels : list Z) : option (list Z) :=
  match work with
  | [] => Some labels
  | i :: stack =>
    match fuel with
    | O => None
    | S f =>
      if Z.eqb (lab labels i) (-1) then
        let labels' := upd labels i num in
        let stack' := if isc i then rev (filter (fun v => Z.eqb (lab labels' v) (-1)) (nbrs i)) ++ stack else stack in
        dfs f num stack' labels'
      else dfs f num stack labels
    end
  end.

(* enough for any search: one step for the start and one for each push *)
Definition dfs_fuel : nat := S (list_sum (map (@length nat) neighborhoods)).

(* dbscan.go:151-185, samples from i on; the number of clusters is returned too *)
Fixpoint inner_loop (todo : list nat) (num : Z) (labels : list Z) : option (list Z * Z) :=
  match todo with
  | [] => Some (labels, num)
  | i :: rest =>
    if (negb (Z.eqb (lab labels i) (-1)) || negb (isc i))%bool then inner_loop rest num labels
    else match dfs dfs_fuel num [i] labels with
         | Some labels' => inner_loop rest (num + 1) labels'
         | None => None
         end
  end.
Definition dbscan_inner (labels : list Z) : option (list Z * Z) := inner_loop (seq 0 (length labels)) 0 labels.
End Inner.

(* dbscan.go:92-103: len(neighbors), or the sum of their weights *)
Definition n_neighbors (weight : option (list Q)) (nb : list nat) : Q :=
  match weight with
  | None => qn (length nb)
  | Some w => qsum (map (fun i => nth i w 0) nb)
  end.
(* the fields written by Fit *)
Record dbs : Type := mkdbs { dLabels : list Z; dCore : list nat }.
Definition dbs_new : dbs := mkdbs [] [].
(* dbscan.go:82-121, from the neighbourhoods RadiusNeighbors returned on *)
Definition dbs_fit (minSamples : Q) (m : dbs) (wn : option (list Q) * list (list nat)) : option dbs :=
  let '(weight, nbh) := wn in
  let core := map (fun nb => Qltb minSamples (n_neighbors weight nb)) nbh in
  match dbscan_inner core nbh (repeat (-1)%Z (length nbh)) with
  | Some (labels, _) => Some (mkdbs labels (dCore m ++ filter (fun i => nth i core false) (seq 0 (length nbh))))
  | None => None
  end.

(* ----------------------------------------------------------------- kmeans *)
Section KMeans.
Variable dist : list Q -> list Q -> Q.   (* m.Distance *)

(* kmeans.go:34-45; 0 stands for the -1 of no clusters at all *)
Definition nearest (C : list (list Q)) (x : list Q) : nat :=
  match fold_left (fun best ic =>
    let d := dist x (nth ic C []) in
    match best with
    | None => Some (ic, d)
    | Some (_, bestDist) => if Qltb d bestDist then Some (ic, d) else best
    end) (seq 0 (length C)) None with
  | Some (b, _) => b
  | None => 0%nat
  end.
(* kmeans.go:105-147: the samples are spread over goroutines, each writing its
   own cell of y; the counts are counters under a lock *)
Definition assign (C X : list (list Q)) : list nat := map (nearest C) X.
Definition ccount (y : list nat) (ic : nat) : nat := length (filter (Nat.eqb ic) y).
(* kmeans.go:83-94: all centroids become 0, then every sample is added to its
   own, under a lock; [ord] is the order in which the lock was obtained *)
Definition add_sample (X : list (list Q)) (y : list nat) (C : list (list Q)) (s : nat) : list (list Q) :=
  let ic := nth s y 0%nat in
  upd C ic (zip (fun c v => c + 1 / qn (ccount y ic) * v) (nth ic C []) (nth s X [])).
Definition recompute (K m : nat) (X : list (list Q)) (y : list nat) (ord : list nat) : list (list Q) :=
  fold_left (add_sample X y) ord (repeat (repeat 0 m) K).

(* kmeans.go:77-100; [ord e] is the lock order of epoch e.  None: out of fuel *)
Fixpoint km_loop (fuel : nat) (ord : nat -> list nat) (e : nat) (K m : nat) (X C : list (list Q)) (y : list nat) (unch : nat)
  : option (list (list Q) * list nat) :=
  if Nat.leb 2 unch then Some (C, y)
  else match fuel with
       | O => None
       | S f =>
         let y' := assign C X in
         let C' := recompute K m X y' (ord e) in
         km_loop f ord (S e) K m X C' y' (if list_eq_dec Nat.eq_dec y' y then S unch else 0%nat)
       end.
(* kmeans.go:49-102; None: fewer samples than clusters, no clusters
   (mat.NewDense panics on zero rows), or out of fuel *)
Definition km_fit (fuel : nat) (ord : nat -> list nat) (K : nat) (X : list (list Q)) : option (list (list Q) * list nat) :=
  if (Nat.ltb (length X) K || Nat.eqb K 0)%bool then None
  else km_loop fuel ord 0 K (length (hd [] X)) X (firstn K X) (repeat 0%nat (length X)) 0.
End KMeans.

(* distance.go: Euclidean distance squared (same order as the distance itself),
   and Minkowski with p = 1 *)
Definition euclid2 (a b : list Q) : Q := qsum (zip (fun x y => (y - x) * (y - x)) a b).
Definition manhattan (a b : list Q) : Q := mink_p false (fun t => t) a b.
