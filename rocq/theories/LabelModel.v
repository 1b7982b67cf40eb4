(* Model of /repo/preprocessing/label.go (LabelEncoder, LabelBinarizer,
   MultiLabelBinarizer), of OneHotEncoder (/repo/preprocessing/data.go:681-786)
   and of the copy LabelBinarizer64 (/repo/neural_network/basemlp64.go:1257-1357,
   line for line the same as LabelBinarizer).
   Labels are only compared, so they are integers here; NaN labels are not
   modelled.  A matrix is the list of its rows. *)
From Verif Require Import Common.
Open Scope Z_scope.

(* Go sort.Search(n, f) (standard library, used by SearchFloat64s):
   i, j := 0, n; for i < j { h := (i+j)/2; if !f(h) {i = h+1} else {j = h} }.
   [fuel] bounds the iterations; n iterations always suffice. *)
Fixpoint bsearch (fuel : nat) (f : nat -> bool) (i j : nat) : nat :=
  match fuel with
  | O => i
  | S fuel' =>
    if Nat.ltb i j then
      let h := Nat.div (i + j) 2 in
      if f h then bsearch fuel' f i h else bsearch fuel' f (S h) j
    else i
  end.

(* sort.SearchFloat64s(a, x): smallest index with a[i] >= x (on sorted a) *)
Definition search_floats (a : list Z) (x : Z) : nat :=
  bsearch (length a) (fun h => x <=? nth h a 0) 0 (length a).

(* sort.Float64s: for non-NaN keys the sorted permutation is unique, so any
   sorting algorithm models it. *)
Fixpoint ins (x : Z) (l : list Z) : list Z :=
  match l with
  | [] => [x]
  | y :: ys => if x <=? y then x :: l else y :: ins x ys
  end.
Definition isort (l : list Z) : list Z := fold_right ins [] l.

(* Go: copy(a[pos+1:l+1], a[pos:l]) on a slice of length l+1 *)
Definition shift_right (a : list Z) (pos l : nat) : list Z :=
  firstn (S pos) a ++ firstn (l - pos) (skipn pos a).

(* column j of a matrix given by rows *)
Definition column (j : nat) (rows : list (list Z)) : list Z := map (fun r => nth j r 0) rows.

(* ----------------------------------------------------------- LabelEncoder *)

(* (Classes[i], Support[i]) of one column; supports are counts *)
Definition le_col : Type := list Z * list Z.

(* label.go:305-317: one label v *)
Definition le_add (st : le_col) (v : Z) : le_col :=
  let '(classes, support) := st in
  let l := length classes in
  let pos := search_floats classes v in
  if (Nat.ltb pos l && (nth pos classes 0 =? v))%bool then
    (classes, upd support pos (nth pos support 0 + 1))
  else
    let c1 := classes ++ [v] in
    let s1 := support ++ [0] in
    let c2 := shift_right c1 pos l in
    let s2 := shift_right s1 pos l in
    let c3 := upd c2 pos v in
    (* label.go:317 Support[i][pos] += 1: the copy at 315 leaves the old value of
       slot pos (the appended 0 when pos = l) in place *)
    (c3, upd s2 pos (nth pos s2 0 + 1)).

(* label.go:297-321; [st] is (Classes, Support) by column, nil and "wrong number
   of columns" both reset (299-302). *)
Definition le_partial_fit (st : list le_col) (ncols : nat) (rows : list (list Z)) : list le_col :=
  let st := if Nat.eqb (length st) ncols then st else repeat ([], []) ncols in
  map (fun p => fold_left le_add (column (fst p) rows) (snd p)) (combine (seq 0 ncols) st).

(* label.go:288-294 *)
Definition le_fit (ncols : nat) (rows : list (list Z)) : list le_col :=
  le_partial_fit (repeat ([], []) ncols) ncols rows.

(* label.go:330-334 *)
Definition le_encode (classes : list Z) (v : Z) : Z :=
  let pos := search_floats classes v in
  if Nat.leb (length classes) pos then -1 else Z.of_nat pos.

(* label.go:324-339, one row; m.Classes[i] with i out of range panics *)
Fixpoint le_transform_row (st : list le_col) (row : list Z) : option (list Z) :=
  match row with
  | [] => Some []
  | v :: vs =>
    match st with
    | [] => None
    | (c, _) :: st' =>
      match le_transform_row st' vs with
      | Some r => Some (le_encode c v :: r)
      | None => None
      end
    end
  end.

(* label.go:353-359, one row of codes (integers; int(v) truncates).  A cell of
   the result is [None] for NaN; after NaN the loop breaks and the remaining
   cells keep the 0 of the new matrix.  Outer [None]: index panic. *)
Fixpoint le_inverse_row (st : list le_col) (codes : list Z) : option (list (option Z)) :=
  match codes with
  | [] => Some []
  | v :: vs =>
    match st with
    | [] => None
    | (c, _) :: st' =>
      if ((v <? 0) || (Z.of_nat (length c) <? v))%bool then
        Some (None :: map (fun _ => Some 0) vs)
      else
        match nth_error c (Z.to_nat v), le_inverse_row st' vs with
        | Some x, Some r => Some (Some x :: r)
        | _, _ => None
        end
    end
  end.

(* --------------------------------------------------------- LabelBinarizer *)

(* map[float64]int built by "for classNo, val := range classes {cmap[val] = classNo}" *)
Fixpoint map_index (v : Z) (c : list Z) (i : nat) (acc : option nat) : option nat :=
  match c with
  | [] => acc
  | x :: xs => map_index v xs (S i) (if x =? v then Some i else acc)
  end.
Definition class_index (v : Z) (c : list Z) : option nat := map_index v c 0 None.

(* label.go:38-46: values in order of first occurrence *)
Definition first_seen (l : list Z) : list Z :=
  rev (fold_left (fun acc v => if existsb (Z.eqb v) acc then acc else v :: acc) l []).

(* label.go:38-47 *)
Definition lb_classes (l : list Z) : list Z := isort (first_seen l).

Record lb := { lb_neg : Z; lb_pos : Z; lb_cls : list (list Z) }.

(* label.go:30-50 *)
Definition lb_fit (m : lb) (ncols : nat) (rows : list (list Z)) : lb :=
  {| lb_neg := lb_neg m;
     lb_pos := if lb_pos m =? lb_neg m then lb_pos m + 1 else lb_pos m;
     lb_cls := map (fun j => lb_classes (column j rows)) (seq 0 ncols) |}.

(* label.go:56-59 *)
Definition n_outputs (cls : list (list Z)) : nat := fold_right (fun c n => (length c + n)%nat) 0%nat cls.

(* label.go:63-78 for one row (the loops over rows and columns are exchanged:
   writes of different rows go to different rows of Yout). *)
Fixpoint lb_row_loop (neg pos : Z) (cls : list (list Z)) (row : list Z) (base : nat) (out : list Z)
  : option (list Z) :=
  match row with
  | [] => Some out
  | v :: vs =>
    match cls with
    | [] => None
    | c :: cs =>
      let w := match class_index v c with Some k => ((base + k)%nat, pos) | None => (base, neg) end in
      if Nat.ltb (fst w) (length out) then
        lb_row_loop neg pos cs vs (base + length c) (upd out (fst w) (snd w))
      else None
    end
  end.
Definition lb_transform_row (m : lb) (row : list Z) : option (list Z) :=
  lb_row_loop (lb_neg m) (lb_pos m) (lb_cls m) row 0 (repeat 0 (n_outputs (lb_cls m))).

Fixpoint omap {A B} (f : A -> option B) (l : list A) : option (list B) :=
  match l with
  | [] => Some []
  | x :: xs => match f x, omap f xs with Some y, Some ys => Some (y :: ys) | _, _ => None end
  end.

Definition lb_transform (m : lb) (rows : list (list Z)) : option (list (list Z)) :=
  omap (lb_transform_row m) rows.

(* gonum floats.MaxIdx: index of the first maximal element, panics when empty *)
Fixpoint max_idx_from (l : list Z) (i best : nat) (bv : Z) : nat :=
  match l with
  | [] => best
  | x :: xs => if bv <? x then max_idx_from xs (S i) i x else max_idx_from xs (S i) best bv
  end.
Definition max_idx (l : list Z) : option nat :=
  match l with [] => None | x :: xs => Some (max_idx_from xs 1 0 x) end.

(* Go slice expression data[lo:hi] (panics beyond the end) *)
Definition slice (data : list Z) (lo hi : nat) : option (list Z) :=
  if Nat.leb hi (length data) then Some (firstn (hi - lo) (skipn lo data)) else None.

(* label.go:97-101: rows i = i0 .. of column j; [data] is the flat Y.Data with
   stride [ycols]; [yo] the flat output with stride [nout]. *)
Fixpoint lb_inv_rows (cnt i ycols nout j base : nat) (c : list Z) (data yo : list Z) : option (list Z) :=
  match cnt with
  | O => Some yo
  | S cnt' =>
    match slice data (i * ycols + base) (i * ycols + base + length c) with
    | Some s =>
      match max_idx s with
      | Some k =>
        match nth_error c k with
        | Some v =>
          if Nat.ltb (i * nout + j) (length yo) then
            lb_inv_rows cnt' (S i) ycols nout j base c data (upd yo (i * nout + j) v)
          else None
        | None => None
        end
      | None => None
      end
    | None => None
    end
  end.

(* label.go:96-103.  NOTE baseCol advances twice per iteration: line 102 and the
   post statement of the loop at 96. *)
Fixpoint lb_inv_loop (fuel nrows ycols nout j base : nat) (cls : list (list Z)) (data yo : list Z)
  : option (list Z) :=
  match fuel with
  | O => None
  | S fuel' =>
    if Nat.ltb base ycols then
      match nth_error cls j with
      | None => None
      | Some c =>
        match lb_inv_rows nrows 0 ycols nout j base c data yo with
        | Some yo' =>
          lb_inv_loop fuel' nrows ycols nout (S j) (base + length c + length c) cls data yo'
        | None => None
        end
      end
    else Some yo
  end.

(* label.go:89-105; the result is the flat data of Yout (nrows x NOutputs) *)
Definition lb_inverse (m : lb) (ycols : nat) (rows : list (list Z)) : option (list Z) :=
  let nout := length (lb_cls m) in
  lb_inv_loop (S ycols) (length rows) ycols nout 0 0 (lb_cls m) (concat rows)
    (repeat 0 (length rows * nout)).

(* ---------------------------------------------------- MultiLabelBinarizer *)

(* label.go:133-166: distinct values of the whole matrix, sorted.  (The map is
   iterated in arbitrary order and then sorted.)  [][]string labels are ordered
   the same way, so integers stand for strings too. *)
Definition mlb_fit (rows : list (list Z)) : list Z := lb_classes (concat rows).

(* label.go:198-206 / 220-228 for one row *)
Fixpoint mlb_row_loop (c : list Z) (row : list Z) (base : nat) (out : list Z) : option (list Z) :=
  match row with
  | [] => Some out
  | v :: vs =>
    match class_index v c with
    | Some k =>
      if Nat.ltb (base + k) (length out) then mlb_row_loop c vs (base + length c) (upd out (base + k) 1)
      else None
    | None => mlb_row_loop c vs (base + length c) out
    end
  end.
Definition mlb_transform_row (c : list Z) (row : list Z) : option (list Z) :=
  mlb_row_loop c row 0 (repeat 0 (length row * length c)).

(* label.go:243-249 / 257-263 for one row of [ncols] blocks, block i0 .. *)
Fixpoint mlb_inv_row (cnt i : nat) (c : list Z) (row : list Z) : option (list Z) :=
  match cnt with
  | O => Some []
  | S cnt' =>
    match slice row (i * length c) ((i + 1) * length c) with
    | Some s =>
      match max_idx s with
      | Some k =>
        match nth_error c k, mlb_inv_row cnt' (S i) c row with
        | Some v, Some r => Some (v :: r)
        | _, _ => None
        end
      | None => None
      end
    | None => None
    end
  end.
(* Ymat.Cols/len(m.Classes) columns; m.Classes[0] panics without classes *)
Definition mlb_inverse_row (c : list Z) (row : list Z) : option (list Z) :=
  match c with
  | [] => None
  | _ => mlb_inv_row (Nat.div (length row) (length c)) 0 c row
  end.

(* ---------------------------------------------------------- OneHotEncoder *)

(* data.go:699-723: Values by feature; NValues[f] = length, FeatureIndices = the
   running sums. *)
Definition oh_fit (ncols : nat) (rows : list (list Z)) : list (list Z) :=
  map (fun j => lb_classes (column j rows)) (seq 0 ncols).

(* data.go:740-760 for one row; cmap[v] of an unknown value is 0. *)
Fixpoint oh_row_loop (vals : list (list Z)) (row : list Z) (base : nat) (out : list Z) : option (list Z) :=
  match row with
  | [] => Some out
  | v :: vs =>
    match vals with
    | [] => None
    | c :: cs =>
      let k := match class_index v c with Some k => k | None => 0%nat end in
      if Nat.ltb (base + k) (length out) then oh_row_loop cs vs (base + length c) (upd out (base + k) 1)
      else None
    end
  end.
(* data.go:729-738: columns is summed over the features of X *)
Definition oh_transform_row (vals : list (list Z)) (row : list Z) : option (list Z) :=
  if Nat.leb (length row) (length vals) then
    oh_row_loop vals row 0 (repeat 0 (n_outputs (firstn (length row) vals)))
  else None.

(* data.go:771-786 for one row: the class NUMBER is stored, not Values[...] *)
Fixpoint oh_inv_row (vals : list (list Z)) (cstart : nat) (row : list Z) : option (list Z) :=
  match vals with
  | [] => Some []
  | c :: cs =>
    match slice row cstart (cstart + length c) with
    | Some s =>
      match max_idx s, oh_inv_row cs (cstart + length c) row with
      | Some k, Some r => Some (Z.of_nat k :: r)
      | _, _ => None
      end
    | None => None
    end
  end.
Definition oh_inverse_row (vals : list (list Z)) (row : list Z) : option (list Z) :=
  oh_inv_row vals 0 row.
