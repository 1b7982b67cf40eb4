(* Model of the scalers and simple transformers of /repo/preprocessing/data.go.
   Exact rational arithmetic; matrices are lists of rows, or raw matrices where
   the code indexes RawMatrix().Data itself.  Square roots are arguments.
   None is a panic. *)
From Verif Require Import QCommon.
Open Scope Q_scope.

(* ------------------------------------------------------------ MinMaxScaler *)
(* data.go:30-34 *)
Record minmax := mkmm {
  mm_lo : Q; mm_hi : Q; mm_seen : nat;
  mm_dmin : list Q; mm_dmax : list Q; mm_range : list Q; mm_scale : list Q; mm_min : list Q }.
(* data.go:37-39 *)
Definition mm_new (lo hi : Q) : minmax := mkmm lo hi 0 [] [] [] [] [].
(* data.go:48-51 *)
Definition mm_reset (st : minmax) : minmax :=
  mkmm (mm_lo st) (mm_hi st) 0 (mm_dmin st) (mm_dmax st) (mm_range st) (mm_scale st) (mm_min st).
(* data.go:91-95 (HandleZerosInScale) *)
Definition nonzero (x : Q) : Q := if Qeq_bool x 0 then 1 else x.
(* data.go:60-106.  Every batch has the fitted number of columns. *)
Definition mm_partial_fit (st : minmax) (rows : list (list Q)) : minmax :=
  match rows with
  | [] => st
  | r0 :: _ =>
    let dmin0 := if Nat.eqb (mm_seen st) 0 then r0 else mm_dmin st in
    let dmax0 := if Nat.eqb (mm_seen st) 0 then r0 else mm_dmax st in
    let dmin := fold_left (zip qmin) rows dmin0 in
    let dmax := fold_left (zip qmax) rows dmax0 in
    let range := map nonzero (zip Qminus dmax dmin) in
    let scale := map (fun x => (mm_hi st - mm_lo st) / x) range in
    mkmm (mm_lo st) (mm_hi st) (mm_seen st + length rows) dmin dmax range scale
      (zip (fun d s => mm_lo st - d * s) dmin scale)
  end.
(* data.go:54-57 *)
Definition mm_fit (st : minmax) (rows : list (list Q)) : minmax := mm_partial_fit (mm_reset st) rows.
(* data.go:103-110, one row (Apply) *)
Definition mm_transform (st : minmax) (row : list Q) : list Q :=
  zip (fun ms x => fst ms + x * snd ms) (combine (mm_min st) (mm_scale st)) row.
(* data.go:119-129 *)
Definition mm_inverse (st : minmax) (row : list Q) : list Q :=
  zip (fun ms x => (x - fst ms) / snd ms) (combine (mm_min st) (mm_scale st)) row.

(* ------------------------------------------------------------ MaxAbsScaler *)
(* data.go:913-916 *)
Record maxabs := mkma { ma_max : list Q; ma_scale : list Q; ma_seen : nat }.
(* data.go:941-947: one cell *)
Definition ma_step (m v : Q) : Q := let a := if Qltb v 0 then - v else v in if Qltb m a then a else m.
(* data.go:937-958; None: more columns than MaxAbs has (index out of range, in
   particular PartialFit before Fit) *)
Definition ma_partial_fit (st : maxabs) (rows : list (list Q)) : option maxabs :=
  if forallb (fun r => Nat.leb (length r) (length (ma_max st))) rows then
    let mx := fold_left (fun m r => zip ma_step m (r ++ repeat 0 (length m - length r))) rows (ma_max st) in
    Some (mkma mx (map (fun v => if Qltb 0 v then v else 1) mx) (ma_seen st + length rows))
  else None.
(* data.go:928-934: MaxAbs and Scale are made new, NSamplesSeen is kept *)
Definition ma_fit (st : maxabs) (cols : nat) (rows : list (list Q)) : option maxabs :=
  ma_partial_fit (mkma (repeat 0 cols) (repeat 0 cols) (ma_seen st)) rows.
(* data.go:961-972 and 981-992 *)
Definition ma_transform (st : maxabs) (X : raw Q) : option (raw Q) :=
  if Nat.leb (rcols X) (length (ma_scale st)) then
    raw_fill (row_major (rrows X) (rcols X))
      (fun i j => nth (i * rstride X + j) (rdata X) 0 / nth j (ma_scale st) 0) (new_raw 0 (rrows X) (rcols X))
  else None.
Definition ma_inverse (st : maxabs) (X : raw Q) : option (raw Q) :=
  if Nat.leb (rcols X) (length (ma_scale st)) then
    raw_fill (row_major (rrows X) (rcols X))
      (fun i j => nth (i * rstride X + j) (rdata X) 0 * nth j (ma_scale st) 0) (new_raw 0 (rrows X) (rcols X))
  else None.

(* ---------------------------------------------------------- StandardScaler *)
(* data.go:474-539: IncrementalMeanAndVar *)
Definition inc_mean_var (nf : nat) (rows : list (list Q)) (lastMean lastVar : list Q) (lastCount : nat)
  : option (list Q * list Q * nat) :=
  let newCount := length rows in
  let lastSum := map (Qmult (qn lastCount)) lastMean in
  let newSum := fold_left (zip Qplus) rows (repeat 0 nf) in
  let count := (lastCount + newCount)%nat in
  let mean := map (Qmult (1 / qn count)) (zip Qplus lastSum newSum) in
  let newMean := map (Qmult (1 / qn newCount)) newSum in
  let newUV := fold_left (fun acc row => zip Qplus acc (map (fun d => d * d) (zip Qminus row newMean))) rows (repeat 0 nf) in
  if Nat.eqb lastCount 0 then Some (mean, map (Qmult (1 / qn count)) newUV, count)
  else if Nat.eqb nf 1 then
    (* 523-527: tmp.Mul(tmp, tmp) is the matrix product, a panic unless nf = 1 *)
    let over := qn lastCount / qn newCount in
    let t := zip Qplus (map (Qmult (1 / over)) lastSum) newSum in
    let t := map (Qmult (over / qn count)) (map (fun d => d * d) t) in
    let uv := zip Qplus (zip Qplus (map (Qmult (qn lastCount)) lastVar) newUV) t in
    Some (mean, map (Qmult (1 / qn count)) uv, count)
  else None.

(* data.go:132-136 *)
Record standard := mkstd { sd_mean : list Q; sd_var : list Q; sd_scale : list Q; sd_seen : nat }.
Definition sd_new : standard := mkstd [] [] [] 0.
(* data.go:162-182; [sq] is math.Sqrt *)
Definition sd_partial_fit (sq : Q -> Q) (nf : nat) (st : standard) (rows : list (list Q)) : option standard :=
  match rows with
  | [] => Some st
  | _ =>
    let m0 := if Nat.eqb (sd_seen st) 0 then repeat 0 nf else sd_mean st in
    let v0 := if Nat.eqb (sd_seen st) 0 then repeat 0 nf else sd_var st in
    match inc_mean_var nf rows m0 v0 (sd_seen st) with
    | Some (mean, var, cnt) => Some (mkstd mean var (map (fun v => sq (nonzero v)) var) cnt)
    | None => None
    end
  end.
(* data.go:155-159 *)
Definition sd_fit (sq : Q -> Q) (nf : nat) (st : standard) (rows : list (list Q)) : option standard :=
  sd_partial_fit sq nf (mkstd (sd_mean st) (sd_var st) (sd_scale st) 0) rows.

(* data.go:185-204; None: Mean/Scale narrower than X *)
Definition sd_transform (wm ws : bool) (mean scale : list Q) (X : raw Q) : option (raw Q) :=
  if (negb wm || Nat.leb (rcols X) (length mean)) && (negb ws || Nat.leb (rcols X) (length scale)) then
    raw_fill (col_major (rrows X) (rcols X))
      (fun i j => (nth (i * rstride X + j) (rdata X) 0 - (if wm then nth j mean 0 else 0)) / (if ws then nth j scale 0 else 1))
      (new_raw 0 (rrows X) (rcols X))
  else None.
(* data.go:213-234 *)
Definition sd_inverse (wm ws : bool) (mean scale : list Q) (X : raw Q) : option (raw Q) :=
  if (negb wm || Nat.leb (rcols X) (length mean)) && (negb ws || Nat.leb (rcols X) (length scale)) then
    raw_fill (col_major (rrows X) (rcols X))
      (fun i j => (if wm then nth j mean 0 else 0) + nth (i * rstride X + j) (rdata X) 0 * (if ws then nth j scale 0 else 1))
      (new_raw 0 (rrows X) (rcols X))
  else None.

(* data.go:277-291 NumpyLike.Var, column j of an m x n matrix: divides by n *)
Definition np_mean (col : list Q) : Q := qsum col / qn (length col).
Definition np_var (n : nat) (col : list Q) : Q :=
  qsum (map (fun x => (x + - np_mean col) * (x + - np_mean col)) col) / qn n.

(* ------------------------------------------------------------ RobustScaler *)
Fixpoint qins (x : Q) (l : list Q) : list Q :=
  match l with [] => [x] | y :: l' => if Qle_bool x y then x :: l else y :: qins x l' end.
(* sort.Float64s: any sorting function gives this list up to == *)
Definition qsort (l : list Q) : list Q := fold_right qins [] l.
(* gonum stat.Quantile(p, Empirical, x, nil): the first x[i] with i+1 >= p*n;
   None: empty x *)
Fixpoint quantile_from (k : nat) (target : Q) (l : list Q) : option Q :=
  match l with
  | [] => None
  | x :: l' => if Qle_bool target (qn (S k)) then Some x else quantile_from (S k) target l'
  end.
Definition quantile (p : Q) (l : list Q) : option Q := quantile_from 0 (p * qn (length l)) l.

(* data.go:309-316; Tmp = None is nil *)
Record robust := mkrb { rb_tmp : option (list Q); rb_median : list Q; rb_div : list Q }.
Definition rb_new : robust := mkrb None [] [].
(* data.go:366-368: Tmp.Set(0, r, x) for r = 0 .. ; None: out of range *)
Definition set_prefix (tmp col : list Q) : option (list Q) :=
  if Nat.leb (length col) (length tmp) then Some (col ++ skipn (length col) tmp) else None.
(* one column, data.go:365-385 with Center and Scale: new Tmp, median, divider *)
Definition rb_column (ql qr : Q) (tmp col : list Q) : option (list Q * Q * Q) :=
  match set_prefix tmp col with
  | None => None
  | Some t =>
    let t := qsort t in
    match quantile (1 # 2) t, quantile ql t, quantile qr t with
    | Some med, Some q1, Some q2 => Some (t, med, nonzero (q2 - q1))
    | _, _, _ => None
    end
  end.
Fixpoint rb_columns (ql qr : Q) (tmp : list Q) (cols : list (list Q)) : option (list Q * list Q * list Q) :=
  match cols with
  | [] => Some (tmp, [], [])
  | c :: cols' =>
    match rb_column ql qr tmp c with
    | None => None
    | Some (t, m, d) =>
      match rb_columns ql qr t cols' with
      | None => None
      | Some (t', ms, ds) => Some (t', m :: ms, d :: ds)
      end
    end
  end.
(* data.go:344-387 with Center = Scale = true, on the columns of X (same number
   of columns in every call) *)
Definition rb_fit (ql qr : Q) (st : robust) (cols : list (list Q)) : option robust :=
  let tmp := match rb_tmp st with Some t => t | None => repeat 0 (length (hd [] cols)) end in
  match rb_columns ql qr tmp cols with
  | None => None
  | Some (t, ms, ds) => Some (mkrb (Some t) ms ds)
  end.
(* data.go:390-404 and 412-430, one row, both flags *)
Definition rb_transform (center scale : bool) (med div row : list Q) : list Q :=
  zip (fun md x => let r := if center then x - fst md else x in if scale then r / snd md else r) (combine med div) row.
Definition rb_inverse (center scale : bool) (med div row : list Q) : list Q :=
  zip (fun md x => let r := if scale then x * snd md else x in if center then r + fst md else r) (combine med div) row.

(* ---------------------------------------------------------------- Shuffler *)
(* data.go:823-827: exchange cols cells starting at s and d *)
Definition swap_cells {A} (cols s d : nat) (data : option (list A)) : option (list A) :=
  fold_left (fun acc j =>
    match acc with
    | None => None
    | Some dt => if (Nat.ltb (s + j) (length dt) && Nat.ltb (d + j) (length dt))%bool
                 then Some (swap dt (s + j) (d + j)) else None
    end) (seq 0 cols) data.
(* mat.DenseCopyOf *)
Definition raw_copy {A} (d : A) (m : raw A) : raw A := mkraw (rrows m) (rcols m) (rcols m) (concat (raw_rows d m)).
(* data.go:814-836: one matrix; the X and Y loops run side by side on separate
   data, so each is the same loop over its own matrix *)
Definition shuf_transform_data {A} (perm : list nat) (cols stride : nat) (data : option (list A)) : option (list A) :=
  fold_left (fun acc i => if Nat.ltb i (nth i perm 0%nat) then swap_cells cols (i * stride) (nth i perm 0%nat * stride) acc else acc)
    (seq 0 (length perm)) data.
Definition shuf_transform {A} (d : A) (perm : list nat) (X : raw A) : option (raw A) :=
  let X' := raw_copy d X in
  match shuf_transform_data perm (rcols X') (rstride X') (Some (rdata X')) with
  | Some dt => Some (mkraw (rrows X') (rcols X') (rstride X') dt)
  | None => None
  end.
(* data.go:845-868: in place, descending, exchanging Stride cells *)
Definition shuf_inverse_data {A} (perm : list nat) (stride : nat) (data : option (list A)) : option (list A) :=
  fold_left (fun acc i => if Nat.ltb i (nth i perm 0%nat) then swap_cells stride (nth i perm 0%nat * stride) (i * stride) acc else acc)
    (rev (seq 0 (length perm))) data.
Definition shuf_inverse {A} (perm : list nat) (X : raw A) : option (raw A) :=
  match shuf_inverse_data perm (rstride X) (Some (rdata X)) with
  | Some dt => Some (mkraw (rrows X) (rcols X) (rstride X) dt)
  | None => None
  end.

(* --------------------------------------------------------------- Binarizer *)
(* data.go:887-903: Xout is indexed with the stride of X *)
Definition bin_transform (threshold : Q) (X : raw Q) : option (raw Q) :=
  let out := new_raw 0 (rrows X) (rcols X) in
  match write_all (map (fun ij => ((fst ij * rstride X + snd ij)%nat,
                                   if Qltb threshold (nth (fst ij * rstride X + snd ij) (rdata X) 0) then 1 else 0))
                       (row_major (rrows X) (rcols X))) (rdata out) with
  | Some d => Some (mkraw (rrows X) (rcols X) (rcols X) d)
  | None => None
  end.

(* -------------------------------------------------------------- Normalizer *)
(* mat.Norm of a vector for 1 and +Inf *)
Definition norm1 (l : list Q) : Q := qsum (map Qabs l).
Definition norm_max (l : list Q) : Q := fold_left (fun m x => qmax m (Qabs x)) l 0.
(* data.go:1029-1034: scale one vector by 1/nrm unless it is zero *)
Definition nz_vec (nrm : list Q -> Q) (v : list Q) : list Q :=
  if Qeq_bool (nrm v) 0 then v else map (Qmult (1 / nrm v)) v.
(* data.go:1011-1051, Axis=1 on the rows: NewVecDense(NSamples, tmp) panics
   unless len(tmp) = NSamples *)
Definition nz_transform_rows (nrm : list Q -> Q) (nfeatures : nat) (rows : list (list Q)) : option (list (list Q)) :=
  if Nat.eqb nfeatures (length rows) then Some (map (nz_vec nrm) rows) else None.
(* Axis=0, on the columns *)
Definition nz_transform_cols (nrm : list Q -> Q) (cols : list (list Q)) : option (list (list Q)) :=
  Some (map (nz_vec nrm) cols).
(* data.go:1060-1083: Xout is a nil *mat.Dense, Xout.SetCol / SetRow panics as
   soon as there is one column / row *)
Definition nz_inverse (rows : list (list Q)) : option (list (list Q)) :=
  match rows with [] => Some [] | _ => None end.

(* ---------------------------------------------------------- KernelCenterer *)
(* data.go:1103-1119 on a matrix given by rows, c columns *)
Definition kc_fit (c : nat) (rows : list (list Q)) : list Q * Q :=
  let kr := map (fun j => qsum (map (fun r => nth j r 0) rows) / qn (length rows)) (seq 0 c) in
  (kr, qsum kr / qn (length rows)).
(* data.go:1122-1145: Xout is Cols x Cols; None: more rows than columns *)
Definition kc_transform (fit : list Q * Q) (c : nat) (rows : list (list Q)) : option (list (list Q)) :=
  if Nat.leb (length rows) c then
    Some (map (fun r => zip (fun k v => v - k - qsum r / qn (length (fst fit)) + snd fit) (fst fit) r) rows
          ++ repeat (repeat 0 c) (c - length rows))
  else None.

(* data.go:654-666 DenseMean: the old content of Xmean is added in *)
Definition dense_mean (xmean : list Q) (rows : list (list Q)) : list Q :=
  map (fun jv => fold_left (fun v r => v + nth (fst jv) r 0) rows (snd jv) / qn (length rows))
    (combine (seq 0 (length xmean)) xmean).
(* data.go:669-679 AddDummyFeature *)
Definition add_dummy (row : list Q) : list Q := 1 :: row.
