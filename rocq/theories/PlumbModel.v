(* The plumbing around the estimators: base/matrix.go ToDense and FromDense and the Predict methods built on them, references kept by
   KNeighborsClassifier.Fit and the buffers of CrossValidate, the number of splits, setParam of search.go, and hyperparameters that
   Fit overwrites.  Panics are None. *)
From Coq Require Import QArith String Ascii.
From Verif Require Import Common SelectModel.
Open Scope nat_scope.

(* ---------------------------------------------------------------- memory *)
(* the raw matrix inside a mat.Dense or given by a RawMatrixer: Data is the slice of h_len cells of array h_arr that starts at h_off *)
Record hdr : Type := mkh { h_arr : nat; h_off : nat; h_rows : nat; h_cols : nat; h_stride : nat; h_len : nat }.
(* float64 arrays; the mat.Dense structs, which are reached through pointers; the cells of matrices that show no raw data *)
Record mem (A : Type) : Type := mkmem { arrs : list (list A); hdrs : list hdr; tabs : list (list (list A)) }.
Arguments mkmem {A}. Arguments arrs {A}. Arguments hdrs {A}. Arguments tabs {A}.
(* a mat.Matrix or mat.Mutable: nil, a *mat.Dense, another RawMatrixer, or a matrix with only At, Set and Dims *)
Inductive obj : Type := ONil | ODense (p : nat) | ORaw (h : hdr) | OTab (t r c : nat).

Section Mem.
Context {A : Type}.
Variable z : A.

(* Data[i] *)
Definition dget (m : mem A) (h : hdr) (i : nat) : option A :=
  if i <? h_len h then match nth_error (arrs m) (h_arr h) with Some a => nth_error a (h_off h + i) | None => None end else None.
(* Data[i] = v *)
Definition dset (m : mem A) (h : hdr) (i : nat) (v : A) : option (mem A) :=
  if i <? h_len h then
    match nth_error (arrs m) (h_arr h) with
    | Some a => if h_off h + i <? length a then Some (mkmem (upd (arrs m) (h_arr h) (upd a (h_off h + i) v)) (hdrs m) (tabs m)) else None
    | None => None
    end
  else None.
(* mat.Dense.At and Set: indices are checked against Rows and Cols *)
Definition hat (m : mem A) (h : hdr) (i j : nat) : option A :=
  if ((i <? h_rows h) && (j <? h_cols h))%bool then dget m h (i * h_stride h + j) else None.
Definition hset (m : mem A) (h : hdr) (i j : nat) (v : A) : option (mem A) :=
  if ((i <? h_rows h) && (j <? h_cols h))%bool then dset m h (i * h_stride h + j) v else None.
(* At and Set of a matrix without raw data *)
Definition tat (m : mem A) (t i j : nat) : option A :=
  match nth_error (tabs m) t with Some rows => match nth_error rows i with Some row => nth_error row j | None => None end | None => None end.
Definition tset (m : mem A) (t i j : nat) (v : A) : option (mem A) :=
  match nth_error (tabs m) t with
  | Some rows =>
      match nth_error rows i with
      | Some row => if j <? length row then Some (mkmem (arrs m) (hdrs m) (upd (tabs m) t (upd rows i (upd row j v)))) else None
      | None => None
      end
  | None => None
  end.
(* mat.NewDense(r, c, data) *)
Definition new_array (m : mem A) (r c : nat) (data : list A) : mem A * hdr :=
  (mkmem (arrs m ++ [data]) (hdrs m) (tabs m), mkh (length (arrs m)) 0 r c c (r * c)).
Definition push (m : mem A) (h : hdr) : mem A * nat := (mkmem (arrs m) (hdrs m ++ [h]) (tabs m), length (hdrs m)).
Definition h_empty : hdr := mkh 0 0 0 0 0 0.

(* a loop whose body may panic *)
Fixpoint iter_opt {X : Type} (f : X -> mem A -> option (mem A)) (l : list X) (m : mem A) : option (mem A) :=
  match l with
  | [] => Some m
  | x :: t => match f x m with Some m' => iter_opt f t m' | None => None end
  end.
(* for r < n, for c < k *)
Definition cells (n k : nat) : list (nat * nat) := list_prod (seq 0 n) (seq 0 k).

(* matrix.go:198-215.  The result is the pointer to a Dense: the caller's own one, a new one over the same data, or a copy. *)
Definition to_dense (m : mem A) (o : obj) : option (mem A * nat) :=
  match o with
  | ONil => Some (push m h_empty)
  | ODense p => Some (m, p)
  | ORaw h => Some (push m h)
  | OTab t r c =>
      match nth_error (tabs m) t with
      | Some rows => let '(m1, h) := new_array m r c (concat rows) in Some (push m1 h)
      | None => None
      end
  end.
(* matrix.go:222-233: &dstmat.Data[0] and &src.Data[0] are evaluated first, which needs a cell in both *)
Definition copy_raw (m : mem A) (dst src : hdr) : option (mem A) :=
  if ((h_len dst =? 0) || (h_len src =? 0))%bool then None
  else if ((h_arr dst =? h_arr src) && (h_off dst =? h_off src))%bool then Some m
  else iter_opt (fun rc m => match dget m src (fst rc * h_stride src + snd rc) with
                             | Some v => dset m dst (fst rc * h_stride dst + snd rc) v
                             | None => None end) (cells (h_rows src) (h_cols src)) m.
(* matrix.go:218-241 *)
Definition from_dense (m : mem A) (o : obj) (p : nat) : option (mem A) :=
  match o, nth_error (hdrs m) p with
  | ONil, _ => Some m
  | _, None => None
  | ODense q, Some src => match nth_error (hdrs m) q with Some dst => copy_raw m dst src | None => None end
  | ORaw dst, Some src => copy_raw m dst src
  | OTab t _ _, Some src =>
      iter_opt (fun rc m => match dget m src (fst rc * h_stride src + snd rc) with
                            | Some v => tset m t (fst rc) (snd rc) v
                            | None => None end) (cells (h_rows src) (h_cols src)) m
  end.

(* ------------------------------------------------------ Predict(X, Y), X of n rows, k outputs with values f *)
(* for sample, for output: Y.Set(sample, output, value) *)
Definition fill (m : mem A) (p : nat) (n k : nat) (f : nat -> nat -> A) : option (mem A) :=
  match nth_error (hdrs m) p with
  | Some h => iter_opt (fun rc m => hset m h (fst rc) (snd rc) (f (fst rc) (snd rc))) (cells n k) m
  | None => None
  end.
(* if Y.IsEmpty() { *Y = *mat.NewDense(nSamples, nOutputs, nil) }; IsEmpty is Stride == 0 *)
Definition alloc_if_empty (m : mem A) (p : nat) (n k : nat) : option (mem A) :=
  match nth_error (hdrs m) p with
  | Some h => if h_stride h =? 0 then let '(m1, h') := new_array m n k (repeat z (n * k)) in Some (mkmem (arrs m1) (upd (hdrs m1) p h') (tabs m1)) else Some m
  | None => None
  end.
(* linear_model/Base.go:126-134, 279-287, bayes.go:224-237, svm.go:311-328, svr.go:218-233, kmeans.go:148-161, dbscan.go:130-146,
   neighbors/classification.go:58-67, regression.go:62-104, multilayer_perceptron.go:53-62: convert, allocate when empty, fill, copy back.
   nout is GetNOutputs(), None when it panics (see [nc_outputs]) *)
Definition predict_std (m : mem A) (o : obj) (nout : option nat) (n k : nat) (f : nat -> nat -> A) : option (mem A * nat) :=
  match to_dense m o with
  | Some (m, p) =>
      match nth_error (hdrs m) p with
      | Some h =>
          match (if h_stride h =? 0 then match nout with Some k' => alloc_if_empty m p n k' | None => None end else Some m) with
          | Some m => match fill m p n k f with
                      | Some m => match from_dense m o p with Some m => Some (m, p) | None => None end
                      | None => None end
          | None => None
          end
      | None => None
      end
  | None => None
  end.
(* nearest_centroid.go:16-17, 30, 77: NearestCentroid has no GetNOutputs of its own; the call goes to the embedded base.Predicter,
   which NewNearestCentroid leaves nil *)
Definition nc_outputs (embedded : option nat) : option nat := embedded.
(* linear_model/logistic.go:476-487: the classes are computed into a new Dense and copied to Y at the end *)
Definition predict_logistic (m : mem A) (o : obj) (n k : nat) (f : nat -> nat -> A) : option (mem A * nat) :=
  let '(m1, h) := new_array m n k (repeat z (n * k)) in
  let '(m2, p) := push m1 h in
  match fill m2 p n k f with
  | Some m3 => match from_dense m3 o p with Some m4 => Some (m4, p) | None => None end
  | None => None
  end.
(* naive_bayes/naivebayes.go:30-48: only a nil Y is allocated *)
Definition predict_nb (m : mem A) (o : obj) (n : nat) (f : nat -> A) : option (mem A * nat) :=
  match to_dense m o with
  | Some (m, p) =>
      let '(m, p) := match o with ONil => let '(m1, h) := new_array m n 1 (repeat z n) in push m1 h | _ => (m, p) end in
      match fill m p n 1 (fun i _ => f i) with
      | Some m => match from_dense m o p with Some m => Some (m, p) | None => None end
      | None => None
      end
  | None => None
  end.

(* ------------------------------------------------------ references kept by Fit *)
(* neighbors/classification.go:37-39: m.Y = base.ToDense(Ymatrix) *)
Definition knc_fit (m : mem A) (y : obj) : option (mem A * nat) := to_dense m y.
(* neighbors/regression.go:45-47: m.Y = mat.DenseCopyOf(base.ToDense(Ymatrix)) *)
Definition dense_copy (m : mem A) (p : nat) : option (mem A * nat) :=
  match nth_error (hdrs m) p with
  | Some h =>
      let '(m1, h') := new_array m (h_rows h) (h_cols h) (map (fun rc => match hat m h (fst rc) (snd rc) with Some v => v | None => z end) (cells (h_rows h) (h_cols h))) in
      Some (push m1 h')
  | None => None
  end.
Definition knr_fit (m : mem A) (y : obj) : option (mem A * nat) :=
  match to_dense m y with Some (m, p) => dense_copy m p | None => None end.
(* m.Y.At(i, o), read by Predict: classification.go:114, regression.go:91 *)
Definition label_at (m : mem A) (p i o : nat) : option A := match nth_error (hdrs m) p with Some h => hat m h i o | None => None end.
End Mem.

(* ------------------------------------------------------ CrossValidate *)
Section CVBuf.
Context {XRow YRow : Type}.
(* validation.go:63-92, 99-104 and 106-111: the buffers of a job after it has processed the splits.  Fit and Predict do not write them. *)
Definition job_after (X : list XRow) (Y : list YRow) (splits : list (list nat * list nat)) (j : list XRow * list YRow) : list XRow * list YRow :=
  fold_left (fun j sp => snd (fold_left (fun st f => f st) (process_split (fun _ _ => tt) (fun _ _ _ => tt) X Y sp) ((None, None), j))) splits j.
(* validation.go:68, 82: Ytrain given to Fit is a view of the first trainLen rows of Yjob; [kept] is what an estimator that keeps it (as
   neighbors/classification.go:39 does) sees when the job is in state j *)
Definition kept (sp : list nat * list nat) (j : list XRow * list YRow) : list YRow := firstn (length (fst sp)) (snd j).
(* an estimator that copies the labels keeps those of the moment of the fit: after the splits before its own and the copying of its own rows *)
Definition copied (X : list XRow) (Y : list YRow) (before : list (list nat * list nat)) (sp : list nat * list nat) (j : list XRow * list YRow) : list YRow :=
  firstn (length (fst sp)) (snd (job_after X Y (before ++ [sp]) j)).
End CVBuf.

(* model_selection/split.go:74-79: rows of test fold isplit *)
Definition fold_rows (nsamples nsplits isplit : nat) : nat := nsamples / nsplits + (if isplit <? nsamples mod nsplits then 1 else 0).
(* base/matrix.go:172-182: MatGeneralRowSlice(M, i, k) panics unless i < k *)
Definition row_slice_ok (i k : nat) : bool := i <? k.
(* validation.go:63-70: the four row slices of one split *)
Definition split_ok (nsamples nsplits isplit : nat) : bool :=
  let te := fold_rows nsamples nsplits isplit in let tr := nsamples - te in (row_slice_ok 0 tr && row_slice_ok tr (tr + te))%bool.
(* validation.go:38-113 with a KFold (None is a nil Splitter): does CrossValidate return?  GetNSplits is called before the default is put in
   place (42, 46-48) and before Split has changed a NSplits <= 0 to 3 (split.go:49-51, 109-111): make of a negative length panics, and with
   length 0 the first of the three splits writes res.Estimator[0].  Given an estimator whose own methods do not panic. *)
Definition cv_returns (cv : option Z) (nsamples : nat) : bool :=
  match cv with
  | None => false
  | Some ns => if (ns <=? 0)%Z then false else forallb (split_ok nsamples (Z.to_nat ns)) (seq 0 (Z.to_nat ns))
  end.
(* model_selection/search.go:112-117, 142: GridSearchCV puts KFold{NSplits: 3} in place of a nil Splitter before it calls CrossValidate *)
Definition gscv_returns (cv : option Z) (nsamples : nat) : bool := cv_returns (Some (match cv with None => 3%Z | Some k => k end)) nsamples.

(* methods of a Go type: its own, or promoted from an embedded interface value, here nil *)
Inductive meth : Type := MOwn | MNilEmbedded.
(* validation.go:80-86: the methods CrossValidate calls on an estimator *)
Record meths : Type := mkmeths { m_clone : meth; m_fit : meth; m_nout : meth; m_predict : meth; m_score : meth; m_isclf : meth }.
(* neighbors/classification.go:17-156 *)
Definition knc_meths : meths := mkmeths MNilEmbedded MOwn MOwn MOwn MOwn MNilEmbedded.
(* neighbors/nearest_centroid.go:16-109 *)
Definition nc_meths : meths := mkmeths MNilEmbedded MOwn MNilEmbedded MOwn MOwn MNilEmbedded.
(* neighbors/regression.go:35-112 *)
Definition knr_meths : meths := mkmeths MOwn MOwn MOwn MOwn MOwn MOwn.
Definition callable (a : meth) : bool := match a with MOwn => true | MNilEmbedded => false end.
Definition cv_calls_ok (e : meths) : bool := (callable (m_clone e) && callable (m_fit e) && callable (m_nout e) && callable (m_predict e))%bool.

(* ------------------------------------------------------ setParam *)
Inductive ty : Type := TString | TFloat64 | TInt | TIface | TOther (t : nat).
Inductive val : Type := VStr (s : string) | VInt (n : Z) | VF32 (q : Q) | VF64 (q : Q) | VOther (t : nat) (payload : nat) | VNil.
(* a field of an estimator struct or of a struct embedded in it; fields of embedded structs have a greater depth *)
Record field : Type := mkf { f_name : string; f_depth : nat; f_exported : bool; f_ty : ty; f_val : val }.

Definition lower_ascii (c : ascii) : ascii :=
  let n := nat_of_ascii c in if ((65 <=? n) && (n <=? 90))%bool then ascii_of_nat (n + 32) else c.
Fixpoint lower (s : string) : string := match s with EmptyString => EmptyString | String c t => String (lower_ascii c) (lower t) end.
(* strings.EqualFold for ASCII names *)
Definition equal_fold (a b : string) : bool := String.eqb (lower a) (lower b).

Definition fmatch (k : string) (f : field) : bool := equal_fold (f_name f) k.
(* the least depth of a matching field *)
Fixpoint min_depth (k : string) (l : list field) : option nat :=
  match l with
  | [] => None
  | f :: t => if fmatch k f then Some (match min_depth k t with Some d => Nat.min (f_depth f) d | None => f_depth f end) else min_depth k t
  end.
Definition at_depth (k : string) (d : nat) (f : field) : bool := (fmatch k f && (f_depth f =? d))%bool.
Fixpoint positions (p : field -> bool) (l : list field) (i : nat) : list nat :=
  match l with [] => [] | f :: t => if p f then i :: positions p t (S i) else positions p t (S i) end.
(* reflect.Value.FieldByNameFunc: the field of least depth whose name matches, none when several of that depth match *)
Definition find_field (l : list field) (k : string) : option nat :=
  match min_depth k l with
  | None => None
  | Some d => match positions (at_depth k d) l 0 with [i] => Some i | _ => None end
  end.
(* search.go:204-229: the value stored, None is a panic; a value given for a field of interface type is taken to have its methods *)
Definition convert (t : ty) (v : val) : option val :=
  match t, v with
  | TString, VStr s => Some (VStr s)
  | TFloat64, VInt n => Some (VF64 (inject_Z n))
  | TFloat64, VF32 q => Some (VF64 q)
  | TFloat64, VF64 q => Some (VF64 q)
  | TInt, VInt n => Some (VInt n)
  | TIface, VNil => None
  | TIface, v => Some v
  | TOther t1, VOther t2 x => if t1 =? t2 then Some (VOther t2 x) else None
  | _, _ => None
  end.
(* search.go:197-231; setting a field that is not exported panics *)
Definition set_param (l : list field) (k : string) (v : val) : option (list field) :=
  match find_field l k with
  | None => None
  | Some i =>
      match nth_error l i with
      | Some f => if f_exported f then match convert (f_ty f) v with Some w => Some (upd l i (mkf (f_name f) (f_depth f) (f_exported f) (f_ty f) w)) | None => None end else None
      | None => None
      end
  end.
(* search.go:142-147: all parameters of a candidate, in the order of the map iteration *)
Fixpoint set_params (l : list field) (ps : list (string * val)) : option (list field) :=
  match ps with
  | [] => Some l
  | (k, v) :: t => match set_param l k v with Some l' => set_params l' t | None => None end
  end.

(* ------------------------------------------------------ hyperparameters changed by Fit *)
(* svm.go:266-268: Gamma after a fit on nfeatures columns, which is also the one the kernel uses (276-280) *)
Definition svm_gamma (gamma : Q) (nfeatures : nat) : Q := if Qle_bool gamma 0 then (1 / inject_Z (Z.of_nat nfeatures))%Q else gamma.
(* neural_network/basemlp64.go:516-528: BatchSize after a fit on n rows, which is also the one used *)
Definition mlp_batch (lbfgs : bool) (bs : Z) (n : nat) : Z :=
  if lbfgs then Z.of_nat n
  else if (bs <=? 0)%Z then Z.min (Z.of_nat n) 200
  else if (Z.of_nat n <? bs)%Z then Z.of_nat n else bs.

(* ------------------------------------------------------ gaussian_process *)
From Coq Require Reals.
From Verif Require MtModel KernModel.
(* gpr.go:133-137 with gpr.go:76-84 and 127-130: the model afterwards and the score, None for a panic.  X and Y are copied into the model
   before the length of Alpha is checked.  r2 is metrics.R2Score(Y, pred, nil, "") *)
Definition gpr_score (pw : Rdefinitions.R -> Rdefinitions.R -> Rdefinitions.R) (p : nat) (m : KernModel.gpr) (n ry : nat)
  (X Y : MtModel.rmtx) (r2 : MtModel.rmtx -> MtModel.rmtx -> Rdefinitions.R) : KernModel.gpr * option Rdefinitions.R :=
  let m1 := KernModel.mkgpr (KernModel.g_kernel m) (KernModel.g_alpha m) (Some (n, X)) (Some (ry, Y)) (KernModel.g_ymean m) in
  match KernModel.gpr_fit m n ry X Y with
  | None => (m1, None)
  | Some m' => match KernModel.gpr_predict pw p m' n X None with Some pred => (m', Some (r2 Y pred)) | None => (m', None) end
  end.
