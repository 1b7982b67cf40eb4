(* Clones of the scalers of /repo/preprocessing/data.go that keep their fitted vectors behind pointers or slices: which memory Fit and PartialFit write. *)
From Verif Require Import QCommon ScaleModel.
Open Scope nat_scope.

(* the fitted vectors: one array for every *mat.Dense or slice *)
Definition arrays := list (list Q).
(* a scaler: the arrays its fields point to ([] while they are nil) and NSamplesSeen *)
Record scaler : Type := mksc { s_refs : list nat; s_seen : nat }.
Definition s_new : scaler := mksc [] 0.
Inductive kind : Type :=
  | MinMax (lo hi : Q)                 (* DataMin, DataMax, DataRange, Scale, Min *)
  | Standard (sq : Q -> Q) (nf : nat)  (* Mean, Var, Scale; [sq] is math.Sqrt *)
  | MaxAbs (cols : nat)                (* MaxAbs, Scale *)
  | Robust (ql qr : Q).                (* Tmp, Median, QuantileDivider; fitted on the columns of X *)

(* what the fields of a scaler hold *)
Definition load (m : arrays) (s : scaler) : list (list Q) := map (fun r => nth r m []) (s_refs s).

(* the values PartialFit computes from those the scaler holds (ScaleModel) *)
Definition new_values (k : kind) (v : list (list Q)) (seen : nat) (rows : list (list Q)) : option (list (list Q) * nat) :=
  match k with
  | MinMax lo hi =>
      let st := mm_partial_fit (mkmm lo hi seen (nth 0 v []) (nth 1 v []) (nth 2 v []) (nth 3 v []) (nth 4 v [])) rows in
      Some ([mm_dmin st; mm_dmax st; mm_range st; mm_scale st; mm_min st], mm_seen st)
  | Standard sq nf =>
      match sd_partial_fit sq nf (mkstd (nth 0 v []) (nth 1 v []) (nth 2 v []) seen) rows with
      | Some st => Some ([sd_mean st; sd_var st; sd_scale st], sd_seen st)
      | None => None
      end
  | MaxAbs _ =>
      match ma_partial_fit (mkma (nth 0 v []) (nth 1 v []) seen) rows with
      | Some st => Some ([ma_max st; ma_scale st], ma_seen st)
      | None => None
      end
  | Robust ql qr =>
      match rb_fit ql qr (mkrb (match v with [] => None | t :: _ => Some t end) (nth 1 v []) (nth 2 v [])) rows with
      | Some st => Some ([match rb_tmp st with Some t => t | None => [] end; rb_median st; rb_div st], 0)
      | None => None
      end
  end.
(* which fields PartialFit points to new arrays (true) and which it overwrites in place: data.go:66-81 (MinMaxScaler: new ones when
   NSamplesSeen is 0), 168-180 (StandardScaler: Mean and Var always new, Scale.Apply in place unless NSamplesSeen is 0), 943-955 (MaxAbsScaler:
   in place), 365-388 (RobustScaler: new ones only when they are nil) *)
Definition fresh_fields (k : kind) (s : scaler) : list bool :=
  match k with
  | MinMax _ _ => repeat (s_seen s =? 0) 5
  | Standard _ _ => [true; true; s_seen s =? 0]
  | MaxAbs _ => [false; false]
  | Robust _ _ => repeat (match s_refs s with [] => true | _ => false end) 3
  end.
(* None: a nil pointer is dereferenced *)
Fixpoint put (m : arrays) (refs : list nat) (vals : list (list Q)) (fresh : list bool) : option (arrays * list nat) :=
  match vals, fresh with
  | v :: vs, b :: bs =>
      match (if b then Some (m ++ [v], length m) else match refs with [] => None | r :: _ => Some (upd m r v, r) end) with
      | None => None
      | Some (m1, r) => match put m1 (tl refs) vs bs with Some (m2, rs) => Some (m2, r :: rs) | None => None end
      end
  | _, _ => Some (m, [])
  end.
(* PartialFit; no rows: nothing happens (62-64, 165-167, 362-364) *)
Definition partial_fit (k : kind) (m : arrays) (s : scaler) (rows : list (list Q)) : option (arrays * scaler) :=
  match rows with
  | [] => Some (m, s)
  | _ =>
    match new_values k (load m s) (s_seen s) rows with
    | Some (v, n) => match put m (s_refs s) v (fresh_fields k s) with Some (m', rs) => Some (m', mksc rs n) | None => None end
    | None => None
    end
  end.
(* Fit: 54-57 and 156-160 set NSamplesSeen to 0, 928-934 make new slices of zeros, 353-356 does nothing before PartialFit *)
Definition fit (k : kind) (m : arrays) (s : scaler) (rows : list (list Q)) : option (arrays * scaler) :=
  match k with
  | MinMax _ _ | Standard _ _ => partial_fit k m (mksc (s_refs s) 0) rows
  | MaxAbs cols => partial_fit k (m ++ [repeat 0%Q cols; repeat 0%Q cols]) (mksc [length m; length m + 1] (s_seen s)) rows
  | Robust _ _ => partial_fit k m s rows
  end.
(* TransformerClone: 42-45, 144-147, 330-333, 922-925: the struct is copied, the arrays are not *)
Definition clone (s : scaler) : scaler := s.

(* a program that uses some scalers of one kind *)
Inductive op : Type := Clone (i : nat) | Fit (i : nat) (rows : list (list Q)) | PartialFit (i : nat) (rows : list (list Q)).
Definition world : Type := (arrays * list scaler)%type.
Definition step (k : kind) (w : world) (o : op) : option world :=
  let '(m, ss) := w in
  match o with
  | Clone i => match nth_error ss i with Some s => Some (m, ss ++ [clone s]) | None => None end
  | Fit i rows => match nth_error ss i with Some s => match fit k m s rows with Some (m', s') => Some (m', upd ss i s') | None => None end | None => None end
  | PartialFit i rows => match nth_error ss i with Some s => match partial_fit k m s rows with Some (m', s') => Some (m', upd ss i s') | None => None end | None => None end
  end.
Fixpoint run (k : kind) (w : world) (l : list op) : option world := match l with [] => Some w | o :: r => match step k w o with Some w' => run k w' r | None => None end end.
(* what Transform of scaler i uses *)
Definition holds (w : world) (i : nat) : option (list (list Q) * nat) := option_map (fun s => (load (fst w) s, s_seen s)) (nth_error (snd w) i).
