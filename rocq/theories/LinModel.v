(* linear_model/Base.go, cdfast.go (one output), coordinatedescent.go: exact rational arithmetic.
   A matrix is a list of rows.  NaN, Inf and panics are None. *)
From Verif Require Import QCommon.
Set Implicit Arguments.

Notation mtx := (list (list Q)).
Definition at2 (X : mtx) (i j : nat) : Q := nth j (nth i X []) 0.
Definition ncols (X : mtx) : nat := length (nth 0 X []).
(* the sum a loop over i = 0..n-1 accumulates *)
Definition sumn (n : nat) (f : nat -> Q) : Q := qsum (map f (seq 0 n)).
Definition tab (n : nat) (f : nat -> Q) : list Q := map f (seq 0 n).
Definition tab2 (r c : nat) (f : nat -> nat -> Q) : mtx := map (fun i => tab c (f i)) (seq 0 r).

(* ------------------------------------------------------------ PreprocessData *)
Record prep : Type := mkprep { pX : mtx; pY : mtx; p_xoff : list Q; p_yoff : list Q; p_scale : list Q }.
Section Pre.
  (* mat.Norm(column, 2): a square root, which need not be rational; the value is an argument *)
  Variable nrm : list Q -> Q.
  Definition col_mean (X : mtx) (j : nat) : Q := sumn (length X) (fun i => at2 X i j) / qn (length X).
  (* Base.go:592-651; SampleWeight is not read.  base.Parallelize over columns is a loop here, the
     worker of a column writes that column (C01); with Normalize alone all workers write the same values (623) *)
  Definition preprocess (fit norm : bool) (X Y : mtx) : prep :=
    let n := length X in let p := ncols X in let q := ncols Y in
    if (negb fit && negb norm)%bool then mkprep X Y (tab p (fun _ => 0)) (tab q (fun _ => 0)) (tab p (fun _ => 1))
    else
      let xoff := tab p (fun j => if fit then col_mean X j else 0) in
      let Xc := tab2 n p (fun i j => if fit then at2 X i j - nth j xoff 0 else at2 X i j) in
      let scale := tab p (fun j => if (fit && norm)%bool then nrm (tab n (fun i => at2 Xc i j)) else 1) in
      let Xs := tab2 n p (fun i j => if Qeq_bool (nth j scale 0) 0 then at2 Xc i j else at2 Xc i j / nth j scale 0) in
      if fit then
        let yoff := tab q (fun o => col_mean Y o) in
        mkprep Xs (tab2 (length Y) q (fun i o => at2 Y i o - nth o yoff 0)) xoff yoff scale
      else mkprep Xs Y xoff (tab q (fun _ => 0)) scale.
End Pre.

(* Base.go:559-570 setIntercept: coefficients and intercept from those found on preprocessed data.
   [old] is the value Intercept points to; Mul into a matrix of another size panics *)
Definition set_intercept (fit : bool) (pr : prep) (W : mtx) (q : nat) (old : option (list Q)) : option (mtx * list Q) :=
  let p := length W in
  if existsb (fun j => Qeq_bool (nth j (p_scale pr) 0) 0) (seq 0 p) then None
  else
    let C := tab2 p q (fun j o => at2 W j o / nth j (p_scale pr) 0) in
    let cur := match old with None => tab q (fun _ => 0) | Some l => l end in
    if fit then
      if Nat.eqb (length cur) q then Some (C, tab q (fun o => nth o (p_yoff pr) 0 - sumn p (fun j => nth j (p_xoff pr) 0 * at2 C j o))) else None
    else Some (C, cur).
(* Base.go:573-581 DecisionFunction for one row and output o *)
Definition decision (C : mtx) (b : list Q) (row : list Q) (o : nat) : Q :=
  sumn (length C) (fun j => nth j row 0 * at2 C j o) + nth o b 0.

(* Base.go:89-98 LinearRegression.Fit; [solve] is mat.Dense.Solve *)
Definition linreg_fit (nrm : list Q -> Q) (solve : mtx -> mtx -> mtx) (fit norm : bool) (X Y : mtx) (old : option (list Q)) : option (mtx * list Q) :=
  let pr := preprocess nrm fit norm X Y in
  set_intercept fit pr (solve (pX pr) (pY pr)) (ncols Y) old.

(* ------------------------------------------------------- coordinate descent *)
(* cdfast.go:56-63 *)
Definition fsign (x : Q) : Q := if Qltb 0 x then 1 else if Qeq_bool x 0 then 0 else -1.

Section CD.
  Variables (alpha beta : Q) (positive : bool) (X : mtx) (y : list Q) (p : nat).
  Let n := length X.
  (* cdfast.go:28-34 *)
  Definition ncx (j : nat) : Q := sumn n (fun i => at2 X i j * at2 X i j).
  (* cdfast.go:36-37 *)
  Definition resid0 (w : list Q) : list Q := tab n (fun i => Qred (nth i y 0 - sumn p (fun j => at2 X i j * nth j w 0))).

  Record cd : Type := mkcd { c_w : list Q; c_R : list Q; c_wmax : Q; c_dwmax : Q }.
  (* cdfast.go:78-110, one coordinate *)
  Definition cd_update (st : cd) (ii : nat) : cd :=
    if Qeq_bool (ncx ii) 0 then st else
    let wii := nth ii (c_w st) 0 in
    let R1 := if Qeq_bool wii 0 then c_R st else tab n (fun i => Qred (nth i (c_R st) 0 + wii * at2 X i ii)) in
    let t := sumn n (fun i => at2 X i ii * nth i R1 0) in
    let v := Qred (if (positive && Qltb t 0)%bool then 0 else fsign t * qmax (Qabs t - alpha) 0 / (ncx ii + beta)) in
    let R2 := if Qeq_bool v 0 then R1 else tab n (fun i => Qred (nth i R1 0 + - v * at2 X i ii)) in
    mkcd (upd (c_w st) ii v) R2
      (if Qltb (c_wmax st) (Qabs v) then Qabs v else c_wmax st)
      (if Qltb (c_dwmax st) (Qabs (v - wii)) then Qabs (v - wii) else c_dwmax st).
  (* cdfast.go:66-112: the coordinates of one pass, cyclic or drawn *)
  Definition cd_pass (order : list nat) (w R : list Q) : cd := fold_left cd_update order (mkcd w R 0 0).

  (* mat.Max, and the entry Iamax finds *)
  Definition lmaxq (l : list Q) : Q := match l with [] => 0 | x :: r => fold_left qmax r x end.
  (* cdfast.go:120-145 *)
  Definition cd_gap (w R : list Q) : Q :=
    let xta := tab p (fun j => sumn n (fun i => at2 X i j * nth i R 0) + - beta * nth j w 0) in
    let dual := if positive then lmaxq xta else lmaxq (map Qabs xta) in
    let R2 := sumn n (fun i => nth i R 0 * nth i R 0) in
    let w2 := sumn p (fun j => nth j w 0 * nth j w 0) in
    let cons := if Qltb alpha dual then alpha / dual else 1 in
    let gap := if Qltb alpha dual then (1 # 2) * (R2 + R2 * cons * cons) else R2 in
    let l1 := sumn p (fun j => Qabs (nth j w 0)) in
    gap + ((alpha * l1 - cons * sumn n (fun i => nth i R 0 * nth i y 0)) + (1 # 2) * beta * (1 + cons * cons) * w2).
  (* cdfast.go:65-157; [order k] are the coordinates of pass k, [left] passes are left; the result
     is w, the gap and NIter *)
  Fixpoint cd_loop (order : nat -> list nat) (dwtol tol : Q) (left k : nat) (w R : list Q) (gap : Q) : list Q * Q * nat :=
    match left with
    | O => (w, gap, S k)
    | S left' =>
        let st := cd_pass (order k) w R in
        if (Qeq_bool (c_wmax st) 0 || Qltb (c_dwmax st / c_wmax st) dwtol || Nat.eqb left' 0)%bool then
          let g := Qred (cd_gap (c_w st) (c_R st)) in
          if Qltb g tol then (c_w st, g, S k) else cd_loop order dwtol tol left' (S k) (c_w st) (c_R st) g
        else cd_loop order dwtol tol left' (S k) (c_w st) (c_R st) gap
    end.
End CD.
(* cdfast.go:15-158 enetCoordinateDescent: coefficients, Gap, Eps, NIter *)
Definition enet_cd (alpha beta : Q) (positive : bool) (X : mtx) (y : list Q) (order : nat -> list nat) (tol : Q) (maxIter : nat) (w0 : list Q) : list Q * Q * Q * nat :=
  let eps := tol * sumn (length X) (fun i => nth i y 0 * nth i y 0) in
  let '(w, gap, it) := cd_loop alpha beta positive X y (ncols X) order tol eps maxIter 0 w0 (resid0 X y (ncols X) w0) (tol + 1) in
  (w, gap, eps, it).
(* coordinatedescent.go:54-80 ElasticNet.Fit with one output.  [w0] is None without WarmStart, the
   coefficients pointed to otherwise; WarmStart on an estimator without coefficients dereferences nil *)
Record enet_par : Type := mkep { e_fit : bool; e_norm : bool; e_alpha : Q; e_l1 : Q; e_tol : Q; e_iter : nat; e_warm : bool; e_pos : bool }.
Definition enet_fit (nrm : list Q -> Q) (order : nat -> list nat) (e : enet_par) (X Y : mtx) (coef : option (list Q)) (old : option (list Q))
  : option (mtx * list Q * Q * Q * nat) :=
  let pr := preprocess nrm (e_fit e) (e_norm e) X Y in
  let ns := qn (length X) in
  let l1reg := e_alpha e * e_l1 e * ns in
  let l2reg := e_alpha e * (1 - e_l1 e) * ns in
  match (if e_warm e then coef else Some (tab (ncols X) (fun _ => 0))) with
  | None => None
  | Some w0 =>
      let '(w, gap, eps, it) := enet_cd l1reg l2reg (e_pos e) (pX pr) (tab (length X) (fun i => at2 (pY pr) i 0)) order (e_tol e) (e_iter e) w0 in
      match set_intercept (e_fit e) pr (map (fun v => [v]) w) 1 old with
      | None => None
      | Some (C, b) => Some (C, b, gap, eps, it)
      end
  end.
(* the cyclic order *)
Definition cyclic (p : nat) (k : nat) : list nat := seq 0 p.

(* coordinatedescent.go:113-128: the largest alpha of the grid, from the norms of the rows of X and Y side by side *)
Definition alpha_max (nrm : list Q -> Q) (X Y : mtx) (l1ratio : Q) : Q :=
  fold_left (fun m i => if Qltb m (nrm (nth i X [] ++ nth i Y [])) then nrm (nth i X [] ++ nth i Y []) else m) (seq 0 (length X)) 0 * (qn (length X) * l1ratio).

(* ------------------------------------------------------------------ memory *)
(* Coef and Intercept are pointers.  Estimators differ in which of the two they allocate anew:
   LinearRegression, SGDRegressor, Ridge: Coef only; BayesianRidge: both (bayes.go:200-201);
   ElasticNet with WarmStart: neither *)
Record lobj : Type := mklobj { o_coef : option nat; o_icpt : option nat }.
Record lheap : Type := mklh { h_objs : list lobj; h_cells : list mtx }.
Definition lget (h : lheap) (o : nat) : lobj := nth o (h_objs h) (mklobj None None).
Definition deref (h : lheap) (a : option nat) : option mtx := match a with None => None | Some k => Some (nth k (h_cells h) []) end.
(* Base.go:83-86, 158-161, coordinatedescent.go:42-45, bayes.go:36-39: clone := *regr *)
Definition lclone (h : lheap) (o : nat) : lheap * nat := (mklh (h_objs h ++ [lget h o]) (h_cells h), length (h_objs h)).
(* store a value: in place, or in new memory *)
Definition put (h : list mtx) (a : option nat) (v : mtx) : list mtx * nat :=
  match a with None => (h ++ [v], length h) | Some k => (upd h k v, k) end.
Inductive kind : Type := KLinear | KBayes | KWarm.
(* what Fit leaves in memory once it has computed coefficients C and intercept b *)
Definition fit_store (kd : kind) (h : lheap) (o : nat) (C : mtx) (b : list Q) : lheap :=
  let ob := lget h o in
  let '(c1, ac) := put (h_cells h) (match kd with KWarm => o_coef ob | _ => None end) C in
  let '(c2, ai) := put c1 (match kd with KBayes => None | _ => o_icpt ob end) [b] in
  mklh (upd (h_objs h) o (mklobj (Some ac) (Some ai))) c2.
(* the prediction through object o *)
Definition predict_through (h : lheap) (o : nat) (row : list Q) (k : nat) : option Q :=
  match deref h (o_coef (lget h o)), deref h (o_icpt (lget h o)) with
  | Some C, Some b => Some (decision C (nth 0 b []) row k)
  | _, _ => None
  end.
(* every address in use was allocated *)
Definition lh_wf (h : lheap) : Prop := forall o a, o_coef (lget h o) = Some a \/ o_icpt (lget h o) = Some a -> (a < length (h_cells h))%nat.
