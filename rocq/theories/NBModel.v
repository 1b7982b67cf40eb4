(* naive_bayes/naivebayes.go: GaussianNB.  Exact rational arithmetic; labels are only compared,
   they are in Z.  Panics are None.  base.Parallelize over classes is a loop here: the worker for a
   class touches the row of that class only (C01, C02). *)
From Verif Require Import QCommon.
Set Implicit Arguments.

Definition cell (X : list (list Q)) (i c : nat) : Q := nth c (nth i X []) 0.
Definition width (X : list (list Q)) : nat := length (nth 0 X []).
(* sampleWeight[i], 1 when there are no weights; naivebayes.go:275-278 *)
Definition wt (sw : option (list Q)) (i : nat) : Q := match sw with None => 1 | Some l => nth i l 0 end.

(* naivebayes.go:258-302 meanvar, for column c and the rows kept by the filter: mean, variance, total weight *)
Definition meanvar (X : list (list Q)) (sw : option (list Q)) (keep : nat -> bool) (c : nat) : Q * Q * Q :=
  let I := filter keep (seq 0 (length X)) in
  let n := qsum (map (wt sw) I) in
  let m := qsum (map (fun i => cell X i c * wt sw i) I) / n in
  let v := qsum (map (fun i => (cell X i c - m) * (cell X i c - m) * wt sw i) I) / n in
  (m, v, n).

(* naivebayes.go:356-360: mu and va are views of the rows that setTotalMu and setTotalVar write *)
Definition upd_col (nPast nNew nm nv : Q) (c : nat) (s : list Q * list Q) : list Q * list Q :=
  let '(mu, va) := s in
  let nTotal := nPast + nNew in
  let mu' := upd mu c ((nPast * nth c mu 0 + nNew * nm) / nTotal) in
  let dmu := nth c mu' 0 - nm in
  (mu', upd va c ((nPast * nth c va 0 + nNew * nv + nNew * nPast / nTotal * dmu * dmu) / nTotal)).
(* naivebayes.go:339-364 updateMeanVariance *)
Definition update_mv (nPast : Q) (mu va : list Q) (X : list (list Q)) (sw : option (list Q)) (keep : nat -> bool) : option (Q * list Q * list Q) :=
  if Nat.eqb (length (filter keep (seq 0 (length X)))) 0 then None
  else
    let nNew := snd (meanvar X sw keep 0) in
    let '(mu', va') := fold_left (fun s c => let '(nm, nv, _) := meanvar X sw keep c in upd_col nPast nNew nm nv c s) (seq 0 (width X)) (mu, va) in
    Some (nPast + nNew, mu', va').

(* naivebayes.go:318-330 npUnique: the distinct values in increasing order *)
Fixpoint zins (x : Z) (l : list Z) : list Z :=
  match l with [] => [x] | y :: r => if Z.ltb x y then x :: l else if Z.eqb x y then l else y :: zins x r end.
Definition np_unique (l : list Z) : list Z := fold_left (fun a x => zins x a) l [].

(* naivebayes.go:196-199 classmap: the last index of a value wins *)
Fixpoint class_of (cls : list Z) (y : Z) : option nat :=
  match cls with
  | [] => None
  | x :: r => match class_of r y with Some k => Some (S k) | None => if Z.eqb x y then Some O else None end
  end.

Record params : Type := mkpar { p_cnt : list Q; p_mu : list (list Q); p_va : list (list Q) }.
(* Theta == nil is g_par = None *)
Record gnb : Type := mkgnb { g_cls : list Z; g_par : option params; g_prior : list Q; g_eps : Q }.
Definition fresh : gnb := mkgnb [] None [] (1 # 1000000000).

(* naivebayes.go:210-223, one class *)
Definition upd_class (X : list (list Q)) (Y : list Z) (sw : option (list Q)) (cls : list Z) (p : params) (y : Z) : params :=
  match class_of cls y with
  | None => p
  | Some k =>
      match update_mv (nth k (p_cnt p) 0) (nth k (p_mu p) []) (nth k (p_va p) []) X sw (fun j => Z.eqb (nth j Y 0%Z) y) with
      | None => p
      | Some (n, mu, va) => mkpar (upd (p_cnt p) k n) (upd (p_mu p) k mu) (upd (p_va p) k va)
      end
  end.

(* naivebayes.go:170-189 *)
Definition priors_ok (pr : list Q) (k : nat) : bool :=
  (Nat.eqb (length pr) k && Qle_bool (Qabs (qsum pr - 1)) (1 # 1000000) && forallb (Qle_bool 0) pr)%bool.
Definition shift (d : Q) (va : list (list Q)) : list (list Q) := map (map (fun v => v + d)) va.
Definition lmax (l : list Q) : Q := match l with [] => 0 | x :: r => fold_left qmax r x end.

(* naivebayes.go:142-230 PartialFit.  Simplifications: X and Y have the same number of rows,
   anything else counts as a panic; the floats.Sum guards use exact sums *)
Definition partial_fit (priors : option (list Q)) (vs : Q) (m : gnb) (X : list (list Q)) (Y : list Z) (classes : list Z) (refit : bool) (sw : option (list Q)) : option gnb :=
  if (negb (Nat.eqb (length X) (length Y)) || Nat.eqb (width X) 0 || match sw with Some l => Nat.ltb (length l) (length X) | None => false end)%bool then None else
  let xc := width X in
  let eps := vs * lmax (map (fun c => snd (fst (meanvar X sw (fun _ => true) c))) (seq 0 xc)) in
  let cls := if refit then [] else g_cls m in
  match
    match g_par m with
    | None =>
        let k := length classes in
        if (Nat.eqb k 0 || match priors with Some pr => negb (priors_ok pr k) | None => false end)%bool then None
        else Some (classes, mkpar (repeat 0 k) (repeat (repeat 0 xc) k) (repeat (repeat 0 xc) k), match priors with Some pr => pr | None => repeat 0 k end)
    | Some p => if Nat.eqb xc (width (p_mu p)) then Some (cls, mkpar (p_cnt p) (p_mu p) (shift (- eps) (p_va p)), g_prior m) else None
    end
  with
  | None => None
  | Some (cls, p, prior) =>
      if forallb (fun y => match class_of cls y with Some _ => true | None => false end) (np_unique Y) then
        let p := fold_left (upd_class X Y sw cls) (np_unique Y) p in
        let prior := match priors with Some _ => prior | None => map (fun n => 1 / qsum (p_cnt p) * n) (p_cnt p) end in
        Some (mkgnb cls (Some (mkpar (p_cnt p) (p_mu p) (shift eps (p_va p)))) prior eps)
      else None
  end.
(* naivebayes.go:135-139 Fit *)
Definition fit (priors : option (list Q)) (vs : Q) (m : gnb) (X : list (list Q)) (Y : list Z) (sw : option (list Q)) : option gnb :=
  partial_fit priors vs m X Y (np_unique Y) true sw.

(* a history of PartialFit calls on one estimator *)
Record batch : Type := mkb { bX : list (list Q); bY : list Z; bw : option (list Q) }.
Fixpoint run (priors : option (list Q)) (vs : Q) (classes : list Z) (m : gnb) (bs : list batch) : option gnb :=
  match bs with
  | [] => Some m
  | b :: r => match partial_fit priors vs m (bX b) (bY b) classes false (bw b) with Some m' => run priors vs classes m' r | None => None end
  end.

(* ------------------------------------------------------------------ memory *)
(* naivebayes.go:131-134 PredicterClone copies the struct: Theta, Sigma, ClassCount and ClassPrior
   point to the same memory, and jointLogLikelihood is still the closure over the original
   (naivebayes.go:231).  Objects hold the address of their parameters and the object the closure
   captured; Classes is replaced, never written in place. *)
Record obj : Type := mkobj { o_cls : list Z; o_par : option nat; o_fun : option nat }.
Record mem : Type := mkmem { objs : list obj; cells : list gnb }.
Definition dummy : obj := mkobj [] None None.
Definition get (h : mem) (o : nat) : obj := nth o (objs h) dummy.
(* the estimator value seen through object o *)
Definition value (h : mem) (o : nat) : gnb :=
  match o_par (get h o) with None => fresh | Some a => let g := nth a (cells h) fresh in mkgnb (o_cls (get h o)) (g_par g) (g_prior g) (g_eps g) end.
Definition clone (h : mem) (o : nat) : mem * nat := (mkmem (objs h ++ [get h o]) (cells h), length (objs h)).
(* PartialFit through object o: new memory on the first call, in place afterwards *)
Definition pfit (priors : option (list Q)) (vs : Q) (h : mem) (o : nat) (b : batch) (classes : list Z) : option mem :=
  match partial_fit priors vs (value h o) (bX b) (bY b) classes false (bw b) with
  | None => None
  | Some g =>
      match o_par (get h o) with
      | None => Some (mkmem (upd (objs h) o (mkobj (g_cls g) (Some (length (cells h))) (Some o))) (cells h ++ [g]))
      | Some a => Some (mkmem (upd (objs h) o (mkobj (g_cls g) (Some a) (Some o))) (upd (cells h) a g))
      end
  end.
(* the model used when predicting through object o: that of the object its closure captured *)
Definition model_of (h : mem) (o : nat) : gnb := match o_fun (get h o) with Some o' => value h o' | None => fresh end.
