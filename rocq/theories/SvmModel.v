(* Model of /repo/svm: cache.go, svm.go (svmTrain, svmPredict), svr.go
   (svrTrain), exact rational arithmetic.  A kernel is a function of two sample
   numbers.  [rnd t] is the result of the t-th call of randIntn.
   [Qred] only puts a fraction in lowest terms. *)
From Verif Require Import QCommon.
Open Scope Q_scope.

(* --------------------------------------------------------------- cache.go *)
Section Cache.
Variable kf : nat -> nat -> Q.          (* KernelFunction(X.RawRowView(i), X.RawRowView(j)) *)
Variable cap : nat.                     (* KcacheCap, cache.go:19 *)
Definition centry : Type := ((nat * nat) * (nat * Q))%type.   (* key, (time of last use, value) *)
Record cache : Type := mkcache { cdiag : list (option Q); cnd : list centry; ctime : nat }.
(* cache.go:20-22 *)
Definition cache_new (m : nat) : cache := mkcache (repeat None m) [] 0.
Definition keyb (p q : nat * nat) : bool := (Nat.eqb (fst p) (fst q) && Nat.eqb (snd p) (snd q))%bool.
(* cache.go:43-50: the key with the smallest time below Ktime, [0 0] if none.
   [ord] is the iteration order of the map *)
Definition oldest (ord : list centry -> list centry) (st : cache) : nat * nat :=
  fst (fold_left (fun acc e => if Nat.ltb (fst (snd e)) (snd acc) then (fst e, fst (snd e)) else acc) (ord (cnd st)) ((0, 0)%nat, ctime st)).
(* cache.go:24-57: returned value and new state *)
Definition cache_get (ord : list centry -> list centry) (i j : nat) (st : cache) : Q * cache :=
  if Nat.eqb i j then
    match nth i (cdiag st) None with
    | Some v => (v, st)
    | None => (kf i i, mkcache (upd (cdiag st) i (Some (kf i i))) (cnd st) (ctime st))
    end
  else
    let key := if Nat.ltb j i then (j, i) else (i, j) in
    match find (fun e => keyb (fst e) key) (cnd st) with
    | Some e => (snd (snd e), mkcache (cdiag st) (map (fun e' => if keyb (fst e') key then (key, (S (ctime st), snd (snd e'))) else e') (cnd st)) (S (ctime st)))
    | None =>
      let nd := if Nat.eqb (length (cnd st)) cap then filter (fun e => negb (keyb (fst e) (oldest ord st))) (cnd st) else cnd st in
      (kf (fst key) (snd key), mkcache (cdiag st) (nd ++ [(key, (S (ctime st), kf (fst key) (snd key)))]) (S (ctime st)))
    end.
(* a sequence of lookups; a map order for each *)
Fixpoint cache_run (ops : list ((list centry -> list centry) * (nat * nat))) (st : cache) : list Q * cache :=
  match ops with
  | [] => ([], st)
  | (ord, (i, j)) :: r => let '(v, st) := cache_get ord i j st in let '(vs, st) := cache_run r st in (v :: vs, st)
  end.
End Cache.
(* cache.go:19; KcacheEntry has 16 bytes *)
Definition cache_cap (cacheSize : nat) : nat := Nat.mul cacheSize (Nat.pow 2 16).

(* ----------------------------------------------------------------- svm.go *)
Section Smo.
Variable m : nat.
Variable Y : nat -> Q.
Variables C Epsilon Tol : Q.
Variable K : nat -> nat -> Q.    (* the cached kernel, see C39 *)
Variable rnd : nat -> nat.

Record smo : Type := mksmo { sal : list Q; sb : Q; snch : nat; skkt : bool; srk : nat }.
Definition al (st : smo) (i : nat) : Q := nth i (sal st) 0.
(* svm.go:59-65 *)
Definition svm_f (st : smo) (i : nat) : Q := qsum (sb st :: map (fun i1 => al st i1 * Y i1 * K i1 i) (seq 0 m)).

(* svm.go:80-138, one sample; None: randIntn(0) panics *)
Definition smo_step (st : smo) (i : nat) : option smo :=
  let Ei := svm_f st i - Y i in
  if ((Qltb (Y i * Ei) (- Epsilon) && Qltb (al st i) C) || (Qltb Epsilon (Y i * Ei) && Qltb 0 (al st i)))%bool then
    if Nat.leb m 1 then None
    else
    let j0 := rnd (srk st) in
    let j := if Nat.leb i j0 then S j0 else j0 in
    let st := mksmo (sal st) (sb st) (snch st) true (S (srk st)) in
    let Ej := svm_f st j - Y j in
    let ai := al st i in
    let aj := al st j in
    let L := if Qeq_bool (Y i) (Y j) then qmax 0 (aj + ai - C) else qmax 0 (aj - ai) in
    let H := if Qeq_bool (Y i) (Y j) then qmin C (aj + ai) else qmin C (C + aj - ai) in
    if Qeq_bool L H then Some st
    else
    let eta := 2 * K i j - K i i - K j j in
    if Qle_bool 0 eta then Some st
    else
    let aj' := Qred (qmax L (qmin H (aj - Y j * (Ei - Ej) / eta))) in
    if Qltb (aj' - aj) Tol then Some st
    else
    let ai' := Qred (ai + Y i * Y j * (aj - aj')) in
    let b1 := sb st - Ei - Y i * (ai' - ai) * K i i - Y j * (aj' - aj) * K i j in
    let b2 := sb st - Ej - Y i * (ai' - ai) * K i j - Y j * (aj' - aj) * K j j in
    let b := if (Qltb 0 ai' && Qltb ai' C)%bool then b1 else if (Qltb 0 aj' && Qltb aj' C)%bool then b2 else (b1 + b2) / 2 in
    Some (mksmo (upd (upd (sal st) j aj') i ai') (Qred b) (S (snch st)) true (srk st))
  else Some st.

Definition ostep (acc : option smo) (i : nat) : option smo := match acc with Some st => smo_step st i | None => None end.
(* svm.go:51-54 *)
Definition smo0 : smo := mksmo (repeat 0 m) 0 0 false 0.

(* svm.go:75-149.  None: out of fuel; Some None: panic *)
Fixpoint smo_loop (fuel : nat) (maxPasses passes : nat) (st : smo) : option (option smo) :=
  if Nat.leb maxPasses passes then Some (Some st)
  else match fuel with
  | O => None
  | S f =>
    match fold_left ostep (seq 0 m) (Some (mksmo (sal st) (sb st) 0 false (srk st))) with
    | None => Some None
    | Some st' =>
      if negb (skkt st') then Some (Some st')
      else smo_loop f maxPasses (if Nat.eqb (snch st') 0 then S passes else 0%nat) st'
    end
  end.

(* svm.go:150-170: the support vectors as (sample, alpha), and b; mat.NewDense
   panics (inner None) when there are none *)
Definition svm_model : Type := (list (nat * Q) * Q)%type.
Definition svm_train (fuel maxPasses : nat) : option (option svm_model) :=
  match smo_loop fuel maxPasses 0 smo0 with
  | None => None
  | Some None => Some None
  | Some (Some st) =>
    let idx := filter (fun i => Qltb Tol (al st i)) (seq 0 m) in
    match idx with
    | [] => Some None
    | _ => Some (Some (map (fun i => (i, al st i)) idx, sb st))
    end
  end.
End Smo.
(* svm.go:178-198; [kx j] is KernelFunction(x, X_j) *)
Definition svm_decision (Y : nat -> Q) (md : svm_model) (kx : nat -> Q) : Q :=
  qsum (map (fun ia => snd ia * Y (fst ia) * kx (fst ia)) (fst md)) + snd md.
Definition svm_predict (Y : nat -> Q) (md : svm_model) (kx : nat -> Q) : Q := if Qle_bool 0 (svm_decision Y md kx) then 1 else 0.

(* ----------------------------------------------------------------- svr.go *)
Section Svr.
Variable m : nat.
Variable Y : nat -> Q.
Variables C Epsilon Tol : Q.
Variable K : nat -> nat -> Q.
Variable rnd : nat -> nat.

(* svr.go:56-62 *)
Definition svr_f (st : smo) (i : nat) : Q := qsum (sb st :: map (fun i1 => al st i1 * K i1 i) (seq 0 m)).
(* svr.go:104-114.  E[j3] is computed just before it is read, and E[j] at the
   first turn, so E j stands for f(j) - Y[j] of the current alphas and b *)
Definition svr_pick (E : nat -> Q) (i j : nat) : nat :=
  match find (fun j3 => (negb (Nat.eqb j3 i) && (Qltb (E j3) (- Epsilon) || Qltb Epsilon (E j)))%bool) (map (fun j2 => ((j + j2) mod m)%nat) (seq 0 m)) with
  | Some j3 => j3
  | None => j
  end.
(* svr.go:119-140: the new alphas[j] before clipping; None stands for NaN and
   the infinities are replaced by the bounds L and H they are clipped to.
   eta = 0 is +0: (E[i]-E[j])/eta is +-Inf or NaN, delta is -Inf for
   Epsilon > 0, else NaN or +Inf and step(NaN)*s = s is taken *)
Definition svr_newj (eta s aj Ei Ej L H : Q) : option Q :=
  if Qeq_bool eta 0 then
    if Qeq_bool Ei Ej then None
    else if Qle_bool Epsilon 0 then Some s
    else if Qltb Ej Ei then Some L else Some H
  else
    let delta := - (2) * Epsilon / eta in
    let a := aj - (Ei - Ej) / eta in
    let ai := s - a in
    if Qltb (ai * a) 0 then
      if (Qltb delta (Qabs ai) || Qltb delta (Qabs a))%bool then Some (a - (if Qle_bool 0 a then 1 else -1) * delta)
      else Some ((if Qltb (Qabs a - Qabs ai) 0 then 0 else 1) * s)
    else Some a.
(* svr.go:92-161 *)
Definition svr_step (st : smo) (i : nat) : option smo :=
  let Ei := svr_f st i - Y i in
  if ((Qltb Ei (- Epsilon) && Qltb (al st i) C) || (Qltb Epsilon Ei && Qltb (- C) (al st i)))%bool then
    if Nat.leb m 1 then None
    else
    let E := fun j => svr_f st j - Y j in
    let j0 := rnd (srk st) in
    let j := svr_pick E i (if Nat.leb i j0 then S j0 else j0) in
    let st := mksmo (sal st) (sb st) (snch st) true (S (srk st)) in
    let eta := 2 * K i j - K i i - K j j in
    let ai := al st i in
    let aj := al st j in
    let s := ai + aj in
    let L := qmax (s - C) (- C) in
    let H := qmin C (C + s) in
    match svr_newj eta s aj Ei (E j) L H with
    | None => Some st
    | Some a =>
      let aj' := Qred (qmin H (qmax L a)) in
      let ai' := Qred (s - aj') in
      let Einew := Ei + (ai' - ai) * K i i + (aj' - aj) * K i j in
      let Ejnew := E j + (ai' - ai) * K i j + (aj' - aj) * K j j in
      let db := - (Einew + Ejnew) / 2 in
      if (Qltb (Qabs (aj' - aj)) Tol || negb (Qltb (Qabs (Einew + db) + Qabs (Ejnew + db)) (Qabs Ei + Qabs (E j))))%bool then Some st
      else Some (mksmo (upd (upd (sal st) j aj') i ai') (Qred (sb st + db)) (S (snch st)) true (srk st))
    end
  else Some st.
Definition svr_ostep (acc : option smo) (i : nat) : option smo := match acc with Some st => svr_step st i | None => None end.
(* svr.go:88-171 *)
Fixpoint svr_loop (fuel : nat) (maxPasses passes : nat) (st : smo) : option (option smo) :=
  if Nat.leb maxPasses passes then Some (Some st)
  else match fuel with
  | O => None
  | S f =>
    match fold_left svr_ostep (seq 0 m) (Some (mksmo (sal st) (sb st) 0 false (srk st))) with
    | None => Some None
    | Some st' =>
      if negb (skkt st') then Some (Some st')
      else svr_loop f maxPasses (if Nat.eqb (snch st') 0 then S passes else 0%nat) st'
    end
  end.
(* svr.go:172-191 *)
Definition svr_train (fuel maxPasses : nat) : option (option svm_model) :=
  match svr_loop fuel maxPasses 0 (smo0 m) with
  | None => None
  | Some None => Some None
  | Some (Some st) =>
    let idx := filter (fun i => Qltb Tol (Qabs (al st i))) (seq 0 m) in
    match idx with
    | [] => Some None
    | _ => Some (Some (map (fun i => (i, al st i)) idx, sb st))
    end
  end.
End Svr.
(* svr.go:204-215 *)
Definition svr_predict (md : svm_model) (kx : nat -> Q) : Q := qsum (snd md :: map (fun ia => snd ia * kx (fst ia)) (fst md)).

(* Specification side.  The dual objective sum_k a_k - 1/2 sum_kl a_k y_k a_l y_l K_kl,
   and the Karush-Kuhn-Tucker conditions within Epsilon. *)
Definition dual (m : nat) (Y : nat -> Q) (K : nat -> nat -> Q) (a : nat -> Q) : Q :=
  qsum (map a (seq 0 m)) - (1 # 2) * qsum (map (fun k => a k * Y k * qsum (map (fun l => a l * Y l * K k l) (seq 0 m))) (seq 0 m)).
Definition kkt (m : nat) (Y : nat -> Q) (C Epsilon : Q) (K : nat -> nat -> Q) (a : nat -> Q) (b : Q) : Prop :=
  forall i, (i < m)%nat -> let E := b + qsum (map (fun k => a k * Y k * K k i) (seq 0 m)) - Y i in
    (a i < C -> - Epsilon <= Y i * E) /\ (0 < a i -> Y i * E <= Epsilon).
