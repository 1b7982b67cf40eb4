(* linear_model/cdfast.go, several outputs: enetCoordinateDescentMultiTask over the real numbers.
   A matrix is a function of row and column; the sizes are n samples, p features, q tasks. *)
From Coq Require Import Reals Lra Lia List Arith.
Import ListNotations.
Open Scope R_scope.

Notation rmtx := (nat -> nat -> R).
(* the sum a loop over i = 0..n-1 accumulates *)
Fixpoint rs (n : nat) (f : nat -> R) : R := match n with O => 0 | S k => rs k f + f k end.
(* mat.Norm(v, 2) of a vector *)
Definition nrm2 (q : nat) (v : nat -> R) : R := sqrt (rs q (fun o => v o * v o)).
Definition rltb (a b : R) : bool := if Rlt_dec a b then true else false.
Definition reqb (a b : R) : bool := if Req_EM_T a b then true else false.
(* the largest of 0 and f 0 .. f (n-1), as the loops with if v > m { m = v } find it *)
Fixpoint rmaxn (n : nat) (f : nat -> R) : R := match n with O => 0 | S k => if rltb (rmaxn k f) (f k) then f k else rmaxn k f end.
Definition setrow (w : rmtx) (j : nat) (v : nat -> R) : rmtx := fun k o => if Nat.eqb k j then v o else w k o.

Section MT.
  Variables (l1 l2 : R) (n p q : nat) (X Y : rmtx).
  (* cdfast.go:184-191 *)
  Definition mncx (j : nat) : R := rs n (fun i => X i j * X i j).
  (* cdfast.go:192-194 *)
  Definition mres0 (w : rmtx) : rmtx := fun i o => Y i o - rs p (fun j => X i j * w j o).
  Record mt : Type := mkmt { m_w : rmtx; m_R : rmtx; m_wmax : R; m_dwmax : R }.
  (* cdfast.go:215-270, one feature *)
  Definition mt_update (st : mt) (ii : nat) : mt :=
    if reqb (mncx ii) 0 then st else
    let wii := m_w st ii in
    let R1 := if reqb (nrm2 q wii) 0 then m_R st else fun i o => m_R st i o + X i ii * wii o in
    let tmp := fun o => rs n (fun i => R1 i o * X i ii) in
    let nn := nrm2 q tmp in
    let factor := if rltb l1 nn then Rmax (1 - l1 / nn) 0 / (mncx ii + l2) else 0 in
    let w' := setrow (m_w st) ii (fun o => factor * tmp o) in
    let R2 := if reqb (nrm2 q (w' ii)) 0 then R1 else fun i o => R1 i o - X i ii * w' ii o in
    let dwii := rmaxn q (fun o => Rabs (w' ii o - wii o)) in
    let wabs := rmaxn p (fun j => rmaxn q (fun o => Rabs (w' j o))) in
    mkmt w' R2 (if rltb (m_wmax st) wabs then wabs else m_wmax st) (if rltb (m_dwmax st) dwii then dwii else m_dwmax st).
  (* cdfast.go:203-272 *)
  Definition mt_pass (order : list nat) (w r : rmtx) : mt := fold_left mt_update order (mkmt w r 0 0).
  (* cdfast.go:279-320 *)
  Definition mt_gap (w r : rmtx) : R :=
    let xta := fun j o => rs n (fun i => X i j * r i o) - l2 * w j o in
    let dual := rmaxn p (fun j => nrm2 q (xta j)) in
    let rn := sqrt (rs n (fun i => rs q (fun o => r i o * r i o))) in
    let wn := sqrt (rs p (fun j => rs q (fun o => w j o * w j o))) in
    let cons := if rltb l1 dual then l1 / dual else 1 in
    let g := if rltb l1 dual then / 2 * (rn * rn + (rn * cons) * (rn * cons)) else rn * rn in
    g + (l1 * rs p (fun j => nrm2 q (w j)) - cons * rs n (fun i => rs q (fun o => r i o * Y i o)) + / 2 * l2 * (1 + cons * cons) * (wn * wn)).
  (* cdfast.go:201-332 *)
  Fixpoint mt_loop (order : nat -> list nat) (dwtol tol : R) (left k : nat) (w r : rmtx) (gap : R) : rmtx * R * nat :=
    match left with
    | O => (w, gap, S k)
    | S left' =>
        let st := mt_pass (order k) w r in
        if (reqb (m_wmax st) 0 || rltb (m_dwmax st / m_wmax st) dwtol || Nat.eqb left' 0)%bool then
          let g := mt_gap (m_w st) (m_R st) in
          if rltb g tol then (m_w st, g, S k) else mt_loop order dwtol tol left' (S k) (m_w st) (m_R st) g
        else mt_loop order dwtol tol left' (S k) (m_w st) (m_R st) gap
    end.
  (* cdfast.go:160-333: coefficients, Gap, Eps, NIter; the parameter positive is not read *)
  Definition mt_cd (positive : bool) (order : nat -> list nat) (tol : R) (maxIter : nat) (w0 : rmtx) : rmtx * R * R * nat :=
    let eps := tol * rs n (fun i => rs q (fun o => Y i o * Y i o)) in
    let '(w, gap, it) := mt_loop order tol eps maxIter 0 w0 (mres0 w0) (tol + 1) in (w, gap, eps, it).
End MT.
