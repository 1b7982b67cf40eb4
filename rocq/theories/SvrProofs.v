(* Proofs about SvmModel.v: how SVR training ends, what a converged SVR
   satisfies, and what is lost with the small dual variables. *)
From Verif Require Import Common QCommon SvmModel SvmProofs SvmLoopProofs.
From Coq Require Import Lqa.
Open Scope Q_scope.

(* ------------------------------------------------- two samples: one update *)
Definition clip3 (C a : Q) : Q := qmin C (qmax (- C) a).
Lemma clip3_cases C a : 0 <= C -> (a <= - C /\ clip3 C a == - C) \/ (- C <= a <= C /\ clip3 C a == a) \/ (C <= a /\ clip3 C a == C).
Proof.
  intros HC. unfold clip3. destruct (qmax_lub (- C) a) as (A1 & A2 & A3). destruct (qmin_glb C (qmax (- C) a)) as (B1 & B2 & B3).
  destruct A3 as [E|E]; rewrite E in *; destruct B3 as [F|F]; rewrite F in *.
  - left. split; lra.
  - left. split; [lra|reflexivity].
  - right. right. split; [lra|reflexivity].
  - destruct (Qlt_le_dec C a); [right; right; split; lra|right; left; split; [lra|reflexivity]].
Qed.
Lemma clip3_eq C a b : 0 <= C -> a == b -> clip3 C a == clip3 C b.
Proof. intros HC E. destruct (clip3_cases C a HC) as [(A & ->)|[(A & ->)|(A & ->)]], (clip3_cases C b HC) as [(B & ->)|[(B & ->)|(B & ->)]]; lra. Qed.
Lemma clip3_opp C a b : 0 <= C -> a == - b -> clip3 C a == - clip3 C b.
Proof. intros HC E. destruct (clip3_cases C a HC) as [(A & ->)|[(A & ->)|(A & ->)]], (clip3_cases C b HC) as [(B & ->)|[(B & ->)|(B & ->)]]; lra. Qed.

(* what is proposed for alphas[j], from the data alone: y is Y i - Y j *)
Definition raw_target (Epsilon eta y : Q) : Q :=
  let t := y / eta in let delta := - (2) * Epsilon / eta in
  if Qeq_bool t 0 then 0 else if Qltb delta (Qabs t) then t - (if Qle_bool 0 t then 1 else -1) * delta else 0.
Definition target (C Epsilon eta y : Q) : Q :=
  if Qeq_bool eta 0 then (if Qle_bool Epsilon 0 then 0 else if Qltb y 0 then - C else C) else clip3 C (raw_target Epsilon eta y).

Lemma raw_opp Epsilon eta y y' : ~ eta == 0 -> y' == - y -> raw_target Epsilon eta y' == - raw_target Epsilon eta y.
Proof.
  intros HE HY. unfold raw_target. cbv zeta. set (t := y / eta). assert (T : y' / eta == - t) by (rewrite HY; unfold t; field; auto). set (t' := y' / eta) in *.
  assert (A : Qabs t' == Qabs t) by (rewrite T; apply Qabs_opp).
  destruct (Qeqb_spec t 0) as [Z|Z], (Qeqb_spec t' 0) as [Z'|Z']; [lra|exfalso; apply Z'; lra|exfalso; apply Z; lra|].
  destruct (Qltb_spec (- (2) * Epsilon / eta) (Qabs t)), (Qltb_spec (- (2) * Epsilon / eta) (Qabs t')); try lra.
  destruct (Qleb_spec 0 t), (Qleb_spec 0 t'); lra.
Qed.
Lemma target_opp C Epsilon eta eta' y y' : 0 <= C -> eta' == eta -> y' == - y -> ~ y == 0 \/ ~ eta == 0 ->
  target C Epsilon eta' y' == - target C Epsilon eta y.
Proof.
  intros HC HE HY HN. unfold target. destruct (Qeqb_spec eta 0) as [E|E], (Qeqb_spec eta' 0) as [E'|E']; [|exfalso; apply E'; lra|exfalso; apply E; lra|].
  - destruct (Qle_bool Epsilon 0); [lra|]. destruct (Qltb_spec y 0), (Qltb_spec y' 0); lra.
  - assert (X : forall e e' z, e' == e -> ~ e == 0 -> raw_target Epsilon e' z == raw_target Epsilon e z).
    { clear. intros e e' z H N. unfold raw_target. cbv zeta. assert (T : z / e' == z / e) by now rewrite H.
      assert (D : - (2) * Epsilon / e' == - (2) * Epsilon / e) by now rewrite H.
      assert (A : Qabs (z / e') == Qabs (z / e)) by now rewrite T.
      destruct (Qeqb_spec (z / e') 0) as [Z|Z], (Qeqb_spec (z / e) 0) as [Z'|Z']; [lra|exfalso; apply Z'; lra|exfalso; apply Z; lra|].
      destruct (Qltb_spec (- (2) * Epsilon / e') (Qabs (z / e'))), (Qltb_spec (- (2) * Epsilon / e) (Qabs (z / e))); try lra.
      destruct (Qleb_spec 0 (z / e')), (Qleb_spec 0 (z / e)); lra. }
    apply clip3_opp; [exact HC|]. rewrite (X eta eta') by auto. apply raw_opp; auto.
Qed.
Lemma newj_target C Epsilon eta s aj Ei Ej L H y a : 0 <= C -> s == 0 -> L == - C -> H == C -> Ei - Ej == aj * eta - y ->
  svr_newj Epsilon eta s aj Ei Ej L H = Some a ->
  qmin H (qmax L a) == target C Epsilon eta y /\ (~ y == 0 \/ ~ eta == 0).
Proof.
  intros HC Hs HL HH HE. unfold svr_newj, target.
  assert (CL : forall a b, a == b -> qmin H (qmax L a) == clip3 C b).
  { intros u v E. unfold clip3. destruct (qmax_lub L u) as (A1 & A2 & A3), (qmax_lub (- C) v) as (D1 & D2 & D3).
    destruct (qmin_glb H (qmax L u)) as (B1 & B2 & B3), (qmin_glb C (qmax (- C) v)) as (F1 & F2 & F3).
    destruct A3 as [A3|A3]; rewrite A3 in *; destruct D3 as [D3|D3]; rewrite D3 in *; destruct B3 as [B3|B3]; rewrite B3 in *; destruct F3 as [F3|F3]; rewrite F3 in *; lra. }
  destruct (Qeqb_spec eta 0) as [E0|E0].
  - assert (Y0 : Ei - Ej == - y) by (rewrite HE, E0; ring).
    destruct (Qeqb_spec Ei Ej) as [EE|EE]; [discriminate|]. assert (NY : ~ y == 0) by (intros Z; apply EE; lra).
    destruct (Qle_bool Epsilon 0).
    + intros [= <-]. split; [|now left]. rewrite (CL s 0 Hs). destruct (clip3_cases C 0 HC) as [(A & ->)|[(A & ->)|(A & ->)]]; lra.
    + destruct (Qltb_spec Ej Ei), (Qltb_spec y 0); try (exfalso; lra); intros [= <-]; (split; [|now left]).
      * rewrite (CL L (- C) HL). destruct (clip3_cases C (- C) HC) as [(A & ->)|[(A & ->)|(A & ->)]]; lra.
      * rewrite (CL H C HH). destruct (clip3_cases C C HC) as [(A & ->)|[(A & ->)|(A & ->)]]; lra.
  - cbv zeta. assert (T : aj - (Ei - Ej) / eta == y / eta) by (rewrite HE; field; auto).
    set (x := aj - (Ei - Ej) / eta) in *. assert (X : s - x == - (y / eta)) by lra.
    intros G. split; [|now right]. unfold raw_target. cbv zeta. set (t := y / eta) in *.
    assert (AX : Qabs x == Qabs t) by now rewrite T. assert (AI : Qabs (s - x) == Qabs t) by (rewrite X; apply Qabs_opp).
    assert (PR : (s - x) * x == - (t * t)) by (rewrite X, T; ring). assert (SQ : 0 <= t * t) by nra.
    destruct (Qltb_spec ((s - x) * x) 0) as [N|N].
    + destruct (Qeqb_spec t 0) as [Z|Z]. { exfalso. rewrite Z in PR. lra. }
      destruct (Qltb_spec (- (2) * Epsilon / eta) (Qabs (s - x))), (Qltb_spec (- (2) * Epsilon / eta) (Qabs x)), (Qltb_spec (- (2) * Epsilon / eta) (Qabs t)); cbn [orb] in G; try (exfalso; lra).
      * injection G as <-. apply CL. destruct (Qleb_spec 0 x), (Qleb_spec 0 t); try (exfalso; lra); lra.
      * injection G as <-. apply CL. destruct (Qltb _ 0); lra.
    + injection G as <-. apply CL. destruct (Qeqb_spec t 0) as [Z|Z]; [lra|]. exfalso. assert (0 < t * t) by (destruct (Qlt_le_dec 0 t); nra). lra.
Qed.

Section Two.
  Variable Y : nat -> Q.
  Variables C Epsilon Tol : Q.
  Variable K : nat -> nat -> Q.
  Variable rnd : nat -> nat.
  Hypothesis Hrnd : forall t, rnd t = 0%nat.
  Hypothesis Ksym : K 0%nat 1%nat == K 1%nat 0%nat.
  Hypothesis HC : 0 <= C.
  Hypothesis HT : 0 < Tol.
  Notation step := (svr_step 2 Y C Epsilon Tol K rnd).
  Notation ost := (svr_ostep 2 Y C Epsilon Tol K rnd).
  Let tau : Q := target C Epsilon (2 * K 0%nat 1%nat - K 0%nat 0%nat - K 1%nat 1%nat) (Y 0%nat - Y 1%nat).
  Definition two_ok (st : smo) : Prop := length (sal st) = 2%nat /\ al st 0 + al st 1 == 0.

  Lemma two_pick E i : (i < 2)%nat -> forall j, j = (1 - i)%nat -> svr_pick 2 Epsilon E i j = (1 - i)%nat.
  Proof.
    intros Hi j ->. unfold svr_pick. destruct i as [|[|i]]; [| |lia].
    - cbn. destruct (Qltb _ _ || Qltb _ _)%bool; reflexivity.
    - cbn. destruct (Qltb _ _ || Qltb _ _)%bool; reflexivity.
  Qed.
  Lemma two_f st i : svr_f 2 K st i == sb st + al st 0 * K 0%nat i + al st 1 * K 1%nat i.
  Proof. unfold svr_f. cbn [seq map]. rewrite !qsum_cons. change (qsum []) with 0. ring. Qed.
  (* a step leaves the dual variables alone, or puts the targets there *)
  Lemma two_step st i : two_ok st -> (i < 2)%nat -> exists st', step st i = Some st' /\ two_ok st' /\
    ((sal st' = sal st /\ sb st' = sb st /\ snch st' = snch st) \/ (al st' 1 == tau /\ ~ al st 1 == tau /\ snch st' = S (snch st))).
  Proof.
    intros (LEN & BAL) Hi. unfold svr_step. cbv zeta. destruct (_ || _)%bool; [|exists st; repeat split; auto].
    cbn [Nat.leb]. rewrite Hrnd. set (E := fun j => svr_f 2 K st j - Y j).
    assert (PJ : svr_pick 2 Epsilon E i (if Nat.leb i 0 then 1%nat else 0%nat) = (1 - i)%nat).
    { apply two_pick; [exact Hi|]. destruct i as [|[|i]]; [reflexivity|reflexivity|lia]. }
    rewrite PJ. set (j := (1 - i)%nat). set (st1 := mksmo (sal st) (sb st) (snch st) true (S (srk st))).
    change (al st1 j) with (al st j). change (al st1 i) with (al st i). change (svr_f 2 K st i - Y i) with (E i).
    assert (OK1 : exists st' : smo, Some st1 = Some st' /\ two_ok st' /\ ((sal st' = sal st /\ sb st' = sb st /\ snch st' = snch st) \/ (al st' 1 == tau /\ ~ al st 1 == tau /\ snch st' = S (snch st)))).
    { exists st1. repeat split; auto. }
    destruct (svr_newj _ _ _ _ _ _ _ _) as [a|] eqn:NJ; [|exact OK1].
    assert (S0 : al st i + al st j == 0) by (unfold j; destruct i as [|[|i]]; cbn [Nat.sub]; [lra|lra|lia]).
    set (s := al st i + al st j) in *. set (L := qmax (s - C) (- C)) in *. set (H := qmin C (C + s)) in *.
    assert (EL : L == - C) by (unfold L; destruct (qmax_lub (s - C) (- C)) as (_ & _ & [-> | ->]); lra).
    assert (EH : H == C) by (unfold H; destruct (qmin_glb C (C + s)) as (_ & _ & [-> | ->]); lra).
    assert (ED : E i - E j == al st j * (2 * K i j - K i i - K j j) - (Y i - Y j)).
    { unfold E. rewrite !two_f. unfold j. destruct i as [|[|i]]; [| |lia]; cbn [Nat.sub].
      - assert (B0 : al st 0 == - al st 1) by lra. rewrite B0, Ksym. ring.
      - assert (B0 : al st 1 == - al st 0) by lra. rewrite B0, Ksym. ring. }
    destruct (newj_target C Epsilon _ s (al st j) (E i) (E j) L H (Y i - Y j) a HC S0 EL EH ED NJ) as (TG & NZ).
    set (aj' := Qred (qmin H (qmax L a))). assert (RJ : aj' == target C Epsilon (2 * K i j - K i i - K j j) (Y i - Y j)) by (unfold aj'; rewrite Qred_correct; exact TG).
    set (ai' := Qred (s - aj')). assert (RI : ai' == - aj') by (unfold ai'; rewrite Qred_correct; lra).
    destruct (Qltb_spec (Qabs (aj' - al st j)) Tol) as [SM|SM]; [exact OK1|]. cbn [orb].
    destruct (negb _); [exact OK1|]. eexists. split; [reflexivity|]. cbn [sal st1 snch sb].
    assert (NA : ~ aj' == al st j) by (intros Z; assert (Q0 : aj' - al st j == 0) by lra; rewrite Q0 in SM; change (Qabs 0) with 0 in SM; lra).
    clear -LEN BAL Hi RJ RI NA NZ Ksym HC S0. unfold j in *. destruct (sal st) as [|x [|y [|z l]]] eqn:SA; try discriminate LEN. unfold al in *. rewrite SA in *. cbn [nth] in *. clearbody ai' aj'.
    destruct i as [|[|i]]; [| |lia]; cbn [Nat.sub nth] in *.
    - split; [split; [reflexivity|unfold al; cbn [sal upd nth]; lra]|]. right. cbn [sal upd nth]. split; [exact RJ|]. split; [|reflexivity]. unfold tau. rewrite <- RJ. intros Z. apply NA. lra.
    - assert (TO : aj' == - tau) by (rewrite RJ; unfold tau; apply target_opp; [exact HC|rewrite Ksym; ring|ring|destruct NZ as [NZ|NZ]; [left; intros Z; apply NZ; lra|right; intros Z; apply NZ; rewrite <- Ksym; lra]]).
      split; [split; [reflexivity|unfold al; cbn [sal upd nth]; lra]|]. right. cbn [sal upd nth]. split; [rewrite RI; lra|]. split; [|reflexivity]. intros Z. apply NA. lra.
  Qed.
  Definition todo (st : smo) : nat := if Qeq_bool (al st 1) tau then 0 else 1.
  Lemma two_fold l : (forall i, In i l -> (i < 2)%nat) -> forall st, two_ok st ->
    exists st', fold_left ost l (Some st) = Some st' /\ two_ok st' /\ (todo st' + snch st' <= todo st + snch st)%nat /\ (snch st <= snch st')%nat.
  Proof.
    induction l as [|i l IH]; intros HL st OK; [exists st; cbn; auto|].
    destruct (two_step st i OK) as (st1 & S1 & OK1 & CS); [apply HL; now left|]. cbn [fold_left svr_ostep]. rewrite S1.
    destruct (IH (fun k Hk => HL k (or_intror Hk)) st1 OK1) as (st' & F & OK' & M & N). exists st'. split; [exact F|]. split; [exact OK'|].
    assert (T : (todo st1 + snch st1 <= todo st + snch st)%nat /\ (snch st <= snch st1)%nat); [|lia].
    unfold todo. destruct CS as [(A & _ & B)|(A & B & D)].
    - assert (Z : al st1 1 = al st 1) by (unfold al; now rewrite A). rewrite Z, B. split; lia.
    - rewrite D. destruct (Qeqb_spec (al st1 1) tau); [|contradiction]. destruct (Qeqb_spec (al st 1) tau); [contradiction|]. split; lia.
  Qed.
  Lemma two_loop maxp : forall n fuel p st, two_ok st -> (maxp - p + todo st * S maxp <= n)%nat -> (n <= fuel)%nat ->
    exists st', svr_loop 2 Y C Epsilon Tol K rnd fuel maxp p st = Some (Some st').
  Proof.
    induction n as [|n IH]; intros fuel p st OK M F.
    - exists st. destruct fuel; cbn [svr_loop]; destruct (Nat.leb_spec maxp p); auto; lia.
    - destruct fuel as [|fuel]; [lia|]. cbn [svr_loop]. destruct (Nat.leb_spec maxp p); [now exists st|].
      destruct (two_fold (seq 0 2) ltac:(intros i Hi; apply in_seq in Hi; lia) (mksmo (sal st) (sb st) 0 false (srk st)) OK) as (st1 & F1 & OK1 & M1 & _).
      rewrite F1. change (todo (mksmo (sal st) (sb st) 0 false (srk st))) with (todo st) in M1. cbn [snch] in M1.
      destruct (negb (skkt st1)); [now exists st1|]. destruct (Nat.eqb_spec (snch st1) 0) as [Z|Z].
      + apply IH; [exact OK1| |lia]. rewrite Z in M1. assert (todo st1 * S maxp <= todo st * S maxp)%nat by (apply Nat.mul_le_mono_r; lia). lia.
      + apply IH; [exact OK1| |lia]. assert (T1 : todo st1 = 0%nat /\ todo st = 1%nat) by (unfold todo in *; destruct (Qeq_bool (al st 1) tau), (Qeq_bool (al st1 1) tau); lia).
        destruct T1 as (-> & T). rewrite T in M. lia.
  Qed.
  Lemma two_ends maxp : exists st', svr_loop 2 Y C Epsilon Tol K rnd (2 * maxp + 1) maxp 0 (smo0 2) = Some (Some st').
  Proof.
    apply (two_loop maxp (2 * maxp + 1)); [split; [reflexivity|cbn; lra]| |lia].
    unfold todo. destruct (Qeq_bool _ _); lia.
  Qed.
End Two.

(* ----------------------------------------------------------- a run that cycles *)
Definition cycX (i : nat) : Q := nth i [-2; -1; 1; -3] 0.
Definition cycK (i j : nat) : Q := cycX i * cycX j.
Definition cycY (i : nat) : Q := nth i [3; -3; -3; 3] 0.
Definition svr_pass (m : nat) (Y : nat -> Q) (C Epsilon Tol : Q) (K : nat -> nat -> Q) (rnd : nat -> nat) (st : smo) : option smo :=
  fold_left (svr_ostep m Y C Epsilon Tol K rnd) (seq 0 m) (Some (mksmo (sal st) (sb st) 0 false (srk st))).
Notation cyc_pass := (svr_pass 4 cycY 1 (1 # 10) (1 # 1000) cycK (fun _ => 1%nat)).
Definition cyc1 (n : nat) (k : nat) : smo := mksmo [49 # 90; -11 # 12; 49 # 180; 1 # 10] (5 # 2) n true k.
Definition cyc2 (n : nat) (k : nat) : smo := mksmo [29 # 45; -29 # 30; 29 # 90; 0] 3 n true k.
Lemma cyc_start : cyc_pass (smo0 4) = Some (cyc1 3 3).
Proof. vm_compute. reflexivity. Qed.
Lemma cyc_12 n k : cyc_pass (cyc1 n k) = Some (cyc2 2 (S (S k))).
Proof. vm_compute. reflexivity. Qed.
Lemma cyc_21 n k : cyc_pass (cyc2 n k) = Some (cyc1 2 (S (S k))).
Proof. vm_compute. reflexivity. Qed.
Lemma svr_loop_S m Y C Epsilon Tol K rnd fuel maxp p st st' : (p < maxp)%nat ->
  svr_pass m Y C Epsilon Tol K rnd st = Some st' -> skkt st' = true -> (0 < snch st')%nat ->
  svr_loop m Y C Epsilon Tol K rnd (S fuel) maxp p st = svr_loop m Y C Epsilon Tol K rnd fuel maxp 0 st'.
Proof.
  intros Hp F KK N. cbn [svr_loop]. destruct (Nat.leb_spec maxp p); [lia|].
  unfold svr_pass in F. rewrite F, KK. cbn [negb]. destruct (Nat.eqb_spec (snch st') 0); [lia|reflexivity].
Qed.
Lemma svr_loop_O m Y C Epsilon Tol K rnd maxp p st : (p < maxp)%nat -> svr_loop m Y C Epsilon Tol K rnd 0 maxp p st = None.
Proof. intros Hp. cbn [svr_loop]. destruct (Nat.leb_spec maxp p); [lia|reflexivity]. Qed.
(* a set of states that every pass maps to itself with some change *)
Lemma svr_trapped m Y C Epsilon Tol K rnd (P : smo -> Prop) maxp : (0 < maxp)%nat ->
  (forall st, P st -> exists st', svr_pass m Y C Epsilon Tol K rnd st = Some st' /\
     skkt st' = true /\ (0 < snch st')%nat /\ P st') ->
  forall fuel st, P st -> svr_loop m Y C Epsilon Tol K rnd fuel maxp 0 st = None.
Proof.
  intros Hm HP. induction fuel as [|fuel IH]; intros st Hst; [now apply svr_loop_O|].
  destruct (HP st Hst) as (st' & F & KK & N & P'). rewrite (svr_loop_S m Y C Epsilon Tol K rnd fuel maxp 0 st st' Hm F KK N). now apply IH.
Qed.
Definition cyc_set (st : smo) : Prop := st = smo0 4 \/ exists n k, st = cyc1 n k \/ st = cyc2 n k.
Lemma cyc_never maxp fuel : (0 < maxp)%nat -> svr_loop 4 cycY 1 (1 # 10) (1 # 1000) cycK (fun _ => 1%nat) fuel maxp 0 (smo0 4) = None.
Proof.
  intros Hm. apply (svr_trapped _ _ _ _ _ _ _ cyc_set maxp Hm); [|now left].
  intros st [ -> |(n & k & [ -> | -> ])].
  - exists (cyc1 3 3). split; [exact cyc_start|]. split; [reflexivity|]. split; [cbn [cyc1 snch]; lia|]. right. exists 3%nat, 3%nat. now left.
  - exists (cyc2 2 (S (S k))). split; [exact (cyc_12 n k)|]. split; [reflexivity|]. split; [cbn [cyc2 snch]; lia|]. right. do 2 eexists. right. reflexivity.
  - exists (cyc1 2 (S (S k))). split; [exact (cyc_21 n k)|]. split; [reflexivity|]. split; [cbn [cyc1 snch]; lia|]. right. do 2 eexists. left. reflexivity.
Qed.

(* ---------------------------------------------------- what a converged SVR satisfies *)
Section Tube.
  Variable m : nat.
  Variable Y : nat -> Q.
  Variables C Epsilon Tol : Q.
  Variable K : nat -> nat -> Q.
  Variable rnd : nat -> nat.
  Notation step := (svr_step m Y C Epsilon Tol K rnd).
  Notation ost := (svr_ostep m Y C Epsilon Tol K rnd).
  Definition svr_kkt_at (st : smo) (i : nat) : Prop :=
    let E := svr_f m K st i - Y i in (al st i < C -> - Epsilon <= E) /\ (- C < al st i -> E <= Epsilon).
  Lemma svr_step_kkt st i st' : step st i = Some st' -> skkt st' = false -> st' = st /\ svr_kkt_at st i.
  Proof.
    unfold svr_step, svr_kkt_at. cbv zeta. intros H KK.
    match type of H with (if ?c then _ else _) = _ => destruct c eqn:CO end.
    - exfalso. destruct (Nat.leb m 1); [discriminate|]. destruct (svr_newj _ _ _ _ _ _ _ _) as [a|].
      + match type of H with (if ?c then _ else _) = _ => destruct c end; apply (f_equal (option_map skkt)) in H; cbn [option_map skkt] in H; rewrite KK in H; discriminate.
      + apply (f_equal (option_map skkt)) in H; cbn [option_map skkt] in H; rewrite KK in H; discriminate.
    - assert (E : st' = st) by congruence. split; [exact E|].
      destruct (Qltb_spec (svr_f m K st i - Y i) (- Epsilon)), (Qltb_spec (al st i) C),
        (Qltb_spec Epsilon (svr_f m K st i - Y i)), (Qltb_spec (- C) (al st i)); try discriminate CO; split; intros; lra.
  Qed.
  Lemma svr_fold_kkt l : forall st st', fold_left ost l (Some st) = Some st' -> skkt st' = false -> st' = st /\ forall i, In i l -> svr_kkt_at st i.
  Proof.
    induction l as [|i l IH]; intros st st' F KK.
    - cbn in F. injection F as <-. split; auto. intros i [].
    - cbn [fold_left svr_ostep] in F. destruct (step st i) as [st1|] eqn:S; [|now rewrite svr_fold_None in F].
      destruct (IH st1 st' F KK) as (-> & H).
      destruct (svr_step_kkt st i st1 S KK) as (-> & H1). split; [reflexivity|]. intros k [<-|I]; [exact H1|exact (H k I)].
  Qed.
  Lemma svr_loop_kkt fuel maxp : forall p st st', svr_loop m Y C Epsilon Tol K rnd fuel maxp p st = Some (Some st') -> skkt st' = false ->
    ((maxp <= p)%nat /\ skkt st = false) \/ forall i, (i < m)%nat -> svr_kkt_at st' i.
  Proof.
    induction fuel as [|fuel IH]; intros p st st' F KK; cbn [svr_loop] in F.
    - destruct (Nat.leb_spec maxp p); [|discriminate]. injection F as <-. now left.
    - destruct (Nat.leb_spec maxp p); [injection F as <-; now left|].
      destruct (fold_left _ _ _) as [st1|] eqn:FO; [|discriminate]. destruct (skkt st1) eqn:K1; cbn [negb] in F.
      + destruct (IH _ _ _ F KK) as [(A & B)|A]; [congruence|now right].
      + injection F as <-. right. destruct (svr_fold_kkt _ _ _ FO K1) as (E & HH). intros i Hi.
        rewrite E. apply HH. apply in_seq. lia.
  Qed.
End Tube.

(* ------------------------------------------------- dropping small dual variables *)
Lemma dropped_le (keep : nat -> bool) (u : nat -> Q) (c : Q) (g : nat -> Q) l : 0 <= c ->
  (forall i, In i l -> keep i = false -> Qabs (u i) <= c * Qabs (g i)) ->
  Qabs (qsum (map u (filter keep l)) - qsum (map u l)) <= c * qsum (map (fun i => if keep i then 0 else Qabs (g i)) l).
Proof.
  intros Hc H. induction l as [|i l IH]; [cbn [filter map]; change (qsum []) with 0; change (Qabs (0 - 0)) with 0; lra|]. cbn [filter map]. rewrite !qsum_cons.
  assert (IH' := IH (fun k Hk => H k (or_intror Hk))). specialize (H i (or_introl eq_refl)).
  destruct (keep i); cbn [map].
  - rewrite qsum_cons. setoid_replace (u i + qsum (map u (filter keep l)) - (u i + qsum (map u l))) with (qsum (map u (filter keep l)) - qsum (map u l)) by ring. lra.
  - specialize (H eq_refl).
    setoid_replace (qsum (map u (filter keep l)) - (u i + qsum (map u l))) with ((qsum (map u (filter keep l)) - qsum (map u l)) + - u i) by ring.
    eapply Qle_trans; [apply Qabs_triangle|]. rewrite Qabs_opp. lra.
Qed.
Lemma svr_pruned m Y C Epsilon Tol K rnd fuel maxp md : svr_train m Y C Epsilon Tol K rnd fuel maxp = Some (Some md) -> 0 <= Tol ->
  exists st, svr_loop m Y C Epsilon Tol K rnd fuel maxp 0 (smo0 m) = Some (Some st) /\ snd md = sb st /\
  fst md = map (fun i => (i, al st i)) (filter (fun i => Qltb Tol (Qabs (al st i))) (seq 0 m)) /\
  forall kx, Qabs (svr_predict md kx - (sb st + qsum (map (fun i => al st i * kx i) (seq 0 m)))) <=
    Tol * qsum (map (fun i => if Qltb Tol (Qabs (al st i)) then 0 else Qabs (kx i)) (seq 0 m)).
Proof.
  unfold svr_train. intros H HT. destruct (svr_loop _ _ _ _ _ _ _ _ _ _ _) as [[st|]|]; try discriminate. exists st. split; [reflexivity|].
  set (idx := filter _ _) in *. assert (E : md = (map (fun i => (i, al st i)) idx, sb st)) by (destruct idx; [discriminate|]; injection H as <-; reflexivity).
  rewrite E. cbn [fst snd]. split; [reflexivity|]. split; [reflexivity|]. intros kx. unfold svr_predict. cbn [fst snd]. rewrite qsum_cons, map_map. cbn [fst snd].
  setoid_replace (sb st + qsum (map (fun i => al st i * kx i) idx) - (sb st + qsum (map (fun i => al st i * kx i) (seq 0 m))))
    with (qsum (map (fun i => al st i * kx i) idx) - qsum (map (fun i => al st i * kx i) (seq 0 m))) by ring.
  apply dropped_le; [exact HT|]. intros i _ F. rewrite Qabs_Qmult. destruct (Qltb_spec Tol (Qabs (al st i))); [discriminate|].
  apply Qmult_le_compat_r; [assumption|apply Qabs_nonneg].
Qed.
Lemma svm_pruned m Y C Epsilon Tol K rnd fuel maxp md : svm_train m Y C Epsilon Tol K rnd fuel maxp = Some (Some md) ->
  0 <= C -> 0 <= Tol -> (forall i, (i < m)%nat -> Y i == 1 \/ Y i == -1) -> (forall t, (rnd t < m - 1)%nat) ->
  exists st, smo_loop m Y C Epsilon Tol K rnd fuel maxp 0 (smo0 m) = Some (Some st) /\ snd md = sb st /\
  fst md = map (fun i => (i, al st i)) (filter (fun i => Qltb Tol (al st i)) (seq 0 m)) /\
  forall kx, Qabs (svm_decision Y md kx - (sb st + qsum (map (fun i => al st i * Y i * kx i) (seq 0 m)))) <=
    Tol * qsum (map (fun i => if Qltb Tol (al st i) then 0 else Qabs (kx i)) (seq 0 m)).
Proof.
  unfold svm_train. intros H HC HT HY HR. destruct (smo_loop _ _ _ _ _ _ _ _ _ _ _) as [[st|]|] eqn:L; try discriminate. exists st. split; [reflexivity|].
  destruct (loop_feas m Y C Epsilon Tol K rnd HY HR fuel maxp 0%nat (smo0 m) st (box0 m C HC) (bal0 m Y) L) as ((_ & B) & _).
  set (idx := filter _ _) in *. assert (E : md = (map (fun i => (i, al st i)) idx, sb st)) by (destruct idx; [discriminate|]; injection H as <-; reflexivity).
  rewrite E. cbn [fst snd]. split; [reflexivity|]. split; [reflexivity|]. intros kx. unfold svm_decision. cbn [fst snd]. rewrite map_map. cbn [fst snd].
  setoid_replace (qsum (map (fun i => al st i * Y i * kx i) idx) + sb st - (sb st + qsum (map (fun i => al st i * Y i * kx i) (seq 0 m))))
    with (qsum (map (fun i => al st i * Y i * kx i) idx) - qsum (map (fun i => al st i * Y i * kx i) (seq 0 m))) by ring.
  apply dropped_le; [exact HT|]. intros i Hi F. apply in_seq in Hi. destruct (B i ltac:(lia)) as (B0 & _). destruct (Qltb_spec Tol (al st i)); [discriminate|].
  rewrite !Qabs_Qmult. assert (A1 : Qabs (al st i) == al st i) by (apply Qabs_pos; exact B0).
  assert (A2 : Qabs (Y i) == 1) by (destruct (HY i ltac:(lia)) as [-> | ->]; reflexivity). rewrite A1, A2, Qmult_1_r.
  apply Qmult_le_compat_r; [assumption|apply Qabs_nonneg].
Qed.
