(* Proofs about SvmModel.v: the training loops. *)
From Verif Require Import Common QCommon SvmModel SvmProofs.
From Coq Require Import Lqa Qround.
Open Scope Q_scope.

Lemma neg_gap (l : list Q) : exists g, 0 < g /\ forall x, In x l -> x < 0 -> g <= - x.
Proof.
  induction l as [|y l (g & G & H)]; [exists 1; split; [lra|intros x []]|].
  destruct (Qlt_le_dec y 0) as [L|L].
  - exists (qmin g (- y)). destruct (qmin_glb g (- y)) as (A & B & D). split.
    + destruct D as [-> | ->]; lra.
    + intros x [<-|I] X; [lra|]. specialize (H x I X). lra.
  - exists g. split; auto. intros x [<-|I] X; [lra|auto].
Qed.

Section Loop.
Variable m : nat.
Variable Y : nat -> Q.
Variables C Epsilon Tol : Q.
Variable K : nat -> nat -> Q.
Variable rnd : nat -> nat.
Hypothesis Ypm : forall i, (i < m)%nat -> Y i == 1 \/ Y i == -1.
Hypothesis Hrnd : forall t, (rnd t < m - 1)%nat.
Notation step := (smo_step m Y C Epsilon Tol K rnd).
Notation ost := (ostep m Y C Epsilon Tol K rnd).

Lemma fold_None l : fold_left ost l None = None.
Proof. induction l; auto. Qed.

Lemma fold_feas l : (forall i, In i l -> (i < m)%nat) -> forall st st', box m C st -> bal m Y st -> fold_left ost l (Some st) = Some st' -> box m C st' /\ bal m Y st'.
Proof.
  induction l as [|i l IH]; intros HL st st' B A F.
  - cbn in F. injection F as <-. now split.
  - cbn [fold_left ostep] in F. destruct (step st i) as [st1|] eqn:S; [|now rewrite fold_None in F].
    destruct (@feas_step m Y C Epsilon Tol K rnd Ypm Hrnd st i st1 B A) as [B1 A1]; auto; [apply HL; now left|].
    apply IH with st1; auto. intros k I. apply HL. now right.
Qed.

Lemma loop_feas fuel maxp : forall p st st', box m C st -> bal m Y st -> smo_loop m Y C Epsilon Tol K rnd fuel maxp p st = Some (Some st') -> box m C st' /\ bal m Y st'.
Proof.
  induction fuel as [|fuel IH]; intros p st st' B A F; cbn [smo_loop] in F.
  - destruct (Nat.leb maxp p); [|discriminate]. injection F as <-. now split.
  - destruct (Nat.leb maxp p); [injection F as <-; now split|].
    destruct (fold_left _ _ _) as [st1|] eqn:FO; [|discriminate].
    assert (G : box m C st1 /\ bal m Y st1).
    { eapply fold_feas; [| | |exact FO]; auto. intros i I. apply in_seq in I. lia. }
    destruct (negb (skkt st1)); [injection F as <-; tauto|].
    eapply IH; [| |exact F]; tauto.
Qed.

Lemma box0 : 0 <= C -> box m C (smo0 m).
Proof.
  intros H. split; [apply repeat_length|]. intros i L. unfold al; cbn [sal smo0]. rewrite nth_repeat. lra.
Qed.
Lemma bal0 : bal m Y (smo0 m).
Proof. unfold bal. apply qsum_zero. intros k _. unfold al; cbn [sal smo0]. rewrite nth_repeat. ring. Qed.

(* ------------------------------------------------------------ termination *)
Hypothesis Ksym : forall i j, (i < m)%nat -> (j < m)%nat -> K i j == K j i.

Lemma Yprod i j x k : (i < m)%nat -> (j < m)%nat -> 0 <= x -> - (x * (Y i * Y j) * k) <= x * Qabs k.
Proof.
  intros Hi Hj X. assert (A := Qle_Qabs k). assert (B := Qle_Qabs (- k)). rewrite Qabs_opp in B.
  destruct (Ypm i Hi) as [E|E], (Ypm j Hj) as [E'|E']; rewrite E, E'.
  - setoid_replace (- (x * (1 * 1) * k)) with (x * - k) by ring. nra.
  - setoid_replace (- (x * (1 * -1) * k)) with (x * k) by ring. nra.
  - setoid_replace (- (x * (-1 * 1) * k)) with (x * k) by ring. nra.
  - setoid_replace (- (x * (-1 * -1) * k)) with (x * - k) by ring. nra.
Qed.

Definition dbound : Q := qn m * C + (1 # 2) * qsum (map (fun k => qsum (map (fun l => C * C * Qabs (K k l)) (seq 0 m))) (seq 0 m)).
Lemma dual_le st : box m C st -> dual m Y K (al st) <= dbound.
Proof.
  intros (_ & B). unfold dual, dbound.
  assert (S1 : qsum (map (al st) (seq 0 m)) <= qn m * C).
  { apply Qle_trans with (qsum (map (fun _ => C) (seq 0 m))).
    - apply qsum_le. intros k I. apply in_seq in I. apply B. lia.
    - rewrite qsum_const, seq_length. lra. }
  assert (S2 : - qsum (map (fun k => al st k * Y k * qsum (map (fun l => al st l * Y l * K k l) (seq 0 m))) (seq 0 m))
     <= qsum (map (fun k => qsum (map (fun l => C * C * Qabs (K k l)) (seq 0 m))) (seq 0 m))).
  { setoid_replace (- qsum (map (fun k => al st k * Y k * qsum (map (fun l => al st l * Y l * K k l) (seq 0 m))) (seq 0 m)))
      with (qsum (map (fun k => (-1) * (al st k * Y k * qsum (map (fun l => al st l * Y l * K k l) (seq 0 m)))) (seq 0 m)))
      by (rewrite qsum_map_scale; ring).
    apply qsum_le. intros k I. apply in_seq in I.
    setoid_replace ((-1) * (al st k * Y k * qsum (map (fun l => al st l * Y l * K k l) (seq 0 m))))
      with (qsum (map (fun l => (- (al st k * Y k)) * (al st l * Y l * K k l)) (seq 0 m))) by (rewrite qsum_map_scale; ring).
    apply qsum_le. intros l J. apply in_seq in J.
    destruct (B k ltac:(lia)) as [K0 KC]. destruct (B l ltac:(lia)) as [L0 LC].
    setoid_replace (- (al st k * Y k) * (al st l * Y l * K k l)) with (- (al st k * al st l * (Y k * Y l) * K k l)) by ring.
    eapply Qle_trans; [apply Yprod; [lia|lia|nra]|].
    apply Qmult_le_compat_r; [nra|apply Qabs_nonneg]. }
  lra.
Qed.

Definition etas : list Q := flat_map (fun i => map (fun j => 2 * K i j - K i i - K j j) (seq 0 m)) (seq 0 m).
Lemma etas_In i j : (i < m)%nat -> (j < m)%nat -> In (2 * K i j - K i i - K j j) etas.
Proof.
  intros. apply in_flat_map. exists i. split; [apply in_seq; lia|]. apply in_map_iff. exists j. split; auto. apply in_seq; lia.
Qed.

Section Gap.
Variable g : Q.
Hypothesis G0 : 0 < g.
Hypothesis G1 : forall x, In x etas -> x < 0 -> g <= - x.
Hypothesis TOL : 0 < Tol.
Notation dlt := ((1 # 2) * g * (Tol * Tol)).

Lemma step_gain st i st' : box m C st -> (i < m)%nat -> step st i = Some st' ->
  (sal st' = sal st /\ snch st' = snch st) \/ (snch st' = S (snch st) /\ dual m Y K (al st) + dlt <= dual m Y K (al st')).
Proof.
  intros B Hi S. destruct (@smo_step_cases m Y C Epsilon Tol K rnd Ypm Hrnd st i st' B Hi S) as [(E & _ & N)|(j & AC)]; [now left|right].
  assert (D := @dual_step m Y C Tol K Ypm Ksym st st' i j AC TOL).
  destruct AC as (_ & _ & Hj & ETA & TD & _ & _ & _ & _ & _ & _ & NC). split; [exact NC|].
  cbn zeta in *. assert (GE := G1 _ (@etas_In i j Hi Hj) ETA).
  set (d := al st' j - al st j) in *. set (eta := 2 * K i j - K i i - K j j) in *.
  eapply Qle_trans; [|exact D]. apply Qplus_le_r.
  assert (DD : Tol * Tol <= d * d) by nra.
  assert (0 <= Tol * Tol) by nra.
  apply Qle_trans with ((1 # 2) * - eta * (Tol * Tol)).
  - apply Qmult_le_compat_r; [lra|auto].
  - assert (0 <= (1 # 2) * - eta) by lra. set (x := (1 # 2) * - eta) in *. clearbody x. clear - DD H0. nra.
Qed.

Lemma fold_gain l : (forall i, In i l -> (i < m)%nat) -> forall st st', box m C st -> bal m Y st -> fold_left ost l (Some st) = Some st' ->
  box m C st' /\ bal m Y st' /\ (snch st <= snch st')%nat /\ dual m Y K (al st) + (qn (snch st') - qn (snch st)) * dlt <= dual m Y K (al st').
Proof.
  induction l as [|i l IH]; intros HL st st' B A F.
  - cbn in F. injection F as <-. split; [exact B|]. split; [exact A|]. split; [lia|]. lra.
  - cbn [fold_left ostep] in F. destruct (step st i) as [st1|] eqn:S; [|now rewrite fold_None in F].
    assert (Hi : (i < m)%nat) by (apply HL; now left).
    destruct (@feas_step m Y C Epsilon Tol K rnd Ypm Hrnd st i st1 B A Hi S) as [B1 A1].
    destruct (IH (fun k I => HL k (or_intror I)) st1 st' B1 A1 F) as (B2 & A2 & N2 & D2).
    split; [exact B2|]. split; [exact A2|].
    destruct (@step_gain st i st1 B Hi S) as [(E & N)|(N & D)].
    + split; [lia|]. rewrite N in D2. unfold al in D2 at 1. rewrite E in D2. exact D2.
    + split; [lia|]. rewrite N, qn_S in D2. set (x := dlt) in *. assert (X : (qn (snch st') - qn (snch st)) * x == (qn (snch st') - (1 + qn (snch st))) * x + x) by ring.
      rewrite X. lra.
Qed.

Lemma fold_total l : (2 <= m)%nat -> forall st, exists st', fold_left ost l (Some st) = Some st'.
Proof.
  intros M. induction l as [|i l IH]; intros st; [now exists st|]. cbn [fold_left ostep].
  destruct (step st i) as [st1|] eqn:S; [apply IH|]. exfalso. eapply step_some; eauto.
Qed.

Lemma dlt_pos : 0 < dlt. Proof. assert (0 < Tol * Tol) by nra. nra. Qed.

Lemma loop_terminates maxp : (2 <= m)%nat -> forall N k p st, (maxp <= p + k)%nat -> box m C st -> bal m Y st -> dbound <= dual m Y K (al st) + qn N * dlt ->
  exists fuel st', smo_loop m Y C Epsilon Tol K rnd fuel maxp p st = Some (Some st').
Proof.
  intros M. assert (DP := dlt_pos). induction N as [|N IHN].
  - induction k as [|k IHk]; intros p st MP B A D.
    + exists 0%nat, st. cbn [smo_loop]. destruct (Nat.leb_spec maxp p); [auto|lia].
    + set (st0 := mksmo (sal st) (sb st) 0 false (srk st)).
      destruct (@fold_total (seq 0 m) M st0) as (st1 & F).
      assert (SQ : forall i, In i (seq 0 m) -> (i < m)%nat) by (intros i I; apply in_seq in I; lia).
      destruct (@fold_gain (seq 0 m) SQ st0 st1 B A F) as (B1 & A1 & _ & D1). cbn [snch st0] in D1. change (al st0) with (al st) in D1.
      destruct (skkt st1) eqn:KK.
      2:{ exists 1%nat. cbn [smo_loop]. destruct (Nat.leb maxp p); [now exists st|]. fold st0. rewrite F, KK. cbn. now exists st1. }
      destruct (snch st1) as [|n] eqn:NC.
      * destruct (IHk (S p) st1) as (fuel & st2 & L); auto; [lia| |].
        { change (qn 0) with 0 in *. lra. }
        exists (S fuel). cbn [smo_loop]. destruct (Nat.leb maxp p); [now exists st|]. fold st0. rewrite F, KK, NC. cbn. now exists st2.
      * exfalso. assert (DL := @dual_le st1 B1). rewrite qn_S in D1. change (qn 0) with 0 in *.
        assert (0 <= qn n) by apply qn_nonneg. set (x := dlt) in *. nra.
  - induction k as [|k IHk]; intros p st MP B A D.
    + exists 0%nat, st. cbn [smo_loop]. destruct (Nat.leb_spec maxp p); [auto|lia].
    + set (st0 := mksmo (sal st) (sb st) 0 false (srk st)).
      destruct (@fold_total (seq 0 m) M st0) as (st1 & F).
      assert (SQ : forall i, In i (seq 0 m) -> (i < m)%nat) by (intros i I; apply in_seq in I; lia).
      destruct (@fold_gain (seq 0 m) SQ st0 st1 B A F) as (B1 & A1 & _ & D1). cbn [snch st0] in D1. change (al st0) with (al st) in D1.
      destruct (skkt st1) eqn:KK.
      2:{ exists 1%nat. cbn [smo_loop]. destruct (Nat.leb maxp p); [now exists st|]. fold st0. rewrite F, KK. cbn. now exists st1. }
      destruct (snch st1) as [|n] eqn:NC.
      * destruct (IHk (S p) st1) as (fuel & st2 & L); auto; [lia| |].
        { change (qn 0) with 0 in *. set (x := qn (S N) * dlt) in *. clearbody x. lra. }
        exists (S fuel). cbn [smo_loop]. destruct (Nat.leb maxp p); [now exists st|]. fold st0. rewrite F, KK, NC. cbn. now exists st2.
      * destruct (IHN maxp 0%nat st1) as (fuel & st2 & L); [lia|exact B1|exact A1| |].
        { rewrite qn_S in D, D1. change (qn 0) with 0 in *. assert (0 <= qn n) by apply qn_nonneg. set (x := dlt) in *. nra. }
        exists (S fuel). cbn [smo_loop]. destruct (Nat.leb maxp p); [now exists st|]. fold st0. rewrite F, KK, NC. cbn. now exists st2.
Qed.
End Gap.

Lemma arch x d : 0 < d -> exists N, x <= qn N * d.
Proof.
  intros D. exists (Z.to_nat (Qceiling (x / d))).
  assert (H := Qle_ceiling (x / d)).
  assert (H2 : inject_Z (Qceiling (x / d)) <= qn (Z.to_nat (Qceiling (x / d)))).
  { unfold qn. rewrite <- Zle_Qle. lia. }
  apply Qle_trans with ((x / d) * d); [apply Qle_lteq; right; field; lra|].
  apply Qmult_le_compat_r; lra.
Qed.

Theorem smo_terminates maxp : (2 <= m)%nat -> 0 <= C -> 0 < Tol -> exists fuel st', smo_loop m Y C Epsilon Tol K rnd fuel maxp 0 (smo0 m) = Some (Some st').
Proof.
  intros M HC T. destruct (neg_gap etas) as (g & G0 & G1).
  assert (DP := @dlt_pos g G0 T).
  destruct (@arch (dbound - dual m Y K (al (smo0 m))) _ DP) as (N & HN).
  apply (@loop_terminates g G0 G1 T maxp M N maxp 0%nat (smo0 m)); [lia|now apply box0|apply bal0|lra].
Qed.

(* -------------------------------------------------------------------- KKT *)
Lemma step_kkt st i st' : step st i = Some st' -> skkt st' = false -> st' = st /\
  let E := svm_f m Y K st i - Y i in (al st i < C -> - Epsilon <= Y i * E) /\ (0 < al st i -> Y i * E <= Epsilon).
Proof.
  unfold smo_step. cbn zeta.
  destruct (Qltb_spec (Y i * (svm_f m Y K st i - Y i)) (- Epsilon)) as [A|A], (Qltb_spec (al st i) C) as [B|B],
    (Qltb_spec Epsilon (Y i * (svm_f m Y K st i - Y i))) as [D|D], (Qltb_spec 0 (al st i)) as [E|E]; cbn [andb orb].
  all: try (injection 1 as <-; intros _; split; [reflexivity|]; split; intros; lra).
  all: destruct (Nat.leb m 1); [discriminate|]; destruct (Qeq_bool _ _); [injection 1 as <-; discriminate|];
    destruct (Qle_bool _ _); [injection 1 as <-; discriminate|]; destruct (Qltb _ Tol); injection 1 as <-; discriminate.
Qed.
Lemma step_kkt_mono st i st' : step st i = Some st' -> skkt st = true -> skkt st' = true.
Proof.
  unfold smo_step. cbn zeta. destruct (_ || _)%bool; [|injection 1 as <-; auto].
  destruct (Nat.leb m 1); [discriminate|]; destruct (Qeq_bool _ _); [injection 1 as <-; auto|];
    destruct (Qle_bool _ _); [injection 1 as <-; auto|]; destruct (Qltb _ Tol); injection 1 as <-; auto.
Qed.
Lemma fold_kkt l : forall st st', fold_left ost l (Some st) = Some st' -> skkt st' = false -> st' = st /\ forall i, In i l ->
  let E := svm_f m Y K st i - Y i in (al st i < C -> - Epsilon <= Y i * E) /\ (0 < al st i -> Y i * E <= Epsilon).
Proof.
  induction l as [|i l IH]; intros st st' F KK.
  - cbn in F. injection F as <-. split; auto. intros i [].
  - cbn [fold_left ostep] in F. destruct (step st i) as [st1|] eqn:S; [|now rewrite fold_None in F].
    destruct (IH st1 st' F KK) as (-> & H).
    destruct (@step_kkt st i st1 S KK) as (-> & H1). split; [reflexivity|]. intros k [<-|I]; [exact H1|exact (H k I)].
Qed.
Lemma loop_kkt fuel maxp : forall p st st', smo_loop m Y C Epsilon Tol K rnd fuel maxp p st = Some (Some st') -> skkt st' = false ->
  ((maxp <= p)%nat /\ skkt st = false) \/ kkt m Y C Epsilon K (al st') (sb st').
Proof.
  induction fuel as [|fuel IH]; intros p st st' F KK; cbn [smo_loop] in F.
  - destruct (Nat.leb_spec maxp p); [|discriminate]. injection F as <-. now left.
  - destruct (Nat.leb_spec maxp p); [injection F as <-; now left|].
    destruct (fold_left _ _ _) as [st1|] eqn:FO; [|discriminate].
    destruct (skkt st1) eqn:K1; cbn [negb] in F.
    + right. destruct (IH _ _ _ F KK) as [(_ & X)|X]; [congruence|exact X].
    + injection F as <-. right. destruct (@fold_kkt _ _ _ FO K1) as (E & HK).
      intros i Hi. assert (I : In i (seq 0 m)) by (apply in_seq; lia). specialize (HK i I). rewrite <- E in HK. cbn zeta in *.
      unfold svm_f in HK. rewrite qsum_cons in HK. exact HK.
Qed.
End Loop.

(* ------------------------------------------- labels the code cannot learn *)
Section Labels.
Variable m : nat.
Variable Y : nat -> Q.
Variables C Epsilon Tol : Q.
Variable K : nat -> nat -> Q.
Variable rnd : nat -> nat.
Hypothesis Yl : forall i j, (i < m)%nat -> (j < m)%nat -> Y i == Y j \/ Y i == 0 \/ Y j == 0.
Hypothesis Hrnd : forall t, (rnd t < m - 1)%nat.
Hypothesis HC : 0 <= C.
Hypothesis HE : 0 <= Epsilon.
Hypothesis HT : 0 < Tol.
Notation step := (smo_step m Y C Epsilon Tol K rnd).
Notation ost := (ostep m Y C Epsilon Tol K rnd).
Definition zero (st : smo) : Prop := forall k, al st k == 0.

Lemma zero_step st i st' : zero st -> (i < m)%nat -> step st i = Some st' -> zero st' /\ snch st' = snch st.
Proof.
  intros Z Hi. unfold smo_step. cbn zeta.
  destruct (_ || _)%bool eqn:CO; [|injection 1 as <-; now split].
  destruct (Nat.leb_spec m 1); [discriminate|].
  assert (YI : ~ Y i == 0).
  { intros E. assert (P : Y i * (svm_f m Y K st i - Y i) == 0) by (rewrite E; ring).
    destruct (Qltb_spec (Y i * (svm_f m Y K st i - Y i)) (- Epsilon)), (Qltb_spec Epsilon (Y i * (svm_f m Y K st i - Y i))); cbn in CO; try discriminate; lra. }
  set (j := if Nat.leb i (rnd (srk st)) then S (rnd (srk st)) else rnd (srk st)).
  assert (Hj : (j < m)%nat) by (assert (R := Hrnd (srk st)); unfold j; destruct (Nat.leb i (rnd (srk st))); lia).
  set (st1 := mksmo (sal st) (sb st) (snch st) true (S (srk st))).
  change (al st1 j) with (al st j). change (al st1 i) with (al st i).
  assert (Zi := Z i). assert (Zj := Z j).
  destruct (Qeqb_spec (if Qeq_bool (Y i) (Y j) then qmax 0 (al st j + al st i - C) else qmax 0 (al st j - al st i))
     (if Qeq_bool (Y i) (Y j) then qmin C (al st j + al st i) else qmin C (C + al st j - al st i))) as [|LH]; [injection 1 as <-; now split|].
  destruct (Qle_bool _ _); [injection 1 as <-; now split|].
  destruct (Qeqb_spec (Y i) (Y j)) as [EY|EY].
  { exfalso. apply LH. destruct (qmax_lub 0 (al st j + al st i - C)) as (A1 & A2 & A3), (qmin_glb C (al st j + al st i)) as (B1 & B2 & B3).
    destruct A3 as [-> | A3], B3 as [B3| ->]; try rewrite A3 in *; try rewrite B3 in *; lra. }
  destruct (Yl i j Hi Hj) as [E|[E|E]]; [contradiction|contradiction|].
  match goal with |- context[Qltb (?x - _) Tol] => assert (X : x == 0) end.
  { rewrite Qred_correct. match goal with |- context[qmin _ (?a - ?b)] => set (t := a - b); assert (T : t == 0) end.
    { unfold t. rewrite E, Zj. unfold Qdiv. ring. }
    destruct (qmax_lub 0 (al st j - al st i)) as (A1 & A2 & A3), (qmin_glb C (C + al st j - al st i)) as (B1 & B2 & B3).
    assert (L0 : qmax 0 (al st j - al st i) == 0) by (destruct A3 as [-> | ->]; lra).
    assert (H0 : 0 <= qmin C (C + al st j - al st i)) by (destruct B3 as [-> | ->]; lra).
    set (L := qmax 0 _) in *. set (H1 := qmin C _) in *.
    destruct (qmin_glb H1 t) as (D1 & D2 & D3), (qmax_lub L (qmin H1 t)) as (F1 & F2 & F3).
    destruct F3 as [F3|F3]; rewrite F3 in *; [exact L0|]. destruct D3 as [D3|D3]; rewrite D3 in *; lra. }
  match goal with |- context[Qltb ?x Tol] => destruct (Qltb_spec x Tol) as [_|BAD] end; [injection 1 as <-; now split|].
  exfalso. lra.
Qed.
Lemma zero_fold l : (forall i, In i l -> (i < m)%nat) -> forall st st', zero st -> fold_left ost l (Some st) = Some st' -> zero st' /\ snch st' = snch st.
Proof.
  induction l as [|i l IH]; intros HL st st' Z F.
  - cbn in F. injection F as <-. now split.
  - cbn [fold_left ostep] in F. destruct (step st i) as [st1|] eqn:S; [|now rewrite fold_None in F].
    destruct (@zero_step st i st1 Z (HL i (or_introl eq_refl)) S) as (Z1 & N1).
    destruct (IH (fun k I => HL k (or_intror I)) st1 st' Z1 F) as (Z2 & N2). split; [exact Z2|congruence].
Qed.
Lemma zero_loop maxp : forall fuel p st, (maxp <= p + fuel)%nat -> zero st ->
  exists r, smo_loop m Y C Epsilon Tol K rnd fuel maxp p st = Some r /\ forall st', r = Some st' -> zero st'.
Proof.
  induction fuel as [|fuel IH]; intros p st L Z; cbn [smo_loop].
  - destruct (Nat.leb_spec maxp p); [|lia]. exists (Some st). split; auto. now injection 1 as <-.
  - destruct (Nat.leb_spec maxp p). { exists (Some st). split; auto. now injection 1 as <-. }
    destruct (fold_left _ _ _) as [st1|] eqn:F; [|exists None; split; [auto|discriminate]].
    assert (SQ : forall i, In i (seq 0 m) -> (i < m)%nat) by (intros i I; apply in_seq in I; lia).
    destruct (@zero_fold _ SQ (mksmo (sal st) (sb st) 0 false (srk st)) st1 Z F) as (Z1 & N1). cbn in N1.
    destruct (negb (skkt st1)). { exists (Some st1). split; auto. now injection 1 as <-. }
    rewrite N1. cbn [Nat.eqb]. apply IH; [lia|exact Z1].
Qed.
Lemma zero0 : zero (smo0 m).
Proof. intros k. unfold al; cbn [sal smo0]. destruct (Nat.ltb_spec k m); [rewrite nth_repeat; lra|rewrite nth_overflow by (rewrite repeat_length; lia); lra]. Qed.
Lemma zero_train fuel maxp : (maxp <= fuel)%nat -> svm_train m Y C Epsilon Tol K rnd fuel maxp = Some None.
Proof.
  intros L. unfold svm_train. destruct (@zero_loop maxp fuel 0%nat (smo0 m) ltac:(lia) zero0) as ([st|] & -> & H); auto.
  specialize (H st eq_refl).
  assert (F : filter (fun i => Qltb Tol (al st i)) (seq 0 m) = []).
  { induction (seq 0 m) as [|x l IH]; auto. cbn [filter]. destruct (Qltb_spec Tol (al st x)) as [B|]; auto. assert (Hx := H x). exfalso; lra. }
  now rewrite F.
Qed.
End Labels.

(* -------------------------------------------------------------------- SVR *)
Section SvrP.
Variable m : nat.
Variable Y : nat -> Q.
Variables C Epsilon Tol : Q.
Variable K : nat -> nat -> Q.
Variable rnd : nat -> nat.
Hypothesis Hrnd : forall t, (rnd t < m - 1)%nat.
Notation step := (svr_step m Y C Epsilon Tol K rnd).
Notation ost := (svr_ostep m Y C Epsilon Tol K rnd).
Definition rbox (st : smo) : Prop := length (sal st) = m /\ forall i, (i < m)%nat -> - C <= al st i <= C.
Definition rbal (st : smo) : Prop := qsum (map (al st) (seq 0 m)) == 0.

Lemma svr_pick_ok E i j : j <> i -> (j < m)%nat -> svr_pick m Epsilon E i j <> i /\ (svr_pick m Epsilon E i j < m)%nat.
Proof.
  intros N L. unfold svr_pick. destruct (find _ _) as [j3|] eqn:F; [|now split].
  apply find_some in F. destruct F as [I F]. apply in_map_iff in I. destruct I as (x & <- & _).
  split; [|apply Nat.mod_upper_bound; lia].
  intros EQ. rewrite EQ, Nat.eqb_refl in F. discriminate.
Qed.

Lemma svr_feas_step st i st' : rbox st -> rbal st -> (i < m)%nat -> step st i = Some st' -> rbox st' /\ rbal st'.
Proof.
  intros (LEN & B) A Hi. unfold svr_step. cbn zeta.
  destruct (_ || _)%bool; [|injection 1 as <-; now split].
  destruct (Nat.leb_spec m 1) as [|M1]; [discriminate|].
  set (E := fun j => svr_f m K st j - Y j).
  set (j0 := if Nat.leb i (rnd (srk st)) then S (rnd (srk st)) else rnd (srk st)).
  assert (J0 : j0 <> i /\ (j0 < m)%nat) by (assert (R := Hrnd (srk st)); unfold j0; destruct (Nat.leb_spec i (rnd (srk st))); lia).
  destruct (@svr_pick_ok E i j0 (proj1 J0) (proj2 J0)) as (JN & JM).
  set (j := svr_pick m Epsilon E i j0) in *. clearbody j. clear j0 J0.
  set (st1 := mksmo (sal st) (sb st) (snch st) true (S (srk st))).
  change (al st1 j) with (al st j). change (al st1 i) with (al st i).
  assert (R1 : rbox st1 /\ rbal st1) by (split; [now split|exact A]).
  destruct (svr_newj _ _ _ _ _ _ _ _) as [a|]; [|injection 1 as <-; exact R1].
  destruct (_ || _)%bool; [injection 1 as <-; exact R1|].
  set (s := al st i + al st j). set (L := qmax (s - C) (- C)). set (H := qmin C (C + s)).
  set (aj' := Qred (qmin H (qmax L a))). assert (RJ : aj' == qmin H (qmax L a)) by apply Qred_correct.
  set (ai' := Qred (s - aj')). assert (RI : ai' == s - aj') by apply Qred_correct. intros X. injection X as <-.
  destruct (B i Hi) as [Bi0 BiC]. destruct (B j JM) as [Bj0 BjC].
  assert (LE : L <= H).
  { unfold L, H, s. destruct (qmax_lub (al st i + al st j - C) (- C)) as (_ & _ & [-> | ->]), (qmin_glb C (C + (al st i + al st j))) as (_ & _ & [-> | ->]); lra. }
  assert (AJ : L <= aj' <= H).
  { rewrite RJ. clear RJ RI. destruct (qmax_lub L a) as (P1 & P2 & _), (qmin_glb H (qmax L a)) as (P3 & P4 & P5). destruct P5 as [E5|E5]; rewrite E5 in *; lra. }
  destruct (qmax_lub (s - C) (- C)) as (P1 & P2 & _), (qmin_glb C (C + s)) as (P3 & P4 & _). fold L in P1, P2. fold H in P3, P4.
  assert (NTH : forall k b c f g, al (mksmo (upd (upd (sal st) j aj') i ai') b c f g) k = if Nat.eqb k i then ai' else if Nat.eqb k j then aj' else al st k).
  { intros. unfold al; cbn [sal]. rewrite nth_upd2 by (auto; lia). reflexivity. }
  split.
  - split; [cbn [sal st1]; now rewrite !upd_length|]. intros k Hk. cbn [sal st1]. rewrite NTH.
    destruct (Nat.eqb k i); [lra|]. destruct (Nat.eqb k j); [lra|auto].
  - unfold rbal. cbn [sal st1].
    rewrite (qsum_map_ext _ (fun k => (if Nat.eqb k i then ai' else if Nat.eqb k j then aj' else al st k) * 1)) by (intros k _; rewrite NTH; ring).
    rewrite (@sum_pair (al st) _ (fun _ => 1) (aj' - al st j) i j m Hi JM).
    + rewrite (qsum_map_ext _ (al st)) by (intros; ring). unfold rbal in A. rewrite A. ring.
    + intros k Hk. unfold dl. destruct (Nat.eqb_spec k i) as [->|].
      * destruct (Nat.eqb_spec i j); [congruence|]. rewrite RI. unfold s. ring.
      * destruct (Nat.eqb_spec k j) as [->|]; ring.
Qed.
Lemma svr_fold_None l : fold_left ost l None = None.
Proof. induction l; auto. Qed.
Lemma svr_fold_feas l : (forall i, In i l -> (i < m)%nat) -> forall st st', rbox st -> rbal st -> fold_left ost l (Some st) = Some st' -> rbox st' /\ rbal st'.
Proof.
  induction l as [|i l IH]; intros HL st st' B A F.
  - cbn in F. injection F as <-. now split.
  - cbn [fold_left svr_ostep] in F. destruct (step st i) as [st1|] eqn:S; [|now rewrite svr_fold_None in F].
    destruct (@svr_feas_step st i st1 B A (HL i (or_introl eq_refl)) S) as [B1 A1].
    apply IH with st1; auto. intros k I. apply HL. now right.
Qed.
Lemma svr_loop_feas fuel maxp : forall p st st', rbox st -> rbal st -> svr_loop m Y C Epsilon Tol K rnd fuel maxp p st = Some (Some st') -> rbox st' /\ rbal st'.
Proof.
  induction fuel as [|fuel IH]; intros p st st' B A F; cbn [svr_loop] in F.
  - destruct (Nat.leb maxp p); [|discriminate]. injection F as <-. now split.
  - destruct (Nat.leb maxp p); [injection F as <-; now split|].
    destruct (fold_left _ _ _) as [st1|] eqn:FO; [|discriminate].
    assert (G : rbox st1 /\ rbal st1).
    { eapply svr_fold_feas; [| | |exact FO]; auto. intros i I. apply in_seq in I. lia. }
    destruct (negb (skkt st1)); [injection F as <-; tauto|].
    eapply IH; [| |exact F]; tauto.
Qed.
Lemma rbox0 : 0 <= C -> rbox (smo0 m).
Proof. intros H. split; [apply repeat_length|]. intros i L. unfold al; cbn [sal smo0]. rewrite nth_repeat. lra. Qed.
Lemma rbal0 : rbal (smo0 m).
Proof. unfold rbal. apply qsum_zero. intros k _. unfold al; cbn [sal smo0]. rewrite nth_repeat. lra. Qed.

(* targets inside the tube, or all equal: no support vector *)
Lemma svr_f_zero st i : (forall k, al st k == 0) -> svr_f m K st i == sb st.
Proof. intros Z. unfold svr_f. rewrite qsum_cons, qsum_zero; [ring|]. intros k _. rewrite Z. ring. Qed.
Hypothesis HT : 0 < Tol.
Hypothesis HC : 0 <= C.
Lemma const_step st i st' c : (forall k, (k < m)%nat -> Y k == c) -> zero st -> (i < m)%nat -> step st i = Some st' -> zero st' /\ snch st' = snch st.
Proof.
  intros YC Z Hi. unfold svr_step. cbn zeta.
  destruct (_ || _)%bool; [|injection 1 as <-; now split].
  destruct (Nat.leb_spec m 1) as [|M1]; [discriminate|].
  set (E := fun j => svr_f m K st j - Y j).
  set (j0 := if Nat.leb i (rnd (srk st)) then S (rnd (srk st)) else rnd (srk st)).
  assert (J0 : j0 <> i /\ (j0 < m)%nat) by (assert (R := Hrnd (srk st)); unfold j0; destruct (Nat.leb_spec i (rnd (srk st))); lia).
  destruct (@svr_pick_ok E i j0 (proj1 J0) (proj2 J0)) as (JN & JM).
  set (j := svr_pick m Epsilon E i j0) in *. clearbody j. clear j0 J0.
  set (st1 := mksmo (sal st) (sb st) (snch st) true (S (srk st))).
  change (al st1 j) with (al st j). change (al st1 i) with (al st i).
  assert (Zi := Z i). assert (Zj := Z j).
  assert (EE : E i == E j).
  { unfold E. rewrite !svr_f_zero by exact Z. rewrite (YC i Hi), (YC j JM). reflexivity. }
  unfold svr_newj. change (svr_f m K st i - Y i) with (E i). change (svr_f m K st j - Y j) with (E j).
  destruct (Qeqb_spec (2 * K i j - K i i - K j j) 0) as [|ET].
  { destruct (Qeqb_spec (E i) (E j)); [|contradiction]. injection 1 as <-. now split. }
  set (a := al st j - (E i - E j) / _).
  assert (A0 : a == 0). { unfold a. rewrite EE, Zj. unfold Qdiv. ring. }
  destruct (Qltb_spec ((al st i + al st j - a) * a) 0) as [BAD|_].
  { exfalso. rewrite A0 in BAD. rewrite Qmult_0_r in BAD. lra. }
  set (L := qmax (al st i + al st j - C) (- C)). set (H := qmin C (C + (al st i + al st j))). set (aj' := Qred (qmin H (qmax L a))).
  assert (AJ : aj' == 0).
  { assert (LL : L <= 0) by (unfold L; destruct (qmax_lub (al st i + al st j - C) (- C)) as (_ & _ & [-> | ->]); lra).
    assert (HH : 0 <= H) by (unfold H; destruct (qmin_glb C (C + (al st i + al st j))) as (_ & _ & [-> | ->]); lra).
    unfold aj'. rewrite Qred_correct. destruct (qmax_lub L a) as (P1 & P2 & P6), (qmin_glb H (qmax L a)) as (P3 & P4 & P5).
    destruct P6 as [E6|E6]; rewrite E6 in *; destruct P5 as [E5|E5]; rewrite E5 in *; lra. }
  destruct (Qltb_spec (Qabs (aj' - al st j)) Tol) as [_|BAD].
  { cbn [orb]. injection 1 as <-. now split. }
  exfalso. assert (Q0 : aj' - al st j == 0) by lra. rewrite Q0 in BAD. cbn in BAD. lra.
Qed.
Lemma tube_step st i st' : (forall k, (k < m)%nat -> Qabs (Y k) <= Epsilon) -> zero st -> sb st == 0 -> (i < m)%nat -> step st i = Some st' -> st' = st.
Proof.
  intros YT Z SB Hi. unfold svr_step. cbn zeta.
  assert (E0 : svr_f m K st i - Y i == - Y i) by (rewrite svr_f_zero by exact Z; rewrite SB; ring).
  assert (T := YT i Hi). assert (T1 := Qle_Qabs (Y i)). assert (T2 := Qle_Qabs (- Y i)). rewrite Qabs_opp in T2.
  destruct (Qltb_spec (svr_f m K st i - Y i) (- Epsilon)); [exfalso; lra|].
  destruct (Qltb_spec Epsilon (svr_f m K st i - Y i)); [exfalso; lra|]. cbn. now injection 1 as <-.
Qed.
Lemma filt_zero st : zero st -> filter (fun i => Qltb Tol (Qabs (al st i))) (seq 0 m) = [].
Proof.
  intros Z. induction (seq 0 m) as [|x l IH]; auto. cbn [filter]. destruct (Qltb_spec Tol (Qabs (al st x))) as [B|]; auto.
  assert (Hx := Z x). rewrite Hx in B. cbn in B. exfalso; lra.
Qed.
Lemma tube_train fuel maxp : (forall k, (k < m)%nat -> Qabs (Y k) <= Epsilon) -> svr_train m Y C Epsilon Tol K rnd (S fuel) (S maxp) = Some None.
Proof.
  intros YT. unfold svr_train. cbn [svr_loop Nat.leb].
  set (st0 := mksmo _ _ _ _ _).
  assert (Z0 : zero st0) by apply zero0.
  assert (F : fold_left ost (seq 0 m) (Some st0) = Some st0 \/ fold_left ost (seq 0 m) (Some st0) = None).
  { assert (SQ : forall i, In i (seq 0 m) -> (i < m)%nat) by (intros i I; apply in_seq in I; lia).
    induction (seq 0 m) as [|i l IH]; [now left|]. cbn [fold_left svr_ostep].
    destruct (step st0 i) as [st1|] eqn:S; [|right; apply svr_fold_None].
    rewrite (@tube_step st0 i st1 YT Z0 (Qeq_refl _) (SQ i (or_introl eq_refl)) S). apply IH. intros k I. apply SQ. now right. }
  destruct F as [-> | ->]; [|reflexivity]. cbn [skkt st0 negb]. now rewrite filt_zero.
Qed.
Lemma const_train fuel maxp c : (forall k, (k < m)%nat -> Y k == c) -> (maxp <= fuel)%nat -> svr_train m Y C Epsilon Tol K rnd fuel maxp = Some None.
Proof.
  intros YC L. unfold svr_train.
  assert (G : forall fuel p st, (maxp <= p + fuel)%nat -> zero st ->
     exists r, svr_loop m Y C Epsilon Tol K rnd fuel maxp p st = Some r /\ forall st', r = Some st' -> zero st').
  { clear L fuel. induction fuel as [|fuel IH]; intros p st L Z; cbn [svr_loop].
    - destruct (Nat.leb_spec maxp p); [|lia]. exists (Some st). split; auto. now injection 1 as <-.
    - destruct (Nat.leb_spec maxp p). { exists (Some st). split; auto. now injection 1 as <-. }
      destruct (fold_left _ _ _) as [st1|] eqn:F; [|exists None; split; [auto|discriminate]].
      assert (SQ : forall i, In i (seq 0 m) -> (i < m)%nat) by (intros i I; apply in_seq in I; lia).
      assert (Z1 : zero st1 /\ snch st1 = 0%nat).
      { change 0%nat with (snch (mksmo (sal st) (sb st) 0 false (srk st))).
        assert (ZZ : zero (mksmo (sal st) (sb st) 0 false (srk st))) by exact Z.
        revert F ZZ. generalize (mksmo (sal st) (sb st) 0 false (srk st)).
        induction (seq 0 m) as [|i l IHl]; intros s0 F ZZ.
        - cbn in F. injection F as <-. now split.
        - cbn [fold_left svr_ostep] in F. destruct (step s0 i) as [s1|] eqn:S; [|now rewrite svr_fold_None in F].
          destruct (@const_step s0 i s1 c YC ZZ (SQ i (or_introl eq_refl)) S) as (Z1 & N1).
          destruct (IHl (fun k I => SQ k (or_intror I)) s1 F Z1) as (Z2 & N2). split; [exact Z2|congruence]. }
      destruct Z1 as (Z1 & N1).
      destruct (negb (skkt st1)). { exists (Some st1). split; auto. now injection 1 as <-. }
      rewrite N1. cbn [Nat.eqb]. apply IH; [lia|exact Z1]. }
  destruct (G fuel 0%nat (smo0 m) ltac:(lia) (zero0 m)) as ([st|] & -> & H); auto.
  now rewrite (@filt_zero st (H st eq_refl)).
Qed.
End SvrP.
