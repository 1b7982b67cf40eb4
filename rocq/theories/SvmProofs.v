(* Proofs about SvmModel.v: SMO feasibility, dual ascent, termination; SVR. *)
From Verif Require Import Common QCommon SvmModel.
From Coq Require Import Lqa.
Open Scope Q_scope.

(* ------------------------------------------------------------------- sums *)
Lemma qsum_zero {A} (f : A -> Q) l : (forall x, In x l -> f x == 0) -> qsum (map f l) == 0.
Proof. intros H. rewrite (qsum_map_ext f (fun _ => 0) l H). rewrite qsum_const. ring. Qed.
Lemma qsum_one (f : nat -> Q) i l : NoDup l -> In i l -> (forall x, In x l -> x <> i -> f x == 0) -> qsum (map f l) == f i.
Proof.
  induction l as [|x l IH]; intros N I H; [destruct I|]. inversion N; subst. cbn [map]. rewrite qsum_cons.
  destruct I as [->|I].
  - rewrite qsum_zero; [ring|]. intros y Y. apply H; [now right|]. intros ->. contradiction.
  - rewrite IH; auto; [|intros; apply H; auto; now right]. rewrite (H x); [ring|now left|]. intros ->. contradiction.
Qed.
Definition dl (i k : nat) : Q := if Nat.eqb k i then 1 else 0.
Lemma sum_pair (u u' h : nat -> Q) c i j m : (i < m)%nat -> (j < m)%nat ->
  (forall k, (k < m)%nat -> u' k == u k + c * (dl j k - dl i k)) ->
  qsum (map (fun k => u' k * h k) (seq 0 m)) == qsum (map (fun k => u k * h k) (seq 0 m)) + c * (h j - h i).
Proof.
  intros Hi Hj H.
  rewrite (qsum_map_ext (fun k => u' k * h k) (fun k => u k * h k + (c * (dl j k * h k) + (- c) * (dl i k * h k)))).
  2:{ intros k I. apply in_seq in I. rewrite (H k) by lia. ring. }
  rewrite !qsum_map_plus.
  rewrite (qsum_map_scale (fun k => dl j k * h k) c), (qsum_map_scale (fun k => dl i k * h k) (- c)).
  rewrite (@qsum_one (fun k => dl j k * h k) j), (@qsum_one (fun k => dl i k * h k) i).
  - unfold dl. rewrite !Nat.eqb_refl. ring.
  - apply seq_NoDup.
  - apply in_seq. lia.
  - intros x _ N. unfold dl. destruct (Nat.eqb_spec x i); [congruence|]. ring.
  - apply seq_NoDup.
  - apply in_seq. lia.
  - intros x _ N. unfold dl. destruct (Nat.eqb_spec x j); [congruence|]. ring.
Qed.

Lemma nth_upd2 (l : list Q) i j k x y : i <> j -> (i < length l)%nat -> (j < length l)%nat ->
  nth k (upd (upd l j y) i x) 0 = if Nat.eqb k i then x else if Nat.eqb k j then y else nth k l 0.
Proof.
  intros N Li Lj. assert (NE : nth_error (upd (upd l j y) i x) k = if Nat.eqb k i then Some x else if Nat.eqb k j then Some y else nth_error l k).
  { rewrite !nth_error_upd, !upd_length. rewrite (Nat.eqb_sym i k), (Nat.eqb_sym j k).
    destruct (Nat.eqb_spec k i) as [->|]. { destruct (Nat.ltb_spec i (length l)); [auto|lia]. }
    destruct (Nat.eqb_spec k j) as [->|]; auto. destruct (Nat.ltb_spec j (length l)); [auto|lia]. }
  destruct (Nat.eqb k i); [now apply nth_error_nth|]. destruct (Nat.eqb k j); [now apply nth_error_nth|].
  destruct (nth_error l k) eqn:E.
  - rewrite (nth_error_nth _ _ _ NE). symmetry. now apply nth_error_nth.
  - rewrite !nth_overflow; auto; now apply nth_error_None.
Qed.

Lemma qmax_lub a b : a <= qmax a b /\ b <= qmax a b /\ (qmax a b = a \/ qmax a b = b).
Proof. unfold qmax. destruct (Qleb_spec a b); repeat split; auto; lra. Qed.
Lemma qmin_glb a b : qmin a b <= a /\ qmin a b <= b /\ (qmin a b = a \/ qmin a b = b).
Proof. unfold qmin. destruct (Qleb_spec a b); repeat split; auto; lra. Qed.
Lemma clip_in L H a : L <= H -> L <= qmax L (qmin H a) <= H.
Proof. intros. destruct (qmin_glb H a) as (A & B & D), (qmax_lub L (qmin H a)) as (X & Y & Z). destruct Z as [E|E]; rewrite E in *; lra. Qed.
(* the clipped point lies between the old point and the target *)
Lemma clip_between L H o t : L <= o <= H -> 0 < qmax L (qmin H t) - o -> qmax L (qmin H t) <= t.
Proof.
  intros [A B] P. destruct (qmin_glb H t) as (X & Y & D). unfold qmax in *. destruct (Qleb_spec L (qmin H t)) as [E|E]; [lra|lra].
Qed.

(* -------------------------------------------------------------------- SMO *)
Section SmoP.
Variable m : nat.
Variable Y : nat -> Q.
Variables C Epsilon Tol : Q.
Variable K : nat -> nat -> Q.
Variable rnd : nat -> nat.
Hypothesis Ypm : forall i, (i < m)%nat -> Y i == 1 \/ Y i == -1.
Hypothesis Hrnd : forall t, (rnd t < m - 1)%nat.

Definition box (st : smo) : Prop := length (sal st) = m /\ forall i, (i < m)%nat -> 0 <= al st i <= C.
Definition bal (st : smo) : Prop := qsum (map (fun k => al st k * Y k) (seq 0 m)) == 0.

Lemma pick_ok st i : (2 <= m)%nat -> (i < m)%nat -> let j0 := rnd (srk st) in let j := if Nat.leb i j0 then S j0 else j0 in j <> i /\ (j < m)%nat.
Proof. intros M I j0 j. assert (R := Hrnd (srk st)). unfold j. fold j0 in R. destruct (Nat.leb_spec i j0); lia. Qed.

(* what one visit of a sample does *)
Definition accepted (st st' : smo) (i j : nat) : Prop :=
  let Ei := svm_f m Y K st i - Y i in
  let Ej := svm_f m Y K st j - Y j in
  let eta := 2 * K i j - K i i - K j j in
  let d := al st' j - al st j in
  i <> j /\ (i < m)%nat /\ (j < m)%nat /\ eta < 0 /\ Tol <= d /\ length (sal st') = length (sal st) /\
  0 <= al st' j <= C /\ 0 <= al st' i <= C /\
  al st' i == al st i - Y i * Y j * d /\
  (forall k, k <> i -> k <> j -> al st' k = al st k) /\
  (0 < d -> d <= - (Y j * (Ei - Ej) / eta)) /\ snch st' = S (snch st).

Lemma smo_step_cases st i st' : box st -> (i < m)%nat -> smo_step m Y C Epsilon Tol K rnd st i = Some st' ->
  (sal st' = sal st /\ sb st' = sb st /\ snch st' = snch st) \/ exists j, accepted st st' i j.
Proof.
  intros (LEN & B) Hi. unfold smo_step.
  destruct (_ || _)%bool; [|injection 1 as <-; now left].
  destruct (Nat.leb_spec m 1) as [|M1]; [discriminate|].
  destruct (@pick_ok st i M1 Hi) as (JN & JM).
  set (j := if Nat.leb i (rnd (srk st)) then S (rnd (srk st)) else rnd (srk st)) in *.
  set (st1 := mksmo (sal st) (sb st) (snch st) true (S (srk st))).
  change (al st1 j) with (al st j). change (al st1 i) with (al st i).
  change (svm_f m Y K st1 j) with (svm_f m Y K st j).
  set (L := if Qeq_bool (Y i) (Y j) then _ else _). set (H := if Qeq_bool (Y i) (Y j) then qmin C _ else _).
  destruct (Qeq_bool L H); [injection 1 as <-; now left|].
  set (eta := 2 * K i j - K i i - K j j).
  destruct (Qleb_spec 0 eta) as [|ETA]; [injection 1 as <-; now left|].
  set (aj0 := qmax L (qmin H _)). set (aj' := Qred aj0). assert (RJ : aj' == aj0) by apply Qred_correct.
  destruct (Qltb_spec (aj' - al st j) Tol) as [|D]; [injection 1 as <-; now left|].
  set (ai0 := al st i + Y i * Y j * (al st j - aj')). set (ai' := Qred ai0). assert (RI : ai' == ai0) by apply Qred_correct. cbn zeta.
  set (b := Qred (if (_ && _)%bool then _ else _)). clearbody b.
  injection 1 as <-. right. exists j.
  destruct (B i Hi) as [Bi0 BiC]. destruct (B j JM) as [Bj0 BjC].
  assert (LH : L <= al st j <= H).
  { unfold L, H. destruct (Qeq_bool (Y i) (Y j)).
    - destruct (qmax_lub 0 (al st j + al st i - C)) as (_ & _ & [-> | ->]), (qmin_glb C (al st j + al st i)) as (_ & _ & [-> | ->]); lra.
    - destruct (qmax_lub 0 (al st j - al st i)) as (_ & _ & [-> | ->]), (qmin_glb C (C + al st j - al st i)) as (_ & _ & [-> | ->]); lra. }
  assert (AJ : L <= aj' <= H) by (rewrite RJ; apply clip_in; lra).
  assert (NI : forall c f g, al (mksmo (upd (upd (sal st) j aj') i ai') b c f g) i = ai').
  { intros. unfold al; cbn [sal]. rewrite nth_upd2 by (auto; lia). now rewrite Nat.eqb_refl. }
  assert (NJ : forall c f g, al (mksmo (upd (upd (sal st) j aj') i ai') b c f g) j = aj').
  { intros. unfold al; cbn [sal]. rewrite nth_upd2 by (auto; lia). destruct (Nat.eqb_spec j i); [congruence|]. now rewrite Nat.eqb_refl. }
  assert (AB : forall a, L <= a <= H -> 0 <= a <= C /\ 0 <= al st i + Y i * Y j * (al st j - a) <= C).
  { intros a AJ'. unfold L, H in AJ'. clear - Bi0 BiC Bj0 BjC Ypm Hi JM AJ'. clearbody j.
    destruct (Qeqb_spec (Y i) (Y j)) as [EY|EY].
    - destruct (qmax_lub 0 (al st j + al st i - C)) as (P1 & P2 & _), (qmin_glb C (al st j + al st i)) as (P3 & P4 & _).
      assert (YY : Y i * Y j == 1) by (destruct (Ypm i Hi) as [E|E], (Ypm j JM) as [E'|E']; rewrite E, E' in *; try ring; exfalso; lra).
      split; [lra|]. rewrite YY. lra.
    - destruct (qmax_lub 0 (al st j - al st i)) as (P1 & P2 & _), (qmin_glb C (C + al st j - al st i)) as (P3 & P4 & _).
      assert (YY : Y i * Y j == -1) by (destruct (Ypm i Hi) as [E|E], (Ypm j JM) as [E'|E']; rewrite E, E' in *; try ring; exfalso; apply EY; reflexivity).
      split; [lra|]. rewrite YY. lra. }
  specialize (AB aj' AJ). fold ai0 in AB. rewrite <- RI in AB.
  unfold accepted. cbn [sal sb snch srk st1]. rewrite !NI, !NJ.
  split; [congruence|]. split; [exact Hi|]. split; [exact JM|]. split; [exact ETA|]. split; [exact D|].
  split; [cbn [sal]; now rewrite !upd_length|].
  split; [tauto|]. split; [tauto|]. split; [rewrite RI; unfold ai0; ring|]. split; [|split; [|reflexivity]].
  - intros k K1 K2. unfold al; cbn [sal]. rewrite nth_upd2 by (auto; lia).
    destruct (Nat.eqb_spec k i); [congruence|]. destruct (Nat.eqb_spec k j); [congruence|]. reflexivity.
  - intros P. assert (aj' <= al st j - Y j * (svm_f m Y K st i - Y i - (svm_f m Y K st j - Y j)) / eta).
    { rewrite RJ. apply clip_between with (o := al st j); [exact LH|]. fold aj0. lra. }
    fold eta. lra.
Qed.

Lemma step_some st i : (2 <= m)%nat -> smo_step m Y C Epsilon Tol K rnd st i <> None.
Proof.
  intros M. unfold smo_step. destruct (_ || _)%bool; [|discriminate]. destruct (Nat.leb_spec m 1); [lia|]. cbn zeta.
  destruct (Qeq_bool _ _); [discriminate|]. destruct (Qle_bool _ _); [discriminate|]. destruct (Qltb _ _); discriminate.
Qed.

Lemma beta_step st st' i j : accepted st st' i j ->
  forall k, (k < m)%nat -> al st' k * Y k == al st k * Y k + ((al st' j - al st j) * Y j) * (dl j k - dl i k).
Proof.
  intros (N & Hi & Hj & _ & _ & _ & _ & _ & AI & O & _) k Hk. unfold dl.
  destruct (Nat.eqb_spec k i) as [->|NI].
  - destruct (Nat.eqb_spec i j); [congruence|]. rewrite AI.
    destruct (Ypm i Hi) as [E|E]; rewrite E; ring.
  - destruct (Nat.eqb_spec k j) as [->|NJ]; [ring|]. rewrite (O k NI NJ). ring.
Qed.

Lemma feas_step st i st' : box st -> bal st -> (i < m)%nat -> smo_step m Y C Epsilon Tol K rnd st i = Some st' -> box st' /\ bal st'.
Proof.
  intros B A Hi S. destruct (@smo_step_cases st i st' B Hi S) as [(E & _)|(j & AC)].
  - split.
    + destruct B as (B1 & B2). split; [now rewrite E|]. unfold al. rewrite E. exact B2.
    + unfold bal, al. rewrite E. exact A.
  - assert (BS := @beta_step st st' i j AC).
    destruct AC as (N & _ & Hj & _ & _ & LEN & BJ & BI & _ & O & _). destruct B as (B1 & B2). split.
    + split; [congruence|]. intros k Hk. destruct (Nat.eq_dec k i) as [->|NI]; [exact BI|].
      destruct (Nat.eq_dec k j) as [->|NJ]; [exact BJ|]. rewrite O by auto. auto.
    + unfold bal. assert (SP := @sum_pair (fun k => al st k * Y k) (fun k => al st' k * Y k) (fun _ => 1) _ i j m Hi Hj BS).
      rewrite (qsum_map_ext (fun k => al st' k * Y k) (fun k => al st' k * Y k * 1)) by (intros; ring).
      rewrite SP. rewrite (qsum_map_ext (fun k => al st k * Y k * 1) (fun k => al st k * Y k)) by (intros; ring).
      unfold bal in A. rewrite A. ring.
Qed.

(* the dual objective *)
Hypothesis Ksym : forall i j, (i < m)%nat -> (j < m)%nat -> K i j == K j i.
Lemma dual_step st st' i j : accepted st st' i j -> 0 < Tol ->
  let d := al st' j - al st j in
  dual m Y K (al st) + (1 # 2) * - (2 * K i j - K i i - K j j) * (d * d) <= dual m Y K (al st').
Proof.
  intros AC TOL d. assert (BS := @beta_step st st' i j AC). fold d in BS.
  destruct AC as (N & Hi & Hj & ETA & TD & LEN & _ & _ & AI & O & BET & _). fold d in TD, AI, BET. cbn zeta in ETA.
  set (eta := 2 * K i j - K i i - K j j) in *.
  assert (SA : qsum (map (al st') (seq 0 m)) == qsum (map (al st) (seq 0 m)) + (d - Y i * Y j * d)).
  { rewrite (qsum_map_ext (al st') (fun k => al st k + (d * dl j k + - (Y i * Y j * d) * dl i k))).
    2:{ intros k I. apply in_seq in I. unfold dl. destruct (Nat.eqb_spec k j) as [->|NJ].
        - destruct (Nat.eqb_spec j i); [congruence|]. unfold d. ring.
        - destruct (Nat.eqb_spec k i) as [->|NI]; [rewrite AI; ring|]. rewrite (O k NI NJ). ring. }
    rewrite !qsum_map_plus, !qsum_map_scale.
    rewrite (@qsum_one (dl j) j), (@qsum_one (dl i) i); try apply seq_NoDup; try (apply in_seq; lia).
    - unfold dl. rewrite !Nat.eqb_refl. ring.
    - intros x _ X. unfold dl. destruct (Nat.eqb_spec x i); [congruence|]. reflexivity.
    - intros x _ X. unfold dl. destruct (Nat.eqb_spec x j); [congruence|]. reflexivity. }
  set (c := d * Y j) in *.
  set (h := fun k => qsum (map (fun l => al st l * Y l * K k l) (seq 0 m))).
  set (h' := fun k => qsum (map (fun l => al st' l * Y l * K k l) (seq 0 m))).
  assert (HH : forall k, h' k == h k + c * (K k j - K k i)).
  { intros k. apply (@sum_pair (fun l => al st l * Y l) (fun l => al st' l * Y l) (fun l => K k l) c i j m Hi Hj BS). }
  assert (Q1 : qsum (map (fun k => al st' k * Y k * h' k) (seq 0 m)) ==
     qsum (map (fun k => al st k * Y k * h k) (seq 0 m)) + c * (h j - h i)
      + c * (qsum (map (fun k => al st k * Y k * (K k j - K k i)) (seq 0 m)) + c * ((K j j - K j i) - (K i j - K i i)))).
  { rewrite (qsum_map_ext (fun k => al st' k * Y k * h' k) (fun k => al st' k * Y k * h k + c * (al st' k * Y k * (K k j - K k i)))).
    2:{ intros k _. rewrite HH. ring. }
    rewrite qsum_map_plus, qsum_map_scale.
    rewrite (@sum_pair (fun l => al st l * Y l) (fun l => al st' l * Y l) h c i j m Hi Hj BS).
    rewrite (@sum_pair (fun l => al st l * Y l) (fun l => al st' l * Y l) (fun k => K k j - K k i) c i j m Hi Hj BS). ring. }
  assert (G : qsum (map (fun k => al st k * Y k * (K k j - K k i)) (seq 0 m)) == h j - h i).
  { unfold h. rewrite (qsum_map_ext (fun k => al st k * Y k * (K k j - K k i)) (fun k => al st k * Y k * K j k + (-1) * (al st k * Y k * K i k))).
    - rewrite qsum_map_plus, qsum_map_scale. ring.
    - intros k I. apply in_seq in I. rewrite (Ksym j k), (Ksym i k) by lia. ring. }
  change (qsum (map (al st) (seq 0 m)) - (1 # 2) * qsum (map (fun k => al st k * Y k * h k) (seq 0 m)) + (1 # 2) * - eta * (d * d)
    <= qsum (map (al st') (seq 0 m)) - (1 # 2) * qsum (map (fun k => al st' k * Y k * h' k) (seq 0 m))).
  rewrite SA, Q1, G.
  assert (KJI : K j i == K i j) by (apply Ksym; auto). rewrite KJI.
  (* the error difference *)
  assert (EE : svm_f m Y K st i - Y i - (svm_f m Y K st j - Y j) == h i - h j - Y i + Y j).
  { unfold svm_f, h. rewrite !qsum_cons.
    rewrite (qsum_map_ext (fun i1 => al st i1 * Y i1 * K i1 i) (fun i1 => al st i1 * Y i1 * K i i1)).
    2:{ intros k I. apply in_seq in I. rewrite (Ksym k i) by lia. reflexivity. }
    rewrite (qsum_map_ext (fun i1 => al st i1 * Y i1 * K i1 j) (fun i1 => al st i1 * Y i1 * K j i1)).
    2:{ intros k I. apply in_seq in I. rewrite (Ksym k j) by lia. reflexivity. }
    ring. }
  assert (DP : 0 < d) by lra. specialize (BET DP). rewrite EE in BET.
  assert (BET2 : d * - eta <= Y j * (h i - h j - Y i + Y j)).
  { assert (0 < - eta) by lra.
    apply Qle_trans with (- (Y j * (h i - h j - Y i + Y j) / eta) * - eta).
    - apply Qmult_le_compat_r; [exact BET|lra].
    - apply Qle_lteq. right. field. lra. }
  assert (YJ : Y j * Y j == 1) by (destruct (Ypm j Hj) as [E|E]; rewrite E; ring).
  assert (M : d * (d * - eta) <= d * (Y j * (h i - h j - Y i + Y j))) by (apply Qmult_le_l; auto).
  assert (ID : d * (Y j * (h i - h j - Y i + Y j)) == (d - Y i * Y j * d) - c * (h j - h i)).
  { unfold c. setoid_replace d with (d * (Y j * Y j)) at 2 by (rewrite YJ; ring). ring. }
  assert (CC : c * c == d * d) by (unfold c; setoid_replace (d * Y j * (d * Y j)) with (d * d * (Y j * Y j)) by ring; rewrite YJ; ring).
  assert (ET : c * (c * (K j j - K i j - (K i j - K i i))) == d * d * - eta).
  { setoid_replace (c * (c * (K j j - K i j - (K i j - K i i)))) with (c * c * - eta) by (unfold eta; ring). rewrite CC. reflexivity. }
  rewrite ID in M.
  assert (R : forall S W g e, d * (d * - eta) <= S - c * g -> c * (c * e) == d * d * - eta ->
     forall A, A - (1#2) * W + (1#2) * - eta * (d * d) <= A + S - (1#2) * (W + c * g + c * (g + c * e))).
  { intros S W g e H1 H2 A. setoid_replace (W + c * g + c * (g + c * e)) with (W + 2 * (c * g) + c * (c * e)) by ring. rewrite H2. lra. }
  apply R; auto.
Qed.
End SmoP.
