(* Proofs about the pair update of SVR: the dual objective along one step. *)
From Verif Require Import Common QCommon SvmModel SvmProofs SvmLoopProofs SvrProofs.
From Coq Require Import Lqa.
Open Scope Q_scope.

(* Specification side: the dual objective of epsilon-insensitive regression *)
Definition svr_dual (m : nat) (Y : nat -> Q) (Epsilon : Q) (K : nat -> nat -> Q) (a : nat -> Q) : Q :=
  qsum (map (fun k => a k * Y k) (seq 0 m)) - Epsilon * qsum (map (fun k => Qabs (a k)) (seq 0 m))
  - (1 # 2) * qsum (map (fun k => a k * qsum (map (fun l => a l * K k l) (seq 0 m))) (seq 0 m)).

Lemma Qabs_split x : (0 <= x /\ Qabs x == x) \/ (x <= 0 /\ Qabs x == - x).
Proof. destruct (Qlt_le_dec x 0); [right; split; [lra|apply Qabs_neg; lra]|left; split; [lra|apply Qabs_pos; lra]]. Qed.

Lemma mul_le_l c a b : 0 <= c -> a <= b -> c * a <= c * b.
Proof. intros. nra. Qed.

(* ------------------------------------------- the objective along one pair *)
Definition phi (e eps s a0 t : Q) : Q := (1 # 2) * e * ((t - a0) * (t - a0)) + eps * (Qabs t + Qabs (s - t)).
Lemma phi_ext e eps s a0 t t' : t == t' -> phi e eps s a0 t == phi e eps s a0 t'.
Proof. intros H. unfold phi. now rewrite H. Qed.
Lemma phi_convex e eps s a0 t u w : 0 <= e -> 0 <= eps -> (u - t) * (w - t) <= 0 -> phi e eps s a0 u <= phi e eps s a0 w -> phi e eps s a0 t <= phi e eps s a0 w.
Proof.
  intros He Hp B H.
  destruct (Qeq_dec u w) as [E|N].
  { assert (T : t == w). { assert (X : (w - t) * (w - t) <= 0) by (rewrite E in B; exact B). assert (Y := Qlt_le_dec (w - t) 0). destruct Y; nra. }
    rewrite (phi_ext _ _ _ _ _ _ T). lra. }
  set (l := (t - u) / (w - u)). assert (NZ : ~ w - u == 0) by (intros Z; apply N; lra).
  assert (T : t == l * w + (1 - l) * u) by (unfold l; field; exact NZ).
  assert (L : 0 <= l <= 1).
  { assert (P : 0 < (w - u) * (w - u)). { destruct (Qlt_le_dec (w - u) 0); [nra|]. assert (0 < w - u) by (destruct (Qlt_le_dec 0 (w - u)); [auto|exfalso; apply NZ; lra]). nra. }
    assert (E1 : t - u == l * (w - u)) by (unfold l; field; exact NZ).
    assert (E2 : w - t == (1 - l) * (w - u)) by (unfold l; field; exact NZ).
    assert (B' : 0 <= (t - u) * (w - t)) by nra. rewrite E1, E2 in B'.
    assert (F : 0 <= l * (1 - l)). { assert (G : l * (w - u) * ((1 - l) * (w - u)) == (l * (1 - l)) * ((w - u) * (w - u))) by ring. rewrite G in B'. destruct (Qlt_le_dec (l * (1 - l)) 0); [nra|auto]. }
    split; destruct (Qlt_le_dec l 0); destruct (Qlt_le_dec 1 l); nra. }
  assert (A1 : Qabs t <= l * Qabs w + (1 - l) * Qabs u).
  { rewrite T. eapply Qle_trans; [apply Qabs_triangle|]. rewrite !Qabs_Qmult, (Qabs_pos l), (Qabs_pos (1 - l)) by lra. lra. }
  assert (A2 : Qabs (s - t) <= l * Qabs (s - w) + (1 - l) * Qabs (s - u)).
  { assert (X : s - t == l * (s - w) + (1 - l) * (s - u)) by (rewrite T; ring). rewrite X. eapply Qle_trans; [apply Qabs_triangle|]. rewrite !Qabs_Qmult, (Qabs_pos l), (Qabs_pos (1 - l)) by lra. lra. }
  assert (S : (t - a0) * (t - a0) <= l * ((w - a0) * (w - a0)) + (1 - l) * ((u - a0) * (u - a0))).
  { assert (X : l * ((w - a0) * (w - a0)) + (1 - l) * ((u - a0) * (u - a0)) - (t - a0) * (t - a0) == l * (1 - l) * ((w - u) * (w - u))) by (rewrite T; ring).
    assert (0 <= l * (1 - l)) by nra. assert (0 <= (w - u) * (w - u)) by (destruct (Qlt_le_dec (w - u) 0); nra). nra. }
  assert (CV : phi e eps s a0 t <= l * phi e eps s a0 w + (1 - l) * phi e eps s a0 u).
  { unfold phi. assert (X1 : eps * (Qabs t + Qabs (s - t)) <= eps * ((l * Qabs w + (1 - l) * Qabs u) + (l * Qabs (s - w) + (1 - l) * Qabs (s - u)))) by (apply mul_le_l; lra).
    assert (X2 : (1 # 2) * e * ((t - a0) * (t - a0)) <= (1 # 2) * e * (l * ((w - a0) * (w - a0)) + (1 - l) * ((u - a0) * (u - a0)))) by (apply mul_le_l; lra).
    lra. }
  nra.
Qed.

(* svr_newj finds the minimum over the whole line, except when exactly one of
   the two is above delta *)
Lemma phi_min e eps s a0 d a : 0 < e -> 0 <= eps -> d == 2 * eps / e ->
  (0 <= (s - a0) * a0 /\ a == a0) \/
  ((s - a0) * a0 < 0 /\ d < Qabs (s - a0) /\ d < Qabs a0 /\ a == a0 - (if Qle_bool 0 a0 then 1 else -1) * d) \/
  ((s - a0) * a0 < 0 /\ Qabs (s - a0) <= d /\ Qabs a0 <= d /\ a == (if Qltb (Qabs a0 - Qabs (s - a0)) 0 then 0 else 1) * s) ->
  forall t, phi e eps s a0 a <= phi e eps s a0 t.
Proof.
  intros He Hp Hd CASES t. assert (ED : e * d == 2 * eps) by (rewrite Hd; field; lra).
  assert (D0 : 0 <= d). { destruct (Qlt_le_dec d 0); [nra|auto]. }
  assert (T1 : t <= Qabs t) by apply Qle_Qabs. assert (T2 : - t <= Qabs t) by (rewrite <- Qabs_opp; apply Qle_Qabs).
  assert (T3 : s - t <= Qabs (s - t)) by apply Qle_Qabs. assert (T4 : - (s - t) <= Qabs (s - t)) by (rewrite <- Qabs_opp; apply Qle_Qabs).
  set (u := Qabs t) in *. set (v := Qabs (s - t)) in *. unfold phi at 2. fold u v. clearbody u v.
  assert (KEY : forall w, (1 # 2) * e * ((a - a0) * (a - a0)) + eps * w <= (1 # 2) * e * ((t - a0) * (t - a0)) + eps * (u + v) -> Qabs a + Qabs (s - a) == w -> phi e eps s a0 a <= (1 # 2) * e * ((t - a0) * (t - a0)) + eps * (u + v)).
  { intros w H1 H2. unfold phi. rewrite H2. exact H1. }
  assert (SQ : 0 <= (t - a0) * (t - a0)) by (destruct (Qlt_le_dec (t - a0) 0); nra).
  destruct CASES as [(SG & E)|[(SG & D1 & D2 & E)|(SG & D1 & D2 & E)]].
  - apply (KEY (Qabs s)).
    + assert (W : Qabs s <= u + v) by (destruct (Qabs_split s) as [(_ & ->)|(_ & ->)]; lra). rewrite E. assert (X : eps * Qabs s <= eps * (u + v)) by (apply mul_le_l; lra).
      assert (Y : 0 <= (1 # 2) * e * ((t - a0) * (t - a0))) by nra. assert (Z : (1 # 2) * e * ((a0 - a0) * (a0 - a0)) == 0) by ring. lra.
    + rewrite E. destruct (Qabs_split a0) as [(P & ->)|(P & ->)], (Qabs_split (s - a0)) as [(Q0 & ->)|(Q0 & ->)], (Qabs_split s) as [(S & ->)|(S & ->)]; try lra; nra.
  - destruct (Qleb_spec 0 a0) as [P|P].
    + assert (N : s - a0 < 0) by nra. rewrite (Qabs_pos a0) in D2 by lra. rewrite (Qabs_neg (s - a0)) in D1 by lra.
      apply (KEY (2 * (a0 - d) - s)).
      * assert (W : eps * (2 * t - s) <= eps * (u + v)) by (apply mul_le_l; lra). rewrite E.
        assert (R : 0 <= (t - a0 + d) * (t - a0 + d)) by (destruct (Qlt_le_dec (t - a0 + d) 0); nra).
        assert (R2 : 0 <= (1 # 2) * e * ((t - a0 + d) * (t - a0 + d))) by nra. nra.
      * rewrite E. rewrite (Qabs_pos (a0 - 1 * d)), (Qabs_neg (s - (a0 - 1 * d))) by lra. ring.
    + assert (N : 0 < s - a0) by nra. rewrite (Qabs_neg a0) in D2 by lra. rewrite (Qabs_pos (s - a0)) in D1 by lra.
      apply (KEY (s - 2 * (a0 + d))).
      * assert (W : eps * (s - 2 * t) <= eps * (u + v)) by (apply mul_le_l; lra). rewrite E.
        assert (R : 0 <= (t - a0 - d) * (t - a0 - d)) by (destruct (Qlt_le_dec (t - a0 - d) 0); nra).
        assert (R2 : 0 <= (1 # 2) * e * ((t - a0 - d) * (t - a0 - d))) by nra. nra.
      * rewrite E. rewrite (Qabs_neg (a0 - -1 * d)), (Qabs_pos (s - (a0 - -1 * d))) by lra. ring.
  - (* one of the two becomes zero *)
    assert (FIN : forall c, 0 <= (t - c) * (t + c - 2 * a0) \/ (0 <= (t - c) /\ 0 <= t + c - 2 * a0 + 2 * d /\ u + v >= Qabs s + 2 * (t - c)) \/ (t - c <= 0 /\ t + c - 2 * a0 - 2 * d <= 0 /\ u + v >= Qabs s - 2 * (t - c)) -> (1 # 2) * e * ((c - a0) * (c - a0)) + eps * Qabs s <= (1 # 2) * e * ((t - a0) * (t - a0)) + eps * (u + v)).
    { intros c F. assert (W : Qabs s <= u + v) by (destruct (Qabs_split s) as [(_ & ->)|(_ & ->)]; lra).
      assert (ID : (1 # 2) * e * ((t - a0) * (t - a0)) - (1 # 2) * e * ((c - a0) * (c - a0)) == (1 # 2) * e * ((t - c) * (t + c - 2 * a0))) by ring.
      assert (WE : eps * Qabs s <= eps * (u + v)) by (apply mul_le_l; lra).
      destruct F as [F|[(F1 & F2 & F3)|(F1 & F2 & F3)]].
      - assert (0 <= (1 # 2) * e * ((t - c) * (t + c - 2 * a0))) by nra. lra.
      - assert (G : 0 <= (t - c) * (t + c - 2 * a0 + 2 * d)) by nra. assert (G2 : 0 <= (1 # 2) * e * ((t - c) * (t + c - 2 * a0 + 2 * d))) by nra.
        assert (G3 : eps * (Qabs s + 2 * (t - c)) <= eps * (u + v)) by (apply mul_le_l; lra). nra.
      - assert (G : 0 <= (t - c) * (t + c - 2 * a0 - 2 * d)) by nra. assert (G2 : 0 <= (1 # 2) * e * ((t - c) * (t + c - 2 * a0 - 2 * d))) by nra.
        assert (G3 : eps * (Qabs s - 2 * (t - c)) <= eps * (u + v)) by (apply mul_le_l; lra). nra. }
    apply (KEY (Qabs s)).
    + rewrite E. apply FIN. clear FIN KEY.
      destruct (Qabs_split a0) as [(P & PE)|(P & PE)], (Qabs_split (s - a0)) as [(Q0 & QE)|(Q0 & QE)]; try (exfalso; nra); rewrite QE in D1; rewrite PE in D2; destruct (Qltb_spec (Qabs a0 - Qabs (s - a0)) 0) as [B|B]; rewrite PE, QE in B.
      * rewrite (Qabs_neg s) by lra. assert (Z : 0 * s == 0) by ring. rewrite Z. destruct (Qlt_le_dec t 0); [left; nra|right; left; repeat split; lra].
      * rewrite (Qabs_pos s) by lra. assert (Z : 1 * s == s) by ring. rewrite Z. destruct (Qlt_le_dec t s); [left; nra|right; left; repeat split; lra].
      * rewrite (Qabs_pos s) by lra. assert (Z : 0 * s == 0) by ring. rewrite Z. destruct (Qlt_le_dec 0 t); [left; nra|right; right; repeat split; lra].
      * rewrite (Qabs_neg s) by lra. assert (Z : 1 * s == s) by ring. rewrite Z. destruct (Qlt_le_dec s t); [left; nra|right; right; repeat split; lra].
    + rewrite E. destruct (Qltb (Qabs a0 - Qabs (s - a0)) 0).
      * assert (Z : 0 * s == 0) by ring. rewrite Z. assert (Z2 : s - 0 == s) by ring. rewrite Z2. cbn. ring.
      * assert (Z : 1 * s == s) by ring. rewrite Z. assert (Z2 : s - s == 0) by ring. rewrite Z2. cbn. ring.
Qed.

(* ------------------------------------------------- the objective of a pair *)
Section Pair.
Variables (m : nat) (Y : nat -> Q) (Epsilon : Q) (K : nat -> nat -> Q).
Hypothesis Ksym : forall i j, (i < m)%nat -> (j < m)%nat -> K i j == K j i.
Lemma svr_dual_pair (a a' : nat -> Q) i j d : i <> j -> (i < m)%nat -> (j < m)%nat ->
  (forall k, (k < m)%nat -> k <> i -> k <> j -> a' k == a k) -> a' j == a j + d -> a' i == a i - d ->
  let f k := qsum (map (fun l => a l * K l k) (seq 0 m)) - Y k in
  svr_dual m Y Epsilon K a' == svr_dual m Y Epsilon K a + d * (f i - f j) + (1 # 2) * (2 * K i j - K i i - K j j) * (d * d)
    - Epsilon * (Qabs (a' i) + Qabs (a' j) - Qabs (a i) - Qabs (a j)).
Proof.
  intros N Hi Hj O AJ AI f.
  assert (BS : forall k, (k < m)%nat -> a' k == a k + d * (dl j k - dl i k)).
  { intros k Hk. unfold dl. destruct (Nat.eqb_spec k j) as [->|NJ]; [destruct (Nat.eqb_spec j i); [congruence|]; rewrite AJ; ring|].
    destruct (Nat.eqb_spec k i) as [->|NI]; [rewrite AI; ring|]. rewrite O by auto. ring. }
  set (h := fun k => qsum (map (fun l => a l * K k l) (seq 0 m))). set (h' := fun k => qsum (map (fun l => a' l * K k l) (seq 0 m))).
  assert (HH : forall k, h' k == h k + d * (K k j - K k i)) by (intros k; apply (@sum_pair a a' (fun l => K k l) d i j m Hi Hj BS)).
  assert (SY : qsum (map (fun k => a' k * Y k) (seq 0 m)) == qsum (map (fun k => a k * Y k) (seq 0 m)) + d * (Y j - Y i)) by (apply (@sum_pair a a' Y d i j m Hi Hj BS)).
  assert (SA : qsum (map (fun k => Qabs (a' k)) (seq 0 m)) == qsum (map (fun k => Qabs (a k)) (seq 0 m)) + (Qabs (a' i) + Qabs (a' j) - Qabs (a i) - Qabs (a j))).
  { rewrite (qsum_map_ext (fun k => Qabs (a' k)) (fun k => Qabs (a k) + ((Qabs (a' j) - Qabs (a j)) * dl j k + (Qabs (a' i) - Qabs (a i)) * dl i k))).
    2:{ intros k I. apply in_seq in I. unfold dl. destruct (Nat.eqb_spec k j) as [->|NJ].
        - destruct (Nat.eqb_spec j i); [congruence|]. ring.
        - destruct (Nat.eqb_spec k i) as [->|NI]; [ring|]. rewrite (O k) by (auto; lia). ring. }
    rewrite !qsum_map_plus, !qsum_map_scale.
    rewrite (@qsum_one (dl j) j), (@qsum_one (dl i) i); try apply seq_NoDup; try (apply in_seq; lia).
    - unfold dl. rewrite !Nat.eqb_refl. ring.
    - intros x _ X. unfold dl. destruct (Nat.eqb_spec x i); [congruence|]. reflexivity.
    - intros x _ X. unfold dl. destruct (Nat.eqb_spec x j); [congruence|]. reflexivity. }
  assert (Q1 : qsum (map (fun k => a' k * h' k) (seq 0 m)) == qsum (map (fun k => a k * h k) (seq 0 m)) + d * (h j - h i)
      + d * (qsum (map (fun k => a k * (K k j - K k i)) (seq 0 m)) + d * ((K j j - K j i) - (K i j - K i i)))).
  { rewrite (qsum_map_ext (fun k => a' k * h' k) (fun k => a' k * h k + d * (a' k * (K k j - K k i)))) by (intros k _; rewrite HH; ring).
    rewrite qsum_map_plus, qsum_map_scale.
    rewrite (@sum_pair a a' h d i j m Hi Hj BS), (@sum_pair a a' (fun k => K k j - K k i) d i j m Hi Hj BS). ring. }
  assert (FH : forall k, (k < m)%nat -> f k == h k - Y k).
  { intros k Hk. unfold f, h. rewrite (qsum_map_ext (fun l => a l * K l k) (fun l => a l * K k l)); [reflexivity|]. intros l I. apply in_seq in I. rewrite (Ksym l k) by lia. reflexivity. }
  assert (G : qsum (map (fun k => a k * (K k j - K k i)) (seq 0 m)) == h j - h i).
  { unfold h. rewrite (qsum_map_ext (fun k => a k * (K k j - K k i)) (fun k => a k * K j k + (-1) * (a k * K i k))).
    - rewrite qsum_map_plus, qsum_map_scale. ring.
    - intros k I. apply in_seq in I. rewrite (Ksym j k), (Ksym i k) by lia. ring. }
  unfold svr_dual. change (qsum (map (fun k => a' k * qsum (map (fun l => a' l * K k l) (seq 0 m))) (seq 0 m))) with (qsum (map (fun k => a' k * h' k) (seq 0 m))).
  change (qsum (map (fun k => a k * qsum (map (fun l => a l * K k l) (seq 0 m))) (seq 0 m))) with (qsum (map (fun k => a k * h k) (seq 0 m))).
  rewrite SY, SA, Q1, G, (FH i Hi), (FH j Hj). rewrite (Ksym j i) by auto. ring.
Qed.

Variables (C Tol : Q) (rnd : nat -> nat).
Hypothesis Hrnd : forall t, (rnd t < m - 1)%nat.
Lemma svr_step_best st i st' : 0 <= Epsilon -> rbox m C st -> (i < m)%nat -> svr_step m Y C Epsilon Tol K rnd st i = Some st' ->
  (sal st' = sal st /\ sb st' = sb st /\ snch st' = snch st) \/
  (exists j, j <> i /\ (j < m)%nat /\ snch st' = S (snch st) /\ (forall k, k <> i -> k <> j -> al st' k = al st k) /\ al st' i + al st' j == al st i + al st j /\
    let eta := 2 * K i j - K i i - K j j in let s := al st i + al st j in
    let f k := qsum (map (fun l => al st l * K l k) (seq 0 m)) - Y k in
    let a := al st j - (f i - f j) / eta in let d := - (2) * Epsilon / eta in
    eta < 0 -> 0 <= (s - a) * a \/ (d < Qabs (s - a) /\ d < Qabs a) \/ (Qabs (s - a) <= d /\ Qabs a <= d) ->
    forall b, (forall k, (k < m)%nat -> k <> i -> k <> j -> b k == al st k) -> b i + b j == s -> - C <= b i <= C -> - C <= b j <= C ->
    svr_dual m Y Epsilon K b <= svr_dual m Y Epsilon K (al st')).
Proof.
  intros Hp (LEN & B) Hi. unfold svr_step. cbn zeta.
  destruct (_ || _)%bool; [|injection 1 as <-; now left].
  destruct (Nat.leb_spec m 1) as [|M1]; [discriminate|].
  set (E := fun j => svr_f m K st j - Y j).
  set (j0 := if Nat.leb i (rnd (srk st)) then S (rnd (srk st)) else rnd (srk st)).
  assert (J0 : j0 <> i /\ (j0 < m)%nat) by (assert (R := Hrnd (srk st)); unfold j0; destruct (Nat.leb_spec i (rnd (srk st))); lia).
  destruct (@svr_pick_ok m Epsilon E i j0 (proj1 J0) (proj2 J0)) as (JN & JM).
  set (j := svr_pick m Epsilon E i j0) in *. clearbody j. clear j0 J0.
  set (st1 := mksmo (sal st) (sb st) (snch st) true (S (srk st))).
  change (al st1 j) with (al st j). change (al st1 i) with (al st i). change (svr_f m K st i - Y i) with (E i).
  set (s := al st i + al st j). set (L := qmax (s - C) (- C)). set (H := qmin C (C + s)). set (eta := 2 * K i j - K i i - K j j).
  destruct (svr_newj _ _ _ _ _ _ _ _) as [a|] eqn:NJ; [|injection 1 as <-; now left].
  match goal with |- (if ?c then _ else _) = _ -> _ => destruct c end; [injection 1 as <-; now left|].
  set (aj' := Qred (qmin H (qmax L a))). assert (RJ : aj' == qmin H (qmax L a)) by apply Qred_correct.
  set (ai' := Qred (s - aj')). assert (RI : ai' == s - aj') by apply Qred_correct.
  assert (NTH : forall k b c f g, al (mksmo (upd (upd (sal st) j aj') i ai') b c f g) k = if Nat.eqb k i then ai' else if Nat.eqb k j then aj' else al st k).
  { intros. unfold al; cbn [sal]. rewrite nth_upd2 by (auto; lia). reflexivity. }
  intros X. injection X as <-. right. exists j. split; [exact JN|]. split; [exact JM|]. split; [reflexivity|].
  change (sal st1) with (sal st). set (st2 := mksmo _ _ _ _ _).
  assert (NI : al st2 i = ai') by (unfold st2; rewrite NTH, Nat.eqb_refl; reflexivity).
  assert (NJ' : al st2 j = aj') by (unfold st2; rewrite NTH; destruct (Nat.eqb_spec j i); [congruence|]; rewrite Nat.eqb_refl; reflexivity).
  assert (NO : forall k, k <> i -> k <> j -> al st2 k = al st k) by (intros k N1 N2; unfold st2; rewrite NTH; destruct (Nat.eqb_spec k i); [congruence|]; destruct (Nat.eqb_spec k j); [congruence|]; reflexivity).
  clearbody st2. split; [exact NO|]. split; [rewrite NI, NJ', RI; unfold s; ring|].
  set (f := fun k => qsum (map (fun l => al st l * K l k) (seq 0 m)) - Y k). set (a0 := al st j - (f i - f j) / eta). set (d := - (2) * Epsilon / eta).
  change (eta < 0 -> 0 <= (s - a0) * a0 \/ (d < Qabs (s - a0) /\ d < Qabs a0) \/ (Qabs (s - a0) <= d /\ Qabs a0 <= d) ->
    forall b, (forall k, (k < m)%nat -> k <> i -> k <> j -> b k == al st k) -> b i + b j == s -> - C <= b i <= C -> - C <= b j <= C ->
    svr_dual m Y Epsilon K b <= svr_dual m Y Epsilon K (al st2)).
  intros HE OK b Ob Sb Bi Bj.
  assert (EF : forall k, E k == f k + sb st) by (intros k; unfold E, f, svr_f; rewrite qsum_cons; ring).
  assert (NE : ~ eta == 0) by lra. assert (EE : E i - E j == f i - f j) by (rewrite !EF; ring).
  assert (D : d == 2 * Epsilon / - eta) by (unfold d; field; lra).
  assert (A0 : al st j - (E i - E j) / eta == a0) by (unfold a0; now rewrite EE).
  assert (MIN : forall t, phi (- eta) Epsilon s a0 a <= phi (- eta) Epsilon s a0 t).
  { apply (phi_min (- eta) Epsilon s a0 d a); [lra|exact Hp|exact D|].
    unfold svr_newj in NJ. cbv zeta in NJ. change (svr_f m K st j - Y j) with (E j) in NJ. destruct (Qeqb_spec eta 0); [contradiction|]. fold d in NJ. set (x := al st j - (E i - E j) / eta) in *.
    assert (AX : Qabs x == Qabs a0) by now rewrite A0. assert (AI : Qabs (s - x) == Qabs (s - a0)) by now rewrite A0.
    destruct (Qltb_spec ((s - x) * x) 0) as [SG|SG].
    - right. assert (SG' : (s - a0) * a0 < 0) by (rewrite <- A0; exact SG). destruct OK as [OK|[(O1 & O2)|(O1 & O2)]]; [exfalso; lra| |].
      + left. split; [exact SG'|]. split; [exact O1|]. split; [exact O2|].
        destruct (Qltb_spec d (Qabs (s - x))); [|exfalso; lra]. cbn [orb] in NJ.
        assert (SN : (if Qle_bool 0 x then 1 else -1) == (if Qle_bool 0 a0 then 1 else -1)) by (destruct (Qleb_spec 0 x), (Qleb_spec 0 a0); lra).
        apply (f_equal (fun o => match o with Some v => v | None => 0 end)) in NJ. cbv beta iota in NJ. rewrite <- NJ, SN, A0. reflexivity.
      + right. split; [exact SG'|]. split; [exact O1|]. split; [exact O2|].
        destruct (Qltb_spec d (Qabs (s - x))); [exfalso; lra|]. destruct (Qltb_spec d (Qabs x)); [exfalso; lra|]. cbn [orb] in NJ.
        assert (SN : (if Qltb (Qabs x - Qabs (s - x)) 0 then 0 else 1) == (if Qltb (Qabs a0 - Qabs (s - a0)) 0 then 0 else 1)) by (destruct (Qltb_spec (Qabs x - Qabs (s - x)) 0), (Qltb_spec (Qabs a0 - Qabs (s - a0)) 0); lra).
        apply (f_equal (fun o => match o with Some v => v | None => 0 end)) in NJ. cbv beta iota in NJ. rewrite <- NJ, SN. reflexivity.
    - left. split; [rewrite <- A0; lra|]. apply (f_equal (fun o => match o with Some v => v | None => 0 end)) in NJ. cbv beta iota in NJ. rewrite <- NJ. exact A0. }
  destruct (qmax_lub (s - C) (- C)) as (P1 & P2 & P7), (qmin_glb C (C + s)) as (P3 & P4 & P8). fold L in P1, P2, P7. fold H in P3, P4, P8.
  assert (BL : L <= b j <= H) by (destruct P7 as [-> | ->], P8 as [-> | ->]; lra).
  assert (BEST : phi (- eta) Epsilon s a0 aj' <= phi (- eta) Epsilon s a0 (b j)).
  { apply phi_convex with (u := a); [lra|exact Hp| |apply MIN]. rewrite RJ. clear RJ RI NTH NI NJ' NO. clearbody L H.
    destruct (qmax_lub L a) as (R1 & R2 & R3), (qmin_glb H (qmax L a)) as (R4 & R5 & R6).
    destruct R3 as [E3|E3]; rewrite E3 in *; destruct R6 as [E6|E6]; rewrite E6 in *; nra. }
  assert (PH : forall t, phi (- eta) Epsilon s a0 t == Epsilon * (Qabs t + Qabs (s - t)) + (1 # 2) * - eta * ((f i - f j) / eta * ((f i - f j) / eta)) - ((t - al st j) * (f i - f j) + (1 # 2) * eta * ((t - al st j) * (t - al st j)))).
  { intros t. unfold phi, a0. field. exact NE. }
  rewrite !PH in BEST.
  rewrite (svr_dual_pair (al st) b i j (b j - al st j)); [|auto|auto|auto|exact Ob|ring|unfold s in Sb; lra].
  rewrite (svr_dual_pair (al st) (al st2) i j (aj' - al st j)); [|auto|auto|auto|intros k _ N1 N2; rewrite NO by auto; reflexivity|rewrite NJ'; ring|rewrite NI, RI; unfold s; ring].
  fold f eta. rewrite NI, NJ'. assert (QI : Qabs ai' == Qabs (s - aj')) by now rewrite RI. assert (BI : Qabs (b i) == Qabs (s - b j)) by (assert (Z : b i == s - b j) by lra; now rewrite Z). rewrite QI, BI.
  change (qsum (map (fun l => al st l * K l i) (seq 0 m)) - Y i) with (f i). change (qsum (map (fun l => al st l * K l j) (seq 0 m)) - Y j) with (f j).
  clear - BEST. set (w := (f i - f j) / eta) in *. clearbody w f eta s aj'. set (D0 := svr_dual _ _ _ _ _). clearbody D0. lra.
Qed.
End Pair.
