(* Proofs about InterpModel.v: CubicSpline. *)
From Coq Require Import Lqa Qabs.
From Verif Require Import Common QCommon InterpModel.
Set Implicit Arguments.
Local Open Scope Q_scope.

Section C.
  Variables xs ys ks : list Q.
  Let n := length xs.
  Hypothesis N2 : (2 <= n)%nat.
  Hypothesis INC : forall i j, (i < j < n)%nat -> qget xs i < qget xs j.
  Notation x_ := (qget xs). Notation y_ := (qget ys). Notation k_ := (qget ks).

  Lemma find_spec x : forall fuel i, (1 <= i < n)%nat -> (n - i <= fuel)%nat -> (i = 1%nat \/ x_ (i - 1)%nat < x) ->
    let r := cs_find fuel xs i x in (1 <= r < n)%nat /\ (r = 1%nat \/ x_ (r - 1)%nat < x) /\ (r = (n - 1)%nat \/ x <= x_ r).
  Proof.
    induction fuel as [|fu IH]; intros i I F H; cbn [cs_find]; fold n; [lia|].
    destruct (Nat.ltb_spec i (n - 1)) as [L|L]; cbn [andb].
    - destruct (Qltb_spec (x_ i) x) as [E|E].
      + apply IH; try lia. right. replace (S i - 1)%nat with i by lia. exact E.
      + split; [lia|]. split; [exact H|now right].
    - split; [lia|]. split; [exact H|left; lia].
  Qed.
  (* which piece is used *)
  Lemma eval_piece i x : (1 <= i < n)%nat -> (i = 1%nat \/ x_ (i - 1)%nat < x) -> (i = (n - 1)%nat \/ x <= x_ i) -> cs_eval xs ys ks x = cs_piece xs ys ks i x.
  Proof.
    intros I H1 H2. unfold cs_eval. fold n. destruct (@find_spec x n 1%nat ltac:(lia) ltac:(lia) ltac:(now left)) as (R & R1 & R2).
    set (r := cs_find n xs 1 x) in *. clearbody r. assert (r = i); [|now subst].
    assert (LE : forall a b, (a <= b < n)%nat -> x_ a <= x_ b).
    { intros a b [L1 L2]. destruct (Nat.eq_dec a b) as [->|]; [lra|]. assert (x_ a < x_ b) by (apply INC; lia). lra. }
    destruct (Nat.lt_trichotomy r i) as [G|[G|G]]; auto; exfalso.
    - destruct H1 as [H1|H1]; [lia|]. destruct R2 as [R2|R2]; [lia|]. assert (x_ r <= x_ (i - 1)%nat) by (apply LE; lia). lra.
    - destruct R1 as [R1|R1]; [lia|]. destruct H2 as [H2|H2]; [lia|]. assert (x_ i <= x_ (r - 1)%nat) by (apply LE; lia). lra.
  Qed.

  Definition hstep (i : nat) : Q := x_ i - x_ (i - 1)%nat.
  Definition dy (i : nat) : Q := y_ i - y_ (i - 1)%nat.
  Definition cl (i : nat) : Q := 3 * dy i / (hstep i * hstep i) - (2 * k_ (i - 1)%nat + k_ i) / hstep i.
  Definition cr (i : nat) : Q := (k_ (i - 1)%nat + 2 * k_ i) / hstep i - 3 * dy i / (hstep i * hstep i).
  Definition cub (i : nat) : Q := (k_ (i - 1)%nat + k_ i) / (hstep i * hstep i) - 2 * dy i / (hstep i * hstep i * hstep i).
  Lemma piece_left i h : (1 <= i < n)%nat ->
    cs_piece xs ys ks i (x_ (i - 1)%nat + h) == y_ (i - 1)%nat + k_ (i - 1)%nat * h + h * h * (cl i + cub i * h).
  Proof.
    intros I. assert (H : x_ (i - 1)%nat < x_ i) by (apply INC; lia). unfold cs_piece, cl, cub, hstep, dy. cbv zeta.
    generalize dependent (x_ (i - 1)%nat). generalize (x_ i), (y_ i), (y_ (i - 1)%nat), (k_ i), (k_ (i - 1)%nat). intros. field. lra.
  Qed.
  Lemma piece_right i h : (1 <= i < n)%nat ->
    cs_piece xs ys ks i (x_ i + h) == y_ i + k_ i * h + h * h * (cr i + cub i * h).
  Proof.
    intros I. assert (H : x_ (i - 1)%nat < x_ i) by (apply INC; lia). unfold cs_piece, cr, cub, hstep, dy. cbv zeta.
    generalize dependent (x_ (i - 1)%nat). generalize (x_ i), (y_ i), (y_ (i - 1)%nat), (k_ i), (k_ (i - 1)%nat). intros. field. lra.
  Qed.
  Lemma piece_morph i x x' : x == x' -> cs_piece xs ys ks i x == cs_piece xs ys ks i x'.
  Proof. intros E. unfold cs_piece. cbv zeta. now rewrite E. Qed.

  Lemma knots i x : (i < n)%nat -> x == x_ i -> cs_eval xs ys ks x == y_ i.
  Proof.
    intros I E. destruct i as [|i].
    - rewrite (@eval_piece 1%nat x); [|lia|now left|right; assert (x_ 0 < x_ 1%nat) by (apply INC; lia); lra].
      assert (x == x_ (1 - 1)%nat + 0) as EX by (change (1 - 1)%nat with 0%nat; lra).
      rewrite (piece_morph 1%nat EX). rewrite piece_left by lia. change (1 - 1)%nat with 0%nat. ring.
    - rewrite (@eval_piece (S i) x); [|lia|right; assert (x_ (S i - 1)%nat < x_ (S i)) by (apply INC; lia); lra|right; lra].
      assert (x == x_ (S i) + 0) as EX by lra. rewrite (piece_morph (S i) EX). rewrite piece_right by lia. ring.
  Qed.
  (* the two pieces at a knot *)
  Lemma knot_slope i : (1 <= i)%nat -> (S i < n)%nat -> exists c c' b b', forall h,
    cs_piece xs ys ks i (x_ i + h) == y_ i + k_ i * h + h * h * (c + b * h) /\
    cs_piece xs ys ks (S i) (x_ i + h) == y_ i + k_ i * h + h * h * (c' + b' * h).
  Proof.
    intros I L. exists (cr i), (cl (S i)), (cub i), (cub (S i)). intros h. split; [apply piece_right; lia|].
    assert (P := @piece_left (S i) h ltac:(lia)). replace (S i - 1)%nat with i in P by lia. exact P.
  Qed.

  Hypothesis SOL : cs_solution xs ys ks.
  Lemma hpos i : (1 <= i < n)%nat -> 0 < hstep i.
  Proof. intros I. unfold hstep. assert (x_ (i - 1)%nat < x_ i) by (apply INC; lia). lra. Qed.
  Lemma natural_mid i : (1 <= i)%nat -> (S i < n)%nat -> cr i == cl (S i).
  Proof.
    intros I L. destruct SOL as [_ S]. specialize (S i ltac:(fold n; lia)). unfold cs_row in S. fold n in S.
    destruct (Nat.eqb_spec i 0); [lia|]. destruct (Nat.eqb_spec i (n - 1)); [lia|].
    assert (H1 := @hpos i ltac:(lia)). assert (H2 := @hpos (Datatypes.S i) ltac:(lia)).
    unfold cr, cl, hstep, dy in *. replace (Datatypes.S i - 1)%nat with i in * by lia. replace (Datatypes.S (i - 1)) with i in S by lia.
    set (h1 := x_ i - x_ (i - 1)%nat) in *. set (h2 := x_ (Datatypes.S i) - x_ i) in *.
    set (d1 := y_ i - y_ (i - 1)%nat) in *. set (d2 := y_ (Datatypes.S i) - y_ i) in *.
    assert (E : (k_ (i - 1)%nat + 2 * k_ i) / h1 - 3 * d1 / (h1 * h1) - (3 * d2 / (h2 * h2) - (2 * k_ i + k_ (Datatypes.S i)) / h2) ==
      1 / h1 * k_ (i - 1)%nat + 2 * (1 / h1 + 1 / h2) * k_ i + 1 / h2 * k_ (Datatypes.S i) - 3 * (d1 / (h1 * h1) + d2 / (h2 * h2))) by (field; lra).
    lra.
  Qed.
  Lemma natural_left : cl 1 == 0.
  Proof.
    destruct SOL as [_ S]. specialize (S 0%nat ltac:(fold n; lia)). unfold cs_row in S. cbn [Nat.eqb] in S.
    assert (H1 := @hpos 1 ltac:(lia)). unfold cl, hstep, dy in *. change (1 - 1)%nat with 0%nat in *. change (0 - 1)%nat with 0%nat in S.
    set (h1 := x_ 1%nat - x_ 0) in *. set (d1 := y_ 1%nat - y_ 0) in *.
    assert (E : 3 * d1 / (h1 * h1) - (2 * k_ 0 + k_ 1%nat) / h1 == 3 * d1 / (h1 * h1) - (0 * k_ 0 + 2 / h1 * k_ 0 + 1 / h1 * k_ 1%nat)) by (field; lra).
    lra.
  Qed.
  Lemma natural_right : cr (n - 1) == 0.
  Proof.
    destruct SOL as [_ S]. specialize (S (n - 1)%nat ltac:(fold n; lia)). unfold cs_row in S. fold n in S.
    destruct (Nat.eqb_spec (n - 1) 0); [lia|]. rewrite Nat.eqb_refl in S.
    assert (H1 := @hpos (n - 1) ltac:(lia)). unfold cr, hstep, dy in *.
    replace (Datatypes.S (n - 1 - 1)) with (n - 1)%nat in S by lia.
    set (h1 := x_ (n - 1)%nat - x_ (n - 1 - 1)%nat) in *. set (d1 := y_ (n - 1)%nat - y_ (n - 1 - 1)%nat) in *.
    assert (E : (k_ (n - 1 - 1)%nat + 2 * k_ (n - 1)%nat) / h1 - 3 * d1 / (h1 * h1) ==
      1 / h1 * k_ (n - 1 - 1)%nat + 2 / h1 * k_ (n - 1)%nat + 0 * k_ (Datatypes.S (n - 1)) - 3 * d1 / (h1 * h1)) by (field; lra).
    lra.
  Qed.
  Lemma natural :
    (forall i, (1 <= i)%nat -> (S i < n)%nat -> exists c b b', forall h,
      cs_piece xs ys ks i (x_ i + h) == y_ i + k_ i * h + h * h * (c + b * h) /\
      cs_piece xs ys ks (S i) (x_ i + h) == y_ i + k_ i * h + h * h * (c + b' * h)) /\
    (exists b b', forall h,
      cs_piece xs ys ks 1 (x_ 0 + h) == y_ 0 + k_ 0 * h + h * h * h * b /\
      cs_piece xs ys ks (n - 1) (x_ (n - 1)%nat + h) == y_ (n - 1)%nat + k_ (n - 1)%nat * h + h * h * h * b').
  Proof.
    split.
    - intros i I L. exists (cr i), (cub i), (cub (S i)). intros h. split; [apply piece_right; lia|].
      assert (P := @piece_left (S i) h ltac:(lia)). replace (S i - 1)%nat with i in P by lia. rewrite P, (natural_mid I L). reflexivity.
    - exists (cub 1), (cub (n - 1)). intros h. split.
      + assert (P := @piece_left 1 h ltac:(lia)). change (1 - 1)%nat with 0%nat in P. rewrite P, natural_left. ring.
      + rewrite piece_right by lia. rewrite natural_right. ring.
  Qed.
End C.

(* the system has one solution *)
Lemma argmax (f : nat -> Q) n : (0 < n)%nat -> exists i, (i < n)%nat /\ forall j, (j < n)%nat -> f j <= f i.
Proof.
  intros H. destruct n as [|n]; [lia|]. clear H. induction n as [|n IH].
  - exists 0%nat. split; [lia|]. intros j J. assert (j = 0%nat) by lia. subst. lra.
  - destruct IH as (i & I & M). destruct (Qlt_le_dec (f i) (f (S n))) as [G|G].
    + exists (S n). split; [lia|]. intros j J. destruct (Nat.eq_dec j (S n)) as [->|]; [lra|]. specialize (M j ltac:(lia)). lra.
    + exists i. split; [lia|]. intros j J. destruct (Nat.eq_dec j (S n)) as [->|]; [lra|]. apply M. lia.
Qed.
Lemma cs_unique xs ys ks ks' : (2 <= length xs)%nat -> (forall i j, (i < j < length xs)%nat -> qget xs i < qget xs j) ->
  cs_solution xs ys ks -> cs_solution xs ys ks' -> forall i, (i < length xs)%nat -> qget ks i == qget ks' i.
Proof.
  intros N2 INC [_ S] [_ S'].
  set (e := fun i => qget ks i - qget ks' i).
  destruct (@argmax (fun i => Qabs (e i)) (length xs) ltac:(lia)) as (m & M & MAX). cbn beta in MAX.
  assert (Z : Qabs (e m) == 0).
  { specialize (S m M). specialize (S' m M).
    assert (KEY : forall a b c r, a * qget ks (m - 1) + b * qget ks m + c * qget ks (Datatypes.S m) == r ->
              a * qget ks' (m - 1) + b * qget ks' m + c * qget ks' (Datatypes.S m) == r ->
              0 <= a -> 0 <= c -> a + c < b -> ((m - 1 < length xs)%nat) -> (c == 0 \/ (Datatypes.S m < length xs)%nat) -> Qabs (e m) == 0).
    { intros a b c r E1 E2 A C B L1 L2.
      assert (E : b * e m == - (a * e (m - 1)%nat) - c * e (Datatypes.S m)) by (unfold e; lra).
      assert (M1 := MAX (m - 1)%nat L1).
      assert (ABS : b * Qabs (e m) <= a * Qabs (e (m - 1)%nat) + c * Qabs (e (Datatypes.S m))).
      { assert (T1 : b * Qabs (e m) == Qabs (b * e m)) by (rewrite Qabs_Qmult, (Qabs_pos b) by lra; reflexivity).
        rewrite T1, E. unfold Qminus. eapply Qle_trans; [apply Qabs_triangle|]. rewrite !Qabs_opp, !Qabs_Qmult, (Qabs_pos a), (Qabs_pos c) by lra. lra. }
      pose proof (Qabs_nonneg (e m)) as P.
      assert (BD : c * Qabs (e (Datatypes.S m)) <= c * Qabs (e m)).
      { destruct L2 as [L2|L2]; [rewrite L2; lra|]. assert (M2 := MAX _ L2). nra. }
      assert (BA : a * Qabs (e (m - 1)%nat) <= a * Qabs (e m)) by nra.
      assert (F : (b - a - c) * Qabs (e m) <= 0) by lra.
      destruct (Qlt_le_dec 0 (Qabs (e m))) as [G|G]; [|lra]. exfalso. assert (0 < (b - a - c) * Qabs (e m)) by (apply Qmult_lt_0_compat; lra). lra. }
    unfold cs_row in S, S'.
    assert (POS : forall k, (Datatypes.S k < length xs)%nat -> 0 < 1 / (qget xs (Datatypes.S k) - qget xs k)).
    { intros k K. assert (qget xs k < qget xs (Datatypes.S k)) by (apply INC; lia). apply Qlt_shift_div_l; lra. }
    assert (TWO : forall h, 2 / h == 1 / h + 1 / h) by (intros h; unfold Qdiv; ring).
    destruct (Nat.eqb_spec m 0) as [E0|E0]; [|destruct (Nat.eqb_spec m (length xs - 1)) as [E1|E1]].
    - pose proof (POS 0%nat ltac:(lia)). apply (KEY _ _ _ _ S S'); rewrite ?TWO; try lra; try lia.
    - pose proof (POS (length xs - 1 - 1)%nat ltac:(lia)). apply (KEY _ _ _ _ S S'); rewrite ?TWO; try lra; try lia.
    - pose proof (POS (m - 1)%nat ltac:(lia)) as P1. pose proof (POS m ltac:(lia)) as P2.
      apply (KEY _ _ _ _ S S'); try lra; try lia. }
  intros i I. specialize (MAX i I). pose proof (Qabs_nonneg (e i)). assert (A : Qabs (e i) <= 0) by lra.
  apply Qabs_Qle_condition in A. unfold e in A. lra.
Qed.
