(* Proofs about InterpModel.v: Interp2d. *)
From Coq Require Import Permutation Lqa.
From Verif Require Import Common QCommon InterpModel InterpProofs.
Set Implicit Arguments.
Local Open Scope Q_scope.

(* what sort.Sort guarantees *)
Definition sorts3 (srt3 : list pt3 -> list pt3) : Prop := forall l, Permutation l (srt3 l) /\
  forall i j, (i <= j < length l)%nat -> le3 (nth i (srt3 l) (0, (0, 0))) (nth j (srt3 l) (0, (0, 0))).
Definition distinct3 (l : list pt3) : Prop := NoDup (map (fun p => (Qred (fst p), Qred (fst (snd p)))) l).
(* the segment used at ordinate y in column g: its end points (a, za) and (b, zb) *)
Definition segment (l : list pt3) (g y a za b zb : Q) : Prop :=
  In (g, (a, za)) l /\ In (g, (b, zb)) l /\ a < b /\
  (forall p, In p l -> fst p == g -> ~ a < fst (snd p) < b) /\
  (a <= y \/ forall p, In p l -> fst p == g -> a <= fst (snd p)) /\
  (y <= b \/ forall p, In p l -> fst p == g -> fst (snd p) <= b).

Lemma NoDup_app_r {A} (a b : list A) : NoDup (a ++ b) -> NoDup b.
Proof. induction a; cbn; auto. intros H. inversion H. auto. Qed.
Lemma NoDup_app_l {A} (a b : list A) : NoDup (a ++ b) -> NoDup a.
Proof.
  induction a as [|x a IH]; cbn; intros H; constructor; inversion H; auto. intros I. apply H2. apply in_or_app. now left.
Qed.
Section G.
  Variable m : list pt3.
  Let n := length m.
  Notation X := (X3 m).
  Hypothesis SO : forall i j, (i <= j < n)%nat -> X i <= X j.
  Variable x : Q.

  Lemma loop_inv : (0 < n)%nat -> forall k, (k <= n)%nat -> let '(i0, i2) := fold_left (step2d m x) (seq 0 k) (0%nat, (n - 1)%nat) in
    (i0 < n)%nat /\ (i2 < n)%nat /\ (i0 = 0%nat \/ X i0 <= x) /\
    (forall j, (j < k)%nat -> X j <= x -> X j <= X i0) /\ (forall j, (j < i0)%nat -> X j < X i0) /\
    (i2 = (n - 1)%nat \/ x <= X i2 /\ X 0 < X i2) /\
    (forall j, (n - k <= j < n)%nat -> x <= X j -> X i0 < X j -> X i2 <= X j).
  Proof.
    intros N. induction k as [|k IH]; intros K.
    - cbn. repeat split; auto; intros; lia.
    - specialize (IH ltac:(lia)). rewrite seq_S, fold_left_app. cbn [Nat.add fold_left].
      destruct (fold_left (step2d m x) (seq 0 k) (0%nat, (n - 1)%nat)) as [i0 i2].
      destruct IH as (L0 & L2 & A & B & C & D & E). unfold step2d. fold n.
      set (i0' := if Qltb (X i0) (X k) && Qle_bool (X k) x && Qle_bool (X k) (X i2) then k else i0).
      assert (P : (i0' < n)%nat /\ (i0' = 0%nat \/ X i0' <= x) /\ (forall j, (j < S k)%nat -> X j <= x -> X j <= X i0') /\
                  (forall j, (j < i0')%nat -> X j < X i0') /\ X i0 <= X i0').
      { unfold i0'. destruct (Qltb_spec (X i0) (X k)) as [H1|H1]; cbn [andb].
        - destruct (Qleb_spec (X k) x) as [H2|H2]; cbn [andb].
          + destruct (Qleb_spec (X k) (X i2)) as [H3|H3].
            * repeat split; [lia|now right| | |lra].
              -- intros j J G. destruct (Nat.eq_dec j k) as [->|]; [lra|]. specialize (B j ltac:(lia) G). lra.
              -- intros j J. assert (X j <= X k) by (apply SO; lia). specialize (B j J ltac:(lra)). lra.
            * exfalso. destruct D as [->|[D _]]; [|lra]. assert (X k <= X (n - 1)%nat) by (apply SO; lia). lra.
          + (split; [exact L0|]; split; [exact A|]; split; [|split; [exact C|lra]]). intros j J G. destruct (Nat.eq_dec j k) as [->|]; [lra|]. apply B; auto. lia.
        - (split; [exact L0|]; split; [exact A|]; split; [|split; [exact C|lra]]). intros j J G. destruct (Nat.eq_dec j k) as [->|]; [lra|]. apply B; auto. lia. }
      destruct P as (L0' & A' & B' & C' & M). clearbody i0'.
      set (kk := (n - 1 - k)%nat). assert (X0 : X 0 <= X i0') by (apply SO; lia).
      destruct (Qleb_spec (X kk) (X i2)) as [H1|H1]; cbn [andb]; [destruct (Qleb_spec x (X kk)) as [H2|H2]; cbn [andb]; [destruct (Qltb_spec (X i0') (X kk)) as [H3|H3]|]|].
      + repeat split; auto; [lia|right; split; lra|]. intros j J G1 G2.
        destruct (Nat.eq_dec j kk) as [->|NE]; [lra|]. specialize (E j ltac:(lia) G1 ltac:(lra)). lra.
      + repeat split; auto. intros j J G1 G2. destruct (Nat.eq_dec j kk) as [->|NE]; [lra|]. apply E; auto; [lia|lra].
      + repeat split; auto. intros j J G1 G2. destruct (Nat.eq_dec j kk) as [->|NE]; [lra|]. apply E; auto; [lia|lra].
      + repeat split; auto. intros j J G1 G2. destruct (Nat.eq_dec j kk) as [->|NE]; [lra|]. apply E; auto; [lia|lra].
  Qed.

  Lemma group_end_spec v : forall fuel ix, (n - ix <= fuel)%nat -> (ix <= n)%nat -> let e := group_end fuel m ix v in
    (ix <= e <= n)%nat /\ (forall k, (ix <= k < e)%nat -> X k == v) /\ (e = n \/ ~ X e == v).
  Proof.
    induction fuel as [|fu IH]; intros ix F L; cbn [group_end].
    - repeat split; try lia.
    - fold n. destruct (Nat.ltb_spec ix n) as [H|H]; cbn [andb]; [|repeat split; try lia].
      destruct (Qeqb_spec (X ix) v) as [E|E]; [|repeat split; try lia; auto].
      destruct (IH (S ix) ltac:(lia) ltac:(lia)) as (A & B & C). repeat split; [lia|lia| |exact C].
      intros k K. destruct (Nat.eq_dec k ix) as [->|]; auto. apply B. lia.
  Qed.
  Lemma group_start_eq v i : group_start (S (S i)) m v = if Qeq_bool (X (S i)) v then group_start (S i) m v else S (S i).
  Proof. reflexivity. Qed.
  Lemma group_start_spec v : forall ix, (0 < ix)%nat -> X ix == v -> let s := group_start ix m v in
    (0 < s <= ix)%nat /\ (forall k, (s <= k <= ix)%nat -> X k == v) /\ (s = 1%nat \/ ~ X (s - 1)%nat == v).
  Proof.
    induction ix as [|[|i] IH]; intros L E; [lia| |].
    - cbn [group_start]. split; [lia|]. split; [|now left]. intros k K. assert (k = 1%nat) by lia. now subst.
    - rewrite group_start_eq. destruct (Qeqb_spec (X (S i)) v) as [F|F].
      + destruct (IH ltac:(lia) F) as (A & B & C). repeat split; [lia|lia| |exact C].
        intros k K. destruct (Nat.eq_dec k (S (S i))) as [->|]; auto. apply B. lia.
      + split; [lia|]. split; [|now right]. intros k K. assert (k = S (S i)) by lia. now subst.
  Qed.

  (* a slice that holds a whole column *)
  Definition cell (p : pt3) : pt := (fst (snd p), Some (snd (snd p))).
  Lemma slice_in a b q : (a <= b <= n)%nat -> In q (slice3 m a b) <-> exists k, (a <= k < b)%nat /\ q = cell (nth k m (0, (0, 0))).
  Proof.
    intros L. unfold slice3. rewrite in_map_iff. split.
    - intros (p & <- & I). destruct (In_nth _ _ (0, (0, 0)) I) as (k & K & E). rewrite firstn_length, skipn_length in K. fold n in K.
      exists (a + k)%nat. split; [lia|]. f_equal. rewrite <- E. clear -K L.
      assert (H : forall A (d : A) j (l : list A) c, (j < c)%nat -> nth j (firstn c l) d = nth j l d).
      { intros A d. induction j as [|j IH]; intros [|y l] [|c] H; cbn; auto; try lia. apply IH. lia. }
      rewrite H by lia. clear. revert a. induction m as [|y l IH]; intros [|a]; [reflexivity|now destruct k|reflexivity|apply IH].
    - intros (k & K & ->). exists (nth k m (0, (0, 0))). split; [reflexivity|].
      assert (H : forall (l : list pt3) a c, (a <= k < length l)%nat -> (k - a < c)%nat -> In (nth k l (0, (0, 0))) (firstn c (skipn a l))).
      { clear. intros l a c. revert l k c. induction a as [|a IH]; intros l k c L C.
        - cbn. rewrite Nat.sub_0_r in C. revert l c L C. induction k as [|k IH]; intros [|y l] [|c] L C; cbn in *; try lia; auto. right. apply IH; lia.
        - destruct l as [|y l]; cbn in L; [lia|]. destruct k as [|k]; [lia|]. cbn [skipn nth]. apply IH; lia. }
      apply H; fold n; lia.
  Qed.
  Lemma whole v a b : (a < b <= n)%nat -> (forall k, (a <= k < b)%nat -> X k == v) -> (a = 0%nat \/ ~ X (a - 1)%nat == v) -> (b = n \/ ~ X b == v) ->
    forall q, In q (slice3 m a b) <-> exists p, In p m /\ fst p == v /\ q = cell p.
  Proof.
    intros L E HA HB q. rewrite slice_in by lia. split.
    - intros (k & K & ->). exists (nth k m (0, (0, 0))). split; [apply nth_In; fold n; lia|]. split; [apply (E k K)|reflexivity].
    - intros (p & I & V & ->). destruct (In_nth _ _ (0, (0, 0)) I) as (k & K & <-). fold n in K. exists k. split; [|reflexivity].
      assert (V' : X k == v) by exact V.
      split.
      + destruct (Nat.le_gt_cases a k) as [|G]; auto. exfalso. destruct HA as [->|HA]; [lia|]. apply HA.
        assert (X k <= X (a - 1)%nat) by (apply SO; lia). assert (X (a - 1)%nat <= X a) by (apply SO; lia). pose proof (E a ltac:(lia)). lra.
      + destruct (Nat.lt_ge_cases k b) as [|G]; auto. exfalso. destruct HB as [->|HB]; [lia|]. apply HB.
        assert (X b <= X k) by (apply SO; lia). assert (X (b - 1)%nat <= X b) by (apply SO; lia). pose proof (E (b - 1)%nat ltac:(lia)). lra.
  Qed.
  Lemma slice_distinct v a b : distinct3 m -> (forall q, In q (slice3 m a b) -> exists p, In p m /\ fst p == v /\ q = cell p) ->
    (forall p, In p (firstn (b - a) (skipn a m)) -> fst p == v) -> distinct (slice3 m a b).
  Proof.
    intros D _ E. unfold distinct, slice3. rewrite map_map. cbn [fst].
    set (s := firstn (b - a) (skipn a m)) in *.
    assert (DS : NoDup (map (fun p : pt3 => (Qred (fst p), Qred (fst (snd p)))) s)).
    { unfold distinct3 in D. rewrite <- (firstn_skipn a m), map_app in D. apply NoDup_app_r in D.
      rewrite <- (firstn_skipn (b - a) (skipn a m)), map_app in D. now apply NoDup_app_l in D. }
    assert (M : map (fun p : pt3 => (Qred (fst p), Qred (fst (snd p)))) s = map (fun q => (Qred v, q)) (map (fun p : pt3 => Qred (fst (snd p))) s)).
    { rewrite map_map. apply map_ext_in. intros p I. f_equal. apply Qred_complete. now apply E. }
    rewrite M in DS. exact (NoDup_map_inv _ _ DS).
  Qed.
End G.

Lemma firstn_in_nth (l : list pt3) a b p : In p (firstn (b - a) (skipn a l)) -> exists k, (a <= k < b)%nat /\ (k < length l)%nat /\ p = nth k l (0, (0, 0)).
Proof.
  intros I. destruct (In_nth _ _ (0, (0, 0)) I) as (k & K & E). rewrite firstn_length, skipn_length in K.
  exists (a + k)%nat. split; [lia|]. split; [lia|]. rewrite <- E. clear -K.
  assert (H : forall A (d : A) j (l : list A) c, (j < c)%nat -> nth j (firstn c l) d = nth j l d).
  { intros A d. induction j as [|j IH]; intros [|y l'] [|c] H; cbn; auto; try lia. apply IH. lia. }
  rewrite H by lia. clear. revert a. induction l as [|y l IH]; intros [|a]; [reflexivity|now destruct k|reflexivity|apply IH].
Qed.

(* the interpolation along a column *)
Lemma column_ok srt (l m : list pt3) v a b y ya za yb zb : sorts srt -> Permutation l m -> distinct3 l ->
  (forall i j, (i <= j < length m)%nat -> X3 m i <= X3 m j) ->
  (a < b <= length m)%nat -> (forall k, (a <= k < b)%nat -> X3 m k == v) -> (a = 0%nat \/ ~ X3 m (a - 1) == v) -> (b = length m \/ ~ X3 m b == v) ->
  segment l v y ya za yb zb -> exists f, interp1d srt (slice3 m a b) = Some f /\ oeq (f y) (line ya za yb zb y).
Proof.
  intros S PE D SO L E HA HB (I1 & I2 & LT & BT & H1 & H2).
  assert (W := @whole m SO v a b L E HA HB). apply (Permutation_in _ PE) in I1. apply (Permutation_in _ PE) in I2.
  assert (D' : distinct3 m) by (eapply Permutation_NoDup; [apply Permutation_map; exact PE|exact D]).
  assert (DS : distinct (slice3 m a b)).
  { apply (@slice_distinct m v a b); auto; [intros q Q; now apply W|]. intros p P. destruct (firstn_in_nth _ _ _ _ P) as (k & K1 & K2 & ->). now apply E. }
  assert (M1 : In (ya, Some za) (slice3 m a b)) by (apply W; exists (v, (ya, za)); repeat split; auto; reflexivity).
  assert (M2 : In (yb, Some zb) (slice3 m a b)) by (apply W; exists (v, (yb, zb)); repeat split; auto; reflexivity).
  assert (LEN : (2 <= length (slice3 m a b))%nat).
  { destruct (slice3 m a b) as [|p [|q s]]; cbn in *; [contradiction| |lia]. destruct M1 as [M1|[]], M2 as [M2|[]]. rewrite M1 in M2. injection M2 as E1 _. rewrite E1 in LT. lra. }
  assert (F : interp1d srt (slice3 m a b) = Some (eval1 (prep srt (slice3 m a b)))).
  { unfold interp1d. destruct (Nat.ltb_spec (length (slice3 m a b)) 2); [lia|reflexivity]. }
  exists (eval1 (prep srt (slice3 m a b))). split; [exact F|].
  assert (PM : forall q, In q (slice3 m a b) -> exists p, In p l /\ fst p == v /\ q = cell p).
  { intros q Q. apply W in Q. destruct Q as (p & P & R). exists p. split; [apply (Permutation_in _ (Permutation_sym PE)); exact P|exact R]. }
  apply (@interp1d_segment srt (slice3 m a b)); auto.
  - intros q Q. destruct (PM q Q) as (p & _ & _ & ->). discriminate.
  - intros q Q. destruct (PM q Q) as (p & P & V & ->). now apply BT.
  - destruct H1 as [H1|H1]; [now left|right]. intros q Q. destruct (PM q Q) as (p & P & V & ->). now apply H1.
  - destruct H2 as [H2|H2]; [now left|right]. intros q Q. destruct (PM q Q) as (p & P & V & ->). now apply H2.
Qed.

(* the last step: two columns *)
Lemma last_step srt v0 z0 v2 z2 r0 r2 x : sorts srt -> r0 == z0 -> r2 == z2 -> v0 <= v2 ->
  exists f, interp1d srt [(v0, Some r0); (v2, Some r2)] = Some f /\
  (v0 < v2 -> oeq (f x) (line v0 z0 v2 z2 x)) /\ (v0 == v2 -> oeq (f x) ((z0 + z2) / 2)).
Proof.
  intros S E0 E2 LE. eexists. split; [reflexivity|].
  assert (P : prep srt [(v0, Some r0); (v2, Some r2)] = [(v0, Some r0); (v2, Some r2)]).
  { unfold prep. cbn [map sortedb fst]. destruct (Qltb_spec v2 v0); [lra|reflexivity]. }
  rewrite P. unfold eval1. cbn [length]. replace (Nat.min (search (map fst [(v0, Some r0); (v2, Some r2)]) x - 1) (2 - 2)) with 0%nat by lia.
  cbn [skip_back Nat.add skip_fwd length Nat.sub Nat.ltb Nat.leb nth]. unfold interp2. cbn [fst snd].
  split; intros H; destruct (Qeqb_spec v2 v0) as [E|E]; cbn [oeq]; try lra.
  - unfold line. now rewrite E0, E2.
  - now rewrite E0, E2.
Qed.

Lemma eval2_eq srt l x y : l <> [] -> eval2 srt l x y =
    let '(ix0, ix2) := fold_left (step2d l x) (seq 0 (length l)) (O, (length l - 1)%nat) in
    let ix1 := group_end (length l) l ix0 (X3 l ix0) in
    let ix3 := group_end (length l) l ix2 (X3 l ix2) in
    let ix2 := group_start ix2 l (X3 l ix2) in
    match interp1d srt (slice3 l ix0 ix1), interp1d srt (slice3 l ix2 ix3) with
    | Some flow, Some fhi =>
        match interp1d srt [(X3 l ix0, flow y); (X3 l ix2, fhi y)] with
        | Some f => Some (f x)
        | None => None
        end
    | _, _ => None
    end.
Proof. destruct l; [congruence|reflexivity]. Qed.
Section Cell.
  Variables (srt3 : list pt3 -> list pt3) (srt : list pt -> list pt) (l : list pt3).
  Hypothesis (S3 : sorts3 srt3) (S1 : sorts srt) (D : distinct3 l).
  Let m := srt3 l.
  Let n := length m.
  Notation X := (X3 m).
  Lemma m_perm : Permutation l m.
  Proof. apply S3. Qed.
  Lemma m_sorted : forall i j, (i <= j < length m)%nat -> X i <= X j.
  Proof.
    intros i j L. destruct (S3 l) as [P H]. unfold m in L. rewrite <- (Permutation_length P) in L. specialize (H i j L). unfold le3 in H. unfold X3, m.
    destruct H as [H|[H _]]; lra.
  Qed.
  Lemma X_in k : (k < n)%nat -> exists p, In p l /\ fst p = X k.
  Proof. intros K. exists (nth k m (0, (0, 0))). split; [|reflexivity]. apply (Permutation_in _ (Permutation_sym m_perm)). now apply nth_In. Qed.
  Lemma in_X p : In p l -> exists k, (k < n)%nat /\ X k = fst p.
  Proof. intros I. apply (Permutation_in _ m_perm) in I. destruct (In_nth _ _ (0, (0, 0)) I) as (k & K & E). exists k. split; [exact K|]. unfold X3. now rewrite E. Qed.

  (* the value of Interp2d once the columns v0 and v2 are found *)
  Lemma finish x y i0 i2 v0 v2 ya za yb zb ya' za' yb' zb' : (1 < n)%nat ->
    fold_left (step2d m x) (seq 0 n) (0%nat, (n - 1)%nat) = (i0, i2) -> (i0 < n)%nat -> (i2 < n)%nat ->
    (forall j, (j < i0)%nat -> X j < X i0) -> X 0 < X i2 -> X i0 == v0 -> X i2 == v2 -> v0 <= v2 ->
    segment l v0 y ya za yb zb -> segment l v2 y ya' za' yb' zb' ->
    exists r, interp2d srt3 srt l x y = Some r /\
      (v0 < v2 -> oeq r (line v0 (line ya za yb zb y) v2 (line ya' za' yb' zb' y) x)) /\
      (v0 == v2 -> oeq r ((line ya za yb zb y + line ya' za' yb' zb' y) / 2)).
  Proof.
    intros N F L0 L2 C0 G2 E0 E2 LE SG0 SG2. unfold interp2d. fold m. rewrite eval2_eq by (intros Q; unfold n in N; rewrite Q in N; cbn in N; lia).
    fold n. rewrite F. cbv zeta.
    destruct (@group_end_spec m (X i0) n i0 ltac:(lia) ltac:(fold n; lia)) as (A1 & A2 & A3). fold n in A1, A3.
    destruct (@group_end_spec m (X i2) n i2 ltac:(lia) ltac:(fold n; lia)) as (B1 & B2 & B3). fold n in B1, B3.
    assert (I2 : (0 < i2)%nat) by (destruct i2; [lra|lia]).
    destruct (@group_start_spec m (X i2) i2 I2 ltac:(reflexivity)) as (C1 & C2 & C3).
    set (i1 := group_end n m i0 (X i0)) in *. set (i3 := group_end n m i2 (X i2)) in *. set (s2 := group_start i2 m (X i2)) in *.
    assert (LT1 : (i0 < i1)%nat). { destruct (Nat.eq_dec i0 i1) as [E|]; [|lia]. destruct A3 as [A3|A3]; [lia|]. rewrite <- E in A3. exfalso. apply A3. reflexivity. }
    assert (LT3 : (i2 < i3)%nat). { destruct (Nat.eq_dec i2 i3) as [E|]; [|lia]. destruct B3 as [B3|B3]; [lia|]. rewrite <- E in B3. exfalso. apply B3. reflexivity. }
    clearbody i1 i3 s2.
    destruct (@column_ok srt l m v0 i0 i1 y ya za yb zb S1 m_perm D m_sorted) as (f0 & F0 & V0); auto; fold n; try lia.
    { intros k K. rewrite (A2 k K). exact E0. }
    { destruct i0 as [|i0]; [now left|right]. intros Q. specialize (C0 (S i0 - 1)%nat ltac:(lia)). lra. }
    { destruct A3 as [A3|A3]; [now left|right]. intros Q. apply A3. lra. }
    destruct (@column_ok srt l m v2 s2 i3 y ya' za' yb' zb' S1 m_perm D m_sorted) as (f2 & F2 & V2); auto; fold n; try lia.
    { intros k K. destruct (Nat.le_gt_cases k i2); [rewrite (C2 k ltac:(lia))|rewrite (B2 k ltac:(lia))]; exact E2. }
    { right. destruct C3 as [->|C3]; [intros Q; change (1 - 1)%nat with 0%nat in Q; lra|]. intros Q. apply C3. lra. }
    { destruct B3 as [B3|B3]; [now left|right]. intros Q. apply B3. lra. }
    rewrite F0, F2. destruct (f0 y) as [r0|]; [|contradiction]. destruct (f2 y) as [r2|]; [|contradiction]. cbn [oeq] in V0, V2.
    assert (ES : X s2 == v2) by (rewrite (C2 s2 ltac:(lia)); exact E2).
    destruct (@last_step srt (X i0) (line ya za yb zb y) (X s2) (line ya' za' yb' zb' y) r0 r2 x S1 V0 V2 ltac:(lra)) as (f & FF & G1 & G3).
    rewrite FF. exists (f x). split; [reflexivity|]. split; intros H.
    - refine (@oeq_eq _ _ _ _ (G1 ltac:(lra))). unfold line. now rewrite E0, ES.
    - apply G3. lra.
  Qed.

  (* between two neighbouring columns, or to the left of all *)
  Lemma interp2d_cell x y gl gr pl pr ya za yb zb ya' za' yb' zb' :
    In pl l -> fst pl == gl -> In pr l -> fst pr == gr -> gl < gr -> (forall p, In p l -> ~ gl < fst p < gr) ->
    (gl <= x \/ forall p, In p l -> gl <= fst p) -> x < gr ->
    segment l gl y ya za yb zb -> segment l gr y ya' za' yb' zb' ->
    exists r, interp2d srt3 srt l x y = Some r /\ oeq r (line gl (line ya za yb zb y) gr (line ya' za' yb' zb' y) x).
  Proof.
    intros IL EL IR ER LT NB HL HR SG0 SG2.
    destruct (in_X _ IL) as (kl & Kl & Xl). destruct (in_X _ IR) as (kr & Kr & Xr). rewrite <- Xl in EL. rewrite <- Xr in ER.
    assert (KLR : (kl < kr)%nat). { destruct (Nat.lt_ge_cases kl kr) as [|G]; auto. assert (X kr <= X kl) by (apply m_sorted; fold n; lia). lra. }
    pose proof (@loop_inv m m_sorted x ltac:(fold n; lia) n ltac:(fold n; lia)) as INV. fold n in INV.
    destruct (fold_left (step2d m x) (seq 0 n) (0%nat, (n - 1)%nat)) as [i0 i2] eqn:F.
    destruct INV as (L0 & L2 & A & B & C & DD & E).
    assert (NBX : forall k, (k < n)%nat -> ~ gl < X k < gr). { intros k K. destruct (X_in K) as (p & P & <-). now apply NB. }
    assert (E0 : X i0 == gl).
    { destruct (Qlt_le_dec x gl) as [G|G].
      - destruct HL as [HL|HL]; [lra|]. assert (MIN : forall k, (k < n)%nat -> gl <= X k) by (intros k K; destruct (X_in K) as (p & P & <-); now apply HL).
        assert (i0 = 0%nat) by (destruct A as [|A]; auto; specialize (MIN i0 L0); lra). subst i0.
        assert (X 0 <= X kl) by (apply m_sorted; fold n; lia). specialize (MIN 0%nat ltac:(lia)). lra.
      - specialize (B kl Kl ltac:(lra)). destruct A as [->|A].
        + assert (X 0 <= X kl) by (apply m_sorted; fold n; lia). lra.
        + specialize (NBX i0 L0). destruct (Qlt_le_dec gl (X i0)); [|lra]. exfalso. apply NBX. lra. }
    assert (UB : X i2 <= gr) by (rewrite <- ER; apply E; [lia|lra|lra]).
    assert (G2 : X 0 < X i2).
    { destruct DD as [->|[_ DD]]; auto. assert (X kr <= X (n - 1)%nat) by (apply m_sorted; fold n; lia). assert (X 0 <= X kl) by (apply m_sorted; fold n; lia). lra. }
    assert (CASE : X i2 == gr \/ (X i2 == gl /\ x == gl)).
    { destruct DD as [->|[DD _]].
      - left. assert (X kr <= X (n - 1)%nat) by (apply m_sorted; fold n; lia). lra.
      - specialize (NBX i2 L2). destruct (Qlt_le_dec gl (X i2)) as [G|G].
        + left. destruct (Qlt_le_dec (X i2) gr); [exfalso; apply NBX; lra|lra].
        + destruct HL as [HL|HL]; [right; lra|]. exfalso. destruct (X_in (k:=0%nat) ltac:(lia)) as (p & P & EP). specialize (HL p P). rewrite EP in HL. lra. }
    destruct CASE as [E2|[E2 EX]].
    - destruct (@finish x y i0 i2 gl gr ya za yb zb ya' za' yb' zb' ltac:(lia) F L0 L2 C G2 E0 E2 ltac:(lra) SG0 SG2) as (r & R & H1 & _).
      exists r. split; auto.
    - destruct (@finish x y i0 i2 gl gl ya za yb zb ya za yb zb ltac:(lia) F L0 L2 C G2 E0 E2 ltac:(lra) SG0 SG0) as (r & R & _ & H1).
      exists r. split; auto. refine (@oeq_eq _ _ _ _ (H1 ltac:(lra))). destruct (@line_ends gl (line ya za yb zb y) gr (line ya' za' yb' zb' y) x LT) as [-> _]; auto. field.
  Qed.

  (* from the last column on, constant in x *)
  Lemma interp2d_right x y g pg pl ya za yb zb :
    In pg l -> fst pg == g -> In pl l -> fst pl < g -> (forall p, In p l -> fst p <= g) -> g <= x ->
    segment l g y ya za yb zb ->
    exists r, interp2d srt3 srt l x y = Some r /\ oeq r (line ya za yb zb y).
  Proof.
    intros IG EG IL LT MAX HX SG.
    destruct (in_X _ IL) as (kl & Kl & Xl). destruct (in_X _ IG) as (kr & Kr & Xr). rewrite <- Xl in LT. rewrite <- Xr in EG.
    assert (KLR : (kl < kr)%nat). { destruct (Nat.lt_ge_cases kl kr) as [|G]; auto. assert (X kr <= X kl) by (apply m_sorted; fold n; lia). lra. }
    pose proof (@loop_inv m m_sorted x ltac:(fold n; lia) n ltac:(fold n; lia)) as INV. fold n in INV.
    destruct (fold_left (step2d m x) (seq 0 n) (0%nat, (n - 1)%nat)) as [i0 i2] eqn:F.
    destruct INV as (L0 & L2 & A & B & C & DD & E).
    assert (MX : forall k, (k < n)%nat -> X k <= g) by (intros k K; destruct (X_in K) as (p & P & <-); now apply MAX).
    assert (E0 : X i0 == g) by (specialize (B kr Kr ltac:(lra)); specialize (MX i0 L0); lra).
    assert (E2 : X i2 == g).
    { specialize (MX i2 L2). destruct DD as [->|[DD _]]; [|lra]. assert (X kr <= X (n - 1)%nat) by (apply m_sorted; fold n; lia). lra. }
    assert (G2 : X 0 < X i2) by (assert (X 0 <= X kl) by (apply m_sorted; fold n; lia); lra).
    destruct (@finish x y i0 i2 g g ya za yb zb ya za yb zb ltac:(lia) F L0 L2 C G2 E0 E2 ltac:(lra) SG SG) as (r & R & _ & H1).
    exists r. split; auto. refine (@oeq_eq _ _ _ _ (H1 ltac:(lra))). field.
  Qed.
End Cell.
