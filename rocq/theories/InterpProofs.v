(* Proofs about InterpModel.v: Interp1d. *)
From Coq Require Import Permutation Lqa.
From Verif Require Import Common QCommon InterpModel.
Set Implicit Arguments.
Local Open Scope Q_scope.

(* a result: a number equal to q *)
Definition oeq (r : option Q) (q : Q) : Prop := match r with Some v => v == q | None => False end.
Definition xsorted (l : list pt) : Prop := forall i j, (i <= j < length l)%nat -> xget l i <= xget l j.
(* what sort.Sort guarantees *)
Definition sorts (srt : list pt -> list pt) : Prop := forall l, Permutation l (srt l) /\ xsorted (srt l).

Lemma sortedb_sorted l : sortedb (map fst l) = true -> xsorted l.
Proof.
  intros H. assert (ST : forall i, (S i < length l)%nat -> xget l i <= xget l (S i)).
  { clear -H. revert H. induction l as [|p [|q r] IH]; cbn [map sortedb length]; intros H i L; [lia|lia|].
    apply andb_true_iff in H. destruct H as [H1 H2]. destruct i as [|i].
    - unfold xget; cbn [nth]. destruct (Qltb_spec (fst q) (fst p)); [discriminate|assumption].
    - apply (IH H2 i). cbn [length] in *. lia. }
  intros i j [L1 L2]. induction L1 as [|j L1 IH]; [lra|]. specialize (ST j L2). specialize (IH ltac:(lia)). lra.
Qed.
Lemma prep_sorted srt l : sorts srt -> xsorted (prep srt l) /\ Permutation l (prep srt l).
Proof.
  intros S. unfold prep. destruct (sortedb (map fst l)) eqn:E.
  - split; [now apply sortedb_sorted|apply Permutation_refl].
  - destruct (S l). auto.
Qed.

Lemma search_spec l x : (search (map fst l) x <= length l)%nat /\
  (forall k, (k < search (map fst l) x)%nat -> xget l k < x) /\
  ((search (map fst l) x < length l)%nat -> x <= xget l (search (map fst l) x)).
Proof.
  induction l as [|p l (IH1 & IH2 & IH3)]; cbn [map search length]; [repeat split; lia|].
  destruct (Qleb_spec x (fst p)) as [E|E].
  - repeat split; [lia|lia|]. intros _. exact E.
  - repeat split; [lia| |].
    + intros [|k] K; [exact E|]. apply (IH2 k). lia.
    + intros K. apply IH3. lia.
Qed.

Lemma skip_back_spec l i : yget l i <> None -> forall ix, (i <= ix)%nat -> (forall k, (i < k <= ix)%nat -> yget l k = None) -> skip_back l ix = i.
Proof.
  intros Y. induction ix as [|ix IH]; intros L N; cbn [skip_back]; [lia|].
  destruct (Nat.eq_dec i (S ix)) as [-> | NE]; [destruct (yget l (S ix)); congruence|].
  rewrite (N (S ix)) by lia. apply IH; [lia|]. intros; apply N; lia.
Qed.
Lemma skip_fwd_spec l j : yget l j <> None -> (j < length l)%nat -> forall fuel ix, (ix <= j)%nat -> (j - ix <= fuel)%nat ->
  (forall k, (ix <= k < j)%nat -> yget l k = None) -> skip_fwd fuel l ix = j.
Proof.
  intros Y J. induction fuel as [|fu IH]; intros ix L F N; cbn [skip_fwd]; [lia|].
  destruct (Nat.eq_dec ix j) as [-> | NE].
  - destruct (Nat.ltb j (length l - 1)); [|reflexivity]. destruct (yget l j); congruence.
  - destruct (Nat.ltb_spec ix (length l - 1)); [|lia]. rewrite (N ix) by lia. apply IH; try lia. intros; apply N; lia.
Qed.

(* the points used *)
Lemma eval1_pair l x i j : xsorted l -> (i < j < length l)%nat -> yget l i <> None -> yget l j <> None ->
  (forall k, (i < k < j)%nat -> yget l k = None) -> (xget l i < x \/ i = 0%nat) -> (x <= xget l j \/ j = (length l - 1)%nat) ->
  eval1 l x = interp2 (nth i l (0, None)) (nth j l (0, None)) x.
Proof.
  intros S IJ Yi Yj N Hi Hj. unfold eval1. destruct (search_spec l x) as (S1 & S2 & S3).
  set (s := search (map fst l) x) in *. clearbody s.
  assert (A : (i <= Nat.min (s - 1) (length l - 2) < j)%nat).
  { split.
    - destruct Hi as [Hi | ->]; [|lia].
      assert (i < s)%nat. { destruct (Nat.lt_ge_cases i s) as [G|G]; [exact G|]. exfalso.
 specialize (S3 ltac:(lia)).
        assert (xget l s <= xget l i) by (apply S; lia). lra. }
      lia.
    - destruct Hj as [Hj | ->]; [|lia].
      assert (s <= j)%nat. { destruct (Nat.le_gt_cases s j) as [|G]; auto. exfalso. specialize (S2 j G). lra. }
      lia. }
  set (ix := Nat.min (s - 1) (length l - 2)) in *. clearbody ix.
  rewrite (@skip_back_spec l i Yi ix); [|lia|intros; apply N; lia].
  rewrite (@skip_fwd_spec l j Yj); [reflexivity|lia|lia|lia|intros; apply N; lia].
Qed.

Definition line (x0 y0 x1 y1 x : Q) : Q := y0 + (x - x0) / (x1 - x0) * (y1 - y0).
Lemma interp2_line x0 y0 x1 y1 x : x0 < x1 -> oeq (interp2 (x0, Some y0) (x1, Some y1) x) (line x0 y0 x1 y1 x).
Proof. intros H. unfold interp2. cbn. destruct (Qeqb_spec x1 x0) as [E|E]; [lra|]. cbn. reflexivity. Qed.

Lemma In_index (l : list pt) p : In p l -> exists i, (i < length l)%nat /\ nth i l (0, None) = p.
Proof. intros H. destruct (In_nth l p (0, None) H) as (i & A & B). eauto. Qed.

(* distinct abscissae *)
Definition distinct (l : list pt) : Prop := NoDup (map (fun p => Qred (fst p)) l).
Lemma distinct_lt l i j : xsorted l -> distinct l -> (i < j < length l)%nat -> xget l i < xget l j.
Proof.
  intros S D L. assert (A : xget l i <= xget l j) by (apply S; lia).
  destruct (Qlt_le_dec (xget l i) (xget l j)) as [|B]; auto. exfalso.
  assert (E : Qred (xget l i) = Qred (xget l j)) by (apply Qred_complete; lra).
  unfold distinct in D. rewrite (NoDup_nth _ (Qred 0)) in D. assert (i = j); [|lia]. apply D; rewrite ?map_length; try lia.
  assert (M : forall k, nth k (map (fun p : pt => Qred (fst p)) l) (Qred 0) = Qred (xget l k)) by (intros k; exact (map_nth (fun p : pt => Qred (fst p)) l (0, None) k)).
  now rewrite !M.
Qed.
Lemma distinct_perm l m : Permutation l m -> distinct l -> distinct m.
Proof. intros P. apply Permutation_NoDup. now apply Permutation_map. Qed.

(* two known points with nothing known in between *)
Lemma interp1d_nan srt l x0 y0 x1 y1 x f : sorts srt -> interp1d srt l = Some f -> distinct l ->
  In (x0, Some y0) l -> In (x1, Some y1) l -> x0 < x1 ->
  (forall a b, In (a, Some b) l -> ~ x0 < a < x1) ->
  (x0 < x \/ forall p, In p l -> x0 <= fst p) ->
  (x <= x1 \/ forall p, In p l -> fst p <= x1) ->
  oeq (f x) (line x0 y0 x1 y1 x).
Proof.
  intros S F D I0 I1 LT BTW H0 H1. unfold interp1d in F. destruct (Nat.ltb_spec (length l) 2) as [|L2]; [discriminate|].
  injection F as <-. destruct (prep_sorted l S) as [SO PE]. set (m := prep srt l) in *. clearbody m.
  apply (distinct_perm PE) in D.
  assert (LEN : length m = length l) by (symmetry; now apply Permutation_length).
  assert (IN : forall k, (k < length m)%nat -> In (xget m k, yget m k) l).
  { intros k K. apply (Permutation_in _ (Permutation_sym PE)). unfold xget, yget. rewrite <- surjective_pairing. now apply nth_In. }
  destruct (In_index m _ (Permutation_in _ PE I0)) as (i & Li & Ei).
  destruct (In_index m _ (Permutation_in _ PE I1)) as (j & Lj & Ej).
  assert (X0 : xget m i = x0) by (unfold xget; now rewrite Ei). assert (X1 : xget m j = x1) by (unfold xget; now rewrite Ej).
  assert (IJ : (i < j)%nat). { destruct (Nat.lt_ge_cases i j) as [|G]; auto. exfalso. assert (xget m j <= xget m i) by (apply SO; lia). rewrite X0, X1 in *. lra. }
  rewrite (@eval1_pair m x i j); auto; try lia; unfold yget; rewrite ?Ei, ?Ej; cbn [snd]; try discriminate.
  - now apply interp2_line.
  - intros k K. destruct (yget m k) as [b|] eqn:Y; [|exact Y]. exfalso. apply (@BTW (xget m k) b).
    + rewrite <- Y. apply IN. lia.
    + rewrite <- X0, <- X1. split; apply distinct_lt; auto; lia.
  - destruct H0 as [H0|H0]; [left; now rewrite X0|right].
    destruct i as [|i]; auto. exfalso. specialize (H0 _ (IN 0%nat ltac:(lia))). cbn [fst] in H0. rewrite <- X0 in H0.
    assert (xget m 0 < xget m (Datatypes.S i)) by (apply distinct_lt; auto; lia). lra.
  - destruct H1 as [H1|H1]; [left; now rewrite X1|right].
    destruct (Nat.eq_dec j (length m - 1)) as [|NE]; auto. exfalso. specialize (H1 _ (IN (length m - 1)%nat ltac:(lia))). cbn [fst] in H1. rewrite <- X1 in H1.
    assert (xget m j < xget m (length m - 1)) by (apply distinct_lt; auto; lia). lra.
Qed.

Lemma line_ends x0 y0 x1 y1 x : x0 < x1 -> (x == x0 -> line x0 y0 x1 y1 x == y0) /\ (x == x1 -> line x0 y0 x1 y1 x == y1).
Proof. intros H. unfold line. split; intros ->; field; lra. Qed.
Lemma oeq_eq r a b : a == b -> oeq r a -> oeq r b.
Proof. intros E. destruct r; cbn; auto. intros H. now rewrite H. Qed.

(* without NaN: closed intervals and the points themselves *)
Lemma interp1d_knot srt l x0 y0 f x : sorts srt -> interp1d srt l = Some f -> distinct l -> (forall p, In p l -> snd p <> None) ->
  In (x0, Some y0) l -> x == x0 -> oeq (f x) y0.
Proof.
  intros S F D NN I0 EX. assert (F' := F). unfold interp1d in F'. destruct (Nat.ltb_spec (length l) 2) as [|L2]; [discriminate|]. clear F'.
  destruct (prep_sorted l S) as [SO PE]. set (m := prep srt l) in *. clearbody m.
  assert (D' := distinct_perm PE D). assert (LEN : length m = length l) by (symmetry; now apply Permutation_length).
  assert (IN : forall k, (k < length m)%nat -> exists v, In (xget m k, Some v) l).
  { intros k K. assert (I : In (xget m k, yget m k) l).
    { apply (Permutation_in _ (Permutation_sym PE)). unfold xget, yget. rewrite <- surjective_pairing. now apply nth_In. }
    destruct (yget m k) as [v|]; [eauto|]. now specialize (NN _ I). }
  destruct (In_index m _ (Permutation_in _ PE I0)) as (i & Li & Ei).
  assert (X0 : xget m i = x0) by (unfold xget; now rewrite Ei).
  assert (BT : forall k a b, (Datatypes.S k < length m)%nat -> In (a, b) l -> ~ xget m k < a < xget m (Datatypes.S k)).
  { intros k a b K I [A B]. destruct (In_index m _ (Permutation_in _ PE I)) as (j & Lj & Ej).
    assert (E : xget m j = a) by (unfold xget; now rewrite Ej). rewrite <- E in *.
    destruct (Nat.le_gt_cases j k); [assert (xget m j <= xget m k) by (apply SO; lia)|assert (xget m (Datatypes.S k) <= xget m j) by (apply SO; lia)]; lra. }
  assert (MIN : forall p, In p l -> xget m 0 <= fst p).
  { intros p I. destruct (In_index m _ (Permutation_in _ PE I)) as (j & Lj & Ej). assert (E : xget m j = fst p) by (unfold xget; now rewrite Ej). rewrite <- E. apply SO. lia. }
  destruct i as [|i].
  - destruct (IN 1%nat ltac:(lia)) as [v Iv]. assert (LT0 : x0 < xget m 1) by (rewrite <- X0; apply distinct_lt; auto; lia).
    refine (@oeq_eq _ _ _ (proj1 (@line_ends x0 y0 (xget m 1) v x LT0) EX) _).
    apply (@interp1d_nan srt l); auto.
    + intros a b I. rewrite <- X0. apply (BT 0%nat a (Some b)); auto; lia.
    + right. rewrite <- X0. exact MIN.
    + left. lra.
  - destruct (IN i ltac:(lia)) as [v Iv]. assert (LTI : xget m i < x0) by (rewrite <- X0; apply distinct_lt; auto; lia).
    refine (@oeq_eq _ _ _ (proj2 (@line_ends (xget m i) v x0 y0 x LTI) EX) _).
    apply (@interp1d_nan srt l); auto.
    + intros a b I. rewrite <- X0. apply (BT i a (Some b)); auto; lia.
    + left. lra.
    + left. lra.
Qed.
Lemma interp1d_segment srt l x0 y0 x1 y1 x f : sorts srt -> interp1d srt l = Some f -> distinct l -> (forall p, In p l -> snd p <> None) ->
  In (x0, Some y0) l -> In (x1, Some y1) l -> x0 < x1 -> (forall p, In p l -> ~ x0 < fst p < x1) ->
  (x0 <= x \/ forall p, In p l -> x0 <= fst p) ->
  (x <= x1 \/ forall p, In p l -> fst p <= x1) ->
  oeq (f x) (line x0 y0 x1 y1 x).
Proof.
  intros S F D NN I0 I1 LT BTW H0 H1.
  destruct (Qlt_le_dec x0 x) as [A|A]; [apply (@interp1d_nan srt l); auto; intros a b I; apply (BTW (a, Some b) I)|].
  destruct H0 as [H0|H0]; [|apply (@interp1d_nan srt l); auto; intros a b I; apply (BTW (a, Some b) I)].
  assert (E : x == x0) by lra. refine (@oeq_eq _ _ _ (Qeq_sym _ _ (proj1 (@line_ends x0 y0 x1 y1 x LT) E)) _).
  now apply (@interp1d_knot srt l x0 y0).
Qed.
(* a NaN before the first known point *)
Lemma interp1d_leading_nan srt l f x0 y0 x1 : sorts srt -> interp1d srt l = Some f -> distinct l ->
  In (x0, Some y0) l -> In (x1, None) l -> (forall a b, In (a, Some b) l -> x0 <= a) -> x1 < x0 -> f x0 = None.
Proof.
  intros S F D I0 I1 K LT. unfold interp1d in F. destruct (Nat.ltb_spec (length l) 2) as [|L2]; [discriminate|].
  injection F as <-. destruct (prep_sorted l S) as [SO PE]. set (m := prep srt l) in *. clearbody m.
  apply (distinct_perm PE) in D.
  assert (LEN : length m = length l) by (symmetry; now apply Permutation_length).
  destruct (In_index m _ (Permutation_in _ PE I0)) as (i & Li & Ei).
  destruct (In_index m _ (Permutation_in _ PE I1)) as (j & Lj & Ej).
  assert (X0 : xget m i = x0) by (unfold xget; now rewrite Ei). assert (X1 : xget m j = x1) by (unfold xget; now rewrite Ej).
  assert (JI : (j < i)%nat). { destruct (Nat.lt_ge_cases j i) as [|G]; auto. exfalso. assert (xget m i <= xget m j) by (apply SO; lia). rewrite X0, X1 in *. lra. }
  assert (NA : forall k, (k < i)%nat -> yget m k = None).
  { intros k KI. destruct (yget m k) as [b|] eqn:Y; [|reflexivity]. exfalso.
    assert (x0 <= xget m k). { apply (K _ b). rewrite <- Y. apply (Permutation_in _ (Permutation_sym PE)). unfold xget, yget. rewrite <- surjective_pairing. apply nth_In. lia. }
    assert (xget m k < xget m i) by (apply distinct_lt; auto; lia). rewrite X0 in *. lra. }
  destruct (search_spec m x0) as (S1 & S2 & S3).
  assert (E : search (map fst m) x0 = i).
  { set (s := search (map fst m) x0) in *. destruct (Nat.lt_trichotomy s i) as [G|[G|G]]; auto; exfalso.
    - specialize (S3 ltac:(lia)). assert (xget m s < xget m i) by (apply distinct_lt; auto; lia). rewrite X0 in *. lra.
    - specialize (S2 i G). rewrite X0 in *. lra. }
  unfold eval1. rewrite E. replace (Nat.min (i - 1) (length m - 2)) with (i - 1)%nat by lia.
  assert (SB : forall k, (k < i)%nat -> yget m (skip_back m k) = None).
  { induction k as [|k IH]; intros KI; cbn [skip_back]; [now apply NA|]. rewrite (NA (Datatypes.S k) KI). apply IH. lia. }
  unfold interp2. fold (yget m (skip_back m (i - 1))). rewrite SB by lia. reflexivity.
Qed.

(* --------------------------------------------------------------- memory *)
Lemma eval_mem_fixed srt l h mem x : interp1d_mem srt l = Some h -> sortedb (map fst l) = false -> eval_mem h mem x = eval_mem h l x /\ interp1d srt l = Some (eval_mem h l).
Proof.
  unfold interp1d_mem, interp1d, prep. destruct (Nat.ltb (length l) 2); [discriminate|]. intros H E. rewrite E in *. injection H as <-. split; reflexivity.
Qed.
Lemma eval_mem_alias srt l h mem x : interp1d_mem srt l = Some h -> sortedb (map fst l) = true -> eval_mem h mem x = eval1 mem x /\ interp1d srt l = Some (eval_mem h l).
Proof.
  unfold interp1d_mem, interp1d, prep. destruct (Nat.ltb (length l) 2); [discriminate|]. intros H E. rewrite E in *. injection H as <-. split; reflexivity.
Qed.
