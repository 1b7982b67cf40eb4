(* Lemmas for C221: two-valued columns, lists of cells *)
From Verif Require Import QCommon ImputeModel MetricsModel AvgModel.
Open Scope Q_scope.

(* a list takes at most two values *)
Definition at_most_two (l : list Q) : Prop := forall x y z, In x l -> In y l -> In z l -> x == y \/ y == z \/ x == z.

Lemma lo_spec : forall l a, let lo := fold_left (fun lo v => if Qltb v lo then v else lo) l a in
  (lo = a \/ In lo l) /\ lo <= a /\ (forall v, In v l -> lo <= v).
Proof.
  induction l as [|b l IH]; intros a; cbn -[Qltb].
  - split; [auto|]. split; [lra|]. intros v [].
  - specialize (IH (if Qltb b a then b else a)). cbn in IH. destruct IH as (H1 & H2 & H3).
    destruct (Qltb_spec b a) as [E|E].
    + split; [destruct H1 as [-> |]; auto|]. split; [lra|].
      intros v [<- |H]; [lra|]. apply H3; auto.
    + split; [destruct H1 as [-> |]; auto|]. split; [lra|]. intros v [<- |Hv]; [lra|]. apply H3; auto.
Qed.
Lemma hi_spec : forall l a, let hi := fold_left (fun hi v => if Qltb hi v then v else hi) l a in
  (hi = a \/ In hi l) /\ a <= hi /\ (forall v, In v l -> v <= hi).
Proof.
  induction l as [|b l IH]; intros a; cbn -[Qltb].
  - split; [auto|]. split; [lra|]. intros v [].
  - specialize (IH (if Qltb a b then b else a)). cbn in IH. destruct IH as (H1 & H2 & H3).
    destruct (Qltb_spec a b) as [E|E].
    + split; [destruct H1 as [-> |]; auto|]. split; [lra|].
      intros v [<- |H]; [lra|]. apply H3; auto.
    + split; [destruct H1 as [-> |]; auto|]. split; [lra|]. intros v [<- |Hv]; [lra|]. apply H3; auto.
Qed.
Lemma two_valued_spec l : two_valued l = true <-> at_most_two l.
Proof.
  destruct l as [|x0 l].
  - cbn. split; auto. intros _ x y z [].
  - unfold two_valued. set (L := x0 :: l).
    destruct (lo_spec L x0) as (A1 & A2 & A3). destruct (hi_spec L x0) as (B1 & B2 & B3).
    set (lo := fold_left _ L x0) in *. set (hi := fold_left (fun hi v => if Qltb hi v then v else hi) L x0) in *.
    rewrite forallb_forall. split.
    + intros H x y z Hx Hy Hz. apply H in Hx, Hy, Hz. rewrite !orb_true_iff, !Qeq_bool_iff in *.
      destruct Hx, Hy, Hz; [left|left|right; right|right; left|right; left|right; right|left|left]; lra.
    + intros H v Hv. rewrite orb_true_iff, !Qeq_bool_iff.
      assert (In lo L) by (destruct A1 as [-> |]; [left; auto|auto]).
      assert (In hi L) by (destruct B1 as [-> |]; [left; auto|auto]).
      destruct (H v lo hi) as [|[|]]; auto. left. pose proof (A3 v Hv). pose proof (B3 v Hv). lra.
Qed.

Lemma all_two n Y : forallb (fun c => two_valued (rcol c Y)) (seq 0 n) = true <-> forall c, (c < n)%nat -> at_most_two (rcol c Y).
Proof.
  rewrite forallb_forall. split; intros H c Hc.
  - apply two_valued_spec, H, in_seq. lia.
  - apply two_valued_spec, H. apply in_seq in Hc. lia.
Qed.

Lemma rcol_singletons l : rcol 0 (map (fun v => [v]) l) = l.
Proof. unfold rcol. rewrite map_map. apply map_id. Qed.

(* the total weight of the samples whose label in column c is 1 *)
Definition support (w : option (list Q)) (c : nat) (yt : list (list Q)) : Q :=
  qsum (map (weight w) (filter (fun i => Qeq_bool (nth c (nth i yt []) 0) 1) (seq 0 (length yt)))).
Lemma class_weight_support w c yt : class_weight w c yt == support w c yt.
Proof.
  unfold class_weight, support.
  assert (G : forall l k, (forall i, nth i l [] = nth (k + i) (repeat [] k ++ l) []) ->
    qsum (map (fun jr => if Qeq_bool (nth c (snd jr) 0) 1 then weight w (fst jr) else 0) (combine (seq k (length l)) l)) ==
    qsum (map (weight w) (filter (fun i => Qeq_bool (nth c (nth i (repeat [] k ++ l) []) 0) 1) (seq k (length l))))).
  { induction l as [|r l IH]; intros k Hk; [reflexivity|].
    cbn [length seq combine map fst snd filter].
    assert (E : nth k (repeat [] k ++ r :: l) [] = r) by (rewrite app_nth2; rewrite repeat_length; [rewrite Nat.sub_diag; reflexivity|lia]).
    rewrite E.
    assert (IH' := IH (S k)).
    assert (F : forall i, In i (seq (S k) (length l)) -> nth i (repeat [] (S k) ++ l) [] = nth i (repeat [] k ++ r :: l) []).
    { intros i Hi. apply in_seq in Hi. rewrite !app_nth2; rewrite !repeat_length; try lia.
      destruct (i - k)%nat eqn:X; [lia|]. cbn [nth]. f_equal. lia. }
    assert (F' : filter (fun i => Qeq_bool (nth c (nth i (repeat [] (S k) ++ l) []) 0) 1) (seq (S k) (length l)) =
                 filter (fun i => Qeq_bool (nth c (nth i (repeat [] k ++ r :: l) []) 0) 1) (seq (S k) (length l))).
    { apply filter_ext_in. intros i Hi. rewrite (F i Hi). reflexivity. }
    rewrite F' in IH'. clear F'.
    rewrite (qsum_cons (if Qeq_bool (nth c r 0) 1 then weight w k else 0)), IH'.
    - destruct (Qeq_bool (nth c r 0) 1); cbn [map]; [rewrite qsum_cons; lra|lra].
    - intros i. rewrite app_nth2; rewrite repeat_length; [f_equal; lia|lia]. }
  specialize (G yt 0%nat). cbn [repeat app] in G. apply G. reflexivity.
Qed.
Lemma zip_map_map {A} (h : Q -> Q -> Q) (f g : A -> Q) l : zip h (map f l) (map g l) = map (fun x => h (f x) (g x)) l.
Proof. induction l as [|x l IH]; [reflexivity|]. cbn. f_equal. exact IH. Qed.

Lemma type_multi n Y : n <> 1%nat -> (forall c, (c < n)%nat -> at_most_two (rcol c Y)) -> type_of_target n Y = TMulti.
Proof.
  intros Hn H. apply all_two in H. unfold type_of_target. rewrite H.
  destruct (Nat.eqb_spec n 1); [congruence|reflexivity].
Qed.

(* what "samples" averaging means: the score of every row *)
Definition row_scores (metric : list Q -> list Q -> option (list Q) -> Q) (yt ys : list (list Q)) : list Q :=
  map (fun r => metric (fst r) (snd r) None) (combine yt ys).
