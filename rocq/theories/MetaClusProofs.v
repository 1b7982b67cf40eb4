(* Laws that relate two runs of a clustering: other units, another origin, another order of the samples. *)
From Coq Require Import Relations.
From Verif Require Import QCommon NeighModel ClusterModel DbscanProofs KMeansProofs ClusterProps MetaPrepProofs.
Open Scope Q_scope.

(* the distances of converted points are the distances times s *)
Definition homothetic (dist : list Q -> list Q -> Q) (n : nat) (a : Q) (b : nat -> Q) (s : Q) : Prop :=
  forall x x' c c', rescaled n (fun _ => a) b x x' -> rescaled n (fun _ => a) b c c' -> dist x' c' == s * dist x c.

Lemma rescaled_cons n a b x x' y y' : rescaled (S n) (fun _ => a) b (x :: y) (x' :: y') -> x' == a * x + b 0%nat /\ rescaled n (fun _ => a) (fun j => b (S j)) y y'.
Proof.
  intros (L & L' & H). split; [exact (H 0%nat ltac:(lia))|]. split; [cbn in L; lia|]. split; [cbn in L'; lia|]. intros j Hj. exact (H (S j) ltac:(lia)).
Qed.
Lemma rescaled_case n a b x x' : rescaled n (fun _ => a) b x x' -> (n = 0%nat /\ x = [] /\ x' = []) \/ exists k u v u' v', n = S k /\ x = u :: v /\ x' = u' :: v'.
Proof.
  intros (L & L' & _). destruct x as [|u v], x' as [|u' v']; cbn in L, L'; subst n; try discriminate; [left; auto|right]. exists (length v), u, v, u', v'. auto.
Qed.
Lemma euclid2_homothetic n a b : homothetic euclid2 n a b (a * a).
Proof.
  revert b. induction n as [|n IH]; intros b x x' c c' Hx Hc.
  - destruct (rescaled_case _ _ _ _ _ Hx) as [(_ & -> & ->)|(k & u & v & u' & v' & E & _)]; [|discriminate]. unfold euclid2. cbn [zip]. rewrite qsum_nil. ring.
  - destruct (rescaled_case _ _ _ _ _ Hx) as [(E & _)|(k & u & v & u' & v' & E & -> & ->)]; [discriminate|]. injection E as <-.
    destruct (rescaled_case _ _ _ _ _ Hc) as [(E & _)|(k & p & q & p' & q' & E & -> & ->)]; [discriminate|]. injection E as <-.
    destruct (rescaled_cons _ _ _ _ _ _ _ Hx) as (Hu & Hv). destruct (rescaled_cons _ _ _ _ _ _ _ Hc) as (Hp & Hq).
    pose proof (IH _ _ _ _ _ Hv Hq) as E. unfold euclid2 in *. cbn [zip]. rewrite !qsum_cons, E, Hu, Hp. ring.
Qed.
Lemma manhattan_sum x c : length x = length c -> manhattan x c == qsum (zip (fun x y => Qabs (y - x)) x c).
Proof.
  intros L. unfold manhattan, mink_p. destruct x as [|u [|u' x]]; [reflexivity| |reflexivity]. destruct c as [|v [|v' c]]; try discriminate. cbn [zip]. rewrite qsum_cons, qsum_nil. ring.
Qed.
Lemma manhattan_homothetic n a b : homothetic manhattan n a b (Qabs a).
Proof.
  intros x x' c c' Hx Hc. pose proof Hx as (L1 & L2 & _). pose proof Hc as (L3 & L4 & _). rewrite !manhattan_sum by congruence. clear L1 L2 L3 L4.
  revert b x x' c c' Hx Hc. induction n as [|n IH]; intros b x x' c c' Hx Hc.
  - destruct (rescaled_case _ _ _ _ _ Hx) as [(_ & -> & ->)|(k & u & v & u' & v' & E & _)]; [|discriminate]. cbn [zip]. rewrite qsum_nil. ring.
  - destruct (rescaled_case _ _ _ _ _ Hx) as [(E & _)|(k & u & v & u' & v' & E & -> & ->)]; [discriminate|]. injection E as <-.
    destruct (rescaled_case _ _ _ _ _ Hc) as [(E & _)|(k & p & q & p' & q' & E & -> & ->)]; [discriminate|]. injection E as <-.
    destruct (rescaled_cons _ _ _ _ _ _ _ Hx) as (Hu & Hv). destruct (rescaled_cons _ _ _ _ _ _ _ Hc) as (Hp & Hq).
    pose proof (IH _ _ _ _ _ Hv Hq) as E. cbn [zip]. rewrite !qsum_cons, E, Hu, Hp.
    setoid_replace (a * p + b 0%nat - (a * u + b 0%nat)) with (a * (p - u)) by ring. rewrite Qabs_Qmult. ring.
Qed.

(* the centroids of epoch e *)
Fixpoint centroids (dist : list Q -> list Q -> Q) (ord : nat -> list nat) (K m : nat) (X : list (list Q)) (e : nat) : list (list Q) :=
  match e with
  | O => firstn K X
  | S e => recompute K m X (assign dist (centroids dist ord K m X e) X) (ord e)
  end.

Section KMshift.
Variable dist : list Q -> list Q -> Q.
Variables (K m : nat) (a s : Q) (b : nat -> Q).
Variables X X' : list (list Q).
Variables ord ord' : nat -> list nat.
Hypothesis HK : (0 < K)%nat.
Hypothesis Hs : 0 < s.
Hypothesis Hd : homothetic dist m a b s.
Hypothesis HX : Forall2 (rescaled m (fun _ => a) b) X X'.
Hypothesis Ho : forall e, Permutation (ord e) (seq 0 (length X)).
Hypothesis Ho' : forall e, Permutation (ord' e) (seq 0 (length X)).

Definition relC (C C' : list (list Q)) : Prop := length C = K /\ Forall2 (rescaled m (fun _ => a) b) C C'.

Lemma F2_nth {A} (R : A -> A -> Prop) l l' d i : Forall2 R l l' -> (i < length l)%nat -> R (nth i l d) (nth i l' d).
Proof. intros F. revert i. induction F; intros i Hi; cbn in Hi; [lia|]. destruct i; cbn; auto. apply IHF. lia. Qed.
Lemma F2_of_nth {A} (R : A -> A -> Prop) l l' d : length l = length l' -> (forall i, (i < length l)%nat -> R (nth i l d) (nth i l' d)) -> Forall2 R l l'.
Proof.
  revert l'. induction l as [|x l IH]; intros [|y l'] L H; try discriminate; constructor; [exact (H 0%nat ltac:(cbn; lia))|]. apply IH; [cbn in L; lia|]. intros i Hi. exact (H (S i) ltac:(cbn; lia)).
Qed.
Lemma lenX : length X' = length X.
Proof. symmetry. eapply Forall2_length; eauto. Qed.
Lemma rowsX r : In r X -> length r = m.
Proof. intros Hr. destruct (Forall2_In_l _ _ _ _ HX Hr) as (r' & _ & (A & _)). exact A. Qed.
Lemma rowsX' r : In r X' -> length r = m.
Proof. intros Hr. destruct (Forall2_In_r _ _ _ _ HX Hr) as (r' & _ & (_ & A & _)). exact A. Qed.
Lemma relC_ok C C' : relC C C' -> okC K m C /\ okC K m C'.
Proof.
  intros (L & F). pose proof (Forall2_length F) as L'. split; (split; [lia|]); intros k Hk; pose proof (F2_nth _ _ _ [] k F ltac:(lia)) as (A & B & _); auto.
Qed.

Lemma nearest_rel C C' x x' : relC C C' -> rescaled m (fun _ => a) b x x' -> nearest dist C' x' = nearest dist C x.
Proof.
  intros (L & F) Hx. pose proof (Forall2_length F) as L'.
  assert (D: forall k, (k < K)%nat -> dist x' (nth k C' []) == s * dist x (nth k C [])).
  { intros k Hk. apply Hd; [exact Hx|]. apply F2_nth; [exact F|lia]. }
  destruct (nearest_spec dist C x ltac:(lia)) as (A & B & G). destruct (nearest_spec dist C' x' ltac:(lia)) as (A' & B' & G'). cbv zeta in *.
  set (p := nearest dist C x) in *. set (q := nearest dist C' x') in *.
  destruct (Nat.lt_trichotomy q p) as [E|[E|E]]; [|exact E|]; exfalso.
  - pose proof (G q E) as G1. pose proof (B' p ltac:(lia)) as B1. rewrite !D in B1 by lia. apply Qmult_le_l in B1; [lra|exact Hs].
  - pose proof (G' p E) as G1. pose proof (B q ltac:(lia)) as B1. rewrite !D in G1 by lia. apply Qmult_lt_l in G1; [lra|exact Hs].
Qed.
Lemma assign_rel C C' : relC C C' -> assign dist C' X' = assign dist C X.
Proof. intros R. unfold assign. pose proof HX as F0. clear Ho Ho' HX. induction F0 as [|x x' l l' Hx F IH]; [reflexivity|]. cbn [map]. f_equal; [now apply nearest_rel|exact IH]. Qed.

Lemma recompute_rel C y e e' : okC K m C -> y = assign dist C X -> (forall k, (k < K)%nat -> In k y \/ forall j, (j < m)%nat -> b j == 0) ->
  relC (recompute K m X y (ord e)) (recompute K m X' y (ord' e')).
Proof.
  intros OC Ey Hb. assert (OY: okY K X y) by (rewrite Ey; exact (assign_ok K m X HK dist C OC)). assert (OY': okY K X' y) by (destruct OY as (A & B); split; [rewrite lenX; exact A|exact B]).
  assert (P': Permutation (ord' e') (seq 0 (length X'))) by (rewrite lenX; auto).
  pose proof (recompute_mean K m X HK rowsX y (ord e) OY (Ho e)) as ((L & R) & M). pose proof (recompute_mean K m X' HK rowsX' y (ord' e') OY' P') as ((L' & R') & M').
  split; [exact L|]. apply (F2_of_nth _ _ _ []); [congruence|]. intros k Hk. rewrite L in Hk. split; [auto|]. split; [auto|]. intros j Hj.
  rewrite M, M' by assumption.
  assert (S: msum X' y k j == a * msum X y k j + b j * qn (ccount y k)).
  { rewrite (ccount_sum K X y k OY). unfold msum. rewrite lenX. rewrite <- qsum_map_scale, <- qsum_map_scale, <- qsum_map_plus. apply qsum_map_ext. intros i Hi. apply in_seq in Hi.
    destruct (Nat.eqb (nth i y 0%nat) k); [|ring]. unfold x_. pose proof (F2_nth _ _ _ [] i HX ltac:(lia)) as (_ & _ & E). rewrite (E j Hj). ring. }
  rewrite S. destruct (Nat.eq_dec (ccount y k) 0) as [E|E].
  - destruct (Hb k Hk) as [Hin|Hb0].
    + exfalso. unfold ccount in E. apply length_zero_iff_nil in E. assert (F: In k (filter (Nat.eqb k) y)) by (apply filter_In; split; [exact Hin|apply Nat.eqb_refl]). rewrite E in F. destruct F.
    + rewrite (Hb0 j Hj). rewrite E. change (qn 0) with 0. unfold Qdiv. change (/ 0) with 0. ring.
  - field. pose proof (qn_pos (ccount y k) ltac:(lia)). lra.
Qed.

Definition same_fit (r r' : option (list (list Q) * list nat)) : Prop :=
  match r, r' with
  | Some (C, y), Some (C', y') => y' = y /\ Forall2 (rescaled m (fun _ => a) b) C C'
  | None, None => True
  | _, _ => False
  end.

Hypothesis Hne : forall e k, (k < K)%nat -> In k (assign dist (centroids dist ord K m X e) X) \/ forall j, (j < m)%nat -> b j == 0.

Lemma loop_rel : forall fuel e e' C' y u, relC (centroids dist ord K m X e) C' ->
  same_fit (km_loop dist fuel ord e K m X (centroids dist ord K m X e) y u) (km_loop dist fuel ord' e' K m X' C' y u).
Proof.
  induction fuel as [|f IH]; intros e e' C' y u R; cbn [km_loop]; (destruct (Nat.leb_spec 2 u); [split; [reflexivity|apply R]|]); [exact I|].
  rewrite (assign_rel _ _ R). change (recompute K m X (assign dist (centroids dist ord K m X e) X) (ord e)) with (centroids dist ord K m X (S e)).
  apply IH. cbn [centroids]. apply (recompute_rel (centroids dist ord K m X e)); auto. apply (relC_ok _ _ R).
Qed.
Lemma fit_rel fuel : m = length (hd [] X) -> same_fit (km_fit dist fuel ord K X) (km_fit dist fuel ord' K X').
Proof.
  intros Hm. unfold km_fit. rewrite lenX. destruct (Nat.ltb_spec (length X) K); [exact I|]. destruct (Nat.eqb_spec K 0); [lia|]. cbn [orb].
  assert (Hm': m = length (hd [] X')). { destruct HX as [|x x' l l' (A & B & _) F]; [exact Hm|]. cbn. auto. }
  rewrite <- Hm, <- Hm'. apply loop_rel. split; [cbn [centroids]; rewrite firstn_length; lia|]. cbn [centroids].
  pose proof HX as F0. clear -F0. revert K. induction F0 as [|x x' l l' Hx F IH]; intros [|K]; cbn [firstn]; constructor; auto.
Qed.
End KMshift.

(* ----------------------------------------------------------------- dbscan *)
(* the same samples in another order: sample i of the first run is sample sg i of the second *)
Definition reordered (sg : nat -> nat) (wn wn' : option (list Q) * list (list nat)) : Prop :=
  let n := length (snd wn) in
  length (snd wn') = n /\ Permutation (map sg (seq 0 n)) (seq 0 n) /\
  (forall i, (i < n)%nat -> Permutation (map sg (nth i (snd wn) [])) (nth (sg i) (snd wn') [])) /\
  match fst wn, fst wn' with
  | None, None => True
  | Some w, Some w' => forall i, (i < n)%nat -> nth (sg i) w' 0 == nth i w 0
  | _, _ => False
  end.
(* neighbourhoods are sets of samples, and being neighbours is mutual *)
Definition mutual (nbh : list (list nat)) : Prop :=
  forall i v, (i < length nbh)%nat -> In v (nth i nbh []) -> (v < length nbh)%nat /\ In i (nth v nbh []).

Section Reorder.
Variables (ms : Q) (sg : nat -> nat) (w w' : option (list Q)) (nbh nbh' : list (list nat)).
Let n := length nbh.
Hypothesis HR : reordered sg (w, nbh) (w', nbh').
Hypothesis HM : mutual nbh.
Definition cores (w : option (list Q)) (nbh : list (list nat)) : list bool := map (fun nb => Qltb ms (n_neighbors w nb)) nbh.

Lemma sg_lt i : (i < n)%nat -> (sg i < n)%nat.
Proof. intros Hi. destruct HR as (_ & P & _). cbn [snd] in P. assert (In (sg i) (seq 0 n)) by (eapply Permutation_in; [exact P|]; apply in_map, in_seq; fold n; lia). apply in_seq in H. lia. Qed.
Lemma sg_inj i j : (i < n)%nat -> (j < n)%nat -> sg i = sg j -> i = j.
Proof.
  intros Hi Hj E. destruct HR as (_ & P & _). cbn [snd] in P. fold n in P. assert (N: NoDup (map sg (seq 0 n))) by (eapply Permutation_NoDup; [symmetry; exact P|apply seq_NoDup]).
  rewrite (NoDup_nth _ 0%nat) in N. rewrite map_length, seq_length in N. apply (N i j Hi Hj).
  rewrite !(nth_indep _ 0%nat (sg 0)) by (rewrite map_length, seq_length; lia). rewrite !map_nth, !seq_nth by lia. exact E.
Qed.
Lemma sg_onto k : (k < n)%nat -> exists i, (i < n)%nat /\ sg i = k.
Proof.
  intros Hk. destruct HR as (_ & P & _). cbn [snd] in P. fold n in P. assert (In k (map sg (seq 0 n))) by (eapply Permutation_in; [symmetry; exact P|]; apply in_seq; lia).
  apply in_map_iff in H. destruct H as (i & E & Hi). apply in_seq in Hi. exists i. split; [lia|exact E].
Qed.
Lemma len' : length nbh' = n.
Proof. destruct HR as (L & _). exact L. Qed.
Lemma nb_iff i v : (i < n)%nat -> (v < n)%nat -> In v (nth i nbh []) <-> In (sg v) (nth (sg i) nbh' []).
Proof.
  intros Hi Hv. destruct HR as (_ & _ & H & _). specialize (H i Hi). cbn [snd] in H. split; intros X.
  - eapply Permutation_in; [exact H|]. now apply in_map.
  - apply (Permutation_in _ (Permutation_sym H)) in X. apply in_map_iff in X. destruct X as (x & E & Hx). destruct (HM i x Hi Hx) as (Lx & _). apply sg_inj in E; auto. now subst.
Qed.
Lemma mutual' : mutual nbh'.
Proof.
  intros k v Hk Hv. rewrite len' in *. destruct (sg_onto k Hk) as (i & Hi & <-). destruct HR as (_ & _ & H & _). specialize (H i Hi). cbn [snd] in H.
  apply (Permutation_in _ (Permutation_sym H)) in Hv. apply in_map_iff in Hv. destruct Hv as (x & <- & Hx). destruct (HM i x Hi Hx) as (Lx & Hb). split; [now apply sg_lt|]. now apply nb_iff.
Qed.
Lemma core_iff i : (i < n)%nat -> nth (sg i) (cores w' nbh') false = nth i (cores w nbh) false.
Proof.
  intros Hi. unfold cores. rewrite (nth_indep (map (fun nb => Qltb ms (n_neighbors w nb)) nbh) false (Qltb ms (n_neighbors w []))) by (rewrite map_length; exact Hi).
  rewrite (nth_indep (map (fun nb => Qltb ms (n_neighbors w' nb)) nbh') false (Qltb ms (n_neighbors w' []))) by (rewrite map_length, len'; now apply sg_lt).
  rewrite (map_nth (fun nb => Qltb ms (n_neighbors w nb))), (map_nth (fun nb => Qltb ms (n_neighbors w' nb))).
  assert (E: n_neighbors w' (nth (sg i) nbh' []) == n_neighbors w (nth i nbh [])).
  { destruct HR as (_ & _ & H & W). specialize (H i Hi). cbn [snd fst] in H, W. unfold n_neighbors. destruct w as [v|], w' as [v'|]; try contradiction.
    - rewrite <- (qsum_perm _ _ (Permutation_map (fun i => nth i v' 0) H)). rewrite map_map. apply qsum_map_ext. intros x Hx. apply W. apply (HM i x Hi Hx).
    - rewrite <- (Permutation_length H), map_length. reflexivity. }
  destruct (Qltb_spec ms (n_neighbors w' (nth (sg i) nbh' []))), (Qltb_spec ms (n_neighbors w (nth i nbh []))); auto; rewrite E in *; lra.
Qed.
Lemma core_lt w0 nbh0 i : nth i (cores w0 nbh0) false = true -> (i < length nbh0)%nat.
Proof. intros H. destruct (Nat.ltb_spec i (length nbh0)); [assumption|]. rewrite nth_overflow in H by (unfold cores; rewrite map_length; lia). discriminate. Qed.
Lemma mutual_range nbh0 i v : mutual nbh0 -> In v (nth i nbh0 []) -> (v < length nbh0)%nat.
Proof. intros M Hv. destruct (Nat.ltb_spec i (length nbh0)); [apply (M i v); auto|]. rewrite nth_overflow in Hv by lia. destruct Hv. Qed.

Definition link (w0 : option (list Q)) (nbh0 : list (list nat)) (a b : nat) : Prop :=
  nth a (cores w0 nbh0) false = true /\ nth b (cores w0 nbh0) false = true /\ In b (nth a nbh0 []).
Lemma link_fwd u v : clos_refl_trans nat (link w nbh) u v -> clos_refl_trans nat (link w' nbh') (sg u) (sg v).
Proof.
  induction 1 as [a c (A & B & C)|a|a c d H1 IH1 H2 IH2]; [|apply rt_refl|eapply rt_trans; eauto]. apply rt_step.
  pose proof (core_lt _ _ _ A). pose proof (core_lt _ _ _ B). split; [now rewrite core_iff|]. split; [now rewrite core_iff|]. now apply nb_iff.
Qed.
Lemma link_bwd k l : clos_refl_trans nat (link w' nbh') k l -> forall u v, (u < n)%nat -> (v < n)%nat -> sg u = k -> sg v = l -> clos_refl_trans nat (link w nbh) u v.
Proof.
  induction 1 as [a c (A & B & C)|a|a c d H1 IH1 H2 IH2]; intros u v Hu Hv Eu Ev.
  - subst. apply rt_step. rewrite core_iff in A, B by assumption. split; [exact A|]. split; [exact B|]. now apply nb_iff.
  - rewrite <- Ev in Eu. apply sg_inj in Eu; auto. subst. apply rt_refl.
  - destruct (Nat.ltb_spec c n) as [Hc|Hc].
    + destruct (sg_onto c Hc) as (x & Hx & Ex). eapply rt_trans; [eapply IH1|eapply IH2]; eauto.
    + assert (G: forall p q, clos_refl_trans nat (link w' nbh') p q -> p = q \/ (p < n)%nat /\ (q < n)%nat).
      { clear -HR HM. intros p q. induction 1 as [p q (A & B & _)|p|p q r H1 IH1 H2 IH2]; [right|now left|].
        - apply core_lt in A, B. rewrite len' in A, B. split; assumption.
        - destruct IH1 as [->|(P & Q)]; auto. destruct IH2 as [->|(_ & R)]; auto. }
      destruct (G _ _ H1) as [E|(_ & E)]; [|lia]. subst. pose proof (sg_lt u Hu). lia.
Qed.

Lemma dbs_run w0 nbh0 : mutual nbh0 -> exists L c m, dbscan_inner (cores w0 nbh0) nbh0 (repeat (-1)%Z (length nbh0)) = Some (L, c) /\
  dbs_fit ms dbs_new (w0, nbh0) = Some m /\ dLabels m = L /\ (forall i, In i (dCore m) <-> nth i (cores w0 nbh0) false = true) /\
  let lab i := nth i L (-1)%Z in
  (forall j, lab j = (-1)%Z \/ (0 <= lab j < c)%Z) /\ (forall l, (0 <= l < c)%Z -> exists r, nth r (cores w0 nbh0) false = true /\ lab r = l) /\
  (forall u v, nth u (cores w0 nbh0) false = true -> nth v (cores w0 nbh0) false = true -> (lab u = lab v <-> clos_refl_trans nat (link w0 nbh0) u v)) /\
  (forall j, lab j <> (-1)%Z <-> nth j (cores w0 nbh0) false = true \/ exists u, nth u (cores w0 nbh0) false = true /\ In j (nth u nbh0 [])).
Proof.
  intros M. destruct (C36_dbscan_components (cores w0 nbh0) nbh0) as (L & c & E & LL & B & C & F & G & _).
  - unfold cores. now rewrite map_length.
  - intros i v. now apply mutual_range.
  - intros u v Cu Cv Hv. apply (M u v); [now apply core_lt in Cu|exact Hv].
  - exists L, c. eexists. split; [exact E|]. split; [unfold dbs_fit; fold (cores w0 nbh0); rewrite E; reflexivity|]. split; [reflexivity|]. split; [|cbv zeta in *; auto].
    intros i. cbn [dCore dbs_new app]. rewrite filter_In, in_seq. split; [tauto|]. intros H. split; [|exact H]. apply core_lt in H. lia.
Qed.

Lemma reps (P : nat -> Prop) (lab : nat -> Z) : forall k, (forall l, (0 <= l < Z.of_nat k)%Z -> exists r, P r /\ lab r = l) ->
  exists rs, length rs = k /\ Forall P rs /\ NoDup (map lab rs) /\ forall r, In r rs -> (lab r < Z.of_nat k)%Z.
Proof.
  induction k as [|k IH]; intros H; [exists []; repeat split; try constructor; intros r []|].
  destruct IH as (rs & A & B & C & D); [intros l Hl; apply H; lia|]. destruct (H (Z.of_nat k) ltac:(lia)) as (r & Pr & Er). exists (r :: rs).
  split; [cbn; lia|]. split; [constructor; auto|]. split.
  - cbn [map]. constructor; [|exact C]. rewrite in_map_iff. intros (x & E & Hx). specialize (D x Hx). lia.
  - intros x [<-|Hx]; [lia|]. specialize (D x Hx). lia.
Qed.
Lemma NoDup_map_inj_on {A B C} (f : A -> B) (g : A -> C) l : NoDup (map f l) -> (forall x y, In x l -> In y l -> g x = g y -> f x = f y) -> NoDup (map g l).
Proof.
  induction l as [|a l IH]; cbn [map]; intros N H; [constructor|]. apply NoDup_cons_iff in N. destruct N as (N1 & N2). constructor.
  - rewrite in_map_iff. intros (x & E & Hx). apply N1. rewrite <- (H x a); [now apply in_map|now right|now left|exact E].
  - apply IH; auto. intros x y Hx Hy. apply H; now right.
Qed.
Lemma classes_le (P : nat -> Prop) (f g : nat -> Z) c d : (0 <= c)%Z -> (0 <= d)%Z -> (forall l, (0 <= l < c)%Z -> exists r, P r /\ f r = l) -> (forall x, P x -> (0 <= g x < d)%Z) ->
  (forall x y, P x -> P y -> g x = g y -> f x = f y) -> (c <= d)%Z.
Proof.
  intros Hc Hd H1 H2 H3. destruct (reps P f (Z.to_nat c)) as (rs & A & B & N & _); [intros l Hl; apply H1; lia|]. rewrite Forall_forall in B.
  assert (N': NoDup (map g rs)) by (apply (NoDup_map_inj_on f); auto).
  assert (I: incl (map g rs) (map Z.of_nat (seq 0 (Z.to_nat d)))).
  { intros z Hz. apply in_map_iff in Hz. destruct Hz as (r & <- & Hr). specialize (H2 r (B r Hr)). apply in_map_iff. exists (Z.to_nat (g r)). split; [lia|]. apply in_seq. lia. }
  pose proof (NoDup_incl_length N' I) as LE. rewrite !map_length, seq_length, A in LE. lia.
Qed.

Lemma inner_nonneg ic nb : forall todo num L L' c, inner_loop ic nb todo num L = Some (L', c) -> (num <= c)%Z.
Proof.
  induction todo as [|i todo IH]; intros num L L' c E; cbn [inner_loop] in E; [injection E as _ Ec; rewrite Ec; apply Z.le_refl|].
  destruct (negb (lab L i =? -1)%Z || negb (isc ic i))%bool; [eauto|]. destruct (dfs ic nb (dfs_fuel nb) num [i] L); [|discriminate]. apply IH in E. lia.
Qed.

Lemma reorder_main : exists m m' c, dbs_fit ms dbs_new (w, nbh) = Some m /\ dbs_fit ms dbs_new (w', nbh') = Some m' /\
  let lab i := nth i (dLabels m) (-1)%Z in let lab' i := nth i (dLabels m') (-1)%Z in
  (forall i, (i < n)%nat -> (In i (dCore m) <-> In (sg i) (dCore m'))) /\
  (forall i, (i < n)%nat -> (lab i = (-1)%Z <-> lab' (sg i) = (-1)%Z)) /\
  (forall u v, In u (dCore m) -> In v (dCore m) -> (lab u = lab v <-> lab' (sg u) = lab' (sg v))) /\
  (forall l, (0 <= l < c)%Z <-> l <> (-1)%Z /\ exists i, (i < n)%nat /\ lab i = l) /\
  (forall l, (0 <= l < c)%Z <-> l <> (-1)%Z /\ exists i, (i < n)%nat /\ lab' i = l).
Proof.
  destruct (dbs_run w nbh HM) as (L & c & m & E & F & EL & K & A & B & C & D). destruct (dbs_run w' nbh' mutual') as (L' & c' & m' & E' & F' & EL' & K' & A' & B' & C' & D'). cbv zeta in *.
  assert (CC: forall u v, nth u (cores w nbh) false = true -> nth v (cores w nbh) false = true -> (nth u L (-1)%Z = nth v L (-1)%Z <-> nth (sg u) L' (-1)%Z = nth (sg v) L' (-1)%Z)).
  { intros u v Hu Hv. pose proof (core_lt _ _ _ Hu). pose proof (core_lt _ _ _ Hv). rewrite C by assumption. rewrite C' by (rewrite core_iff; assumption). split; [apply link_fwd|]. intros G. eapply link_bwd; eauto. }
  assert (EC: c = c').
  { assert (P1: (0 <= c)%Z) by (eapply inner_nonneg; exact E). assert (P2: (0 <= c')%Z) by (eapply inner_nonneg; exact E'). apply Z.le_antisymm.
    - apply (classes_le (fun i => nth i (cores w nbh) false = true) (fun i => nth i L (-1)%Z) (fun i => nth (sg i) L' (-1)%Z)); auto.
      + intros x Hx. destruct (A' (sg x)) as [G|G]; [|exact G]. exfalso. apply (proj2 (D' (sg x))); [|exact G]. left. rewrite core_iff; [exact Hx|now apply core_lt in Hx].
      + intros x y Hx Hy. now apply CC.
    - apply (classes_le (fun i => nth i (cores w nbh) false = true) (fun i => nth (sg i) L' (-1)%Z) (fun i => nth i L (-1)%Z)); auto.
      + intros l Hl. destruct (B' l Hl) as (r & Hr & Er). pose proof (core_lt _ _ _ Hr) as Lr. rewrite len' in Lr. destruct (sg_onto r Lr) as (i & Hi & <-). exists i. split; [now rewrite <- core_iff|exact Er].
      + intros x Hx. destruct (A x) as [G|G]; [|exact G]. exfalso. apply (proj2 (D x)); [|exact G]. now left.
      + intros x y Hx Hy. now apply CC. }
  exists m, m', c. split; [exact F|]. split; [exact F'|]. rewrite EL, EL'. split; [|split; [|split; [|split]]].
  - intros i Hi. now rewrite K, K', core_iff.
  - intros i Hi. assert (G: nth i L (-1)%Z <> (-1)%Z <-> nth (sg i) L' (-1)%Z <> (-1)%Z); [|destruct (Z.eq_dec (nth i L (-1)%Z) (-1)), (Z.eq_dec (nth (sg i) L' (-1)%Z) (-1)); tauto].
    rewrite D, D', core_iff by exact Hi. split; (intros [X|(u & X & Y)]; [now left|right]).
    + pose proof (core_lt _ _ _ X). exists (sg u). split; [now rewrite core_iff|]. now apply nb_iff.
    + pose proof (core_lt _ _ _ X) as Lu. rewrite len' in Lu. destruct (sg_onto u Lu) as (v & Hv & <-). exists v. split; [now rewrite <- core_iff|]. now apply nb_iff.
  - intros u v Hu Hv. apply K in Hu, Hv. now apply CC.
  - intros l. split.
    + intros Hl. split; [lia|]. destruct (B l Hl) as (r & Hr & Er). exists r. split; [now apply core_lt in Hr|exact Er].
    + intros (Hl & i & Hi & <-). destruct (A i); [contradiction|assumption].
  - rewrite EC. intros l. split.
    + intros Hl. split; [lia|]. destruct (B' l Hl) as (r & Hr & Er). exists r. split; [apply core_lt in Hr; now rewrite len' in Hr|exact Er].
    + intros (Hl & i & Hi & <-). destruct (A' i); [contradiction|assumption].
Qed.
End Reorder.
