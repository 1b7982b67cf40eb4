From Verif Require Import QCommon NeighModel RankProofs KdProofs.
Open Scope Q_scope.

Lemma zip_seq {C} (f : Q -> Q -> C) : forall a b, length a = length b -> zip f a b = map (fun j => f (nth j a 0) (nth j b 0)) (seq 0 (length a)).
Proof.
  induction a as [|x a IH]; intros [|y b] H; cbn [zip length seq map] in *; try discriminate; auto.
  f_equal. rewrite (IH b) by lia. rewrite <- seq_shift, map_map. reflexivity.
Qed.

Lemma fold_qmax_spec l : forall a, let v := fold_left (fun dp d => qmax dp d) l a in a <= v /\ (forall e, In e l -> e <= v) /\ forall u, a <= u -> (forall e, In e l -> e <= u) -> v <= u.
Proof.
  induction l as [|y l IH]; intros a; cbn [fold_left].
  - split; [lra|]. split; [intros ? []|auto].
  - destruct (IH (qmax a y)) as (A & B & C). cbv zeta in *. assert (a <= qmax a y /\ y <= qmax a y /\ forall u, a <= u -> y <= u -> qmax a y <= u) as (H1 & H2 & H3).
    { unfold qmax. destruct (Qleb_spec a y); repeat split; intros; lra. }
    split; [lra|]. split; [intros e [<-|He]; [lra|auto]|]. intros u Hu He. apply C; [apply H3; auto; apply He; now left|]. intros; apply He; now right.
Qed.

Definition sorted_by {A} (key : A -> Q) (l : list A) : Prop := StronglySorted (fun a b => key a <= key b) l.
Definition sorting {A} (key : A -> Q) (srt : list A -> list A) : Prop := forall l, Permutation (srt l) l /\ sorted_by key (srt l).

(* an insertion sort, to show that such sorts exist *)
Fixpoint qinsert {A} (key : A -> Q) (a : A) (l : list A) : list A :=
  match l with [] => [a] | b :: l' => if Qle_bool (key a) (key b) then a :: l else b :: qinsert key a l' end.
Definition qisort {A} (key : A -> Q) (l : list A) : list A := fold_right (qinsert key) [] l.
Lemma qisort_sorting {A} (key : A -> Q) : sorting key (qisort key).
Proof.
  assert (P: forall a l, Permutation (qinsert key a l) (a :: l)).
  { intros a l. induction l as [|b l IH]; cbn [qinsert]; auto. destruct (Qle_bool (key a) (key b)); auto. rewrite IH. apply perm_swap. }
  intros l. induction l as [|a l (IH1 & IH2)]; cbn [qisort fold_right]; [split; constructor|]. split.
  - rewrite P. constructor. exact IH1.
  - fold (qisort key l). set (s := qisort key l) in *. clear -IH2 P. unfold sorted_by in *. induction s as [|b s IH]; cbn [qinsert]; [repeat constructor|].
    apply StronglySorted_inv in IH2. destruct IH2 as (S1 & S2). destruct (Qleb_spec (key a) (key b)).
    + constructor; [constructor; auto|]. constructor; [auto|]. eapply Forall_impl; [|exact S2]. cbn. intros c Hc. lra.
    + constructor; [auto|]. rewrite Forall_forall in *. intros c Hc. apply (Permutation_in _ (P a s)) in Hc. destruct Hc as [<-|Hc]; [lra|auto].
Qed.

(* ------------------------------------------------------------- selection *)
(* a downward closed test that holds for k entries holds for the first k *)
Lemma first_k_ok {A} (key : A -> Q) (B : Q) (l : list A) k : sorted_by key l -> (k <= length (filter (fun e => Qle_bool (key e) B) l))%nat ->
  forall e, In e (firstn k l) -> key e <= B.
Proof.
  revert k. induction l as [|a l IH]; intros k S H e He; [rewrite firstn_nil in He; destruct He|].
  apply StronglySorted_inv in S. destruct S as (S1 & S2). destruct k as [|k]; [destruct He|]. cbn [firstn] in He.
  cbn [filter] in H. destruct (Qleb_spec (key a) B) as [HA|HA].
  - destruct He as [<-|He]; [exact HA|]. apply (IH k S1); [cbn [length] in H; lia|exact He].
  - exfalso. rewrite (proj2 (filter_nil _ l)) in H; [cbn in H; lia|]. intros b Hb. rewrite Forall_forall in S2. specialize (S2 b Hb). apply Qleb_false. lra.
Qed.

Lemma Qmult_le_l_compat z x y : 0 <= z -> x <= y -> z * x <= z * y.
Proof. intros. rewrite !(Qmult_comm z). now apply Qmult_le_compat_r. Qed.

Lemma ids_len (nb : list nele) n : NoDup (map snd nb) -> (forall i, In i (map snd nb) -> (i < n)%nat) -> (length nb <= n)%nat.
Proof. intros B C. pose proof (NoDup_incl_length B (l' := seq 0 n)) as L. rewrite map_length, seq_length in L. apply L. intros i Hi. apply in_seq. specialize (C i Hi). lia. Qed.
Lemma ids_ge (nb : list nele) n : (forall i, (i < n)%nat -> In i (map snd nb)) -> (n <= length nb)%nat.
Proof. intros B. pose proof (NoDup_incl_length (seq_NoDup n 0) (l' := map snd nb)) as L. rewrite map_length, seq_length in L. apply L. intros i Hi. apply in_seq in Hi. apply B. lia. Qed.

Section Q.
Variable data : list (list Q).
Variables (pinf : bool) (pw : Q -> Q).
Variable x : list Q.
Variable k : nat.
Variable epsfac : Q.
Variable qsrt : list qele -> list qele.
Variable nsrt : list nele -> list nele.
Variable fsrt : list nele -> list nele.
Let m := length x.
Let N := length data.
Let D i := mink_p pinf pw x (nth i data []).

Hypothesis Hk : (1 <= k)%nat.
Hypothesis He : 0 <= epsfac <= 1.
Hypothesis Hq : sorting qmind qsrt.
Hypothesis Hn : sorting (fun e : nele => fst e) nsrt.
Hypothesis Hf : sorting (fun e : nele => fst e) fsrt.
Hypothesis Hpw : pw 0 == 0 /\ forall s t, 0 <= s -> s <= t -> pw s <= pw t.
Hypothesis Hrow : forall i, (i < N)%nat -> length (nth i data []) = m.
Hypothesis Hm : (2 <= m)%nat \/ (m = 1%nat /\ (pinf = true \/ forall t, 0 <= t -> pw t == t)).

Lemma Hpw0 t : 0 <= t -> 0 <= pw t.
Proof. intros H. destruct Hpw as (P0 & PM). rewrite <- P0. apply PM; lra. Qed.

Lemma pinf_case : {pinf = true} + {pinf = false}.
Proof. destruct (Bool.bool_dec pinf true) as [E|E]; [now left|right; now apply not_true_is_false]. Qed.

Lemma D_fin i : pinf = false -> (i < N)%nat -> D i == qsum (map (fun j => pw (Qabs (dat data i j - nth j x 0))) (seq 0 m)).
Proof.
  intros E Hi. unfold D, mink_p, m. specialize (Hrow i Hi). unfold dat. set (y := nth i data []) in *. unfold m in *. clearbody y.
  destruct x as [|x0 [|x1 xr]] eqn:EX; destruct y as [|y0 y]; cbn [length] in Hrow; try discriminate.
  - rewrite E. reflexivity.
  - destruct Hm as [Hm'|(_ & [Hm'|Hm'])]; [cbn in Hm'; lia|congruence|]. cbn [length seq map nth]. rewrite qsum_cons, qsum_nil, Hm' by apply Qabs_nonneg. lra.
  - rewrite E. rewrite zip_seq by (cbn [length]; lia). reflexivity.
Qed.
Lemma D_inf i : pinf = true -> (i < N)%nat -> (forall j, (j < m)%nat -> Qabs (dat data i j - nth j x 0) <= D i) /\ 0 <= D i.
Proof.
  intros E Hi. unfold D, mink_p, m. specialize (Hrow i Hi). unfold dat. set (y := nth i data []) in *. unfold m in *. clearbody y.
  destruct x as [|x0 [|x1 xr]] eqn:EX; destruct y as [|y0 y]; cbn [length] in Hrow; try discriminate.
  - rewrite E. cbn. split; [intros; lia|lra].
  - cbn [length]. split; [|apply Qabs_nonneg]. intros [|j] Hj; [cbn; lra|lia].
  - rewrite E. rewrite zip_seq by (cbn [length]; lia). set (l := map _ _). destruct (fold_qmax_spec l 0) as (A & B & _). cbv zeta in *. split; [|exact A].
    intros j Hj. apply B. unfold l. apply in_map_iff. exists j. split; [reflexivity|]. apply in_seq. lia.
Qed.
Lemma D_nonneg i : (i < N)%nat -> 0 <= D i.
Proof.
  intros Hi. destruct pinf_case as [E|E]; [now apply D_inf|]. rewrite D_fin by auto. apply qsum_nonneg. intros v Hv. apply in_map_iff in Hv. destruct Hv as (j & <- & _). apply Hpw0, Qabs_nonneg.
Qed.

(* ------------------------------------------------- what a queue entry says *)
Definition cell_ok (e : qele) : Prop :=
  let '(mind, sides, node) := e in
  (forall i, In i (leaves node) -> (i < N)%nat) /\ (exists maxes mins, boxed data m node maxes mins) /\
  if pinf then forall i, In i (leaves node) -> mind <= D i
  else length sides = m /\ mind == qsum sides /\ forall i j, In i (leaves node) -> (j < m)%nat -> nth j sides 0 <= pw (Qabs (dat data i j - nth j x 0)).

Lemma list_seq (l : list Q) : l = map (fun j => nth j l 0) (seq 0 (length l)).
Proof. induction l as [|a l IH]; cbn [length seq map nth]; [reflexivity|]. f_equal. rewrite IH at 1. rewrite <- seq_shift, map_map. reflexivity. Qed.

Lemma cell_lb mind sides node i : cell_ok (mind, sides, node) -> In i (leaves node) -> mind <= D i.
Proof.
  intros (A & _ & B) Hi. destruct pinf_case as [E|E]; rewrite E in B; [auto|]. destruct B as (L & S & B). rewrite D_fin by auto. rewrite S.
  rewrite (list_seq sides), L. apply qsum_le. intros j Hj. apply in_seq in Hj. apply B; auto; lia.
Qed.

Lemma qsum_upd (l : list Q) d s : (d < length l)%nat -> qsum (upd l d s) == qsum l - nth d l 0 + s.
Proof.
  intros H. destruct (nth_error l d) as [v|] eqn:E; [|apply nth_error_None in E; lia].
  pose proof (qsum_perm _ _ (upd_perm_cons l d s E)) as P. rewrite !qsum_cons in P. rewrite (nth_error_nth _ _ 0 E). lra.
Qed.

Lemma cell_children mind sides d split less greater : cell_ok (mind, sides, Inner d split less greater) ->
  let xd := nth d x 0 in
  let near := if Qltb xd split then less else greater in
  let far := if Qltb xd split then greater else less in
  let mind' := if pinf then qmax mind (Qabs (split - xd)) else mind - nth d sides 0 + pw (Qabs (split - xd)) in
  let sides' := if pinf then sides else upd sides d (pw (Qabs (split - xd))) in
  cell_ok (mind, sides, near) /\ cell_ok (mind', sides', far) /\ Permutation (leaves near ++ leaves far) (leaves (Inner d split less greater)).
Proof.
  intros (A & (maxes & mins & B) & C). cbv zeta. cbn [leaves boxed] in *. destruct B as (_ & Hd & BL & BG & BBL & BBG).
  assert (AL: forall i, In i (leaves less) -> (i < N)%nat) by (intros; apply A, in_app_iff; auto).
  assert (AG: forall i, In i (leaves greater) -> (i < N)%nat) by (intros; apply A, in_app_iff; auto).
  set (xd := nth d x 0). set (far := if Qltb xd split then greater else less). set (near := if Qltb xd split then less else greater).
  assert (FS: forall i, In i (leaves far) -> Qabs (split - xd) <= Qabs (dat data i d - xd)).
  { intros i Hi. unfold far in Hi. destruct (Qltb_spec xd split).
    - specialize (BG i Hi). rewrite !Qabs_pos by lra. lra.
    - specialize (BL i Hi). rewrite !Qabs_neg by lra. lra. }
  assert (SUB: forall i, In i (leaves near) \/ In i (leaves far) -> In i (leaves less ++ leaves greater)).
  { intros i Hi. unfold near, far in Hi. apply in_app_iff. destruct (Qltb xd split); tauto. }
  assert (BN: exists mx mn, boxed data m near mx mn) by (unfold near; destruct (Qltb xd split); eauto).
  assert (BF: exists mx mn, boxed data m far mx mn) by (unfold far; destruct (Qltb xd split); eauto).
  split; [|split].
  - unfold cell_ok. split; [intros i Hi; apply A, SUB; auto|]. split; [exact BN|]. destruct pinf_case as [E|E]; rewrite E in C |- *.
    + intros i Hi. apply C, SUB; auto.
    + destruct C as (C1 & C2 & C3). split; [exact C1|]. split; [exact C2|]. intros i j Hi Hj. apply C3; auto.
  - unfold cell_ok. split; [intros i Hi; apply A, SUB; auto|]. split; [exact BF|]. destruct pinf_case as [E|E]; rewrite E in C |- *.
    + intros i Hi. assert (mind <= D i) by (apply C, SUB; auto). assert (Qabs (split - xd) <= D i).
      { eapply Qle_trans; [apply FS; exact Hi|]. apply D_inf; [exact E| |exact Hd]. apply A, SUB; auto. }
      unfold qmax. destruct (Qleb_spec mind (Qabs (split - xd))); lra.
    + destruct C as (C1 & C2 & C3). split; [now rewrite upd_length|]. split; [rewrite qsum_upd by lia; rewrite C2; reflexivity|].
      intros i j Hi Hj. rewrite nth_upd by lia. destruct (Nat.eqb_spec j d) as [->|]; [|apply C3; auto].
      apply Hpw; [apply Qabs_nonneg|]. now apply FS.
  - unfold near, far. destruct (Qltb xd split); [apply Permutation_refl|apply Permutation_app_comm].
Qed.

(* ------------------------------------------------------- loop invariant *)
Variable dub0 : option Q.

Definition cnt (B : Q) (nb : list nele) : nat := length (filter (fun e : nele => Qle_bool (- fst e) B) nb).
Definition beyond0 (i : nat) : Prop := exists b0, dub0 = Some b0 /\ b0 * epsfac < D i.
(* k entries e with epsfac * distance e <= distance i *)
Definition beaten (nb : list nele) (i : nat) : Prop := (k <= length (filter (fun e : nele => Qle_bool (epsfac * - fst e) (D i)) nb))%nat.

Definition Inv (pend : list nat) (nb : list nele) (dub : option Q) : Prop :=
  (forall e, In e nb -> fst e = - D (snd e)) /\
  NoDup (map snd nb ++ pend) /\
  (forall i, In i (map snd nb ++ pend) -> (i < N)%nat) /\
  sorted_by (fun e : nele => fst e) nb /\
  ((length nb < k)%nat -> dub = dub0) /\
  (length nb = k -> dub = Some (- fst (hd (0, 0%nat) nb))) /\
  ((k < length nb)%nat -> exists B, dub = Some B /\ (k <= cnt B nb)%nat) /\
  (forall i, (i < N)%nat -> In i (map snd nb) \/ In i pend \/ beaten nb i \/ beyond0 i).

Lemma filter_perm_len {A} (f : A -> bool) l l' : Permutation l l' -> length (filter f l) = length (filter f l').
Proof.
  induction 1; cbn [filter]; auto.
  - destruct (f x0); cbn; lia.
  - destruct (f y), (f x0); cbn; lia.
  - lia.
Qed.
Lemma filter_len_all {A} (f : A -> bool) l : length (filter f l) = length l -> forall e, In e l -> f e = true.
Proof.
  induction l as [|a l IH]; intros H e I; [destruct I|]. cbn [filter] in H. pose proof (filter_length_le f l).
  destruct (f a) eqn:E; cbn [length] in H; [|lia]. destruct I as [<-|I]; [exact E|]. apply IH; [lia|exact I].
Qed.
Lemma filter_len_mono {A} (f : A -> bool) l a : (length (filter f l) <= length (filter f (a :: l)))%nat.
Proof. cbn. destruct (f a); cbn; lia. Qed.

Lemma inv_perm p p' nb dub : Permutation p p' -> Inv p nb dub -> Inv p' nb dub.
Proof.
  intros P (A & B & C & S & E & F & G & H). repeat split; auto.
  - eapply Permutation_NoDup; [|exact B]. now apply Permutation_app_head.
  - intros i Hi. apply C. eapply Permutation_in; [|exact Hi]. apply Permutation_app_head. now symmetry.
  - intros i Hi. destruct (H i Hi) as [X|[X|X]]; auto. right; left. eapply Permutation_in; eauto.
Qed.

Lemma ids_perm (nb nb' : list nele) : Permutation nb nb' -> Permutation (map snd nb) (map snd nb').
Proof. apply Permutation_map. Qed.

(* pushing without popping *)
Lemma push_inv i pend nb dub : Inv (i :: pend) nb dub -> (length nb = k -> exists B, dub = Some B /\ B <= D i) ->
  let nb' := nsrt (nb ++ [(- D i, i)]) in
  Inv pend nb' (if Nat.eqb (length nb') k then Some (- fst (hd (0, 0%nat) nb')) else dub).
Proof.
  intros (A & B & C & S & E & F & G & H) Hd nb'. destruct (Hn (nb ++ [(- D i, i)])) as (P & SS'). fold nb' in P, SS'.
  assert (LN: length nb' = (1 + length nb)%nat) by (rewrite (Permutation_length P), app_length; cbn; lia).
  assert (P': Permutation nb' ((- D i, i) :: nb)) by (rewrite P; symmetry; apply Permutation_cons_append).
  assert (PI: Permutation (map snd nb') (i :: map snd nb)) by (apply (ids_perm _ _ P')).
  assert (PIP: Permutation (map snd nb' ++ pend) (map snd nb ++ i :: pend)).
  { rewrite PI. cbn [app]. apply Permutation_middle. }
  split; [intros e He'; apply (Permutation_in _ P') in He'; destruct He' as [<-|He']; [reflexivity|auto]|].
  split; [eapply Permutation_NoDup; [symmetry; exact PIP|exact B]|].
  split; [intros y Hy; apply C; eapply Permutation_in; eauto|].
  split; [exact SS'|].
  split; [intros HL; destruct (Nat.eqb_spec (length nb') k); [lia|]; apply E; lia|].
  split; [intros HL; destruct (Nat.eqb_spec (length nb') k); [reflexivity|lia]|].
  split.
  - intros HL. destruct (Nat.eqb_spec (length nb') k); [lia|]. destruct (Nat.eq_dec (length nb) k) as [EK|NK].
    + destruct (Hd EK) as (Bd & EB & _). exists Bd. split; [exact EB|]. unfold cnt. rewrite (filter_perm_len _ _ _ P').
      etransitivity; [|apply filter_len_mono]. rewrite (filter_all (A := nele)); [lia|]. intros e Hin. rewrite (F EK) in EB. injection EB as <-.
      apply Qle_bool_iff. destruct nb as [|h t]; [destruct Hin|]. cbn [hd fst]. apply StronglySorted_inv in S. destruct S as (_ & S). rewrite Forall_forall in S.
      destruct Hin as [<-|Hin]; [lra|]. specialize (S e Hin). lra.
    + destruct (G ltac:(lia)) as (Bd & EB & HC). exists Bd. split; [exact EB|]. unfold cnt in *. rewrite (filter_perm_len _ _ _ P').
      etransitivity; [exact HC|apply filter_len_mono].
  - intros y Hy. destruct (H y Hy) as [X|[X|[X|X]]]; auto.
    + left. eapply Permutation_in; [symmetry; exact PI|]. now right.
    + destruct X as [<-|X]; auto. left. eapply Permutation_in; [symmetry; exact PI|]. now left.
    + right; right; left. unfold beaten in *. rewrite (filter_perm_len _ _ _ P'). etransitivity; [exact X|apply filter_len_mono].
Qed.

Lemma pop_inv i pend nb dub : Inv (i :: pend) nb dub -> length nb = k -> below (D i) dub = true ->
  let nb' := nsrt (tl nb ++ [(- D i, i)]) in
  Inv pend nb' (if Nat.eqb (length nb') k then Some (- fst (hd (0, 0%nat) nb')) else dub).
Proof.
  intros (A & B & C & S & E & F & G & H) EK HB nb'. destruct (Hn (tl nb ++ [(- D i, i)])) as (P & SS'). fold nb' in P, SS'.
  destruct nb as [|h t]; [cbn in EK; lia|]. cbn [tl] in *. rewrite (F EK) in HB. cbn [hd below] in HB. apply Qltb_true in HB.
  assert (P': Permutation nb' ((- D i, i) :: t)) by (rewrite P; symmetry; apply Permutation_cons_append).
  assert (LN: length nb' = k) by (rewrite (Permutation_length P'); cbn [length] in *; lia).
  assert (PI: Permutation (map snd nb') (i :: map snd t)) by (apply (ids_perm _ _ P')).
  assert (PIP: Permutation (map snd nb' ++ pend) (map snd t ++ i :: pend)).
  { rewrite PI. cbn [app]. apply Permutation_middle. }
  apply StronglySorted_inv in S. destruct S as (S1 & S2). rewrite Forall_forall in S2.
  assert (Eh: fst h = - D (snd h)) by (apply A; now left).
  assert (HhN: (snd h < N)%nat) by (apply C; now left).
  assert (ALL: forall c, epsfac * - fst h <= c -> forall e, In e nb' -> epsfac * - fst e <= c).
  { intros c Hc e Hin. assert (- fst e <= - fst h). { apply (Permutation_in _ P') in Hin. destruct Hin as [<-|Hin]; [cbn [fst]; lra|]. specialize (S2 e Hin). lra. } nra. }
  assert (BT: forall y, epsfac * - fst h <= D y -> beaten nb' y).
  { intros y Hc. unfold beaten. rewrite (filter_all (A := nele)); [rewrite LN; lia|]. intros e Hin. apply Qle_bool_iff. now apply (ALL (D y) Hc). }
  split; [intros e He'; apply (Permutation_in _ P') in He'; destruct He' as [<-|He']; [reflexivity|apply A; now right]|].
  cbn [map app] in B, C. apply NoDup_cons_iff in B. destruct B as (B0 & B).
  split; [eapply Permutation_NoDup; [symmetry; exact PIP|exact B]|].
  split; [intros y Hy; apply C; right; eapply Permutation_in; eauto|].
  split; [exact SS'|].
  split; [intros HL; lia|].
  split; [intros HL; destruct (Nat.eqb_spec (length nb') k); [reflexivity|lia]|].
  split; [intros HL; lia|].
  intros y Hy. destruct (H y Hy) as [X|[X|[X|X]]]; auto.
  - cbn [map] in X. destruct X as [<-|X].
    + right; right; left. apply BT. rewrite Eh. pose proof (D_nonneg _ HhN) as HD. set (v := D (snd h)) in *. clearbody v. clear -HD He. setoid_replace (epsfac * - - v) with (epsfac * v) by ring. nra.
    + left. eapply Permutation_in; [symmetry; exact PI|]. now right.
  - destruct X as [<-|X]; auto. left. eapply Permutation_in; [symmetry; exact PI|]. now left.
  - right; right; left. apply BT. unfold beaten in X.
    assert (LL: length (filter (fun e : nele => Qle_bool (epsfac * - fst e) (D y)) (h :: t)) = length (h :: t)).
    { pose proof (filter_length_le (fun e : nele => Qle_bool (epsfac * - fst e) (D y)) (h :: t)). apply Nat.le_antisymm; [exact H0|]. rewrite EK. exact X. }
    apply Qle_bool_iff. exact (filter_len_all _ _ LL h (or_introl eq_refl)).
Qed.

Lemma leaf_inv i pend nb dub : Inv (i :: pend) nb dub -> let st := leaf_step data pinf pw x k nsrt (nb, dub) i in Inv pend (fst st) (snd st).
Proof.
  intros HI. cbn [leaf_step fst snd]. fold (D i). unfold leaf_step. destruct (Nat.eqb_spec (length nb) k) as [EK|NK].
  - rewrite andb_true_r. destruct (below (D i) dub) eqn:EB; cbn [fst snd].
    + now apply pop_inv.
    + apply push_inv; auto. intros _. destruct dub as [b|]; [|discriminate]. exists b. split; [reflexivity|]. cbn in EB. now apply Qltb_false.
  - rewrite andb_false_r. cbn [fst snd]. apply push_inv; auto. intros; contradiction.
Qed.

Lemma leaf_fold_inv idx : forall pend nb dub, Inv (idx ++ pend) nb dub ->
  let st := fold_left (leaf_step data pinf pw x k nsrt) idx (nb, dub) in Inv pend (fst st) (snd st).
Proof.
  induction idx as [|i idx IH]; intros pend nb dub H; [exact H|]. cbn [fold_left]. pose proof (leaf_inv i (idx ++ pend) nb dub H) as L. cbv zeta in L.
  destruct (leaf_step data pinf pw x k nsrt (nb, dub) i) as [nb' dub']. cbn [fst snd] in L. now apply IH.
Qed.

(* dropping samples that are too far *)
Lemma prune_inv l pend nb dub mind : Inv (l ++ pend) nb dub -> above mind (bscale dub epsfac) = true -> (forall i, In i l -> mind <= D i) -> Inv pend nb dub.
Proof.
  intros (A & B & C & S & E & F & G & H) HA HL. apply NoDup_app_iff in B. destruct B as (B1 & B2 & B3). apply NoDup_app_iff in B2. destruct B2 as (B4 & B5 & B6).
  split; [exact A|]. split.
  { apply NoDup_app_iff. split; [exact B1|]. split; [exact B5|]. intros y Hy Hy'. apply (B3 y Hy). apply in_app_iff. now right. }
  split; [intros i Hi; apply C; apply in_app_iff in Hi; apply in_app_iff; destruct Hi; [now left|right; apply in_app_iff; now right]|].
  repeat (split; [assumption|]). intros i Hi. destruct (H i Hi) as [X|[X|X]]; auto. apply in_app_iff in X. destruct X as [X|X]; auto.
  specialize (HL i X). right; right. destruct dub as [b|]; [|discriminate]. cbn in HA. apply Qltb_true in HA.
  destruct (lt_eq_lt_dec (length nb) k) as [[HK|HK]|HK].
  - right. exists b. split; [now rewrite <- (E HK)|lra].
  - left. unfold beaten. rewrite (filter_all (A := nele)); [exact (Nat.eq_le_incl _ _ (eq_sym HK))|]. intros e Hin. apply Qle_bool_iff. assert (Eb: b = - fst (hd (0, 0%nat) nb)) by (specialize (F HK); congruence).
    destruct nb as [|h t]; [destruct Hin|]. cbn [hd] in Eb. apply StronglySorted_inv in S. destruct S as (_ & S). rewrite Forall_forall in S.
    assert (- fst e <= b) by (rewrite Eb; destruct Hin as [<-|Hin]; [lra|specialize (S e Hin); lra]). nra.
  - left. destruct (G HK) as (b' & Eb & HC). injection Eb as <-. unfold beaten. etransitivity; [exact HC|]. unfold cnt.
    clear -HA HL He. induction nb as [|e nb IH]; cbn [filter]; [lia|].
    destruct (Qleb_spec (- fst e) b) as [H1|H1]; destruct (Qleb_spec (epsfac * - fst e) (D i)) as [H2|H2]; cbn [length]; try lia.
    exfalso. assert (epsfac * - fst e <= epsfac * b) by (apply Qmult_le_l_compat; lra). lra.
Qed.

Definition qleaves (q : list qele) : list nat := flat_map (fun e => leaves (snd e)) q.
Fixpoint qsize (q : list qele) : nat := match q with [] => 0%nat | e :: q' => (kd_size (snd e) + qsize q')%nat end.
Lemma qleaves_perm q q' : Permutation q q' -> Permutation (qleaves q) (qleaves q').
Proof. apply Permutation_flat_map. Qed.
Lemma qsize_perm q q' : Permutation q q' -> qsize q = qsize q'.
Proof. induction 1; cbn [qsize] in *; lia. Qed.
Lemma qleaves_app a b : qleaves (a ++ b) = qleaves a ++ qleaves b.
Proof. unfold qleaves. apply flat_map_app. Qed.
Lemma qsize_app a b : qsize (a ++ b) = (qsize a + qsize b)%nat.
Proof. induction a as [|e a IH]; cbn [app qsize] in *; lia. Qed.

Lemma query_loop_inv : forall fuel q nb dub, (qsize q <= fuel)%nat -> (forall e, In e q -> cell_ok e) -> sorted_by qmind q -> Inv (qleaves q) nb dub ->
  exists nb' dub', query_loop data pinf pw x k epsfac qsrt nsrt fuel q nb dub = Some nb' /\ Inv [] nb' dub'.
Proof.
  induction fuel as [|f IH]; intros q nb dub HF HC HS HI; destruct q as [|[[mind sides] node] q'].
  - exists nb, dub. split; [reflexivity|exact HI].
  - exfalso. cbn [qsize snd] in HF. destruct node; cbn [kd_size] in HF; lia.
  - exists nb, dub. split; [reflexivity|exact HI].
  - cbn [query_loop]. apply StronglySorted_inv in HS. destruct HS as (HS1 & HS2). rewrite Forall_forall in HS2.
    pose proof (HC _ (or_introl eq_refl)) as HC0. assert (HC': forall e, In e q' -> cell_ok e) by (intros; apply HC; now right).
    destruct node as [idx|d split less greater].
    + pose proof (leaf_fold_inv idx (qleaves q') nb dub HI) as L. cbv zeta in L. destruct (fold_left _ idx (nb, dub)) as [nb' dub']. cbn [fst snd] in L.
      apply IH; auto. cbn [qsize snd kd_size] in HF. lia.
    + destruct (above mind (bscale dub epsfac)) eqn:EA.
      * exists nb, dub. split; [reflexivity|]. apply (prune_inv (qleaves ((mind, sides, Inner d split less greater) :: q')) [] nb dub mind); [now rewrite app_nil_r|exact EA|].
        intros i Hi. unfold qleaves in Hi. apply in_flat_map in Hi. destruct Hi as ([[mind' sides'] node'] & I1 & I2). cbn [snd] in I2.
        pose proof (cell_lb _ _ _ i (HC _ I1) I2). destruct I1 as [I1|I1]; [injection I1 as <- _ _; exact H|]. specialize (HS2 _ I1). unfold qmind in HS2. cbn [fst] in HS2. lra.
      * pose proof (cell_children _ _ _ _ _ _ HC0) as CC. cbv zeta in *. set (xd := nth d x 0) in *.
        set (near := if Qltb xd split then less else greater) in *. set (far := if Qltb xd split then greater else less) in *.
        set (mind' := if pinf then qmax mind (Qabs (split - xd)) else mind - nth d sides 0 + pw (Qabs (split - xd))) in *.
        set (sides' := if pinf then sides else upd sides d (pw (Qabs (split - xd)))) in *.
        replace (if Qltb xd split then (less, greater) else (greater, less)) with (near, far) by (unfold near, far; now destruct (Qltb xd split)).
        replace (if pinf then (qmax mind (Qabs (split - xd)), sides) else (mind - nth d sides 0 + pw (Qabs (split - xd)), upd sides d (pw (Qabs (split - xd))))) with (mind', sides')
          by (unfold mind', sides'; destruct pinf_case as [EP|EP]; rewrite EP; reflexivity).
        destruct CC as (CN & CF & CP).
        set (q1 := qsrt (q' ++ [(mind, sides, near)])). destruct (Hq (q' ++ [(mind, sides, near)])) as (P1 & S1). fold q1 in P1, S1.
        assert (SZ: (kd_size near + kd_size far = kd_size less + kd_size greater)%nat) by (unfold near, far; destruct (Qltb xd split); lia).
        assert (QL1: Permutation (leaves far ++ qleaves q1) (qleaves ((mind, sides, Inner d split less greater) :: q'))).
        { rewrite (qleaves_perm _ _ P1), qleaves_app. unfold qleaves at 2. cbn [flat_map snd]. rewrite app_nil_r. change (qleaves ((mind, sides, Inner d split less greater) :: q')) with (leaves (Inner d split less greater) ++ qleaves q').
          rewrite <- CP. rewrite <- app_assoc. rewrite (Permutation_app_comm (leaves near)). rewrite <- app_assoc. reflexivity. }
        pose proof (inv_perm _ _ _ _ (Permutation_sym QL1) HI) as HI1.
        assert (SZ1: (S (kd_size far + qsize q1) <= S f)%nat).
        { rewrite (qsize_perm _ _ P1), qsize_app. cbn [qsize snd kd_size] in *. lia. }
        assert (OK1: forall e, In e q1 -> cell_ok e).
        { intros e Hin. apply (Permutation_in _ P1) in Hin. apply in_app_iff in Hin. destruct Hin as [Hin|[<-|[]]]; auto. }
        destruct (above mind' (bscale dub epsfac)) eqn:EA'.
        -- apply IH; auto; [lia|]. apply (prune_inv (leaves far) (qleaves q1) nb dub mind'); auto. intros i Hi. exact (cell_lb _ _ _ i CF Hi).
        -- destruct (Hq (q1 ++ [(mind', sides', far)])) as (P2 & S2). apply IH; auto.
           ++ rewrite (qsize_perm _ _ P2), qsize_app. cbn [qsize snd]. lia.
           ++ intros e Hin. apply (Permutation_in _ P2) in Hin. apply in_app_iff in Hin. destruct Hin as [Hin|[<-|[]]]; auto.
           ++ apply (inv_perm _ _ _ _) with (2 := HI1). rewrite (qleaves_perm _ _ P2), qleaves_app. unfold qleaves at 3. cbn [flat_map snd]. rewrite app_nil_r. apply Permutation_app_comm.
Qed.

Variables (maxes mins : list Q) (tree : kd).
Hypothesis Hbox : boxed data m tree maxes mins.
Hypothesis Hperm : Permutation (leaves tree) (seq 0 N).

Lemma box_all i j : (i < N)%nat -> (j < m)%nat -> nth j mins 0 <= dat data i j <= nth j maxes 0.
Proof.
  intros Hi Hj. assert (In i (leaves tree)) by (eapply Permutation_in; [symmetry; exact Hperm|apply in_seq; lia]).
  destruct tree; cbn [boxed] in Hbox; now apply Hbox.
Qed.

Lemma side_lb i j : (i < N)%nat -> (j < m)%nat ->
  0 <= qmax 0 (qmax (nth j x 0 - nth j maxes 0) (nth j mins 0 - nth j x 0)) <= Qabs (dat data i j - nth j x 0).
Proof.
  intros Hi Hj. pose proof (box_all i j Hi Hj). pose proof (Qabs_nonneg (dat data i j - nth j x 0)).
  pose proof (Qle_Qabs (dat data i j - nth j x 0)). pose proof (Qle_Qabs (- (dat data i j - nth j x 0))) as H4. rewrite Qabs_opp in H4.
  unfold qmax. repeat match goal with |- context [Qle_bool ?a ?b] => destruct (Qleb_spec a b) end; lra.
Qed.

Lemma init_ok : cell_ok (mind0 pinf (sides0 pinf pw x maxes mins), sides0 pinf pw x maxes mins, tree).
Proof.
  assert (HI: forall i, In i (leaves tree) -> (i < N)%nat) by (intros i Hi; apply (Permutation_in _ Hperm) in Hi; apply in_seq in Hi; lia).
  assert (LS: length (sides0 pinf pw x maxes mins) = m) by (unfold sides0; now rewrite map_length, seq_length).
  assert (NS: forall j, (j < m)%nat -> nth j (sides0 pinf pw x maxes mins) 0 = side0 pinf pw x maxes mins j).
  { intros j Hj. unfold sides0. rewrite (nth_indep _ 0 (side0 pinf pw x maxes mins 0)) by (rewrite map_length, seq_length; exact Hj). rewrite map_nth, seq_nth by exact Hj. reflexivity. }
  unfold cell_ok. split; [exact HI|]. split; [eauto|]. destruct pinf_case as [E|E]; rewrite E.
  - intros i Hi. unfold mind0. rewrite E in LS, NS.
    assert (SD: forall s, In s (sides0 true pw x maxes mins) -> s <= D i).
    { intros s Hs. apply (In_nth _ _ 0) in Hs. destruct Hs as (j & Hj & <-). rewrite LS in Hj. rewrite NS by exact Hj. unfold side0.
      eapply Qle_trans; [apply side_lb; [apply HI; exact Hi|exact Hj]|]. apply D_inf; auto. }
    destruct (sides0 true pw x maxes mins) as [|s r]; [cbn in LS; lia|].
    apply (fold_qmax_spec r s); [apply SD; now left|intros; apply SD; now right].
  - rewrite E in LS, NS. split; [exact LS|]. split; [reflexivity|]. intros i j Hi Hj. rewrite NS by exact Hj. unfold side0. destruct (side_lb i j (HI i Hi) Hj) as (a & b). now apply Hpw.
Qed.

Theorem query_select : exists res, kd_query data pinf pw x k epsfac qsrt nsrt fsrt maxes mins tree dub0 = Some res /\
  (forall e, In e res -> fst e == D (snd e) /\ (snd e < N)%nat) /\ NoDup (map snd res) /\ sorted_by (fun e : nele => fst e) res /\ (length res <= k)%nat /\
  (forall i, (i < N)%nat -> ~ In i (map snd res) -> (length res = k /\ forall e, In e res -> epsfac * fst e <= D i) \/ beyond0 i) /\
  (dub0 = None -> length res = Nat.min k N).
Proof.
  set (sd := sides0 pinf pw x maxes mins).
  assert (I0: Inv (qleaves [(mind0 pinf sd, sd, tree)]) [] dub0).
  { unfold qleaves. cbn [flat_map snd]. rewrite app_nil_r. unfold Inv. cbn [map app length]. split; [intros ? []|].
    split; [eapply Permutation_NoDup; [symmetry; exact Hperm|apply seq_NoDup]|].
    split; [intros i Hi; apply (Permutation_in _ Hperm) in Hi; apply in_seq in Hi; lia|].
    split; [constructor|]. split; [reflexivity|]. split; [intros; lia|]. split; [intros; lia|].
    intros i Hi. right; left. eapply Permutation_in; [symmetry; exact Hperm|]. apply in_seq. lia. }
  destruct (query_loop_inv (kd_size tree) [(mind0 pinf sd, sd, tree)] [] dub0) as (nb & dub & EQ & (A & B & C & S & _ & _ & _ & H)); auto.
  { cbn [qsize snd]. lia. }
  { intros e [<-|[]]. apply init_ok. }
  { repeat constructor. }
  rewrite app_nil_r in B, C. unfold kd_query. fold sd. rewrite EQ. set (neg := map (fun e : nele => (- fst e, snd e)) nb).
  destruct (Hf neg) as (PF & SF). set (all := fsrt neg) in *. exists (firstn k all). split; [reflexivity|].
  assert (LN: length all = length nb) by (rewrite (Permutation_length PF); unfold neg; apply map_length).
  assert (IDS: Permutation (map snd all) (map snd nb)).
  { rewrite (Permutation_map snd PF). unfold neg. rewrite map_map. cbn [snd]. reflexivity. }
  assert (EL: forall e, In e all -> fst e == D (snd e) /\ (snd e < N)%nat).
  { intros e Hin. assert (Hin2: In (snd e) (map snd nb)) by (eapply Permutation_in; [exact IDS|]; now apply in_map).
    split; [|now apply C]. apply (Permutation_in _ PF) in Hin. unfold neg in Hin. apply in_map_iff in Hin. destruct Hin as (e' & <- & Hin). cbn [fst snd]. rewrite (A e' Hin). ring. }
  assert (SPLIT: all = firstn k all ++ skipn k all) by (symmetry; apply firstn_skipn).
  assert (SF': sorted_by (fun e : nele => fst e) (firstn k all ++ skipn k all)) by (rewrite <- SPLIT; exact SF).
  apply SSapp in SF'. destruct SF' as (SF1 & _ & SF2).
  assert (ND: NoDup (map snd (firstn k all ++ skipn k all))) by (rewrite <- SPLIT; eapply Permutation_NoDup; [symmetry; exact IDS|exact B]).
  assert (INF: forall e, In e (firstn k all) -> In e all) by (intros e Hin; rewrite SPLIT; apply in_app_iff; now left).
  split; [auto|]. split; [rewrite map_app in ND; apply NoDup_app_iff in ND; apply ND|]. split; [exact SF1|]. split; [apply firstn_le_length|].
  assert (CN: forall i, beaten nb i -> (k <= length all)%nat /\ forall e, In e (firstn k all) -> epsfac * fst e <= D i).
  { intros i HB. unfold beaten in HB. split; [rewrite LN; etransitivity; [exact HB|apply filter_length_le]|].
    assert (HB': (k <= length (filter (fun e : nele => Qle_bool (epsfac * fst e) (D i)) all))%nat).
    { rewrite (filter_perm_len _ _ _ PF). unfold neg. etransitivity; [exact HB|]. clear. induction nb as [|e nb IH]; [apply Nat.le_refl|]. cbn [map filter fst].
      destruct (Qle_bool (epsfac * - fst e) (D i)); cbn [length]; [now apply le_n_S|exact IH]. }
    intros e Hin. apply (first_k_ok (fun e : nele => epsfac * fst e) (D i) all k); auto.
    clear -SF He. unfold sorted_by in *. induction SF as [|a l S IH F]; constructor; auto. eapply Forall_impl; [|exact F]. cbn. intros b Hb. apply Qmult_le_l_compat; lra. }
  split.
  - intros i Hi Hni. destruct (H i Hi) as [X|[[]|[X|X]]]; [| |now right].
    + left. apply (Permutation_in _ (Permutation_sym IDS)) in X. rewrite SPLIT, map_app in X. apply in_app_iff in X. destruct X as [X|X]; [contradiction|].
      apply in_map_iff in X. destruct X as (e' & <- & X). split.
      * rewrite firstn_length. destruct (Nat.le_gt_cases k (length all)); [lia|]. exfalso. rewrite skipn_all2 in X by lia. destruct X.
      * intros e Hin. assert (HX: In e' all) by (rewrite SPLIT; apply in_app_iff; now right). destruct (EL e' HX) as (E1 & E2). rewrite <- E1.
        specialize (SF2 e e' Hin X). cbn beta in SF2. destruct (EL e (INF e Hin)) as (E3 & E4). pose proof (D_nonneg _ E4). rewrite <- E3 in H0.
        assert (epsfac * fst e <= 1 * fst e) by (apply Qmult_le_compat_r; lra). lra.
    + left. destruct (CN i X) as (C1 & C2). split; [rewrite firstn_length; lia|exact C2].
  - intros E0. rewrite firstn_length, LN. destruct (Nat.le_gt_cases k (length nb)) as [HL|HL].
    + pose proof (ids_len nb N B C) as HLE. change (Nat.min k (length nb) = Nat.min k N). lia.
    + assert (HGE: (N <= length nb)%nat).
      { apply ids_ge. intros i Hi. destruct (H i Hi) as [X|[[]|[X|(b & X & _)]]]; [exact X| |congruence].
        apply CN in X. destruct X as (X & _). exfalso. rewrite LN in X. apply (Nat.lt_irrefl k). eapply Nat.le_lt_trans; [exact X|exact HL]. }
      pose proof (ids_len nb N B C) as HLE. change (Nat.min k (length nb) = Nat.min k N). lia.
Qed.
End Q.

(* the j-th of an (approximate) selection against the j-th of an exact one *)
Lemma selection_eps (D : nat -> Q) N epsfac (l1 l2 : list nele) : 0 <= epsfac <= 1 -> (forall e, In e l2 -> 0 <= fst e) ->
  (forall e, In e l1 -> fst e == D (snd e) /\ (snd e < N)%nat) -> (forall e, In e l2 -> fst e == D (snd e)) ->
  NoDup (map snd l1) -> sorted_by (fun e : nele => fst e) l1 -> sorted_by (fun e : nele => fst e) l2 -> length l1 = length l2 ->
  (forall i, (i < N)%nat -> ~ In i (map snd l2) -> forall e, In e l2 -> epsfac * fst e <= D i) ->
  forall j, (j < length l1)%nat -> epsfac * fst (nth j l2 (0, 0%nat)) <= fst (nth j l1 (0, 0%nat)).
Proof.
  intros Hep HP E1 E2 ND S1 S2 LL SEL j Hj. destruct (Qlt_le_dec (fst (nth j l1 (0, 0%nat))) (epsfac * fst (nth j l2 (0, 0%nat)))) as [HLT|]; [exfalso|assumption].
  set (v := fst (nth j l2 (0, 0%nat))) in *.
  assert (Hv: epsfac * v <= v).
  { assert (0 <= v) by (apply HP, nth_In; lia). assert (epsfac * v <= 1 * v) by (apply Qmult_le_compat_r; lra). lra. }
  assert (A: incl (map snd (firstn (S j) l1)) (map snd (firstn j l2))).
  { intros i Hi. apply in_map_iff in Hi. destruct Hi as (e & <- & Hi). assert (IE: In e l1) by (rewrite <- (firstn_skipn (S j) l1); apply in_app_iff; now left).
    assert (He: fst e <= fst (nth j l1 (0, 0%nat))).
    { rewrite <- (firstn_skipn j l1) in S1. apply SSapp in S1. destruct S1 as (_ & _ & S1).
      assert (SK: exists r, skipn j l1 = nth j l1 (0, 0%nat) :: r).
      { clear -Hj. revert j Hj. induction l1 as [|a l1 IH]; intros j Hj; [cbn in Hj; lia|]. destruct j as [|j]; cbn [skipn nth]; [eauto|]. apply IH. cbn in Hj. lia. }
      destruct SK as (r & SK). assert (FS: firstn (S j) l1 = firstn j l1 ++ [nth j l1 (0, 0%nat)]).
      { clear -Hj. revert j Hj. induction l1 as [|a l1 IH]; intros j Hj; [cbn in Hj; lia|]. destruct j as [|j]; cbn [nth]; [reflexivity|]. cbn [firstn app]. f_equal. apply IH. cbn in Hj. lia. }
      rewrite FS in Hi. apply in_app_iff in Hi. destruct Hi as [Hi|[<-|[]]]; [|lra]. apply S1; [exact Hi|]. rewrite SK. now left. }
    destruct (E1 e IE) as (Ee & Ne).
    destruct (in_dec Nat.eq_dec (snd e) (map snd l2)) as [I2|N2].
    - rewrite <- (firstn_skipn j l2), map_app in I2. apply in_app_iff in I2. destruct I2 as [I2|I2]; [exact I2|exfalso].
      apply in_map_iff in I2. destruct I2 as (e2 & Es & I2). assert (IE2: In e2 l2) by (rewrite <- (firstn_skipn j l2); apply in_app_iff; now right).
      assert (v <= fst e2).
      { assert (SK: exists r, skipn j l2 = nth j l2 (0, 0%nat) :: r).
        { rewrite LL in Hj. clear -Hj. revert j Hj. induction l2 as [|a l2 IH]; intros j Hj; [cbn in Hj; lia|]. destruct j as [|j]; cbn [skipn nth]; [eauto|]. apply IH. cbn in Hj. lia. }
        destruct SK as (r & SK). rewrite <- (firstn_skipn j l2) in S2. apply SSapp in S2. destruct S2 as (_ & S2 & _). rewrite SK in S2, I2.
        apply StronglySorted_inv in S2. destruct S2 as (_ & S2). rewrite Forall_forall in S2. destruct I2 as [<-|I2]; [unfold v; lra|]. now apply S2. }
      rewrite (E2 e2 IE2), Es in H. lra.
    - specialize (SEL (snd e) Ne N2 (nth j l2 (0, 0%nat))). assert (In (nth j l2 (0, 0%nat)) l2) by (apply nth_In; lia). specialize (SEL H). fold v in SEL. lra. }
  assert (L: (length (map snd (firstn (S j) l1)) <= length (map snd (firstn j l2)))%nat).
  { apply NoDup_incl_length; [|exact A]. rewrite <- (firstn_skipn (S j) l1), map_app in ND. apply NoDup_app_iff in ND. apply ND. }
  rewrite !map_length, !firstn_length in L. lia.
Qed.
Lemma selection_unique (D : nat -> Q) N (l1 l2 : list nele) : (forall e, In e l2 -> 0 <= fst e) ->
  (forall e, In e l1 -> fst e == D (snd e) /\ (snd e < N)%nat) -> (forall e, In e l2 -> fst e == D (snd e)) ->
  NoDup (map snd l1) -> sorted_by (fun e : nele => fst e) l1 -> sorted_by (fun e : nele => fst e) l2 -> length l1 = length l2 ->
  (forall i, (i < N)%nat -> ~ In i (map snd l2) -> forall e, In e l2 -> fst e <= D i) ->
  forall j, (j < length l1)%nat -> fst (nth j l2 (0, 0%nat)) <= fst (nth j l1 (0, 0%nat)).
Proof.
  intros HP E1 E2 ND S1 S2 LL SEL j Hj. assert (H01: 0 <= 1 <= 1) by lra.
  assert (SEL': forall i, (i < N)%nat -> ~ In i (map snd l2) -> forall e, In e l2 -> 1 * fst e <= D i) by (intros i Hi Hn e He; rewrite Qmult_1_l; now apply (SEL i)).
  pose proof (selection_eps D N 1 l1 l2 H01 HP E1 E2 ND S1 S2 LL SEL' j Hj) as X. lra.
Qed.

(* ------------------------------------------------------- the brute force *)
Lemma brute_select pinf pw data x k isrt : (k <= length data)%nat ->
  (forall l, Permutation (isrt l) l /\ sorted_by (fun i => mink_p pinf pw x (nth i data [])) (isrt l)) ->
  exists res, knn_brute pinf pw data x k isrt = Some res /\
  (forall e, In e res -> fst e = mink_p pinf pw x (nth (snd e) data []) /\ (snd e < length data)%nat) /\ NoDup (map snd res) /\
  sorted_by (fun e : nele => fst e) res /\ length res = k /\
  (forall i, (i < length data)%nat -> ~ In i (map snd res) -> forall e, In e res -> fst e <= mink_p pinf pw x (nth i data [])).
Proof.
  intros Hk HS. unfold knn_brute. destruct (Nat.leb_spec k (length data)); [|lia]. eexists. split; [reflexivity|].
  destruct (HS (seq 0 (length data))) as (P & S). set (s := isrt (seq 0 (length data))) in *. set (D := fun i => mink_p pinf pw x (nth i data [])) in *.
  assert (SPLIT: s = firstn k s ++ skipn k s) by (symmetry; apply firstn_skipn).
  assert (NDs: NoDup (firstn k s ++ skipn k s)) by (rewrite <- SPLIT; eapply Permutation_NoDup; [symmetry; exact P|apply seq_NoDup]).
  assert (Hs: forall i, In i s <-> (i < length data)%nat).
  { intros i. split; intros Hi; [apply (Permutation_in _ P) in Hi; apply in_seq in Hi; lia|]. eapply Permutation_in; [symmetry; exact P|]. apply in_seq. lia. }
  rewrite SPLIT in S. apply SSapp in S. destruct S as (S1 & _ & S3).
  assert (MS: map snd (map (fun i => (mink_p pinf pw x (nth i data []), i)) (firstn k s)) = firstn k s) by (rewrite map_map; cbn [snd]; apply map_id).
  split; [|split; [|split; [|split]]].
  - intros e Hin. apply in_map_iff in Hin. destruct Hin as (i & <- & Hin). cbn [fst snd]. split; [reflexivity|]. apply Hs. rewrite SPLIT. apply in_app_iff. now left.
  - rewrite MS. apply NoDup_app_iff in NDs. apply NDs.
  - unfold sorted_by in *. clear -S1. induction S1 as [|a l S IH F]; cbn [map]; constructor; auto. rewrite Forall_forall in *. intros e Hin. apply in_map_iff in Hin. destruct Hin as (i & <- & Hin). cbn [fst]. exact (F i Hin).
  - rewrite map_length, firstn_length, (Permutation_length P), seq_length. lia.
  - intros i Hi. rewrite MS. intros Hni e Hin. apply in_map_iff in Hin. destruct Hin as (i' & <- & Hin). cbn [fst]. apply (S3 i' i); auto.
    apply Hs in Hi. rewrite SPLIT in Hi. apply in_app_iff in Hi. tauto.
Qed.

(* --------------------------------------------------------------- radius *)
Lemma radius_scan_spec r : forall l, sorted_by (fun e : nele => fst e) l -> forall e, In e (radius_scan r l) <-> In e l /\ fst e <= r.
Proof.
  intros l S e. induction S as [|a l S IH F]; cbn [radius_scan]; [split; [intros []|intros ([] & _)]|]. rewrite Forall_forall in F.
  destruct (Qltb_spec r (fst a)) as [H|H].
  - split; [intros []|]. intros (I & H'). destruct I as [<-|I]; [lra|]. specialize (F e I). lra.
  - split.
    + intros [<-|I]; [split; [now left|exact H]|]. apply IH in I. split; [now right|apply I].
    + intros ([<-|I] & H'); [now left|right; now apply IH].
Qed.
Lemma radius_scan_prefix r : forall l, exists t, l = radius_scan r l ++ t.
Proof. induction l as [|a l (t & IH)]; cbn [radius_scan]; [now exists []|]. destruct (Qltb r (fst a)); [now exists (a :: l)|]. exists t. cbn. now f_equal. Qed.

Lemma radius_brute_spec pinf pw data x r isrt :
  (forall l, Permutation (isrt l) l /\ sorted_by (fun i => mink_p pinf pw x (nth i data [])) (isrt l)) ->
  exists res, radius_brute pinf pw data x r isrt = Some res /\ NoDup (map snd res) /\
  (forall e, In e res -> fst e = mink_p pinf pw x (nth (snd e) data [])) /\
  (forall i, In i (map snd res) <-> (i < length data)%nat /\ mink_p pinf pw x (nth i data []) <= r).
Proof.
  intros HS. destruct (brute_select pinf pw data x (length data) isrt (Nat.le_refl _) HS) as (l & E & A & ND & S & L & _).
  unfold radius_brute. rewrite E. exists (radius_scan r l). split; [reflexivity|].
  assert (ALL: forall i, (i < length data)%nat -> In i (map snd l)).
  { intros i Hi. destruct (in_dec Nat.eq_dec i (map snd l)) as [I|I]; [exact I|exfalso].
    assert (NoDup (i :: map snd l)) by (constructor; auto).
    pose proof (NoDup_incl_length H (l' := seq 0 (length data))) as X. rewrite seq_length in X. cbn [length] in X. rewrite map_length in X.
    assert (HH: (1 + length l <= length data)%nat); [|lia]. apply X. intros j [<-|Hj]; [apply in_seq; lia|]. apply in_map_iff in Hj. destruct Hj as (e & <- & He). apply in_seq. destruct (A e He). lia. }
  split; [|split].
  - destruct (radius_scan_prefix r l) as (t & Et). rewrite Et, map_app in ND. apply NoDup_app_iff in ND. apply ND.
  - intros e He. apply (radius_scan_spec r l S) in He. now apply A.
  - intros i. split.
    + intros Hi. apply in_map_iff in Hi. destruct Hi as (e & <- & He). apply (radius_scan_spec r l S) in He. destruct He as (He & Hr). destruct (A e He) as (E1 & E2). split; [exact E2|]. now rewrite <- E1.
    + intros (Hi & Hr). apply ALL in Hi. apply in_map_iff in Hi. destruct Hi as (e & <- & He). apply in_map. apply (radius_scan_spec r l S). split; [exact He|]. destruct (A e He) as (-> & _). exact Hr.
Qed.

Lemma radius_tree_spec data pinf pw x qsrt nsrt fsrt maxes mins tree r :
  (1 <= length data)%nat -> sorting qmind qsrt -> sorting (fun e : nele => fst e) nsrt -> sorting (fun e : nele => fst e) fsrt ->
  pw 0 == 0 /\ (forall s t, 0 <= s -> s <= t -> pw s <= pw t) ->
  (forall i, (i < length data)%nat -> length (nth i data []) = length x) ->
  (2 <= length x)%nat \/ (length x = 1%nat /\ (pinf = true \/ forall t, 0 <= t -> pw t == t)) ->
  boxed data (length x) tree maxes mins -> Permutation (leaves tree) (seq 0 (length data)) ->
  exists res, radius_tree data pinf pw x qsrt nsrt fsrt maxes mins tree r = Some res /\ NoDup (map snd res) /\
  (forall e, In e res -> fst e == mink_p pinf pw x (nth (snd e) data [])) /\
  (forall i, In i (map snd res) <-> (i < length data)%nat /\ mink_p pinf pw x (nth i data []) <= r).
Proof.
  intros HN Hq Hn Hf Hpw Hrow Hm Hbox Hperm.
  assert (H01: 0 <= 1 <= 1) by lra.
  destruct (query_select data pinf pw x (length data) 1 qsrt nsrt fsrt HN H01 Hq Hn Hf Hpw Hrow Hm (Some r) maxes mins tree Hbox Hperm) as (l & E & A & ND & S & L & SEL & _).
  unfold radius_tree. rewrite E. exists (filter (fun e : nele => Qle_bool (fst e) r) l). split; [reflexivity|]. split; [|split].
  - clear -ND. induction l as [|e l IH]; cbn [filter map] in *; [constructor|]. apply NoDup_cons_iff in ND. destruct ND as (N1 & N2). destruct (Qle_bool (fst e) r); [|auto].
    cbn [map]. constructor; [|auto]. intros I. apply N1. apply in_map_iff in I. destruct I as (e' & <- & I). apply filter_In in I. now apply in_map.
  - intros e He. apply filter_In in He. now apply A.
  - intros i. split.
    + intros Hi. apply in_map_iff in Hi. destruct Hi as (e & <- & He). apply filter_In in He. destruct He as (He & Hr). apply Qle_bool_iff in Hr. destruct (A e He) as (E1 & E2). split; [exact E2|]. now rewrite <- E1.
    + intros (Hi & Hr). destruct (in_dec Nat.eq_dec i (map snd l)) as [I|I].
      * apply in_map_iff in I. destruct I as (e & <- & He). apply in_map. apply filter_In. split; [exact He|]. apply Qle_bool_iff. destruct (A e He) as (E1 & _). now rewrite E1.
      * exfalso. destruct (SEL i Hi I) as [(L' & _)|(b & Eb & Hb)].
        -- assert (NoDup (i :: map snd l)) by (constructor; auto). pose proof (NoDup_incl_length H (l' := seq 0 (length data))) as X. rewrite seq_length in X. cbn [length] in X. rewrite map_length in X.
           assert (HH: (1 + length l <= length data)%nat); [|lia]. apply X. intros j [<-|Hj]; [apply in_seq; lia|]. apply in_map_iff in Hj. destruct Hj as (e & <- & He). apply in_seq. destruct (A e He). lia.
        -- injection Eb as <-. cbv beta in Hb. lra.
Qed.

(* ------------------------------------------------------- the two together *)
Lemma query_vs_brute data pinf pw x k epsfac qsrt nsrt fsrt isrt maxes mins tree :
  (1 <= k <= length data)%nat -> 0 <= epsfac <= 1 -> sorting qmind qsrt -> sorting (fun e : nele => fst e) nsrt -> sorting (fun e : nele => fst e) fsrt ->
  (forall l, Permutation (isrt l) l /\ sorted_by (fun i => mink_p pinf pw x (nth i data [])) (isrt l)) ->
  pw 0 == 0 /\ (forall s t, 0 <= s -> s <= t -> pw s <= pw t) ->
  (forall i, (i < length data)%nat -> length (nth i data []) = length x) ->
  (2 <= length x)%nat \/ (length x = 1%nat /\ (pinf = true \/ forall t, 0 <= t -> pw t == t)) ->
  boxed data (length x) tree maxes mins -> Permutation (leaves tree) (seq 0 (length data)) ->
  exists res br, kd_query data pinf pw x k epsfac qsrt nsrt fsrt maxes mins tree None = Some res /\ knn_brute pinf pw data x k isrt = Some br /\
    length res = k /\ length br = k /\
    forall j, (j < k)%nat -> fst (nth j br (0, 0%nat)) <= fst (nth j res (0, 0%nat)) /\ epsfac * fst (nth j res (0, 0%nat)) <= fst (nth j br (0, 0%nat)).
Proof.
  intros Hk He Hq Hn Hf Hi Hpw Hrow Hm Hbox Hperm.
  destruct (query_select data pinf pw x k epsfac qsrt nsrt fsrt (proj1 Hk) He Hq Hn Hf Hpw Hrow Hm None maxes mins tree Hbox Hperm) as (res & E & A & ND & S & L & SEL & LEN).
  destruct (brute_select pinf pw data x k isrt (proj2 Hk) Hi) as (br & E' & A' & ND' & S' & L' & SEL').
  exists res, br. specialize (LEN eq_refl). rewrite Nat.min_l in LEN by lia. split; [exact E|]. split; [exact E'|]. split; [exact LEN|]. split; [exact L'|].
  assert (P: forall e, In e res -> 0 <= fst e).
  { intros e Hin. destruct (A e Hin) as (E1 & E2). rewrite E1. exact (D_nonneg data pinf pw x k (proj1 Hk) Hpw Hrow Hm _ E2). }
  assert (P': forall e, In e br -> 0 <= fst e).
  { intros e Hin. destruct (A' e Hin) as (E1 & E2). rewrite E1. exact (D_nonneg data pinf pw x k (proj1 Hk) Hpw Hrow Hm _ E2). }
  intros j Hj. split.
  - apply (selection_unique (fun i => mink_p pinf pw x (nth i data [])) (length data) res br); auto; try lia.
    intros e Hin. destruct (A' e Hin) as (-> & _). reflexivity.
  - apply (selection_eps (fun i => mink_p pinf pw x (nth i data [])) (length data) epsfac br res); auto; try lia.
    + intros e Hin. destruct (A' e Hin) as (-> & X). split; [reflexivity|exact X].
    + intros e Hin. now apply A.
    + intros i Hi' Hni e Hin. destruct (SEL i Hi' Hni) as [(_ & X)|(b & X & _)]; [auto|discriminate].
Qed.
