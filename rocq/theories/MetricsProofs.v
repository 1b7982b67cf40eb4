From Verif Require Import QCommon LabelModel LabelProofs MetricsModel ScaleProofs.
Open Scope Q_scope.

(* --------------------------------------------------------------- accuracy *)
Lemma row_eq_iff yt : forall yp, length yt = length yp -> row_eq yt yp = true <-> yt = yp.
Proof.
  induction yt as [|a yt IH]; intros [|b yp] HL; try discriminate; cbn [row_eq]; [tauto|].
  rewrite andb_true_iff, Z.eqb_eq, IH by (cbn in HL; lia). split; [intros (-> & ->)|intros E; injection E as -> ->]; auto.
Qed.

Lemma weight_app pre ws k : weight (Some (pre ++ ws)) (length pre + k) = nth k ws 0.
Proof. cbn. rewrite app_nth2 by lia. f_equal. lia. Qed.

Lemma acc_loop_spec (s : list (list Z * list Z * Q)) : forall pre N D,
  let r := acc_loop (length pre) (Some (pre ++ map snd s)) (map fst s) N D in
  fst r == N + qsum (map (fun x => if row_eq (fst (fst x)) (snd (fst x)) then snd x else 0) s) /\
  snd r == D + qsum (map snd s).
Proof.
  induction s as [|[[yt yp] w] s IH]; intros pre N D; cbn [map acc_loop].
  - cbn [fst snd]. rewrite qsum_nil. split; ring.
  - replace (weight (Some (pre ++ snd (yt, yp, w) :: map snd s)) (length pre)) with w
      by (cbn [snd]; pose proof (weight_app pre (w :: map snd s) 0) as E; rewrite Nat.add_0_r in E; now rewrite E).
    cbn [fst snd].
    specialize (IH (pre ++ [w]) (if row_eq yt yp then N + w else N) (D + w)).
    rewrite app_length, Nat.add_1_r, <- app_assoc in IH. cbn [app] in IH. cbv zeta in IH. destruct IH as (A & B).
    cbn [snd] in *. rewrite A, B, !qsum_cons. cbn [fst snd]. split; [|ring]. destruct (row_eq yt yp); ring.
Qed.

Definition agree (s : list (list Z * list Z * Q)) : Q := qsum (map (fun x => if row_eq (fst (fst x)) (snd (fst x)) then snd x else 0) s).

Lemma agree_le s : (forall x, In x s -> 0 <= snd x) -> 0 <= agree s <= qsum (map snd s).
Proof.
  intros H. unfold agree. split.
  - apply qsum_nonneg. intros q Hq. apply in_map_iff in Hq. destruct Hq as (x & <- & Hx). specialize (H x Hx). destruct (row_eq _ _); lra.
  - apply qsum_le. intros x Hx. specialize (H x Hx). destruct (row_eq _ _); lra.
Qed.

Lemma agree_full s : (forall x, In x s -> 0 <= snd x) ->
  (agree s == qsum (map snd s) <-> forall x, In x s -> ~ snd x == 0 -> row_eq (fst (fst x)) (snd (fst x)) = true).
Proof.
  induction s as [|x s IH]; intros H.
  - split; [intros _ x []|intros _; reflexivity].
  - unfold agree in *. cbn [map]. rewrite !qsum_cons.
    assert (H0: 0 <= snd x) by (apply H; now left).
    assert (H': forall y, In y s -> 0 <= snd y) by (intros; apply H; now right).
    specialize (IH H'). pose proof (agree_le s H') as (_ & HL). unfold agree in HL.
    destruct (row_eq (fst (fst x)) (snd (fst x))) eqn:E.
    + split.
      * intros HE y [<-|Hy] Hn; auto. apply IH; auto. lra.
      * intros HA. assert (HS: qsum (map (fun x => if row_eq (fst (fst x)) (snd (fst x)) then snd x else 0) s) == qsum (map snd s)).
        { apply IH. intros y Hy. apply HA. now right. } lra.
    + split.
      * intros HE y [<-|Hy] Hn; [exfalso; apply Hn; lra|]. apply IH; auto. lra.
      * intros HA. assert (snd x == 0).
        { destruct (Qeq_dec (snd x) 0) as [|Hn]; auto. specialize (HA x (or_introl eq_refl) Hn). congruence. }
        assert (HS: qsum (map (fun x => if row_eq (fst (fst x)) (snd (fst x)) then snd x else 0) s) == qsum (map snd s)).
        { apply IH. intros y Hy. apply HA. now right. } lra.
Qed.

Lemma qdiv_bounds n d : 0 <= n -> n <= d -> ~ d == 0 -> 0 <= n / d <= 1.
Proof.
  intros H1 H2 H3. assert (0 < d) by (destruct (Qlt_le_dec 0 d); auto; exfalso; apply H3; lra).
  split. { apply Qle_shift_div_l; auto. lra. } { apply Qle_shift_div_r; auto. lra. }
Qed.

Lemma accuracy_main (s : list (list Z * list Z * Q)) :
  (forall x, In x s -> 0 <= snd x /\ length (fst (fst x)) = length (snd (fst x))) ->
  let hit x := if list_eq_dec Z.eq_dec (fst (fst x)) (snd (fst x)) then snd x else 0 in
  let tot := qsum (map snd s) in
  (exists a, accuracy false (Some (map snd s)) (map fst s) = Some a /\ a == qsum (map hit s)) /\
  (tot == 0 -> accuracy true (Some (map snd s)) (map fst s) = None) /\
  (~ tot == 0 -> exists a, accuracy true (Some (map snd s)) (map fst s) = Some a /\ a == qsum (map hit s) / tot /\ 0 <= a <= 1 /\
     (a == 1 <-> forall x, In x s -> ~ snd x == 0 -> fst (fst x) = snd (fst x))).
Proof.
  intros H hit tot. unfold accuracy.
  destruct (acc_loop_spec s [] 0 0) as (A & B). cbn [app length] in A, B. cbv zeta in A, B.
  set (r := acc_loop 0 _ _ 0 0) in *.
  assert (EA: agree s == qsum (map hit s)).
  { unfold agree. apply qsum_map_ext. intros x Hx. unfold hit. destruct (H x Hx) as (_ & HL).
    destruct (list_eq_dec Z.eq_dec (fst (fst x)) (snd (fst x))) as [E|E].
    - now rewrite (proj2 (row_eq_iff _ _ HL) E).
    - destruct (row_eq (fst (fst x)) (snd (fst x))) eqn:E2; [|reflexivity]. apply row_eq_iff in E2; auto. contradiction. }
  assert (A': fst r == agree s) by (rewrite A; unfold agree; ring). assert (B': snd r == tot) by (rewrite B; unfold tot; ring).
  split; [|split].
  - eexists. split; [reflexivity|]. now rewrite A'.
  - intros Z. destruct (Qeqb_spec (snd r) 0) as [|N]; auto. exfalso. apply N. now rewrite B'.
  - intros N. destruct (Qeqb_spec (snd r) 0) as [Z|_]; [exfalso; apply N; now rewrite <- B'|].
    eexists. split; [reflexivity|]. rewrite A', B'. pose proof (agree_le s (fun x Hx => proj1 (H x Hx))) as (G1 & G2). fold tot in G2.
    split; [now rewrite EA|]. split; [apply qdiv_bounds; auto|].
    assert (EQ: agree s / tot == 1 <-> agree s == tot).
    { split; intros E. - rewrite <- (Qmult_1_l tot), <- E. field; auto. - rewrite E. field; auto. }
    rewrite EQ. unfold tot. rewrite (agree_full s (fun x Hx => proj1 (H x Hx))). split; intros HA x Hx Hn; specialize (HA x Hx Hn).
    + apply row_eq_iff; auto. apply H; auto.
    + apply row_eq_iff; auto. apply H; auto.
Qed.

Lemma weight_repeat n i : (i < n)%nat -> weight (Some (repeat 1 n)) i = 1.
Proof. intros H. cbn. rewrite (nth_indep _ 0 1) by (now rewrite repeat_length). apply nth_repeat. Qed.
Lemma acc_loop_none n rows : forall i N D, (i + length rows <= n)%nat -> acc_loop i None rows N D = acc_loop i (Some (repeat 1 n)) rows N D.
Proof.
  induction rows as [|r rows IH]; intros i N D H; cbn [acc_loop length] in *; auto. rewrite weight_repeat by lia. cbn [weight]. apply IH. lia.
Qed.
Lemma accuracy_none norm rows : accuracy norm None rows = accuracy norm (Some (repeat 1 (length rows))) rows.
Proof. unfold accuracy. rewrite (acc_loop_none (length rows)) by lia. reflexivity. Qed.

Lemma accuracy_perm norm s s' : Permutation s s' ->
  match accuracy norm (Some (map snd s)) (map fst s), accuracy norm (Some (map snd s')) (map fst s') with
  | Some a, Some b => a == b | None, None => True | _, _ => False end.
Proof.
  intros HP. unfold accuracy.
  destruct (acc_loop_spec s [] 0 0) as (A & B). destruct (acc_loop_spec s' [] 0 0) as (A' & B'). cbn [app length] in *. cbv zeta in *.
  set (r := acc_loop 0 (Some (map snd s)) _ 0 0) in *. set (r' := acc_loop 0 (Some (map snd s')) _ 0 0) in *.
  assert (E1: fst r == fst r'). { rewrite A, A'. apply Qplus_inj_l. apply qsum_perm. now apply Permutation_map. }
  assert (E2: snd r == snd r'). { rewrite B, B'. apply Qplus_inj_l. apply qsum_perm. now apply Permutation_map. }
  destruct norm; [|exact E1]. destruct (Qeqb_spec (snd r) 0), (Qeqb_spec (snd r') 0); auto.
  - rewrite E2 in *. contradiction.
  - rewrite E2 in *. contradiction.
  - rewrite E1, E2. reflexivity.
Qed.

(* ------------------------------------------------------- confusion matrix *)
Definition ind (b : bool) (w : Q) : Q := if b then w else 0.

Lemma le_encode_found c v : StronglySorted Z.lt c -> In v c ->
  exists k, (k < length c)%nat /\ nth k c 0%Z = v /\ le_encode c v = Z.of_nat k.
Proof.
  intros HS HI. destruct (search_found c v HS HI) as (A & B). exists (search_floats c v). repeat split; auto.
  unfold le_encode. destruct (Nat.leb_spec (length c) (search_floats c v)); [lia|reflexivity].
Qed.

Lemma sorted_nth_inj c i j : StronglySorted Z.lt c -> (i < length c)%nat -> (j < length c)%nat -> nth i c 0%Z = nth j c 0%Z -> i = j.
Proof.
  intros HS Hi Hj E. destruct (Nat.lt_trichotomy i j) as [H|[H|H]]; auto; exfalso.
  - pose proof (sorted_nth_lt c HS i j H Hj). lia.
  - pose proof (sorted_nth_lt c HS j i H Hi). lia.
Qed.

Definition smp (x : Z * Z * Q) : list Z * list Z := ([fst (fst x)], [snd (fst x)]).

Lemma cm_loop_spec c sup (s : list (Z * Z * Q)) : StronglySorted Z.lt c ->
  (forall x, In x s -> In (fst (fst x)) c /\ In (snd (fst x)) c) ->
  forall pre cm, length cm = (length c * length c)%nat ->
  exists cm', cm_loop (length c) (length pre) (Some (pre ++ map snd s)) [(c, sup)] (map smp s) cm = Some cm' /\
    length cm' = (length c * length c)%nat /\
    forall i j, (i < length c)%nat -> (j < length c)%nat ->
      cm_at (length c) cm' i j == cm_at (length c) cm i j +
        qsum (map (fun x => ind (Z.eqb (fst (fst x)) (nth i c 0%Z) && Z.eqb (snd (fst x)) (nth j c 0%Z)) (snd x)) s).
Proof.
  intros HS. induction s as [|[[t p] w] s IH]; intros HI pre cm HL; cbn [map cm_loop smp].
  - exists cm. split; auto. split; auto. intros. rewrite qsum_nil. ring.
  - cbn [smp fst snd le_transform_row].
    destruct (HI (t, p, w) (or_introl eq_refl)) as (Ht & Hp). cbn [fst snd] in Ht, Hp.
    destruct (le_encode_found c t HS Ht) as (kt & Kt1 & Kt2 & Kt3).
    destruct (le_encode_found c p HS Hp) as (kp & Kp1 & Kp2 & Kp3). rewrite Kt3, Kp3.
    replace (weight (Some (pre ++ w :: map snd s)) (length pre)) with w
      by (pose proof (weight_app pre (w :: map snd s) 0) as E; rewrite Nat.add_0_r in E; now rewrite E).
    assert (HB: (kt * length c + kp < length cm)%nat) by (rewrite HL; nia).
    cbn [cm_add]. replace (Z.of_nat kt * Z.of_nat (length c) + Z.of_nat kp)%Z with (Z.of_nat (kt * length c + kp)) by lia.
    rewrite Nat2Z.id. replace ((0 <=? Z.of_nat (kt * length c + kp)) && (Z.of_nat (kt * length c + kp) <? Z.of_nat (length cm)))%Z with true
      by (symmetry; apply andb_true_intro; split; [apply Z.leb_le; lia|apply Z.ltb_lt; lia]).
    set (cm1 := upd cm _ _).
    destruct (IH (fun x Hx => HI x (or_intror Hx)) (pre ++ [w]) cm1) as (cm' & E & L & V).
    { unfold cm1. now rewrite upd_length. }
    rewrite app_length, Nat.add_1_r, <- app_assoc in E. cbn [app] in E. exists cm'. split; [exact E|]. split; [exact L|].
    intros i j Hi Hj. rewrite V by auto. cbn [map]. rewrite qsum_cons. cbn [fst snd]. rewrite Qplus_assoc. apply Qplus_inj_r.
    unfold cm_at, cm1. destruct (Nat.eq_dec (kt * length c + kp) (i * length c + j)) as [Eq|Ne].
    + destruct (cell_inj (length c) kt kp i j Kp1 Hj Eq) as (-> & ->).
      rewrite (nth_error_nth _ _ _ (nth_error_upd_same _ _ HB)). rewrite Kt2, Kp2, !Z.eqb_refl. cbn [andb ind]. reflexivity.
    + assert (E': nth (i * length c + j) (upd cm (kt * length c + kp) (nth (kt * length c + kp) cm 0 + w)) 0 = nth (i * length c + j) cm 0).
      { destruct (nth_error cm (i * length c + j)) as [v|] eqn:E1.
        - rewrite (nth_error_nth _ _ 0 E1). apply nth_error_nth. now rewrite nth_error_upd_other.
        - apply nth_error_None in E1. rewrite !nth_overflow; auto. now rewrite upd_length. }
      rewrite E'. replace (Z.eqb t (nth i c 0%Z) && Z.eqb p (nth j c 0%Z))%bool with false; [cbn [ind]; ring|].
      symmetry. apply andb_false_iff. destruct (Z.eqb_spec t (nth i c 0%Z)) as [Et|]; auto. destruct (Z.eqb_spec p (nth j c 0%Z)) as [Ep|]; auto.
      exfalso. apply Ne. rewrite <- Kt2 in Et. rewrite <- Kp2 in Ep. apply sorted_nth_inj in Et; auto. apply sorted_nth_inj in Ep; auto; try congruence.
Qed.

Lemma cm_at_zero K i j : cm_at K (repeat 0 (K * K)) i j = 0.
Proof. unfold cm_at. apply nth_repeat. Qed.

Lemma le_fit_single s : exists c sup, le_fit 1 (map fst (map smp s)) = [(c, sup)] /\ StronglySorted Z.lt c /\
  (forall v, In v c <-> In v (map (fun x : Z * Z * Q => fst (fst x)) s)).
Proof.
  pose proof (le_partial_fit_length (repeat ([], []) 1) 1 (map fst (map smp s))) as HL. fold (le_fit 1 (map fst (map smp s))) in HL.
  destruct (le_classes_spec 1 (map fst (map smp s)) [] 0 ltac:(lia)) as (c & sup & E & HS & HI & _).
  cbn [le_run fold_left] in E. destruct (le_fit 1 (map fst (map smp s))) as [|x [|]]; try discriminate HL.
  cbn in E. injection E as ->. exists c, sup. repeat split; auto; intros H.
  - apply HI in H. cbn [concat] in H. rewrite app_nil_r in H. unfold column in H. rewrite !map_map in H. exact H.
  - apply HI. cbn [concat]. rewrite app_nil_r. unfold column. rewrite !map_map. exact H.
Qed.

Lemma confusion_main (s : list (Z * Z * Q)) : s <> [] ->
  (forall x, In x s -> In (snd (fst x)) (map (fun x => fst (fst x)) s)) ->
  exists c cm, confusion (Some (map snd s)) 1 (map smp s) = Some (length c, cm) /\
    StronglySorted Z.lt c /\ (forall v, In v c <-> In v (map (fun x => fst (fst x)) s)) /\
    length cm = (length c * length c)%nat /\
    forall i j, (i < length c)%nat -> (j < length c)%nat ->
      cm_at (length c) cm i j ==
        qsum (map (fun x => ind (Z.eqb (fst (fst x)) (nth i c 0%Z) && Z.eqb (snd (fst x)) (nth j c 0%Z)) (snd x)) s).
Proof.
  intros Hne Hp. unfold confusion. destruct (le_fit_single s) as (c & sup & E & HS & HI). rewrite E.
  destruct (cm_loop_spec c sup s HS) with (pre := @nil Q) (cm := repeat 0 (length c * length c)) as (cm & Ec & L & V).
  { intros x Hx. split; apply HI. - apply (in_map (fun x => fst (fst x)) _ _ Hx). - auto. }
  { apply repeat_length. }
  assert (HK: length c <> 0%nat).
  { destruct s as [|x s]; [congruence|]. intros H0. apply length_zero_iff_nil in H0. subst c.
    destruct (proj2 (HI (fst (fst x))) (or_introl eq_refl)). }
  destruct (Nat.eqb_spec (length c) 0); [contradiction|]. cbn [app length] in Ec. rewrite Ec.
  exists c, cm. split; auto. split; auto. split; auto. split; auto. intros i j Hi Hj. rewrite V by auto. rewrite cm_at_zero. ring.
Qed.

(* summing indicators over the classes *)
Lemma qsum_exch {A B} (f : A -> B -> Q) la lb :
  qsum (map (fun a => qsum (map (fun b => f a b) lb)) la) == qsum (map (fun b => qsum (map (fun a => f a b) la)) lb).
Proof.
  induction la as [|a la IH]; cbn [map].
  - rewrite qsum_nil. induction lb as [|b lb IHb]; cbn [map]; [reflexivity|]. rewrite qsum_cons, <- IHb. reflexivity.
  - rewrite qsum_cons, IH. rewrite <- qsum_map_plus. apply qsum_map_ext. intros b _. now rewrite qsum_cons.
Qed.

Lemma qsum_pick (c : list Z) v (w : Q) : StronglySorted Z.lt c -> In v c ->
  qsum (map (fun i => ind (Z.eqb v (nth i c 0%Z)) w) (seq 0 (length c))) == w.
Proof.
  intros HS HI. assert (ND: NoDup c) by (clear -HS; induction HS as [|x l HS IH HF]; constructor; auto; intros Hx; rewrite Forall_forall in HF; specialize (HF x Hx); lia).
  assert (E: map (fun i => ind (Z.eqb v (nth i c 0%Z)) w) (seq 0 (length c)) = map (fun y => ind (Z.eqb v y) w) c).
  { clear. induction c as [|x c IH] using rev_ind; [reflexivity|]. rewrite app_length, Nat.add_1_r, seq_S, !map_app. cbn [map].
    f_equal. { rewrite <- IH. apply map_ext_in. intros i Hi. apply in_seq in Hi. rewrite app_nth1 by lia. reflexivity. }
    cbn [Nat.add]. rewrite app_nth2, Nat.sub_diag by lia. reflexivity. }
  rewrite E. clear E HS. induction c as [|x c IH]; [destruct HI|]. cbn [map]. rewrite qsum_cons. inversion ND; subst.
  destruct (Z.eqb_spec v x) as [->|Hn]; cbn [ind].
  - assert (Z: qsum (map (fun y => ind (Z.eqb x y) w) c) == 0).
    { rewrite <- (qsum_map_ext (fun _ => 0 * 0)); [rewrite qsum_map_scale; ring|]. intros y Hy. destruct (Z.eqb_spec x y); [subst; contradiction|]. cbn; ring. }
    rewrite Z. ring.
  - destruct HI as [->|HI]; [congruence|]. rewrite IH by auto. ring.
Qed.

Lemma cm_row_spec c cm (s : list (Z * Z * Q)) i : StronglySorted Z.lt c -> (forall x, In x s -> In (snd (fst x)) c) ->
  (forall i j, (i < length c)%nat -> (j < length c)%nat ->
      cm_at (length c) cm i j ==
        qsum (map (fun x => ind (Z.eqb (fst (fst x)) (nth i c 0%Z) && Z.eqb (snd (fst x)) (nth j c 0%Z)) (snd x)) s)) ->
  (i < length c)%nat -> cm_row (length c) cm i == qsum (map (fun x => ind (Z.eqb (fst (fst x)) (nth i c 0%Z)) (snd x)) s).
Proof.
  intros HS HI V Hi. unfold cm_row.
  rewrite (qsum_map_ext _ (fun j => qsum (map (fun x => ind (Z.eqb (fst (fst x)) (nth i c 0%Z) && Z.eqb (snd (fst x)) (nth j c 0%Z)) (snd x)) s)))
    by (intros j Hj; apply in_seq in Hj; apply V; lia).
  rewrite qsum_exch. apply qsum_map_ext. intros x Hx. destruct (Z.eqb (fst (fst x)) (nth i c 0%Z)); cbn [andb ind].
  - apply qsum_pick; auto.
  - rewrite <- (qsum_map_ext (fun _ => 0 * 0)); [rewrite qsum_map_scale; ring|intros; cbn; ring].
Qed.
Lemma cm_col_spec c cm (s : list (Z * Z * Q)) j : StronglySorted Z.lt c -> (forall x, In x s -> In (fst (fst x)) c) ->
  (forall i j, (i < length c)%nat -> (j < length c)%nat ->
      cm_at (length c) cm i j ==
        qsum (map (fun x => ind (Z.eqb (fst (fst x)) (nth i c 0%Z) && Z.eqb (snd (fst x)) (nth j c 0%Z)) (snd x)) s)) ->
  (j < length c)%nat -> cm_col (length c) cm j == qsum (map (fun x => ind (Z.eqb (snd (fst x)) (nth j c 0%Z)) (snd x)) s).
Proof.
  intros HS HI V Hj. unfold cm_col.
  rewrite (qsum_map_ext _ (fun i => qsum (map (fun x => ind (Z.eqb (fst (fst x)) (nth i c 0%Z) && Z.eqb (snd (fst x)) (nth j c 0%Z)) (snd x)) s)))
    by (intros i Hi; apply in_seq in Hi; apply V; lia).
  rewrite qsum_exch. apply qsum_map_ext. intros x Hx. destruct (Z.eqb (snd (fst x)) (nth j c 0%Z)); cbn [ind].
  - rewrite (qsum_map_ext _ (fun i => ind (Z.eqb (fst (fst x)) (nth i c 0%Z)) (snd x))) by (intros; rewrite andb_true_r; reflexivity).
    apply qsum_pick; auto.
  - rewrite <- (qsum_map_ext (fun _ => 0 * 0)); [rewrite qsum_map_scale; ring|]. intros. rewrite andb_false_r. cbn; ring.
Qed.

(* ------------------------------------------------- precision/recall/fscore *)
Lemma prf_bounds beta tp tr pr : 0 <= tp -> tp <= tr -> tp <= pr ->
  let '(p, r, f) := prf beta tp tr pr in
  (0 <= p <= 1) /\ (0 <= r <= 1) /\ (0 <= f <= 1) /\
  (0 < pr -> p == tp / pr) /\ (pr == 0 -> p == 0) /\ (0 < tr -> r == tp / tr) /\ (tr == 0 -> r == 0) /\
  f * (beta * beta * p + r) == (1 + beta * beta) * p * r /\ (beta * beta * p + r == 0 -> f == 0).
Proof.
  intros H0 H1 H2. unfold prf.
  set (p := if Qltb 0 pr then tp / pr else 0). set (r := if Qltb 0 tr then tp / tr else 0).
  assert (Hp: 0 <= p <= 1). { unfold p. destruct (Qltb_spec 0 pr); [apply qdiv_bounds; lra|lra]. }
  assert (Hr: 0 <= r <= 1). { unfold r. destruct (Qltb_spec 0 tr); [apply qdiv_bounds; lra|lra]. }
  assert (Hb: 0 <= beta * beta) by nra. set (b2 := beta * beta) in *.
  assert (Hd: 0 <= b2 * p + r) by nra.
  split; [exact Hp|]. split; [exact Hr|].
  assert (Hpr: 0 <= p * r) by nra. assert (Hbp: 0 <= b2 * (p * r)) by nra.
  assert (Hn1: 0 <= (1 + b2) * p * r) by (assert (E: (1 + b2) * p * r == p * r + b2 * (p * r)) by ring; rewrite E; lra).
  assert (Hn2: (1 + b2) * p * r <= b2 * p + r).
  { assert (p * r <= r) by nra. assert (b2 * p * r <= b2 * p) by (assert (0 <= b2 * p) by nra; nra).
    assert (E: (1 + b2) * p * r == p * r + b2 * p * r) by ring. rewrite E. lra. }
  split; [|split; [|split; [|split; [|split; [|split]]]]].
  - destruct (Qltb_spec 0 (b2 * p + r)); [apply qdiv_bounds; auto; lra|lra].
  - unfold p. intros. destruct (Qltb_spec 0 pr); [reflexivity|lra].
  - unfold p. intros. destruct (Qltb_spec 0 pr); [lra|reflexivity].
  - unfold r. intros. destruct (Qltb_spec 0 tr); [reflexivity|lra].
  - unfold r. intros. destruct (Qltb_spec 0 tr); [lra|reflexivity].
  - destruct (Qltb_spec 0 (b2 * p + r)) as [L|L]; [field; lra|]. assert (Z: b2 * p + r == 0) by lra.
    assert (Z2: (1 + b2) * p * r == 0) by lra. rewrite Z2. ring.
  - intros Z. destruct (Qltb_spec 0 (b2 * p + r)); [lra|reflexivity].
Qed.

Lemma qmean_bounds l : l <> [] -> (forall x, In x l -> 0 <= x <= 1) -> 0 <= qmean l <= 1.
Proof.
  intros Hne H. unfold qmean. assert (HN: 0 < qn (length l)) by (apply qn_pos; destruct l; [congruence|cbn; lia]).
  apply qdiv_bounds; [|  |lra].
  - apply qsum_nonneg. intros x Hx. apply H; auto.
  - pose proof (qsum_le (fun x => x) (fun _ => 1) l) as G. rewrite map_id, qsum_const in G. assert (HH: qsum l <= qn (length l) * 1) by (apply G; intros x Hx; apply H; auto). lra.
Qed.

Lemma prf_main beta (s : list (Z * Z * Q)) : s <> [] -> (forall x, In x s -> 0 <= snd x) ->
  (forall x, In x s -> In (snd (fst x)) (map (fun x => fst (fst x)) s)) ->
  let wsum (P : Z -> Z -> bool) := qsum (map (fun x => if P (fst (fst x)) (snd (fst x)) then snd x else 0) s) in
  exists c cm, confusion (Some (map snd s)) 1 (map smp s) = Some (length c, cm) /\ length c <> 0%nat /\
    (forall v, In v c <-> In v (map (fun x => fst (fst x)) s)) /\ NoDup c /\
    (forall k, (k < length c)%nat -> let v := nth k c 0%Z in
       let TP := wsum (fun t p => Z.eqb t v && Z.eqb p v)%bool in
       let TRUE := wsum (fun t p => Z.eqb t v) in let PRED := wsum (fun t p => Z.eqb p v) in
       let '(p, r, f) := prf_class beta (length c) cm k in
       (0 <= p <= 1) /\ (0 <= r <= 1) /\ (0 <= f <= 1) /\
       (0 < PRED -> p == TP / PRED) /\ (PRED == 0 -> p == 0) /\ (0 < TRUE -> r == TP / TRUE) /\ (TRUE == 0 -> r == 0) /\
       f * (beta * beta * p + r) == (1 + beta * beta) * p * r /\ (beta * beta * p + r == 0 -> f == 0)) /\
    (let '(p, r, f, _) := prf_macro beta (length c) cm in
       (0 <= p <= 1) /\ (0 <= r <= 1) /\ (0 <= f <= 1) /\
       p * qn (length c) == qsum (map (fun k => fst (fst (prf_class beta (length c) cm k))) (seq 0 (length c))) /\
       r * qn (length c) == qsum (map (fun k => snd (fst (prf_class beta (length c) cm k))) (seq 0 (length c))) /\
       f * qn (length c) == qsum (map (fun k => snd (prf_class beta (length c) cm k)) (seq 0 (length c)))) /\
    (let '(p, r, f, _) := prf_micro beta (length c) cm in
       0 < qsum (map snd s) -> p == wsum Z.eqb / qsum (map snd s) /\ r == p /\ f == p).
Proof.
  intros Hne Hw Hp wsum. destruct (confusion_main s Hne Hp) as (c & cm & E & HS & HI & L & V).
  exists c, cm. split; [exact E|].
  assert (HK: length c <> 0%nat).
  { destruct s as [|x s']; [congruence|]. intros H0. apply length_zero_iff_nil in H0. subst c.
    destruct (proj2 (HI (fst (fst x))) (or_introl eq_refl)). }
  split; [exact HK|]. split; [exact HI|].
  assert (ND: NoDup c) by (clear -HS; induction HS as [|x l HS IH HF]; constructor; auto; intros Hx; rewrite Forall_forall in HF; specialize (HF x Hx); lia).
  split; [exact ND|].
  assert (It: forall x, In x s -> In (fst (fst x)) c) by (intros x Hx; apply HI, (in_map (fun x => fst (fst x)) _ _ Hx)).
  assert (Ip: forall x, In x s -> In (snd (fst x)) c) by (intros x Hx; apply HI; auto).
  assert (VR: forall i, (i < length c)%nat -> cm_row (length c) cm i == wsum (fun t p => Z.eqb t (nth i c 0%Z))) by (intros; apply cm_row_spec; auto).
  assert (VC: forall i, (i < length c)%nat -> cm_col (length c) cm i == wsum (fun t p => Z.eqb p (nth i c 0%Z))) by (intros; apply cm_col_spec; auto).
  assert (VD: forall i, (i < length c)%nat -> cm_at (length c) cm i i == wsum (fun t p => Z.eqb t (nth i c 0%Z) && Z.eqb p (nth i c 0%Z))%bool) by (intros; apply V; auto).
  assert (B0: forall P, 0 <= wsum P).
  { intros P. apply qsum_nonneg. intros q Hq. apply in_map_iff in Hq. destruct Hq as (x & <- & Hx). specialize (Hw x Hx). destruct (P _ _); lra. }
  assert (BM: forall P P', (forall t p, P t p = true -> P' t p = true) -> wsum P <= wsum P').
  { intros P P' HPP. apply qsum_le. intros x Hx. specialize (Hw x Hx). destruct (P _ _) eqn:EP; [rewrite (HPP _ _ EP); lra|]. destruct (P' _ _); lra. }
  assert (HC: forall k, (k < length c)%nat -> let v := nth k c 0%Z in
       let TP := wsum (fun t p => Z.eqb t v && Z.eqb p v)%bool in
       let TRUE := wsum (fun t p => Z.eqb t v) in let PRED := wsum (fun t p => Z.eqb p v) in
       let '(p, r, f) := prf_class beta (length c) cm k in
       (0 <= p <= 1) /\ (0 <= r <= 1) /\ (0 <= f <= 1) /\
       (0 < PRED -> p == TP / PRED) /\ (PRED == 0 -> p == 0) /\ (0 < TRUE -> r == TP / TRUE) /\ (TRUE == 0 -> r == 0) /\
       f * (beta * beta * p + r) == (1 + beta * beta) * p * r /\ (beta * beta * p + r == 0 -> f == 0)).
  { intros k Hk. specialize (VD k Hk). specialize (VR k Hk). specialize (VC k Hk). cbv zeta. unfold prf_class.
    set (tp := cm_at (length c) cm k k) in *. set (tr := cm_row (length c) cm k) in *. set (pr := cm_col (length c) cm k) in *.
    assert (A1: 0 <= tp) by (rewrite VD; apply B0).
    assert (A2: tp <= tr) by (rewrite VD, VR; apply BM; intros t p' HH; apply andb_true_iff in HH; tauto).
    assert (A3: tp <= pr) by (rewrite VD, VC; apply BM; intros t p' HH; apply andb_true_iff in HH; tauto).
    pose proof (prf_bounds beta tp tr pr A1 A2 A3) as G. destruct (prf beta tp tr pr) as [[p r] f].
    destruct G as (G1 & G2 & G3 & G4 & G5 & G6 & G7 & G8).
    split; [exact G1|]. split; [exact G2|]. split; [exact G3|].
    split; [intros HH; rewrite <- VC in HH; rewrite <- VD, <- VC; auto|]. split; [intros HH; rewrite <- VC in HH; auto|].
    split; [intros HH; rewrite <- VR in HH; rewrite <- VD, <- VR; auto|]. split; [intros HH; rewrite <- VR in HH; auto|]. exact G8. }
  split; [exact HC|]. split.
  - unfold prf_macro. set (l := map (prf_class beta (length c) cm) (seq 0 (length c))).
    assert (Hl: length l = length c) by (unfold l; now rewrite map_length, seq_length).
    assert (Hlne: l <> []) by (intros H0; rewrite H0 in Hl; cbn in Hl; congruence).
    assert (HIn: forall x, In x l -> (0 <= fst (fst x) <= 1) /\ (0 <= snd (fst x) <= 1) /\ (0 <= snd x <= 1)).
    { intros x Hx. apply in_map_iff in Hx. destruct Hx as (k & <- & Hk). apply in_seq in Hk. specialize (HC k ltac:(lia)). cbv zeta in HC.
      destruct (prf_class beta (length c) cm k) as [[p r] f]. cbn [fst snd]. tauto. }
    assert (HN: ~ qn (length c) == 0) by (assert (0 < qn (length c)) by (apply qn_pos; lia); lra).
    assert (GM: forall g : Q * Q * Q -> Q, qmean (map g l) * qn (length c) == qsum (map (fun k => g (prf_class beta (length c) cm k)) (seq 0 (length c)))).
    { intros g. unfold qmean. rewrite map_length, Hl. unfold l. rewrite map_map. field; auto. }
    split; [apply qmean_bounds; [destruct l; [congruence|discriminate]|intros x Hx; apply in_map_iff in Hx; destruct Hx as (y & <- & Hy); apply HIn; auto]|].
    split; [apply qmean_bounds; [destruct l; [congruence|discriminate]|intros x Hx; apply in_map_iff in Hx; destruct Hx as (y & <- & Hy); apply HIn; auto]|].
    split; [apply qmean_bounds; [destruct l; [congruence|discriminate]|intros x Hx; apply in_map_iff in Hx; destruct Hx as (y & <- & Hy); apply HIn; auto]|].
    split; [apply GM|]. split; [apply GM|]. apply GM.
  - unfold prf_micro.
    assert (S1: qsum (map (fun k => cm_at (length c) cm k k) (seq 0 (length c))) == wsum Z.eqb).
    { rewrite (qsum_map_ext _ (fun k => qsum (map (fun x => ind (Z.eqb (fst (fst x)) (nth k c 0%Z) && Z.eqb (snd (fst x)) (nth k c 0%Z)) (snd x)) s)))
        by (intros k Hk; apply in_seq in Hk; apply V; lia).
      rewrite qsum_exch. apply qsum_map_ext. intros x Hx. destruct (Z.eqb_spec (fst (fst x)) (snd (fst x))) as [EQ|NE].
      - rewrite (qsum_map_ext _ (fun k => ind (Z.eqb (fst (fst x)) (nth k c 0%Z)) (snd x))) by (intros; rewrite <- EQ, andb_diag; reflexivity).
        apply qsum_pick; auto.
      - rewrite <- (qsum_map_ext (fun _ => 0 * 0)); [rewrite qsum_map_scale; ring|]. intros k Hk.
        destruct (Z.eqb_spec (fst (fst x)) (nth k c 0%Z)), (Z.eqb_spec (snd (fst x)) (nth k c 0%Z)); cbn; try ring. congruence. }
    assert (S2: qsum (map (cm_row (length c) cm) (seq 0 (length c))) == qsum (map snd s)).
    { rewrite (qsum_map_ext _ (fun k => qsum (map (fun x => ind (Z.eqb (fst (fst x)) (nth k c 0%Z)) (snd x)) s)))
        by (intros k Hk; apply in_seq in Hk; apply VR; lia).
      rewrite qsum_exch. apply qsum_map_ext. intros x Hx. apply qsum_pick; auto. }
    assert (S3: qsum (map (cm_col (length c) cm) (seq 0 (length c))) == qsum (map snd s)).
    { rewrite (qsum_map_ext _ (fun k => qsum (map (fun x => ind (Z.eqb (snd (fst x)) (nth k c 0%Z)) (snd x)) s)))
        by (intros k Hk; apply in_seq in Hk; apply VC; lia).
      rewrite qsum_exch. apply qsum_map_ext. intros x Hx. apply qsum_pick; auto. }
    assert (HT: wsum Z.eqb <= qsum (map snd s)).
    { apply qsum_le. intros x Hx. specialize (Hw x Hx). destruct (Z.eqb _ _); lra. }
    set (tp := qsum (map (fun c0 => cm_at (length c) cm c0 c0) (seq 0 (length c)))) in *.
    set (tr := qsum (map (cm_row (length c) cm) (seq 0 (length c)))) in *. set (pr := qsum (map (cm_col (length c) cm) (seq 0 (length c)))) in *.
    assert (A1: 0 <= tp) by (rewrite S1; apply B0). assert (A2: tp <= tr) by (rewrite S1, S2; exact HT). assert (A3: tp <= pr) by (rewrite S1, S3; exact HT).
    pose proof (prf_bounds beta tp tr pr A1 A2 A3) as G.
    destruct (prf beta tp tr pr) as [[p r] f] eqn:EP. destruct G as (G1 & G2 & G3 & G4 & _ & G6 & _ & G8 & _). intros Hpos.
    assert (Hp1: 0 < pr) by (rewrite S3; exact Hpos). assert (Hp2: 0 < tr) by (rewrite S2; exact Hpos).
    specialize (G4 Hp1). specialize (G6 Hp2). rewrite S1, S3 in G4. rewrite S1, S2 in G6.
    split; [exact G4|]. assert (ER: r == p) by (rewrite G4, G6; reflexivity). split; [exact ER|].
    rewrite ER in G8. assert (Hb: 0 <= beta * beta) by nra. set (b2 := beta * beta) in *.
    destruct (Qeq_dec p 0) as [Z|NZ].
    + unfold prf in EP. injection EP as E1 E2 E3. rewrite <- E3. clear G8. rewrite E1, E2. fold b2. destruct (Qltb_spec 0 (b2 * p + r)) as [LL|LL]; [|now rewrite Z]. exfalso. rewrite ER, Z in LL. lra.
    + assert (G9: f * ((b2 + 1) * p) == p * ((b2 + 1) * p)) by (transitivity (f * (b2 * p + p)); [ring|rewrite G8; ring]).
      apply Qmult_inj_r in G9; auto. intros H0. apply Qmult_integral in H0. destruct H0 as [H0|H0]; [lra|contradiction].
Qed.

(* -------------------------------------------------------------- regression *)
Lemma reg_fold loss wj j l : forall n d,
  let r := fold_left (fun nd ab => (fst nd + wj * loss (nth j (snd ab) 0 - nth j (fst ab) 0), snd nd + wj)) l (n, d) in
  fst r == n + wj * qsum (map (fun ab : list Q * list Q => loss (nth j (snd ab) 0 - nth j (fst ab) 0)) l) /\ snd r == d + wj * qn (length l).
Proof.
  induction l as [|ab l IH]; intros n d; cbn [fold_left map length].
  - cbn [fst snd]. rewrite qsum_nil. change (qn 0) with 0. split; ring.
  - destruct (IH (n + wj * loss (nth j (snd ab) 0 - nth j (fst ab) 0)) (d + wj)) as (A & B). cbn [fst snd]. cbv zeta in *. rewrite A, B, qsum_cons, qn_S. split; ring.
Qed.

(* whatever the weights, the result is the plain mean, a panic, or NaN *)
Lemma reg_err_spec loss w yt yp j : length yt = length yp -> yt <> [] ->
  match (match w with None => Some 1 | Some rows => nth_error (hd [] rows) j end) with
  | None => reg_err loss w yt yp j = None
  | Some wj =>
    if Qeq_bool wj 0 then reg_err loss w yt yp j = None
    else exists v, reg_err loss w yt yp j = Some v /\
      v == qsum (map (fun ab => loss (nth j (snd ab) 0 - nth j (fst ab) 0)) (combine yt yp)) / qn (length yt)
  end.
Proof.
  intros HL Hne. unfold reg_err. destruct (match w with None => Some 1 | Some rows => nth_error (hd [] rows) j end) as [wj|]; auto.
  destruct (reg_fold loss wj j (combine yt yp) 0 0) as (A & B). cbv zeta in *. set (r := fold_left _ _ _) in *.
  rewrite combine_length, <- HL, Nat.min_id in B.
  assert (HN: 0 < qn (length yt)) by (apply qn_pos; destruct yt; [congruence|cbn; lia]).
  destruct (Qeqb_spec wj 0) as [Z|NZ].
  - destruct (Qeqb_spec (snd r) 0) as [|N]; auto. exfalso. apply N. rewrite B, Z. ring.
  - destruct (Qeqb_spec (snd r) 0) as [Z|N].
    + exfalso. rewrite B in Z. assert (Z': wj * qn (length yt) == 0) by (rewrite <- Z; ring). apply Qmult_integral in Z'. destruct Z'; [contradiction|lra].
    + eexists. split; [reflexivity|]. rewrite A, B. field. split; [lra|exact NZ].
Qed.

Lemma qsq_nonneg d : 0 <= d * d.
Proof. nra. Qed.
Lemma r2_num_nonneg s : (forall x, In x s -> 0 <= snd x) -> 0 <= r2_num s.
Proof.
  intros H. apply qsum_nonneg. intros q Hq. apply in_map_iff in Hq. destruct Hq as (x & <- & Hx). specialize (H x Hx).
  apply Qmult_le_0_compat; auto. apply qsq_nonneg.
Qed.
Lemma r2_den_nonneg s : (forall x, In x s -> 0 <= snd x) -> 0 <= r2_den s.
Proof.
  intros H. apply qsum_nonneg. intros q Hq. apply in_map_iff in Hq. destruct Hq as (x & <- & Hx). specialize (H x Hx).
  apply Qmult_le_0_compat; auto. apply qsq_nonneg.
Qed.
Lemma qmax_pos d : 0 < qmax d r2_tiny.
Proof. unfold qmax. destruct (Qleb_spec d r2_tiny); [reflexivity|]. assert (0 < r2_tiny) by reflexivity. lra. Qed.

Lemma r2_main s : (forall x, In x s -> 0 <= snd x) ->
  r2_raw s <= 1 /\
  (r2_raw s == 1 <-> forall x, In x s -> ~ snd x == 0 -> snd (fst x) == fst (fst x)) /\
  (r2_tiny <= r2_den s -> (forall x, In x s -> snd (fst x) == r2_avg s) -> r2_raw s == 0) /\
  (r2_tiny <= r2_den s -> r2_raw s == 1 - r2_num s / r2_den s).
Proof.
  intros H. pose proof (r2_num_nonneg s H) as HN. pose proof (qmax_pos (r2_den s)) as HD.
  assert (HM: r2_tiny <= r2_den s -> qmax (r2_den s) r2_tiny == r2_den s).
  { intros HT. unfold qmax. destruct (Qleb_spec (r2_den s) r2_tiny); lra. }
  assert (HT0: 0 < r2_tiny) by reflexivity.
  split; [|split; [|split]].
  - unfold r2_raw. assert (0 <= r2_num s / qmax (r2_den s) r2_tiny) by (apply Qle_shift_div_l; auto; lra). lra.
  - assert (E1: r2_raw s == 1 <-> r2_num s == 0).
    { unfold r2_raw. split; intros E.
      - assert (E2: r2_num s / qmax (r2_den s) r2_tiny == 0) by lra.
        rewrite <- (Qmult_div_r (r2_num s) (qmax (r2_den s) r2_tiny)) by lra. rewrite E2. ring.
      - rewrite E. field. lra. }
    rewrite E1. clear -H. unfold r2_num. induction s as [|x s IH]; [split; [intros _ x []|reflexivity]|].
    cbn [map]. rewrite qsum_cons. assert (Hx: 0 <= snd x) by (apply H; now left).
    assert (HS: 0 <= r2_num s) by (apply r2_num_nonneg; intros; apply H; now right). unfold r2_num in HS.
    set (d := snd (fst x) - fst (fst x)) in *. assert (Hd: 0 <= d * d) by apply qsq_nonneg. assert (Hp: 0 <= snd x * (d * d)) by (apply Qmult_le_0_compat; auto).
    specialize (IH (fun y Hy => H y (or_intror Hy))). split.
    + intros E y [<-|Hy] Hn.
      * assert (Z: snd x * (d * d) == 0) by lra. apply Qmult_integral in Z. destruct Z as [Z|Z]; [contradiction|].
        assert (d == 0) by (apply Qmult_integral in Z; tauto). unfold d in *. lra.
      * apply IH; auto. lra.
    + intros HA. assert (Z: snd x * (d * d) == 0).
      { destruct (Qeq_dec (snd x) 0) as [Z|Z]; [rewrite Z; ring|]. specialize (HA x (or_introl eq_refl) Z). unfold d. rewrite HA. ring. }
      assert (Z2: qsum (map (fun x => snd x * ((snd (fst x) - fst (fst x)) * (snd (fst x) - fst (fst x)))) s) == 0) by (apply IH; intros y Hy; apply HA; now right).
      lra.
  - intros HT HA. unfold r2_raw. rewrite (HM HT). assert (EN: r2_num s == r2_den s).
    { unfold r2_num, r2_den. apply qsum_map_ext. intros x Hx. rewrite (HA x Hx). ring. }
    rewrite EN. field. lra.
  - intros HT. unfold r2_raw. rewrite (HM HT). reflexivity.
Qed.

Lemma r2_vw outs : outs <> [] -> (forall s, In s outs -> r2_tiny <= r2_den s) ->
  r2_variance_weighted outs == 1 - qsum (map r2_num outs) / qsum (map r2_den outs).
Proof.
  intros Hne H. unfold r2_variance_weighted.
  assert (HP: 0 < qsum (map r2_den outs)).
  { destruct outs as [|s outs]; [congruence|]. cbn [map]. rewrite qsum_cons.
    assert (0 <= qsum (map r2_den outs)) by (apply qsum_nonneg; intros q Hq; apply in_map_iff in Hq; destruct Hq as (x & <- & Hx);
      assert (r2_tiny <= r2_den x) by (apply H; now right); assert (0 < r2_tiny) by reflexivity; lra).
    assert (r2_tiny <= r2_den s) by (apply H; now left). assert (0 < r2_tiny) by reflexivity. lra. }
  rewrite (qsum_map_ext (fun s => r2_den s * r2_raw s) (fun s => r2_den s + -(1) * r2_num s)).
  - rewrite qsum_map_plus, qsum_map_scale. change (map (fun x => r2_den x) outs) with (map r2_den outs). change (map (fun x => r2_num x) outs) with (map r2_num outs).
    field. lra.
  - intros s Hs. unfold r2_raw. assert (HT: r2_tiny <= r2_den s) by auto. assert (H0: 0 < r2_tiny) by reflexivity.
    assert (HM: qmax (r2_den s) r2_tiny == r2_den s) by (unfold qmax; destruct (Qleb_spec (r2_den s) r2_tiny); lra).
    rewrite HM. field. lra.
Qed.

Lemma r2_uniform_main outs : outs <> [] -> (forall s x, In s outs -> In x s -> 0 <= snd x) ->
  r2_uniform outs * qn (length outs) == qsum (map r2_raw outs) /\ r2_uniform outs <= 1 /\
  (r2_uniform outs == 1 <-> forall s x, In s outs -> In x s -> ~ snd x == 0 -> snd (fst x) == fst (fst x)).
Proof.
  intros NE H. assert (N : 0 < qn (length outs)) by (apply qn_pos; destruct outs; [contradiction|cbn [length]; lia]).
  assert (E : r2_uniform outs * qn (length outs) == qsum (map r2_raw outs)) by (unfold r2_uniform; field; lra).
  split; [exact E|].
  assert (U : qsum (map r2_raw outs) <= qn (length outs) /\
    (qsum (map r2_raw outs) == qn (length outs) <-> forall s, In s outs -> r2_raw s == 1)).
  { clear NE N E. induction outs as [|s outs IH]; [split; [vm_compute; discriminate|]|].
    - split; [intros _ s []|reflexivity].
    - destruct IH as (A & B); [intros s' x Hs Hx; apply (H s' x); [now right|exact Hx]|].
      assert (L : r2_raw s <= 1) by (apply r2_main; intros x Hx; apply (H s x); [now left|exact Hx]).
      assert (QS : qn (length (s :: outs)) == 1 + qn (length outs)) by (cbn [length]; rewrite qn_S; ring).
      cbn [map]. rewrite qsum_cons, QS. split; [lra|]. split.
      + intros K s' [ <- |Hs]; [lra|]. apply B; [lra|exact Hs].
      + intros K. rewrite (K s (or_introl eq_refl)). rewrite (proj2 B) by (intros s' Hs; apply K; now right). reflexivity. }
  destruct U as (U1 & U2). split.
  - apply Qmult_le_r with (z := qn (length outs)); [exact N|]. lra.
  - split.
    + intros K. rewrite K in E. assert (E2 : qsum (map r2_raw outs) == qn (length outs)) by lra. intros s x Hs. revert x. destruct (r2_main s (fun x Hx => H s x Hs Hx)) as (_ & M & _). apply M. now apply U2.

    + intros K. assert (E2 : qsum (map r2_raw outs) == qn (length outs)).
      { apply U2. intros s Hs. destruct (r2_main s (fun x Hx => H s x Hs Hx)) as (_ & M & _). apply M. intros x Hx. now apply (K s). }
      rewrite E2 in E. apply Qmult_inj_r with (z := qn (length outs)); [lra|]. rewrite E. ring.
Qed.
Lemma support_of_class (labels : list Z) k :
  (forall l1 v l2, labels = l1 ++ v :: l2 -> ~ In v l1 -> forall x, In x l1 -> (x < v)%Z) ->
  let st := le_fit 1 (map (fun v => [v]) labels) in
  let c := match st with (c, _) :: _ => c | [] => [] end in
  (k < length c)%nat -> prf_support st k = Z.of_nat (count_occ Z.eq_dec labels (nth k c 0%Z)).
Proof.
  intros H. cbv zeta. unfold le_fit, le_partial_fit, prf_support.
  cbn [repeat length Nat.eqb seq combine map fst snd]. unfold column. rewrite map_map. cbn [nth]. rewrite map_id.
  pose proof (support_ascend labels H) as S. cbv zeta in S. destruct (fold_left le_add labels ([], [])) as [c s]. cbn [fst snd] in S. subst s.
  intros Hk. rewrite (nth_indep _ 0%Z (count labels 0%Z)) by (rewrite map_length; exact Hk). rewrite map_nth. reflexivity.
Qed.

(* the weights of "micro": the whole list once for every column *)
Lemma micro_weights_concat m n w : length w = m -> micro_weights m n w = concat (repeat w n).
Proof.
  intros L. unfold micro_weights. assert (G : forall k, (k <= n)%nat -> fold_left (fun tmp i => firstn (i * m) tmp ++ firstn m w ++ skipn (i * m + min m (length w)) tmp) (seq 0 k) (repeat 0 (m * n)) = concat (repeat w k) ++ repeat 0 (m * (n - k))).
  { induction k as [|k IH]; intros H; [cbn; now rewrite Nat.sub_0_r|]. rewrite seq_S, fold_left_app, IH by lia. cbn [fold_left Nat.add]. rewrite L, Nat.min_id.
    assert (LC : length (concat (repeat w k)) = (k * m)%nat) by (clear -L; induction k as [|k IH]; [reflexivity|cbn [repeat concat]; rewrite app_length, IH; lia]).
    rewrite firstn_app, LC, Nat.sub_diag, firstn_O, app_nil_r, <- LC, firstn_all, LC. rewrite (firstn_all2 w) by lia. rewrite skipn_app, LC, skipn_all2, app_nil_l by (rewrite LC; lia).
    replace (k * m + m - k * m)%nat with m by lia. replace (m * (n - k))%nat with (m + m * (n - S k))%nat by nia. rewrite repeat_app, skipn_app, repeat_length, Nat.sub_diag, skipn_all2, app_nil_l by (rewrite repeat_length; lia). cbn [skipn].
    rewrite app_assoc. f_equal. replace (S k) with (k + 1)%nat by lia. rewrite repeat_app, concat_app. cbn [repeat concat]. now rewrite app_nil_r. }
  rewrite (G n) by lia. rewrite Nat.sub_diag, Nat.mul_0_r. apply app_nil_r.
Qed.
Lemma nth_concat_repeat (w : list Q) n : forall k, (k < length w * n)%nat -> nth k (concat (repeat w n)) 0 = nth (k mod length w) w 0.
Proof.
  induction n as [|n IH]; intros k H; [lia|]. cbn [repeat concat]. destruct (Nat.lt_ge_cases k (length w)) as [C|C].
  - rewrite app_nth1 by exact C. now rewrite Nat.mod_small.
  - rewrite app_nth2 by exact C. rewrite IH by nia. f_equal. replace k with ((k - length w) + 1 * length w)%nat at 2 by lia. rewrite Nat.mod_add; [reflexivity|lia].
Qed.
