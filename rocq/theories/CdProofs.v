(* Proofs about the one-output coordinate descent of LinModel.v *)
From Verif Require Import QCommon LinModel LinProofs.

(* (1/2)|y - Xw|^2 + alpha |w|_1 + (beta/2)|w|^2, the comment at cdfast.go:16-21 *)
Definition enet_obj (alpha beta : Q) (X : mtx) (y : list Q) (p : nat) (w : list Q) : Q :=
  (1 # 2) * sumn (length X) (fun i => (nth i y 0 - sumn p (fun j => at2 X i j * nth j w 0)) * (nth i y 0 - sumn p (fun j => at2 X i j * nth j w 0))) +
  alpha * sumn p (fun j => Qabs (nth j w 0)) + (1 # 2) * beta * sumn p (fun j => nth j w 0 * nth j w 0).

Lemma nth_updq (l : list Q) i j v : (j < length l)%nat -> nth i (upd l j v) 0 = if Nat.eqb i j then v else nth i l 0.
Proof.
  intros Hj. destruct (Nat.eqb_spec i j) as [->|N].
  - apply (nth_error_nth (upd l j v) j). now apply nth_error_upd_same.
  - destruct (nth_error l i) eqn:E.
    + rewrite (nth_error_nth _ _ _ E). apply (nth_error_nth (upd l j v) i). rewrite nth_error_upd_other; auto.
    + apply nth_error_None in E. rewrite !nth_overflow; auto. now rewrite upd_length.
Qed.

(* the one-dimensional problem: soft thresholding *)
Lemma soft_pos a t d v : 0 < d -> 0 <= a -> a < t -> let s := (t - a) / d in
  - s * t + (1 # 2) * d * (s * s) + a * Qabs s <= - v * t + (1 # 2) * d * (v * v) + a * Qabs v.
Proof.
  intros Hd Ha Ht s. assert (Es : d * s == t - a) by (unfold s; field; lra).
  assert (Hs : 0 <= s) by (unfold s; apply Qle_shift_div_l; [exact Hd|lra]).
  rewrite (Qabs_pos s Hs). assert (Hv : v <= Qabs v) by apply Qle_Qabs. clearbody s.
  assert (0 <= d * ((v - s) * (v - s))) by (apply Qmult_le_0_compat; [lra|]; generalize (v - s); intros z; nra). assert (a * v <= a * Qabs v) by nra.
  assert (Et : t == d * s + a) by lra. rewrite Et.
  assert (E : - v * (d * s + a) + (1 # 2) * d * (v * v) + a * Qabs v - (- s * (d * s + a) + (1 # 2) * d * (s * s) + a * s)
    == (1 # 2) * (d * ((v - s) * (v - s))) + (a * Qabs v - a * v)) by ring.
  lra.
Qed.
Lemma soft_zero a t d v : 0 < d -> Qabs t <= a -> 0 <= - v * t + (1 # 2) * d * (v * v) + a * Qabs v.
Proof.
  intros Hd Ha. assert (v * t <= a * Qabs v).
  { assert (E : v * t <= Qabs (v * t)) by apply Qle_Qabs. rewrite Qabs_Qmult in E. assert (0 <= Qabs v) by apply Qabs_nonneg. nra. }
  nra.
Qed.
Lemma soft_cd (pos : bool) a t d v : 0 < d -> 0 <= a -> (pos = true -> 0 <= v) ->
  let s := if (pos && Qltb t 0)%bool then 0 else fsign t * qmax (Qabs t - a) 0 / d in
  - s * t + (1 # 2) * d * (s * s) + a * Qabs s <= - v * t + (1 # 2) * d * (v * v) + a * Qabs v.
Proof.
  intros Hd Ha Hv. cbv zeta.
  assert (Z : forall s, s == 0 -> 0 <= - v * t + (1 # 2) * d * (v * v) + a * Qabs v -> - s * t + (1 # 2) * d * (s * s) + a * Qabs s <= - v * t + (1 # 2) * d * (v * v) + a * Qabs v).
  { intros s Es H. assert (Ea : Qabs s == 0) by (rewrite Es; reflexivity). rewrite Ea, Es. lra. }
  destruct (pos && Qltb t 0)%bool eqn:E.
  - apply andb_true_iff in E. destruct E as [-> E]. destruct (Qltb_spec t 0) as [L|L]; [|discriminate].
    apply Z; [reflexivity|]. specialize (Hv eq_refl). rewrite (Qabs_pos v Hv). nra.
  - unfold qmax. destruct (Qleb_spec (Qabs t - a) 0) as [L|L].
    + apply Z; [unfold Qdiv; ring|]. apply soft_zero; lra.
    + unfold fsign. destruct (Qltb_spec 0 t) as [P|P].
      * assert (Et : Qabs t == t) by (apply Qabs_pos; lra). pose proof (soft_pos a t d v Hd Ha ltac:(lra)) as H. cbv zeta in H.
        assert (Es : 1 * (Qabs t - a) / d == (t - a) / d) by (rewrite Et; field; lra).
        setoid_rewrite Es. exact H.
      * destruct (Qeqb_spec t 0) as [E0|E0].
        { rewrite E0 in L. change (Qabs 0) with 0 in L. lra. }
        assert (Hn : t < 0) by (apply Qnot_le_lt; intros C; apply E0; lra).
        assert (Et : Qabs t == - t) by (apply Qabs_neg; lra).
        pose proof (soft_pos a (- t) d (- v) Hd Ha ltac:(lra)) as H. cbv zeta in H. rewrite Qabs_opp in H.
        assert (Es : -1 * (Qabs t - a) / d == - ((- t - a) / d)) by (rewrite Et; field; lra).
        setoid_rewrite Es. rewrite Qabs_opp. set (s := (- t - a) / d) in *. clearbody s. lra.
Qed.

Section CD.
  Variables (alpha beta : Q) (positive : bool) (X : mtx) (y : list Q) (p : nat).
  Let n := length X.
  Notation obj := (enet_obj alpha beta X y p).
  Notation update := (cd_update alpha beta positive X).
  Hypotheses (Ha : 0 <= alpha) (Hb : 0 <= beta).

  Definition pred (w : list Q) (i : nat) : Q := sumn p (fun j => at2 X i j * nth j w 0).
  (* the residual is that of w *)
  Definition res_ok (w R : list Q) : Prop := forall i, (i < n)%nat -> nth i R 0 == nth i y 0 - pred w i.

  Lemma res_ok0 w : res_ok w (resid0 X y p w).
  Proof. intros i Hi. unfold resid0. fold n. rewrite (nth_tab _ Hi), Qred_correct. reflexivity. Qed.

  Lemma pred_upd w j v i : (j < p)%nat -> length w = p -> pred (upd w j v) i == pred w i + (v - nth j w 0) * at2 X i j.
  Proof.
    intros Hj HL. unfold pred. rewrite (sumn_split p (fun k => at2 X i k * nth k (upd w j v) 0) j Hj), (sumn_split p (fun k => at2 X i k * nth k w 0) j Hj).
    rewrite (sumn_ext p (fun k => if Nat.eqb k j then 0 else at2 X i k * nth k (upd w j v) 0) (fun k => if Nat.eqb k j then 0 else at2 X i k * nth k w 0)).
    2:{ intros k Hk. rewrite nth_updq by lia. destruct (Nat.eqb k j); reflexivity. }
    rewrite nth_updq by lia. rewrite Nat.eqb_refl. ring.
  Qed.
  Lemma l1_upd (f : Q -> Q) w j v : (j < p)%nat -> length w = p -> sumn p (fun k => f (nth k (upd w j v) 0)) == sumn p (fun k => f (nth k w 0)) + f v - f (nth j w 0).
  Proof.
    intros Hj HL. rewrite (sumn_split p (fun k => f (nth k (upd w j v) 0)) j Hj), (sumn_split p (fun k => f (nth k w 0)) j Hj).
    rewrite (sumn_ext p (fun k => if Nat.eqb k j then 0 else f (nth k (upd w j v) 0)) (fun k => if Nat.eqb k j then 0 else f (nth k w 0))).
    2:{ intros k Hk. rewrite nth_updq by lia. destruct (Nat.eqb k j); reflexivity. }
    rewrite nth_updq by lia. rewrite Nat.eqb_refl. ring.
  Qed.
  (* the objective along coordinate j, through the partial residual correlation t *)
  Lemma obj_along w j v : (j < p)%nat -> length w = p ->
    let r1 := fun i => nth i y 0 - pred w i + nth j w 0 * at2 X i j in
    let t := sumn n (fun i => at2 X i j * r1 i) in
    obj (upd w j v) == (1 # 2) * sumn n (fun i => r1 i * r1 i) + alpha * (sumn p (fun k => Qabs (nth k w 0)) - Qabs (nth j w 0))
      + (1 # 2) * beta * (sumn p (fun k => nth k w 0 * nth k w 0) - nth j w 0 * nth j w 0)
      + (- v * t + (1 # 2) * (ncx X j + beta) * (v * v) + alpha * Qabs v).
  Proof.
    intros Hj HL. cbv zeta. unfold enet_obj. fold n. rewrite (l1_upd Qabs w j v Hj HL), (l1_upd (fun x => x * x) w j v Hj HL).
    set (r1 := fun i => nth i y 0 - pred w i + nth j w 0 * at2 X i j).
    rewrite (sumn_ext n _ (fun i => r1 i * r1 i + (- (2 # 1) * v) * (at2 X i j * r1 i) + (v * v) * (at2 X i j * at2 X i j))).
    2:{ intros i Hi. change (sumn p (fun k => at2 X i k * nth k (upd w j v) 0)) with (pred (upd w j v) i). rewrite pred_upd by auto. unfold r1. ring. }
    rewrite !sumn_plus, !sumn_scale. unfold ncx. fold n. unfold r1. cbv beta.
    ring.
  Qed.

  Definition st_ok (st : cd) : Prop := length (c_w st) = p /\ res_ok (c_w st) (c_R st).

  (* what one update does *)
  Lemma update_spec st j : (j < p)%nat -> st_ok st ->
    st_ok (update st j) /\
    (ncx X j == 0 -> update st j = st) /\
    (~ ncx X j == 0 -> exists v, c_w (update st j) = upd (c_w st) j v /\
       v == (let t := sumn n (fun i => at2 X i j * (nth i y 0 - pred (c_w st) i + nth j (c_w st) 0 * at2 X i j)) in
             if (positive && Qltb t 0)%bool then 0 else fsign t * qmax (Qabs t - alpha) 0 / (ncx X j + beta))).
  Proof.
    intros Hj [HL HR]. unfold cd_update. destruct (Qeqb_spec (ncx X j) 0) as [E|E].
    { split; [split; auto|]. split; [auto|tauto]. }
    cbv zeta. set (wii := nth j (c_w st) 0).
    set (R1 := if Qeq_bool wii 0 then c_R st else tab n (fun i => Qred (nth i (c_R st) 0 + wii * at2 X i j))).
    assert (H1 : forall i, (i < n)%nat -> nth i R1 0 == nth i y 0 - pred (c_w st) i + wii * at2 X i j).
    { intros i Hi. unfold R1. destruct (Qeqb_spec wii 0) as [Z|Z].
      - rewrite (HR i Hi), Z. ring.
      - rewrite (nth_tab _ Hi), Qred_correct, (HR i Hi). reflexivity. }
    set (T := sumn n (fun i => at2 X i j * (nth i y 0 - pred (c_w st) i + wii * at2 X i j))).
    assert (HT : sumn n (fun i => at2 X i j * nth i R1 0) == T) by (apply sumn_ext; intros i Hi; now rewrite H1).
    fold n. set (T' := sumn n (fun i => at2 X i j * nth i R1 0)) in *. fold R1. fold T'.
    set (v := Qred (if (positive && Qltb T' 0)%bool then 0 else fsign T' * qmax (Qabs T' - alpha) 0 / (ncx X j + beta))).
    split; [split|split].
    - cbn [c_w]. now rewrite upd_length.
    - intros i Hi. cbn [c_w c_R]. rewrite (pred_upd _ _ _ _ Hj HL). fold wii.
      destruct (Qeqb_spec v 0) as [Z|Z].
      + rewrite (H1 i Hi). rewrite Z. ring.
      + rewrite (nth_tab _ Hi), Qred_correct, (H1 i Hi). ring.
    - tauto.
    - intros _. exists v. split; [reflexivity|]. unfold v. rewrite Qred_correct. unfold fsign, qmax.
      assert (EL : forall a b c, a == b -> Qltb a c = Qltb b c).
      { intros a b c Hab. unfold Qltb. f_equal. destruct (Qleb_spec c a), (Qleb_spec c b); auto; lra. }
      assert (EL2 : forall a b c, a == b -> Qltb c a = Qltb c b).
      { intros a b c Hab. unfold Qltb. f_equal. destruct (Qleb_spec a c), (Qleb_spec b c); auto; lra. }
      assert (EE : forall a b c, a == b -> Qeq_bool a c = Qeq_bool b c).
      { intros a b c Hab. destruct (Qeqb_spec a c), (Qeqb_spec b c); auto; exfalso; lra. }
      assert (EB : forall a b c, a == b -> Qle_bool a c = Qle_bool b c).
      { intros a b c Hab. destruct (Qleb_spec a c), (Qleb_spec b c); auto; exfalso; lra. }
      rewrite (EL T' T 0 HT), (EL2 T' T 0 HT), (EE T' T 0 HT).
      assert (HA : Qabs T' - alpha == Qabs T - alpha) by now rewrite HT.
      rewrite (EB _ _ 0 HA). destruct (positive && Qltb T 0)%bool; [reflexivity|].
      destruct (Qltb 0 T), (Qeq_bool T 0), (Qle_bool (Qabs T - alpha) 0); rewrite ?HT; reflexivity.
  Qed.
  Lemma ncx_nonneg j : 0 <= ncx X j.
  Proof. unfold ncx. apply sumn_nonneg. intros. nra. Qed.

  Lemma update_minimises st j : (j < p)%nat -> st_ok st -> ~ ncx X j == 0 -> forall v, (positive = true -> 0 <= v) ->
    obj (c_w (update st j)) <= obj (upd (c_w st) j v).
  Proof using Ha Hb.
    intros Hj Hst E v Hv. destruct (update_spec st j Hj Hst) as (_ & _ & H). destruct (H E) as (s & -> & Es). destruct Hst as [HL HR]. clear H.
    rewrite !obj_along by auto. cbv zeta.
    set (t := sumn n (fun i => at2 X i j * (nth i y 0 - pred (c_w st) i + nth j (c_w st) 0 * at2 X i j))) in *.
    apply Qplus_le_r. pose proof (ncx_nonneg j). cbv zeta in Es.
    assert (Hd : 0 < ncx X j + beta) by (assert (0 < ncx X j) by (apply Qnot_le_lt; intros C; apply E; lra); lra).
    pose proof (soft_cd positive alpha t _ v Hd Ha Hv) as G. cbv zeta in G. setoid_rewrite <- Es in G. exact G.
  Qed.
  Lemma update_descends st j : (j < p)%nat -> st_ok st -> (positive = true -> forall k, (k < p)%nat -> 0 <= nth k (c_w st) 0) ->
    obj (c_w (update st j)) <= obj (c_w st).
  Proof using Ha Hb.
    intros Hj Hst Hp. destruct (Qeqb_spec (ncx X j) 0) as [E|E].
    - destruct (update_spec st j Hj Hst) as (_ & H & _). rewrite (H E). lra.
    - pose proof (update_minimises st j Hj Hst E (nth j (c_w st) 0) ltac:(intros; now apply Hp)) as G.
      assert (Z : upd (c_w st) j (nth j (c_w st) 0) = c_w st); [|now rewrite Z in G].
      apply (nth_ext _ _ 0 0); [now rewrite upd_length|]. intros i Hi. destruct Hst as [HL _]. rewrite nth_updq by lia.
      destruct (Nat.eqb_spec i j); [now subst|reflexivity].
  Qed.
  Lemma soft_nonneg t d : 0 < d -> positive = true -> 0 <= (if (positive && Qltb t 0)%bool then 0 else fsign t * qmax (Qabs t - alpha) 0 / d).
  Proof.
    intros Hd ->. cbn [andb]. destruct (Qltb_spec t 0) as [L|L]; [lra|].
    apply Qle_shift_div_l; [exact Hd|]. rewrite Qmult_0_l. assert (0 <= qmax (Qabs t - alpha) 0) by (unfold qmax; destruct (Qleb_spec (Qabs t - alpha) 0); lra).
    unfold fsign. destruct (Qltb_spec 0 t); [lra|]. destruct (Qeqb_spec t 0); [lra|]. exfalso. lra.
  Qed.
  Lemma update_positive st j : (j < p)%nat -> st_ok st -> positive = true -> (forall k, (k < p)%nat -> 0 <= nth k (c_w st) 0) ->
    forall k, (k < p)%nat -> 0 <= nth k (c_w (update st j)) 0.
  Proof using Hb.
    intros Hj Hst Hp H k Hk. destruct (update_spec st j Hj Hst) as (_ & G0 & G). destruct (Qeqb_spec (ncx X j) 0) as [E|E]; [rewrite G0; auto|].
    destruct (G E) as (v & -> & Ev). destruct Hst as [HL _]. rewrite nth_updq by lia. destruct (Nat.eqb k j); [|auto].
    rewrite Ev. cbv zeta. pose proof (ncx_nonneg j). apply soft_nonneg; [|exact Hp].
    assert (0 < ncx X j) by (apply Qnot_le_lt; intros C; apply E; lra). lra.
  Qed.

  (* ---------------------------------------------------------------- passes *)
  Definition nonneg (w : list Q) : Prop := forall k, (k < p)%nat -> 0 <= nth k w 0.
  Lemma fold_spec order : (forall j, In j order -> (j < p)%nat) -> forall st, st_ok st -> (positive = true -> nonneg (c_w st)) ->
    let st' := fold_left update order st in
    st_ok st' /\ (positive = true -> nonneg (c_w st')) /\ obj (c_w st') <= obj (c_w st).
  Proof using Ha Hb.
    induction order as [|j order IH]; intros HO st Hst Hp; cbn [fold_left].
    - split; [exact Hst|]. split; [exact Hp|]. lra.
    - assert (Hj : (j < p)%nat) by (apply HO; cbn; auto).
      destruct (update_spec st j Hj Hst) as (Hst' & _).
      destruct (IH ltac:(intros; apply HO; cbn; auto) (update st j) Hst') as (A & B & C).
      { intros Hpos k Hk. apply update_positive; auto. now apply Hp. }
      split; [exact A|]. split; [exact B|]. pose proof (update_descends st j Hj Hst ltac:(intros; now apply Hp)). lra.
  Qed.
  Lemma pass_spec order w R : (forall j, In j order -> (j < p)%nat) -> length w = p -> res_ok w R -> (positive = true -> nonneg w) ->
    let st := cd_pass alpha beta positive X order w R in
    st_ok st /\ (positive = true -> nonneg (c_w st)) /\ obj (c_w st) <= obj w.
  Proof using Ha Hb. intros HO HL HR Hp. apply (fold_spec order HO (mkcd w R 0 0)); [split; auto|exact Hp]. Qed.

  (* ----------------------------------------------------------- duality gap *)
  Lemma lmaxq_ub l x : In x l -> x <= lmaxq l.
  Proof.
    destruct l as [|a l]; [intros []|]. cbn [lmaxq].
    assert (G : forall l a, a <= fold_left qmax l a /\ forall x, In x l -> x <= fold_left qmax l a).
    { clear. induction l as [|b l IH]; intros a; cbn [fold_left In]; [split; [lra|tauto]|].
      destruct (IH (qmax a b)) as [A B]. assert (a <= qmax a b /\ b <= qmax a b) as [M1 M2] by (unfold qmax; destruct (Qleb_spec a b); lra).
      split; [lra|]. intros x [<-|Hx]; [lra|auto]. }
    intros [E | Hx]; [rewrite <- E; exact (proj1 (G l a))|apply (proj2 (G l a)); exact Hx].
  Qed.
  Definition xta (w R : list Q) (j : nat) : Q := sumn n (fun i => at2 X i j * nth i R 0) - beta * nth j w 0.

  Lemma young a b : a * b - (1 # 2) * (b * b) <= (1 # 2) * (a * a).
  Proof. assert (0 <= (a - b) * (a - b)) by (generalize (a - b); intros z; nra). lra. Qed.

  Lemma gap_bound w R v : res_ok w R -> (positive = true -> nonneg v) -> obj w - cd_gap alpha beta positive X y p w R <= obj v.
  Proof using Ha Hb.
    intros HR Hv. unfold cd_gap. cbv zeta. fold n.
    set (L := tab p (fun j => sumn n (fun i => at2 X i j * nth i R 0) + - beta * nth j w 0)).
    set (D := if positive then lmaxq L else lmaxq (map Qabs L)).
    set (R2 := sumn n (fun i => nth i R 0 * nth i R 0)). set (w2 := sumn p (fun j => nth j w 0 * nth j w 0)).
    set (l1 := sumn p (fun j => Qabs (nth j w 0))). set (RY := sumn n (fun i => nth i R 0 * nth i y 0)).
    set (c := if Qltb alpha D then alpha / D else 1).
    assert (Hc : 0 <= c /\ forall j, (j < p)%nat -> c * (xta w R j * nth j v 0) <= alpha * Qabs (nth j v 0)).
    { assert (HD : forall j, (j < p)%nat -> (if positive then xta w R j else Qabs (xta w R j)) <= D).
      { intros j Hj. assert (In (nth j L 0) L) by (apply nth_In; unfold L; rewrite tab_length; lia).
        assert (E : nth j L 0 == xta w R j) by (unfold L, xta; rewrite (nth_tab _ Hj); ring).
        unfold D. destruct positive.
        - rewrite <- E. now apply lmaxq_ub.
        - rewrite <- E. apply lmaxq_ub. now apply in_map. }
      assert (K : 0 <= c /\ forall x, x <= D -> 0 <= D \/ D <= alpha -> c * x <= alpha).
      { unfold c. destruct (Qltb_spec alpha D) as [G|G].
        - assert (0 <= alpha / D) by (apply Qle_shift_div_l; lra). split; [exact H|]. intros x Hx _.
          assert (alpha / D * D == alpha) by (field; lra). nra.
        - split; [lra|]. intros x Hx _. lra. }
      destruct K as [K0 K]. split; [exact K0|]. intros j Hj. specialize (HD j Hj).
      assert (DD : 0 <= D \/ D <= alpha) by (destruct (Qlt_le_dec alpha D); [left; lra|right; lra]).
      destruct positive eqn:P.
      - specialize (Hv eq_refl j Hj). rewrite (Qabs_pos _ Hv). specialize (K _ HD DD). nra.
      - specialize (K _ HD DD). assert (E : c * (xta w R j * nth j v 0) <= c * (Qabs (xta w R j) * Qabs (nth j v 0))).
        { rewrite <- Qabs_Qmult. pose proof (Qle_Qabs (xta w R j * nth j v 0)). nra. }
        pose proof (Qabs_nonneg (nth j v 0)). nra. }
    destruct Hc as [Hc0 Hc].
    assert (EG : (if Qltb alpha D then (1 # 2) * (R2 + R2 * c * c) else R2) == (1 # 2) * (R2 + R2 * c * c)).
    { unfold c. destruct (Qltb alpha D); [reflexivity|]. ring. }
    rewrite EG. clear EG.
    (* the objective at w *)
    assert (Ew : obj w == (1 # 2) * R2 + alpha * l1 + (1 # 2) * beta * w2).
    { unfold enet_obj. fold n. fold l1. fold w2. apply Qplus_inj_r, Qplus_inj_r. apply Qmult_comp; [reflexivity|]. unfold R2. apply sumn_ext. intros i Hi.
      rewrite (HR i Hi). reflexivity. }
    rewrite Ew.
    (* lower bound of the objective at v *)
    assert (E1 : sumn n (fun i => (c * nth i R 0) * (nth i y 0 - pred v i)) - (1 # 2) * (c * c * R2) <=
                 (1 # 2) * sumn n (fun i => (nth i y 0 - pred v i) * (nth i y 0 - pred v i))).
    { unfold R2. rewrite <- !sumn_scale, <- sumn_minus. apply sumn_le. intros i Hi. pose proof (young (nth i y 0 - pred v i) (c * nth i R 0)). lra. }
    assert (E2 : sumn n (fun i => (c * nth i R 0) * (nth i y 0 - pred v i)) == c * RY - c * sumn p (fun j => nth j v 0 * sumn n (fun i => at2 X i j * nth i R 0))).
    { assert (S1 : sumn n (fun i => nth i R 0 * pred v i) == sumn p (fun j => nth j v 0 * sumn n (fun i => at2 X i j * nth i R 0))).
      { rewrite (sumn_ext n _ (fun i => sumn p (fun j => nth i R 0 * (at2 X i j * nth j v 0)))) by (intros; unfold pred; now rewrite sumn_scale).
        rewrite sumn_swap. apply sumn_ext. intros j Hj. rewrite <- sumn_scale. apply sumn_ext. intros; ring. }
      rewrite <- S1. unfold RY. rewrite <- !sumn_scale, <- sumn_minus. apply sumn_ext. intros; ring. }
    assert (E3 : c * sumn p (fun j => nth j v 0 * sumn n (fun i => at2 X i j * nth i R 0)) <= alpha * sumn p (fun j => Qabs (nth j v 0)) + c * beta * sumn p (fun j => nth j w 0 * nth j v 0)).
    { rewrite <- !sumn_scale, <- sumn_plus. apply sumn_le. intros j Hj. specialize (Hc j Hj). unfold xta in Hc. lra. }
    assert (E4 : c * beta * sumn p (fun j => nth j w 0 * nth j v 0) <= (1 # 2) * beta * sumn p (fun j => nth j v 0 * nth j v 0) + (1 # 2) * beta * (c * c) * w2).
    { unfold w2. rewrite <- !sumn_scale, <- sumn_plus. apply sumn_le. intros j Hj. pose proof (young (nth j v 0) (c * nth j w 0)). nra. }
    unfold enet_obj. fold n. change (fun i => (nth i y 0 - sumn p (fun j => at2 X i j * nth j v 0)) * (nth i y 0 - sumn p (fun j => at2 X i j * nth j v 0))) with (fun i => (nth i y 0 - pred v i) * (nth i y 0 - pred v i)).
    set (SV := sumn n (fun i => (nth i y 0 - pred v i) * (nth i y 0 - pred v i))) in *.
    set (VX := c * sumn p (fun j => nth j v 0 * sumn n (fun i => at2 X i j * nth i R 0))) in *.
    set (V2 := sumn p (fun j => nth j v 0 * nth j v 0)) in *. set (V1 := sumn p (fun j => Qabs (nth j v 0))) in *.
    rewrite E2 in E1. clear E2. clearbody SV VX V2 V1 R2 w2 l1 RY. nra.
  Qed.

  (* ------------------------------------------------------------------ loop *)
  Lemma loop_spec order dwtol tol : (forall k j, In j (order k) -> (j < p)%nat) -> forall left k w R gap,
    length w = p -> res_ok w R -> (positive = true -> nonneg w) ->
    let '(w', g, it) := cd_loop alpha beta positive X y p order dwtol tol left k w R gap in
    length w' = p /\ (positive = true -> nonneg w') /\ obj w' <= obj w /\ (it <= S (left + k))%nat /\
    (left <> O -> forall v, (positive = true -> nonneg v) -> obj w' - g <= obj v) /\
    ((it <= left + k)%nat -> g < tol).
  Proof using Ha Hb.
    intros HO. induction left as [|left IH]; intros k w R gap HL HR Hp; cbn [cd_loop].
    - split; [exact HL|]. split; [exact Hp|]. split; [lra|]. split; [lia|]. split; [congruence|]. intros F. lia.
    - destruct (pass_spec (order k) w R (HO k) HL HR Hp) as ((A1 & A2) & B & C). cbv zeta. set (st := cd_pass _ _ _ _ _ _ _) in *.
      assert (G : forall v, (positive = true -> nonneg v) -> obj (c_w st) - Qred (cd_gap alpha beta positive X y p (c_w st) (c_R st)) <= obj v)
        by (intros v Hv; rewrite Qred_correct; now apply gap_bound).
      destruct (_ || _ || _)%bool eqn:E.
      + set (g := Qred (cd_gap alpha beta positive X y p (c_w st) (c_R st))) in *.
        destruct (Qltb_spec g tol) as [Hg|Hg].
        * split; [exact A1|]. split; [exact B|]. split; [exact C|]. split; [lia|]. split; [intros _; exact G|]. intros _. exact Hg.
        * specialize (IH (S k) (c_w st) (c_R st) g A1 A2 B). destruct left as [|left].
          -- cbn [cd_loop] in *. split; [exact A1|]. split; [exact B|]. split; [exact C|]. split; [lia|]. split; [intros _; exact G|]. intros F. lia.
          -- destruct (cd_loop _ _ _ _ _ _ _ _ _ (S left) (S k) _ _ g) as [[w' g'] it]. destruct IH as (I1 & I2 & I3 & I4 & I5 & I6).
             split; [exact I1|]. split; [exact I2|]. split; [lra|]. split; [lia|]. split; [intros _; apply I5; lia|]. intros F. apply I6. lia.
      + destruct left as [|left]; [rewrite !orb_true_r in E; discriminate|].
        specialize (IH (S k) (c_w st) (c_R st) gap A1 A2 B).
        destruct (cd_loop _ _ _ _ _ _ _ _ _ (S left) (S k) _ _ gap) as [[w' g'] it]. destruct IH as (I1 & I2 & I3 & I4 & I5 & I6).
        split; [exact I1|]. split; [exact I2|]. split; [lra|]. split; [lia|]. split; [intros _; apply I5; lia|]. intros F. apply I6. lia.
  Qed.

  (* --------------------------------------------------- stationary points *)
  (* no coordinate moves: the duality gap is zero *)
  Definition stationary (w : list Q) : Prop := forall j, (j < p)%nat ->
    let t := sumn n (fun i => at2 X i j * (nth i y 0 - pred w i + nth j w 0 * at2 X i j)) in
    (ncx X j == 0 -> nth j w 0 == 0) /\
    (~ ncx X j == 0 -> nth j w 0 == if (positive && Qltb t 0)%bool then 0 else fsign t * qmax (Qabs t - alpha) 0 / (ncx X j + beta)).

  Lemma ncx_zero j i : (i < n)%nat -> ncx X j == 0 -> at2 X i j == 0.
  Proof.
    intros Hi H. unfold ncx in H. fold n in H. rewrite (sumn_split n _ i Hi) in H.
    assert (0 <= sumn n (fun k => if Nat.eqb k i then 0 else at2 X k j * at2 X k j)) by (apply sumn_nonneg; intros k Hk; destruct (Nat.eqb k i); nra).
    assert (at2 X i j * at2 X i j == 0) by nra. destruct (Qeq_dec (at2 X i j) 0); auto. exfalso.
    assert (~ at2 X i j * at2 X i j == 0); auto. intros F. apply Qmult_integral in F. tauto.
  Qed.
  Lemma stationary_kkt w R j : res_ok w R -> stationary w -> (j < p)%nat ->
    xta w R j <= alpha /\ (positive = false -> - alpha <= xta w R j) /\ nth j w 0 * xta w R j == alpha * Qabs (nth j w 0).
  Proof using Ha Hb.
    intros HR HS Hj. destruct (HS j Hj) as [S0 S1]. cbv zeta in S1.
    set (t := sumn n (fun i => at2 X i j * (nth i y 0 - pred w i + nth j w 0 * at2 X i j))) in *.
    assert (Et : xta w R j == t - (ncx X j + beta) * nth j w 0).
    { unfold xta, t. rewrite (sumn_ext n (fun i => at2 X i j * (nth i y 0 - pred w i + nth j w 0 * at2 X i j)) (fun i => at2 X i j * nth i R 0 + nth j w 0 * (at2 X i j * at2 X i j))).
      2:{ intros i Hi. rewrite (HR i Hi). ring. }
      rewrite sumn_plus, sumn_scale. unfold ncx. fold n. ring. }
    destruct (Qeqb_spec (ncx X j) 0) as [E|E].
    - specialize (S0 E). assert (Z : xta w R j == 0).
      { unfold xta. rewrite S0. rewrite (sumn_ext n _ (fun _ => 0)); [rewrite sumn_zero; ring|]. intros i Hi. rewrite (ncx_zero j i Hi E). ring. }
      split; [lra|]. split; [intros _; lra|]. rewrite Z, S0. change (Qabs 0) with 0. ring.
    - specialize (S1 E). pose proof (ncx_nonneg j). assert (Hd : 0 < ncx X j + beta) by (assert (0 < ncx X j) by (apply Qnot_le_lt; intros C; apply E; lra); lra).
      set (d := ncx X j + beta) in *. set (wj := nth j w 0) in *. clearbody d wj. revert S1 Et. generalize (xta w R j). clearbody t. intros x S1 Et.
      destruct (positive && Qltb t 0)%bool eqn:P.
      { apply andb_true_iff in P. destruct P as [P P2]. destruct (Qltb_spec t 0) as [L|L]; [|discriminate].
        assert (x == t) by (rewrite Et, S1; ring). split; [lra|]. split; [intros; congruence|]. rewrite S1. change (Qabs 0) with 0. ring. }
      unfold qmax in S1. destruct (Qleb_spec (Qabs t - alpha) 0) as [L|L].
      { assert (Z : wj == 0) by (rewrite S1; unfold Qdiv; ring). assert (x == t) by (rewrite Et, Z; ring).
        assert (t <= Qabs t) by apply Qle_Qabs. assert (- t <= Qabs t) by (rewrite <- Qabs_opp; apply Qle_Qabs).
        split; [lra|]. split; [intros; lra|]. rewrite Z. change (Qabs 0) with 0. ring. }
      unfold fsign in S1. destruct (Qltb_spec 0 t) as [T|T].
      + assert (Ea : Qabs t == t) by (apply Qabs_pos; lra). rewrite Ea in *.
        assert (Dw : d * wj == t - alpha) by (rewrite S1; field; lra).
        assert (Hw : 0 <= wj) by (rewrite S1; apply Qle_shift_div_l; lra).
        assert (x == alpha) by lra. split; [lra|]. split; [intros; lra|]. rewrite (Qabs_pos wj Hw). rewrite H0. ring.
      + destruct (Qeqb_spec t 0) as [T0|T0]; [rewrite T0 in L; change (Qabs 0) with 0 in L; lra|].
        assert (Tn : t < 0) by (apply Qnot_le_lt; intros C; apply T0; lra).
        assert (Ea : Qabs t == - t) by (apply Qabs_neg; lra). rewrite Ea in *.
        assert (Dw : d * wj == t + alpha) by (rewrite S1; field; lra).
        assert (Hw : 0 <= - wj) by (assert (W : - wj == (- t - alpha) / d) by (rewrite S1; field; lra); rewrite W; apply Qle_shift_div_l; lra).
        assert (x == - alpha) by lra. split; [lra|]. split; [intros; lra|]. rewrite <- Qabs_opp, (Qabs_pos (- wj) Hw). rewrite H0. ring.
  Qed.
  Lemma lmaxq_lub l b : l <> [] -> (forall x, In x l -> x <= b) -> lmaxq l <= b.
  Proof.
    destruct l as [|a l]; [congruence|]. intros _ H. cbn [lmaxq]. assert (a <= b) by (apply H; cbn; auto).
    assert (H' : forall x, In x l -> x <= b) by (intros; apply H; cbn; auto). clear H. revert a H0 H'. clear. induction l as [|c l IH]; intros a Hab H; cbn [fold_left]; [exact Hab|].
    apply IH; [|intros; apply H; cbn; auto]. assert (c <= b) by (apply H; cbn; auto). unfold qmax. destruct (Qle_bool a c); auto.
  Qed.
  Lemma stationary_gap w R : (0 < p)%nat -> res_ok w R -> stationary w -> cd_gap alpha beta positive X y p w R == 0.
  Proof using Ha Hb.
    intros Hp0 HR HS. unfold cd_gap. cbv zeta. fold n.
    set (L := tab p (fun j => sumn n (fun i => at2 X i j * nth i R 0) + - beta * nth j w 0)).
    set (D := if positive then lmaxq L else lmaxq (map Qabs L)).
    assert (HL : forall x, In x L -> exists j, (j < p)%nat /\ x == xta w R j).
    { intros x Hx. unfold L, tab in Hx. apply in_map_iff in Hx. destruct Hx as (j & <- & Hj). apply in_seq in Hj. exists j. split; [lia|]. unfold xta. ring. }
    assert (NL : L <> []) by (intros F; apply (f_equal (@length Q)) in F; unfold L in F; rewrite tab_length in F; cbn in F; lia).
    assert (HD : D <= alpha).
    { unfold D. destruct positive eqn:P.
      - apply lmaxq_lub; [exact NL|]. intros x Hx. destruct (HL x Hx) as (j & Hj & ->). now apply stationary_kkt.
      - apply lmaxq_lub; [destruct L; [congruence|discriminate]|]. intros x Hx. apply in_map_iff in Hx. destruct Hx as (z & <- & Hz).
        destruct (HL z Hz) as (j & Hj & ->). destruct (stationary_kkt w R j HR HS Hj) as (A & B & _). specialize (B P). apply Qabs_Qle_condition. lra. }
    destruct (Qltb_spec alpha D) as [F|_]; [lra|].
    assert (E : sumn n (fun i => nth i R 0 * nth i y 0) == sumn n (fun i => nth i R 0 * nth i R 0) + sumn p (fun j => nth j w 0 * sumn n (fun i => at2 X i j * nth i R 0))).
    { assert (S1 : sumn n (fun i => nth i R 0 * pred w i) == sumn p (fun j => nth j w 0 * sumn n (fun i => at2 X i j * nth i R 0))).
      { rewrite (sumn_ext n _ (fun i => sumn p (fun j => nth i R 0 * (at2 X i j * nth j w 0)))) by (intros; unfold pred; now rewrite sumn_scale).
        rewrite sumn_swap. apply sumn_ext. intros j Hj. rewrite <- sumn_scale. apply sumn_ext. intros; ring. }
      rewrite <- S1, <- sumn_plus. apply sumn_ext. intros i Hi. rewrite (HR i Hi). ring. }
    rewrite E.
    assert (K : sumn p (fun j => nth j w 0 * sumn n (fun i => at2 X i j * nth i R 0)) == alpha * sumn p (fun j => Qabs (nth j w 0)) + beta * sumn p (fun j => nth j w 0 * nth j w 0)).
    { rewrite <- !sumn_scale, <- sumn_plus. apply sumn_ext. intros j Hj. destruct (stationary_kkt w R j HR HS Hj) as (_ & _ & G). unfold xta in G. lra. }
    rewrite K. ring.
  Qed.
End CD.
