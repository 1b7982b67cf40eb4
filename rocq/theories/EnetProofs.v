(* ElasticNet.Fit as a whole: LinModel.v on top of LinProofs.v and CdProofs.v *)
From Verif Require Import QCommon LinModel LinProofs CdProofs.

(* the objective on the caller's data, intercept b included *)
Definition raw_obj (l1 l2 : Q) (X : mtx) (y : nat -> Q) (p : nat) (w : nat -> Q) (b : Q) : Q :=
  (1 # 2) * sumn (length X) (fun i => (y i - (sumn p (fun j => at2 X i j * w j) + b)) * (y i - (sumn p (fun j => at2 X i j * w j) + b))) +
  l1 * sumn p (fun j => Qabs (w j)) + (1 # 2) * l2 * sumn p (fun j => w j * w j).

Lemma enet_cd_spec alpha beta positive X y order tol maxIter w0 w gap eps it :
  0 <= alpha -> 0 <= beta -> (forall k j, In j (order k) -> (j < ncols X)%nat) -> length w0 = ncols X ->
  (positive = true -> nonneg (ncols X) w0) ->
  enet_cd alpha beta positive X y order tol maxIter w0 = (w, gap, eps, it) ->
  length w = ncols X /\ (positive = true -> nonneg (ncols X) w) /\
  enet_obj alpha beta X y (ncols X) w <= enet_obj alpha beta X y (ncols X) w0 /\
  (it <= S maxIter)%nat /\
  (maxIter <> O -> forall v, (positive = true -> nonneg (ncols X) v) -> enet_obj alpha beta X y (ncols X) w - gap <= enet_obj alpha beta X y (ncols X) v) /\
  ((it <= maxIter)%nat -> gap < eps) /\ eps = tol * sumn (length X) (fun i => nth i y 0 * nth i y 0).
Proof.
  intros Ha Hb HO HL Hp. unfold enet_cd. cbv zeta.
  pose proof (loop_spec alpha beta positive X y (ncols X) Ha Hb order tol (tol * sumn (length X) (fun i => nth i y 0 * nth i y 0)) HO maxIter 0 w0 (resid0 X y (ncols X) w0) (tol + 1) HL (res_ok0 X y (ncols X) w0) Hp) as H.
  destruct (cd_loop _ _ _ _ _ _ _ _ _ _ _ _ _ _) as [[w' g'] it']. destruct H as (A & B & C & D & E & F).
  intros Eq. injection Eq as <- <- <- <-. rewrite !Nat.add_0_r in *. split; [exact A|]. split; [exact B|]. split; [exact C|]. split; [exact D|]. split; [exact E|]. split; [exact F|reflexivity].
Qed.

Section Fit.
  Variables (nrm : list Q -> Q) (order : nat -> list nat) (e : enet_par) (X Y : mtx) (p : nat).
  Hypotheses (HX : rect X p) (HY : rect Y 1) (HL : length Y = length X).
  Hypothesis HO : forall k j, In j (order k) -> (j < p)%nat.
  Hypotheses (Ha : 0 <= e_alpha e) (Hl : 0 <= e_l1 e <= 1).
  Let pr := preprocess nrm (e_fit e) (e_norm e) X Y.
  Let l1 := e_alpha e * e_l1 e * qn (length X).
  Let l2 := e_alpha e * (1 - e_l1 e) * qn (length X).

  Lemma l1_nonneg : 0 <= l1.
  Proof using Ha Hl. unfold l1. pose proof (qn_nonneg (length X)). apply Qmult_le_0_compat; [nra|exact H]. Qed.
  Lemma l2_nonneg : 0 <= l2.
  Proof using Ha Hl. unfold l2. pose proof (qn_nonneg (length X)). apply Qmult_le_0_compat; [apply Qmult_le_0_compat; lra|exact H]. Qed.
  Lemma ncols_pX : ncols (pX pr) = p.
  Proof using HX HL.
    pose proof (rect_ncols _ _ HX) as EX. destruct HX as (H0 & _).
    unfold pr, preprocess. rewrite EX. destruct (e_fit e), (e_norm e); cbn [negb andb pX]; cbv zeta; rewrite ?ncols_tab2 by lia; auto.
  Qed.

  (* the parts of a fit *)
  Lemma enet_fit_inv coef old C b gap eps it :
    enet_fit nrm order e X Y coef old = Some (C, b, gap, eps, it) ->
    exists w0 w, (if e_warm e then coef = Some w0 else w0 = tab p (fun _ => 0)) /\
      enet_cd l1 l2 (e_pos e) (pX pr) (tab (length X) (fun i => at2 (pY pr) i 0)) order (e_tol e) (e_iter e) w0 = (w, gap, eps, it) /\
      set_intercept (e_fit e) pr (map (fun v => [v]) w) 1 old = Some (C, b).
  Proof using HX HL.
    unfold enet_fit. cbv zeta. fold pr l1 l2. rewrite (rect_ncols _ _ HX).
    destruct (if e_warm e then coef else Some (tab p (fun _ => 0))) as [w0|] eqn:E0; [|discriminate].
    destruct (enet_cd _ _ _ _ _ _ _ _ _) as [[[w g] ep] i'] eqn:E1.
    destruct (set_intercept _ _ _ _ _) as [[C' b']|] eqn:E2; [|discriminate]. intros E. injection E as <- <- <- <- <-.
    exists w0, w. split; [|split; [exact E1|exact E2]]. destruct (e_warm e); [exact E0|congruence].
  Qed.
  Lemma coef_at w old C b j : set_intercept (e_fit e) pr (map (fun v => [v]) w) 1 old = Some (C, b) -> (j < length w)%nat ->
    ~ nth j (p_scale pr) 0 == 0 /\ at2 C j 0 == nth j w 0 / nth j (p_scale pr) 0.
  Proof using HL.
    unfold set_intercept. rewrite map_length. destruct (existsb _ _) eqn:E; [discriminate|]. intros H Hj.
    split; [exact (existsb_zero _ _ E j Hj)|].
    assert (EC : C = tab2 (length w) 1 (fun j o => at2 (map (fun v => [v]) w) j o / nth j (p_scale pr) 0)).
    { destruct (e_fit e); [destruct (Nat.eqb _ 1)|]; congruence. }
    rewrite EC, at2_tab2 by lia. unfold at2. rewrite (nth_indep _ [] [0]) by (rewrite map_length; lia). rewrite (map_nth (fun v => [v])). reflexivity.
  Qed.

  (* C44, one output *)
  Lemma fit_positive old C b gap eps it : e_pos e = true -> e_warm e = false -> (forall l, 0 <= nrm l) ->
    enet_fit nrm order e X Y None old = Some (C, b, gap, eps, it) -> forall j, (j < p)%nat -> 0 <= at2 C j 0.
  Proof using HX HL HO Ha Hl.
    intros Hp Hw Hn H j Hj. destruct (enet_fit_inv _ _ _ _ _ _ _ H) as (w0 & w & H0 & H1 & H2). rewrite Hw in H0. subst w0.
    assert (HZ : nonneg p (tab p (fun _ => 0))) by (intros k Hk; rewrite (nth_tab _ Hk); lra).
    destruct (enet_cd_spec _ _ _ _ _ _ _ _ _ _ _ _ _ l1_nonneg l2_nonneg ltac:(rewrite ncols_pX; exact HO) ltac:(rewrite ncols_pX; apply tab_length) ltac:(rewrite ncols_pX; exact (fun _ => HZ)) H1) as (A & B & _).
    rewrite ncols_pX in *. destruct (coef_at w old C b j H2 ltac:(lia)) as [Hs Ec]. rewrite Ec.
    assert (0 <= nth j (p_scale pr) 0).
    { assert (EX := rect_ncols _ _ HX). destruct (e_fit e && e_norm e)%bool eqn:F.
      - apply andb_true_iff in F. destruct F as [F1 F2]. unfold pr. rewrite F1, F2. rewrite scale_norm by lia. apply Hn.
      - unfold pr. rewrite scale_simple by (auto; lia). lra. }
    assert (0 < nth j (p_scale pr) 0) by (apply Qnot_le_lt; intros F; apply Hs; lra).
    apply Qle_shift_div_l; [exact H3|]. rewrite Qmult_0_l. now apply B.
  Qed.

  (* without Normalize the gap bounds the distance to the optimum on the caller's data *)
  Lemma fit_optimal coef old C b gap eps it : e_norm e = false -> (e_fit e = true \/ old = None) -> e_iter e <> O ->
    (e_warm e = true -> match coef with Some w0 => length w0 = p /\ (e_pos e = true -> nonneg p w0) | None => True end) ->
    enet_fit nrm order e X Y coef old = Some (C, b, gap, eps, it) ->
    forall v b', (e_fit e = false -> b' == 0) -> (e_pos e = true -> forall j, (j < p)%nat -> 0 <= v j) ->
    raw_obj l1 l2 X (fun i => at2 Y i 0) p (fun j => at2 C j 0) (nth 0 b 0) - gap <= raw_obj l1 l2 X (fun i => at2 Y i 0) p v b'.
  Proof using HX HY HL HO Ha Hl.
    intros Hno Hfo Hit Hwarm H v b' Hb Hv. destruct (enet_fit_inv _ _ _ _ _ _ _ H) as (w0 & w & H0 & H1 & H2).
    assert (EX := rect_ncols _ _ HX). assert (EY := rect_ncols _ _ HY).
    assert (W0 : length w0 = p /\ (e_pos e = true -> nonneg p w0)).
    { destruct (e_warm e); [subst coef; now apply Hwarm|]. subst w0. split; [apply tab_length|]. intros _ k Hk. rewrite (nth_tab _ Hk). lra. }
    destruct W0 as [W0 W1].
    destruct (enet_cd_spec _ _ _ _ _ _ _ _ _ _ _ _ _ l1_nonneg l2_nonneg ltac:(rewrite ncols_pX; exact HO) ltac:(rewrite ncols_pX; exact W0) ltac:(rewrite ncols_pX; exact W1) H1) as (A & _ & _ & _ & G & _).
    rewrite ncols_pX in *. specialize (G Hit).
    assert (Hs : forall j, (j < p)%nat -> nth j (p_scale pr) 0 == 1).
    { intros j Hj. unfold pr. apply scale_simple; [rewrite Hno; apply andb_false_r|lia]. }
    assert (HC : forall j, (j < p)%nat -> at2 C j 0 == nth j w 0).
    { intros j Hj. destruct (coef_at w old C b j H2 ltac:(lia)) as [_ ->]. rewrite Hs by lia. field. }
    set (vl := tab p v). assert (Hvl : forall j, (j < p)%nat -> nth j vl 0 = v j) by (intros j Hj; unfold vl; now rewrite (nth_tab _ Hj)).
    specialize (G vl ltac:(intros P k Hk; rewrite Hvl by lia; now apply Hv)).
    assert (EpX : length (pX pr) = length X) by (unfold pr; apply pX_length).
    set (n := length X) in *.
    (* at the result *)
    assert (E1 : raw_obj l1 l2 X (fun i => at2 Y i 0) p (fun j => at2 C j 0) (nth 0 b 0) == enet_obj l1 l2 (pX pr) (tab n (fun i => at2 (pY pr) i 0)) p w).
    { unfold raw_obj, enet_obj. rewrite EpX. fold n.
      rewrite (sumn_ext p (fun j => Qabs (at2 C j 0)) (fun j => Qabs (nth j w 0))) by (intros j Hj; now rewrite HC).
      rewrite (sumn_ext p (fun j => at2 C j 0 * at2 C j 0) (fun j => nth j w 0 * nth j w 0)) by (intros j Hj; now rewrite HC).
      apply Qplus_inj_r, Qplus_inj_r. apply Qmult_comp; [reflexivity|]. apply sumn_ext. intros i Hi.
      assert (HX' : rect X (length (map (fun v0 : Q => [v0]) w))) by (rewrite map_length, A; exact HX).
      pose proof (residuals_agree nrm (e_fit e) (e_norm e) X Y _ old C b 1 HX' HY HL H2 Hfo i 0%nat Hi ltac:(lia)) as R.
      fold pr in R. rewrite map_length, A in R. unfold decision in R.
      assert (LC : length C = p).
      { unfold set_intercept in H2. destruct (existsb _ _); [discriminate|]. rewrite map_length, A in H2.
        assert (C = tab2 p 1 (fun j o => at2 (map (fun v => [v]) w) j o / nth j (p_scale pr) 0)) as -> by (destruct (e_fit e); [destruct (Nat.eqb _ 1)|]; congruence).
        apply tab2_length. }
      rewrite LC in R.
      rewrite (nth_tab _ Hi).
      assert (R' : sumn p (fun j => at2 (pX pr) i j * at2 (map (fun v0 => [v0]) w) j 0) == sumn p (fun j => at2 (pX pr) i j * nth j w 0)).
      { apply sumn_ext. intros j Hj. unfold at2 at 2. rewrite (nth_indep _ [] [0]) by (rewrite map_length; lia). rewrite (map_nth (fun v0 => [v0])). reflexivity. }
      rewrite R' in R. rewrite <- R. unfold at2. reflexivity. }
    (* anywhere else *)
    assert (E2 : enet_obj l1 l2 (pX pr) (tab n (fun i => at2 (pY pr) i 0)) p vl <= raw_obj l1 l2 X (fun i => at2 Y i 0) p v b').
    { unfold raw_obj, enet_obj. rewrite EpX. fold n.
      rewrite (sumn_ext p (fun j => Qabs (nth j vl 0)) (fun j => Qabs (v j))) by (intros j Hj; now rewrite Hvl).
      rewrite (sumn_ext p (fun j => nth j vl 0 * nth j vl 0) (fun j => v j * v j)) by (intros j Hj; now rewrite Hvl).
      apply Qplus_le_l, Qplus_le_l.
      set (c := nth 0 (p_yoff pr) 0 - sumn p (fun j => nth j (p_xoff pr) 0 * v j) - b').
      set (ee := fun i => at2 (pY pr) i 0 - sumn p (fun j => at2 (pX pr) i j * v j)).
      rewrite (sumn_ext n (fun i => (nth i (tab n (fun i => at2 (pY pr) i 0)) 0 - sumn p (fun j => at2 (pX pr) i j * nth j vl 0)) * (nth i (tab n (fun i => at2 (pY pr) i 0)) 0 - sumn p (fun j => at2 (pX pr) i j * nth j vl 0))) (fun i => ee i * ee i)).
      2:{ intros i Hi. rewrite (nth_tab _ Hi). unfold ee. rewrite (sumn_ext p (fun j => at2 (pX pr) i j * nth j vl 0) (fun j => at2 (pX pr) i j * v j)) by (intros j Hj; now rewrite Hvl). reflexivity. }
      rewrite (sumn_ext n (fun i => (at2 Y i 0 - (sumn p (fun j => at2 X i j * v j) + b')) * (at2 Y i 0 - (sumn p (fun j => at2 X i j * v j) + b'))) (fun i => ee i * ee i + ((2 * c) * ee i + c * c))).
      2:{ intros i Hi. assert (E : at2 Y i 0 - (sumn p (fun j => at2 X i j * v j) + b') == ee i + c); [|rewrite E; ring].
          unfold ee, c. assert (P1 : at2 (pY pr) i 0 == at2 Y i 0 - nth 0 (p_yoff pr) 0) by (unfold pr; apply pY_at; lia).
          rewrite P1. assert (P2 : sumn p (fun j => at2 (pX pr) i j * v j) == sumn p (fun j => at2 X i j * v j) - sumn p (fun j => nth j (p_xoff pr) 0 * v j)).
          { rewrite <- sumn_minus. apply sumn_ext. intros j Hj.
            assert (P3 : at2 (pX pr) i j == (at2 X i j - nth j (p_xoff pr) 0) / nth j (p_scale pr) 0).
            { unfold pr. apply pX_at; [exact Hi|lia|]. fold pr. rewrite Hs by lia. lra. }
            rewrite P3, Hs by lia. field. }
          rewrite P2. ring. }
      rewrite !sumn_plus, sumn_scale, sumn_const.
      assert (Z : 2 * c * sumn n ee == 0).
      { destruct (e_fit e) eqn:F.
        - assert (Z : sumn n ee == 0); [|rewrite Z; ring]. unfold ee. rewrite sumn_minus.
          assert (Z1 : sumn n (fun i => at2 (pY pr) i 0) == 0) by (rewrite <- HL; unfold pr; rewrite ?F; apply centred_ysum; [destruct HY; lia|lia]).
          rewrite Z1, sumn_swap. rewrite (sumn_ext p _ (fun _ => 0)); [rewrite sumn_zero; ring|]. intros j Hj.
          rewrite (sumn_ext n _ (fun i => v j * at2 (pX pr) i j)) by (intros; ring). rewrite sumn_scale.
          assert (Z2 : sumn n (fun i => at2 (pX pr) i j) == 0).
          { unfold pr, n. rewrite ?F. apply centred_sum; [destruct HX; lia|lia|]. pose proof (Hs j Hj) as K. unfold pr in K. rewrite ?F in K. rewrite K. lra. }
          rewrite Z2. ring.
        - assert (Z : c == 0); [|rewrite Z; ring]. unfold c. rewrite (Hb eq_refl).
          destruct (off_nofit nrm (e_norm e) X Y) as [P Q]. unfold pr. rewrite ?F. rewrite P by lia.
          rewrite (sumn_ext p _ (fun _ => 0)); [rewrite sumn_zero; ring|]. intros j Hj. rewrite Q by lia. ring. }
      rewrite Z. pose proof (qn_nonneg n). assert (0 <= qn n * (c * c)) by (apply Qmult_le_0_compat; [exact H3|]; generalize c; intros z; nra). lra. }
    rewrite E1. lra.
  Qed.
End Fit.

(* with a penalty above every correlation, descent from zero stays at zero *)
Lemma zero_fixed alpha beta positive X y p order : 0 <= beta -> (forall j, In j order -> (j < p)%nat) ->
  (forall j, (j < p)%nat -> Qabs (sumn (length X) (fun i => at2 X i j * nth i y 0)) <= alpha) ->
  forall st, st_ok X y p st -> (forall j, (j < p)%nat -> nth j (c_w st) 0 == 0) ->
  forall j, (j < p)%nat -> nth j (c_w (fold_left (cd_update alpha beta positive X) order st)) 0 == 0.
Proof.
  intros Hb. induction order as [|k order IH]; intros HO Hc st Hst Hz; cbn [fold_left]; [exact Hz|].
  assert (Hk : (k < p)%nat) by (apply HO; cbn; auto).
  destruct (update_spec alpha beta positive X y p st k Hk Hst) as (A & B & C).
  apply IH; [intros; apply HO; cbn; auto|exact Hc|exact A|]. intros j Hj.
  destruct (Qeqb_spec (ncx X k) 0) as [E|E]; [rewrite B by exact E; now apply Hz|].
  destruct (C E) as (v & -> & Ev). destruct Hst as [HL HR]. rewrite nth_updq by lia. destruct (Nat.eqb j k); [|now apply Hz].
  rewrite Ev. cbv zeta. set (t := sumn (length X) _).
  assert (Et : t == sumn (length X) (fun i => at2 X i k * nth i y 0)).
  { unfold t. apply sumn_ext. intros i Hi. rewrite (Hz k Hk). assert (P : pred X p (c_w st) i == 0); [|rewrite P; ring].
    unfold pred. rewrite (sumn_ext p _ (fun _ => 0)); [apply sumn_zero|]. intros q Hq. rewrite (Hz q Hq). ring. }
  assert (Ht : Qabs t <= alpha) by (rewrite Et; now apply Hc).
  destruct (positive && Qltb t 0)%bool; [reflexivity|]. unfold qmax. destruct (Qleb_spec (Qabs t - alpha) 0) as [L|L]; [|exfalso; lra].
  unfold Qdiv. ring.
Qed.
Lemma zero_loop alpha beta positive X y p order dwtol tol : 0 <= alpha -> 0 <= beta -> (forall k j, In j (order k) -> (j < p)%nat) ->
  (forall j, (j < p)%nat -> Qabs (sumn (length X) (fun i => at2 X i j * nth i y 0)) <= alpha) ->
  forall left k w R gap, length w = p -> res_ok X y p w R -> (forall j, (j < p)%nat -> nth j w 0 == 0) ->
  let '(w', _, _) := cd_loop alpha beta positive X y p order dwtol tol left k w R gap in forall j, (j < p)%nat -> nth j w' 0 == 0.
Proof.
  intros Ha Hb HO Hc. induction left as [|left IH]; intros k w R gap HL HR Hz; cbn [cd_loop]; [exact Hz|].
  assert (Hp : positive = true -> nonneg p w) by (intros _ j Hj; rewrite (Hz j Hj); lra).
  destruct (pass_spec alpha beta positive X y p Ha Hb (order k) w R (HO k) HL HR Hp) as ((A1 & A2) & B & C). cbv zeta.
  set (st := cd_pass _ _ _ _ _ _ _) in *.
  assert (Z : forall j, (j < p)%nat -> nth j (c_w st) 0 == 0).
  { unfold st, cd_pass. apply (zero_fixed alpha beta positive X y p (order k) Hb (HO k) Hc); [split; auto|exact Hz]. }
  destruct (_ || _ || _)%bool; [destruct (Qltb _ tol)|]; auto; apply IH; auto.
Qed.
