(* Proofs about Ridge. *)
From Verif Require Import QCommon LinModel LinProofs RidgeModel.
Open Scope Q_scope.

Section R.
  Variables (nrm : list Q -> Q) (fit norm : bool) (X Y : mtx) (p q : nat) (W : mtx) (old : option (list Q)) (C : mtx) (b : list Q).
  Hypothesis HX : rect X p.
  Hypothesis HY : rect Y q.
  Hypothesis HL : length Y = length X.
  Hypothesis Hfo : fit = true \/ old = None.
  Let pr := preprocess nrm fit norm X Y.
  Hypothesis HW : length W = p.
  Hypothesis H : set_intercept fit pr W q old = Some (C, b).
  Variables (o : nat) (Ho : (o < q)%nat).
  Let n := length X.
  Let s := fun j => nth j (p_scale pr) 0.
  Let e := fun i => at2 (pY pr) i o - sumn p (fun k => at2 (pX pr) i k * at2 W k o).
  Variable k : Q.
  Hypothesis HN : forall j, (j < p)%nat -> sumn n (fun i => at2 (pX pr) i j * e i) == k * at2 W j o.

  Lemma rd_scale j : (j < p)%nat -> ~ s j == 0.
  Proof. unfold set_intercept in H. destruct (existsb _ _) eqn:E; [discriminate|]. rewrite HW in E. exact (existsb_zero _ _ E j). Qed.
  Lemma rd_resid i : (i < n)%nat -> at2 Y i o - decision C b (nth i X []) o == e i.
  Proof.
    intros Hi. assert (HX' : rect X (length W)) by now rewrite HW.
    rewrite (residuals_agree nrm fit norm X Y W old C b q HX' HY HL H Hfo i o Hi Ho). unfold e. fold pr. rewrite HW. reflexivity.
  Qed.
  Lemma rd_lenC : length C = p.
  Proof.
    unfold set_intercept in H. destruct (existsb _ _); [discriminate|]. destruct fit.
    - destruct (Nat.eqb _ _); [|discriminate]. injection H as <- _. rewrite tab2_length. exact HW.
    - injection H as <- _. rewrite tab2_length. exact HW.
  Qed.
  Lemma rd_coef j : (j < p)%nat -> at2 C j o == at2 W j o / s j.
  Proof.
    intros Hj. unfold set_intercept in H. destruct (existsb _ _); [discriminate|]. destruct fit.
    - destruct (Nat.eqb _ _); [|discriminate]. injection H as <- _. rewrite at2_tab2 by lia. reflexivity.
    - injection H as <- _. rewrite at2_tab2 by lia. reflexivity.
  Qed.
  Lemma rd_pred i : decision C b (nth i X []) o == sumn p (fun j => at2 X i j * at2 C j o) + nth o b 0.
  Proof. unfold decision. rewrite rd_lenC. reflexivity. Qed.

  Variables (w' : nat -> Q) (b' : Q).
  Hypothesis Hb : fit = false -> b' == 0.
  Let u := fun j => at2 W j o - s j * w' j.
  Let cc := nth o (p_yoff pr) 0 - sumn p (fun j => nth j (p_xoff pr) 0 * w' j) - b'.
  Let d := fun i => sumn p (fun j => at2 (pX pr) i j * u j) + cc.
  Lemma rd_decomp :
    ridge_obj k X Y s p o w' b' == ridge_obj k X Y s p o (fun j => at2 C j o) (nth o b 0) + sumn n (fun i => d i * d i) + k * sumn p (fun j => u j * u j).
  Proof.
    pose proof (rect_ncols _ _ HX) as EX. pose proof (rect_ncols _ _ HY) as EY.
    assert (Hd : forall i, (i < n)%nat -> at2 Y i o - (sumn p (fun j => at2 X i j * w' j) + b') == e i + d i).
    { intros i Hi. unfold e, d, cc.
      assert (E1 : at2 (pY pr) i o == at2 Y i o - nth o (p_yoff pr) 0) by (unfold pr; apply pY_at; lia).
      rewrite E1.
      assert (E2 : sumn p (fun j => at2 (pX pr) i j * u j) == sumn p (fun k => at2 (pX pr) i k * at2 W k o) - (sumn p (fun j => at2 X i j * w' j) - sumn p (fun j => nth j (p_xoff pr) 0 * w' j))).
      { rewrite <- !sumn_minus. apply sumn_ext. intros j Hj. unfold u.
        assert (E3 : at2 (pX pr) i j == (at2 X i j - nth j (p_xoff pr) 0) / s j).
        { unfold pr. apply pX_at; [exact Hi|lia|]. apply rd_scale. lia. }
        rewrite E3. field. now apply rd_scale. }
      rewrite E2. ring. }
    assert (Hc : sumn n e * cc == 0).
    { destruct (Bool.bool_dec fit true) as [F|F].
      - assert (Z : sumn n e == 0); [|rewrite Z; ring]. unfold e. rewrite sumn_minus.
        assert (Z1 : sumn n (fun i => at2 (pY pr) i o) == 0) by (unfold n; rewrite <- HL; unfold pr; rewrite F; apply centred_ysum; [destruct HY; lia|lia]).
        rewrite Z1, sumn_swap. rewrite (sumn_ext p _ (fun _ => 0)); [rewrite sumn_zero; ring|]. intros j Hj.
        rewrite (sumn_ext n _ (fun i => at2 W j o * at2 (pX pr) i j)) by (intros; ring). rewrite sumn_scale.
        assert (Z2 : sumn n (fun i => at2 (pX pr) i j) == 0); [|rewrite Z2; ring].
        pose proof (rd_scale j Hj) as S. unfold s, pr in S. unfold pr, n. rewrite F in *. apply centred_sum; [destruct HX; lia|lia|exact S].
      - apply Bool.not_true_is_false in F. assert (Z : cc == 0); [|rewrite Z; ring]. unfold cc. rewrite (Hb F).
        assert (A : nth o (p_yoff pr) 0 == 0) by (unfold pr; rewrite F; apply off_nofit; lia). rewrite A.
        rewrite (sumn_ext p _ (fun _ => 0)); [rewrite sumn_zero; ring|]. intros j Hj.
        assert (B : nth j (p_xoff pr) 0 == 0) by (unfold pr; rewrite F; apply off_nofit; lia). rewrite B. ring. }
    assert (Hed : sumn n (fun i => e i * d i) == k * sumn p (fun j => u j * at2 W j o)).
    { unfold d. rewrite (sumn_ext n _ (fun i => sumn p (fun j => u j * (at2 (pX pr) i j * e i)) + cc * e i)).
      2:{ intros i Hi. rewrite Qmult_plus_distr_r. rewrite <- sumn_scale. apply Qplus_comp; [|ring]. apply sumn_ext. intros; ring. }
      rewrite sumn_plus, (sumn_scale n cc e), sumn_swap. assert (Hc' : cc * sumn n e == 0) by (rewrite <- Hc; ring). rewrite Hc', Qplus_0_r. rewrite <- sumn_scale. apply sumn_ext.
      intros j Hj. rewrite sumn_scale, HN by lia. ring. }
    unfold ridge_obj. fold n.
    rewrite (sumn_ext n _ (fun i => (e i * e i + d i * d i) + 2 * (e i * d i))) by (intros i Hi; rewrite Hd by lia; ring).
    rewrite (sumn_ext n (fun i => (at2 Y i o - (sumn p (fun j => at2 X i j * at2 C j o) + nth o b 0)) * (at2 Y i o - (sumn p (fun j => at2 X i j * at2 C j o) + nth o b 0))) (fun i => e i * e i)).
    2:{ intros i Hi. rewrite <- rd_pred. now rewrite rd_resid. }
    rewrite (sumn_ext p (fun j => s j * w' j * (s j * w' j)) (fun j => (at2 W j o * at2 W j o + u j * u j) + (-2) * (u j * at2 W j o))) by (intros; unfold u; ring).
    rewrite (sumn_ext p (fun j => s j * at2 C j o * (s j * at2 C j o)) (fun j => at2 W j o * at2 W j o)).
    2:{ intros j Hj. rewrite rd_coef by lia. field. now apply rd_scale. }
    rewrite !sumn_plus, !sumn_scale, Hed. ring.
  Qed.
  Lemma rd_min : 0 <= k -> ridge_obj k X Y s p o (fun j => at2 C j o) (nth o b 0) <= ridge_obj k X Y s p o w' b'.
  Proof.
    intros Hk. rewrite rd_decomp. assert (0 <= sumn n (fun i => d i * d i)) by (apply sumn_nonneg; intros; nra).
    assert (0 <= sumn p (fun j => u j * u j)) by (apply sumn_nonneg; intros; nra). nra.
  Qed.
End R.

(* the gradient handed to the optimizer vanishes: the normal equations with
   penalty 1, whatever Alpha > 0 *)
Lemma grad_zero alpha X Y p o w j : (0 < length X)%nat -> ridge_grad alpha X Y p o w j == 0 ->
  sumn (length X) (fun i => at2 X i j * (at2 Y i o - sumn p (fun k => at2 X i k * w k))) == (if Qltb 0 alpha then 1 else 0) * w j.
Proof.
  intros HX G. unfold ridge_grad in G. pose proof (qn_pos _ HX) as HP.
  assert (G': sumn (length X) (fun i => at2 X i j * rdiff X Y p o w i) + (if Qltb 0 alpha then (1 - 0) * w j else 0) == 0).
  { set (z := _ + _) in *. assert (E: z == qn (length X) * (1 / qn (length X) * z)) by (field; lra). rewrite E, G. ring. }
  rewrite (sumn_ext _ _ (fun i => (-1) * (at2 X i j * rdiff X Y p o w i))) by (intros; unfold rdiff; ring). rewrite sumn_scale.
  destruct (Qltb 0 alpha); lra.
Qed.
Lemma ridge_shift k k' X Y s p o w b : ridge_obj k' X Y s p o w b == ridge_obj k X Y s p o w b + (k' - k) * sumn p (fun j => (s j * w j) * (s j * w j)).
Proof. unfold ridge_obj. ring. Qed.
Lemma sum_sq_pos p f j : (j < p)%nat -> ~ f j == 0 -> 0 < sumn p (fun j => f j * f j).
Proof.
  intros Hj Hf. rewrite (sumn_split _ _ j Hj). assert (0 < f j * f j) by (destruct (Qlt_le_dec 0 (f j)); [nra|]; assert (f j < 0) by (apply Qle_lteq in q as [q|q]; [exact q|tauto]); nra).
  assert (0 <= sumn p (fun i => if Nat.eqb i j then 0 else f i * f i)); [|lra]. apply sumn_nonneg. intros i _. destruct (Nat.eqb i j); nra.
Qed.
Section Better.
  Variables (nrm : list Q -> Q) (fit norm : bool) (X Y : mtx) (p q : nat) (W : mtx) (old : option (list Q)) (C : mtx) (b : list Q).
  Hypothesis HX : rect X p.
  Hypothesis HY : rect Y q.
  Hypothesis HL : length Y = length X.
  Hypothesis Hfo : fit = true \/ old = None.
  Let pr := preprocess nrm fit norm X Y.
  Hypothesis HW : length W = p.
  Hypothesis H : set_intercept fit pr W q old = Some (C, b).
  Variables (o : nat) (Ho : (o < q)%nat).
  Let s := fun j => nth j (p_scale pr) 0.
  Hypothesis HN : forall j, (j < p)%nat -> sumn (length X) (fun i => at2 (pX pr) i j * (at2 (pY pr) i o - sumn p (fun k => at2 (pX pr) i k * at2 W k o))) == 1 * at2 W j o.
  Variable alpha : Q.
  Hypothesis Ha : 0 < alpha.
  Hypothesis Ha1 : ~ alpha == 1.
  Hypothesis HC : exists j, (j < p)%nat /\ ~ at2 C j o == 0.
  Lemma rd_better : exists w' b', (fit = false -> b' == 0) /\ ridge_obj alpha X Y s p o w' b' < ridge_obj alpha X Y s p o (fun j => at2 C j o) (nth o b 0).
  Proof.
    set (S := sumn p (fun j => at2 W j o * at2 W j o)).
    set (D := sumn (length X) (fun i => sumn p (fun j => at2 (pX pr) i j * at2 W j o) * sumn p (fun j => at2 (pX pr) i j * at2 W j o))).
    assert (HS : 0 < S).
    { destruct HC as (j & Hj & N). apply (sum_sq_pos p (fun j => at2 W j o) j Hj). intros E. apply N.
      rewrite (rd_coef nrm fit norm X Y p q W old C b HL Hfo HW H o Ho 1 HN j Hj). rewrite E. unfold Qdiv. ring. }
    assert (HD : 0 <= D) by (apply sumn_nonneg; intros; nra).
    assert (HP : 0 < D + alpha * S) by nra.
    set (t := (alpha - 1) * S / (D + alpha * S)).
    set (w' := fun j => (1 - t) * at2 C j o).
    set (b' := nth o (p_yoff pr) 0 - sumn p (fun j => nth j (p_xoff pr) 0 * w' j)).
    exists w', b'.
    assert (Hb : fit = false -> b' == 0).
    { intros F. unfold b'. pose proof (rect_ncols _ _ HX) as EX. pose proof (rect_ncols _ _ HY) as EY.
      assert (A : nth o (p_yoff pr) 0 == 0) by (unfold pr; rewrite F; apply off_nofit; lia). rewrite A.
      rewrite (sumn_ext p _ (fun _ => 0)); [rewrite sumn_zero; ring|]. intros j Hj.
      assert (B : nth j (p_xoff pr) 0 == 0) by (unfold pr; rewrite F; apply off_nofit; lia). rewrite B. ring. }
    split; [exact Hb|].
    assert (SC : forall j, (j < p)%nat -> s j * at2 C j o == at2 W j o).
    { intros j Hj. rewrite (rd_coef nrm fit norm X Y p q W old C b HL Hfo HW H o Ho 1 HN j Hj). unfold s. fold pr. field.
      exact (rd_scale nrm fit norm X Y p q W old C b HW H j Hj). }
    rewrite (ridge_shift 1 alpha X Y s p o w'), (ridge_shift 1 alpha X Y s p o (fun j => at2 C j o)).
    pose proof (rd_decomp nrm fit norm X Y p q W old C b HX HY HL Hfo HW H o Ho 1 HN w' b' Hb) as E. fold pr in E. change (fun j => nth j (p_scale pr) 0) with s in E.
    rewrite E. clear E.
    assert (SW : forall j, (j < p)%nat -> s j * w' j == (1 - t) * at2 W j o) by (intros j Hj; rewrite <- SC by lia; unfold w'; ring).
    rewrite (sumn_ext p (fun j => s j * w' j * (s j * w' j)) (fun j => ((1 - t) * (1 - t)) * (at2 W j o * at2 W j o))) by (intros j Hj; rewrite SW by lia; ring).
    rewrite (sumn_ext p (fun j => s j * at2 C j o * (s j * at2 C j o)) (fun j => at2 W j o * at2 W j o)) by (intros j Hj; rewrite SC by lia; ring).
    rewrite (sumn_ext p (fun j => (at2 W j o - s j * w' j) * (at2 W j o - s j * w' j)) (fun j => (t * t) * (at2 W j o * at2 W j o))).
    2:{ intros j Hj. rewrite (SW j Hj). ring. }
    rewrite (sumn_ext (length X) _ (fun i => (t * t) * (sumn p (fun j => at2 (pX pr) i j * at2 W j o) * sumn p (fun j => at2 (pX pr) i j * at2 W j o)))).
    2:{ intros i Hi. assert (E1 : sumn p (fun j => at2 (pX pr) i j * (at2 W j o - s j * w' j)) == t * sumn p (fun j => at2 (pX pr) i j * at2 W j o)).
        { rewrite <- sumn_scale. apply sumn_ext. intros j Hj. rewrite (SW j Hj). ring. }
        rewrite E1. unfold b'. ring. }
    rewrite !sumn_scale. fold S D.
    assert (K : t * (D + alpha * S) == (alpha - 1) * S) by (unfold t; field; lra).
    assert (T : t * t * D + t * t * S + (alpha - 1) * ((1 - t) * (1 - t) * S) - (alpha - 1) * S == - (t * ((alpha - 1) * S))).
    { transitivity (t * (t * (D + alpha * S)) - 2 * (t * ((alpha - 1) * S))); [ring|]. rewrite K. ring. }
    assert (T2 : 0 < t * ((alpha - 1) * S)).
    { rewrite <- K. assert (~ t == 0). { intros E. rewrite E in K. assert ((alpha - 1) * S == 0) by lra. apply Qmult_integral in H0 as [H0|H0]; [apply Ha1; lra|lra]. }
      assert (0 < t * t) by (destruct (Qlt_le_dec 0 t) as [L|L]; [nra|apply Qle_lteq in L as [L|L]; [nra|tauto]]). nra. }
    lra.
  Qed.
End Better.

(* ------------------------------------------------- the value and its gradient *)
Lemma sumn_bump p (f : nat -> Q) j t (w : nat -> Q) : (j < p)%nat ->
  sumn p (fun k => f k * (if Nat.eqb k j then w k + t else w k)) == sumn p (fun k => f k * w k) + f j * t.
Proof.
  intros Hj. rewrite (sumn_split p _ j Hj). rewrite (sumn_split p (fun k => f k * w k) j Hj). rewrite Nat.eqb_refl.
  assert (E : sumn p (fun i => if Nat.eqb i j then 0 else f i * (if Nat.eqb i j then w i + t else w i)) == sumn p (fun i => if Nat.eqb i j then 0 else f i * w i)).
  { apply sumn_ext. intros i _. destruct (Nat.eqb i j); reflexivity. }
  rewrite E. ring.
Qed.
Lemma ridge_value alpha X Y p o w : 0 <= alpha -> X <> [] ->
  2 * qn (length X) * ridge_J alpha X Y p o w == ridge_obj alpha X Y (fun _ => 1) p o w 0.
Proof.
  intros Ha HX. assert (N : 0 < qn (length X)) by (apply qn_pos; destruct X; [contradiction|cbn [length]; lia]).
  unfold ridge_J, ridge_obj, rdiff.
  assert (A : sumn (length X) (fun i => (sumn p (fun k => at2 X i k * w k) - at2 Y i o) * (sumn p (fun k => at2 X i k * w k) - at2 Y i o)) ==
    sumn (length X) (fun i => (at2 Y i o - (sumn p (fun j => at2 X i j * w j) + 0)) * (at2 Y i o - (sumn p (fun j => at2 X i j * w j) + 0)))).
  { apply sumn_ext. intros i _. ring. }
  assert (B : sumn p (fun j => (1 - 0) * w j * w j) == sumn p (fun j => 1 * w j * (1 * w j))) by (apply sumn_ext; intros i _; ring).
  rewrite A. destruct (Qltb_spec 0 alpha).
  - rewrite B. field. lra.
  - assert (E : alpha == 0) by lra. rewrite E. field. lra.
Qed.
Lemma ridge_slope alpha X Y p o w j : X <> [] -> (j < p)%nat ->
  exists h, forall t, ridge_J alpha X Y p o (fun k => if Nat.eqb k j then w k + t else w k) ==
    ridge_J alpha X Y p o w + t * (ridge_grad alpha X Y p o w j + (if Qltb 0 alpha then (alpha - 1) * w j / qn (length X) else 0)) + t * t * h.
Proof.
  intros HX Hj. assert (N : 0 < qn (length X)) by (apply qn_pos; destruct X; [contradiction|cbn [length]; lia]).
  set (S2 := sumn (length X) (fun i => at2 X i j * at2 X i j)).
  exists ((S2 + (if Qltb 0 alpha then alpha else 0)) / (2 * qn (length X))). intros t.
  set (w' := fun k => if Nat.eqb k j then w k + t else w k).
  assert (R : forall i, rdiff X Y p o w' i == rdiff X Y p o w i + t * at2 X i j).
  { intros i. unfold rdiff, w'. rewrite (sumn_bump p (fun k => at2 X i k) j t w Hj). ring. }
  assert (A : sumn (length X) (fun i => rdiff X Y p o w' i * rdiff X Y p o w' i) ==
    sumn (length X) (fun i => rdiff X Y p o w i * rdiff X Y p o w i) + (2 * t * sumn (length X) (fun i => at2 X i j * rdiff X Y p o w i) + t * t * S2)).
  { unfold S2. rewrite <- !sumn_scale, <- !sumn_plus. apply sumn_ext. intros i _. rewrite R. ring. }
  assert (B : sumn p (fun k => (1 - 0) * w' k * w' k) == sumn p (fun k => (1 - 0) * w k * w k) + (2 * t * w j + t * t)).
  { rewrite (sumn_split p _ j Hj). rewrite (sumn_split p (fun k => (1 - 0) * w k * w k) j Hj).
    assert (E : sumn p (fun i => if Nat.eqb i j then 0 else (1 - 0) * w' i * w' i) == sumn p (fun i => if Nat.eqb i j then 0 else (1 - 0) * w i * w i)).
    { apply sumn_ext. intros i _. unfold w'. destruct (Nat.eqb i j); reflexivity. }
    rewrite E. unfold w'. rewrite Nat.eqb_refl. ring. }
  unfold ridge_J, ridge_grad. rewrite A. destruct (Qltb 0 alpha); [rewrite B|]; field; lra.
Qed.
