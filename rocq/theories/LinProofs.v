(* Proofs about LinModel.v *)
From Verif Require Import QCommon LinModel KMeansProofs.

(* ------------------------------------------------------------------- sums *)
Lemma sumn_ext n f g : (forall i, (i < n)%nat -> f i == g i) -> sumn n f == sumn n g.
Proof. intros H. apply qsum_map_ext. intros i Hi. apply in_seq in Hi. apply H. lia. Qed.
Lemma sumn_plus n f g : sumn n (fun i => f i + g i) == sumn n f + sumn n g.
Proof. apply qsum_map_plus. Qed.
Lemma sumn_scale n c f : sumn n (fun i => c * f i) == c * sumn n f.
Proof. apply qsum_map_scale. Qed.
Lemma sumn_zero n : sumn n (fun _ => 0) == 0.
Proof. unfold sumn. rewrite qsum_const. ring. Qed.
Lemma sumn_const n c : sumn n (fun _ => c) == qn n * c.
Proof. unfold sumn. rewrite qsum_const. now rewrite seq_length. Qed.
Lemma sumn_swap n m f : sumn n (fun i => sumn m (f i)) == sumn m (fun j => sumn n (fun i => f i j)).
Proof. apply qsum_swap. Qed.
Lemma sumn_le n f g : (forall i, (i < n)%nat -> f i <= g i) -> sumn n f <= sumn n g.
Proof. intros H. apply qsum_le. intros i Hi. apply in_seq in Hi. apply H. lia. Qed.
Lemma sumn_nonneg n f : (forall i, (i < n)%nat -> 0 <= f i) -> 0 <= sumn n f.
Proof. intros H. apply qsum_nonneg. intros x Hx. apply in_map_iff in Hx. destruct Hx as (i & <- & Hi). apply in_seq in Hi. apply H. lia. Qed.
Lemma sumn_minus n f g : sumn n (fun i => f i - g i) == sumn n f - sumn n g.
Proof.
  rewrite (sumn_ext n _ (fun i => f i + (-1) * g i)) by (intros; ring).
  rewrite sumn_plus, sumn_scale. ring.
Qed.
(* one term apart *)
Lemma sumn_split n f j : (j < n)%nat -> sumn n f == f j + sumn n (fun i => if Nat.eqb i j then 0 else f i).
Proof.
  intros Hj. rewrite (sumn_ext n f (fun i => (if Nat.eqb i j then f i else 0) + (if Nat.eqb i j then 0 else f i))).
  2:{ intros i Hi. destruct (Nat.eqb i j); ring. }
  rewrite sumn_plus. apply Qplus_inj_r. clear -Hj. unfold sumn.
  assert (G : forall s n, (j < s)%nat -> qsum (map (fun i => if Nat.eqb i j then f i else 0) (seq s n)) == 0).
  { intros s m Hs. rewrite (qsum_map_ext _ (fun _ => 0)); [rewrite qsum_const; ring|]. intros i Hi. apply in_seq in Hi.
    destruct (Nat.eqb_spec i j); [lia|reflexivity]. }
  assert (K : forall s n, (s <= j < s + n)%nat -> qsum (map (fun i => if Nat.eqb i j then f i else 0) (seq s n)) == f j).
  { intros s m. revert s. induction m as [|m IH]; intros s Hs; [lia|]. cbn [seq map]. rewrite qsum_cons.
    destruct (Nat.eqb_spec s j) as [->|Hn].
    - rewrite G by lia. ring.
    - rewrite IH by lia. ring. }
  apply K. lia.
Qed.

Lemma nth_tab n f i d : (i < n)%nat -> nth i (tab n f) d = f i.
Proof.
  intros H. unfold tab. rewrite (nth_indep _ d (f O)) by (rewrite map_length, seq_length; lia).
  rewrite map_nth. now rewrite seq_nth by lia.
Qed.
Arguments nth_tab [n] f [i d] _.
Lemma tab_length n f : length (tab n f) = n.
Proof. unfold tab. now rewrite map_length, seq_length. Qed.
Lemma tab2_length r c f : length (tab2 r c f) = r.
Proof. unfold tab2. now rewrite map_length, seq_length. Qed.
Lemma nth_tab2 r c f i : (i < r)%nat -> nth i (tab2 r c f) [] = tab c (f i).
Proof.
  intros H. unfold tab2. rewrite (nth_indep _ [] (tab c (f O))) by (rewrite map_length, seq_length; lia).
  rewrite (map_nth (fun i => tab c (f i))). now rewrite seq_nth by lia.
Qed.
Lemma at2_tab2 r c f i j : (i < r)%nat -> (j < c)%nat -> at2 (tab2 r c f) i j = f i j.
Proof. intros Hi Hj. unfold at2. rewrite nth_tab2 by lia. now apply nth_tab. Qed.
Arguments at2_tab2 [r c] f [i j] _ _.
Lemma ncols_tab2 r c f : (0 < r)%nat -> ncols (tab2 r c f) = c.
Proof. intros H. unfold ncols. rewrite nth_tab2 by lia. apply tab_length. Qed.

(* ------------------------------------------------------------ preprocessing *)
Definition rect (X : mtx) (p : nat) : Prop := (0 < length X)%nat /\ (0 < p)%nat /\ forall r, In r X -> length r = p.
Lemma rect_ncols X p : rect X p -> ncols X = p.
Proof. intros (H & _ & G). unfold ncols. apply G. apply nth_In. lia. Qed.

Section P.
  Variable nrm : list Q -> Q.
  Variables (fit norm : bool) (X Y : mtx).
  Let pr := preprocess nrm fit norm X Y.
  Let p := ncols X.

  Lemma scale_length : length (p_scale pr) = p.
  Proof. unfold pr, preprocess. destruct fit, norm; cbn -[tab tab2]; apply tab_length. Qed.
  Lemma pX_length : length (pX pr) = length X.
  Proof. unfold pr, preprocess. destruct fit, norm; cbn -[tab tab2]; rewrite ?tab2_length; reflexivity. Qed.
  Lemma pY_length : length (pY pr) = length Y.
  Proof. unfold pr, preprocess. destruct fit, norm; cbn -[tab tab2]; rewrite ?tab2_length; reflexivity. Qed.

  (* what happens to each cell *)
  Lemma pX_at i j : (i < length X)%nat -> (j < p)%nat -> ~ nth j (p_scale pr) 0 == 0 ->
    at2 (pX pr) i j == (at2 X i j - nth j (p_xoff pr) 0) / nth j (p_scale pr) 0.
  Proof.
    intros Hi Hj. unfold pr, preprocess. fold p. destruct fit, norm; cbn [negb andb pX p_scale p_xoff]; cbv zeta.
    - rewrite !(nth_tab _ Hj), !(at2_tab2 _ Hi Hj), (nth_tab _ Hj). intros Hs.
      set (s := nrm _) in *. destruct (Qeqb_spec s 0) as [E|E]; [tauto|]. now rewrite (nth_tab _ Hj).
    - rewrite !(nth_tab _ Hj), !(at2_tab2 _ Hi Hj), (nth_tab _ Hj). intros Hs. now rewrite ?(nth_tab _ Hj).
    - rewrite !(nth_tab _ Hj), !(at2_tab2 _ Hi Hj). intros Hs. rewrite ?(nth_tab _ Hj). change (Qeq_bool 1 0) with false. cbv iota. field.
    - rewrite !(nth_tab _ Hj). intros Hs. field.
  Qed.
  Lemma pY_at i o : (i < length Y)%nat -> (o < ncols Y)%nat -> at2 (pY pr) i o == at2 Y i o - nth o (p_yoff pr) 0.
  Proof.
    intros Hi Ho. unfold pr, preprocess. destruct fit, norm; cbn [negb andb pY p_yoff]; cbv zeta;
      rewrite ?(at2_tab2 _ Hi Ho), ?(nth_tab _ Ho); try reflexivity; ring.
  Qed.
End P.
Arguments pX_at nrm fit norm X Y [i j] _ _ _.

Lemma existsb_zero l m : existsb (fun j => Qeq_bool (nth j l 0) 0) (seq 0 m) = false ->
  forall j, (j < m)%nat -> ~ nth j l 0 == 0.
Proof.
  intros H j Hj E. assert (existsb (fun j => Qeq_bool (nth j l 0) 0) (seq 0 m) = true); [|congruence].
  apply existsb_exists. exists j. split; [apply in_seq; lia|]. now apply Qeq_bool_iff.
Qed.
Lemma existsb_nonzero l m : (forall j, (j < m)%nat -> ~ nth j l 0 == 0) -> existsb (fun j => Qeq_bool (nth j l 0) 0) (seq 0 m) = false.
Proof.
  intros H. destruct (existsb _ _) eqn:E; [|reflexivity]. apply existsb_exists in E. destruct E as (j & Hj & E).
  apply in_seq in Hj. apply Qeq_bool_iff in E. now apply H in E; [|lia].
Qed.

(* without an old intercept, or with the intercept fitted: exactly the inner model *)
Lemma set_intercept_spec fit pr W q old C b :
  set_intercept fit pr W q old = Some (C, b) ->
  (fit = true \/ old = None) ->
  (fit = false -> (forall o, (o < q)%nat -> nth o (p_yoff pr) 0 == 0) /\ (forall j, (j < length W)%nat -> nth j (p_xoff pr) 0 == 0)) ->
  forall row o, (o < q)%nat ->
  decision C b row o == sumn (length W) (fun j => (nth j row 0 - nth j (p_xoff pr) 0) / nth j (p_scale pr) 0 * at2 W j o) + nth o (p_yoff pr) 0.
Proof.
  unfold set_intercept. destruct (existsb _ _) eqn:E; [discriminate|]. pose proof (existsb_zero _ _ E) as Hs. clear E.
  intros H Hfo Hoff row o Ho. unfold decision. set (CC := tab2 (length W) q (fun j o => at2 W j o / nth j (p_scale pr) 0)) in *.
  assert (HC : forall j, (j < length W)%nat -> at2 CC j o = at2 W j o / nth j (p_scale pr) 0) by (intros; unfold CC; now rewrite at2_tab2 by lia).
  destruct fit.
  - destruct (Nat.eqb _ q); [|discriminate]. assert (E1 : C = CC) by congruence. assert (E2 : b = tab q (fun o => nth o (p_yoff pr) 0 - sumn (length W) (fun j => nth j (p_xoff pr) 0 * at2 CC j o))) by congruence.
    subst C b. rewrite (nth_tab _ Ho). unfold CC at 1. rewrite tab2_length.
    transitivity (sumn (length W) (fun j => nth j row 0 * at2 CC j o - nth j (p_xoff pr) 0 * at2 CC j o) + nth o (p_yoff pr) 0).
    { rewrite sumn_minus. ring. }
    apply Qplus_inj_r. apply sumn_ext. intros j Hj. rewrite !HC by lia. field. now apply Hs.
  - destruct Hfo as [F | ->]; [discriminate|]. assert (E1 : C = CC) by congruence. assert (E2 : b = tab q (fun _ => 0)) by congruence. subst C b.
    destruct Hoff as [Hy Hx]; [reflexivity|]. rewrite (nth_tab _ Ho). unfold CC at 1. rewrite tab2_length. rewrite Hy by lia. apply Qplus_inj_r. apply sumn_ext.
    intros j Hj. rewrite !HC by lia. rewrite Hx by lia. field. now apply Hs.
Qed.
Lemma off_nofit nrm norm X Y : let pr := preprocess nrm false norm X Y in
  (forall o, (o < ncols Y)%nat -> nth o (p_yoff pr) 0 == 0) /\ (forall j, (j < ncols X)%nat -> nth j (p_xoff pr) 0 == 0).
Proof.
  unfold preprocess. destruct norm; cbn [negb andb p_yoff p_xoff]; split; intros k Hk; now rewrite (nth_tab _ Hk).
Qed.
Lemma scale_simple nrm fit norm X Y : (fit && norm)%bool = false -> forall j, (j < ncols X)%nat ->
  nth j (p_scale (preprocess nrm fit norm X Y)) 0 == 1.
Proof.
  intros H j Hj. unfold preprocess. destruct fit, norm; try discriminate; cbn [negb andb p_scale]; cbv zeta; now rewrite (nth_tab _ Hj).
Qed.
(* the centred column *)
Lemma scale_norm nrm X Y j : (j < ncols X)%nat ->
  nth j (p_scale (preprocess nrm true true X Y)) 0 = nrm (tab (length X) (fun i => at2 (tab2 (length X) (ncols X) (fun i j => at2 X i j - nth j (tab (ncols X) (fun j => col_mean X j)) 0)) i j)).
Proof. intros Hj. unfold preprocess. cbn [negb andb p_scale]. cbv zeta. now rewrite (nth_tab _ Hj). Qed.
Definition definite (nrm : list Q -> Q) : Prop := forall l, nrm l == 0 <-> forall v, In v l -> v == 0.
Arguments scale_norm nrm X Y [j] _.
Lemma scale_nonzero nrm fit norm X Y : definite nrm ->
  ((fit && norm)%bool = true -> forall j, (j < ncols X)%nat -> exists i i', (i < length X)%nat /\ (i' < length X)%nat /\ ~ at2 X i j == at2 X i' j) ->
  forall j, (j < ncols X)%nat -> ~ nth j (p_scale (preprocess nrm fit norm X Y)) 0 == 0.
Proof.
  intros D H j Hj E. destruct (fit && norm)%bool eqn:F.
  - apply andb_true_iff in F. destruct F as [-> ->]. rewrite (scale_norm _ _ _ Hj) in E. pose proof (proj1 (D _) E) as E'. clear E. rename E' into E.
    destruct (H eq_refl j Hj) as (i & i' & Hi & Hi' & N). apply N.
    assert (Z : forall k, (k < length X)%nat -> at2 X k j == col_mean X j).
    { intros k Hk. assert (G : at2 X k j - col_mean X j == 0); [|lra].
      specialize (E (at2 X k j - col_mean X j)). apply E. unfold tab at 1. apply in_map_iff. exists k. split; [|apply in_seq; lia].
      rewrite at2_tab2 by lia. now rewrite (nth_tab _ Hj). }
    rewrite (Z i), (Z i') by lia. reflexivity.
  - rewrite scale_simple in E by auto. lra.
Qed.
Lemma scale_const nrm X Y j c : definite nrm -> (0 < length X)%nat -> (j < ncols X)%nat -> (forall i, (i < length X)%nat -> at2 X i j == c) ->
  nth j (p_scale (preprocess nrm true true X Y)) 0 == 0.
Proof.
  intros D HX Hj H. rewrite (scale_norm _ _ _ Hj). apply (proj2 (D _)). intros v Hv. unfold tab at 1 in Hv. apply in_map_iff in Hv.
  destruct Hv as (i & <- & Hi). apply in_seq in Hi. rewrite at2_tab2 by lia. rewrite (nth_tab _ Hj). rewrite H by lia.
  unfold col_mean. rewrite (sumn_ext _ _ (fun _ => c)) by auto. rewrite sumn_const. field. pose proof (qn_pos _ HX). lra.
Qed.

(* means of the centred data *)
Lemma centred_sum nrm norm X Y j : (0 < length X)%nat -> (j < ncols X)%nat -> ~ nth j (p_scale (preprocess nrm true norm X Y)) 0 == 0 ->
  sumn (length X) (fun i => at2 (pX (preprocess nrm true norm X Y)) i j) == 0.
Proof.
  intros HX Hj Hs. set (pr := preprocess nrm true norm X Y) in *.
  rewrite (sumn_ext _ _ (fun i => (/ nth j (p_scale pr) 0) * (at2 X i j - nth j (p_xoff pr) 0))).
  2:{ intros i Hi. unfold pr. rewrite (pX_at nrm true norm X Y Hi Hj Hs). unfold Qdiv. ring. }
  rewrite sumn_scale, sumn_minus, sumn_const.
  assert (E : nth j (p_xoff pr) 0 = col_mean X j).
  { unfold pr, preprocess. destruct norm; cbn [negb andb p_xoff]; cbv zeta; now rewrite (nth_tab _ Hj). }
  rewrite E. unfold col_mean. pose proof (qn_pos _ HX). field. split; [lra|exact Hs].
Qed.
Lemma centred_ysum nrm norm X Y o : (0 < length Y)%nat -> (o < ncols Y)%nat ->
  sumn (length Y) (fun i => at2 (pY (preprocess nrm true norm X Y)) i o) == 0.
Proof.
  intros HY Ho. set (pr := preprocess nrm true norm X Y) in *.
  rewrite (sumn_ext _ _ (fun i => at2 Y i o - nth o (p_yoff pr) 0)) by (intros i Hi; unfold pr; now rewrite pY_at).
  rewrite sumn_minus, sumn_const.
  assert (E : nth o (p_yoff pr) 0 = col_mean Y o).
  { unfold pr, preprocess. destruct norm; cbn [negb andb p_yoff]; cbv zeta; now rewrite (nth_tab _ Ho). }
  rewrite E. unfold col_mean. field. pose proof (qn_pos _ HY). lra.
Qed.

(* the inner and the outer residual are the same *)
Lemma residuals_agree nrm fit norm X Y W old C b q :
  rect X (length W) -> rect Y q -> length Y = length X ->
  set_intercept fit (preprocess nrm fit norm X Y) W q old = Some (C, b) -> (fit = true \/ old = None) ->
  forall i o, (i < length X)%nat -> (o < q)%nat ->
  at2 Y i o - decision C b (nth i X []) o ==
  at2 (pY (preprocess nrm fit norm X Y)) i o - sumn (length W) (fun j => at2 (pX (preprocess nrm fit norm X Y)) i j * at2 W j o).
Proof.
  intros HX HY HL H Hfo i o Hi Ho. pose proof (rect_ncols _ _ HX) as EX. pose proof (rect_ncols _ _ HY) as EY.
  set (pr := preprocess nrm fit norm X Y) in *.
  assert (Hs : forall j, (j < length W)%nat -> ~ nth j (p_scale pr) 0 == 0).
  { unfold set_intercept in H. destruct (existsb _ _) eqn:E; [discriminate|]. exact (existsb_zero _ _ E). }
  rewrite (set_intercept_spec fit pr W q old C b H Hfo) by (auto; intros ->; unfold pr; rewrite <- EX, <- EY; apply off_nofit).
  unfold pr. rewrite pY_at by lia. fold pr.
  rewrite (sumn_ext (length W) (fun j => at2 (pX pr) i j * at2 W j o) (fun j => (nth j (nth i X []) 0 - nth j (p_xoff pr) 0) / nth j (p_scale pr) 0 * at2 W j o)).
  2:{ intros j Hj. unfold pr. rewrite (pX_at nrm fit norm X Y Hi) by (rewrite ?EX; auto). reflexivity. }
  ring.
Qed.
Lemma off_fit nrm norm X Y j : (j < ncols X)%nat -> nth j (p_xoff (preprocess nrm true norm X Y)) 0 = col_mean X j.
Proof. intros Hj. unfold preprocess. destruct norm; cbn [negb andb p_xoff]; cbv zeta; now rewrite (nth_tab _ Hj). Qed.

Lemma least_squares nrm solve fit norm X Y p q old C b :
  rect X p -> rect Y q -> length Y = length X -> (fit = true \/ old = None) ->
  (let pr := preprocess nrm fit norm X Y in
   length (solve (pX pr) (pY pr)) = p /\
   forall j o, (j < p)%nat -> (o < q)%nat ->
     sumn (length X) (fun i => at2 (pX pr) i j * (at2 (pY pr) i o - sumn p (fun k => at2 (pX pr) i k * at2 (solve (pX pr) (pY pr)) k o))) == 0) ->
  linreg_fit nrm solve fit norm X Y old = Some (C, b) ->
  forall o w' b', (o < q)%nat -> (fit = false -> b' == 0) ->
  sumn (length X) (fun i => (at2 Y i o - decision C b (nth i X []) o) * (at2 Y i o - decision C b (nth i X []) o)) <=
  sumn (length X) (fun i => (at2 Y i o - (sumn p (fun j => at2 X i j * nth j w' 0) + b')) * (at2 Y i o - (sumn p (fun j => at2 X i j * nth j w' 0) + b'))).
Proof.
  intros HX HY HL Hfo. cbv zeta. unfold linreg_fit. cbv zeta. intros [HW HN] H o w' b' Ho Hb.
  pose proof (rect_ncols _ _ HX) as EX. pose proof (rect_ncols _ _ HY) as EY. rewrite EY in H.
  set (pr := preprocess nrm fit norm X Y) in *. set (W := solve (pX pr) (pY pr)) in *.
  assert (Hs : forall j, (j < p)%nat -> ~ nth j (p_scale pr) 0 == 0).
  { unfold set_intercept in H. destruct (existsb _ _) eqn:E; [discriminate|]. rewrite HW in E. exact (existsb_zero _ _ E). }
  set (e := fun i => at2 (pY pr) i o - sumn p (fun k => at2 (pX pr) i k * at2 W k o)).
  set (n := length X) in *.
  assert (He : forall i, (i < n)%nat -> at2 Y i o - decision C b (nth i X []) o == e i).
  { intros i Hi. assert (HX' : rect X (length W)) by now rewrite HW.
    rewrite (residuals_agree nrm fit norm X Y W old C b q HX' HY HL H Hfo i o Hi Ho). unfold e. fold pr. rewrite HW. reflexivity. }
  (* the difference of the two predictions *)
  set (cc := nth o (p_yoff pr) 0 - sumn p (fun j => nth j (p_xoff pr) 0 * nth j w' 0) - b').
  set (u := fun j => at2 W j o - nth j (p_scale pr) 0 * nth j w' 0).
  set (d := fun i => sumn p (fun j => at2 (pX pr) i j * u j) + cc).
  assert (Hd : forall i, (i < n)%nat -> at2 Y i o - (sumn p (fun j => at2 X i j * nth j w' 0) + b') == e i + d i).
  { intros i Hi. unfold e, d, cc.
    assert (E1 : at2 (pY pr) i o == at2 Y i o - nth o (p_yoff pr) 0) by (unfold pr; apply pY_at; lia).
    rewrite E1.
    assert (E2 : sumn p (fun j => at2 (pX pr) i j * u j) == sumn p (fun k => at2 (pX pr) i k * at2 W k o) - (sumn p (fun j => at2 X i j * nth j w' 0) - sumn p (fun j => nth j (p_xoff pr) 0 * nth j w' 0))).
    { rewrite <- !sumn_minus. apply sumn_ext. intros j Hj. unfold u.
      assert (E3 : at2 (pX pr) i j == (at2 X i j - nth j (p_xoff pr) 0) / nth j (p_scale pr) 0).
      { unfold pr. apply pX_at; [exact Hi|lia|]. apply Hs. lia. }
      rewrite E3. field. now apply Hs. }
    rewrite E2. ring. }
  rewrite (sumn_ext n (fun i => (at2 Y i o - decision C b (nth i X []) o) * (at2 Y i o - decision C b (nth i X []) o)) (fun i => e i * e i)) by (intros i Hi; now rewrite He).
  rewrite (sumn_ext n (fun i => (at2 Y i o - (sumn p (fun j => at2 X i j * nth j w' 0) + b')) * (at2 Y i o - (sumn p (fun j => at2 X i j * nth j w' 0) + b'))) (fun i => (e i * e i + d i * d i) + 2 * (e i * d i))) by (intros i Hi; rewrite Hd by lia; ring).
  rewrite sumn_plus, sumn_scale, sumn_plus.
  assert (Hc : sumn n e * cc == 0).
  { destruct fit.
    - assert (Z : sumn n e == 0); [|rewrite Z; ring]. unfold e. rewrite sumn_minus.
      assert (Z1 : sumn n (fun i => at2 (pY pr) i o) == 0) by (rewrite <- HL; unfold pr; apply centred_ysum; [destruct HY; lia|lia]).
      rewrite Z1, sumn_swap. rewrite (sumn_ext p _ (fun _ => 0)); [rewrite sumn_zero; ring|]. intros k Hk.
      rewrite (sumn_ext n _ (fun i => at2 W k o * at2 (pX pr) i k)) by (intros; ring). rewrite sumn_scale.
      unfold pr, n. rewrite centred_sum; [ring|destruct HX; lia|lia|]. apply Hs. lia.
    - assert (Z : cc == 0); [|rewrite Z; ring]. unfold cc. rewrite (Hb eq_refl).
      destruct (off_nofit nrm norm X Y) as [A B]. unfold pr. rewrite A by lia.
      rewrite (sumn_ext p _ (fun _ => 0)); [rewrite sumn_zero; ring|]. intros j Hj. rewrite B by lia. ring. }
  assert (Hed : sumn n (fun i => e i * d i) == 0).
  { unfold d. rewrite (sumn_ext n _ (fun i => sumn p (fun j => u j * (at2 (pX pr) i j * e i)) + cc * e i)).
    2:{ intros i Hi. rewrite Qmult_plus_distr_r. rewrite <- sumn_scale. apply Qplus_comp; [|ring]. apply sumn_ext. intros; ring. }
    rewrite sumn_plus, sumn_scale, sumn_swap. rewrite (sumn_ext p _ (fun _ => 0)); [rewrite sumn_zero|].
    - rewrite (Qmult_comm cc). rewrite Hc. ring.
    - intros j Hj. rewrite sumn_scale. unfold e. rewrite HN by lia. ring. }
  rewrite Hed. assert (0 <= sumn n (fun i => d i * d i)) by (apply sumn_nonneg; intros; nra). lra.
Qed.

(* ------------------------------------------------------------------ memory *)
Lemma deref_app h o c : lh_wf h -> forall a, (o_coef (lget h o) = a \/ o_icpt (lget h o) = a) ->
  deref (mklh (h_objs h) (h_cells h ++ c)) a = deref h a.
Proof.
  intros W [a|] H; [|reflexivity]. cbn. rewrite app_nth1; [reflexivity|]. apply (W o). destruct H as [H|H]; auto.
Qed.
Lemma lget_upd h o x o' c : lget (mklh (upd (h_objs h) o x) c) o' = if Nat.eqb o' o then (if Nat.ltb o (length (h_objs h)) then x else lget h o') else lget h o'.
Proof.
  unfold lget. cbn [h_objs]. destruct (Nat.eqb_spec o' o) as [->|N].
  - destruct (Nat.ltb_spec o (length (h_objs h))) as [L|L].
    + apply (nth_error_nth (upd (h_objs h) o x) o). now apply nth_error_upd_same.
    + rewrite !nth_overflow; auto. now rewrite upd_length.
  - destruct (nth_error (h_objs h) o') eqn:E.
    + rewrite (nth_error_nth _ _ _ E). apply (nth_error_nth (upd (h_objs h) o x) o'). rewrite nth_error_upd_other; auto.
    + apply nth_error_None in E. rewrite !nth_overflow; auto. now rewrite upd_length.
Qed.
(* Fit through object o writes only new memory and what o points to *)
Lemma fit_other kd h o o' C b row k : lh_wf h -> o' <> o ->
  (kd = KBayes \/ o_icpt (lget h o) = None \/ o_icpt (lget h o') <> o_icpt (lget h o) /\ o_coef (lget h o') <> o_icpt (lget h o)) ->
  (kd <> KWarm) ->
  predict_through (fit_store kd h o C b) o' row k = predict_through h o' row k.
Proof.
  intros W N H K. unfold fit_store.
  assert (E1 : put (h_cells h) (match kd with KWarm => o_coef (lget h o) | _ => None end) C = (h_cells h ++ [C], length (h_cells h))) by (destruct kd; try reflexivity; congruence).
  rewrite E1. cbv iota beta.
  assert (HC : forall a, o_coef (lget h o') = Some a -> (a < length (h_cells h))%nat) by (intros a Ha; apply (W o'); auto).
  assert (HI : forall a, o_icpt (lget h o') = Some a -> (a < length (h_cells h))%nat) by (intros a Ha; apply (W o'); auto).
  destruct (put (h_cells h ++ [C]) (match kd with KBayes => None | _ => o_icpt (lget h o) end) [b]) as [c2 ai] eqn:E2.
  unfold predict_through. rewrite lget_upd. rewrite (proj2 (Nat.eqb_neq o' o) N).
  assert (G : forall a, (o_coef (lget h o') = Some a \/ o_icpt (lget h o') = Some a) -> nth a c2 [] = nth a (h_cells h) []).
  { intros a Ha. assert (La : (a < length (h_cells h))%nat) by (destruct Ha; auto).
    destruct (match kd with KBayes => None | _ => o_icpt (lget h o) end) as [x|] eqn:Ex; cbn in E2; injection E2 as <- <-.
    - assert (x <> a). { intros ->. destruct kd; try discriminate; [|congruence].
        destruct H as [H|[H|[H1 H2]]]; [discriminate|congruence|]. destruct Ha as [Ha|Ha]; congruence. }
      destruct (nth_error (h_cells h) a) eqn:Ea; [|apply nth_error_None in Ea; lia].
      rewrite (nth_error_nth _ _ _ Ea). apply (nth_error_nth (upd _ x [b]) a). rewrite nth_error_upd_other by auto. now rewrite nth_error_app1.
    - rewrite <- app_assoc. now rewrite app_nth1 by lia. }
  unfold deref. cbn [h_cells]. destruct (o_coef (lget h o')) as [a|] eqn:Ea; [|reflexivity].
  destruct (o_icpt (lget h o')) as [a'|] eqn:Ea'; [|reflexivity]. rewrite (G a), (G a') by auto. reflexivity.
Qed.
Lemma clone_get h o : (o < length (h_objs h))%nat -> let '(h', c) := lclone h o in
  c <> o /\ lget h' c = lget h o /\ (forall o', (o' < length (h_objs h))%nat -> lget h' o' = lget h o') /\ h_cells h' = h_cells h /\ (lh_wf h -> lh_wf h').
Proof.
  intros Ho. unfold lclone.
  assert (G : forall o', (o' < length (h_objs h))%nat -> lget (mklh (h_objs h ++ [lget h o]) (h_cells h)) o' = lget h o')
    by (intros o' Ho'; unfold lget; cbn [h_objs]; now rewrite app_nth1 by lia).
  assert (G2 : lget (mklh (h_objs h ++ [lget h o]) (h_cells h)) (length (h_objs h)) = lget h o)
    by (unfold lget at 1; cbn [h_objs]; rewrite app_nth2 by lia; now rewrite Nat.sub_diag).
  split; [lia|]. split; [exact G2|]. split; [exact G|]. split; [reflexivity|].
  intros W o' a Ha. cbn [h_cells]. destruct (Nat.lt_ge_cases o' (length (h_objs h))) as [L|L].
  - rewrite G in Ha by lia. now apply (W o').
  - destruct (Nat.eq_dec o' (length (h_objs h))) as [->|N].
    + rewrite G2 in Ha. now apply (W o).
    + unfold lget in Ha. cbn [h_objs] in Ha. rewrite nth_overflow in Ha by (rewrite app_length; cbn; lia). cbn in Ha. destruct Ha; discriminate.
Qed.
