From Verif Require Import QCommon LinModel LinProofs EnetProofs ParallelModel ParallelProofs PathModel.
Open Scope Q_scope.

Lemma sched_ext {A} (l : list A) : forall m, (forall i, nth_error l i = nth_error m i) -> l = m.
Proof.
  induction l as [|x l IH]; intros [|y m] H; auto; try (specialize (H 0%nat); discriminate).
  pose proof (H 0%nat) as E. injection E as ->. f_equal. apply IH. intros i. exact (H (S i)).
Qed.
Lemma path_ranges_flat n : flat_map range_of (map (fun i => (i, i, S i)) (seq 0 n)) = seq 0 n.
Proof.
  generalize 0%nat as a. induction n as [|n IH]; intros a; [reflexivity|]. cbn [seq map flat_map]. rewrite IH. unfold range_of.
  replace (S a - a)%nat with 1%nat by lia. reflexivity.
Qed.
Section Path.
  Variable fit : Q -> option (mtx * Q * nat).
  Variable alphas : list Q.
  Definition slot_of (a : Q) : slot := match fit a with Some (c, g, k) => mkslot (Some c) g k | None => mkslot None 0 0 end.
  Lemma path_nodup : NoDup (flat_map range_of (path_ranges alphas)).
  Proof. unfold path_ranges. rewrite path_ranges_flat. apply seq_NoDup. Qed.
  Lemma path_local : @local_irrelevant _ _ (path_body fit alphas) None (fun _ => True).
  Proof. split; [exact I|]. split; [auto|]. intros i v l _. reflexivity. Qed.
  Lemma path_cells sched m : path_run fit alphas sched = Some m -> m = map slot_of alphas.
  Proof.
    unfold path_run. destruct (mexec _ _ _ _) as [s|] eqn:E; [|discriminate]. destruct (returned s) eqn:R; [|discriminate]. intros H. injection H as <-.
    pose proof (inv_exec sched path_nodup (inv_init (path_body fit alphas) None (path_ranges alphas) _) E) as I. rewrite (inv_returned I R).
    apply sched_ext. intros i. rewrite (finish_ranges_cells _ _ _ _ _ path_local).
    - unfold path_ranges. rewrite path_ranges_flat, existsb_seq.
      destruct (Nat.ltb_spec i (length alphas)) as [Hi|Hi].
      + rewrite nth_error_repeat by exact Hi. cbn [option_map]. rewrite nth_error_map. rewrite (nth_error_nth' alphas 0 Hi). cbn [option_map]. f_equal.
        unfold cell_result, run_iter, path_body. cbn [fold_left fst snd]. unfold slot_of. destruct (fit (nth i alphas 0)) as [[[c g] k]|]; reflexivity.
      + rewrite (proj2 (nth_error_None _ _)) by (rewrite repeat_length; lia). symmetry. apply nth_error_None. rewrite map_length. lia.
    - exact path_nodup.
    - apply Forall_forall. intros [[t a] b] Hin. unfold path_ranges in Hin. apply in_map_iff in Hin. destruct Hin as (x & Ex & Hx). injection Ex as <- <- <-. apply in_seq in Hx. rewrite repeat_length. lia.
  Qed.
  Lemma path_finishes sched s : mexec (path_body fit alphas) None (path_start alphas) sched = Some s ->
    (length sched <= mmeasure (path_body fit alphas) (path_start alphas))%nat /\ exists sched' s', mexec (path_body fit alphas) None s sched' = Some s' /\ returned s' = true.
  Proof.
    intros E. split.
    - pose proof (exec_measure (path_body fit alphas) None sched _ E). lia.
    - pose proof (inv_exec sched path_nodup (inv_init (path_body fit alphas) None (path_ranges alphas) _) E) as I. exact (can_finish path_nodup (le_n _) I).
  Qed.
End Path.

Lemma path_fit_some nrm l1 eps positive X Y p alpha : rect X p -> X <> [] -> 0 <= alpha -> 0 <= l1 <= 1 ->
  exists C gap ep it, enet_fit nrm (cyclic (ncols X)) (path_par l1 eps positive alpha) X Y None None = Some (C, [0], gap, ep, it).
Proof.
  intros HX NX Ha Hl. unfold enet_fit, path_par. cbn [e_fit e_norm e_alpha e_l1 e_tol e_iter e_warm e_pos].
  destruct (enet_cd _ _ _ _ _ _ _ _ _) as [[[w gap] ep] it] eqn:E. unfold set_intercept. unfold preprocess in *. cbn [negb andb p_scale pX pY] in *.
  assert (Hn: 0 <= qn (length X)) by apply qn_nonneg.
  apply enet_cd_spec in E; [|now repeat apply Qmult_le_0_compat|repeat apply Qmult_le_0_compat; try assumption; lra| |apply tab_length|].
  - destruct E as (L & _). replace (existsb _ _) with false; [do 4 eexists; reflexivity|]. symmetry. apply not_true_iff_false. rewrite existsb_exists.
    intros (j & Hj & Hq). apply in_seq in Hj. rewrite map_length, L in Hj. rewrite nth_tab in Hq by lia. apply Qeq_bool_iff in Hq. discriminate.
  - intros k j Hj. apply in_seq in Hj. lia.
  - intros _ k Hk. rewrite nth_tab by exact Hk. lra.
Qed.

(* ------------------------------------------------------------------ LinFitGOM *)
Lemma nodup_snoc {A} (l : list A) x : NoDup l -> ~ In x l -> NoDup (l ++ [x]).
Proof. intros H N. apply Permutation_NoDup with (x :: l); [apply Permutation_cons_append|now constructor]. Qed.
Lemma perm_list_sum l m : Permutation l m -> list_sum l = list_sum m.
Proof. induction 1; unfold list_sum in *; cbn [fold_right]; lia. Qed.
Section Gom.
  Variable minimize : nat -> list Q -> gres.
  Variables (p q : nat) (theta0 : mtx).
  Let best (o : nat) : gres := minimize o (colq p theta0 o).
  Definition received (rcv : list nat) (s : gom) : Prop :=
    (length (g_spawned s) <= q)%nat /\ length rcv = g_recv s /\ NoDup (rcv ++ map fst (g_chan s)) /\
    (forall o, In o (rcv ++ map fst (g_chan s)) <-> nth_error (g_spawned s) o = Some GSent) /\
    (forall o r, In (o, r) (g_chan s) -> r = best o) /\
    (forall o c, nth_error (g_spawned s) o = Some (GRead c) -> c = colq p theta0 o) /\
    (forall j o, (j < p)%nat -> (o < q)%nat -> at2 (g_theta s) j o = if existsb (Nat.eqb o) rcv then nth j (r_X (best o)) 0 else at2 theta0 j o) /\
    g_F s == qsum (map (fun o => r_F (best o)) rcv) /\ g_epoch s = list_sum (map (fun o => r_evals (best o)) rcv) /\
    g_conv s = forallb (fun o => negb (r_fail (best o))) rcv.
  Lemma existsb_in o l : existsb (Nat.eqb o) l = true <-> In o l.
  Proof. rewrite existsb_exists. split; [intros (x & H & E); apply Nat.eqb_eq in E; now subst|intros H; exists o; split; [exact H|apply Nat.eqb_refl]]. Qed.
  Lemma existsb_snoc o l a : existsb (Nat.eqb o) (l ++ [a]) = (existsb (Nat.eqb o) l || Nat.eqb o a)%bool.
  Proof. rewrite existsb_app. cbn [existsb]. now rewrite orb_false_r. Qed.
  Lemma nth_error_upd_cases {A} (l : list A) i v k : nth_error (upd l i v) k = if Nat.eqb k i then (if Nat.ltb i (length l) then Some v else None) else nth_error l k.
  Proof.
    destruct (Nat.eqb_spec k i) as [->|N]; [|now rewrite nth_error_upd_other by congruence].
    destruct (Nat.ltb_spec i (length l)); [now apply nth_error_upd_same|]. apply nth_error_None. rewrite upd_length. lia.
  Qed.
  Lemma gom_step s e s' : (exists rcv, received rcv s) -> gstep minimize p q s e = Some s' -> exists rcv, received rcv s'.
  Proof.
    intros (rcv & A & B & ND & D & E & G & T & F1 & F2 & F3) H. destruct e as [|o|o|]; cbn [gstep] in H.
    - destruct (Nat.ltb_spec (length (g_spawned s)) q) as [L|L]; [|discriminate]. injection H as <-. exists rcv. unfold received. cbn [g_theta g_spawned g_chan g_recv g_F g_epoch g_conv].
      rewrite app_length. cbn [length]. split; [lia|]. repeat (split; [assumption|]). split.
      + intros o. rewrite D. destruct (Nat.lt_ge_cases o (length (g_spawned s))); [now rewrite nth_error_app1 by assumption|].
        rewrite nth_error_app2 by assumption. rewrite (proj2 (nth_error_None _ _)) by assumption. destruct (o - length (g_spawned s))%nat as [|[|?]]; split; discriminate.
      + repeat (split; [assumption|]). split; [|now repeat (split; [assumption|])].
        intros o c Hc. destruct (Nat.lt_ge_cases o (length (g_spawned s))); [rewrite nth_error_app1 in Hc by assumption; eauto|].
        rewrite nth_error_app2 in Hc by assumption. destruct (o - length (g_spawned s))%nat as [|[|?]]; discriminate.
    - destruct (nth_error (g_spawned s) o) as [[|?|]|] eqn:Eo; try discriminate. injection H as <-. exists rcv. unfold received. cbn [g_theta g_spawned g_chan g_recv g_F g_epoch g_conv].
      assert (Lo: (o < length (g_spawned s))%nat) by (apply nth_error_Some; congruence). rewrite upd_length. split; [lia|]. repeat (split; [assumption|]).
      split; [|split; [assumption|split; [|now repeat (split; [assumption|])]]].
      + intros o'. rewrite D, nth_error_upd_cases. destruct (Nat.eqb_spec o' o) as [->|N]; [|reflexivity]. rewrite Eo. destruct (Nat.ltb _ _); split; discriminate.
      + intros o' c Hc. rewrite nth_error_upd_cases in Hc. destruct (Nat.eqb_spec o' o) as [->|N]; [|eauto]. destruct (Nat.ltb _ _); [|discriminate]. injection Hc as <-.
        unfold colq, tab. apply map_ext_in. intros j Hj. apply in_seq in Hj. rewrite T by lia. destruct (existsb (Nat.eqb o) rcv) eqn:X; [|reflexivity].
        apply existsb_in in X. assert (Y: nth_error (g_spawned s) o = Some GSent) by (apply D, in_or_app; now left). congruence.
    - destruct (nth_error (g_spawned s) o) as [[|c|]|] eqn:Eo; try discriminate. injection H as <-. exists rcv. unfold received. cbn [g_theta g_spawned g_chan g_recv g_F g_epoch g_conv].
      assert (Lo: (o < length (g_spawned s))%nat) by (apply nth_error_Some; congruence). rewrite upd_length, map_app, app_assoc. cbn [map fst]. split; [lia|]. split; [assumption|].
      assert (NI: ~ In o (rcv ++ map fst (g_chan s))) by (intros X; apply D in X; congruence).
      split; [apply nodup_snoc; assumption|]. split.
      { intros o'. rewrite in_app_iff, D, nth_error_upd_cases. cbn [In]. destruct (Nat.eqb_spec o' o) as [->|N].
        - destruct (Nat.ltb_spec o (length (g_spawned s))); [|lia]. split; auto.
        - split; [intros [X|[X|[]]]; [exact X|congruence]|auto]. }
      split; [|split; [|now repeat (split; [assumption|])]].
      + intros o' r Hr. apply in_app_iff in Hr. destruct Hr as [Hr|[Hr|[]]]; [eauto|]. injection Hr as <- <-. rewrite (G o c Eo). reflexivity.
      + intros o' c' Hc. rewrite nth_error_upd_cases in Hc. destruct (Nat.eqb_spec o' o) as [->|N]; [|eauto]. destruct (Nat.ltb _ _); discriminate.
    - destruct (Nat.eqb_spec (length (g_spawned s)) q) as [Lq|]; [|discriminate]. destruct (Nat.ltb_spec (g_recv s) q); [|discriminate]. cbn [andb] in H.
      destruct (g_chan s) as [|[o r] rest] eqn:Ec; [discriminate|]. destruct (Nat.eqb_spec (length (r_X r)) p) as [Lr|]; [|discriminate]. injection H as <-.
      exists (rcv ++ [o]). unfold received. cbn [g_theta g_spawned g_chan g_recv g_F g_epoch g_conv]. cbn [map fst] in *.
      assert (Er: r = best o) by (apply E; now left). subst r. assert (So: nth_error (g_spawned s) o = Some GSent) by (apply D, in_or_app; right; now left).
      assert (Lo: (o < q)%nat) by (rewrite <- Lq; apply nth_error_Some; congruence).
      split; [assumption|]. split; [rewrite app_length; cbn [length]; lia|]. rewrite <- app_assoc. cbn [app]. split; [exact ND|]. split; [exact D|].
      split; [intros o' r' Hr; apply E; now right|]. split; [exact G|]. split; [|split; [|split]].
      + intros j k Hj Hk. unfold set_col. rewrite at2_tab2 by assumption. rewrite existsb_snoc. destruct (Nat.eqb_spec k o) as [->|N].
        * now rewrite orb_true_r.
        * rewrite orb_false_r. now apply T.
      + rewrite map_app, qsum_app. cbn [map]. rewrite qsum_cons. change (qsum []) with 0. rewrite F1. ring.
      + rewrite map_app, list_sum_app. cbn [map list_sum fold_right]. rewrite F2. unfold list_sum. cbn [fold_right]. lia.
      + rewrite forallb_app, F3. cbn [forallb]. now rewrite andb_true_r.
  Qed.
  Lemma gom_init : received [] (ginit theta0).
  Proof.
    unfold received, ginit. cbn [g_theta g_spawned g_chan g_recv g_F g_epoch g_conv length map app]. repeat split; try lia; try constructor; try reflexivity;
      try (intros X; destruct X; fail); try (intros o H; destruct o; discriminate); try (destruct o; discriminate); try (intros; contradiction).
    all: try (intros o c H; destruct o; discriminate). all: intros []||discriminate.
  Qed.
  Lemma gom_exec l : forall s s', (exists rcv, received rcv s) -> gexec minimize p q s l = Some s' -> exists rcv, received rcv s'.
  Proof.
    induction l as [|e l IH]; intros s s' H X; cbn [gexec] in X; [now injection X as <-|]. destruct (gstep minimize p q s e) as [s1|] eqn:E; [|discriminate].
    apply (IH s1); [|exact X]. now apply (gom_step s e).
  Qed.
  Lemma gom_done l r : gom_run minimize p q theta0 l = Some r ->
    (forall j o, (j < p)%nat -> (o < q)%nat -> at2 (gr_theta r) j o = nth j (r_X (best o)) 0) /\
    gr_F r == qsum (map (fun o => r_F (best o)) (seq 0 q)) /\ gr_epoch r = list_sum (map (fun o => r_evals (best o)) (seq 0 q)) /\ gr_conv r = true /\ gr_J r = 0.
  Proof.
    unfold gom_run. destruct (gexec _ _ _ _ _) as [s|] eqn:E; [|discriminate]. destruct (Nat.eqb_spec (g_recv s) q) as [Hq|]; [|discriminate]. intros X. injection X as <-.
    cbn [gr_theta gr_F gr_epoch gr_conv gr_J]. destruct (gom_exec l _ _ (ex_intro (fun r => received r (ginit theta0)) [] gom_init) E) as (rcv & A & B & ND & D & _ & _ & T & F1 & F2 & _).
    assert (ND': NoDup rcv) by (apply NoDup_app_iff in ND; tauto).
    assert (P: Permutation rcv (seq 0 q)).
    { apply NoDup_Permutation_bis; [exact ND'|rewrite seq_length; lia|]. intros o Ho. apply in_seq. split; [lia|].
      assert (Y: nth_error (g_spawned s) o = Some GSent) by (apply D, in_or_app; now left).
      assert (o < length (g_spawned s))%nat by (apply nth_error_Some; congruence). lia. }
    split; [|split; [|split; [|split; reflexivity]]].
    - intros j o Hj Ho. rewrite T by assumption. rewrite (proj2 (existsb_in o rcv)); [reflexivity|]. apply Permutation_in with (seq 0 q); [now symmetry|apply in_seq; lia].
    - rewrite F1. apply qsum_perm, Permutation_map, P.
    - rewrite F2. apply perm_list_sum, Permutation_map, P.
  Qed.
  (* no deadlock, and executions are bounded *)
  Hypothesis Hmin : forall o c, length (r_X (minimize o c)) = p.
  Definition grank (g : gst) : nat := match g with GRun => 2 | GRead _ => 1 | GSent => 0 end.
  Definition gmeasure (s : gom) : nat := (3 * (q - length (g_spawned s)) + list_sum (map grank (g_spawned s)) + (q - g_recv s))%nat.
  Lemma list_sum_upd (l : list gst) i a v : nth_error l i = Some a -> (list_sum (map grank (upd l i v)) + grank a = list_sum (map grank l) + grank v)%nat.
  Proof.
    revert i; induction l as [|x l IH]; intros [|i] E; try discriminate.
    - injection E as ->. cbn [upd map]. unfold list_sum. cbn [fold_right]. lia.
    - cbn [upd map]. cbn [nth_error] in E. specialize (IH i E). unfold list_sum in *. cbn [fold_right]. lia.
  Qed.
  Lemma gmeasure_step s e s' : (exists rcv, received rcv s) -> gstep minimize p q s e = Some s' -> S (gmeasure s') = gmeasure s.
  Proof.
    intros (rcv & A & _) H. destruct e as [|o|o|]; cbn [gstep] in H; unfold gmeasure.
    - destruct (Nat.ltb_spec (length (g_spawned s)) q); [|discriminate]. injection H as <-. cbn [g_spawned g_recv]. rewrite app_length, map_app, list_sum_app. cbn [map grank length].
      unfold list_sum at 2. cbn [fold_right]. lia.
    - destruct (nth_error (g_spawned s) o) as [[|?|]|] eqn:Eo; try discriminate. injection H as <-. cbn [g_spawned g_recv]. rewrite upd_length.
      pose proof (list_sum_upd _ _ _ (GRead (colq p (g_theta s) o)) Eo) as X. cbn [grank] in X. lia.
    - destruct (nth_error (g_spawned s) o) as [[|?|]|] eqn:Eo; try discriminate. injection H as <-. cbn [g_spawned g_recv]. rewrite upd_length.
      pose proof (list_sum_upd _ _ _ GSent Eo) as X. cbn [grank] in X. lia.
    - destruct (_ && _)%bool eqn:X; [|discriminate]. apply andb_true_iff in X. destruct X as [_ X]. apply Nat.ltb_lt in X. destruct (g_chan s) as [|[o r] rest]; [discriminate|].
      destruct (Nat.eqb _ _); [|discriminate]. injection H as <-. cbn [g_spawned g_recv]. lia.
  Qed.
  Lemma gom_progress s : (exists rcv, received rcv s) -> (g_recv s < q)%nat -> exists e s', gstep minimize p q s e = Some s'.
  Proof.
    intros (rcv & A & B & ND & D & E & G & _) Hr. destruct (Nat.lt_ge_cases (length (g_spawned s)) q) as [L|L].
    { exists EvSpawn. cbn [gstep]. destruct (Nat.ltb_spec (length (g_spawned s)) q); [|lia]. eauto. }
    assert (Lq: length (g_spawned s) = q) by lia.
    destruct (g_chan s) as [|[o r] rest] eqn:Ec.
    - (* some goroutine has not sent *)
      assert (Ex: exists o, (o < q)%nat /\ ~ In o rcv).
      { destruct (existsb (fun o => negb (existsb (Nat.eqb o) rcv)) (seq 0 q)) eqn:X.
        - apply existsb_exists in X. destruct X as (o & Ho & X). apply in_seq in Ho. exists o. split; [lia|]. intros I. apply existsb_in in I. rewrite I in X. discriminate.
        - exfalso. assert (incl (seq 0 q) rcv).
          { intros o Ho. apply existsb_in. destruct (existsb (Nat.eqb o) rcv) eqn:Y; [reflexivity|]. exfalso. apply not_true_iff_false in X. apply X. apply existsb_exists. exists o. now rewrite Y. }
          apply NoDup_incl_length in H; [|apply seq_NoDup]. rewrite seq_length in H. lia. }
      destruct Ex as (o & Ho & NI). destruct (nth_error (g_spawned s) o) as [[|c|]|] eqn:Eo.
      + exists (EvRead o). cbn [gstep]. rewrite Eo. eauto.
      + exists (EvSend o). cbn [gstep]. rewrite Eo. eauto.
      + exfalso. apply D in Eo. cbn [map] in Eo. rewrite app_nil_r in Eo. contradiction.
      + apply nth_error_None in Eo. lia.
    - exists EvRecv. cbn [gstep]. rewrite Lq, Nat.eqb_refl. destruct (Nat.ltb_spec (g_recv s) q); [|lia]. cbn [andb]. rewrite Ec.
      rewrite (E o r (or_introl eq_refl)). unfold best. rewrite Hmin, Nat.eqb_refl. eauto.
  Qed.
  Lemma gmeasure_exec l : forall s s', (exists rcv, received rcv s) -> gexec minimize p q s l = Some s' -> (length l + gmeasure s' = gmeasure s)%nat.
  Proof.
    induction l as [|e l IH]; intros s s' H X; cbn [gexec] in X; [now injection X as <-|]. destruct (gstep minimize p q s e) as [s1|] eqn:E; [|discriminate].
    pose proof (gmeasure_step s e s1 H E). pose proof (IH s1 s' (gom_step s e s1 H E) X). cbn [length]. lia.
  Qed.
  Lemma gom_completes n : forall s, (gmeasure s <= n)%nat -> (exists rcv, received rcv s) -> (g_recv s <= q)%nat ->
    exists l s', gexec minimize p q s l = Some s' /\ g_recv s' = q.
  Proof.
    induction n as [|n IH]; intros s Hm HI Hr; (destruct (Nat.eq_dec (g_recv s) q) as [Eq|Nq]; [exists [], s; now split|]);
      destruct (gom_progress s HI ltac:(lia)) as (e & s1 & E); pose proof (gmeasure_step s e s1 HI E) as M; [lia|].
    destruct (IH s1) as (l & s' & X & Y); [lia|now apply (gom_step s e)| |exists (e :: l), s'; cbn [gexec]; now rewrite E].
    destruct e as [|o|o|]; cbn [gstep] in E.
    - destruct (Nat.ltb _ _); [|discriminate]. injection E as <-. exact Hr.
    - destruct (nth_error (g_spawned s) o) as [[|?|]|]; try discriminate. injection E as <-. exact Hr.
    - destruct (nth_error (g_spawned s) o) as [[|?|]|]; try discriminate. injection E as <-. exact Hr.
    - destruct (_ && _)%bool; [|discriminate]. destruct (g_chan s) as [|[o r] rest]; [discriminate|]. destruct (Nat.eqb _ _); [|discriminate]. injection E as <-. cbn [g_recv]. lia.
  Qed.
End Gom.

Lemma lf_loop_spec conv left : forall epoch l e c, lf_loop conv left epoch false = (l, e, c) ->
  l = seq epoch (length l) /\ e = (epoch + length l)%nat /\ (length l <= left)%nat.
Proof.
  induction left as [|n IH]; intros epoch l e c H; cbn [lf_loop] in H.
  - injection H as <- <- <-. cbn. repeat split; lia.
  - destruct (conv epoch) eqn:C.
    + destruct n; cbn [lf_loop] in H; injection H as <- <- <-; cbn [length seq]; repeat split; lia.
    + destruct (lf_loop conv n (S epoch) false) as [[l' e'] c'] eqn:E. injection H as <- <- <-. destruct (IH _ _ _ _ E) as (A & B & D).
      cbn [length seq]. repeat split; [now f_equal|lia|lia].
Qed.

Section Conc.
  Variables (X : mtx) (y : list Q) (thetas : list (list Q)).
  Let n := length X.
  Definition half_mse (theta : list Q) : Q :=
    sumn n (fun i => (sumn (length theta) (fun j => at2 X i j * nth j theta 0) - nth i y 0) * (sumn (length theta) (fun j => at2 X i j * nth j theta 0) - nth i y 0)) / (2 * qn n).
  Lemma serial_one s t : nth_error (cs_pc s) t = Some PMul -> exists s' J, cexec X y thetas s [t; t; t] = Some s' /\ cs_pc s' = upd (cs_pc s) t (PDone J) /\ J == half_mse (nth t thetas []).
  Proof.
    intros H. assert (L: (t < length (cs_pc s))%nat) by (apply nth_error_Some; congruence). cbn [cexec]. unfold cstep at 1. rewrite H. unfold cstep at 1. cbn [cs_pc cs_pred cs_diff].
    rewrite nth_error_upd_same by exact L. unfold cstep at 1. cbn [cs_pc cs_pred cs_diff]. rewrite nth_error_upd_same by (now rewrite upd_length). do 2 eexists. split; [reflexivity|].
    cbn [cs_pc]. split; [now rewrite !upd_upd|]. unfold half_mse. fold n. apply Qmult_comp; [|reflexivity]. apply qsum_map_ext. intros i Hi. apply in_seq in Hi.
    rewrite (@nth_tab n _ i 0) by lia. unfold pred_of. fold n. rewrite (@nth_tab n _ i 0) by lia. reflexivity.
  Qed.
  Lemma serial_all order : forall s, NoDup order -> (forall t, In t order -> nth_error (cs_pc s) t = Some PMul) ->
    exists s', cexec X y thetas s (flat_map (fun t => [t; t; t]) order) = Some s' /\
      (forall t, In t order -> exists J, nth_error (cs_pc s') t = Some (PDone J) /\ J == half_mse (nth t thetas [])) /\
      (forall t, ~ In t order -> nth_error (cs_pc s') t = nth_error (cs_pc s) t).
  Proof.
    induction order as [|t r IH]; intros s ND H; [exists s; split; [reflexivity|]; split; [intros ? []|reflexivity]|].
    inversion ND as [|? ? N1 N2]; subst. destruct (serial_one s t (H t (or_introl eq_refl))) as (s1 & J & E1 & P1 & J1).
    assert (L: (t < length (cs_pc s))%nat) by (apply nth_error_Some; rewrite (H t (or_introl eq_refl)); discriminate).
    destruct (IH s1 N2) as (s' & E & A & B).
    { intros t' Ht. rewrite P1, nth_error_upd_other by (intros ->; contradiction). apply H. now right. }
    exists s'. split; [|split].
    - cbn [flat_map]. cbn [cexec app] in *. destruct (cstep X y thetas s t) as [sa|]; [|discriminate]. destruct (cstep X y thetas sa t) as [sb|]; [|discriminate].
      destruct (cstep X y thetas sb t) as [sc|]; [|discriminate]. injection E1 as ->. exact E.
    - intros t' [<-|Ht]; [|now apply A]. exists J. split; [|exact J1]. rewrite (B t N1), P1. now apply nth_error_upd_same.
    - intros t' Ht. rewrite B by (intros X'; apply Ht; now right). rewrite P1. apply nth_error_upd_other. intros ->. apply Ht. now left.
  Qed.
End Conc.
