(* Proofs about SourceModel.v. *)
From Verif Require Import Common SourceModel.
Set Implicit Arguments.

Section P.
  Variables St V : Type.
  Notation micro := (micro St V). Notation op := (op St V). Notation cmd := (cmd St V).
  Notation thread := (thread St V). Notation sys := (sys St V).

  Lemma run_body_app (a b : list micro) s : run_body (a ++ b) s =
    (fst (run_body b (fst (run_body a s))), snd (run_body a s) ++ snd (run_body b (fst (run_body a s)))).
  Proof.
    revert s. induction a as [|f a IH]; intros s; cbn [run_body app].
    - cbn. now destruct (run_body b s).
    - destruct (f s) as [s1 v1]. rewrite IH. destruct (run_body a s1) as [s2 v2]. cbn. now rewrite app_assoc.
  Qed.
  Lemma replay_app (a b : list (nat * op)) s : replay (a ++ b) s =
    (fst (replay b (fst (replay a s))), snd (replay a s) ++ snd (replay b (fst (replay a s)))).
  Proof.
    revert s. induction a as [|[t o] a IH]; intros s; cbn [replay app].
    - cbn. now destruct (replay b s).
    - destruct (run_body (body o) s) as [s1 v1]. rewrite IH. destruct (replay a s1) as [s2 v2]. reflexivity.
  Qed.
  Lemma got_app t (a b : list (nat * list V)) : got t (a ++ b) = got t a ++ got t b.
  Proof. unfold got. now rewrite filter_app, map_app, concat_app. Qed.
  Lemma ops_of_app t (a b : list (nat * op)) : ops_of t (a ++ b) = ops_of t a ++ ops_of t b.
  Proof. unfold ops_of. now rewrite filter_app, map_app. Qed.

  Lemma ops_of_1 k t (o : op) : ops_of k [(t, o)] = if t =? k then [o] else [].
  Proof. unfold ops_of. cbn. now destruct (t =? k). Qed.
  Lemma got_1 k t (v : list V) : got k [(t, v)] = if t =? k then v else [].
  Proof. unfold got. cbn. destruct (t =? k); cbn; [apply app_nil_r|reflexivity]. Qed.

  (* what a thread still has to do, and has done *)
  Definition cur_ops (th : thread) : list op := match cur th with Some (o, _, _) => [o] | None => [] end.

  Record inv (s0 : St) (ps : list (list cmd)) (y : sys) : Prop := {
    i_len : length (ths y) = length ps;
    i_prog : forall t th, nth_error (ths y) t = Some th -> sections (nth t ps []) = ops_of t (log y) ++ cur_ops th ++ sections (prog th);
    i_res : forall t th, nth_error (ths y) t = Some th -> res th = got t (snd (replay (log y) s0));
    i_idle : lock y = None -> src y = fst (replay (log y) s0);
    i_lock : forall t th, nth_error (ths y) t = Some th -> cur th <> None -> lock y = Some t;
    i_cur : forall t, lock y = Some t -> exists th o fs acc done, nth_error (ths y) t = Some th /\ cur th = Some (o, fs, acc) /\
              body o = done ++ fs /\ run_body done (fst (replay (log y) s0)) = (src y, acc);
    i_np : forall t o, In (t, o) (log y) -> panics o = false /\ t < length ps
  }.

  Lemma inv_init s0 ps : inv s0 ps (init s0 ps).
  Proof.
    constructor; cbn [ths lock src log init].
    - apply map_length.
    - intros t th H. rewrite nth_error_map in H. destruct (nth_error ps t) eqn:E; [|discriminate]. injection H as <-. cbn.
      now rewrite (nth_error_nth _ _ _ E).
    - intros t th H. rewrite nth_error_map in H. destruct (nth_error ps t) eqn:E; [|discriminate]. now injection H as <-.
    - reflexivity.
    - intros t th H. rewrite nth_error_map in H. destruct (nth_error ps t) eqn:E; [|discriminate]. injection H as <-. cbn. congruence.
    - discriminate.
    - contradiction.
  Qed.

  Lemma nth_error_upd_cases {A} (l : list A) i v k x : nth_error (upd l i v) k = Some x ->
    (k = i /\ x = v) \/ (k <> i /\ nth_error l k = Some x).
  Proof.
    rewrite nth_error_upd. destruct (Nat.eqb_spec i k) as [<-|N].
    - destruct (i <? length l); [|discriminate]. injection 1 as <-. now left.
    - intros H. right. split; auto.
  Qed.
  Lemma nth_error_upd_same {A} (l : list A) i v x : nth_error l i = Some x -> nth_error (upd l i v) i = Some v.
  Proof.
    intros H. rewrite nth_error_upd, Nat.eqb_refl. assert (i < length l) by (apply nth_error_Some; congruence).
    destruct (Nat.ltb_spec i (length l)); [reflexivity|lia].
  Qed.

  Lemma inv_step s0 ps y t y' : inv s0 ps y -> step y t = Some y' -> inv s0 ps y'.
  Proof.
    intros I. unfold step. destruct (nth_error (ths y) t) as [th|] eqn:E; [|discriminate].
    assert (TL : t < length ps) by (rewrite <- (i_len I); apply nth_error_Some; congruence).
    destruct (cur th) as [[[o fs] acc]|] eqn:C.
    - assert (LK : lock y = Some t) by (apply (@i_lock _ _ _ I t th); congruence).
      destruct (i_cur I LK) as (th' & o' & fs' & acc' & done & E' & C' & B & R). rewrite E in E'. injection E' as <-.
      rewrite C in C'. injection C' as <- <- <-.
      destruct fs as [|f fs].
      + destruct (panics o) eqn:PN; [discriminate|]. injection 1 as <-. rewrite app_nil_r in B. subst done.
        assert (RP : replay (log y ++ [(t, o)]) s0 = (src y, snd (replay (log y) s0) ++ [(t, acc)])).
        { rewrite replay_app. cbn [replay]. rewrite R. reflexivity. }
        constructor; cbn [ths lock src log].
        * rewrite upd_length. apply (i_len I).
        * intros k x H. rewrite ops_of_app, ops_of_1. destruct (nth_error_upd_cases _ _ _ _ H) as [[-> ->]|[N H']].
          -- rewrite (i_prog I t E). unfold cur_ops. rewrite C, Nat.eqb_refl. cbn. now rewrite <- app_assoc.
          -- rewrite (i_prog I k H'). destruct (Nat.eqb_spec t k); [congruence|]. now rewrite app_nil_r.
        * intros k x H. rewrite RP. cbn [snd]. rewrite got_app, got_1. destruct (nth_error_upd_cases _ _ _ _ H) as [[-> ->]|[N H']].
          -- cbn [res]. now rewrite (i_res I t E), Nat.eqb_refl.
          -- rewrite (i_res I k H'). destruct (Nat.eqb_spec t k); [congruence|]. now rewrite app_nil_r.
        * intros _. now rewrite RP.
        * intros k x H NC. destruct (nth_error_upd_cases _ _ _ _ H) as [[-> ->]|[N H']]; [cbn in NC; congruence|].
          pose proof (i_lock I k H' NC). congruence.
        * discriminate.
        * intros k o0 H. apply in_app_or in H. destruct H as [H|[H|[]]]; [now apply (i_np I k o0)|]. injection H as <- <-. auto.
      + destruct (f (src y)) as [s' vs] eqn:F. injection 1 as <-.
        constructor; cbn [ths lock src log].
        * rewrite upd_length. apply (i_len I).
        * intros k x H. destruct (nth_error_upd_cases _ _ _ _ H) as [[-> ->]|[N H']]; [|apply (i_prog I k H')].
          rewrite (i_prog I t E). unfold cur_ops. rewrite C. reflexivity.
        * intros k x H. destruct (nth_error_upd_cases _ _ _ _ H) as [[-> ->]|[N H']]; [|apply (i_res I k H')]. apply (i_res I t E).
        * congruence.
        * intros k x H NC. destruct (nth_error_upd_cases _ _ _ _ H) as [[-> ->]|[N H']]; [exact LK|]. now apply (i_lock I k H').
        * intros k K. assert (k = t) by congruence. subst k.
          exists (mkth (prog th) (Some (o, fs, acc ++ vs)) (res th)), o, fs, (acc ++ vs), (done ++ [f]).
          split; [eapply nth_error_upd_same; exact E|]. split; [reflexivity|]. split; [rewrite B, <- app_assoc; reflexivity|].
          rewrite run_body_app, R. cbn. rewrite F. cbn. now rewrite app_nil_r.
        * apply (i_np I).
    - destruct (prog th) as [|[o|] p] eqn:PR; [discriminate| |].
      + destruct (lock y) as [k|] eqn:LK; [discriminate|]. injection 1 as <-.
        constructor; cbn [ths lock src log].
        * rewrite upd_length. apply (i_len I).
        * intros k x H. destruct (nth_error_upd_cases _ _ _ _ H) as [[-> ->]|[N H']]; [|apply (i_prog I k H')].
          rewrite (i_prog I t E). unfold cur_ops. rewrite C, PR. reflexivity.
        * intros k x H. destruct (nth_error_upd_cases _ _ _ _ H) as [[-> ->]|[N H']]; [|apply (i_res I k H')]. apply (i_res I t E).
        * discriminate.
        * intros k x H NC. destruct (nth_error_upd_cases _ _ _ _ H) as [[-> ->]|[N H']]; [reflexivity|].
          pose proof (i_lock I k H' NC). congruence.
        * intros k K. injection K as <-. exists (mkth p (Some (o, body o, [])) (res th)), o, (body o), [], [].
          split; [eapply nth_error_upd_same; exact E|]. split; [reflexivity|]. split; [reflexivity|].
          cbn. now rewrite (i_idle I LK).
        * apply (i_np I).
      + injection 1 as <-. constructor; cbn [ths lock src log].
        * rewrite upd_length. apply (i_len I).
        * intros k x H. destruct (nth_error_upd_cases _ _ _ _ H) as [[-> ->]|[N H']]; [|apply (i_prog I k H')].
          rewrite (i_prog I t E). unfold cur_ops. rewrite C, PR. reflexivity.
        * intros k x H. destruct (nth_error_upd_cases _ _ _ _ H) as [[-> ->]|[N H']]; [|apply (i_res I k H')]. apply (i_res I t E).
        * apply (i_idle I).
        * intros k x H NC. destruct (nth_error_upd_cases _ _ _ _ H) as [[-> ->]|[N H']]; [cbn in NC; congruence|]. now apply (i_lock I k H').
        * intros k K. destruct (i_cur I K) as (th' & o' & fs' & acc' & done & E' & C' & B & R).
          exists th', o', fs', acc', done. repeat split; auto.
          rewrite nth_error_upd. destruct (Nat.eqb_spec t k) as [->|]; [|exact E']. congruence.
        * apply (i_np I).
  Qed.
  Lemma inv_exec s0 ps sched : forall y, inv s0 ps y -> inv s0 ps (exec y sched).
  Proof.
    induction sched as [|t r IH]; intros y I; cbn; auto. apply IH. destruct (step y t) eqn:E; auto. eapply inv_step; eauto.
  Qed.

  Lemma linearizable (s0 : St) (ps : list (list cmd)) sched : let y := exec (init s0 ps) sched in
    let '(s, vals) := replay (log y) s0 in
    (lock y = None -> src y = s) /\
    forall t th, nth_error (ths y) t = Some th ->
      res th = got t vals /\ (exists rest, sections (nth t ps []) = ops_of t (log y) ++ rest) /\
      (cur th = None -> prog th = [] -> ops_of t (log y) = sections (nth t ps [])).
  Proof.
    intros y. pose proof (inv_exec sched (inv_init s0 ps)) as I. fold y in I. destruct (replay (log y) s0) as [s vals] eqn:R.
    split.
    - intros L. rewrite (i_idle I L), R. reflexivity.
    - intros t th H. split; [rewrite (i_res I t H), R; reflexivity|]. split.
      + eexists. exact (i_prog I t H).
      + intros C P. rewrite (i_prog I t H). unfold cur_ops. rewrite C, P. cbn. now rewrite app_nil_r.
  Qed.
  Lemma exclusive (s0 : St) (ps : list (list cmd)) sched t t' th th' : let y := exec (init s0 ps) sched in
    nth_error (ths y) t = Some th -> nth_error (ths y) t' = Some th' -> cur th <> None -> cur th' <> None -> t = t'.
  Proof.
    intros y E E' C C'. pose proof (inv_exec sched (inv_init s0 ps)) as I. fold y in I.
    pose proof (i_lock I t E C). pose proof (i_lock I t' E' C'). congruence.
  Qed.
  (* nobody is blocked for ever: while a goroutine has something to do, some goroutine can act *)
  Lemma progress (s0 : St) (ps : list (list cmd)) sched : let y := exec (init s0 ps) sched in
    (forall p o, In p ps -> In (CS o) p -> panics o = false) ->
    (forall t, step y t = None) -> forall t th, nth_error (ths y) t = Some th -> cur th = None /\ prog th = [].
  Proof.
    intros y NP ST t th E. pose proof (inv_exec sched (inv_init s0 ps)) as I. fold y in I.
    assert (SEC : forall (p : list cmd) o, In o (sections p) -> In (CS o) p).
    { clear. induction p as [|[o'|] p IH]; cbn; intros o H; auto. destruct H as [->|H]; auto. }
    assert (L : lock y = None).
    { destruct (lock y) as [k|] eqn:LK; [|reflexivity]. exfalso.
      destruct (i_cur I LK) as (th' & o & fs & acc & done & E' & C' & B & R). pose proof (ST k) as X. unfold step in X.
      rewrite E', C' in X. destruct fs as [|f fs]; [|destruct (f (src y)); discriminate].
      assert (P : panics o = false).
      { apply (NP (nth k ps [])).
        - apply nth_In. rewrite <- (i_len I). apply nth_error_Some. congruence.
        - apply SEC. rewrite (i_prog I k E'). unfold cur_ops. rewrite C'. apply in_or_app. right. now left. }
      rewrite P in X. discriminate. }
    assert (C : cur th = None).
    { destruct (cur th) eqn:C; [|reflexivity]. assert (X : cur th <> None) by congruence. pose proof (i_lock I t E X). congruence. }
    split; [exact C|]. pose proof (ST t) as X. unfold step in X. rewrite E, C in X.
    destruct (prog th) as [|[o|] p]; [reflexivity| |discriminate]. rewrite L in X. discriminate.
  Qed.
  Lemma panic_locks (s0 : St) (ps : list (list cmd)) sched t th o acc sched' : let y := exec (init s0 ps) sched in
    nth_error (ths y) t = Some th -> cur th = Some (o, [], acc) -> panics o = true ->
    log (exec y sched') = log y /\ src (exec y sched') = src y /\ lock (exec y sched') = Some t.
  Proof.
    intros y E C P. pose proof (inv_exec sched (inv_init s0 ps)) as I. fold y in I. clearbody y. clear sched.
    assert (L : lock y = Some t) by (apply (i_lock I t E); congruence).
    revert y E I L. induction sched' as [|k r IH]; intros y E I L; cbn [exec]; [auto|].
    destruct (step y k) as [y'|] eqn:ST; [|now apply IH].
    assert (X : exists th', nth_error (ths y) k = Some th' /\ cur th' = None /\ k <> t /\ exists p, prog th' = Clone _ _ :: p).
    { unfold step in ST. destruct (nth_error (ths y) k) as [th'|] eqn:E'; [|discriminate]. exists th'. split; [reflexivity|].
      destruct (cur th') as [[[o' fs'] a']|] eqn:C'.
      - assert (k = t) by (assert (Z : cur th' <> None) by congruence; pose proof (i_lock I k E' Z); congruence). subst k.
        rewrite E in E'. injection E' as <-. rewrite C in C'. injection C' as <- <- <-. rewrite P in ST. discriminate.
      - split; [reflexivity|]. split; [intros ->; rewrite E in E'; injection E' as <-; congruence|].
        destruct (prog th') as [|[o'|] p]; [discriminate| |eauto]. rewrite L in ST. discriminate. }
    destruct X as (th' & E' & C' & N & p & PR).
    pose proof (inv_step k I ST) as I'. unfold step in ST. rewrite E', C', PR in ST. injection ST as <-.
    apply (IH (mksys _ _ _ _ _)); [|exact I'|exact L]. cbn [ths].
    rewrite nth_error_upd. destruct (Nat.eqb_spec k t); [contradiction|exact E].
  Qed.
  (* a clone made while nobody is in a critical section continues the stream *)
  Lemma clone_ok (s0 : St) (ps : list (list cmd)) sched t th p : let y := exec (init s0 ps) sched in
    nth_error (ths y) t = Some th -> cur th = None -> prog th = Clone _ _ :: p -> lock y = None ->
    exists y', step y t = Some y' /\ clones y' = clones y ++ [(t, fst (replay (log y) s0))] /\ src y' = src y.
  Proof.
    intros y E C P L. pose proof (inv_exec sched (inv_init s0 ps)) as I. fold y in I.
    unfold step. rewrite E, C, P. eexists. split; [reflexivity|]. cbn. rewrite (i_idle I L). auto.
  Qed.
  (* clones never change *)
  Lemma clone_fixed sched : forall (y : sys), exists l, clones (exec y sched) = clones y ++ l.
  Proof.
    induction sched as [|t r IH]; intros y; cbn; [exists []; now rewrite app_nil_r|].
    destruct (IH (match step y t with Some y' => y' | None => y end)) as [l ->].
    assert (X : exists l', clones (match step y t with Some y' => y' | None => y end) = clones y ++ l').
    { unfold step. destruct (nth_error (ths y) t) as [th|]; [|exists []; now rewrite app_nil_r].
      destruct (cur th) as [[[o [|f fs]] acc]|].
      - destruct (panics o); exists []; cbn; now rewrite app_nil_r.
      - destruct (f (src y)). exists []. cbn. now rewrite app_nil_r.
      - destruct (prog th) as [|[o|] p]; [| destruct (lock y) |]; try (exists []; cbn; now rewrite app_nil_r). eexists. reflexivity. }
    destruct X as [l' ->]. exists (l' ++ l). now rewrite app_assoc.
  Qed.

  (* ----------------------------------------------------- draws only *)
  Variable draw : list micro.
  Notation after := (after draw). Notation stream := (stream draw).
  Lemma after_S k s : after (S k) s = fst (run_body draw (after k s)).
  Proof. revert s. induction k as [|k IH]; intros s; [reflexivity|]. cbn [after] in *. now rewrite IH. Qed.
  Lemma replay_draws (l : list (nat * op)) s : (forall t o, In (t, o) l -> body o = draw) ->
    replay l s = (after (length l) s, map (fun k => (fst (nth k l (0, mkop draw false)), stream s k)) (seq 0 (length l))).
  Proof.
    induction l as [|[t o] l IH] using rev_ind; intros H; [reflexivity|].
    rewrite replay_app, IH by (intros; eapply H; apply in_or_app; left; eauto). cbn [fst snd replay].
    rewrite (H t o) by (apply in_or_app; right; now left).
    destruct (run_body draw (after (length l) s)) as [s1 v1] eqn:R. cbn [fst snd].
    rewrite app_length. cbn [length]. rewrite Nat.add_1_r, after_S, R, seq_S, map_app. cbn. f_equal. f_equal.
    - apply map_ext_in. intros k K. apply in_seq in K. now rewrite app_nth1 by lia.
    - rewrite app_nth2, Nat.sub_diag by lia. cbn. unfold stream. now rewrite R.
  Qed.
  Lemma draws_stream (s0 : St) (ps : list (list cmd)) sched : (forall p c, In p ps -> In c p -> c = CS (mkop draw false)) ->
    let y := exec (init s0 ps) sched in
    let owner := map fst (log y) in
    (lock y = None -> src y = after (length owner) s0) /\
    forall t th, nth_error (ths y) t = Some th ->
      res th = concat (map (stream s0) (filter (fun k => nth k owner 0 =? t) (seq 0 (length owner)))).
  Proof.
    intros D y owner. pose proof (inv_exec sched (inv_init s0 ps)) as I. fold y in I.
    assert (SEC : forall p o, In p ps -> In o (sections p) -> body o = draw).
    { intros p o P. assert (X : forall q, (forall c, In c q -> c = CS (mkop draw false)) -> In o (sections q) -> body o = draw).
      { induction q as [|[o'|] q IH]; cbn; intros Q H; [contradiction| |apply IH; auto].
        destruct H as [<-|H]; [|apply IH; auto]. assert (Y := Q (CS o') (or_introl eq_refl)). now injection Y as ->. }
      apply X. intros c. now apply D. }
    assert (LG : forall t o, In (t, o) (log y) -> body o = draw).
    { intros t o H. destruct (i_np I _ _ H) as [_ T]. apply (SEC (nth t ps [])); [now apply nth_In|].
      rewrite <- (i_len I) in T. apply nth_error_Some in T. destruct (nth_error (ths y) t) as [th|] eqn:E; [|congruence].
      rewrite (i_prog I t E). apply in_or_app. left. unfold ops_of. apply in_map_iff. exists (t, o). split; auto.
      apply filter_In. split; auto. apply Nat.eqb_refl. }
    pose proof (replay_draws _ s0 LG) as R. unfold owner. rewrite map_length.
    split; [intros L; now rewrite (i_idle I L), R|].
    intros t th E. rewrite (i_res I t E), R. cbn [snd]. unfold got. f_equal.
    assert (X : forall ks, (forall k, In k ks -> k < length (log y)) ->
      map snd (filter (fun x : nat * list V => fst x =? t) (map (fun k => (fst (nth k (log y) (0, mkop draw false)), stream s0 k)) ks)) =
      map (stream s0) (filter (fun k => nth k (map fst (log y)) 0 =? t) ks)).
    { induction ks as [|k ks IH]; intros K; [reflexivity|]. cbn [map filter fst].
      assert (Y : nth k (map fst (log y)) 0 = fst (nth k (log y) (0, mkop draw false))).
      { change 0 with (fst (0, mkop draw false)) at 1. apply map_nth. }
      rewrite Y. destruct (fst (nth k (log y) (0, mkop draw false)) =? t); cbn [map snd]; rewrite IH; auto; intros; apply K; now right. }
    apply X. intros k K. apply in_seq in K. lia.
  Qed.
  (* the clone's own stream *)
  Lemma after_after a b s : after a (after b s) = after (b + a) s.
  Proof. revert s. induction b as [|b IH]; intros s; [reflexivity|]. cbn [after Nat.add]. apply IH. Qed.
  Lemma stream_after n s k : stream (after n s) k = stream s (n + k).
  Proof. unfold stream. now rewrite after_after. Qed.
End P.
