(* Proofs about CloneModel (C219) *)
From Verif Require Import QCommon ScaleModel CloneModel.
Open Scope nat_scope.

Lemma nth_upd_ne (m : arrays) r q v : r <> q -> nth q (upd m r v) [] = nth q m [].
Proof.
  intros D. destruct (Nat.lt_ge_cases q (length m)) as [L|L]; [|rewrite !nth_overflow; auto; now rewrite upd_length]. apply nth_error_nth. rewrite nth_error_upd_other by exact D. now apply nth_error_nth'.
Qed.
Lemma put_spec : forall vals fresh m refs m' rs, put m refs vals fresh = Some (m', rs) -> (forall r, In r refs -> r < length m) ->
  length m <= length m' /\ (forall r, r < length m -> (forall q, In (q, false) (combine refs fresh) -> q <> r) -> nth r m' [] = nth r m []) /\
  (forall r, In r rs -> In r refs \/ length m <= r < length m').
Proof.
  induction vals as [|v vals IH]; intros fresh m refs m' rs E V.
  - cbn [put] in E. injection E as <- <-. split; [lia|]. split; [reflexivity|]. intros r [].
  - destruct fresh as [|b fresh]; cbn [put] in E; [injection E as <- <-; split; [lia|]; split; [reflexivity|]; intros r []|]. destruct b.
    + destruct (put (m ++ [v]) (tl refs) vals fresh) as [[m2 q]|] eqn:EP; [|discriminate]. injection E as <- <-.
      destruct (IH _ _ _ _ _ EP) as (L & O & R); [intros r Hr; rewrite app_length; cbn; assert (r < length m) by (apply V; destruct refs; [contradiction|now right]); lia|]. rewrite app_length in L, R. cbn [length] in L, R. split; [lia|]. split.
      * intros r Hr Hq. rewrite O; [now rewrite app_nth1| rewrite app_length; cbn; lia|]. intros x Hx. apply Hq. destruct refs; [contradiction|]. cbn [combine]. now right.
      * intros r [<-|Hr]; [right; lia|]. destruct (R r Hr) as [H|H]; [left; destruct refs; [contradiction|now right]|right; lia].
    + destruct refs as [|r0 refs]; [discriminate|]. cbn [tl] in E. destruct (put (upd m r0 v) refs vals fresh) as [[m2 q]|] eqn:EP; [|discriminate]. injection E as <- <-.
      destruct (IH _ _ _ _ _ EP) as (L & O & R); [intros r Hr; rewrite upd_length; apply V; now right|]. rewrite upd_length in L, O, R. split; [exact L|]. split.
      * intros r Hr Hq. rewrite O; [apply nth_upd_ne; apply Hq; now left|exact Hr|]. intros x Hx. apply Hq. now right.
      * intros r [<-|Hr]; [left; now left|]. destruct (R r Hr) as [H|H]; [left; now right|right; exact H].
Qed.
Lemma put_load : forall vals fresh m refs m' rs, length vals = length fresh -> put m refs vals fresh = Some (m', rs) -> (forall r, In r refs -> r < length m) -> NoDup refs -> NoDup rs /\ map (fun r => nth r m' []) rs = vals.
Proof.
  induction vals as [|v vals IH]; intros fresh m refs m' rs LV E V N; destruct fresh as [|b fresh]; try discriminate; cbn [put] in E; [injection E as <- <-; split; [constructor|reflexivity]|]. cbn [length] in LV. destruct b.
  - destruct (put (m ++ [v]) (tl refs) vals fresh) as [[m2 q]|] eqn:EP; [|discriminate]. injection E as <- <-.
    assert (V' : forall r, In r (tl refs) -> r < length m) by (intros r Hr; apply V; destruct refs; [contradiction|now right]).
    assert (V2 : forall r, In r (tl refs) -> r < length (m ++ [v])) by (intros r Hr; rewrite app_length; cbn; specialize (V' r Hr); lia).
    destruct (IH fresh _ _ _ _ (eq_add_S _ _ LV) EP V2) as [A B]; [destruct refs; [constructor|now inversion N]|]. destruct (put_spec _ _ _ _ _ _ EP V2) as (L & O & R). rewrite app_length in L, O, R. cbn [length] in L, O, R. split.
    + constructor; [|exact A]. intros I. destruct (R _ I) as [H|H]; [specialize (V' _ H)|]; lia.
    + cbn [map]. f_equal; [|exact B]. rewrite O; [rewrite app_nth2, Nat.sub_diag by lia; reflexivity|lia|]. intros x Hx. apply in_combine_l in Hx. specialize (V' x Hx). lia.
  - destruct refs as [|r0 refs]; [discriminate|]. cbn [tl] in E. destruct (put (upd m r0 v) refs vals fresh) as [[m2 q]|] eqn:EP; [|discriminate]. injection E as <- <-. inversion N as [|? ? N1 N2]; subst.
    assert (V2 : forall r, In r refs -> r < length (upd m r0 v)) by (intros r Hr; rewrite upd_length; apply V; now right).
    destruct (IH fresh _ _ _ _ (eq_add_S _ _ LV) EP V2 N2) as [A B]. destruct (put_spec _ _ _ _ _ _ EP V2) as (L & O & R). rewrite upd_length in L, O, R. assert (L0 : r0 < length m) by (apply V; now left). split.
    + constructor; [|exact A]. intros I. destruct (R _ I) as [H|H]; [contradiction|lia].
    + cbn [map]. f_equal; [|exact B]. rewrite O; [apply nth_error_nth; now apply nth_error_upd_same|exact L0|]. intros x Hx ->. apply in_combine_l in Hx. contradiction.
Qed.
Lemma put_fresh_total : forall vals fresh m refs, Forall (fun b => b = true) fresh -> exists w, put m refs vals fresh = Some w.
Proof.
  induction vals as [|v vals IH]; intros fresh m refs F; [cbn; eauto|]. destruct fresh as [|b fresh]; [cbn; eauto|]. inversion F; subst. cbn [put]. destruct (IH fresh (m ++ [v]) (tl refs) H2) as ([m2 q] & ->). eauto.
Qed.

Lemma partial_fit_cells k m s rows m' s' : partial_fit k m s rows = Some (m', s') -> (forall r, In r (s_refs s) -> r < length m) ->
  length m <= length m' /\ (forall r, r < length m -> ~ In r (s_refs s) -> nth r m' [] = nth r m []) /\ (forall r, In r (s_refs s') -> In r (s_refs s) \/ length m <= r < length m').
Proof.
  intros E V. unfold partial_fit in E. destruct rows as [|r0 rows]; [injection E as <- <-; split; [lia|]; split; [reflexivity|]; now left|].
  destruct (new_values k (load m s) (s_seen s) (r0 :: rows)) as [[v n]|]; [|discriminate]. destruct (put m (s_refs s) v (fresh_fields k s)) as [[m2 rs]|] eqn:EP; [|discriminate]. injection E as <- <-.
  destruct (put_spec _ _ _ _ _ _ EP V) as (L & O & R). split; [exact L|]. split; [|exact R]. intros r Hr Hn. apply O; [exact Hr|]. intros q Hq ->. apply in_combine_l in Hq. contradiction.
Qed.
Lemma partial_fit_fresh k m s rows m' s' : partial_fit k m s rows = Some (m', s') -> (forall r, In r (s_refs s) -> r < length m) -> Forall (fun b => b = true) (fresh_fields k s) ->
  forall r, r < length m -> nth r m' [] = nth r m [].
Proof.
  intros E V F r Hr. unfold partial_fit in E. destruct rows as [|r0 rows]; [now injection E as <- <-|].
  destruct (new_values k (load m s) (s_seen s) (r0 :: rows)) as [[v n]|]; [|discriminate]. destruct (put m (s_refs s) v (fresh_fields k s)) as [[m2 rs]|] eqn:EP; [|discriminate]. injection E as <- <-.
  destruct (put_spec _ _ _ _ _ _ EP V) as (_ & O & _). apply O; [exact Hr|]. intros q Hq. apply in_combine_r in Hq. rewrite Forall_forall in F. specialize (F _ Hq). discriminate.
Qed.
Definition is_robust (k : kind) : bool := match k with Robust _ _ => true | _ => false end.
Lemma fit_cells k m s rows m' s' : fit k m s rows = Some (m', s') -> (forall r, In r (s_refs s) -> r < length m) ->
  length m <= length m' /\ (forall r, r < length m -> (is_robust k = false \/ ~ In r (s_refs s)) -> nth r m' [] = nth r m []) /\ (forall r, In r (s_refs s') -> In r (s_refs s) \/ length m <= r < length m').
Proof.
  intros E V. destruct k as [lo hi|sq nf|cols|ql qr]; cbn [fit is_robust] in *.
  - destruct (partial_fit_cells _ _ _ _ _ _ E V) as (L & _ & R). split; [exact L|]. split; [|exact R]. intros r Hr _. eapply partial_fit_fresh; eauto. cbn. repeat constructor.
  - destruct (partial_fit_cells _ _ _ _ _ _ E V) as (L & _ & R). split; [exact L|]. split; [|exact R]. intros r Hr _. eapply partial_fit_fresh; eauto. cbn. repeat constructor.
  - destruct (partial_fit_cells _ _ _ _ _ _ E) as (L & O & R).
    { intros r Hr. rewrite app_length. cbn in *. lia. } 
    rewrite app_length in L, O, R. cbn [length s_refs] in *. split; [lia|]. split.
    + intros r Hr _. rewrite O; [now rewrite app_nth1|lia|]. cbn. lia.
    + intros r Hr. right. destruct (R r Hr) as [[<-|[<-|[]]]|H]; lia.
  - destruct (partial_fit_cells _ _ _ _ _ _ E V) as (L & O & R). split; [exact L|]. split; [|exact R]. intros r Hr [H|H]; [discriminate|now apply O].
Qed.

(* ------------------------------------------------------------------ programs *)
Definition valid (w : world) : Prop := forall s, In s (snd w) -> forall r, In r (s_refs s) -> r < length (fst w).
Definition target (o : op) : nat := match o with Clone i => i | Fit i _ => i | PartialFit i _ => i end.
Definition is_clone (o : op) : bool := match o with Clone _ => true | _ => false end.
Definition is_partial (o : op) : bool := match o with PartialFit _ _ => true | _ => false end.
Lemma In_upd {A} (l : list A) i v x : In x (upd l i v) -> In x l \/ x = v.
Proof. revert i. induction l as [|a l IH]; intros [|i] H; cbn in *; auto; destruct H as [H|H]; auto. destruct (IH i H); auto. Qed.
Lemma step_valid k w o w' : valid w -> step k w o = Some w' -> valid w' /\ length (fst w) <= length (fst w').
Proof.
  intros V E. destruct w as [m ss]. destruct o as [i|i rows|i rows]; cbn [step] in E; destruct (nth_error ss i) as [s|] eqn:ES; try discriminate; assert (Vs : forall r, In r (s_refs s) -> r < length m) by (intros r Hr; apply (V s); [eapply nth_error_In; exact ES|exact Hr]).
  - injection E as <-. split; [|cbn; lia]. intros x Hx. cbn [fst snd] in *. apply in_app_or in Hx. destruct Hx as [Hx|[<-|[]]]; [now apply V|exact Vs].
  - destruct (fit k m s rows) as [[m' s']|] eqn:EF; [|discriminate]. injection E as <-. destruct (fit_cells _ _ _ _ _ _ EF Vs) as (L & _ & R). cbn [fst snd]. split; [|exact L].
    intros x Hx r Hr. cbn [fst snd] in *. apply In_upd in Hx. destruct Hx as [Hx| ->]; [specialize (V x Hx r Hr); cbn in V; lia|]. destruct (R r Hr) as [H|H]; [specialize (Vs r H); lia|lia].
  - destruct (partial_fit k m s rows) as [[m' s']|] eqn:EF; [|discriminate]. injection E as <-. destruct (partial_fit_cells _ _ _ _ _ _ EF Vs) as (L & _ & R). cbn [fst snd]. split; [|exact L].
    intros x Hx r Hr. cbn [fst snd] in *. apply In_upd in Hx. destruct Hx as [Hx| ->]; [specialize (V x Hx r Hr); cbn in V; lia|]. destruct (R r Hr) as [H|H]; [specialize (Vs r H); lia|lia].
Qed.
(* clones that are fitted from scratch *)
Lemma step_keeps k w o w' i : is_robust k = false -> valid w -> step k w o = Some w' -> is_partial o = false -> i < length (snd w) -> (is_clone o = true \/ target o <> i) -> holds w' i = holds w i /\ length (snd w) <= length (snd w').
Proof.
  intros K V E P Hi T. destruct w as [m ss]. cbn [snd] in Hi. unfold holds. destruct o as [j|j rows|j rows]; try discriminate; cbn [step] in E; destruct (nth_error ss j) as [s|] eqn:ES; try discriminate.
  - injection E as <-. cbn [fst snd]. rewrite nth_error_app1 by exact Hi. split; [reflexivity|rewrite app_length; lia].
  - destruct (fit k m s rows) as [[m' s']|] eqn:EF; [|discriminate]. injection E as <-. cbn [fst snd]. destruct T as [T|T]; [discriminate|]. cbn in T. rewrite nth_error_upd_other by exact T. split; [|now rewrite upd_length].
    assert (Vs : forall r, In r (s_refs s) -> r < length m) by (intros r Hr; apply (V s); [eapply nth_error_In; exact ES|exact Hr]).
    destruct (fit_cells _ _ _ _ _ _ EF Vs) as (_ & O & _). destruct (nth_error ss i) as [si|] eqn:Ei; [|reflexivity]. cbn [option_map]. do 2 f_equal. unfold load. apply map_ext_in. intros r Hr. apply O; [|now left]. apply (V si); [eapply nth_error_In; exact Ei|exact Hr].
Qed.
Lemma run_keeps k i : is_robust k = false -> forall l w w', valid w -> run k w l = Some w' -> i < length (snd w) -> (forall o, In o l -> is_partial o = false /\ (is_clone o = true \/ target o <> i)) -> holds w' i = holds w i.
Proof.
  intros K. induction l as [|o l IH]; intros w w' V E Hi H; cbn [run] in E; [now injection E as <-|]. destruct (step k w o) as [w1|] eqn:ES; [|discriminate]. destruct (H o (or_introl eq_refl)) as [H1 H2].
  destruct (step_keeps k w o w1 i K V ES H1 Hi H2) as [A B]. rewrite <- A. apply IH; auto; [now destruct (step_valid _ _ _ _ V ES)|lia|]. intros x Hx. apply H. now right.
Qed.

(* ------------------------------------------------------------------ clones made before fitting *)
(* scaler i of w behaves like the only scaler of w1 *)
Definition alone (k : kind) (s : scaler) (m : arrays) (s1 : scaler) (m1 : arrays) : Prop :=
  load m s = load m1 s1 /\ s_seen s = s_seen s1 /\ NoDup (s_refs s) /\ NoDup (s_refs s1) /\ (forall r, In r (s_refs s) -> r < length m) /\ (forall r, In r (s_refs s1) -> r < length m1).
Lemma load_length m s : length (load m s) = length (s_refs s).
Proof. apply map_length. Qed.
Lemma new_values_length k s v seen rows l n : new_values k v seen rows = Some (l, n) -> length l = length (fresh_fields k s).
Proof.
  unfold new_values. destruct k; cbn [fresh_fields]; rewrite ?repeat_length.
  - intros E. now injection E as <- _.
  - destruct (sd_partial_fit _ _ _ _); [|discriminate]. intros E. now injection E as <- _.
  - destruct (ma_partial_fit _ _); [|discriminate]. intros E. now injection E as <- _.
  - destruct (rb_fit _ _ _ _); [|discriminate]. intros E. now injection E as <- _.
Qed.
Lemma fresh_same k s s1 : length (s_refs s) = length (s_refs s1) -> s_seen s = s_seen s1 -> fresh_fields k s = fresh_fields k s1.
Proof. intros L E. destruct k; cbn [fresh_fields]; rewrite ?E; auto. destruct (s_refs s), (s_refs s1); auto; discriminate. Qed.
Lemma put_total : forall vals fresh m refs m1 refs1, length refs = length refs1 -> forall w, put m refs vals fresh = Some w -> exists w1, put m1 refs1 vals fresh = Some w1.
Proof.
  induction vals as [|v vals IH]; intros fresh m refs m1 refs1 L w E; [cbn; eauto|]. destruct fresh as [|b fresh]; [cbn; eauto|]. cbn [put] in *. assert (LT : length (tl refs) = length (tl refs1)) by (destruct refs, refs1; cbn in *; lia). destruct b.
  - destruct (put (m ++ [v]) (tl refs) vals fresh) as [[a b]|] eqn:EP; [|discriminate]. destruct (IH _ _ _ (m1 ++ [v]) _ LT _ EP) as ([c d] & ->). eauto.
  - destruct refs as [|r refs], refs1 as [|r1 refs1]; try discriminate. cbn [tl] in *. destruct (put (upd m r v) refs vals fresh) as [[a b]|] eqn:EP; [|discriminate]. destruct (IH _ _ _ (upd m1 r1 v) _ LT _ EP) as ([c d] & ->). eauto.
Qed.
Lemma partial_fit_alone k s m s1 m1 rows m' s' : alone k s m s1 m1 -> partial_fit k m s rows = Some (m', s') -> exists m1' s1', partial_fit k m1 s1 rows = Some (m1', s1') /\ alone k s' m' s1' m1'.
Proof.
  intros (EL & ES & N & N1 & V & V1) E. unfold partial_fit in *. destruct rows as [|r0 rows]; [injection E as <- <-; exists m1, s1; split; [reflexivity|repeat split; assumption]|].
  rewrite EL, ES in E. destruct (new_values k (load m1 s1) (s_seen s1) (r0 :: rows)) as [[v n]|] eqn:EN; [|discriminate]. pose proof (new_values_length _ s _ _ _ _ _ EN) as LV.
  assert (LR : length (s_refs s) = length (s_refs s1)) by (rewrite <- (load_length m), <- (load_length m1); now rewrite EL). pose proof (fresh_same k s s1 LR ES) as FS.
  destruct (put m (s_refs s) v (fresh_fields k s)) as [[m2 rs]|] eqn:EP; [|discriminate]. injection E as <- <-. destruct (put_total _ _ _ _ m1 (s_refs s1) LR _ EP) as ([m2' rs'] & EP'). rewrite FS in EP' at 1.
  rewrite EP'. do 2 eexists. split; [reflexivity|]. destruct (put_load _ _ _ _ _ _ LV EP V N) as [A B]. rewrite FS in LV. destruct (put_load _ _ _ _ _ _ LV EP' V1 N1) as [A' B'].
  destruct (put_spec _ _ _ _ _ _ EP V) as (Le & _ & R). destruct (put_spec _ _ _ _ _ _ EP' V1) as (Le' & _ & R').
  unfold alone, load. cbn [s_refs s_seen]. split; [now rewrite B, B'|]. split; [reflexivity|]. split; [exact A|]. split; [exact A'|]. split.
  - intros r Hr. destruct (R r Hr) as [H|H]; [specialize (V r H)|]; lia.
  - intros r Hr. destruct (R' r Hr) as [H|H]; [specialize (V1 r H)|]; lia.
Qed.
Lemma fit_alone k s m s1 m1 rows m' s' : alone k s m s1 m1 -> fit k m s rows = Some (m', s') -> exists m1' s1', fit k m1 s1 rows = Some (m1', s1') /\ alone k s' m' s1' m1'.
Proof.
  intros H E. destruct k as [lo hi|sq nf|cols|ql qr]; cbn [fit] in *.
  - apply (partial_fit_alone _ _ _ _ _ _ _ _) with (2 := E). destruct H as (A & _ & C). split; [exact A|]. split; [reflexivity|exact C].
  - apply (partial_fit_alone _ _ _ _ _ _ _ _) with (2 := E). destruct H as (A & _ & C). split; [exact A|]. split; [reflexivity|exact C].
  - apply (partial_fit_alone _ _ _ _ _ _ _ _) with (2 := E). destruct H as (_ & B & _). split; [|split; [exact B|]].
    + unfold load. cbn [s_refs map]. rewrite !app_nth2 by lia. rewrite !Nat.sub_diag, !(Nat.add_comm _ 1), !Nat.add_sub. reflexivity.
    + cbn [s_refs]. repeat split; try (repeat constructor; cbn; intuition lia); intros r Hr; rewrite app_length; cbn in *; lia.
  - exact (partial_fit_alone _ _ _ _ _ _ _ _ H E).
Qed.

Definition separate (w : world) : Prop := forall i j s t, i <> j -> nth_error (snd w) i = Some s -> nth_error (snd w) j = Some t -> forall r, In r (s_refs s) -> ~ In r (s_refs t).
Definition rename (o : op) : op := match o with Clone _ => Clone 0 | Fit _ rows => Fit 0 rows | PartialFit _ rows => PartialFit 0 rows end.
Definition own_ops (i : nat) (l : list op) : list op := map rename (filter (fun o => target o =? i) l).
(* each step writes only cells of its own scaler *)
Lemma step_other k w o w' : valid w -> separate w -> step k w o = Some w' -> is_clone o = false -> separate w' /\ length (snd w') = length (snd w) /\ forall i s, nth_error (snd w) i = Some s -> target o <> i -> nth_error (snd w') i = Some s /\ load (fst w') s = load (fst w) s.
Proof.
  intros V S E C. destruct w as [m ss].
  assert (G : forall j s m' s', nth_error ss j = Some s -> (length m <= length m' /\ (forall r, r < length m -> ~ In r (s_refs s) -> nth r m' [] = nth r m []) /\ (forall r, In r (s_refs s') -> In r (s_refs s) \/ length m <= r < length m')) ->
     separate (m', upd ss j s') /\ length (upd ss j s') = length ss /\ forall i t, nth_error ss i = Some t -> j <> i -> nth_error (upd ss j s') i = Some t /\ load m' t = load m t).
  { intros j s m' s' Ej (L & O & R). assert (Hj : j < length ss) by (apply nth_error_Some; congruence). split; [|split; [apply upd_length|]].
    - intros a b sa sb D Ea Eb r Hr Hr'. cbn [snd] in *. rewrite nth_error_upd in Ea, Eb.
      assert (X : forall i t q, i <> j -> nth_error ss i = Some t -> In q (s_refs t) -> In q (s_refs s') -> False).
      { intros i t q Di Et Hq Hq'. destruct (R q Hq') as [H|H]; [exact (S i j t s Di Et Ej q Hq H)|]. pose proof (V t (nth_error_In _ _ Et) q Hq) as Z. cbn in Z. lia. }
      destruct (Nat.eqb_spec j a) as [<-|Da], (Nat.eqb_spec j b) as [<-|Db]; [congruence| | |].
      + destruct (Nat.ltb_spec j (length ss)); [|lia]. injection Ea as <-. eapply X; [|exact Eb| |]; eauto.
      + destruct (Nat.ltb_spec j (length ss)); [|lia]. injection Eb as <-. eapply X; [|exact Ea| |]; eauto.
      + exact (S a b sa sb D Ea Eb r Hr Hr').
    - intros i t Et D. rewrite nth_error_upd_other by exact D. split; [exact Et|]. unfold load. apply map_ext_in. intros r Hr. apply O; [exact (V t (nth_error_In _ _ Et) r Hr)|]. intros H. apply (S i j t s) with r; auto. }
  destruct o as [j|j rows|j rows]; try discriminate; cbn [step] in E; destruct (nth_error ss j) as [s|] eqn:ES; try discriminate; assert (Vs : forall r, In r (s_refs s) -> r < length m) by (intros r Hr; apply (V s); [eapply nth_error_In; exact ES|exact Hr]).
  - destruct (fit k m s rows) as [[m' s']|] eqn:EF; [|discriminate]. injection E as <-. cbn [fst snd target]. apply (G j s m' s' ES). destruct (fit_cells _ _ _ _ _ _ EF Vs) as (A & B & D). split; [exact A|]. split; [|exact D]. intros r Hr Hn. apply B; auto.
  - destruct (partial_fit k m s rows) as [[m' s']|] eqn:EF; [|discriminate]. injection E as <-. cbn [fst snd target]. apply (G j s m' s' ES). exact (partial_fit_cells _ _ _ _ _ _ EF Vs).
Qed.
Lemma run_alone k i : forall l w w' s m1 s1, valid w -> separate w -> nth_error (snd w) i = Some s -> alone k s (fst w) s1 m1 -> run k w l = Some w' -> (forall o, In o l -> is_clone o = false) ->
  exists w1, run k (m1, [s1]) (own_ops i l) = Some w1 /\ holds w' i = holds w1 0.
Proof.
  induction l as [|o l IH]; intros w w' s m1 s1 V S Es A E H; cbn [run] in E.
  - injection E as <-. exists (m1, [s1]). split; [reflexivity|]. unfold holds. rewrite Es. cbn [nth_error option_map fst snd]. destruct A as (-> & -> & _). reflexivity.
  - destruct (step k w o) as [w2|] eqn:E2; [|discriminate]. pose proof (H o (or_introl eq_refl)) as C. destruct (step_other k w o w2 V S E2 C) as (S2 & _ & O2). destruct (step_valid k w o w2 V E2) as [V2 L2].
    unfold own_ops. cbn [filter]. destruct (Nat.eqb_spec (target o) i) as [T|T].
    + destruct w as [m ss]. destruct o as [j|j rows|j rows]; try discriminate; cbn [target] in T; subst j; cbn [fst snd step] in *; rewrite Es in E2; cbn [map rename run step nth_error].
      * destruct (fit k m s rows) as [[m' s']|] eqn:EF; [|discriminate]. injection E2 as <-. destruct (fit_alone _ _ _ _ _ _ _ _ A EF) as (m1' & s1' & -> & A'). cbn [upd].
        apply (IH (m', upd ss i s') w' s'); auto. cbn [snd]. apply nth_error_upd_same. apply nth_error_Some. congruence.
        intros x Hx. apply H. now right.
      * destruct (partial_fit k m s rows) as [[m' s']|] eqn:EF; [|discriminate]. injection E2 as <-. destruct (partial_fit_alone _ _ _ _ _ _ _ _ A EF) as (m1' & s1' & -> & A'). cbn [upd].
        apply (IH (m', upd ss i s') w' s'); auto. cbn [snd]. apply nth_error_upd_same. apply nth_error_Some. congruence.
        intros x Hx. apply H. now right.
    + destruct (O2 i s Es T) as [Es2 EL]. apply (IH w2 w' s); auto.
      * destruct A as (A1 & A2 & A3 & A4 & A5 & A6). rewrite <- EL in A1. repeat (split; [assumption|]). split; [|exact A6]. intros r Hr. specialize (A5 r Hr). lia.
      * intros x Hx. apply H. now right.
Qed.
Lemma run_clones k m : forall l n w, run k (m, repeat s_new (S n)) l = Some w -> (forall o, In o l -> is_clone o = true) -> exists n', w = (m, repeat s_new (S n')).
Proof.
  induction l as [|o l IH]; intros n w E H; cbn [run] in E; [injection E as <-; exists n; reflexivity|]. assert (C := H o (or_introl eq_refl)). destruct o as [i| |]; try discriminate. cbn [step] in E.
  destruct (nth_error (repeat s_new (S n)) i) as [s|] eqn:ES; [|discriminate]. apply nth_error_In, repeat_spec in ES. subst s. cbn [clone] in E. rewrite <- (repeat_cons n s_new) in E || idtac.
  apply (IH (S n)); [|intros x Hx; apply H; now right]. rewrite <- E. f_equal. f_equal. change [clone s_new] with (repeat s_new 1). rewrite <- repeat_app. f_equal. lia.
Qed.
