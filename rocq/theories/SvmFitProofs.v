(* Proofs about SvmFitModel.v. *)
From Verif Require Import Common QCommon SvmModel SvmFitModel.
Open Scope Q_scope.

(* what a training step has to satisfy: it draws at most one number, the one
   with its own count *)
Definition draws_ok (step : tstep) : Prop :=
  forall rnd st i st', step rnd st i = Some st' -> srk st' = srk st \/ srk st' = S (srk st).
Definition draws_local (step : tstep) : Prop :=
  forall rnd rnd' st i, rnd (srk st) = rnd' (srk st) -> step rnd st i = step rnd' st i.
Definition draws_shown (step : tstep) : Prop :=
  forall rnd rnd' st i st', step rnd st i = Some st' -> srk st' = srk st -> step rnd' st i = Some st'.
Definition panic_shown (step : tstep) : Prop := forall rnd rnd' st i, step rnd st i = None -> step rnd' st i = None.

Lemma svc_ok m Y C Epsilon Tol K : let s := svc_step m Y C Epsilon Tol K in draws_ok s /\ draws_local s /\ draws_shown s /\ panic_shown s.
Proof.
  cbv zeta. unfold svc_step. repeat split.
  - intros rnd st i st' H. apply (f_equal (option_map srk)) in H. revert H. unfold smo_step. cbv zeta. destruct (_ || _)%bool; [|intros [= <-]; auto].
    destruct (Nat.leb m 1); [discriminate|]. destruct (Qeq_bool _ _); [intros [= <-]; auto|]. destruct (Qle_bool _ _); [intros [= <-]; auto|]. destruct (Qltb _ Tol); intros [= <-]; auto.
  - intros rnd rnd' st i H. unfold smo_step. now rewrite H.
  - intros rnd rnd' st i st' H E. assert (Z := H). apply (f_equal (option_map srk)) in Z. cbn [option_map] in Z. rewrite E in Z. revert H Z. unfold smo_step. cbv zeta.
    destruct (_ || _)%bool; [|auto]. intros _ H. exfalso. revert H.
    destruct (Nat.leb m 1); [discriminate|]. destruct (Qeq_bool _ _); [cbn [option_map srk]; intros [= H]; lia|]. destruct (Qle_bool _ _); [cbn [option_map srk]; intros [= H]; lia|]. destruct (Qltb _ Tol); cbn [option_map srk]; intros [= H]; lia.
  - intros rnd rnd' st i. unfold smo_step. cbv zeta. destruct (_ || _)%bool; [|discriminate]. destruct (Nat.leb m 1); [auto|].
    destruct (Qeq_bool _ _); [discriminate|]. destruct (Qle_bool _ _); [discriminate|]. destruct (Qltb _ Tol); discriminate.
Qed.
Lemma svr_ok m Y C Epsilon Tol K : let s := svr_tstep m Y C Epsilon Tol K in draws_ok s /\ draws_local s /\ draws_shown s /\ panic_shown s.
Proof.
  cbv zeta. unfold svr_tstep. repeat split.
  - intros rnd st i st' H. apply (f_equal (option_map srk)) in H. revert H. unfold svr_step. cbv zeta. destruct (_ || _)%bool; [|intros [= <-]; auto].
    destruct (Nat.leb m 1); [discriminate|]. destruct (svr_newj _ _ _ _ _ _ _ _); [|intros [= <-]; auto]. destruct (_ || _)%bool; cbn [option_map srk]; intros [= <-]; auto.
  - intros rnd rnd' st i H. unfold svr_step. now rewrite H.
  - intros rnd rnd' st i st' H E. assert (Z := H). apply (f_equal (option_map srk)) in Z. cbn [option_map] in Z. rewrite E in Z. revert H Z. unfold svr_step. cbv zeta.
    match goal with |- (if ?c then _ else _) = _ -> _ => destruct c; [|auto] end. intros _ H. exfalso. revert H.
    destruct (Nat.leb m 1); [discriminate|]. destruct (svr_newj _ _ _ _ _ _ _ _); [|cbn [option_map srk]; intros [= H]; lia]. match goal with |- option_map srk (if ?c then _ else _) = _ -> _ => destruct c end; cbn [option_map srk]; intros [= H]; lia.
  - intros rnd rnd' st i. unfold svr_step. cbv zeta. match goal with |- (if ?c then _ else _) = _ -> _ => destruct c; [|discriminate] end. destruct (Nat.leb m 1); [auto|].
    destruct (svr_newj _ _ _ _ _ _ _ _); [|discriminate]. match goal with |- (if ?c then _ else _) = _ -> _ => destruct c end; discriminate.
Qed.

(* ------------------------------------------------- one job against the loop *)
Section Gen.
  Variables m maxp : nat.
  Variable step : tstep.
  Variable rnd : nat -> nat.
  Definition gostep (acc : option smo) (i : nat) : option smo := match acc with Some st => step rnd st i | None => None end.
  Fixpoint gen_loop (fuel : nat) (p : nat) (st : smo) : option (option smo) :=
    if Nat.leb maxp p then Some (Some st)
    else match fuel with
    | O => None
    | S f =>
      match fold_left gostep (seq 0 m) (Some (mksmo (sal st) (sb st) 0 false (srk st))) with
      | None => Some None
      | Some st' =>
        if negb (skkt st') then Some (Some st')
        else gen_loop f (if Nat.eqb (snch st') 0 then S p else 0%nat) st'
      end
    end.
  Fixpoint jrun (n : nat) (j : job) : job := match n with O => j | S n => jrun n (job_step m maxp step rnd j) end.
  Lemma jrun_snoc n : forall j, jrun (S n) j = job_step m maxp step rnd (jrun n j).
  Proof. induction n as [|n IH]; intros j; [reflexivity|]. cbn [jrun] in *. now rewrite <- IH. Qed.
  Lemma jrun_end n : forall j r, jend j = Some r -> jrun n j = j.
  Proof. induction n as [|n IH]; intros j r H; [reflexivity|]. cbn [jrun]. unfold job_step. rewrite H. eapply IH; eauto. Qed.
  Lemma gfold_None l : fold_left gostep l None = None.
  Proof. induction l; auto. Qed.
  Definition visit (j : job) : job :=
    match step rnd (jst j) (ji j) with
    | None => mkjob (jp j) (ji j) (jst j) (Some None)
    | Some st => job_close m (mkjob (jp j) (S (ji j)) st None)
    end.
  Definition rest (fuel : nat) (j : job) : option (option smo) :=
    match fold_left gostep (seq (ji j) (m - ji j)) (Some (jst j)) with
    | None => Some None
    | Some st' => if negb (skkt st') then Some (Some st') else gen_loop fuel (if Nat.eqb (snch st') 0 then S (jp j) else 0%nat) st'
    end.
  Definition whole (fuel : nat) (j : job) : option (option smo) := if Nat.eqb (ji j) 0 then gen_loop fuel (jp j) (jst j) else rest fuel j.
  Lemma visit_rest n r : (forall j, jend j = None -> (ji j < m)%nat -> jend (jrun n j) = Some r -> exists fuel, whole fuel j = Some r) ->
    forall j, jend j = None -> (ji j < m)%nat -> jend (jrun n (visit j)) = Some r -> exists fuel, rest fuel j = Some r.
  Proof.
    intros IH j EN HI H. unfold rest. replace (m - ji j)%nat with (S (m - S (ji j))) by lia. cbn [seq fold_left gostep].
    unfold visit in H. destruct (step rnd (jst j) (ji j)) as [st|].
    2:{ exists 0%nat. rewrite gfold_None. erewrite jrun_end in H by reflexivity. exact H. }
    destruct (Nat.eq_dec (S (ji j)) m) as [E|E].
    - replace (m - S (ji j))%nat with 0%nat by lia. cbn [seq fold_left]. unfold job_close in H. cbn [ji jst jp] in H.
      rewrite E, Nat.eqb_refl in H. destruct (negb (skkt st)).
      + exists 0%nat. erewrite jrun_end in H by reflexivity. exact H.
      + apply IH in H; [|reflexivity|cbn [ji]; lia]. destruct H as (fuel & W). exists fuel. exact W.
    - unfold job_close in H. cbn [ji] in H. destruct (Nat.eqb_spec (S (ji j)) m); [contradiction|].
      apply IH in H; [|reflexivity|cbn [ji]; lia]. destruct H as (fuel & W). exists fuel. exact W.
  Qed.
  Lemma run_whole n r : forall j, jend j = None -> (ji j < m)%nat -> jend (jrun n j) = Some r -> exists fuel, whole fuel j = Some r.
  Proof.
    induction n as [|n IH]; intros j EN HI H; [cbn [jrun] in H; congruence|]. cbn [jrun] in H. unfold job_step in H. rewrite EN in H.
    unfold whole, job_open in *. destruct (Nat.eqb_spec (ji j) 0) as [Z|Z].
    - destruct (Nat.leb_spec maxp (jp j)) as [L|L]; cbn [jend] in H.
      + exists 0%nat. cbn [gen_loop]. destruct (Nat.leb_spec maxp (jp j)); [|lia]. erewrite jrun_end in H by reflexivity. exact H.
      + destruct (visit_rest n r IH (mkjob (jp j) 0 (mksmo (sal (jst j)) (sb (jst j)) 0 false (srk (jst j))) None) eq_refl ltac:(cbn [ji]; lia) H) as (fuel & W).
        exists (S fuel). cbn [gen_loop]. destruct (Nat.leb_spec maxp (jp j)); [lia|]. unfold rest in W. cbn [ji jst jp] in W. rewrite Nat.sub_0_r in W. exact W.
    - rewrite EN in H. apply (visit_rest n r IH j EN HI H).
  Qed.
End Gen.
Lemma gen_smo m Y C Epsilon Tol K rnd maxp fuel : forall p st, gen_loop m maxp (svc_step m Y C Epsilon Tol K) rnd fuel p st = smo_loop m Y C Epsilon Tol K rnd fuel maxp p st.
Proof.
  induction fuel as [|fuel IH]; intros p st; [reflexivity|]. cbn [gen_loop smo_loop]. destruct (Nat.leb maxp p); [reflexivity|].
  change (gostep (svc_step m Y C Epsilon Tol K) rnd) with (ostep m Y C Epsilon Tol K rnd). destruct (fold_left _ _ _); [|reflexivity]. destruct (negb _); [reflexivity|apply IH].
Qed.
Lemma gen_svr m Y C Epsilon Tol K rnd maxp fuel : forall p st, gen_loop m maxp (svr_tstep m Y C Epsilon Tol K) rnd fuel p st = svr_loop m Y C Epsilon Tol K rnd fuel maxp p st.
Proof.
  induction fuel as [|fuel IH]; intros p st; [reflexivity|]. cbn [gen_loop svr_loop]. destruct (Nat.leb maxp p); [reflexivity|].
  change (gostep (svr_tstep m Y C Epsilon Tol K) rnd) with (svr_ostep m Y C Epsilon Tol K rnd). destruct (fold_left _ _ _); [|reflexivity]. destruct (negb _); [reflexivity|apply IH].
Qed.

(* --------------------------------------------------- all jobs, any schedule *)
Definition step_ok (s : tstep) : Prop := draws_ok s /\ draws_local s /\ draws_shown s /\ panic_shown s.
Lemma job_step_cases m maxp s v j : step_ok s -> let j' := job_step m maxp s (fun _ => v) j in
  (srk (jst j') = srk (jst j) /\ forall rnd, job_step m maxp s rnd j = j') \/
  (srk (jst j') = S (srk (jst j)) /\ forall rnd, rnd (srk (jst j)) = v -> job_step m maxp s rnd j = j').
Proof.
  intros (D1 & D2 & D3 & D4). cbv zeta. unfold job_step. destruct (jend j) eqn:EN; [left; auto|].
  assert (SO : srk (jst (job_open maxp j)) = srk (jst j)) by (unfold job_open; destruct (Nat.eqb (ji j) 0); [destruct (Nat.leb maxp (jp j))|]; reflexivity).
  destruct (jend (job_open maxp j)) eqn:EO; [left; split; [exact SO|reflexivity]|].
  set (jo := job_open maxp j) in *. destruct (s (fun _ => v) (jst jo) (ji jo)) as [st|] eqn:ST.
  - assert (SC : srk (jst (job_close m (mkjob (jp jo) (S (ji jo)) st None))) = srk st).
    { unfold job_close. cbn [ji jst jp]. destruct (Nat.eqb (S (ji jo)) m); [destruct (negb (skkt st))|]; reflexivity. }
    rewrite SC, <- SO. destruct (D1 _ _ _ _ ST) as [E|E]; [left|right]; (split; [exact E|]).
    + intros rnd. now rewrite (D3 _ rnd _ _ _ ST E).
    + intros rnd Hr. rewrite (D2 rnd (fun _ => v) (jst jo) (ji jo)) by exact Hr. now rewrite ST.
  - left. split; [exact SO|]. intros rnd. now rewrite (D4 _ rnd _ _ ST).
Qed.

Section Fit.
  Variables m maxp : nat.
  Variable steps : nat -> tstep.
  Variable stream : nat -> nat.
  Hypothesis OK : forall k, step_ok (steps k).
  (* the numbers a job has drawn, as positions in the stream *)
  Definition job_inv (n pos k : nat) (j : job) : Prop := exists (d : list nat) (c : nat),
    length d = srk (jst j) /\ StronglySorted lt d /\ (forall t, In t d -> (t < pos)%nat) /\ (n = 1%nat -> d = seq 0 pos) /\
    forall rnd, (forall t, (t < length d)%nat -> rnd t = stream (nth t d 0%nat)) -> jrun m maxp (steps k) rnd c (job0 m) = j.
  Definition fit_inv (n : nat) (s : fitst) : Prop := length (fjobs s) = n /\ forall k j, nth_error (fjobs s) k = Some j -> job_inv n (fpos s) k j.
  Lemma job_inv_mono n pos pos' k j : (pos <= pos')%nat -> (n = 1%nat -> pos = pos') -> job_inv n pos k j -> job_inv n pos' k j.
  Proof.
    intros L E (d & c & A & B & D & F & G). exists d, c. repeat split; auto.
    - intros t Ht. specialize (D t Ht). lia.
    - intros H1. rewrite <- (E H1). auto.
  Qed.
  Lemma sorted_snoc d x : StronglySorted lt d -> (forall t, In t d -> (t < x)%nat) -> StronglySorted lt (d ++ [x]).
  Proof.
    induction 1 as [|a d S IH F]; intros H; [repeat constructor|]. cbn [app]. constructor.
    - apply IH. intros t Ht. apply H. now right.
    - apply Forall_app. split; [exact F|]. repeat constructor. apply H. now left.
  Qed.
  Lemma other_cell (l : list job) : forall k j q, (k < length l)%nat -> q <> k -> nth_error (firstn k l ++ j :: skipn (S k) l) q = nth_error l q.
  Proof.
    induction l as [|a l IH]; intros k j q L N; [cbn [length] in L; lia|]. destruct k as [|k].
    - destruct q as [|q]; [contradiction|]. reflexivity.
    - destruct q as [|q]; [reflexivity|]. cbn [firstn app nth_error]. cbn [length] in L. apply (IH k j q); lia.
  Qed.
  Lemma fit_step_inv n s k : fit_inv n s -> fit_inv n (fit_step m maxp steps stream s k).
  Proof.
    intros (L & H). unfold fit_step. destruct (nth_error (fjobs s) k) as [j|] eqn:EK; [|split; auto].
    assert (HK : (k < length (fjobs s))%nat) by (apply nth_error_Some; congruence).
    set (j' := job_step m maxp (steps k) (fun _ => stream (fpos s)) j).
    assert (LF : length (firstn k (fjobs s)) = k) by (rewrite firstn_length; lia).
    split; [cbn [fjobs]; rewrite app_length, LF; cbn [length]; rewrite skipn_length; lia|].
    cbn [fjobs fpos]. intros q jq EQ.
    destruct (H k j EK) as (d & c & A & B & D & F & G).
    destruct (job_step_cases m maxp (steps k) (stream (fpos s)) j (OK k)) as [(E1 & E2)|(E1 & E2)]; fold j' in E1, E2.
    - rewrite E1, Nat.sub_diag, Nat.add_0_r. destruct (Nat.eq_dec q k) as [->|NQ].
      + rewrite nth_error_app2 in EQ by lia. rewrite LF, Nat.sub_diag in EQ. cbn in EQ. injection EQ as <-. exists d, (S c). repeat split; auto; [congruence|].
        intros rnd Hr. rewrite jrun_snoc, (G rnd Hr). apply E2.
      + apply (H q). rewrite other_cell in EQ by auto. exact EQ.
    - replace (fpos s + (srk (jst j') - srk (jst j)))%nat with (S (fpos s)) by lia. destruct (Nat.eq_dec q k) as [->|NQ].
      + rewrite nth_error_app2 in EQ by lia. rewrite LF, Nat.sub_diag in EQ. cbn in EQ. injection EQ as <-. exists (d ++ [fpos s]), (S c). repeat split.
        * rewrite app_length. cbn [length]. lia.
        * apply sorted_snoc; auto.
        * intros t Ht. apply in_app_iff in Ht. destruct Ht as [Ht|[<-|[]]]; [specialize (D t Ht)|]; lia.
        * intros N1. rewrite (F N1). now rewrite seq_S.
        * intros rnd Hr. rewrite jrun_snoc. rewrite (G rnd).
          -- apply E2. specialize (Hr (length d)). rewrite app_length in Hr. cbn [length] in Hr. rewrite <- A. rewrite Hr by lia. rewrite app_nth2 by lia. rewrite Nat.sub_diag. reflexivity.
          -- intros t Ht. rewrite Hr by (rewrite app_length; lia). now rewrite app_nth1.
      + rewrite other_cell in EQ by auto. assert (HQ : (q < length (fjobs s))%nat) by (apply nth_error_Some; congruence).
        apply job_inv_mono with (pos := fpos s); [lia|intros N1; lia|]. exact (H q jq EQ).
  Qed.
  Lemma fit_exec_inv n sched : fit_inv n (fit_exec m maxp steps stream n sched).
  Proof.
    unfold fit_exec. assert (I0 : fit_inv n (mkfit 0 (repeat (job0 m) n))).
    { split; [apply repeat_length|]. intros k j EK. cbn [fjobs fpos] in *. apply nth_error_In, repeat_spec in EK. subst j. exists [], 0%nat. repeat split; auto; [constructor|intros t []]. }
    revert I0. generalize (mkfit 0 (repeat (job0 m) n)). induction sched as [|k sched IH]; intros s I0; [exact I0|]. cbn [fold_left]. apply IH. now apply fit_step_inv.
  Qed.
  Lemma fit_outputs n sched k r : (0 < m)%nat -> fit_result (fit_exec m maxp steps stream n sched) k = Some r ->
    exists pos fuel, (forall t t', (t < t')%nat -> (pos t < pos t')%nat) /\ (n = 1%nat -> forall t, pos t = t) /\
    gen_loop m maxp (steps k) (fun t => stream (pos t)) fuel 0 (smo0 m) = Some r.
  Proof.
    intros Hm R. destruct (fit_exec_inv n sched) as (L & I). set (s := fit_exec m maxp steps stream n sched) in *. unfold fit_result in R.
    destruct (nth_error (fjobs s) k) as [j|] eqn:EK; [|discriminate]. destruct (I k j EK) as (d & c & A & B & D & F & G).
    set (pos := fun t => if Nat.ltb t (length d) then nth t d 0%nat else (fpos s + (t - length d))%nat).
    assert (RUN : jrun m maxp (steps k) (fun t => stream (pos t)) c (job0 m) = j).
    { apply G. intros t Ht. unfold pos. destruct (Nat.ltb_spec t (length d)); [reflexivity|lia]. }
    assert (HE : jend (jrun m maxp (steps k) (fun t => stream (pos t)) c (job0 m)) = Some r) by now rewrite RUN.
    destruct (run_whole m maxp (steps k) _ c r (job0 m) eq_refl Hm HE) as (fuel & W). exists pos, fuel. split; [|split; [|exact W]].
    - intros t t' Ht. unfold pos. destruct (Nat.ltb_spec t (length d)) as [A1|A1], (Nat.ltb_spec t' (length d)) as [A2|A2]; try lia.
      + clear -B Ht A2. revert t t' Ht A2. induction B as [|a d S IH F]; intros t t' Ht A2; [cbn [length] in A2; lia|]. cbn [length] in A2.
        destruct t' as [|t']; [lia|]. destruct t as [|t]; cbn [nth].
        * rewrite Forall_forall in F. apply F. apply nth_In. lia.
        * apply IH; lia.
      + pose proof (D (nth t d 0%nat) (nth_In d 0%nat A1)). lia.
    - intros N1 t. unfold pos. rewrite (F N1). rewrite seq_length. destruct (Nat.ltb_spec t (fpos s)); [rewrite seq_nth by lia; lia|lia].
  Qed.
End Fit.
