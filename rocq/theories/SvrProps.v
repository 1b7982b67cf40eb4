(* Properties C232-C236: how SVR training ends, what converged models satisfy,
   several outputs trained with one source of random numbers, and what one
   update of SVR does to the dual objective. *)
From Verif Require Import Common QCommon SvmModel SvmProofs SvmLoopProofs SvrProofs SvmFitModel SvmFitProofs SvrDualProofs.
From Coq Require Import Lqa.
Open Scope Q_scope.

(* C232: SVR.Fit returns.  Two samples: at most one update is ever made *)
Theorem C232_terminates_partial : forall Y C Epsilon Tol K rnd maxPasses, K 0%nat 1%nat == K 1%nat 0%nat -> 0 <= C -> 0 < Tol -> (forall t, rnd t = 0%nat) ->
  exists st, svr_loop 2 Y C Epsilon Tol K rnd (2 * maxPasses + 1) maxPasses 0 (smo0 2) = Some (Some st).
Proof. intros Y C Epsilon Tol K rnd maxp HK HC HT HR. now apply two_ends. Qed.
Print Assumptions C232_terminates_partial.
Example C232_example : exists st, svr_loop 2 (fun i => nth i [0; 4] 0) 1 (1 # 10) (1 # 1000) (fun i j => qn i * qn j) (fun _ => 0%nat) 7 3 0 (smo0 2) = Some (Some st) /\ sal st = [-1; 1].
Proof. eexists; split; vm_compute; reflexivity. Qed.
(* Four samples, linear kernel, the default C, Epsilon and Tol: for a stream of
   random numbers training repeats the same two states for ever *)
Theorem C232_terminates_refuted : exists x Y C Epsilon Tol rnd, let K i j := nth i x 0 * nth j x 0 in
  length x = 4%nat /\ 0 < C /\ 0 < Epsilon /\ 0 < Tol /\ (forall t, (rnd t < 4 - 1)%nat) /\
  forall fuel maxPasses, (0 < maxPasses)%nat -> svr_loop 4 Y C Epsilon Tol K rnd fuel maxPasses 0 (smo0 4) = None.
Proof.
  exists [-2; -1; 1; -3], cycY, 1, (1 # 10), (1 # 1000), (fun _ => 1%nat). cbv zeta. repeat split; try lra; [intros; lia|].
  intros fuel maxp Hm. exact (cyc_never maxp fuel Hm).
Qed.
Print Assumptions C232_terminates_refuted.

(* C233: [skkt st = false] says that the last pass found no violation.  A sample
   above the tube has its dual variable at C, one below at -C, and a sample with
   a dual variable strictly between is inside the tube *)
Theorem C233_tube : forall m Y C Epsilon Tol K rnd fuel maxPasses st, 0 <= C -> (forall t, (rnd t < m - 1)%nat) ->
  svr_loop m Y C Epsilon Tol K rnd fuel (S maxPasses) 0 (smo0 m) = Some (Some st) -> skkt st = false ->
  forall i, (i < m)%nat -> let a := nth i (sal st) 0 in
    let residual := Y i - (sb st + qsum (map (fun k => nth k (sal st) 0 * K k i) (seq 0 m))) in
    (Epsilon < residual -> a == C) /\ (residual < - Epsilon -> a == - C) /\ (- C < a < C -> Qabs residual <= Epsilon).
Proof.
  intros m Y C Epsilon Tol K rnd fuel maxp st HC HR F KK i Hi a residual.
  destruct (svr_loop_kkt m Y C Epsilon Tol K rnd fuel (S maxp) 0%nat (smo0 m) st F KK) as [(H & _)|H]; [lia|]. specialize (H i Hi). unfold svr_kkt_at in H. cbv zeta in H.
  destruct (svr_loop_feas m Y C Epsilon Tol K rnd HR fuel (S maxp) 0%nat (smo0 m) st (rbox0 m C HC) (rbal0 m) F) as ((_ & B) & _). specialize (B i Hi). change (al st i) with a in *.
  assert (R : svr_f m K st i - Y i == - residual) by (unfold residual, svr_f, al; rewrite qsum_cons; ring). rewrite R in H. destruct H as (H1 & H2).
  split; [|split].
  - intros X. destruct (Qlt_le_dec a C) as [L|L]; [specialize (H1 L)|]; lra.
  - intros X. destruct (Qlt_le_dec (- C) a) as [L|L]; [specialize (H2 L)|]; lra.
  - intros (X1 & X2). specialize (H1 X2). specialize (H2 X1). apply Qabs_Qle_condition. lra.
Qed.
Print Assumptions C233_tube.
Example C233_example : exists st, svr_loop 3 (fun i => nth i [0; 1; 2] 0) 10 (1 # 10) (1 # 1000) (fun i j => qn i * qn j) (fun t => (t mod 2)%nat) 40 5 0 (smo0 3) = Some (Some st) /\ skkt st = false.
Proof. destruct (svr_loop 3 _ 10 (1 # 10) (1 # 1000) _ _ 40 5 0 (smo0 3)) as [[st|]|] eqn:E; vm_compute in E; try discriminate. injection E as <-. eexists; split; vm_compute; reflexivity. Qed.

(* C234: what Predict loses by keeping only dual variables above Tol *)
Theorem C234_svr_pruned : forall m Y C Epsilon Tol K rnd fuel maxPasses md, 0 <= Tol -> svr_train m Y C Epsilon Tol K rnd fuel maxPasses = Some (Some md) ->
  exists st, svr_loop m Y C Epsilon Tol K rnd fuel maxPasses 0 (smo0 m) = Some (Some st) /\
  forall kx, Qabs (svr_predict md kx - (sb st + qsum (map (fun i => nth i (sal st) 0 * kx i) (seq 0 m)))) <=
    Tol * qsum (map (fun i => if Qltb Tol (Qabs (nth i (sal st) 0)) then 0 else Qabs (kx i)) (seq 0 m)).
Proof. intros m Y C Epsilon Tol K rnd fuel maxp md HT H. destruct (svr_pruned _ _ _ _ _ _ _ _ _ _ H HT) as (st & L & _ & _ & D). now exists st. Qed.
Print Assumptions C234_svr_pruned.
Theorem C234_svc_pruned : forall m Y C Epsilon Tol K rnd fuel maxPasses md, 0 <= C -> 0 <= Tol -> (forall i, (i < m)%nat -> Y i == 1 \/ Y i == -1) -> (forall t, (rnd t < m - 1)%nat) ->
  svm_train m Y C Epsilon Tol K rnd fuel maxPasses = Some (Some md) ->
  exists st, smo_loop m Y C Epsilon Tol K rnd fuel maxPasses 0 (smo0 m) = Some (Some st) /\
  forall kx, Qabs (svm_decision Y md kx - (sb st + qsum (map (fun i => nth i (sal st) 0 * Y i * kx i) (seq 0 m)))) <=
    Tol * qsum (map (fun i => if Qltb Tol (nth i (sal st) 0) then 0 else Qabs (kx i)) (seq 0 m)).
Proof. intros m Y C Epsilon Tol K rnd fuel maxp md HC HT HY HR H. destruct (svm_pruned _ _ _ _ _ _ _ _ _ _ H HC HT HY HR) as (st & L & _ & _ & D). now exists st. Qed.
Print Assumptions C234_svc_pruned.
(* so a converged SVC gives every sample whose dual variable is below C its own
   side, as long as Epsilon and what is dropped stay below 1 *)
Theorem C234_svc_training_side : forall m Y C Epsilon Tol K rnd fuel maxPasses md, 0 <= C -> 0 <= Tol -> (forall i, (i < m)%nat -> Y i == 1 \/ Y i == -1) -> (forall t, (rnd t < m - 1)%nat) ->
  svm_train m Y C Epsilon Tol K rnd fuel (S maxPasses) = Some (Some md) ->
  exists st, smo_loop m Y C Epsilon Tol K rnd fuel (S maxPasses) 0 (smo0 m) = Some (Some st) /\
  (skkt st = false -> forall i, (i < m)%nat -> nth i (sal st) 0 < C ->
    Epsilon + Tol * qsum (map (fun k => Qabs (K k i)) (seq 0 m)) < 1 ->
    svm_predict Y md (fun k => K k i) = if Qle_bool 0 (Y i) then 1 else 0).
Proof.
  intros m Y C Epsilon Tol K rnd fuel maxp md HC HT HY HR H. destruct (svm_pruned _ _ _ _ _ _ _ _ _ _ H HC HT HY HR) as (st & L & _ & _ & D). exists st. split; [exact L|].
  intros KK i Hi Ha HS. destruct (loop_kkt _ _ _ _ _ _ _ _ _ _ _ _ L KK) as [(X & _)|X]; [lia|]. destruct (X i Hi) as (X1 & _). specialize (X1 Ha).
  specialize (D (fun k => K k i)). set (f := sb st + qsum (map (fun k => al st k * Y k * K k i) (seq 0 m))) in *.
  assert (LE : qsum (map (fun k => if Qltb Tol (al st k) then 0 else Qabs (K k i)) (seq 0 m)) <= qsum (map (fun k => Qabs (K k i)) (seq 0 m))).
  { generalize (seq 0 m). intros l. induction l as [|k l IH]; [cbn [map]; change (qsum []) with 0; lra|]. cbn [map]. rewrite !qsum_cons. assert (N := Qabs_nonneg (K k i)). destruct (Qltb Tol (al st k)); lra. }
  set (dr := qsum (map (fun k => if Qltb Tol (al st k) then 0 else Qabs (K k i)) (seq 0 m))) in *. set (S0 := qsum (map (fun k => Qabs (K k i)) (seq 0 m))) in *.
  assert (TL : Tol * dr <= Tol * S0) by nra. apply Qabs_Qle_condition in D. unfold svm_predict.
  destruct (HY i Hi) as [E|E]; rewrite E in X1; destruct (Qleb_spec 0 (Y i)), (Qleb_spec 0 (svm_decision Y md (fun k => K k i))); try reflexivity; exfalso; lra.
Qed.
Print Assumptions C234_svc_training_side.
(* two samples: both are support vectors and the decision for the second is 1 *)
Example C234_example : exists md st, svm_train 2 (fun i => nth i [-1; 1] 0) 10 (1 # 10) (3 # 4) (fun i j => 2 * qn i * qn j) (fun _ => 0%nat) 20 3 = Some (Some md) /\
  smo_loop 2 (fun i => nth i [-1; 1] 0) 10 (1 # 10) (3 # 4) (fun i j => 2 * qn i * qn j) (fun _ => 0%nat) 20 3 0 (smo0 2) = Some (Some st) /\ skkt st = false /\ nth 1 (sal st) 0 == 1 /\
  svm_decision (fun i => nth i [-1; 1] 0) md (fun k => 2 * qn k) == 1.
Proof. do 2 eexists. split; [vm_compute; reflexivity|]. split; [vm_compute; reflexivity|]. split; [vm_compute; reflexivity|]. split; vm_compute; reflexivity. Qed.

(* C235: several outputs.  Whatever the schedule of the goroutines, each output
   is what training it alone gives for a part of the stream of random numbers,
   taken in order; with one output it is the whole stream *)
Theorem C235_svc_outputs_partial : forall m Ys C Epsilon Tol K stream maxPasses n sched k r, (0 < m)%nat ->
  fit_result (fit_exec m maxPasses (fun k => svc_step m (Ys k) C Epsilon Tol K) stream n sched) k = Some r ->
  exists pos fuel, (forall t t', (t < t')%nat -> (pos t < pos t')%nat) /\ (n = 1%nat -> forall t, pos t = t) /\
  smo_loop m (Ys k) C Epsilon Tol K (fun t => stream (pos t)) fuel maxPasses 0 (smo0 m) = Some r.
Proof.
  intros m Ys C Epsilon Tol K stream maxp n sched k r Hm H.
  destruct (fit_outputs m maxp _ stream (fun k => svc_ok m (Ys k) C Epsilon Tol K) n sched k r Hm H) as (pos & fuel & A & B & D).
  exists pos, fuel. split; [exact A|]. split; [exact B|]. now rewrite <- gen_smo.
Qed.
Print Assumptions C235_svc_outputs_partial.
Theorem C235_svr_outputs_partial : forall m Ys C Epsilon Tol K stream maxPasses n sched k r, (0 < m)%nat ->
  fit_result (fit_exec m maxPasses (fun k => svr_tstep m (Ys k) C Epsilon Tol K) stream n sched) k = Some r ->
  exists pos fuel, (forall t t', (t < t')%nat -> (pos t < pos t')%nat) /\ (n = 1%nat -> forall t, pos t = t) /\
  svr_loop m (Ys k) C Epsilon Tol K (fun t => stream (pos t)) fuel maxPasses 0 (smo0 m) = Some r.
Proof.
  intros m Ys C Epsilon Tol K stream maxp n sched k r Hm H.
  destruct (fit_outputs m maxp _ stream (fun k => svr_ok m (Ys k) C Epsilon Tol K) n sched k r Hm H) as (pos & fuel & A & B & D).
  exists pos, fuel. split; [exact A|]. split; [exact B|]. now rewrite <- gen_svr.
Qed.
Print Assumptions C235_svr_outputs_partial.
(* but which part depends on the schedule: the same data and seed give models
   that put the training sample x = 1 on different sides *)
Theorem C235_schedule_refuted : exists x Ys stream sched sched' st st', let K i j := nth i x 0 * nth j x 0 in
  let run := fit_exec 4 3 (fun k => svc_step 4 (Ys k) 1 (1 # 10) (1 # 1000) K) stream 2 in
  (forall t, (stream t < 4 - 1)%nat) /\ (forall k i, Ys k i == 1 \/ Ys k i == -1) /\
  fit_result (run sched) 0 <> None /\ fit_result (run sched') 0 <> None /\
  fit_result (run sched) 1 = Some (Some st) /\ fit_result (run sched') 1 = Some (Some st') /\ sal st = sal st' /\ ~ sb st == sb st' /\
  0 < svm_f 4 (Ys 1%nat) K st 1 /\ svm_f 4 (Ys 1%nat) K st' 1 < 0.
Proof.
  exists [0; 1; 3; 4], (fun k i => match k, i with O, O | O, S O => -1 | S _, O => -1 | _, _ => 1 end),
    (fun t => nth t [2; 0; 1; 1; 0; 2; 0; 1; 2; 2; 1; 0] (t mod 3))%nat, (repeat 0 60 ++ repeat 1 60)%nat, (repeat 1 60 ++ repeat 0 60)%nat.
  do 2 eexists. cbv zeta. split.
  { intros t. assert (H := Nat.mod_upper_bound t 3 ltac:(lia)). destruct (Nat.lt_ge_cases t 12) as [L|L]; [|rewrite nth_overflow by (cbn; lia); lia]. do 12 (destruct t as [|t]; [cbn; lia|]). lia. }
  split. { intros [|k] [|[|i]]; cbn; auto using Qeq_refl. }
  split; [vm_compute; discriminate|]. split; [vm_compute; discriminate|].
  split; [vm_compute; reflexivity|]. split; [vm_compute; reflexivity|]. split; [reflexivity|].
  split; [vm_compute; discriminate|]. split; vm_compute; reflexivity.
Qed.
Print Assumptions C235_schedule_refuted.
(* a stream of equal numbers (two samples, for example): no dependence *)
Theorem C235_constant_partial : forall m Ys C Epsilon Tol K v maxPasses n sched k r, (0 < m)%nat ->
  fit_result (fit_exec m maxPasses (fun k => svc_step m (Ys k) C Epsilon Tol K) (fun _ => v) n sched) k = Some r ->
  exists fuel, smo_loop m (Ys k) C Epsilon Tol K (fun _ => v) fuel maxPasses 0 (smo0 m) = Some r.
Proof.
  intros m Ys C Epsilon Tol K v maxp n sched k r Hm H.
  destruct (C235_svc_outputs_partial m Ys C Epsilon Tol K (fun _ => v) maxp n sched k r Hm H) as (pos & fuel & _ & _ & D). now exists fuel.
Qed.
Print Assumptions C235_constant_partial.
Example C235_example : exists st st', fit_result (fit_exec 2 2 (fun k => svc_step 2 (fun i => nth i (nth k [[-1; 1]; [1; -1]] []) 0) 10 (1 # 10) (1 # 1000) (fun i j => qn i * qn j)) (fun _ => 0%nat) 2 (concat (repeat [0; 1; 1; 0] 40))%nat) 0 = Some (Some st) /\
  fit_result (fit_exec 2 2 (fun k => svc_step 2 (fun i => nth i (nth k [[-1; 1]; [1; -1]] []) 0) 10 (1 # 10) (1 # 1000) (fun i j => qn i * qn j)) (fun _ => 0%nat) 2 (concat (repeat [0; 1; 1; 0] 40))%nat) 1 = Some (Some st') /\ sb st == - sb st' /\ sal st = sal st' /\ nth 0 (sal st) 0 == 2.
Proof. do 2 eexists. split; [vm_compute; reflexivity|]. split; [vm_compute; reflexivity|]. split; [vm_compute; reflexivity|]. split; vm_compute; reflexivity. Qed.

(* C236: one visit of a sample either changes nothing or moves two dual
   variables, keeping their sum.  The new pair maximises the dual objective over
   all feasible pairs with this sum when the unconstrained optimum [a] has both
   parts of one sign, both beyond delta, or both within *)
Theorem C236_update_partial : forall m Y C Epsilon Tol K rnd st i st', 0 <= Epsilon -> 0 <= C ->
  (forall i j, (i < m)%nat -> (j < m)%nat -> K i j == K j i) -> (forall t, (rnd t < m - 1)%nat) ->
  (exists visits, (forall v, In v visits -> (v < m)%nat) /\ fold_left (svr_ostep m Y C Epsilon Tol K rnd) visits (Some (smo0 m)) = Some st) ->
  (i < m)%nat -> svr_step m Y C Epsilon Tol K rnd st i = Some st' ->
  let al st k := nth k (sal st) 0 in
  (sal st' = sal st /\ sb st' = sb st /\ snch st' = snch st) \/
  (exists j, j <> i /\ (j < m)%nat /\ snch st' = S (snch st) /\ (forall k, k <> i -> k <> j -> al st' k = al st k) /\ al st' i + al st' j == al st i + al st j /\
    let eta := 2 * K i j - K i i - K j j in let s := al st i + al st j in
    let f k := qsum (map (fun l => al st l * K l k) (seq 0 m)) - Y k in
    let a := al st j - (f i - f j) / eta in let delta := - (2) * Epsilon / eta in
    eta < 0 -> 0 <= (s - a) * a \/ (delta < Qabs (s - a) /\ delta < Qabs a) \/ (Qabs (s - a) <= delta /\ Qabs a <= delta) ->
    forall b, (forall k, (k < m)%nat -> k <> i -> k <> j -> b k == al st k) -> b i + b j == s -> - C <= b i <= C -> - C <= b j <= C ->
    svr_dual m Y Epsilon K b <= svr_dual m Y Epsilon K (al st')).
Proof.
  intros m Y C Epsilon Tol K rnd st i st' HE HC HK HR (visits & HV & R) Hi S.
  assert (B : rbox m C st) by (eapply (svr_fold_feas m Y C Epsilon Tol K rnd HR visits HV); [now apply rbox0|apply rbal0|exact R]).
  exact (svr_step_best m Y Epsilon K HK C Tol rnd HR st i st' HE B Hi S).
Qed.
Print Assumptions C236_update_partial.
(* otherwise not: in the run of C232 the visit of the last sample lowers the objective *)
Theorem C236_update_refuted : exists x Y C Epsilon Tol rnd visits i st st', let K i j := nth i x 0 * nth j x 0 in
  0 < C /\ 0 < Epsilon /\ 0 < Tol /\ (forall t, (rnd t < 4 - 1)%nat) /\ fold_left (svr_ostep 4 Y C Epsilon Tol K rnd) visits (Some (smo0 4)) = Some st /\ svr_step 4 Y C Epsilon Tol K rnd st i = Some st' /\
  visits = [0; 1; 2]%nat /\ i = 3%nat /\ svr_dual 4 Y Epsilon K (fun k => nth k (sal st') 0) < svr_dual 4 Y Epsilon K (fun k => nth k (sal st) 0).
Proof.
  exists [-2; -1; 1; -3], cycY, 1, (1 # 10), (1 # 1000), (fun _ => 1%nat), [0; 1; 2]%nat, 3%nat. do 2 eexists. cbv zeta. split; [reflexivity|]. split; [reflexivity|]. split; [reflexivity|]. split; [intros; lia|].
  split; [vm_compute; reflexivity|]. split; [vm_compute; reflexivity|]. split; [reflexivity|]. split; [reflexivity|]. vm_compute. reflexivity.
Qed.
Print Assumptions C236_update_refuted.
(* equal samples (eta = 0) with targets 3 and 2: the first update gives the
   larger target the weight -1 and the smaller one +1 *)
Theorem C236_duplicates_refuted : exists x Y C Epsilon Tol rnd st', let K i j := nth i x 0 * nth j x 0 in
  nth 0 x 0 = nth 1 x 0 /\ Y 1%nat < Y 0%nat /\ (forall t, (rnd t < 3 - 1)%nat) /\ svr_step 3 Y C Epsilon Tol K rnd (smo0 3) 0 = Some st' /\
  sal st' = [-1; 1; 0] /\ svr_dual 3 Y Epsilon K (fun k => nth k (sal st') 0) < svr_dual 3 Y Epsilon K (fun _ => 0).
Proof.
  exists [1; 1; -1], (fun i => nth i [3; 2; 0] 0), 1, (1 # 10), (1 # 1000), (fun _ => 0%nat). eexists. cbv zeta. split; [reflexivity|]. split; [reflexivity|]. split; [intros; lia|].
  split; [vm_compute; reflexivity|]. split; [reflexivity|]. vm_compute. reflexivity.
Qed.
Print Assumptions C236_duplicates_refuted.
Example C236_example : exists st', svr_step 4 cycY 1 (1 # 10) (1 # 1000) cycK (fun _ => 1%nat) (smo0 4) 0 = Some st' /\ sal st' = [29 # 45; 0; -29 # 45; 0] /\
  svr_dual 4 cycY (1 # 10) cycK (fun _ => 0) == 0 /\ svr_dual 4 cycY (1 # 10) cycK (fun k => nth k (sal st') 0) == 841 # 450.
Proof. eexists. split; [vm_compute; reflexivity|]. split; [reflexivity|]. split; vm_compute; reflexivity. Qed.
