(* Properties C39, C40, C41, C89 - C92. *)
From Verif Require Import QCommon SvmModel SvmCacheProofs SvmProofs SvmLoopProofs.
Open Scope Q_scope.

(* C39: values, for every capacity *)
Theorem C39_transparent : forall kf cap m ops, (forall i j, kf i j = kf j i) ->
  fst (cache_run kf cap ops (cache_new m)) = map (fun o => kf (fst (snd o)) (snd (snd o))) ops.
Proof.
  intros kf cap m ops S. rewrite run_values by apply cgood_new. apply map_ext. intros [o [i j]]; cbn [fst snd].
  destruct (Nat.le_ge_cases i j) as [H|H]; [now rewrite Nat.min_l, Nat.max_r by auto|rewrite Nat.min_r, Nat.max_l by auto; apply S].
Qed.
Print Assumptions C39_transparent.
(* size, for CacheSize >= 1 and every order of the map *)
Theorem C39_bounded_partial : forall kf cacheSize m ops, (1 <= cacheSize)%nat -> (forall o, In o ops -> forall l, Permutation l (fst o l)) ->
  (length (cnd (snd (cache_run kf (cache_cap cacheSize) ops (cache_new m)))) <= cache_cap cacheSize)%nat.
Proof.
  intros kf cs m ops H P. apply run_all; auto; [|apply cgood_new|cbn; lia].
  unfold cache_cap. assert (E : (2 <= 2 ^ 16)%nat). { change 2%nat with (2 ^ 1)%nat at 1. apply Nat.pow_le_mono_r; lia. }
  destruct cs; [lia|]. cbn [Nat.mul]. lia.
Qed.
Print Assumptions C39_bounded_partial.
(* CacheSize 0: nothing is ever evicted *)
Theorem C39_bounded_refuted : exists cacheSize, forall kf m n, exists ops,
  length (cnd (snd (cache_run kf (cache_cap cacheSize) ops (cache_new m)))) = n /\ cache_cap cacheSize = 0%nat.
Proof. exists 0%nat. intros kf m n. exists (diag_ops n). split; [apply cap0_unbounded|reflexivity]. Qed.
Print Assumptions C39_bounded_refuted.
(* a miss in a full cache replaces exactly the least recently used pair *)
Theorem C39_lru : forall kf cap m ops ord i j, (2 <= cap)%nat -> (forall o, In o ops -> forall l, Permutation l (fst o l)) -> (forall l, Permutation l (ord l)) -> i <> j ->
  let st := snd (cache_run kf cap ops (cache_new m)) in
  length (cnd st) = cap -> ~ In (min i j, max i j) (map fst (cnd st)) ->
  exists e, In e (cnd st) /\ (forall e', In e' (cnd st) -> (fst (snd e) <= fst (snd e'))%nat) /\
    Permutation (map fst (cnd (snd (cache_get kf cap ord i j st))) ++ [fst e]) ((min i j, max i j) :: map fst (cnd st)).
Proof.
  intros kf cap m ops ord i j HC P PO N st L NI. apply get_lru; auto.
  apply run_all; auto; [apply cgood_new|cbn; lia].
Qed.
Print Assumptions C39_lru.
Example C39_example : (* capacity 2: the pair 0,1 is used again, so 0,2 is evicted *)
  map fst (cnd (snd (cache_run (fun i j => qn (i + j)) 2 (map (fun p => ((fun l => l), p)) [(0, 1); (2, 0); (1, 0); (1, 2)]%nat) (cache_new 3)))) = [(0, 1); (1, 2)]%nat.
Proof. vm_compute. reflexivity. Qed.

(* C40: [visits] is any sequence of samples the loop has gone through *)
Theorem C40_smo_feasible : forall m Y C Epsilon Tol K rnd, 0 <= C -> (forall i, (i < m)%nat -> Y i == 1 \/ Y i == -1) -> (forall t, (rnd t < m - 1)%nat) ->
  forall visits st, (forall i, In i visits -> (i < m)%nat) -> fold_left (ostep m Y C Epsilon Tol K rnd) visits (Some (smo0 m)) = Some st ->
  (forall i, (i < m)%nat -> 0 <= nth i (sal st) 0 <= C) /\ qsum (map (fun i => nth i (sal st) 0 * Y i) (seq 0 m)) == 0.
Proof.
  intros m Y C Epsilon Tol K rnd HC HY HR visits st HV F.
  destruct (@fold_feas m Y C Epsilon Tol K rnd HY HR visits HV (smo0 m) st) as ((_ & B) & A); auto; [now apply box0|apply bal0].
Qed.
Print Assumptions C40_smo_feasible.
Theorem C40_fit_feasible : forall m Y C Epsilon Tol K rnd, 0 <= C -> (forall i, (i < m)%nat -> Y i == 1 \/ Y i == -1) -> (forall t, (rnd t < m - 1)%nat) ->
  forall fuel maxp st, smo_loop m Y C Epsilon Tol K rnd fuel maxp 0 (smo0 m) = Some (Some st) ->
  (forall i, (i < m)%nat -> 0 <= nth i (sal st) 0 <= C) /\ qsum (map (fun i => nth i (sal st) 0 * Y i) (seq 0 m)) == 0.
Proof.
  intros m Y C Epsilon Tol K rnd HC HY HR fuel maxp st F.
  destruct (@loop_feas m Y C Epsilon Tol K rnd HY HR fuel maxp 0%nat (smo0 m) st) as ((_ & B) & A); auto; [now apply box0|apply bal0].
Qed.
Print Assumptions C40_fit_feasible.
(* a linear kernel on the points 0, 1, 3, 4 *)
Definition exK (i j : nat) : Q := nth i [0; 1; 3; 4] 0 * nth j [0; 1; 3; 4] 0.
Definition exY (i : nat) : Q := nth i [-1; -1; 1; 1] 0.
Definition exr (t : nat) : nat := ((t * 2 + 1) mod 3)%nat.
Example C40_example : option_map (option_map (fun st => map Qred (sal st))) (smo_loop 4 exY 1 (1 # 10) (1 # 1000) exK exr 50 3 0 (smo0 4)) = Some (Some [0; 1 # 2; 1 # 2; 0]).
Proof. vm_compute. reflexivity. Qed.

(* C41 *)
Theorem C41_svr_feasible : forall m Y C Epsilon Tol K rnd, 0 <= C -> (forall t, (rnd t < m - 1)%nat) ->
  forall visits st, (forall i, In i visits -> (i < m)%nat) -> fold_left (svr_ostep m Y C Epsilon Tol K rnd) visits (Some (smo0 m)) = Some st ->
  (forall i, (i < m)%nat -> - C <= nth i (sal st) 0 <= C) /\ qsum (map (fun i => nth i (sal st) 0) (seq 0 m)) == 0.
Proof.
  intros m Y C Epsilon Tol K rnd HC HR visits st HV F.
  destruct (@svr_fold_feas m Y C Epsilon Tol K rnd HR visits HV (smo0 m) st) as ((_ & B) & A); auto; [now apply rbox0|apply rbal0].
Qed.
Print Assumptions C41_svr_feasible.
Theorem C41_fit_feasible : forall m Y C Epsilon Tol K rnd, 0 <= C -> (forall t, (rnd t < m - 1)%nat) ->
  forall fuel maxp st, svr_loop m Y C Epsilon Tol K rnd fuel maxp 0 (smo0 m) = Some (Some st) ->
  (forall i, (i < m)%nat -> - C <= nth i (sal st) 0 <= C) /\ qsum (map (fun i => nth i (sal st) 0) (seq 0 m)) == 0.
Proof.
  intros m Y C Epsilon Tol K rnd HC HR fuel maxp st F.
  destruct (@svr_loop_feas m Y C Epsilon Tol K rnd HR fuel maxp 0%nat (smo0 m) st) as ((_ & B) & A); auto; [now apply rbox0|apply rbal0].
Qed.
Print Assumptions C41_fit_feasible.
Example C41_example : option_map (option_map (fun st => map Qred (sal st))) (svr_loop 4 exY 1 (1 # 10) (1 # 1000) exK exr 50 3 0 (smo0 4)) = Some (Some [1 # 5; -2 # 5; 1 # 5; 0]).
Proof. vm_compute. reflexivity. Qed.

(* C89: an SVC trained on labels -1, 1 predicts 0 and never -1 ... *)
Theorem C89_predict_partial : forall Y md kx, (svm_predict Y md kx = 1 <-> 0 <= svm_decision Y md kx) /\ (svm_predict Y md kx = 0 <-> svm_decision Y md kx < 0).
Proof.
  intros. unfold svm_predict. destruct (Qleb_spec 0 (svm_decision Y md kx)) as [H|H]; split; split; intros X; auto; try discriminate; exfalso; eapply Qlt_not_le; eauto.
Qed.
Print Assumptions C89_predict_partial.
Theorem C89_minus_one_refuted : exists m Y C Epsilon Tol K rnd fuel md kx, (forall i, (i < m)%nat -> Y i = 1 \/ Y i = -1) /\
  svm_train m Y C Epsilon Tol K rnd fuel 3 = Some (Some md) /\ svm_decision Y md kx < 0 /\ svm_predict Y md kx <> -1 /\ forall kx', svm_predict Y md kx' <> -1.
Proof.
  exists 4%nat, exY, 1, (1 # 10), (1 # 1000), exK, exr, 50%nat.
  destruct (svm_train 4 exY 1 (1 # 10) (1 # 1000) exK exr 50 3) as [[md|]|] eqn:E; [|vm_compute in E; discriminate|vm_compute in E; discriminate].
  exists md, (fun _ => 0). split; [|split; [first [reflexivity|exact E]|]].
  - intros i H. do 4 (destruct i as [|i]; [cbn; auto|]). lia.
  - vm_compute in E. injection E as <-. split; [vm_compute; reflexivity|]. split; [vm_compute; discriminate|].
    intros kx'. unfold svm_predict. destruct (Qle_bool 0 _); discriminate.
Qed.
Print Assumptions C89_minus_one_refuted.
(* ... and on labels 0, 1 Fit panics for every data set, kernel and random stream *)
Theorem C89_zero_one_refuted : forall m Y C Epsilon Tol K rnd, (forall i, (i < m)%nat -> Y i == 0 \/ Y i == 1) -> (forall t, (rnd t < m - 1)%nat) ->
  0 <= C -> 0 <= Epsilon -> 0 < Tol -> forall fuel maxp, (maxp <= fuel)%nat -> svm_train m Y C Epsilon Tol K rnd fuel maxp = Some None.
Proof.
  intros m Y C Epsilon Tol K rnd HY HR HC HE HT fuel maxp L. apply zero_train; auto.
  intros i j Hi Hj. destruct (HY i Hi) as [A|A], (HY j Hj) as [B|B]; auto. left. now rewrite A, B.
Qed.
Print Assumptions C89_zero_one_refuted.
Example C89_example : svm_train 4 (fun i => nth i [0; 0; 1; 1] 0) 1 (1 # 10) (1 # 1000) exK exr 50 3 = Some None.
Proof. vm_compute. reflexivity. Qed.

(* C90: every accepted step increases the dual objective, and training ends *)
Theorem C90_dual_ascent : forall m Y C Epsilon Tol K rnd, 0 <= C -> 0 < Tol -> (forall i, (i < m)%nat -> Y i == 1 \/ Y i == -1) -> (forall t, (rnd t < m - 1)%nat) ->
  (forall i j, (i < m)%nat -> (j < m)%nat -> K i j == K j i) ->
  forall visits st i st', (forall i, In i visits -> (i < m)%nat) -> (i < m)%nat ->
  fold_left (ostep m Y C Epsilon Tol K rnd) visits (Some (smo0 m)) = Some st -> smo_step m Y C Epsilon Tol K rnd st i = Some st' ->
  sal st' = sal st \/ dual m Y K (fun k => nth k (sal st) 0) < dual m Y K (fun k => nth k (sal st') 0).
Proof.
  intros m Y C Epsilon Tol K rnd HC HT HY HR HK visits st i st' HV Hi F S.
  destruct (@fold_feas m Y C Epsilon Tol K rnd HY HR visits HV (smo0 m) st) as (B & A); auto; [now apply box0|apply bal0|].
  destruct (neg_gap (etas m K)) as (g & G0 & G1).
  destruct (@step_gain m Y C Epsilon Tol K rnd HY HR HK g G1 HT st i st' B Hi S) as [(E & _)|(_ & D)]; [now left|right].
  eapply Qlt_le_trans; [|exact D]. rewrite <- Qplus_0_r at 1. apply Qplus_lt_r. now apply dlt_pos.
Qed.
Print Assumptions C90_dual_ascent.
Theorem C90_terminates : forall m Y C Epsilon Tol K rnd maxPasses, (2 <= m)%nat -> 0 <= C -> 0 < Tol -> (forall i, (i < m)%nat -> Y i == 1 \/ Y i == -1) -> (forall t, (rnd t < m - 1)%nat) ->
  (forall i j, (i < m)%nat -> (j < m)%nat -> K i j == K j i) ->
  exists fuel st, smo_loop m Y C Epsilon Tol K rnd fuel maxPasses 0 (smo0 m) = Some (Some st).
Proof. intros. now apply smo_terminates. Qed.
Print Assumptions C90_terminates.
Example C90_example : dual 4 exY exK (fun k => nth k [0; 1 # 2; 1 # 2; 0] 0) == 1 # 2 /\ dual 4 exY exK (fun _ => 0) == 0.
Proof. vm_compute. now split. Qed.

(* C91: Fit panics when there is no support vector *)
Theorem C91_single_class_refuted : forall m Y C Epsilon Tol K rnd c, (forall i, (i < m)%nat -> Y i == c) -> (forall t, (rnd t < m - 1)%nat) ->
  0 <= C -> 0 <= Epsilon -> 0 < Tol -> forall fuel maxp, (maxp <= fuel)%nat -> svm_train m Y C Epsilon Tol K rnd fuel maxp = Some None.
Proof.
  intros m Y C Epsilon Tol K rnd c HY HR HC HE HT fuel maxp L. apply zero_train; auto.
  intros i j Hi Hj. left. now rewrite (HY i Hi), (HY j Hj).
Qed.
Print Assumptions C91_single_class_refuted.
Theorem C91_tube_refuted : forall m Y C Epsilon Tol K rnd, (forall i, (i < m)%nat -> Qabs (Y i) <= Epsilon) -> (forall t, (rnd t < m - 1)%nat) ->
  0 < Tol -> forall fuel maxp, svr_train m Y C Epsilon Tol K rnd (S fuel) (S maxp) = Some None.
Proof. intros. now apply tube_train. Qed.
Print Assumptions C91_tube_refuted.
Theorem C91_constant_refuted : forall m Y C Epsilon Tol K rnd c, (forall i, (i < m)%nat -> Y i == c) -> (forall t, (rnd t < m - 1)%nat) ->
  0 <= C -> 0 < Tol -> forall fuel maxp, (maxp <= fuel)%nat -> svr_train m Y C Epsilon Tol K rnd fuel maxp = Some None.
Proof. intros. eapply const_train; eauto. Qed.
Print Assumptions C91_constant_refuted.
Example C91_example : svr_train 4 (fun _ => 5) 1 (1 # 10) (1 # 1000) exK exr 50 3 = Some None /\ svr_train 4 exY 1 (1 # 10) (1 # 1000) exK exr 50 3 <> Some None.
Proof. split; vm_compute; [reflexivity|discriminate]. Qed.

(* C92: [skkt st = false] says that the last pass found no violation *)
Theorem C92_kkt : forall m Y C Epsilon Tol K rnd fuel maxPasses st,
  smo_loop m Y C Epsilon Tol K rnd fuel (S maxPasses) 0 (smo0 m) = Some (Some st) -> skkt st = false ->
  forall i, (i < m)%nat -> let E := sb st + qsum (map (fun k => nth k (sal st) 0 * Y k * K k i) (seq 0 m)) - Y i in
    (nth i (sal st) 0 < C -> - Epsilon <= Y i * E) /\ (0 < nth i (sal st) 0 -> Y i * E <= Epsilon).
Proof.
  intros m Y C Epsilon Tol K rnd fuel maxp st F KK.
  destruct (@loop_kkt m Y C Epsilon Tol K rnd fuel (S maxp) 0%nat (smo0 m) st F KK) as [(H & _)|H]; [lia|exact H].
Qed.
Print Assumptions C92_kkt.
Example C92_example : exists st, smo_loop 4 exY 1 (1 # 10) (1 # 1000) exK exr 50 3 0 (smo0 4) = Some (Some st) /\ skkt st = false.
Proof. destruct (smo_loop 4 exY 1 (1 # 10) (1 # 1000) exK exr 50 3 0 (smo0 4)) as [[st|]|] eqn:E; vm_compute in E; try discriminate. injection E as <-. eexists; split; vm_compute; reflexivity. Qed.
