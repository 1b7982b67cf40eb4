(* Properties C177, C179-C181 (exact arithmetic). *)
From Verif Require Import QCommon LinModel LinProofs EnetProofs ParallelModel PathModel PathProofs.
Open Scope Q_scope.

(* C177: whatever the schedule, entry i belongs to alphas[i]: it is what a single fit gives, and its objective is within the reported gap
   of the minimum; the alphas are the given ones when there are NAlphas of them *)
Theorem C177_path_partial : forall nrm grid X Y p l1 eps nAlphas given positive sched alphas slots,
  rect X p -> rect Y 1 -> length Y = length X -> X <> [] -> 0 <= l1 <= 1 -> (forall l, given = Some l -> length l = nAlphas) -> (given = None -> length (grid nAlphas) = nAlphas) ->
  (forall a, In a alphas -> 0 <= a) ->
  enet_path nrm grid X Y l1 eps nAlphas given positive sched = Some (alphas, slots) ->
  alphas = match given with Some l => l | None => grid nAlphas end /\ length slots = nAlphas /\
  forall i, (i < nAlphas)%nat -> let a := nth i alphas 0 in let n := qn (length X) in
    exists C, s_coef (nth i slots (mkslot None 0 0)) = Some C /\
      path_fit nrm l1 eps positive X Y a = Some (C, s_gap (nth i slots (mkslot None 0 0)), s_iter (nth i slots (mkslot None 0 0))) /\
      forall v, (positive = true -> forall j, (j < p)%nat -> 0 <= v j) ->
        let obj w := (1 # 2) * sumn (length X) (fun i => (at2 Y i 0 - sumn p (fun j => at2 X i j * w j)) * (at2 Y i 0 - sumn p (fun j => at2 X i j * w j)))
                     + a * l1 * n * sumn p (fun j => Qabs (w j)) + (1 # 2) * (a * (1 - l1) * n) * sumn p (fun j => w j * w j) in
        obj (fun j => at2 C j 0) - s_gap (nth i slots (mkslot None 0 0)) <= obj v.
Proof.
  intros nrm grid X Y p l1 eps nAlphas given positive sched alphas slots HX HY HL NX Hl Hg Hgr Hpos H. unfold enet_path in H.
  destruct (path_run _ _ _) as [m|] eqn:E; [|discriminate]. injection H as Ea <-. apply path_cells in E. rewrite Ea in E.
  assert (EA: alphas = match given with Some l => l | None => grid nAlphas end).
  { subst alphas. unfold path_alphas. destruct given as [l|]; [|reflexivity]. rewrite <- (Hg l eq_refl), firstn_all, Nat.sub_diag. apply app_nil_r. }
  assert (LA: length alphas = nAlphas) by (rewrite EA; destruct given as [l|]; auto).
  split; [exact EA|]. split; [now rewrite E, map_length|]. intros i Hi a n.
  assert (Ha: 0 <= a) by (apply Hpos, nth_In; lia).
  destruct (path_fit_some nrm l1 eps positive X Y p a HX NX Ha Hl) as (C & gap & ep & it & F).
  assert (PF: path_fit nrm l1 eps positive X Y a = Some (C, gap, it)) by (unfold path_fit; now rewrite F).
  assert (S: nth i m (mkslot None 0 0) = mkslot (Some C) gap it).
  { subst m. rewrite (nth_indep _ _ (slot_of (path_fit nrm l1 eps positive X Y) 0)) by (rewrite map_length; lia). rewrite map_nth. fold a. unfold slot_of. now rewrite PF. }
  rewrite S. cbn [s_coef s_gap s_iter]. exists C. split; [reflexivity|]. split; [exact PF|]. intros v Hv.
  assert (EX: ncols X = p) by (apply rect_ncols; assumption).
  pose proof (fit_optimal nrm (cyclic (ncols X)) (path_par l1 eps positive a) X Y p HX HY HL) as O. cbn [e_fit e_norm e_alpha e_l1 e_tol e_iter e_warm e_pos path_par] in O.
  specialize (O ltac:(intros k j Hj; apply in_seq in Hj; lia) Ha Hl None None C [0] gap ep it eq_refl (or_intror eq_refl) ltac:(discriminate) ltac:(discriminate) F v 0 ltac:(reflexivity) Hv).
  unfold raw_obj in O. cbn [nth] in O. assert (Z: forall w, sumn (length X) (fun i => (at2 Y i 0 - (sumn p (fun j => at2 X i j * w j) + 0)) * (at2 Y i 0 - (sumn p (fun j => at2 X i j * w j) + 0)))
    == sumn (length X) (fun i => (at2 Y i 0 - sumn p (fun j => at2 X i j * w j)) * (at2 Y i 0 - sumn p (fun j => at2 X i j * w j)))).
  { intros w. apply qsum_map_ext. intros k _. ring. }
  rewrite !Z in O. exact O.
Qed.
Print Assumptions C177_path_partial.
(* every execution ends, and can end at any point *)
(* LassoPath: the same with the absolute values of the coefficients alone in the penalty *)
Theorem C177_lasso_partial : forall nrm grid X Y p eps nAlphas given positive sched alphas slots,
  rect X p -> rect Y 1 -> length Y = length X -> X <> [] -> (forall l, given = Some l -> length l = nAlphas) -> (given = None -> length (grid nAlphas) = nAlphas) ->
  (forall a, In a alphas -> 0 <= a) ->
  lasso_path nrm grid X Y eps nAlphas given positive sched = Some (alphas, slots) ->
  alphas = match given with Some l => l | None => grid nAlphas end /\ length slots = nAlphas /\
  forall i, (i < nAlphas)%nat -> let a := nth i alphas 0 in let n := qn (length X) in
    exists C, s_coef (nth i slots (mkslot None 0 0)) = Some C /\
      forall v, (positive = true -> forall j, (j < p)%nat -> 0 <= v j) ->
        let obj w := (1 # 2) * sumn (length X) (fun i => (at2 Y i 0 - sumn p (fun j => at2 X i j * w j)) * (at2 Y i 0 - sumn p (fun j => at2 X i j * w j)))
                     + a * n * sumn p (fun j => Qabs (w j)) in
        obj (fun j => at2 C j 0) - s_gap (nth i slots (mkslot None 0 0)) <= obj v.
Proof.
  intros nrm grid X Y p eps nAlphas given positive sched alphas slots HX HY HL NX Hg Hgr Hpos H. unfold lasso_path in H.
  destruct (C177_path_partial nrm grid X Y p 1 eps nAlphas given positive sched alphas slots HX HY HL NX ltac:(lra) Hg Hgr Hpos H) as (A & B & D).
  split; [exact A|]. split; [exact B|]. intros i Hi a n. destruct (D i Hi) as (C & S & _ & O). exists C. split; [exact S|]. intros v Hv obj.
  specialize (O v Hv). cbv zeta in O. fold a n in O. assert (R : forall A S T, (1 # 2) * A + a * 1 * n * S + (1 # 2) * (a * (1 - 1) * n) * T == (1 # 2) * A + a * n * S) by (intros; ring).
  rewrite !R in O. exact O.
Qed.
Print Assumptions C177_lasso_partial.
Theorem C177_returns : forall fit alphas, exists bound, forall sched s, mexec (path_body fit alphas) None (path_start alphas) sched = Some s ->
  (length sched <= bound)%nat /\ exists sched' s', mexec (path_body fit alphas) None s sched' = Some s' /\ returned s' = true.
Proof. intros fit alphas. eexists. intros sched s H. exact (path_finishes fit alphas sched s H). Qed.
Print Assumptions C177_returns.
(* with another number of given alphas, some are dropped or zeros are added *)
Theorem C177_number_refuted : forall grid nAlphas l, length l <> nAlphas ->
  path_alphas grid nAlphas (Some l) <> l /\ length (path_alphas grid nAlphas (Some l)) = nAlphas /\
  (forall i, (length l <= i < nAlphas)%nat -> nth i (path_alphas grid nAlphas (Some l)) 1 = 0).
Proof.
  intros grid nAlphas l H. unfold path_alphas.
  assert (L: length (firstn nAlphas l ++ repeat 0 (nAlphas - length l)) = nAlphas) by (rewrite app_length, firstn_length, repeat_length; lia).
  split; [intros E; apply H; now rewrite E in L|]. split; [exact L|]. intros i Hi. rewrite app_nth2 by (rewrite firstn_length; lia). rewrite firstn_length.
  rewrite (nth_indep _ 1 0) by (rewrite repeat_length; lia). apply nth_repeat.
Qed.
Print Assumptions C177_number_refuted.
Example C177_example : match enet_path (fun _ => 1) (fun _ => []) [[1; 0]; [0; 2]] [[3]; [1]] (1 # 2) (1 # 100) 2 (Some [2; 1]) false [Spawn; Run 0; Spawn; Run 1; Run 1; Run 1; Run 1; Done 1; Run 0; Run 0; Run 0; Done 0; Return] with
  | Some (al, [s1; s2]) => al = [2; 1] /\ s_coef s1 = Some [[1 # 3]; [0]] /\ s_coef s2 = Some [[1]; [1 # 5]] | _ => False end.
Proof. vm_compute. auto. Qed.

(* C179: each column of Theta is the result for its output, whatever the order in which the goroutines run and report *)
Theorem C179_outputs : forall minimize p q theta0 l r, gom_run minimize p q theta0 l = Some r ->
  let best o := minimize o (tab p (fun j => at2 theta0 j o)) in
  (forall j o, (j < p)%nat -> (o < q)%nat -> at2 (gr_theta r) j o = nth j (r_X (best o)) 0) /\
  gr_F r == qsum (map (fun o => r_F (best o)) (seq 0 q)) /\ gr_epoch r = list_sum (map (fun o => r_evals (best o)) (seq 0 q)).
Proof. intros minimize p q theta0 l r H best. destruct (gom_done minimize p q theta0 l r H) as (A & B & C & _). auto. Qed.
Print Assumptions C179_outputs.
Theorem C179_returns : forall minimize p q theta0, (forall o c, length (r_X (minimize o c)) = p) ->
  forall l s, gexec minimize p q (ginit theta0) l = Some s -> (length l <= 4 * q)%nat /\ exists l' r, gom_run minimize p q theta0 (l ++ l') = Some r.
Proof.
  intros minimize p q theta0 Hm l s H. assert (I0: exists rcv, received minimize p q theta0 rcv (ginit theta0)) by (exists []; apply gom_init).
  pose proof (gmeasure_exec minimize p q theta0 l _ _ I0 H) as M. assert (M0: gmeasure q (ginit theta0) = (4 * q)%nat) by (unfold gmeasure, ginit; cbn; lia).
  split; [lia|]. pose proof (gom_exec minimize p q theta0 l _ _ I0 H) as I1.
  assert (R: (g_recv s <= q)%nat).
  { destruct I1 as (rcv & A & B & ND & D & _). assert (incl rcv (seq 0 q)).
    { intros o Ho. apply in_seq. assert (Y: nth_error (g_spawned s) o = Some GSent) by (apply D, in_or_app; now left). assert (o < length (g_spawned s))%nat by (apply nth_error_Some; congruence). lia. }
    apply NoDup_incl_length in H0; [|apply NoDup_app_iff in ND; tauto]. rewrite seq_length in H0. lia. }
  destruct (gom_completes minimize p q theta0 Hm _ s (le_n _) I1 R) as (l' & s' & E & Q'). exists l'. unfold gom_run.
  assert (X: forall l s, gexec minimize p q s (l ++ l') = match gexec minimize p q s l with Some s1 => gexec minimize p q s1 l' | None => None end).
  { clear. induction l as [|e l IH]; intros s; [reflexivity|]. cbn [app gexec]. destruct (gstep minimize p q s e); [apply IH|reflexivity]. }
  rewrite X, H, E, Q', Nat.eqb_refl. eauto.
Qed.
Print Assumptions C179_returns.
Example C179_example : match gom_run (fun o c => mkgres [qn o; nth 0 c 0 + 1] (qn o) (S o) (Nat.eqb o 1)) 2 2 [[5; 6]; [7; 8]] [EvSpawn; EvSpawn; EvRead 1; EvSend 1; EvRecv; EvRead 0; EvSend 0; EvRecv] with
  | Some r => gr_theta r = [[0; 1]; [6; 7]] /\ gr_epoch r = 3%nat | None => False end.
Proof. vm_compute. auto. Qed.

(* C180: Converged does not depend on the optimizer and J is never set *)
Theorem C180_converged_refuted : forall minimize p q theta0 l r, gom_run minimize p q theta0 l = Some r -> gr_conv r = true /\ gr_J r = 0.
Proof. intros minimize p q theta0 l r H. destruct (gom_done minimize p q theta0 l r H) as (_ & _ & _ & D & E). auto. Qed.
Print Assumptions C180_converged_refuted.
Theorem C180_failed_refuted : exists minimize l r, (forall o c, r_fail (minimize o c) = true) /\ gom_run minimize 1 1 [[0]] l = Some r /\ gr_conv r = true.
Proof. exists (fun _ _ => mkgres [0] 7 3 true), [EvSpawn; EvRead 0; EvSend 0; EvRecv]. eexists. split; [reflexivity|]. split; [vm_compute; reflexivity|reflexivity]. Qed.
Print Assumptions C180_failed_refuted.
(* the other solvers run epochs 1, 2, ... and report one more than they ran *)
Theorem C180_epoch_refuted : forall conv epochs l e c, lf_epochs conv epochs = (l, e, c) -> l = seq 1 (length l) /\ (length l <= epochs)%nat /\ e = S (length l).
Proof. intros conv epochs l e c H. destruct (lf_loop_spec conv epochs 1 l e c H) as (A & B & C). auto. Qed.
Print Assumptions C180_epoch_refuted.
Example C180_example : lf_epochs (fun e => Nat.eqb e 3) 10 = ([1; 2; 3]%nat, 4%nat, true).
Proof. reflexivity. Qed.

(* C181: evaluations one after the other return half the mean squared error at their argument *)
Theorem C181_serial_partial : forall X y thetas order, NoDup order -> (forall t, In t order -> (t < length thetas)%nat) ->
  exists s, cexec X y thetas (cinit thetas) (flat_map (fun t => [t; t; t]) order) = Some s /\
    forall t, In t order -> exists J, nth_error (cs_pc s) t = Some (PDone J) /\
      J == sumn (length X) (fun i => let d := sumn (length (nth t thetas [])) (fun j => at2 X i j * nth j (nth t thetas []) 0) - nth i y 0 in d * d) / (2 * qn (length X)).
Proof.
  intros X y thetas order ND H. destruct (serial_all X y thetas order (cinit thetas) ND) as (s & E & A & _).
  - intros t Ht. unfold cinit. cbn [cs_pc]. apply nth_error_repeat. now apply H.
  - exists s. split; [exact E|exact A].
Qed.
Print Assumptions C181_serial_partial.
(* two evaluations at the same time can exchange their values *)
Theorem C181_concurrent_refuted : exists X y thetas l s, cexec X y thetas (cinit thetas) l = Some s /\
  cs_pc s = [PDone (4 # 2); PDone (4 # 2)] /\ half_mse X y (nth 0 thetas []) == 0 /\ half_mse X y (nth 1 thetas []) == 2.
Proof. exists [[1]], [3], [[3]; [5]], [0; 1; 0; 0; 1; 1]%nat. eexists. split; [vm_compute; reflexivity|]. split; [reflexivity|]. split; reflexivity. Qed.
Print Assumptions C181_concurrent_refuted.
Example C181_example : half_mse [[1; 2]; [3; 4]] [1; 1] [1; 1] == 10.
Proof. reflexivity. Qed.
