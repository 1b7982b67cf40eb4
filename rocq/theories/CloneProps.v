(* C219: clones of scalers *)
From Verif Require Import QCommon ScaleModel CloneModel CloneProofs.
Open Scope nat_scope.

(* After any history, cloning scalers and fitting other scalers leaves what scaler i holds as it was, if the kind is not Robust (that is what is
   missing; PartialFit is missing too), and a clone holds what its original holds. *)
Theorem C219_fit_partial k l0 l w w' i :
  run k ([], [s_new]) l0 = Some w -> run k w l = Some w' -> i < length (snd w) ->
  (match k with Robust _ _ => False | _ => True end) ->
  (forall o, In o l -> match o with Clone _ => True | Fit j _ => j <> i | PartialFit _ _ => False end) ->
  holds w' i = holds w i /\
  (exists wc, step k w (Clone i) = Some wc /\ holds wc (length (snd w)) = holds w i /\ forall j, j < length (snd w) -> holds wc j = holds w j).
Proof.
  intros E0 E Hi K H. assert (V : valid w).
  { clear E. assert (G : forall l w0 w1, valid w0 -> run k w0 l = Some w1 -> valid w1).
    { clear. induction l as [|o l IH]; intros w0 w1 V E; cbn [run] in E; [now injection E as <-|]. destruct (step k w0 o) as [w2|] eqn:E2; [|discriminate]. apply (IH w2); [now destruct (step_valid _ _ _ _ V E2)|exact E]. }
    apply (G l0 ([], [s_new])); [|exact E0]. intros s [<-|[]] r []. }
  split.
  - apply (run_keeps k i) with (l := l); auto; [now destruct k|]. intros o Ho. specialize (H o Ho). destruct o; cbn; auto; contradiction.
  - destruct w as [m ss]. cbn [fst snd step] in *. destruct (nth_error ss i) as [s|] eqn:ES; [|apply nth_error_None in ES; lia]. exists (m, ss ++ [clone s]). split; [reflexivity|]. unfold holds. cbn [fst snd]. split.
    + rewrite nth_error_app2, Nat.sub_diag, ES by lia. reflexivity.
    + intros j Hj. now rewrite nth_error_app1.
Qed.
Print Assumptions C219_fit_partial.
(* Clones made before anything is fitted are separate: after any Fit and PartialFit calls on any of them, scaler i holds what a scaler
   holds that received its own calls only. All kinds. *)
Theorem C219_unfitted_clones k l1 l2 w1 w2 i :
  run k ([], [s_new]) l1 = Some w1 -> (forall o, In o l1 -> exists j, o = Clone j) ->
  run k w1 l2 = Some w2 -> (forall o, In o l2 -> match o with Clone _ => False | _ => True end) -> i < length (snd w1) ->
  exists w, run k ([], [s_new]) (flat_map (fun o => match o with Clone _ => [] | Fit j rows => if j =? i then [Fit 0 rows] else [] | PartialFit j rows => if j =? i then [PartialFit 0 rows] else [] end) l2) = Some w /\
    holds w2 i = holds w 0.
Proof.
  intros E1 H1 E2 H2 Hi. destruct (run_clones k [] l1 0 w1 E1) as (n & ->); [intros o Ho; destruct (H1 o Ho) as (j & ->); reflexivity|]. cbn [snd] in Hi.
  assert (N : forall j s, nth_error (repeat s_new (S n)) j = Some s -> s = s_new) by (intros j s Es; eapply repeat_spec, nth_error_In, Es).
  destruct (nth_error (repeat s_new (S n)) i) as [s|] eqn:ES; [|apply nth_error_None in ES; lia]. pose proof (N _ _ ES). subst s.
  destruct (run_alone k i l2 ([], repeat s_new (S n)) w2 s_new [] s_new) with (3 := ES) (5 := E2) as (w & A & B).
  - intros s Hs r Hr. apply repeat_spec in Hs. subst s. destruct Hr.
  - intros a b sa sb D Ea Eb r Hr. apply N in Ea. subst sa. destruct Hr.
  - repeat split; try constructor; intros r [].
  - intros o Ho. specialize (H2 o Ho). destruct o; [contradiction|reflexivity|reflexivity].
  - exists w. split; [|exact B]. rewrite <- A. f_equal. unfold own_ops. clear - H2. induction l2 as [|o l IH]; [reflexivity|]. cbn [flat_map filter]. rewrite IH by (intros x Hx; apply H2; now right). specialize (H2 o (or_introl eq_refl)).
    destruct o as [j|j rows|j rows]; [contradiction| |]; cbn [target]; destruct (j =? i); reflexivity.
Qed.
Print Assumptions C219_unfitted_clones.
Example C219_ex :
  match run (MinMax 0 1) ([], [s_new]) [Fit 0 [[0%Q]; [4%Q]]; Clone 0; Fit 1 [[0%Q]; [10%Q]]] with
  | Some w => match holds w 0, holds w 1 with Some ([_; mx; _; _; _], 2), Some ([_; mx'; _; _; _], 2) => mx = [4%Q] /\ mx' = [10%Q] | _, _ => False end
  | None => False
  end /\
  match run (Robust (1#4) (3#4)) ([], [s_new]) [Clone 0; Fit 0 [[0%Q; 4%Q; 8%Q]]; Fit 1 [[0%Q; 10%Q; 20%Q]]] with
  | Some w => match holds w 0, holds w 1 with Some ([_; md; _], _), Some ([_; md'; _], _) => md = [4%Q] /\ md' = [10%Q] | _, _ => False end
  | None => False
  end.
Proof. vm_compute. repeat split. Qed.

(* REFUTED: "a clone and its original do not affect each other". PartialFit on a clone of a fitted MinMaxScaler changes the original's range but
   not its NSamplesSeen; on a clone of a fitted StandardScaler it changes the original's Scale but not its Mean and Var; Fit on a clone of a
   fitted RobustScaler changes the original's Median *)
Example C219_minmax_refuted :
  match run (MinMax 0 1) ([], [s_new]) [Fit 0 [[0%Q]; [4%Q]]; Clone 0], run (MinMax 0 1) ([], [s_new]) [Fit 0 [[0%Q]; [4%Q]]; Clone 0; PartialFit 1 [[10%Q]]] with
  | Some w, Some w' => match holds w 0, holds w' 0 with Some ([_; mx; _; _; _], n), Some ([_; mx'; _; _; _], n') => mx = [4%Q] /\ mx' = [10%Q] /\ n = 2 /\ n' = 2 | _, _ => False end
  | _, _ => False
  end.
Proof. vm_compute. repeat split. Qed.
Example C219_standard_refuted :
  let k := Standard (fun v => if Qeq_bool v 4 then 2 else if Qeq_bool v 16 then 4 else v)%Q 1 in
  match run k ([], [s_new]) [Fit 0 [[0%Q]; [4%Q]]; Clone 0; PartialFit 1 [[(-2)%Q]; [6%Q]; [(-4)%Q]; [8%Q]; [2%Q]]] with
  | Some w => match holds w 0, holds w 1 with
    | Some ([mean; var; scale], 2), Some ([mean'; var'; scale'], 7) =>
        Forall2 Qeq mean [2%Q] /\ Forall2 Qeq var [4%Q] /\ ~ Forall2 Qeq scale [2%Q] /\ scale = scale'
    | _, _ => False end
  | None => False
  end.
Proof.
  vm_compute. repeat split; try (repeat constructor; fail). intros H. inversion H; subst. discriminate.
Qed.
Example C219_robust_refuted :
  let k := Robust (1#4) (3#4) in
  match run k ([], [s_new]) [Fit 0 [[0%Q; 4%Q; 8%Q]]; Clone 0], run k ([], [s_new]) [Fit 0 [[0%Q; 4%Q; 8%Q]]; Clone 0; Fit 1 [[0%Q; 10%Q; 20%Q]]] with
  | Some w, Some w' => match holds w 0, holds w' 0 with Some ([_; md; _], _), Some ([_; md'; _], _) => md = [4%Q] /\ md' = [10%Q] | _, _ => False end
  | _, _ => False
  end.
Proof. vm_compute. repeat split. Qed.
