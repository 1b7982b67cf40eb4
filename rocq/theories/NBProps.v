(* Properties of GaussianNB: C47, C48, C103. *)
From Verif Require Import QCommon NBModel NBProofs.

(* C47.  The first Fit estimates the moments of every class ... *)
Theorem C47_first_fit_partial : forall priors vs b xc, (0 < xc)%nat -> (0 < length (bY b))%nat -> well_formed xc (bY b) b -> good_priors priors (length (np_unique (bY b))) ->
  exists m p e, fit priors vs fresh (bX b) (bY b) (bw b) = Some m /\ g_par m = Some p /\ g_cls m = np_unique (bY b) /\
    (exists M, e = vs * M /\ (exists c, (c < xc)%nat /\ M = wvar (column b c)) /\ forall c, (c < xc)%nat -> wvar (column b c) <= M) /\
    forall k y c, nth_error (np_unique (bY b)) k = Some y -> (c < xc)%nat ->
      let l := of_class b y c in
      l <> [] /\ nth k (p_cnt p) 0 == wsum l /\ nth c (nth k (p_mu p) []) 0 == wmean l /\ nth c (nth k (p_va p) []) 0 == wvar l + e.
Proof. exact first_fit. Qed.
Print Assumptions C47_first_fit_partial.
(* ... and every later Fit panics, whatever the data *)
Theorem C47_refit_refuted : forall priors vs m X Y sw, g_par m <> None -> fit priors vs m X Y sw = None.
Proof. exact refit_panics. Qed.
Print Assumptions C47_refit_refuted.
(* no sample weights: as if all were 1 *)
Theorem C47_unweighted : forall priors vs m X Y classes,
  fit priors vs m X Y None = fit priors vs m X Y (Some (repeat 1 (length X))) /\
  partial_fit priors vs m X Y classes false None = partial_fit priors vs m X Y classes false (Some (repeat 1 (length X))).
Proof. intros. split; apply partial_fit_ones. Qed.
Print Assumptions C47_unweighted.
Definition nb_b1 : batch := mkb [[1; 0]; [3; 1]; [10; 4]] [1; 1; 2]%Z None.
Definition nb_b2 : batch := mkb [[5; 0]; [9; 0]; [12; 4]] [1; 1; 2]%Z (Some [1; 3; 2]).
Example C47_example : exists m, fit None 0 fresh (bX nb_b1) (bY nb_b1) None = Some m /\ g_cls m = [1; 2]%Z /\
  match g_par m with Some p => Qeq_bool (nth 0 (nth 0 (p_mu p) []) 0) 2 && Qeq_bool (nth 0 (nth 0 (p_va p) []) 0) 1 | None => false end = true /\
  fit None 0 m (bX nb_b1) (bY nb_b1) None = None.
Proof. eexists. split; [vm_compute; reflexivity|]. vm_compute. repeat split. Qed.

(* C48.  Counts, means and priors after any batches are those of all samples so far; with
   VarSmoothing 0 the variance is never too large, and right when the batch means agree *)
Theorem C48_pooled_partial : forall priors vs classes xc bs, NoDup classes -> classes <> [] -> (0 < xc)%nat -> bs <> [] -> (forall b, In b bs -> well_formed xc classes b) -> good_priors priors (length classes) ->
  exists m p, run priors vs classes fresh bs = Some m /\ g_par m = Some p /\ g_cls m = classes /\
    forall k y c, nth_error classes k = Some y -> (c < xc)%nat -> let l := samples bs y c in
      nth k (p_cnt p) 0 == wsum l /\ (l <> [] -> nth c (nth k (p_mu p) []) 0 == wmean l) /\
      (priors = None -> nth k (g_prior m) 0 == wsum l / qsum (map (fun z => wsum (samples bs z 0)) classes)) /\
      (vs == 0 -> l <> [] -> nth c (nth k (p_va p) []) 0 <= wvar l /\ (same_means bs y c -> nth c (nth k (p_va p) []) 0 == wvar l)).
Proof. exact history. Qed.
Print Assumptions C48_pooled_partial.
(* Two batches whose class means differ: the variance is too small by the last summand, always *)
Theorem C48_variance_refuted : forall priors classes xc b1 b2, NoDup classes -> classes <> [] -> (0 < xc)%nat -> well_formed xc classes b1 -> well_formed xc classes b2 -> good_priors priors (length classes) ->
  exists m p, run priors 0 classes fresh [b1; b2] = Some m /\ g_par m = Some p /\
    forall k y c, nth_error classes k = Some y -> (c < xc)%nat -> of_class b1 y c <> [] -> of_class b2 y c <> [] ->
      let n1 := wsum (of_class b1 y c) in let n2 := wsum (of_class b2 y c) in let d := wmean (of_class b1 y c) - wmean (of_class b2 y c) in
      nth c (nth k (p_va p) []) 0 + n1 * n2 / ((n1 + n2) * (n1 + n2)) * (1 - n1 / (n1 + n2) * (n1 / (n1 + n2))) * (d * d) == wvar (of_class b1 y c ++ of_class b2 y c).
Proof. exact two_batches. Qed.
Print Assumptions C48_variance_refuted.
(* With smoothing, the epsilon of the last batch is taken away where that of the batch before was added *)
Theorem C48_smoothing_refuted : exists vs classes bs m p, 0 < vs /\ run None vs classes fresh bs = Some m /\ g_par m = Some p /\
  (forall y c, same_means bs y c) /\ ~ nth 0 (nth 0 (p_va p) []) 0 == wvar (samples bs (nth 0 classes 0%Z) 0) + g_eps m.
Proof.
  exists 1, [1%Z], [mkb [[-1]; [1]] [1; 1]%Z None; mkb [[-3]; [3]] [1; 1]%Z None].
  eexists _, _. split; [reflexivity|]. split; [vm_compute; reflexivity|]. split; [reflexivity|]. split.
  - intros y c. exists (match c with O => 0 | _ => 0 end). intros b [<-|[<-|[]]] N; unfold of_class in *; cbn [bX bY bw length seq filter nth] in *;
    destruct (1 =? y)%Z; cbn in N; try congruence; destruct c as [|[|c]]; vm_compute; reflexivity.
  - vm_compute. discriminate.
Qed.
Print Assumptions C48_smoothing_refuted.
Example C48_example : exists m p, run None 0 [1; 2]%Z fresh [nb_b1; nb_b2] = Some m /\ g_par m = Some p /\
  nth 0 (nth 0 (p_mu p) []) 0 == 6 /\ wmean (samples [nb_b1; nb_b2] 1 0) == 6 /\
  wvar (samples [nb_b1; nb_b2] 1 0) == 31 # 3 /\ nth 0 (nth 0 (p_va p) []) 0 == 29 # 9.
Proof. eexists _, _. split; [vm_compute; reflexivity|]. split; [reflexivity|]. vm_compute. repeat split. Qed.

(* C103.  PartialFit on a clone of a fitted estimator changes the original: afterwards both predict
   with the same parameters *)
Theorem C103_clone_refuted : forall priors vs h o b classes h', (o < length (objs h))%nat -> o_fun (get h o) = Some o ->
  o_par (get h o) <> None -> (forall a, o_par (get h o) = Some a -> (a < length (cells h))%nat) ->
  let '(h1, o') := clone h o in pfit priors vs h1 o' b classes = Some h' ->
  g_par (model_of h' o) = g_par (model_of h' o') /\ g_prior (model_of h' o) = g_prior (model_of h' o').
Proof. exact pfit_clone. Qed.
Print Assumptions C103_clone_refuted.
(* PartialFit on the original changes the clone: its predictions are those of the original *)
Theorem C103_original_refuted : forall priors vs h o b classes h', (o < length (objs h))%nat -> o_fun (get h o) = Some o ->
  let '(h1, o') := clone h o in pfit priors vs h1 o b classes = Some h' -> model_of h' o' = model_of h' o.
Proof. exact pfit_original. Qed.
Print Assumptions C103_original_refuted.
Example C103_example : let h0 := mkmem [dummy] [] in
  exists h1 h3, pfit None 0 h0 0 nb_b1 [1; 2]%Z = Some h1 /\ pfit None 0 (fst (clone h1 0)) 1 nb_b2 [1; 2]%Z = Some h3 /\
    match g_par (model_of h1 0), g_par (model_of h3 0) with Some p, Some q => Qeq_bool (nth 0 (p_cnt p) 0) 2 && Qeq_bool (nth 0 (p_cnt q) 0) 6 | _, _ => false end = true.
Proof. eexists _, _. split; [vm_compute; reflexivity|]. split; [vm_compute; reflexivity|]. vm_compute. reflexivity. Qed.
