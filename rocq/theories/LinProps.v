(* Properties C42, C43, C44, C46, C104-C108. *)
From Verif Require Import QCommon LinModel LinProofs CdProofs EnetProofs.

(* C42: on raw rows, what the inner model says on preprocessed rows plus the target mean *)
Theorem C42_predictions : forall nrm fit norm X Y W q old C b,
  (0 < length X)%nat -> length W = ncols X -> ncols Y = q -> (fit = true \/ old = None) ->
  let pr := preprocess nrm fit norm X Y in
  set_intercept fit pr W q old = Some (C, b) ->
  forall row o, (o < q)%nat ->
  decision C b row o == sumn (length W) (fun j => (nth j row 0 - nth j (p_xoff pr) 0) / nth j (p_scale pr) 0 * at2 W j o) + nth o (p_yoff pr) 0.
Proof.
  intros nrm fit norm X Y W q old C b HX HW HY Hfo pr H row o Ho. apply (set_intercept_spec fit pr W q old C b H Hfo); [|exact Ho].
  intros ->. destruct (off_nofit nrm norm X Y) as [A B]. split; intros k Hk; [apply A|apply B]; lia.
Qed.
Print Assumptions C42_predictions.
(* the preprocessed training rows are the raw ones, centred and scaled; the target mean is the offset *)
Theorem C42_rows : forall nrm fit norm X Y i j, (i < length X)%nat -> (j < ncols X)%nat ->
  let pr := preprocess nrm fit norm X Y in ~ nth j (p_scale pr) 0 == 0 ->
  at2 (pX pr) i j == (at2 X i j - nth j (p_xoff pr) 0) / nth j (p_scale pr) 0 /\
  (fit = true -> nth j (p_xoff pr) 0 == sumn (length X) (fun i => at2 X i j) / qn (length X)).
Proof.
  intros nrm fit norm X Y i j Hi Hj pr Hs. split; [now apply pX_at|]. intros ->. unfold pr. now rewrite off_fit.
Qed.
Print Assumptions C42_rows.
(* it is defined whenever no normalised column is constant *)
Theorem C42_defined : forall nrm fit norm X Y W q old, definite nrm -> length W = ncols X ->
  ((fit && norm)%bool = true -> forall j, (j < ncols X)%nat -> exists i i', (i < length X)%nat /\ (i' < length X)%nat /\ ~ at2 X i j == at2 X i' j) ->
  match old with None => True | Some l => length l = q end ->
  set_intercept fit (preprocess nrm fit norm X Y) W q old <> None.
Proof.
  intros nrm fit norm X Y W q old D HW H Ho. unfold set_intercept. rewrite existsb_nonzero by (rewrite HW; now apply scale_nonzero).
  destruct fit; [|discriminate]. destruct old as [l|]; [rewrite Ho|rewrite tab_length]; rewrite Nat.eqb_refl; discriminate.
Qed.
Print Assumptions C42_defined.
(* a constant column, such as a column of ones, makes every prediction NaN or Inf *)
Theorem C42_constant_column_refuted : forall nrm X Y W q old j c, definite nrm -> (0 < length X)%nat -> length W = ncols X -> (j < ncols X)%nat ->
  (forall i, (i < length X)%nat -> at2 X i j == c) -> set_intercept true (preprocess nrm true true X Y) W q old = None.
Proof.
  intros nrm X Y W q old j c D HX HW Hj H. unfold set_intercept.
  assert (E : existsb (fun j => Qeq_bool (nth j (p_scale (preprocess nrm true true X Y)) 0) 0) (seq 0 (length W)) = true); [|now rewrite E].
  apply existsb_exists. exists j. split; [apply in_seq; lia|]. apply Qeq_bool_iff. exact (scale_const nrm X Y j c D HX Hj H).
Qed.
Print Assumptions C42_constant_column_refuted.
(* a norm with exact values for the example; any definite one would do for the theorems *)
Definition nrm1 (l : list Q) : Q := qsum (map Qabs l).
Example C42_example : let X := [[1; 2]; [3; 8]]%Q in let Y := [[1]; [5]]%Q in
  exists C b, set_intercept true (preprocess nrm1 true true X Y) [[2]; [6]] 1 None = Some (C, b) /\
  Qeq_bool (decision C b [1; 2] 0) (-1) = true /\ Qeq_bool (decision C b [3; 8] 0) 7 = true.
Proof. eexists. eexists. split; [reflexivity|]. vm_compute. now split. Qed.

(* C43 *)
Theorem C43_coordinate : forall alpha beta positive X y p st j, 0 <= alpha -> 0 <= beta -> (j < p)%nat ->
  length (c_w st) = p -> (forall i, (i < length X)%nat -> nth i (c_R st) 0 == nth i y 0 - sumn p (fun k => at2 X i k * nth k (c_w st) 0)) ->
  let st' := cd_update alpha beta positive X st j in
  (forall i, (i < length X)%nat -> nth i (c_R st') 0 == nth i y 0 - sumn p (fun k => at2 X i k * nth k (c_w st') 0)) /\
  (forall k, k <> j -> nth k (c_w st') 0 = nth k (c_w st) 0) /\
  (~ ncx X j == 0 -> forall v, (positive = true -> 0 <= v) -> enet_obj alpha beta X y p (c_w st') <= enet_obj alpha beta X y p (upd (c_w st) j v)).
Proof.
  intros alpha beta positive X y p st j Ha Hb Hj HL HR. cbv zeta.
  assert (Hst : st_ok X y p st) by (split; auto).
  destruct (update_spec alpha beta positive X y p st j Hj Hst) as ((_ & A) & B & C). split; [exact A|]. split.
  - intros k Hk. destruct (Qeq_dec (ncx X j) 0) as [E|E]; [now rewrite (B E)|]. destruct (C E) as (v & -> & _).
    rewrite nth_updq by lia. apply Nat.eqb_neq in Hk. now rewrite Hk.
  - intros E v Hv. now apply update_minimises.
Qed.
Print Assumptions C43_coordinate.
(* all orders, penalties, starting points, iteration counts *)
Theorem C43_descent : forall alpha beta positive X y order tol maxIter w0 w gap eps it,
  0 <= alpha -> 0 <= beta -> (forall k j, In j (order k) -> (j < ncols X)%nat) -> length w0 = ncols X ->
  (positive = true -> forall j, (j < ncols X)%nat -> 0 <= nth j w0 0) ->
  enet_cd alpha beta positive X y order tol maxIter w0 = (w, gap, eps, it) ->
  enet_obj alpha beta X y (ncols X) w <= enet_obj alpha beta X y (ncols X) w0 /\
  (maxIter <> O -> forall v, (positive = true -> forall j, (j < ncols X)%nat -> 0 <= nth j v 0) ->
     enet_obj alpha beta X y (ncols X) w - gap <= enet_obj alpha beta X y (ncols X) v).
Proof.
  intros alpha beta positive X y order tol maxIter w0 w gap eps it Ha Hb HO HL Hp H.
  destruct (enet_cd_spec _ _ _ _ _ _ _ _ _ _ _ _ _ Ha Hb HO HL Hp H) as (_ & _ & A & _ & B & _). now split.
Qed.
Print Assumptions C43_descent.
(* without iterations the reported gap is tol + 1, whatever the data *)
Theorem C43_no_iteration_refuted : exists X y w0 w gap eps it v,
  enet_cd 0 0 false X y (cyclic 1) 0 0 w0 = (w, gap, eps, it) /\ ~ enet_obj 0 0 X y 1 w - gap <= enet_obj 0 0 X y 1 v.
Proof.
  exists [[1]], [4], [0], [0]. eexists. eexists. eexists. exists [4]. split; [reflexivity|]. apply Qlt_not_le. vm_compute. reflexivity.
Qed.
Print Assumptions C43_no_iteration_refuted.
Example C43_example : let '(w, gap, eps, it) := enet_cd 1 (1 # 2) false [[1; 0]; [1; 2]] [3; 5] (cyclic 2) (1 # 100) 3 [0; 0] in
  Qle_bool gap 1 = true /\ Qltb (enet_obj 1 (1 # 2) [[1; 0]; [1; 2]] [3; 5] 2 w) (enet_obj 1 (1 # 2) [[1; 0]; [1; 2]] [3; 5] 2 [0; 0]) = true.
Proof. vm_compute. now split. Qed.

(* C44, one output; for several outputs see MtProps.v *)
Theorem C44_one_output_partial : forall nrm order e X Y p old C b gap eps it,
  rect X p -> rect Y 1 -> length Y = length X -> (forall k j, In j (order k) -> (j < p)%nat) -> 0 <= e_alpha e -> 0 <= e_l1 e <= 1 ->
  e_pos e = true -> e_warm e = false -> (forall l, 0 <= nrm l) ->
  enet_fit nrm order e X Y None old = Some (C, b, gap, eps, it) -> forall j, (j < p)%nat -> 0 <= at2 C j 0.
Proof.
  intros nrm order e X Y p old C b gap eps it HX HY HL HO Ha Hl Hp Hw Hn H j Hj.
  exact (fit_positive nrm order e X Y p HX HL HO Ha Hl old C b gap eps it Hp Hw Hn H j Hj).
Qed.
Print Assumptions C44_one_output_partial.
Example C44_example : exists C b g e i,
  enet_fit nrm1 (cyclic 2) (mkep true false (1 # 10) (1 # 2) (1 # 100) 4 false true) [[1; 0]; [0; 1]; [1; 1]] [[1]; [-3]; [0]] None None = Some (C, b, g, e, i) /\
  Qltb 0 (at2 C 0 0) = true /\ Qeq_bool (at2 C 1 0) 0 = true.
Proof. do 5 eexists. split; [vm_compute; reflexivity|]. vm_compute. now split. Qed.

(* C46: the clone holds the same Intercept pointer, and Fit stores through it *)
Theorem C46_clone_refuted : exists h C b row, let '(h1, c) := lclone h 0 in lh_wf h /\
  predict_through (fit_store KLinear h1 c C b) 0 row 0 <> predict_through h 0 row 0.
Proof.
  exists (mklh [mklobj (Some 0%nat) (Some 1%nat)] [[[2]]; [[3]]]), [[7]], [11], [1]. cbn [lclone]. split.
  - intros [|[|o]] a; cbn; intros [H|H]; try discriminate; injection H as <-; lia.
  - vm_compute. discriminate.
Qed.
Print Assumptions C46_clone_refuted.
(* with WarmStart the coefficients are shared as well *)
Theorem C46_warm_refuted : exists h C b row, let '(h1, c) := lclone h 0 in b = nth 0 (nth 1 (h_cells h) []) [] /\
  predict_through (fit_store KWarm h1 c C b) 0 row 0 <> predict_through h 0 row 0.
Proof.
  exists (mklh [mklobj (Some 0%nat) (Some 1%nat)] [[[2]]; [[3]]]), [[7]], [3], [1]. cbn [lclone]. split; [reflexivity|vm_compute; discriminate].
Qed.
Print Assumptions C46_warm_refuted.
(* it holds for BayesianRidge, and for every kind when the original had not been fitted *)
Theorem C46_clone_partial : forall kd h o C b row k, lh_wf h -> (o < length (h_objs h))%nat -> kd <> KWarm ->
  (kd = KBayes \/ o_icpt (lget h o) = None) ->
  let '(h1, c) := lclone h o in predict_through (fit_store kd h1 c C b) o row k = predict_through h o row k.
Proof.
  intros kd h o C b row k W Ho K H. pose proof (clone_get h o Ho) as G. destruct (lclone h o) as [h1 c]. destruct G as (N & G1 & G2 & G3 & G4).
  rewrite (fit_other kd h1 c o C b row k (G4 W) (not_eq_sym N)); [|rewrite G1; tauto|exact K].
  unfold predict_through, deref. now rewrite (G2 o Ho), G3.
Qed.
Print Assumptions C46_clone_partial.
Example C46_example : let h := mklh [mklobj (Some 0%nat) (Some 1%nat)] [[[2]]; [[3]]] in
  let '(h1, c) := lclone h 0 in
  predict_through (fit_store KBayes h1 c [[7]] [11]) 0 [1] 0 = Some 5 /\ predict_through (fit_store KBayes h1 c [[7]] [11]) c [1] 0 = Some 18.
Proof. now split. Qed.

(* C104: given that Solve solves the normal equations, no other model fits the training data better *)
Theorem C104_least_squares : forall nrm solve fit norm X Y p q old C b,
  rect X p -> rect Y q -> length Y = length X -> (fit = true \/ old = None) ->
  (let pr := preprocess nrm fit norm X Y in
   length (solve (pX pr) (pY pr)) = p /\
   forall j o, (j < p)%nat -> (o < q)%nat ->
     sumn (length X) (fun i => at2 (pX pr) i j * (at2 (pY pr) i o - sumn p (fun k => at2 (pX pr) i k * at2 (solve (pX pr) (pY pr)) k o))) == 0) ->
  linreg_fit nrm solve fit norm X Y old = Some (C, b) ->
  forall o w' b', (o < q)%nat -> (fit = false -> b' == 0) ->
  sumn (length X) (fun i => (at2 Y i o - decision C b (nth i X []) o) * (at2 Y i o - decision C b (nth i X []) o)) <=
  sumn (length X) (fun i => (at2 Y i o - (sumn p (fun j => at2 X i j * nth j w' 0) + b')) * (at2 Y i o - (sumn p (fun j => at2 X i j * nth j w' 0) + b'))).
Proof. exact least_squares. Qed.
Print Assumptions C104_least_squares.
Example C104_example : let X := [[1]; [2]; [4]]%Q in let Y := [[1]; [1]; [5]]%Q in
  exists C b, linreg_fit nrm1 (fun _ _ => [[10 # 7]]) true false X Y None = Some (C, b) /\
  Qeq_bool (sumn 3 (fun i => at2 (pX (preprocess nrm1 true false X Y)) i 0 * (at2 (pY (preprocess nrm1 true false X Y)) i 0 - at2 (pX (preprocess nrm1 true false X Y)) i 0 * (10 # 7)))) 0 = true /\
  Qeq_bool (nth 0 b 0) (-1) = true.
Proof. eexists. eexists. split; [reflexivity|]. vm_compute. now split. Qed.

(* C105: with FitIntercept and as many outputs as before nothing of an earlier fit is left *)
Theorem C105_refit_partial : forall nrm solve norm X Y old, length old = ncols Y ->
  linreg_fit nrm solve true norm X Y (Some old) = linreg_fit nrm solve true norm X Y None.
Proof. intros nrm solve norm X Y old H. unfold linreg_fit, set_intercept. cbv zeta. rewrite H, tab_length. reflexivity. Qed.
Print Assumptions C105_refit_partial.
(* otherwise: FitIntercept=false keeps and uses the old intercept *)
Theorem C105_stale_intercept_refuted : forall nrm solve norm X Y old C b,
  linreg_fit nrm solve false norm X Y (Some old) = Some (C, b) -> b = old.
Proof. intros nrm solve norm X Y old C b. unfold linreg_fit, set_intercept. cbv zeta. destruct (existsb _ _); [discriminate|]. congruence. Qed.
Print Assumptions C105_stale_intercept_refuted.
(* another number of outputs panics *)
Theorem C105_outputs_refuted : forall nrm solve norm X Y old, length old <> ncols Y -> linreg_fit nrm solve true norm X Y (Some old) = None.
Proof. intros nrm solve norm X Y old H. unfold linreg_fit, set_intercept. cbv zeta. apply Nat.eqb_neq in H. rewrite H. now destruct (existsb _ _). Qed.
Print Assumptions C105_outputs_refuted.
(* WarmStart cannot be used for the first fit *)
Theorem C105_warm_first_refuted : forall nrm order e X Y old, e_warm e = true -> enet_fit nrm order e X Y None old = None.
Proof. intros nrm order e X Y old H. unfold enet_fit. cbv zeta. now rewrite H. Qed.
Print Assumptions C105_warm_first_refuted.
Example C105_example : exists C b, linreg_fit nrm1 (fun _ _ => [[1]]) false false [[1]; [2]] [[1]; [2]] (Some [100]) = Some (C, b) /\ decision C b [1] 0 == 101.
Proof. eexists. eexists. split; [reflexivity|]. vm_compute. reflexivity. Qed.

(* C106: without Normalize, Gap bounds how far the model is from the best one on the caller's data *)
Theorem C106_fit_optimal : forall nrm order e X Y p coef old C b gap eps it,
  rect X p -> rect Y 1 -> length Y = length X -> (forall k j, In j (order k) -> (j < p)%nat) -> 0 <= e_alpha e -> 0 <= e_l1 e <= 1 ->
  e_norm e = false -> (e_fit e = true \/ old = None) -> e_iter e <> O ->
  (e_warm e = true -> match coef with Some w0 => length w0 = p /\ (e_pos e = true -> forall k, (k < p)%nat -> 0 <= nth k w0 0) | None => True end) ->
  enet_fit nrm order e X Y coef old = Some (C, b, gap, eps, it) ->
  forall v b', (e_fit e = false -> b' == 0) -> (e_pos e = true -> forall j, (j < p)%nat -> 0 <= v j) ->
  let n := qn (length X) in
  raw_obj (e_alpha e * e_l1 e * n) (e_alpha e * (1 - e_l1 e) * n) X (fun i => at2 Y i 0) p (fun j => at2 C j 0) (nth 0 b 0) - gap
  <= raw_obj (e_alpha e * e_l1 e * n) (e_alpha e * (1 - e_l1 e) * n) X (fun i => at2 Y i 0) p v b'.
Proof.
  intros nrm order e X Y p coef old C b gap eps it HX HY HL HO Ha Hl Hno Hfo Hit Hw H v b' Hb Hv. cbv zeta.
  exact (fit_optimal nrm order e X Y p HX HY HL HO Ha Hl coef old C b gap eps it Hno Hfo Hit Hw H v b' Hb Hv).
Qed.
Print Assumptions C106_fit_optimal.
(* the gap is reached: where no coordinate moves it is 0, so such a point is a minimiser *)
Theorem C106_stationary : forall alpha beta positive X y p w R, 0 <= alpha -> 0 <= beta -> (0 < p)%nat -> length w = p ->
  (forall i, (i < length X)%nat -> nth i R 0 == nth i y 0 - sumn p (fun j => at2 X i j * nth j w 0)) ->
  (forall j, (j < p)%nat ->
    let t := sumn (length X) (fun i => at2 X i j * (nth i y 0 - sumn p (fun k => at2 X i k * nth k w 0) + nth j w 0 * at2 X i j)) in
    (ncx X j == 0 -> nth j w 0 == 0) /\
    (~ ncx X j == 0 -> nth j w 0 == if (positive && Qltb t 0)%bool then 0 else fsign t * qmax (Qabs t - alpha) 0 / (ncx X j + beta))) ->
  cd_gap alpha beta positive X y p w R == 0 /\
  forall v, (positive = true -> forall j, (j < p)%nat -> 0 <= nth j v 0) -> enet_obj alpha beta X y p w <= enet_obj alpha beta X y p v.
Proof.
  intros alpha beta positive X y p w R Ha Hb Hp HL HR HS.
  assert (G : cd_gap alpha beta positive X y p w R == 0) by (now apply stationary_gap). split; [exact G|].
  intros v Hv. pose proof (gap_bound alpha beta positive X y p Ha Hb w R v HR Hv). lra.
Qed.
Print Assumptions C106_stationary.
Example C106_example : Qeq_bool (cd_gap 1 1 false [[1; 0]; [0; 2]] [3; 1] 2 [1; 1 # 5] [2; 3 # 5]) 0 = true.
Proof. vm_compute. reflexivity. Qed.

(* C107: NIter within MaxIter means that the tolerance was reached ... *)
Theorem C107_converged_partial : forall alpha beta positive X y order tol maxIter w0 w gap eps it,
  0 <= alpha -> 0 <= beta -> (forall k j, In j (order k) -> (j < ncols X)%nat) -> length w0 = ncols X ->
  (positive = true -> forall j, (j < ncols X)%nat -> 0 <= nth j w0 0) ->
  enet_cd alpha beta positive X y order tol maxIter w0 = (w, gap, eps, it) ->
  (it <= S maxIter)%nat /\ ((it <= maxIter)%nat -> gap < eps) /\ eps = tol * sumn (length X) (fun i => nth i y 0 * nth i y 0).
Proof.
  intros alpha beta positive X y order tol maxIter w0 w gap eps it Ha Hb HO HL Hp H.
  destruct (enet_cd_spec _ _ _ _ _ _ _ _ _ _ _ _ _ Ha Hb HO HL Hp H) as (_ & _ & _ & A & _ & B & C). auto.
Qed.
Print Assumptions C107_converged_partial.
(* ... but the number of passes made is not what is reported otherwise *)
Theorem C107_niter_refuted : exists X y w gap eps it, enet_cd 1 0 false X y (cyclic 2) 0 1 [0; 0] = (w, gap, eps, it) /\ it = 2%nat.
Proof. exists [[1; 1]; [0; 1]], [3; 1]. do 4 eexists. split; [vm_compute; reflexivity|reflexivity]. Qed.
Print Assumptions C107_niter_refuted.
Example C107_example : let '(_, gap, eps, it) := enet_cd 1 1 false [[1; 0]; [0; 2]] [3; 1] (cyclic 2) (1 # 2) 5 [0; 0] in Qltb gap eps = true /\ it = 2%nat.
Proof. vm_compute. now split. Qed.

(* C108: a penalty at least as large as every correlation gives zero coefficients ... *)
Theorem C108_zero_partial : forall alpha beta positive X y order tol maxIter w gap eps it,
  0 <= alpha -> 0 <= beta -> (forall k j, In j (order k) -> (j < ncols X)%nat) ->
  (forall j, (j < ncols X)%nat -> Qabs (sumn (length X) (fun i => at2 X i j * nth i y 0)) <= alpha) ->
  enet_cd alpha beta positive X y order tol maxIter (tab (ncols X) (fun _ => 0)) = (w, gap, eps, it) ->
  forall j, (j < ncols X)%nat -> nth j w 0 == 0.
Proof.
  intros alpha beta positive X y order tol maxIter w gap eps it Ha Hb HO Hc. unfold enet_cd. cbv zeta.
  pose proof (zero_loop alpha beta positive X y (ncols X) order tol (tol * sumn (length X) (fun i => nth i y 0 * nth i y 0)) Ha Hb HO Hc maxIter 0 (tab (ncols X) (fun _ => 0)) (resid0 X y (ncols X) (tab (ncols X) (fun _ => 0))) (tol + 1)) as H.
  destruct (cd_loop _ _ _ _ _ _ _ _ _ _ _ _ _ _) as [[w' g'] it']. intros E. injection E as <- <- <- <-. apply H.
  - apply tab_length.
  - apply res_ok0.
  - intros k Hk. now rewrite (nth_tab _ Hk).
Qed.
Print Assumptions C108_zero_partial.
(* ... but the grid of EnetPath does not start there *)
Theorem C108_grid_refuted : forall nrm, nrm [3; 4] == 5 -> exists X Y, alpha_max nrm X Y 1 == 5 /\
  let '(w, _, _, _) := enet_cd 5 0 false X (map (fun r => nth 0 r 0) Y) (cyclic 1) (1 # 1000) 1000 [0] in nth 0 w 0 == 7 # 9.
Proof.
  intros nrm H. exists [[3]], [[4]]. split.
  - unfold alpha_max. cbn [length seq fold_left nth app]. destruct (Qltb_spec 0 (nrm [3; 4])) as [L|L]; [rewrite H; vm_compute; reflexivity|].
    exfalso. lra.
  - vm_compute. reflexivity.
Qed.
Print Assumptions C108_grid_refuted.
(* its largest penalty moves the wrong way with L1Ratio and with the number of samples: repeating every sample leaves the
   mean squared error as it is and doubles the grid *)
Theorem C108_scale_refuted : forall nrm X Y l, length Y = length X ->
  alpha_max nrm X Y l == l * alpha_max nrm X Y 1 /\ alpha_max nrm (X ++ X) (Y ++ Y) l == 2 * alpha_max nrm X Y l.
Proof.
  intros nrm X Y l HL. unfold alpha_max. split; [ring|].
  pose (f := fun m v : Q => if Qltb m v then v else m).
  assert (G : forall A B, length B = length A -> fold_left (fun m i => if Qltb m (nrm (nth i A [] ++ nth i B [])) then nrm (nth i A [] ++ nth i B []) else m) (seq 0 (length A)) 0 = fold_left f (map (fun ab => nrm (fst ab ++ snd ab)) (combine A B)) 0).
  { intros A. generalize 0. induction A as [|x A IH]; intros q [|y B] HB; try discriminate HB; [reflexivity|].
    cbn [length seq fold_left map combine fst snd nth]. rewrite <- seq_shift. rewrite <- IH by now injection HB.
    change (if Qltb q (nrm (x ++ y)) then nrm (x ++ y) else q) with (f q (nrm (x ++ y))). generalize (f q (nrm (x ++ y))). clear. induction (seq 0 (length A)) as [|i s IHs]; intros q; [reflexivity|]. cbn [map fold_left nth]. apply IHs. }
  rewrite !G by (rewrite ?app_length; lia).
  assert (C : combine (X ++ X) (Y ++ Y) = combine X Y ++ combine X Y).
  { clear G. generalize X at 2 4. generalize Y at 2 4. revert Y HL. induction X as [|x X IH]; intros [|y Y] HL X' Y'; try discriminate HL; [reflexivity|].
    cbn [app combine]. f_equal. apply IH. now injection HL. }
  rewrite C, map_app, fold_left_app.
  assert (I : forall L q, (forall v, In v L -> v <= q) -> fold_left f L q = q).
  { induction L as [|v L IH]; intros q HI; [reflexivity|]. cbn [fold_left]. unfold f at 2. destruct (Qltb_spec q v) as [E|E].
    - specialize (HI v (or_introl eq_refl)). exfalso. lra.
    - apply IH. intros u Hu. apply HI. now right. }
  assert (M : forall L q, q <= fold_left f L q /\ forall v, In v L -> v <= fold_left f L q).
  { induction L as [|v L IH]; intros q; [split; [apply Qle_refl|intros v []]|]. cbn [fold_left].
    assert (q <= f q v /\ v <= f q v) as [B1 B2] by (unfold f; destruct (Qltb_spec q v); split; lra).
    destruct (IH (f q v)) as [A1 A2]. split; [lra|]. intros u [-> | Hu]; [lra|auto]. }
  rewrite I by (apply M). rewrite app_length. unfold qn. rewrite Nat2Z.inj_add, inject_Z_plus. ring.
Qed.
Print Assumptions C108_scale_refuted.
Example C108_example : let '(w, _, _, _) := enet_cd 12 0 false [[3]] [4] (cyclic 1) (1 # 1000) 1000 [0] in nth 0 w 0 == 0.
Proof. vm_compute. reflexivity. Qed.
