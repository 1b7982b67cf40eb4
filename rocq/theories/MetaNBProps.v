(* GaussianNB in other units and of reordered samples: property C214 *)
From Verif Require Import QCommon NBModel NBProofs MetaNBProofs.
From Verif Require Import NBProbModel NBProbProofs.
From Coq Require Import Reals Qreals Lra.
Open Scope Q_scope.

(* C214: the samples in another order, weights times k, features in the unit a c with origin b c (the same |a c| for all features unless VarSmoothing is 0):
   the first Fit gives the same classes and priors, the converted means and variances, and the same probabilities and classes for converted rows *)
Theorem C214_units_partial : forall priors vs sg xc a b k B B', (0 < xc)%nat -> (0 < length (bY B))%nat -> well_formed xc (bY B) B -> well_formed xc (bY B') B' -> good_priors priors (length (np_unique (bY B))) ->
  ~ k == 0 -> b_conv sg xc a b k B B' -> (forall c, (c < xc)%nat -> ~ a c == 0) -> (vs == 0 \/ forall c c', (c < xc)%nat -> (c' < xc)%nat -> a c * a c == a c' * a c') ->
  exists m p m' p', fit priors vs fresh (bX B) (bY B) (bw B) = Some m /\ g_par m = Some p /\ fit priors vs fresh (bX B') (bY B') (bw B') = Some m' /\ g_par m' = Some p' /\
    g_cls m' = g_cls m /\ (forall i, nth i (g_prior m') 0 == nth i (g_prior m) 0) /\ (forall i, (i < length (g_cls m))%nat -> nth i (p_cnt p') 0 == k * nth i (p_cnt p) 0) /\
    (forall i c, (i < length (g_cls m))%nat -> (c < xc)%nat -> nth c (nth i (p_mu p') []) 0 == a c * nth c (nth i (p_mu p) []) 0 + b c /\ nth c (nth i (p_va p') []) 0 == a c * a c * nth c (nth i (p_va p) []) 0) /\
    ((forall c, In c (real_model m p) -> cls_ok c) -> forall x x', length x = xc -> length x' = xc -> (forall j, (j < xc)%nat -> nth j x' 0%R = (Q2R (a j) * nth j x 0 + Q2R (b j))%R) ->
      predict (real_model m' p') x' = predict (real_model m p) x /\ log_probas (real_model m' p') x' = log_probas (real_model m p) x /\ probas (real_model m' p') x' = probas (real_model m p) x).
Proof.
  intros priors vs sg xc a b k B B' XC NY WF WF' GP Hk HC Ha Hu.
  destruct (fit_units priors vs sg xc a b k B B' XC NY WF WF' GP Hk HC Hu) as (m & p & m' & p' & E & EP & E' & EP' & EC & EN & PS & PS' & _ & _ & PR & CN & MV).
  exists m, p, m', p'. repeat (split; [assumption|]). intros OK x x' Lx Lx' Hx.
  apply (predictions_conv xc (fun c => Q2R (a c)) (fun c => Q2R (b c))); auto.
  - destruct (np_unique_spec (bY B)) as [_ UI]. unfold real_model. rewrite EN. destruct (bY B) as [|y ys]; [cbn in NY; lia|]. assert (I : In y (np_unique (y :: ys))) by (apply UI; now left). destruct (np_unique (y :: ys)); [contradiction|discriminate].
  - now apply model_conv.
  - intros j Hj Z. apply (Ha j Hj). apply eqR_Qeq. rewrite Z. unfold Q2R. cbn. lra.
Qed.
Print Assumptions C214_units_partial.
Example C214_ex : let B := mkb [[1; 0]; [3; 1]; [10; 4]; [14; 5]] [1; 1; 2; 2]%Z None in
  let B' := mkb [[29; 11]; [21; 9]; [7; 3]; [3; 1]] [2; 2; 1; 1]%Z (Some [3; 3; 3; 3]) in
  well_formed 2 (bY B) B /\ well_formed 2 (bY B') B' /\ b_conv (fun i => (3 - i)%nat) 2 (fun _ => 2) (fun _ => 1) 3 B B' /\
  exists m m', fit None (1 # 2) fresh (bX B) (bY B) (bw B) = Some m /\ fit None (1 # 2) fresh (bX B') (bY B') (bw B') = Some m' /\ g_cls m = [1; 2]%Z /\ g_cls m' = [1; 2]%Z /\ g_eps m' == 4 * g_eps m /\ 0 < g_eps m.
Proof.
  cbv zeta. split; [|split; [|split]].
  - split; [reflexivity|]. split; [reflexivity|]. split; auto. exact I.
  - split; [reflexivity|]. split; [reflexivity|]. split; auto. split; [cbn; lia|]. intros w [<-|[<-|[<-|[<-|[]]]]]; reflexivity.
  - split; [reflexivity|]. split; [change (map (fun i => (3 - i)%nat) (seq 0 4)) with (rev (seq 0 4)); symmetry; apply Permutation_rev|].
    split; [|split].
    + intros [|[|[|[|i]]]] [|[|c]] Hi Hc; cbn [length bX] in *; try lia; vm_compute; reflexivity.
    + intros [|[|[|[|i]]]] Hi; cbn [length bX] in *; try lia; reflexivity.
    + intros [|[|[|[|i]]]] Hi; cbn [length bX] in *; try lia; reflexivity.
  - do 2 eexists. split; [vm_compute; reflexivity|]. split; [vm_compute; reflexivity|]. repeat split; vm_compute; reflexivity.
Qed.

(* with VarSmoothing the variance of the widest feature is added to all of them: the unit of a single feature decides the class *)
Theorem C214_unit_refuted : exists B B' m p m' p', well_formed 2 (bY B) B /\ well_formed 2 (bY B') B' /\ b_conv (fun i => i) 2 (fun c => if Nat.eqb c 0 then 10 else 1) (fun _ => 0) 1 B B' /\
  fit None 1 fresh (bX B) (bY B) (bw B) = Some m /\ g_par m = Some p /\ fit None 1 fresh (bX B') (bY B') (bw B') = Some m' /\ g_par m' = Some p' /\
  predict (real_model m p) [1; 7 / 2]%R = 2%Z /\ predict (real_model m' p') [10; 7 / 2]%R = 1%Z.
Proof.
  exists (mkb [[-(1); -(1)]; [1; 1]; [3; 3]; [5; 5]] [1; 1; 2; 2]%Z None), (mkb [[-(10); -(1)]; [10; 1]; [30; 3]; [50; 5]] [1; 1; 2; 2]%Z None).
  do 4 eexists. split; [|split; [|split; [|split; [|split; [|split; [|split; [|split]]]]]]].
  - split; [reflexivity|]. split; [reflexivity|]. split; auto. exact I.
  - split; [reflexivity|]. split; [reflexivity|]. split; auto. exact I.
  - split; [reflexivity|]. split; [rewrite map_id; reflexivity|]. split; [|split].
    + intros [|[|[|[|i]]]] [|[|c]] Hi Hc; cbn [length bX] in *; try lia; vm_compute; reflexivity.
    + intros [|[|[|[|i]]]] Hi; cbn [length bX] in *; try lia; reflexivity.
    + intros [|[|[|[|i]]]] Hi; cbn [length bX] in *; try lia; reflexivity.
  - vm_compute. reflexivity.
  - reflexivity.
  - vm_compute. reflexivity.
  - reflexivity.
  - match goal with |- predict ?M _ = _ => assert (EM : M = [mkcls 1 (1 / 2)%R [0; 0]%R [6; 6]%R; mkcls 2 (1 / 2)%R [4; 4]%R [6; 6]%R]) end.
    { unfold real_model. cbn [g_cls g_prior p_mu p_va length seq map nth]. repeat match goal with |- context [Q2R ?q] => let r := eval vm_compute in (Qred q) in match r with q => fail 1 | _ => change (Q2R q) with (Q2R q); rewrite (Qeq_eqR q r) by reflexivity end end.
      unfold Q2R. cbn [Qnum Qden]. repeat f_equal; lra. }
    rewrite EM. unfold predict, jll, jll1, nij, max_idx. cbn. destruct (Rlt_dec _ _) as [H|H]; [reflexivity|exfalso; apply H; lra].
  - match goal with |- predict ?M _ = _ => assert (EM : M = [mkcls 1 (1 / 2)%R [0; 0]%R [600; 501]%R; mkcls 2 (1 / 2)%R [40; 4]%R [600; 501]%R]) end.
    { unfold real_model. cbn [g_cls g_prior p_mu p_va length seq map nth]. repeat match goal with |- context [Q2R ?q] => let r := eval vm_compute in (Qred q) in match r with q => fail 1 | _ => rewrite (Qeq_eqR q r) by reflexivity end end.
      unfold Q2R. cbn [Qnum Qden]. repeat f_equal; lra. }
    rewrite EM. unfold predict, jll, jll1, nij, max_idx. cbn. destruct (Rlt_dec _ _) as [H|H]; [exfalso; lra|reflexivity].
Qed.
Print Assumptions C214_unit_refuted.
