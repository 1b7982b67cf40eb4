(* Properties C168-C171. *)
From Coq Require Import Reals Lra Lia List Arith Bool.
From Verif Require Import MtModel MtProofs LossProofs PcaProofs KernModel KernProofs KernGradProofs KernPsdProofs LmlModel LmlProofs.
Import ListNotations.
Open Scope R_scope.

(* C168: the gradient that LogMarginalLikelihood returns is the gradient of the value it returns *)
Theorem C168_gradient_partial : forall pw p ok st k al n cy X Y stored fac sol inv th, (forall v m, pw v (INR m) = v ^ m) ->
  (forall a, In a (addrs k) -> (a < length st)%nat) -> gk p n X (val st k) -> pk p n X (val st k) -> haswhite k = false -> length th = nfree k -> (ok = true \/ free_ops k = true) ->
  (length al = 1 \/ n <= length al)%nat -> Forall (fun a => 0 < a) al -> solver_ok n cy Y fac sol inv ->
  exists F g, length g = length th /\
    (forall t m, exists g', lml_run pw p ok st k al n cy X Y stored fac sol inv (Some (wr th m t)) true = Some (Some (F (wr th m t)), g') /\
                            lml_run pw p ok st k al n cy X Y stored fac sol inv (Some (wr th m t)) false = Some (Some (F (wr th m t)), [])) /\
    lml_run pw p ok st k al n cy X Y stored fac sol inv (Some th) true = Some (Some (F th), g) /\
    forall m, (m < length th)%nat -> derivable_pt_lim (fun t => F (wr th m t)) (nth m th 0) (nth m g 0).
Proof.
  intros pw p ok st k al n cy X Y stored fac sol inv th Hpw B G P W L O LA PA SV.
  assert (HE : hasexp k = false). { clear - G. unfold val in G. induction k; cbn [kmap gk hasexp] in *; auto; try tauto; destruct G; now rewrite IHk1, IHk2. }
  assert (W2 : haswhite (val st k) = false) by (clear - W; unfold val; induction k; cbn in *; auto; try (apply orb_false_iff in W; destruct W; rewrite IHk1, IHk2; auto)).
  assert (E2 : hasexp (val st k) = false) by (clear - HE; unfold val; induction k; cbn in *; auto; try discriminate; apply orb_false_iff in HE; destruct HE; rewrite IHk1, IHk2; auto).
  pose proof (gk_hyper pw p n X _ G) as HY. destruct (hyper (val st k)) as [h|] eqn:Hh; [|congruence].
  assert (NF : nfree (val st k) = nfree k). { unfold val in Hh |- *. rewrite hyper_map in Hh. destruct (hyper k) as [h0|] eqn:H0; [|discriminate]. injection Hh as <-. rewrite (nfree_hyper k h0 H0). erewrite nfree_hyper by (rewrite hyper_map, H0; reflexivity). now rewrite notfixed_map, map_length. }
  assert (HK : hyper k <> None). { unfold val in Hh. rewrite hyper_map in Hh. destruct (hyper k); [discriminate|discriminate]. }
  (* every theta of the right length *)
  set (Kf th' := evf pw p X (wt (val st k) th')). set (Gm th' := match add_alpha n al (Kf th') with Some M => M | None => fun _ _ => 0 end).
  assert (EV : forall th', eval pw p (wt (val st k) th') X X = Some (Kf th')).
  { intros th'. unfold Kf, evf. destruct (gk_eval pw p n X _ (gk_wt pw p n X _ th' G)) as [K ->]. reflexivity. }
  assert (AG : forall th', add_alpha n al (Kf th') = Some (Gm th')). { intros th'. unfold Gm. destruct (add_alpha_some n al (Kf th') LA) as [M ->]. reflexivity. }
  assert (PD : forall th', posdef n (Gm th')).
  { intros th'. apply (alpha_posdef n al (Kf th')); [exact (kmat_sym pw p X _ _ (EV th'))|apply lgram_psd; exact (pk_lgram pw p n X Hpw _ _ (pk_wt p n X _ P G th') (EV th'))|apply AG|exact PA]. }
  set (Lf th' := match fac (Gm th') with Some M => M | None => fun _ _ => 0 end).
  assert (FL : forall th', fac (Gm th') = Some (Lf th')). { intros th'. unfold Lf. destruct (SV (Gm th')) as (_ & H & _). specialize (H (PD th')). destruct (fac (Gm th')); [reflexivity|congruence]. }
  assert (CH : forall th', is_chol n (Gm th') (Lf th')). { intros th'. destruct (SV (Gm th')) as (H & _). apply H, FL. }
  set (F th' := lml_value n cy (Lf th') (sol (Gm th')) Y).
  assert (RUN : forall th', length th' = nfree k -> exists g, evalg pw p n (wt (val st k) th') X = Some (nfree k, g) /\
    lml_run pw p ok st k al n cy X Y stored fac sol inv (Some th') true = Some (Some (F th'), map (lml_grad n cy (sol (Gm th')) (inv (Gm th')) (gentry n (nfree k, g))) (seq 0 (nfree k))) /\
    lml_run pw p ok st k al n cy X Y stored fac sol inv (Some th') false = Some (Some (F th'), []) /\
    forall m i j, (m < nfree k)%nat -> (i < n)%nat -> (j < n)%nat -> derivable_pt_lim (fun t => Kf (wr th' m t) i j) (nth m th' 0) (gentry n (nfree k, g) i j m)).
  { intros th' L'. destruct (grad_spec pw p n X (val st k) th' G ltac:(rewrite NF; exact L')) as (g & Eg & Dg). rewrite NF in Eg, Dg. exists g. split; [exact Eg|].
    destruct (clone ok st k th') as [[st' k']|] eqn:C; [|exfalso; revert C; now apply clone_total]. destruct (clone_spec ok k st th' st' k' B C) as (_ & _ & V). rewrite (ct_wt _ W2 E2) in V.
    unfold lml_run. rewrite C, V, EV, Eg, AG, FL. split; [reflexivity|]. split; [reflexivity|]. exact Dg. }
  destruct (RUN th L) as (g & Eg & R1 & R2 & Dg).
  exists F, (map (lml_grad n cy (sol (Gm th)) (inv (Gm th)) (gentry n (nfree k, g))) (seq 0 (nfree k))). split; [now rewrite map_length, seq_length|]. split; [|split; [exact R1|]].
  - intros t m. destruct (RUN (wr th m t) ltac:(now rewrite wr_length)) as (g' & _ & Q1 & Q2 & _). eauto.
  - intros m Hm. rewrite L in Hm. set (gr := lml_grad n cy (sol (Gm th)) (inv (Gm th)) (gentry n (nfree k, g))). replace (nth m (map gr (seq 0 (nfree k))) 0) with (gr m) by (rewrite (nth_indep (map gr _) 0 (gr 0%nat)) by (rewrite map_length, seq_length; exact Hm); rewrite map_nth, seq_nth by exact Hm; reflexivity).
    assert (WN : wr th m (nth m th 0) = th). { clear - Hm L. rewrite <- L in Hm. clear L. revert m Hm. induction th as [|x l IH]; intros [|m] Hm; cbn in *; try lia; auto. now rewrite IH by lia. }
    pose proof (D_lml n cy (fun t => Gm (wr th m t)) (fun t => Lf (wr th m t)) (fun t => sol (Gm (wr th m t))) (fun i j => gentry n (nfree k, g) i j m) (inv (Gm th)) Y (nth m th 0) (fun t => CH _)) as D0. cbv beta in D0. rewrite WN in D0. apply D0.
    + apply (add_alpha_D n al (fun t => Kf (wr th m t))); [intros t; apply AG|]. intros i j Hi Hj. now apply Dg.
    + intros t i c Hi Hc. destruct (SV (Gm (wr th m t))) as (_ & _ & H & _). now apply H.
    + intros i j Hi Hj. destruct (SV (Gm th)) as (_ & _ & _ & H). now apply H.
Qed.
Print Assumptions C168_gradient_partial.
(* the gradient for the noise level of a WhiteKernel is not zero although the value does not depend on it *)
Theorem C168_white_refuted : forall pw p ok v b a X fac sol inv, 0 < v -> 0 < a -> fixedb b = false -> solver_ok 1 1 (fun _ _ => 0) fac sol inv ->
  exists F g, g <> 0 /\ forall t, lml_run pw p ok [v] (KWhite 0%nat b) [a] 1 1 X (fun _ _ => 0) 0 fac sol inv (Some [t]) true = Some (Some F, [g]).
Proof.
  intros pw p ok v b a X fac sol inv Hv Ha Hb SV.
  set (G := fun i j : nat => if Nat.eqb i j then (if near p (X i) (X j) then v else 0) + a else if near p (X i) (X j) then v else 0).
  assert (G0 : G 0%nat 0%nat = v + a) by (unfold G; cbn [Nat.eqb]; now rewrite near_refl).
  assert (PD : posdef 1 G). { apply pivots_posdef; [intros i j Hi Hj; replace i with 0%nat by lia; replace j with 0%nat by lia; reflexivity|]. cbn [pivots]. destruct (rltb_spec 0 (G 0%nat 0%nat)) as [|N]; [reflexivity|]. exfalso; apply N; lra. }
  destruct (SV G) as (C1 & C2 & C3 & C4). specialize (C2 PD). specialize (C3 PD 0%nat 0%nat ltac:(lia) ltac:(lia)). specialize (C4 PD 0%nat 0%nat ltac:(lia) ltac:(lia)). cbn [rs Nat.eqb] in C3, C4. rewrite G0 in C3, C4.
  destruct (fac G) as [L|] eqn:FL; [|congruence]. eexists. exists (lml_grad 1 1 (sol G) (inv G) (gentry 1 (1%nat, fun i => if Nat.eqb (i mod (1 + 1)) 0 then v else 0)) 0). split.
  - unfold lml_grad, gentry. cbn [rs fst snd Nat.mul Nat.add]. cbn [Nat.modulo Nat.divmod fst snd Nat.sub Nat.eqb]. assert (S0 : sol G 0%nat 0%nat = 0) by nra. assert (I0 : inv G 0%nat 0%nat <> 0) by nra. rewrite S0. intros H. apply I0. nra.
  - intros t. unfold lml_run. cbn [clone]. unfold matcopy_to. cbn [tvars hyper option_map]. rewrite Hb. cbn [notfixed filter snd negb map fst matcopy app length wr rd nth].
    unfold val. cbn [kmap eval evalg rd nth]. rewrite Hb. unfold add_alpha. cbn [alpha_at length Nat.eqb nth_error seq forallb andb]. fold G. rewrite FL. reflexivity.
Qed.
Print Assumptions C168_white_refuted.
Example C168_example : exists fac sol inv, solver_ok 2 1 (fun i _ => INR i) fac sol inv /\ gk 1 2 (fun i _ => INR i) (val [2; 3] (KProd (KConst 0%nat (1, 4)) (KRBF [1%nat] [(1, 9)]))) /\
  pk 1 2 (fun i _ => INR i) (val [2; 3] (KProd (KConst 0%nat (1, 4)) (KRBF [1%nat] [(1, 9)]))) /\ nfree (KProd (KConst 0%nat (1, 4)) (KRBF [1%nat] [(1, 9)])) = 2%nat.
Proof.
  do 3 eexists. split; [apply xsolver_ok|]. split; [cbn; repeat split; discriminate|]. split; [cbn; repeat split; lra|].
  unfold nfree. cbn [tvars hyper length Nat.ltb Nat.leb map combine app option_map]. unfold fixedb. cbn [fst snd]. destruct (reqb_spec 4 1); [lra|]. destruct (reqb_spec 9 1); [lra|]. reflexivity.
Qed.

(* C169: the value is the logarithm of the normal density of the targets, whose covariance is the kernel matrix for Theta with Alpha on
   the diagonal *)
Theorem C169_density_partial : forall pw p ok st k al n cy X Y stored fac sol inv th b v g, (forall a, In a (addrs k) -> (a < length st)%nat) -> hyper k <> None -> haswhite k = false -> hasexp k = false -> length th = nfree k ->
  solver_ok n cy Y fac sol inv -> lml_run pw p ok st k al n cy X Y stored fac sol inv (Some th) b = Some (Some v, g) ->
  exists km K d, theta km = Some th /\ kmap (fun _ => tt) km = kmap (fun _ => tt) k /\ eval pw p km X X = Some K /\
    (forall i, (i < n)%nat -> nth_error al (if Nat.eqb (length al) 1 then 0%nat else i) = Some (d i)) /\
    exists C, (forall i j, (i < n)%nat -> (j < n)%nat -> C i j = K i j + (if Nat.eqb i j then d i else 0)) /\ v = rs cy (fun c => logdens n C (fun i => Y i c)).
Proof.
  intros pw p ok st k al n cy X Y stored fac sol inv th b v g B HK W E L SV H. unfold lml_run in H. destruct (clone ok st k th) as [[st' k']|] eqn:C; [|discriminate].
  destruct (clone_spec ok k st th st' k' B C) as (_ & _ & V). rewrite ct_wt in V by (unfold val; rewrite ?haswhite_map, ?hasexp_map; assumption). rewrite V in H.
  destruct (eval pw p (wt (val st k) th) X X) as [K|] eqn:EK; [|discriminate]. destruct (if b then _ else _) as [Kg|]; [|discriminate].
  destruct (add_alpha n al K) as [G|] eqn:EG; [|discriminate]. destruct (fac G) as [Lm|] eqn:EF; [|discriminate]. injection H as <- _.
  destruct (add_alpha_entry _ _ _ _ EG) as (d & D1 & D2). destruct (SV G) as (C1 & _ & C3 & _). specialize (C1 _ EF). specialize (C3 (chol_posdef _ _ _ C1)).
  assert (HV : hyper (val st k) <> None) by (unfold val; rewrite hyper_map; destruct (hyper k); [discriminate|congruence]). destruct (hyper (val st k)) as [h|] eqn:Hh; [|congruence].
  exists (wt (val st k) th), K, d. split; [apply (theta_wt _ h); [exact Hh|unfold val; rewrite nfree_map; exact L]|]. split; [rewrite wt_shape by congruence; unfold val; clear; induction k; cbn [kmap]; try reflexivity; try (now rewrite IHk1, IHk2); try (now rewrite IHk); f_equal; rewrite map_map; reflexivity|]. split; [exact EK|].
  split; [intros i Hi; specialize (D1 i Hi); unfold alpha_at in D1; destruct (Nat.eqb (length al) 1); exact D1|].
  exists G. split; [intros i j Hi _; now apply D2|]. unfold lml_value. apply rs_ext. intros c Hc. symmetry. apply (logdens_value n G Lm (fun i => Y i c) (fun j => sol G j c) C1). intros i Hi. now apply C3.
Qed.
Print Assumptions C169_density_partial.
(* minus infinity only when that covariance is not positive definite, and then the gradient is zero *)
Theorem C169_infinity_partial : forall pw p ok st k al n cy X Y stored fac sol inv th b g, solver_ok n cy Y fac sol inv ->
  lml_run pw p ok st k al n cy X Y stored fac sol inv (Some th) b = Some (None, g) ->
  (forall x, In x g -> x = 0) /\ (b = true -> length g = length th) /\
  exists st' k' K C, clone ok st k th = Some (st', k') /\ eval pw p (val st' k') X X = Some K /\ add_alpha n al K = Some C /\ ~ posdef n C.
Proof.
  intros pw p ok st k al n cy X Y stored fac sol inv th b g SV H. unfold lml_run in H. destruct (clone ok st k th) as [[st' k']|] eqn:C; [|discriminate].
  destruct (eval pw p (val st' k') X X) as [K|] eqn:EK; [|discriminate]. destruct (if b then evalg _ _ _ _ _ else _) as [Kg|]; [|discriminate].
  destruct (add_alpha n al K) as [G|] eqn:EG; [|discriminate]. destruct (fac G) as [Lm|] eqn:EF; [discriminate|]. injection H as <-. split; [|split].
  - intros x Hx. destruct b; [|destruct Hx]. apply in_map_iff in Hx. now destruct Hx as (? & <- & _).
  - intros ->. apply map_length.
  - exists st', k', K, G. split; [reflexivity|]. split; [exact EK|]. split; [exact EG|]. intros P. destruct (SV G) as (_ & C2 & _). now apply C2.
Qed.
Print Assumptions C169_infinity_partial.
(* the noise level in Theta is not used *)
Theorem C169_white_refuted : forall pw p ok v b al n cy X Y stored fac sol inv t t', fixedb b = false ->
  lml_run pw p ok [v] (KWhite 0%nat b) al n cy X Y stored fac sol inv (Some [t]) false = lml_run pw p ok [v] (KWhite 0%nat b) al n cy X Y stored fac sol inv (Some [t']) false.
Proof.
  intros. unfold lml_run. cbn [clone]. unfold matcopy_to. cbn [tvars hyper option_map]. rewrite H. cbn [notfixed filter snd negb map fst matcopy app length wr rd nth]. reflexivity.
Qed.
Print Assumptions C169_white_refuted.
Example C169_example : logdens 1 (fun _ _ => 1) (fun _ => 0) = - (1 / 2) * ln (2 * PI).
Proof. cbn [logdens]. replace (2 * PI * 1) with (2 * PI) by ring. field. Qed.

(* C170: LogMarginalLikelihood(nil) panics when a gradient is asked for ... *)
Theorem C170_nil_partial : forall pw p ok st k al n cy X Y stored fac sol inv, lml_run pw p ok st k al n cy X Y stored fac sol inv None true = None.
Proof. reflexivity. Qed.
Print Assumptions C170_nil_partial.
(* ... and otherwise returns the field, which is 0 after NewRegressor and Fit, whatever the likelihood is *)
Theorem C170_nil_refuted : exists st k al n X Y th, forall pw p ok fac sol inv, solver_ok n 1 Y fac sol inv ->
  lml_run pw p ok st k al n 1 X Y 0 fac sol inv None false = Some (Some 0, []) /\ theta (val st k) = Some th /\
  exists v g, lml_run pw p ok st k al n 1 X Y 0 fac sol inv (Some th) false = Some (Some v, g) /\ v < 0.
Proof.
  exists [1], (KConst 0%nat (1, 1)), [/ 10 ^ 10], 1%nat, (fun _ _ => 0), (fun _ _ => 0), []. intros pw p ok fac sol inv SV. split; [reflexivity|].
  assert (F : fixedb (1, 1) = true) by (unfold fixedb; cbn [fst snd]; destruct (reqb_spec 1 1); [reflexivity|lra]).
  split; [unfold theta; cbn [val kmap tvars hyper option_map]; rewrite F; reflexivity|].
  unfold lml_run. cbn [clone]. unfold matcopy_to. cbn [tvars hyper option_map]. rewrite F. cbn [notfixed filter snd negb map matcopy app length rd nth]. unfold val. cbn [kmap eval rd nth]. unfold add_alpha. cbn [alpha_at length Nat.eqb nth_error seq forallb andb].
  set (G := fun i j : nat => if Nat.eqb i j then 1 + / 10 ^ 10 else 1). change (fun i j : nat => if Nat.eqb i j then 1 + / 10 ^ 10 else 1) with G. assert (G0 : G 0%nat 0%nat = 1 + / 10 ^ 10) by reflexivity. assert (GP : 1 < G 0%nat 0%nat) by (rewrite G0; lra).
  assert (PD : posdef 1 G). { apply pivots_posdef; [intros i j Hi Hj; replace i with 0%nat by lia; replace j with 0%nat by lia; reflexivity|]. cbn [pivots]. destruct (rltb_spec 0 (G 0%nat 0%nat)) as [|N]; [reflexivity|]. exfalso; apply N; lra. }
  destruct (SV G) as (C1 & C2 & _). specialize (C2 PD). destruct (fac G) as [L|]; [|congruence]. specialize (C1 L eq_refl). do 2 eexists. split; [reflexivity|].
  destruct (chol_first 0 G L C1) as (Q0 & Q1 & _). unfold lml_value. cbn [rs INR]. assert (L1 : 1 < L 0%nat 0%nat) by nra. assert (0 < ln (L 0%nat 0%nat)) by (rewrite <- ln_1; apply ln_increasing; lra).
  assert (0 < ln (2 * PI)) by (rewrite <- ln_1; apply ln_increasing; [lra|]; pose proof PI2_1; unfold PI2 in *; lra). lra.
Qed.
Print Assumptions C170_nil_refuted.

(* C171: one noise variance for all samples, or one for each *)
Theorem C171_alpha_partial : forall n al K, (length al = 1 \/ length al = n)%nat -> exists C, add_alpha n al K = Some C /\
  forall i j, (i < n)%nat -> (j < n)%nat -> C i j = K i j + (if Nat.eqb i j then nth (if Nat.eqb (length al) 1 then 0%nat else i) al 0 else 0).
Proof.
  intros n al K H. destruct (add_alpha_some n al K ltac:(lia)) as [C E]. exists C. split; [exact E|]. intros i j Hi Hj. destruct (add_alpha_entry _ _ _ _ E) as (d & D1 & D2). rewrite D2 by exact Hi. f_equal. destruct (Nat.eqb i j); [|reflexivity].
  specialize (D1 i Hi). unfold alpha_at in D1. destruct (Nat.eqb (length al) 1); symmetry; now apply nth_error_nth.
Qed.
Print Assumptions C171_alpha_partial.
(* Fit takes as many values as Y has columns instead: one for each sample panics in Fit, one for each column panics in the likelihood *)
Theorem C171_fit_refuted : forall k al n ry X Y, length al = n -> (1 < n)%nat -> ry <> n -> gpr_fit (mkgpr k al None None None) n ry X Y = None.
Proof. intros k al n ry X Y H Hn Hr. unfold gpr_fit. cbn [g_alpha]. destruct (Nat.eqb_spec (length al) 1); [lia|]. destruct (Nat.eqb_spec (length al) ry); [lia|]. reflexivity. Qed.
Print Assumptions C171_fit_refuted.
Theorem C171_columns_refuted : forall pw p ok st k al n cy X Y stored fac sol inv th b, length al = cy -> cy <> 1%nat -> (cy < n)%nat ->
  lml_run pw p ok st k al n cy X Y stored fac sol inv (Some th) b = None.
Proof.
  intros pw p ok st k al n cy X Y stored fac sol inv th b H H1 Hn. unfold lml_run. destruct (clone ok st k th) as [[st' k']|]; [|reflexivity]. destruct (eval _ _ _ _ _) as [K|]; [|reflexivity]. destruct (if b then _ else _); [|reflexivity].
  replace (add_alpha n al K) with (@None rmtx); [reflexivity|]. unfold add_alpha. destruct (forallb _ _) eqn:F; [|reflexivity]. exfalso. rewrite forallb_forall in F. specialize (F cy ltac:(apply in_seq; lia)). unfold alpha_at in F. destruct (Nat.eqb_spec (length al) 1); [lia|].
  assert (N : nth_error al cy = None) by (apply nth_error_None; lia). now rewrite N in F.
Qed.
Print Assumptions C171_columns_refuted.
Example C171_example : exists C, add_alpha 2 [1; 3] (fun _ _ => 5) = Some C /\ C 1%nat 1%nat = 5 + 3 /\ C 0%nat 1%nat = 5.
Proof. eexists. split; [reflexivity|]. split; reflexivity. Qed.
