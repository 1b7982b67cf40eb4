(* Properties C53, C54, C115-C118. *)
From Coq Require Import Reals Lra Lia List Arith Bool.
From Verif Require Import MtModel MtProofs LossProofs KernModel KernProofs KernGradProofs KernPsdProofs.
Import ListNotations.
Open Scope R_scope.

(* C53: for every kernel expression and every power function *)
Theorem C53_diag : forall pw p k X K i, eval pw p k X X = Some K -> diag pw p k X i = K i i.
Proof. exact eval_diag. Qed.
Print Assumptions C53_diag.
Theorem C53_symmetric : forall pw p k X Y K, eval pw p k X Y = Some K -> exists K', eval pw p k Y X = Some K' /\ forall i j, K i j = K' j i.
Proof. exact eval_sym. Qed.
Print Assumptions C53_symmetric.
Example C53_example : let k := KProd (KConst 2 (0, 1)) (KSum (KDot 1 (0, 1)) (KWhite 3 (0, 1))) in
  let X := fun i _ => match i with O => 1 | _ => 2 end in
  exists K, eval (fun _ _ => 0) 1 k X X = Some K /\ diag (fun _ _ => 0) 1 k X 1 = 16 /\ K 0%nat 1%nat = 6.
Proof.
  eexists. split; [reflexivity|]. split; [cbn; lra|]. cbv zeta beta. cbn [rs near andb]. unfold approx.
  assert (T : tol8 < 1 / 4) by (unfold tol8; lra). pose proof tol8_pos.
  replace (1 - 2) with (Ropp 1) by ring. rewrite Rabs_Ropp, Rabs_R1, (Rabs_pos_eq 2), Rmax_right by lra.
  destruct (Rle_dec 1 tol8); [lra|]. destruct (Rle_dec 1 (tol8 * 2)); [lra|]. lra.
Qed.

(* C54: kernels without WhiteKernel and Exponentiation *)
Theorem C54_clone_partial : forall emptyok st k th st' k' h, (forall a, In a (addrs k) -> (a < length st)%nat) -> haswhite k = false -> hasexp k = false ->
  hyper k = Some h -> length th = length (notfixed h) -> clone emptyok st k th = Some (st', k') ->
  theta (val st' k') = Some th /\ val st' k = val st k /\ (forall a, In a (addrs k') -> ~ In a (addrs k)) /\
  exists h', hyper (val st' k') = Some h' /\ map snd h' = map snd h /\ filter snd h' = filter snd (map (fun x => (rd st (fst x), snd x)) h).
Proof.
  intros emptyok st k th st' k' h B W E Hh L C. destruct (clone_spec emptyok k st th st' k' B C) as ([ext ->] & A & V).
  assert (Hv : hyper (val st k) = Some (map (fun x => (rd st (fst x), snd x)) h)) by (unfold val; rewrite hyper_map, Hh; reflexivity).
  assert (W2 : haswhite (val st k) = false) by (revert W; clear; unfold val; induction k; cbn; auto; rewrite !orb_false_iff; tauto).
  assert (E2 : hasexp (val st k) = false) by (revert E; clear; unfold val; induction k; cbn; auto; rewrite !orb_false_iff; tauto).
  rewrite V, ct_wt by assumption. split; [|split; [|split]].
  - eapply theta_wt; [exact Hv|]. rewrite nfree_val, (nfree_hyper k h Hh). exact L.
  - apply val_ext. intros a Ha. apply rd_app1. auto.
  - intros a Ha Hb. specialize (A a Ha). specialize (B a Hb). lia.
  - eexists. split; [apply (hyper_wt _ _ th Hv)|]. rewrite map_map. cbn [snd]. split.
    + rewrite combine_snd, setfree_length, map_length. rewrite firstn_all2; [reflexivity|rewrite map_length; lia].
    + clear. revert th. induction h as [|[a b] h IH]; intros th; [reflexivity|]. destruct b; cbn [map fst snd setfree combine filter].
      * now rewrite IH.
      * destruct th; cbn [combine filter snd]; apply IH.
Qed.
Print Assumptions C54_clone_partial.
Theorem C54_total : forall emptyok st k th, hyper k <> None -> length th = nfree k -> emptyok = true \/ free_ops k = true -> clone emptyok st k th <> None.
Proof. intros emptyok st k th. apply clone_total. Qed.
Print Assumptions C54_total.
(* theta holds the logarithms of the hyperparameters whose two bounds differ, in the order in which the kernel lists them *)
Fixpoint pbounds (k : kern R) : list (R * (R * R)) :=
  match k with
  | KConst c b | KWhite c b | KDot c b => [(c, b)]
  | KRBF ls bs => combine ls bs
  | KSum k1 k2 | KProd k1 k2 => pbounds k1 ++ pbounds k2
  | KExp k' _ => pbounds k'
  end.
Theorem C54_free : forall (k : kern R) th, theta k = Some th ->
  th = map (fun q => ln (fst q)) (filter (fun q => if Req_EM_T (fst (snd q)) (snd (snd q)) then false else true) (pbounds k)).
Proof.
  intros k th H. set (g := fun q : R * (R * R) => if Req_EM_T (fst (snd q)) (snd (snd q)) then false else true).
  assert (F : forall b, negb (fixedb b) = g (0, b)).
  { intros b. unfold fixedb, g. cbn [fst snd]. destruct (reqb_spec (snd b) (fst b)), (Req_EM_T (fst b) (snd b)); try reflexivity; exfalso; congruence. }
  assert (G : forall (k : kern R) h, hyper k = Some h -> notfixed h = map fst (filter g (pbounds k))).
  { clear k th H. unfold notfixed. induction k; intros h H; cbn [hyper pbounds] in *.
    1,2,4: injection H as <-; cbn [filter snd]; rewrite F; unfold g; cbn [fst snd]; destruct (Req_EM_T (fst b) (snd b)); reflexivity.
    - destruct (length bs <? length ls); [discriminate|]. injection H as <-. revert bs. induction ls as [|a ls IH]; intros [|b bs]; try reflexivity. cbn [map combine filter snd]. rewrite F.
      change (g (a, b)) with (g (0, b)). destruct (g (0, b)); cbn [map fst]; now rewrite IH.
    - destruct (hyper k1); [|discriminate]. destruct (hyper k2); [|discriminate]. injection H as <-. rewrite !filter_app, !map_app. f_equal; auto.
    - destruct (hyper k1); [|discriminate]. destruct (hyper k2); [|discriminate]. injection H as <-. rewrite !filter_app, !map_app. f_equal; auto.
    - discriminate. }
  unfold theta in H. destruct (tvars k) as [w|] eqn:T; [|discriminate]. injection H as <-. rewrite <- (map_map fst ln). f_equal. fold g.
  revert w T. induction k; intros w T; cbn [tvars pbounds] in *; try (match type of T with option_map _ ?h = _ => destruct h eqn:E; [|discriminate] end; injection T as <-; exact (G _ _ E)). now apply IHk.
Qed.
Print Assumptions C54_free.
(* cloning with one's own theta *)
Theorem C54_same_partial : forall emptyok st k th st' k', (forall a, In a (addrs k) -> (a < length st)%nat) -> hasexp k = false -> haswhite k = false ->
  (forall a, In a (addrs k) -> 0 < rd st a) -> theta (val st k) = Some th -> clone emptyok st k th = Some (st', k') -> val st' k' = val st k.
Proof.
  intros emptyok st k th st' k' B E W P T C. destruct (clone_spec emptyok k st th st' k' B C) as (_ & _ & V). rewrite V.
  assert (W2 : haswhite (val st k) = false) by (revert W; clear; unfold val; induction k; cbn; auto; rewrite !orb_false_iff; tauto).
  assert (E2 : hasexp (val st k) = false) by (revert E; clear; unfold val; induction k; cbn; auto; rewrite !orb_false_iff; tauto).
  rewrite ct_wt by assumption. unfold theta in T. destruct (tvars (val st k)) as [v|] eqn:TV; [|discriminate]. injection T as <-.
  assert (Hx : exists h, hyper (val st k) = Some h).
  { revert TV E2. generalize (val st k). clear. intros k TV E. destruct k; cbn [tvars] in TV; try (destruct (hyper _); [eauto|discriminate]). }
  destruct Hx as [h Hh]. rewrite (tvars_hyper _ _ Hh) in TV. injection TV as <-. apply wt_ln; [exact Hh|].
  unfold val in Hh. rewrite hyper_map in Hh. destruct (hyper k) as [h0|] eqn:H0; [|discriminate]. injection Hh as <-. rewrite notfixed_map. apply Forall_forall. intros x Hx.
  apply in_map_iff in Hx. destruct Hx as (a & <- & Ha). apply P. eapply (tvars_addrs k); [apply tvars_hyper, H0|exact Ha].
Qed.
Print Assumptions C54_same_partial.
(* WhiteKernel ignores the theta it is given *)
Theorem C54_white_refuted : forall emptyok st a b th st' k', (a < length st)%nat -> clone emptyok st (KWhite a b) th = Some (st', k') -> val st' k' = val st (KWhite a b).
Proof. intros emptyok st a b th st' k' H C. now destruct (clone_spec emptyok (KWhite a b) st th st' k' ltac:(intros x [<-|[]]; exact H) C) as (_ & _ & V). Qed.
Print Assumptions C54_white_refuted.
(* the clone of an Exponentiation is the clone of its base *)
Theorem C54_exponent_refuted : forall emptyok st k e th, clone emptyok st (KExp k e) th = clone emptyok st k th /\
  forall st' k', clone emptyok st (KExp k e) th = Some (st', k') -> hasexp k' = false.
Proof. intros emptyok st k e th. split; [reflexivity|]. intros st' k'. apply (clone_noexp emptyok (KExp k e)). Qed.
Print Assumptions C54_exponent_refuted.
(* Theta of a sum or product with an Exponentiation in it does not return *)
Theorem C54_theta_refuted : forall (k : kern R) e k', theta (KSum (KExp k e) k') = None /\ theta (KProd (KExp k e) k') = None /\ theta (KSum k' (KExp k e)) = None.
Proof. intros k e k'. unfold theta. cbn. destruct (hyper k'); auto. Qed.
Print Assumptions C54_theta_refuted.
Example C54_example : exists st' k', clone true [2; 3; 5] (KProd (KConst 0%nat (1, 4)) (KRBF [1%nat; 2%nat] [(1, 1); (1, 9)])) [7; 8] = Some (st', k') /\
  val st' k' = KProd (KConst (exp 7) (1, 4)) (KRBF [3; exp 8] [(1, 1); (1, 9)]).
Proof.
  assert (F1 : fixedb (1, 4) = false) by (unfold fixedb; cbn [fst snd]; destruct (reqb_spec 4 1); [lra|reflexivity]).
  assert (F2 : fixedb (1, 1) = true) by (unfold fixedb; cbn [fst snd]; destruct (reqb_spec 1 1); [reflexivity|lra]).
  assert (F3 : fixedb (1, 9) = false) by (unfold fixedb; cbn [fst snd]; destruct (reqb_spec 9 1); [lra|reflexivity]).
  cbn [clone tvars hyper length Nat.ltb Nat.leb map combine]. unfold matcopy_to. cbn [tvars hyper length Nat.ltb Nat.leb map combine seq app option_map]. rewrite F1, F2, F3.
  cbn. do 2 eexists. split; reflexivity.
Qed.

(* C115: the gradient tensor holds the derivatives in the log-parameters *)
Theorem C115_gradient_partial : forall pw p n X k th K h, gk p n X k -> hyper k = Some h -> Forall (fun v => 0 < v) (notfixed h) -> theta k = Some th -> eval pw p k X X = Some K ->
  exists g, evalg pw p n k X = Some (length th, g) /\
    forall m, (m < length th)%nat ->
      exists F, (forall t, exists km, theta km = Some (wr th m t) /\ kmap (fun _ => tt) km = kmap (fun _ => tt) k /\ eval pw p km X X = Some (F t)) /\
        forall i j, (i < n)%nat -> (j < n)%nat -> derivable_pt_lim (fun t => F t i j) (nth m th 0) (gentry n (length th, g) i j m).
Proof.
  intros pw p n X k th K h G Hh P T E. unfold theta in T. rewrite (tvars_hyper k h Hh) in T. injection T as <-.
  destruct (grad_spec pw p n X k (map ln (notfixed h)) G ltac:(now rewrite map_length, (nfree_hyper k h Hh))) as (g & Eg & Dg).
  rewrite (wt_ln k h Hh P) in Eg. rewrite (nfree_hyper k h Hh) in Eg, Dg. exists g. rewrite map_length. split; [exact Eg|].
  intros m Hm. exists (fun t a b => evf pw p X (wt k (wr (map ln (notfixed h)) m t)) a b). split; [|intros i j Hi Hj; exact (Dg m i j Hm Hi Hj)].
  intros t. exists (wt k (wr (map ln (notfixed h)) m t)). split; [|split].
  - apply (theta_wt k h); [exact Hh|]. now rewrite wr_length, map_length, (nfree_hyper k h Hh).
  - assert (Q : forall k th, hyper k <> None -> kmap (fun _ => tt) (wt k th) = kmap (fun _ => tt) k).
    { clear. induction k as [c b|v b|ls bs|s b|k1 IH1 k2 IH2|k1 IH1 k2 IH2|k IH e]; intros th Hn; cbn [wt kmap hyper] in *; try reflexivity.
      - destruct (Nat.ltb_spec (length bs) (length ls)) as [|Hl]; [congruence|]. f_equal.
        assert (L : length (setfree (combine ls (map fixedb bs)) th) = length ls) by (rewrite setfree_length, combine_length, map_length; lia).
        revert L. generalize (setfree (combine ls (map fixedb bs)) th). clear. induction ls as [|a ls IH]; intros [|b l] L; try discriminate; [reflexivity|]. cbn. f_equal. apply IH. cbn in L. lia.
      - destruct (hyper k1), (hyper k2); try congruence. rewrite IH1, IH2; congruence.
      - destruct (hyper k1), (hyper k2); try congruence. rewrite IH1, IH2; congruence.
      - congruence. }
    apply Q. congruence.
  - destruct (gk_eval pw p n X _ (gk_wt pw p n X k (wr (map ln (notfixed h)) m t) G)) as [Kt Et]. unfold evf. rewrite Et. reflexivity.
Qed.
Print Assumptions C115_gradient_partial.
(* two rows WhiteKernel takes for equal: the gradient says 0, the derivative is the noise level *)
Theorem C115_white_refuted : forall pw p n X v b i j, fixedb b = false -> v <> 0 -> (i < n)%nat -> (j < n)%nat -> i <> j -> near p (X i) (X j) = true ->
  exists g, evalg pw p n (KWhite v b) X = Some (1%nat, g) /\ gentry n (1%nat, g) i j 0 = 0 /\
    forall f, (forall t, f t = evf pw p X (KWhite (exp t) b) i j) -> exp (ln v) = v -> ~ derivable_pt_lim f (ln v) 0.
Proof.
  intros pw p n X v b i j Fb Hv Hi Hj N Hn. cbn [evalg]. rewrite Fb. eexists. split; [reflexivity|]. split.
  - unfold gentry. cbn [fst snd]. replace ((i * n + j) * 1 + 0)%nat with (i * n + j)%nat by lia. rewrite diag_pos by assumption. destruct (Nat.eqb_spec i j); [congruence|reflexivity].
  - intros f Hf Ev Df. assert (D1 : derivable_pt_lim f (ln v) v).
    { apply (D_ext exp); [intros t; rewrite Hf; unfold evf; cbn [eval]; now rewrite Hn|]. rewrite <- Ev at 2. apply derivable_pt_lim_exp. }
    apply Hv. exact (uniqueness_limite _ _ _ _ D1 Df).
Qed.
Print Assumptions C115_white_refuted.
(* several length scales: one slice, whatever their number *)
Theorem C115_anisotropic_refuted : forall pw p n X ls bs d g, (1 < length ls)%nat -> (forall b, In b bs -> fixedb b = false) ->
  evalg pw p n (KRBF ls bs) X = Some (d, g) -> d = 1%nat /\ nfree (KRBF ls bs) = length ls.
Proof.
  intros pw p n X ls bs d g Hl Hb H. cbn [evalg] in H. destruct (eval pw p (KRBF ls bs) X X); [|discriminate]. unfold nfree. cbn [tvars hyper] in *.
  destruct (Nat.ltb_spec (length bs) (length ls)) as [|L]; [discriminate|]. cbn [option_map].
  destruct ls as [|l ls]; [cbn in Hl; lia|]. destruct bs as [|b bs]; [cbn in L; lia|]. cbn [map combine] in H. rewrite (Hb b (or_introl eq_refl)) in H. injection H as <- _. split; [reflexivity|].
  revert L Hb. generalize (l :: ls) (b :: bs). clear. induction l as [|x l IH]; intros bs L Hb; [reflexivity|]. destruct bs as [|b bs]; [cbn in L; lia|].
  cbn [map combine]. rewrite (Hb b (or_introl eq_refl)). change (S (length (notfixed (combine l (map fixedb bs)))) = S (length l)). f_equal. apply IH; [cbn in L; lia|]. intros; apply Hb; now right.
Qed.
Print Assumptions C115_anisotropic_refuted.
(* Exponentiation: the square of a constant, for every constant but 1 *)
Theorem C115_exponent_refuted : forall pw p n X c b i j, (forall v m, pw v (INR m) = v ^ m) -> fixedb b = false -> 0 < c -> c <> 1 -> (i < n)%nat -> (j < n)%nat ->
  exists g, evalg pw p n (KExp (KConst c b) (INR 2)) X = Some (1%nat, g) /\
    ~ derivable_pt_lim (fun t => evf pw p X (KExp (KConst (exp t) b) (INR 2)) i j) (ln c) (gentry n (1%nat, g) i j 0).
Proof.
  intros pw p n X c b i j Hpw Fb Hc Hc1 Hi Hj. cbn [evalg eval]. rewrite Fb. cbn [Nat.ltb Nat.leb andb]. eexists. split; [reflexivity|].
  unfold gentry. cbn [fst snd]. intros Df. assert (D1 : derivable_pt_lim (fun t => evf pw p X (KExp (KConst (exp t) b) (INR 2)) i j) (ln c) (2 * c * c)).
  { apply (D_ext (fun t => exp t * exp t)); [intros t; unfold evf; cbn [eval]; rewrite Hpw; cbn [pow]; ring|]. apply (D_val _ _ (2 * exp (ln c) * exp (ln c))); [now rewrite exp_ln|]. apply D_expsq. }
  pose proof (uniqueness_limite _ _ _ _ D1 Df) as E. replace (INR 2 - 1) with (INR 1) in E by (cbn; ring). rewrite !Hpw in E. cbn [pow INR] in E.
  assert (Z : (c * c) * (c - 1) = 0) by lra. apply Rmult_integral in Z. nra.
Qed.
Print Assumptions C115_exponent_refuted.
(* ... and with two parameters below it the call panics *)
Theorem C115_exponent_panic_refuted : forall pw p n k e X d g, (0 < n)%nat -> evalg pw p n k X = Some (d, g) -> (1 < d)%nat -> evalg pw p n (KExp k e) X = None.
Proof.
  intros pw p n k e X d g Hn H Hd. cbn [evalg]. rewrite H. destruct (eval pw p k X X); [|reflexivity].
  destruct (Nat.ltb_spec 1 d); [|lia]. destruct (Nat.ltb_spec 0 n); [reflexivity|lia].
Qed.
Print Assumptions C115_exponent_panic_refuted.
Example C115_example : gk 1 2 (fun i _ => INR i) (KProd (KConst 2 (1, 4)) (KRBF [3] [(1, 9)])) /\ nfree (KProd (KConst 2 (1, 4)) (KRBF [3] [(1, 9)])) = 2%nat.
Proof.
  split; [cbn; repeat split; discriminate|]. unfold nfree. cbn [tvars hyper length Nat.ltb Nat.leb map combine app option_map]. unfold fixedb. cbn [fst snd].
  destruct (reqb_spec 4 1); [lra|]. destruct (reqb_spec 9 1); [lra|]. reflexivity.
Qed.

(* C116: kernel matrices are positive semidefinite, and definite once Alpha is on the diagonal *)
Theorem C116_psd_partial : forall pw p n X k K, (forall v m, pw v (INR m) = v ^ m) -> pk p n X k -> eval pw p k X X = Some K -> psd n K.
Proof. intros pw p n X k K Hpw P E. apply lgram_psd. exact (pk_lgram pw p n X Hpw k K P E). Qed.
Print Assumptions C116_psd_partial.
Theorem C116_definite_partial : forall pw p n X k K alpha c, (forall v m, pw v (INR m) = v ^ m) -> pk p n X k -> eval pw p k X X = Some K ->
  (forall i, (i < n)%nat -> 0 < alpha i) -> (exists i, (i < n)%nat /\ c i <> 0) ->
  0 < rs n (fun i => rs n (fun j => c i * c j * (K i j + (if Nat.eqb i j then alpha i else 0)))).
Proof.
  intros pw p n X k K alpha c Hpw P E Ha (i0 & Hi0 & Hc). pose proof (C116_psd_partial pw p n X k K Hpw P E c) as Q.
  rewrite (rs_ext n _ (fun i => rs n (fun j => c i * c j * K i j) + alpha i * (c i * c i))).
  2:{ intros i Hi. rewrite (rs_ext n _ (fun j => c i * c j * K i j + (if Nat.eqb i j then alpha i * (c i * c j) else 0))) by (intros j _; destruct (Nat.eqb i j); ring).
      rewrite rs_plus. f_equal. rewrite (rs_split n (fun j => if Nat.eqb i j then alpha i * (c i * c j) else 0) i Hi), Nat.eqb_refl.
      rewrite (rs_ext n _ (fun _ => 0)); [rewrite rs_zero; ring|]. intros j _. destruct (Nat.eqb_spec j i) as [|N]; [reflexivity|]. destruct (Nat.eqb_spec i j); [congruence|reflexivity]. }
  rewrite rs_plus. apply Rplus_le_lt_0_compat; [exact Q|].
  rewrite (rs_split n (fun i => alpha i * (c i * c i)) i0 Hi0). apply Rplus_lt_le_0_compat; [apply Rmult_lt_0_compat; [auto|nra]|].
  apply rs_nonneg. intros i Hi. destruct (Nat.eqb i i0); [lra|]. apply Rmult_le_pos; [left; auto|nra].
Qed.
Print Assumptions C116_definite_partial.
(* WhiteKernel alone, three rows each within the tolerance of the next: not a covariance *)
Theorem C116_white_refuted : exists X c, forall pw b K, eval pw 1 (KWhite 1 b) X X = Some K -> rs 3 (fun i => rs 3 (fun j => c i * c j * K i j)) < 0.
Proof.
  exists (fun i _ => INR i * tol8), (fun i => match i with 1%nat => -1 | _ => 1 end). intros pw b K E. cbn [eval] in E. injection E as <-.
  pose proof tol8_pos as T. assert (T2 : tol8 < 1 / 4) by (unfold tol8; lra).
  assert (N01 : near 1 (fun _ => INR 0 * tol8) (fun _ => INR 1 * tol8) = true).
  { cbn [near andb INR]. unfold approx. replace (0 * tol8 - 1 * tol8) with (- tol8) by ring. rewrite Rabs_Ropp, (Rabs_pos_eq tol8) by lra. destruct (Rle_dec tol8 tol8); [reflexivity|lra]. }
  assert (N12 : near 1 (fun _ => INR 1 * tol8) (fun _ => INR 2 * tol8) = true).
  { cbn [near andb INR]. unfold approx. replace (1 * tol8 - (1 + 1) * tol8) with (- tol8) by ring. rewrite Rabs_Ropp, (Rabs_pos_eq tol8) by lra. destruct (Rle_dec tol8 tol8); [reflexivity|lra]. }
  assert (N02 : near 1 (fun _ => INR 0 * tol8) (fun _ => INR 2 * tol8) = false).
  { cbn [near andb INR]. unfold approx. replace (0 * tol8 - (1 + 1) * tol8) with (- (2 * tol8)) by ring. rewrite Rabs_Ropp, (Rabs_pos_eq (2 * tol8)) by lra.
    destruct (Rle_dec (2 * tol8) tol8); [lra|]. replace (0 * tol8) with 0 by ring. rewrite Rabs_R0, (Rabs_pos_eq ((1 + 1) * tol8)), Rmax_right by lra.
    destruct (Rle_dec (2 * tol8) (tol8 * ((1 + 1) * tol8))); [nra|reflexivity]. }
  cbn [near andb] in N01, N12, N02. cbn [rs]. rewrite !approx_refl, (approx_sym (INR 1 * tol8) (INR 0 * tol8)), (approx_sym (INR 2 * tol8) (INR 1 * tol8)), (approx_sym (INR 2 * tol8) (INR 0 * tol8)), N01, N12, N02. lra.
Qed.
Print Assumptions C116_white_refuted.
Example C116_example : pk 1 2 (fun i _ => INR i) (KSum (KExp (KDot 1 (0, 1)) (INR 3)) (KProd (KConst 2 (0, 1)) (KRBF [3] [(0, 1)]))).
Proof. cbn [pk]. repeat split; try lra. exists 3%nat. reflexivity. Qed.

(* C117: a fitted Regressor never predicts *)
Theorem C117_refuted : forall pw p k n ry X Y m ns Xn dst, gpr_fit (new_regressor k) n ry X Y = Some m -> gpr_predict pw p m ns Xn dst = None.
Proof.
  intros pw p k n ry X Y m ns Xn dst H. unfold gpr_fit in H. destruct (_ && _)%bool; [discriminate|]. injection H as <-. unfold gpr_predict. cbn [g_xtrain g_kernel g_alpha g_ymean new_regressor].
  destruct (eval pw p k Xn X); [|reflexivity]. destruct (negb _); [reflexivity|]. destruct (negb _); reflexivity.
Qed.
Print Assumptions C117_refuted.
Example C117_example : gpr_fit (new_regressor (KConst 1 (0, 1))) 1 1 (fun _ _ => 0) (fun _ _ => 0) <> None.
Proof. discriminate. Qed.

(* C118: without a destination the prior mean ... *)
Theorem C118_partial : forall pw p k ns X, exists Y, gpr_predict pw p (new_regressor k) ns X None = Some Y /\ forall i j, Y i j = 0.
Proof. intros. eexists. split; reflexivity. Qed.
Print Assumptions C118_partial.
(* ... with one, whatever was in it *)
Theorem C118_refuted : forall pw p k ns X dst, gpr_predict pw p (new_regressor k) ns X (Some dst) = Some dst.
Proof. reflexivity. Qed.
Print Assumptions C118_refuted.
Example C118_example : exists Y, gpr_predict (fun _ _ => 0) 1 (new_regressor (KConst 1 (0, 1))) 1 (fun _ _ => 0) (Some (fun _ _ => 5)) = Some Y /\ Y 0%nat 0%nat = 5.
Proof. eexists. split; reflexivity. Qed.
