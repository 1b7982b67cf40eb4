(* Proofs about KernModel: the gradient returned by Eval. *)
From Coq Require Import Reals Lra Lia List Arith Bool.
From Verif Require Import MtModel MtProofs LossProofs KernModel KernProofs.
Import ListNotations.
Open Scope R_scope.

Lemma firstn_wr l : forall m n t, (m < n)%nat -> firstn n (wr l m t) = wr (firstn n l) m t.
Proof. induction l as [|x l IH]; intros m n t H; [cbn; now rewrite !firstn_nil|]. destruct n as [|n]; [lia|]. destruct m as [|m]; cbn [wr firstn]; [reflexivity|]. f_equal. apply IH. lia. Qed.
Lemma firstn_wr_ge l : forall m n t, (n <= m)%nat -> firstn n (wr l m t) = firstn n l.
Proof. induction l as [|x l IH]; intros m n t H; [reflexivity|]. destruct n as [|n]; [reflexivity|]. destruct m as [|m]; [lia|]. cbn [wr firstn]. f_equal. apply IH. lia. Qed.
Lemma skipn_wr l : forall m n t, (m < n)%nat -> skipn n (wr l m t) = skipn n l.
Proof. induction l as [|x l IH]; intros m n t H; [reflexivity|]. destruct n as [|n]; [lia|]. destruct m as [|m]; cbn [wr skipn]; [reflexivity|]. apply IH. lia. Qed.
Lemma skipn_wr_ge l : forall m n t, (n <= m)%nat -> skipn n (wr l m t) = wr (skipn n l) (m - n) t.
Proof.
  induction l as [|x l IH]; intros m n t H; [cbn [wr]; rewrite skipn_nil; destruct (m - n)%nat; reflexivity|].
  destruct n as [|n]; [cbn [skipn]; f_equal; lia|]. destruct m as [|m]; [lia|]. cbn [wr skipn]. rewrite IH by lia. f_equal.
Qed.
Lemma nth_firstn_R (l : list R) : forall n m, (m < n)%nat -> nth m (firstn n l) 0 = nth m l 0.
Proof. induction l as [|x l IH]; intros n m H; [now rewrite firstn_nil|]. destruct n as [|n]; [lia|]. destruct m as [|m]; [reflexivity|]. cbn [firstn nth]. apply IH. lia. Qed.
Lemma nth_skipn_R (l : list R) : forall n m, nth m (skipn n l) 0 = nth (n + m) l 0.
Proof. induction l as [|x l IH]; intros n m; [rewrite skipn_nil; destruct m, (n + 0)%nat, n; reflexivity|]. destruct n as [|n]; [reflexivity|]. cbn [skipn]. rewrite IH. reflexivity. Qed.

Section G.
  Variables (pw : R -> R -> R) (p n : nat) (X : rmtx).
  (* no WhiteKernel sees two rows as equal, one length scale per RBF, no Exponentiation *)
  Fixpoint gk (k : kern R) : Prop :=
    match k with
    | KConst _ _ | KDot _ _ => True
    | KWhite _ _ => forall i j, (i < n)%nat -> (j < n)%nat -> i <> j -> near p (X i) (X j) = false
    | KRBF ls bs => length ls = 1%nat /\ bs <> []
    | KSum k1 k2 | KProd k1 k2 => gk k1 /\ gk k2
    | KExp _ _ => False
    end.
  Lemma gk_wt k : forall th, gk k -> gk (wt k th).
  Proof.
    induction k as [c b|v b|ls bs|s b|k1 IH1 k2 IH2|k1 IH1 k2 IH2|k IH e]; intros th H; cbn [gk wt] in *; try tauto.
    - destruct H as [H H2]. split; [|exact H2]. rewrite setfree_length, combine_length, H, map_length. destruct bs; [congruence|reflexivity].
    - destruct H; auto.
    - destruct H; auto.
  Qed.
  Lemma gk_eval k : gk k -> exists K, eval pw p k X X = Some K.
  Proof.
    induction k as [c b|v b|ls bs|s b|k1 IH1 k2 IH2|k1 IH1 k2 IH2|k IH e]; intros H; cbn [gk eval] in *; try (eexists; reflexivity); try tauto.
    - destruct H as [H _]. destruct ls as [|l [|]]; try discriminate. cbn [rbf_scale]. eexists. reflexivity.
    - destruct H as [H1 H2]. destruct (IH1 H1) as [a ->]. destruct (IH2 H2) as [b ->]. eexists. reflexivity.
    - destruct H as [H1 H2]. destruct (IH1 H1) as [a ->]. destruct (IH2 H2) as [b ->]. eexists. reflexivity.
  Qed.
  Lemma gk_hyper k : gk k -> hyper k <> None.
  Proof.
    induction k as [c b|v b|ls bs|s b|k1 IH1 k2 IH2|k1 IH1 k2 IH2|k IH e]; intros H; cbn [gk hyper] in *; try discriminate; try tauto.
    - destruct H as [H H2]. rewrite H. destruct bs; [congruence|]. cbn [length]. discriminate.
    - destruct H as [H1 H2]. specialize (IH1 H1). specialize (IH2 H2). destruct (hyper k1), (hyper k2); congruence.
    - destruct H as [H1 H2]. specialize (IH1 H1). specialize (IH2 H2). destruct (hyper k1), (hyper k2); congruence.
  Qed.
  Definition evf (k : kern R) (i j : nat) : R := match eval pw p k X X with Some K => K i j | None => 0 end.

  Lemma nfree_sum k1 k2 : gk k1 -> gk k2 -> nfree (KSum k1 k2) = (nfree k1 + nfree k2)%nat /\ nfree (KProd k1 k2) = (nfree k1 + nfree k2)%nat.
  Proof.
    intros H1 H2. pose proof (gk_hyper k1 H1). pose proof (gk_hyper k2 H2). destruct (hyper k1) as [h1|] eqn:E1; [|congruence]. destruct (hyper k2) as [h2|] eqn:E2; [|congruence].
    rewrite (nfree_hyper k1 h1 E1), (nfree_hyper k2 h2 E2). split; erewrite nfree_hyper by (cbn [hyper]; rewrite E1, E2; reflexivity); now rewrite notfixed_app, app_length.
  Qed.
  Lemma nfree_wt k : forall th, gk k -> nfree (wt k th) = nfree k.
  Proof.
    intros th H. pose proof (gk_hyper k H). destruct (hyper k) as [h|] eqn:E; [|congruence].
    rewrite (nfree_hyper _ _ (hyper_wt k h th E)), (nfree_hyper _ _ E). clear. revert th.
    induction h as [|[v b] h IH]; intros th; [reflexivity|]. destruct b; cbn [setfree map snd combine].
    - exact (IH th).
    - destruct th as [|t th]; cbn [combine].
      + change (S (length (notfixed (combine (setfree h []) (map snd h)))) = S (length (notfixed h))). f_equal. apply IH.
      + change (S (length (notfixed (combine (setfree h th) (map snd h)))) = S (length (notfixed h))). f_equal. apply IH.
  Qed.

  (* positions of the n x n x d storage *)
  Lemma pos2 i j : (j < n)%nat -> ((i * n + j) / n = i /\ (i * n + j) mod n = j)%nat.
  Proof. intros H. rewrite (Nat.add_comm (i * n)). split; [rewrite Nat.div_add, Nat.div_small by lia; reflexivity|]. rewrite Nat.mod_add by lia. now apply Nat.mod_small. Qed.
  Lemma pos3 i j d m : (m < d)%nat -> (j < n)%nat -> let q := ((i * n + j) * d + m)%nat in
    (q mod d = m /\ ((q - m) / d) mod n = j /\ (q - m) / d / n = i)%nat.
  Proof.
    intros Hm Hj q. unfold q. assert (E : (((i * n + j) * d + m) mod d = m)%nat) by (rewrite (Nat.add_comm _ m), Nat.mod_add by lia; now apply Nat.mod_small).
    split; [exact E|]. replace (((i * n + j) * d + m - m) / d)%nat with (i * n + j)%nat; [destruct (pos2 i j Hj); auto|].
    rewrite Nat.add_sub. symmetry. apply Nat.div_mul. lia.
  Qed.
  Lemma diag_pos i j : (i < n)%nat -> (j < n)%nat -> Nat.eqb ((i * n + j) mod (n + 1)) 0 = Nat.eqb i j.
  Proof.
    intros Hi Hj. destruct (Nat.eqb_spec i j) as [->|N].
    - replace (j * n + j)%nat with (j * (n + 1))%nat by ring. rewrite Nat.mod_mul by lia. reflexivity.
    - destruct (Nat.lt_ge_cases i j) as [L|L].
      + replace (i * n + j)%nat with ((j - i) + i * (n + 1))%nat by nia. rewrite Nat.mod_add, Nat.mod_small by lia. apply Nat.eqb_neq. lia.
      + replace (i * n + j)%nat with ((n + 1 + j - i) + (i - 1) * (n + 1))%nat by nia. rewrite Nat.mod_add, Nat.mod_small by lia. apply Nat.eqb_neq. lia.
  Qed.

  Lemma one_param {A} (v : A) b (th : list R) m : length th = length (notfixed [(v, fixedb b)]) -> (m < length th)%nat -> fixedb b = false /\ m = O /\ exists t, th = [t].
  Proof.
    unfold notfixed. destruct (fixedb b); cbn; intros L H; [lia|]. destruct th as [|t [|]]; cbn in *; try lia. split; [auto|]. split; [lia|]. eauto.
  Qed.
  Lemma D_expsq x : D (fun t => exp t * exp t) x (2 * exp x * exp x).
  Proof. apply (D_val _ _ (2 * exp x * exp x)); [ring|]. apply (D_sq exp). apply derivable_pt_lim_exp. Qed.
  Lemma D_rbf (q : nat) (x y : nat -> R) t0 :
    D (fun t => exp (- (1 / 2) * rs q (fun f => (x f / exp t - y f / exp t) * (x f / exp t - y f / exp t)))) t0
      (exp (- (1 / 2) * rs q (fun f => (x f / exp t0 - y f / exp t0) * (x f / exp t0 - y f / exp t0))) * rs q (fun f => (x f - y f) / exp t0 * ((x f - y f) / exp t0))).
  Proof.
    set (S2 := rs q (fun f => (x f - y f) * (x f - y f))).
    assert (E : forall t, rs q (fun f => (x f / exp t - y f / exp t) * (x f / exp t - y f / exp t)) = S2 * (exp (- t) * exp (- t))).
    { intros t. unfold S2. rewrite Rmult_comm, <- rs_scale. apply rs_ext. intros f _. rewrite exp_Ropp. unfold Rdiv. ring. }
    assert (E2 : rs q (fun f => (x f - y f) / exp t0 * ((x f - y f) / exp t0)) = S2 * (exp (- t0) * exp (- t0))).
    { unfold S2. rewrite Rmult_comm, <- rs_scale. apply rs_ext. intros f _. rewrite exp_Ropp. unfold Rdiv. ring. }
    rewrite E, E2. apply (D_ext (fun t => exp (- (1 / 2) * (S2 * (exp (- t) * exp (- t)))))); [intros t; now rewrite E|].
    assert (D1 : D (fun t => exp (- t)) t0 (- exp (- t0))).
    { apply (D_val _ _ (exp (- t0) * -1)); [ring|]. apply (D_comp (fun t => - t) exp); [|apply derivable_pt_lim_exp].
      apply (D_ext (fun t => -1 * t)); [intros; ring|]. apply (D_val _ _ (-1 * 1)); [ring|]. apply D_scal, D_id. }
    apply (D_val _ _ (exp (- (1 / 2) * (S2 * (exp (- t0) * exp (- t0)))) * (- (1 / 2) * (S2 * (2 * exp (- t0) * (- exp (- t0))))))); [field|].
    apply (D_comp (fun t => - (1 / 2) * (S2 * (exp (- t) * exp (- t)))) exp); [|apply derivable_pt_lim_exp].
    apply D_scal. apply D_scal. now apply (D_sq (fun t => exp (- t))).
  Qed.

  Lemma grad_spec k : forall th, gk k -> length th = nfree k ->
    exists g, evalg pw p n (wt k th) X = Some (nfree k, g) /\
      forall m i j, (m < nfree k)%nat -> (i < n)%nat -> (j < n)%nat ->
        D (fun t => evf (wt k (wr th m t)) i j) (nth m th 0) (gentry n (nfree k, g) i j m).
  Proof.
    unfold gentry. cbn [fst snd].
    induction k as [c b|v b|ls bs|s b|k1 IH1 k2 IH2|k1 IH1 k2 IH2|k IH e]; intros th G L.
    - cbn [wt evalg]. destruct (fixedb b) eqn:Fb.
      + exists (fun _ => 0). split; [unfold nfree; cbn; rewrite Fb; reflexivity|]. intros m i j Hm. unfold nfree in Hm. cbn in Hm. rewrite Fb in Hm. cbn in Hm. lia.
      + eexists. split; [unfold nfree; cbn; rewrite Fb; reflexivity|]. intros m i j Hm Hi Hj.
        unfold nfree in L. cbn in L. rewrite Fb in L. cbn in L. destruct th as [|t0 [|]]; try discriminate. unfold nfree in Hm. cbn in Hm. rewrite Fb in Hm. cbn in Hm. assert (m = O) by lia. subst m.
        apply (D_ext exp); [intros t; unfold evf; cbn; rewrite ?Fb; reflexivity|]. cbn. rewrite ?Fb. apply derivable_pt_lim_exp.
    - cbn [wt evalg]. destruct (fixedb b) eqn:Fb.
      + exists (fun _ => 0). split; [unfold nfree; cbn; rewrite Fb; reflexivity|]. intros m i j Hm. unfold nfree in Hm. cbn in Hm. rewrite Fb in Hm. cbn in Hm. lia.
      + eexists. split; [unfold nfree; cbn; rewrite Fb; reflexivity|]. intros m i j Hm Hi Hj.
        unfold nfree in L. cbn in L. rewrite Fb in L. cbn in L. destruct th as [|t0 [|]]; try discriminate. unfold nfree in *. cbn [tvars hyper] in *. rewrite Fb in *. cbn [option_map notfixed filter negb snd map fst length] in *. assert (m = O) by lia. subst m.
        replace ((i * n + j) * 1 + 0)%nat with (i * n + j)%nat by lia. rewrite diag_pos by assumption. cbn [nth wr setfree hd].
        destruct (Nat.eqb_spec i j) as [->|N].
        * apply (D_ext exp); [intros t; unfold evf; cbn [wt eval setfree hd]; rewrite ?Fb; cbn [setfree hd]; rewrite near_refl; reflexivity|]. apply derivable_pt_lim_exp.
        * apply (D_ext (fun _ => 0)); [intros t; unfold evf; cbn [wt eval]; rewrite (G i j Hi Hj N); reflexivity|]. apply D_const.
    - destruct G as [G1 G2]. destruct ls as [|l0 [|]]; try discriminate. destruct bs as [|b bs]; [congruence|].
      cbn [wt evalg map combine]. destruct (fixedb b) eqn:Fb.
      + assert (NF : nfree (KRBF [l0] (b :: bs)) = O) by (unfold nfree; cbn [tvars hyper length map combine Nat.ltb Nat.leb option_map]; rewrite Fb; reflexivity). rewrite NF in *.
        cbn [setfree eval rbf_scale hyper length Nat.ltb Nat.leb map combine]. rewrite Fb. exists (fun _ => 0). split; [reflexivity|]. intros; lia.
      + assert (NF : nfree (KRBF [l0] (b :: bs)) = 1%nat) by (unfold nfree; cbn [tvars hyper length map combine Nat.ltb Nat.leb option_map]; rewrite Fb; reflexivity). rewrite NF in *.
        destruct th as [|t0 [|]]; try discriminate.
        cbn [setfree eval rbf_scale hyper length Nat.ltb Nat.leb map combine]. rewrite Fb. eexists. split; [reflexivity|].
        intros m i j Hm Hi Hj. assert (m = O) by lia. subst m. replace ((i * n + j) * 1 + 0)%nat with (i * n + j)%nat by lia. destruct (pos2 i j Hj) as [P1 P2]. cbv zeta. rewrite P1, P2.
        apply (D_ext (fun t => exp (- (1 / 2) * rs p (fun f => (X i f / exp t - X j f / exp t) * (X i f / exp t - X j f / exp t)))));
          [intros t; unfold evf; cbn [wr wt map combine]; rewrite ?Fb; cbn [setfree eval rbf_scale]; reflexivity|].
        exact (D_rbf p (X i) (X j) t0).
    - cbn [wt evalg]. destruct (fixedb b) eqn:Fb.
      + exists (fun _ => 0). split; [unfold nfree; cbn; rewrite Fb; reflexivity|]. intros m i j Hm. unfold nfree in Hm. cbn in Hm. rewrite Fb in Hm. cbn in Hm. lia.
      + eexists. split; [unfold nfree; cbn; rewrite Fb; reflexivity|]. intros m i j Hm Hi Hj.
        unfold nfree in L. cbn in L. rewrite Fb in L. cbn in L. destruct th as [|t0 [|]]; try discriminate. unfold nfree in Hm. cbn in Hm. rewrite Fb in Hm. cbn in Hm. assert (m = O) by lia. subst m.
        apply (D_ext (fun t => exp t * exp t + rs p (fun f => X i f * X j f))); [intros t; unfold evf; cbn [wr wt eval]; rewrite ?Fb; reflexivity|]. cbn [nth setfree hd].
        apply (D_val _ _ (2 * exp t0 * exp t0 + 0)); [ring|]. apply D_plus; [apply D_expsq|apply D_const].
    - destruct G as [G1 G2]. destruct (nfree_sum k1 k2 G1 G2) as [NF _]. rewrite NF in *.
      destruct (IH1 (firstn (nfree k1) th) G1 ltac:(rewrite firstn_length; lia)) as (g1 & E1 & D1).
      destruct (IH2 (firstn (nfree k2) (skipn (nfree k1) th)) G2 ltac:(rewrite firstn_length, skipn_length; lia)) as (g2 & E2 & D2).
      cbn [wt evalg]. rewrite E1, E2. eexists. split; [reflexivity|]. intros m i j Hm Hi Hj. cbv zeta.
      destruct (pos3 i j _ m Hm Hj) as (P1 & P2 & P3). rewrite P1, P2, P3.
      assert (SP : forall t, evf (wt (KSum k1 k2) (wr th m t)) i j = evf (wt k1 (firstn (nfree k1) (wr th m t))) i j + evf (wt k2 (firstn (nfree k2) (skipn (nfree k1) (wr th m t)))) i j).
      { intros t. unfold evf. cbn [wt eval]. destruct (gk_eval _ (gk_wt k1 (firstn (nfree k1) (wr th m t)) G1)) as [K1 ->].
        destruct (gk_eval _ (gk_wt k2 (firstn (nfree k2) (skipn (nfree k1) (wr th m t))) G2)) as [K2 ->]. reflexivity. }
      apply (D_ext (fun t => evf (wt k1 (firstn (nfree k1) (wr th m t))) i j + evf (wt k2 (firstn (nfree k2) (skipn (nfree k1) (wr th m t)))) i j)); [intros t; exact (eq_sym (SP t))|]. clear SP.
      destruct (Nat.ltb_spec m (nfree k1)) as [Lm|Lm].
      + apply (D_val _ _ (g1 ((i * n + j) * nfree k1 + m)%nat + 0)); [rewrite Rplus_0_r; f_equal; ring|]. apply D_plus.
        * specialize (D1 m i j Lm Hi Hj). rewrite nth_firstn_R in D1 by exact Lm. revert D1. apply D_ext. intros t. now rewrite firstn_wr.
        * eapply D_ext; [|apply D_const]. intros t. rewrite skipn_wr by exact Lm. reflexivity.
      + apply (D_val _ _ (0 + g2 ((i * n + j) * nfree k2 + (m - nfree k1))%nat)); [rewrite Rplus_0_l; f_equal; ring|]. apply D_plus.
        * eapply D_ext; [|apply D_const]. intros t. rewrite firstn_wr_ge by exact Lm. reflexivity.
        * specialize (D2 (m - nfree k1)%nat i j ltac:(lia) Hi Hj). rewrite nth_firstn_R, nth_skipn_R in D2 by lia. replace (nfree k1 + (m - nfree k1))%nat with m in D2 by lia. revert D2. apply D_ext.
          intros t. rewrite skipn_wr_ge by exact Lm. now rewrite firstn_wr by lia.
    - destruct G as [G1 G2]. destruct (nfree_sum k1 k2 G1 G2) as [_ NF]. rewrite NF in *.
      destruct (IH1 (firstn (nfree k1) th) G1 ltac:(rewrite firstn_length; lia)) as (g1 & E1 & D1).
      destruct (IH2 (firstn (nfree k2) (skipn (nfree k1) th)) G2 ltac:(rewrite firstn_length, skipn_length; lia)) as (g2 & E2 & D2).
      destruct (gk_eval _ (gk_wt k1 (firstn (nfree k1) th) G1)) as [K1 EK1]. destruct (gk_eval _ (gk_wt k2 (firstn (nfree k2) (skipn (nfree k1) th)) G2)) as [K2 EK2].
      cbn [wt evalg]. rewrite E1, E2, EK1, EK2. eexists. split; [reflexivity|]. intros m i j Hm Hi Hj. cbv zeta.
      destruct (pos3 i j _ m Hm Hj) as (P1 & P2 & P3). rewrite P1, P2, P3.
      assert (SP : forall t, evf (wt (KProd k1 k2) (wr th m t)) i j = evf (wt k1 (firstn (nfree k1) (wr th m t))) i j * evf (wt k2 (firstn (nfree k2) (skipn (nfree k1) (wr th m t)))) i j).
      { intros t. unfold evf. cbn [wt eval]. destruct (gk_eval _ (gk_wt k1 (firstn (nfree k1) (wr th m t)) G1)) as [Ka ->].
        destruct (gk_eval _ (gk_wt k2 (firstn (nfree k2) (skipn (nfree k1) (wr th m t))) G2)) as [Kb ->]. reflexivity. }
      apply (D_ext (fun t => evf (wt k1 (firstn (nfree k1) (wr th m t))) i j * evf (wt k2 (firstn (nfree k2) (skipn (nfree k1) (wr th m t)))) i j)); [intros t; exact (eq_sym (SP t))|]. clear SP.
      assert (V1 : evf (wt k1 (firstn (nfree k1) th)) i j = K1 i j) by (unfold evf; now rewrite EK1).
      assert (V2 : evf (wt k2 (firstn (nfree k2) (skipn (nfree k1) th))) i j = K2 i j) by (unfold evf; now rewrite EK2).
      destruct (Nat.ltb_spec m (nfree k1)) as [Lm|Lm].
      + apply (D_ext (fun t => K2 i j * evf (wt k1 (firstn (nfree k1) (wr th m t))) i j)); [intros t; rewrite skipn_wr by exact Lm; rewrite V2; ring|].
        apply (D_val _ _ (K2 i j * g1 ((i * n + j) * nfree k1 + m)%nat)); [rewrite Rmult_comm; do 2 f_equal; ring|]. apply D_scal.
        specialize (D1 m i j Lm Hi Hj). rewrite nth_firstn_R in D1 by exact Lm. revert D1. apply D_ext. intros t. now rewrite firstn_wr.
      + apply (D_ext (fun t => K1 i j * evf (wt k2 (firstn (nfree k2) (skipn (nfree k1) (wr th m t)))) i j)); [intros t; rewrite firstn_wr_ge by exact Lm; rewrite V1; ring|].
        apply (D_val _ _ (K1 i j * g2 ((i * n + j) * nfree k2 + (m - nfree k1))%nat)); [rewrite Rmult_comm; do 2 f_equal; ring|]. apply D_scal.
        specialize (D2 (m - nfree k1)%nat i j ltac:(lia) Hi Hj). rewrite nth_firstn_R, nth_skipn_R in D2 by lia. replace (nfree k1 + (m - nfree k1))%nat with m in D2 by lia. revert D2. apply D_ext.
        intros t. rewrite skipn_wr_ge by exact Lm. now rewrite firstn_wr by lia.
    - destruct G.
  Qed.
End G.
