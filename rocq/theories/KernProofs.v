(* Proofs about KernModel: Diag, symmetry, CloneWithTheta. *)
From Coq Require Import Reals Lra Lia List Arith Bool.
From Verif Require Import MtModel MtProofs KernModel.
Import ListNotations.
Open Scope R_scope.

Lemma tol8_pos : 0 < tol8.
Proof. unfold tol8. apply Rinv_0_lt_compat. apply pow_lt. lra. Qed.
Lemma approx_refl a : approx a a = true.
Proof. unfold approx. pose proof tol8_pos. destruct (Rle_dec (Rabs (a - a)) tol8) as [|H1]; [reflexivity|]. exfalso. apply H1. replace (a - a) with 0 by ring. rewrite Rabs_R0. lra. Qed.
Lemma approx_sym a b : approx a b = approx b a.
Proof. unfold approx. now rewrite (Rabs_minus_sym a b), (Rmax_comm (Rabs a)). Qed.
Lemma near_refl p x : near p x x = true.
Proof. induction p; [reflexivity|]. cbn [near]. now rewrite IHp, approx_refl. Qed.
Lemma near_sym p x y : near p x y = near p y x.
Proof. induction p; [reflexivity|]. cbn [near]. now rewrite IHp, approx_sym. Qed.

Lemma rbf_scale_some p ls x : rbf_scale p ls (fun _ => 0) <> None -> exists f, rbf_scale p ls x = Some f.
Proof. unfold rbf_scale. destruct ls as [|a [|b l]]; try destruct (Nat.eqb _ _); intros H; try (eexists; reflexivity); now destruct H. Qed.

Section Eval.
  Variables (pw : R -> R -> R) (p : nat).
  Lemma eval_sym k : forall X Y K, eval pw p k X Y = Some K -> exists K', eval pw p k Y X = Some K' /\ forall i j, K i j = K' j i.
  Proof.
    induction k as [c b|v b|ls bs|s b|k1 IH1 k2 IH2|k1 IH1 k2 IH2|k IH e]; intros X Y K H; cbn [eval] in *.
    - injection H as <-. eexists. split; [reflexivity|]. auto.
    - injection H as <-. eexists. split; [reflexivity|]. intros i j. cbv beta. now rewrite near_sym.
    - destruct (rbf_scale p ls (fun _ => 0)); [|discriminate]. injection H as <-. eexists. split; [reflexivity|]. intros i j. cbv beta.
      destruct (rbf_scale p ls (X i)), (rbf_scale p ls (Y j)); try reflexivity. do 2 f_equal. apply rs_ext. intros; ring.
    - injection H as <-. eexists. split; [reflexivity|]. intros i j. cbv beta. f_equal. apply rs_ext. intros; ring.
    - destruct (eval pw p k1 X Y) as [K1|] eqn:E1; [|discriminate]. destruct (eval pw p k2 X Y) as [K2|] eqn:E2; [|discriminate]. injection H as <-.
      destruct (IH1 _ _ _ E1) as (K1' & -> & S1). destruct (IH2 _ _ _ E2) as (K2' & -> & S2). eexists. split; [reflexivity|]. intros i j. cbv beta. now rewrite S1, S2.
    - destruct (eval pw p k1 X Y) as [K1|] eqn:E1; [|discriminate]. destruct (eval pw p k2 X Y) as [K2|] eqn:E2; [|discriminate]. injection H as <-.
      destruct (IH1 _ _ _ E1) as (K1' & -> & S1). destruct (IH2 _ _ _ E2) as (K2' & -> & S2). eexists. split; [reflexivity|]. intros i j. cbv beta. now rewrite S1, S2.
    - destruct (eval pw p k X Y) as [K1|] eqn:E1; [|discriminate]. injection H as <-.
      destruct (IH _ _ _ E1) as (K1' & -> & S1). eexists. split; [reflexivity|]. intros i j. cbv beta. now rewrite S1.
  Qed.
  Lemma eval_diag k : forall X K i, eval pw p k X X = Some K -> diag pw p k X i = K i i.
  Proof.
    induction k as [c b|v b|ls bs|s b|k1 IH1 k2 IH2|k1 IH1 k2 IH2|k IH e]; intros X K i H; cbn [eval diag] in *.
    - now injection H as <-.
    - injection H as <-. now rewrite near_refl.
    - destruct (rbf_scale p ls (fun _ => 0)) eqn:E; [|discriminate]. injection H as <-.
      destruct (rbf_scale_some p ls (X i)) as [f ->]; [congruence|].
      rewrite (rs_ext p _ (fun _ => 0)) by (intros; ring). rewrite rs_zero, Rmult_0_r, exp_0. reflexivity.
    - now injection H as <-.
    - destruct (eval pw p k1 X X) as [K1|] eqn:E1; [|discriminate]. destruct (eval pw p k2 X X) as [K2|] eqn:E2; [|discriminate]. injection H as <-.
      now rewrite (IH1 _ _ _ E1), (IH2 _ _ _ E2).
    - destruct (eval pw p k1 X X) as [K1|] eqn:E1; [|discriminate]. destruct (eval pw p k2 X X) as [K2|] eqn:E2; [|discriminate]. injection H as <-.
      now rewrite (IH1 _ _ _ E1), (IH2 _ _ _ E2).
    - destruct (eval pw p k X X) as [K1|] eqn:E1; [|discriminate]. injection H as <-. now rewrite (IH _ _ _ E1).
  Qed.
End Eval.

(* ------------------------------------------------------------------ parameters *)
Fixpoint addrs {A} (k : kern A) : list A :=
  match k with
  | KConst a _ | KWhite a _ | KDot a _ => [a]
  | KRBF ls _ => ls
  | KSum k1 k2 | KProd k1 k2 => addrs k1 ++ addrs k2
  | KExp k _ => addrs k
  end.
Fixpoint hasexp {A} (k : kern A) : bool := match k with KExp _ _ => true | KSum a b | KProd a b => (hasexp a || hasexp b)%bool | _ => false end.
Fixpoint haswhite {A} (k : kern A) : bool := match k with KWhite _ _ => true | KSum a b | KProd a b => (haswhite a || haswhite b)%bool | KExp a _ => haswhite a | _ => false end.

Lemma combine_map_fst {A B C} (f : A -> B) (l : list A) (m : list C) : combine (map f l) m = map (fun x => (f (fst x), snd x)) (combine l m).
Proof. revert m. induction l as [|a l IH]; intros [|c m]; cbn; [reflexivity..|]. now rewrite IH. Qed.
Lemma hyper_map {A B} (f : A -> B) k : hyper (kmap f k) = option_map (map (fun x => (f (fst x), snd x))) (hyper k).
Proof.
  induction k as [c b|v b|ls bs|s b|k1 IH1 k2 IH2|k1 IH1 k2 IH2|k IH e]; cbn [kmap hyper]; try reflexivity.
  - rewrite map_length. destruct (_ <? _)%nat; [reflexivity|]. cbn. now rewrite combine_map_fst.
  - rewrite IH1, IH2. destruct (hyper k1), (hyper k2); cbn; try reflexivity. now rewrite map_app.
  - rewrite IH1, IH2. destruct (hyper k1), (hyper k2); cbn; try reflexivity. now rewrite map_app.
Qed.
Lemma notfixed_map {A B} (f : A -> B) (h : list (A * bool)) : notfixed (map (fun x => (f (fst x), snd x)) h) = map f (notfixed h).
Proof. unfold notfixed. induction h as [|[a b] h IH]; [reflexivity|]. cbn. destruct b; cbn; now rewrite IH. Qed.
Lemma notfixed_app {A} (h h' : list (A * bool)) : notfixed (h ++ h') = notfixed h ++ notfixed h'.
Proof. unfold notfixed. now rewrite filter_app, map_app. Qed.
Lemma tvars_hyper {A} (k : kern A) h : hyper k = Some h -> tvars k = Some (notfixed h).
Proof. intros H. destruct k; cbn [tvars]; try (rewrite H; reflexivity). discriminate. Qed.
Lemma tvars_map {A B} (f : A -> B) k : tvars (kmap f k) = option_map (map f) (tvars k).
Proof.
  induction k as [c b|v b|ls bs|s b|k1 IH1 k2 IH2|k1 IH1 k2 IH2|k IH e]; try exact IH; cbn [tvars kmap];
  match goal with |- option_map notfixed (hyper ?x) = option_map _ (option_map notfixed (hyper ?y)) =>
    change x with (kmap f y); rewrite (hyper_map f y); destruct (hyper y); cbn; [now rewrite notfixed_map|reflexivity] end.
Qed.
Lemma hyper_addrs {A} (k : kern A) : forall h a b, hyper k = Some h -> In (a, b) h -> In a (addrs k).
Proof.
  induction k as [c b0|v b0|ls bs|s b0|k1 IH1 k2 IH2|k1 IH1 k2 IH2|k IH e]; intros h a b H I; cbn [hyper addrs] in *.
  1,2,4: injection H as <-; destruct I as [I|[]]; injection I as <- _; left; reflexivity.
  - destruct (_ <? _)%nat; [discriminate|]. injection H as <-. exact (in_combine_l _ _ _ _ I).
  - destruct (hyper k1) as [h1|]; [|discriminate]. destruct (hyper k2) as [h2|]; [|discriminate]. injection H as <-.
    apply in_or_app. apply in_app_or in I. destruct I as [I|I]; [left; eapply IH1; eauto|right; eapply IH2; eauto].
  - destruct (hyper k1) as [h1|]; [|discriminate]. destruct (hyper k2) as [h2|]; [|discriminate]. injection H as <-.
    apply in_or_app. apply in_app_or in I. destruct I as [I|I]; [left; eapply IH1; eauto|right; eapply IH2; eauto].
  - discriminate.
Qed.
Lemma tvars_addrs {A} (k : kern A) : forall v a, tvars k = Some v -> In a v -> In a (addrs k).
Proof.
  induction k as [c b|w b|ls bs|s b|k1 IH1 k2 IH2|k1 IH1 k2 IH2|k IH e]; try (intros v a H I; cbn [tvars addrs] in *; now apply (IH v));
  intros v a H I; cbn [tvars] in H;
  match type of H with option_map notfixed ?h = _ => destruct h as [l|] eqn:E; [|discriminate] end; injection H as <-;
  unfold notfixed in I; apply in_map_iff in I; destruct I as ([a' b'] & <- & I); apply filter_In in I; destruct I as [I _];
  exact (hyper_addrs _ _ _ _ E I).
Qed.

(* ------------------------------------------------------------------ the store *)
Lemma wr_length st : forall a v, length (wr st a v) = length st.
Proof. induction st as [|x st IH]; intros [|a] v; cbn; auto. Qed.
Lemma wr_app st st' a v : (length st <= a)%nat -> wr (st ++ st') a v = st ++ wr st' (a - length st) v.
Proof. revert a. induction st as [|x st IH]; intros a H; [cbn; f_equal; lia|]. cbn in H. destruct a as [|a]; [lia|]. cbn. f_equal. apply IH. lia. Qed.
Lemma rd_wr st a b v : rd (wr st a v) b = if (Nat.eqb a b && (a <? length st)%nat)%bool then v else rd st b.
Proof.
  unfold rd. revert a b. induction st as [|x st IH]; intros a b.
  - cbn [wr length]. destruct b; cbn; rewrite andb_false_r; reflexivity.
  - destruct a as [|a], b as [|b]; cbn [wr nth]; try reflexivity. rewrite IH. cbn [length].
    change (S a <? S (length st))%nat with (a <? length st)%nat. reflexivity.
Qed.
Lemma rd_app1 st st' a : (a < length st)%nat -> rd (st ++ st') a = rd st a.
Proof. intros. unfold rd. now apply app_nth1. Qed.
Lemma matcopy_app st : forall th vars ext st', (forall a, In a vars -> (length st <= a)%nat) -> matcopy (st ++ ext) vars th = Some st' ->
  exists ext', st' = st ++ ext' /\ length ext' = length ext.
Proof.
  induction th as [|v th IH]; intros vars ext st' H E; cbn [matcopy] in E.
  - injection E as <-. eauto.
  - destruct vars as [|a vars]; [discriminate|]. rewrite wr_app in E by (apply H; now left).
    destruct (IH vars _ _ ltac:(intros; apply H; now right) E) as (ext' & -> & L). exists ext'. split; [reflexivity|]. rewrite L. apply wr_length.
Qed.
Lemma matcopy_rd : forall th vars st st' b, matcopy st vars th = Some st' -> ~ In b vars -> rd st' b = rd st b.
Proof.
  induction th as [|v th IH]; intros vars st st' b E N; cbn [matcopy] in E; [injection E as <-; reflexivity|].
  destruct vars as [|a vars]; [discriminate|]. rewrite (IH _ _ _ _ E) by (intros I; apply N; now right).
  rewrite rd_wr. destruct (Nat.eqb_spec a b) as [->|]; [|reflexivity]. exfalso. apply N. now left.
Qed.
Lemma matcopy_set : forall th vars st st', NoDup vars -> (forall a, In a vars -> (a < length st)%nat) -> matcopy st vars th = Some st' -> length th = length vars ->
  map (rd st') vars = map exp th.
Proof.
  induction th as [|v th IH]; intros vars st st' ND B E L; destruct vars as [|a vars]; try discriminate; [reflexivity|].
  cbn [matcopy] in E. cbn [map]. inversion ND; subst. f_equal.
  - rewrite (matcopy_rd _ _ _ _ a E) by assumption. rewrite rd_wr, Nat.eqb_refl. cbn [andb]. destruct (Nat.ltb_spec a (length st)); [reflexivity|]. specialize (B a (or_introl eq_refl)). lia.
  - eapply IH; eauto. intros b Hb. rewrite wr_length. apply B. now right.
Qed.

(* ------------------------------------------------------------------ a kernel with given log-parameters *)
Fixpoint setfree (h : list (R * bool)) (th : list R) : list R :=
  match h with
  | [] => []
  | (v, true) :: h' => v :: setfree h' th
  | (v, false) :: h' => match th with [] => v :: setfree h' [] | t :: th' => exp t :: setfree h' th' end
  end.
Definition nfree {A} (k : kern A) : nat := match tvars k with Some v => length v | None => O end.
Fixpoint wt (k : kern R) (th : list R) : kern R :=
  match k with
  | KConst c b => KConst (hd c (setfree [(c, fixedb b)] th)) b
  | KWhite v b => KWhite (hd v (setfree [(v, fixedb b)] th)) b
  | KRBF ls bs => KRBF (setfree (combine ls (map fixedb bs)) th) bs
  | KDot s b => KDot (hd s (setfree [(s, fixedb b)] th)) b
  | KSum k1 k2 => KSum (wt k1 (firstn (nfree k1) th)) (wt k2 (firstn (nfree k2) (skipn (nfree k1) th)))
  | KProd k1 k2 => KProd (wt k1 (firstn (nfree k1) th)) (wt k2 (firstn (nfree k2) (skipn (nfree k1) th)))
  | KExp k e => KExp (wt k th) e
  end.
(* what CloneWithTheta makes: WhiteKernel unchanged, Exponentiation gone *)
Fixpoint ct (k : kern R) (th : list R) : kern R :=
  match k with
  | KConst c b => KConst (hd c (setfree [(c, fixedb b)] th)) b
  | KWhite v b => KWhite v b
  | KRBF ls bs => KRBF (setfree (combine ls (map fixedb bs)) th) bs
  | KDot s b => KDot (hd s (setfree [(s, fixedb b)] th)) b
  | KSum k1 k2 => KSum (ct k1 (firstn (nfree k1) th)) (ct k2 (firstn (nfree k2) (skipn (nfree k1) th)))
  | KProd k1 k2 => KProd (ct k1 (firstn (nfree k1) th)) (ct k2 (firstn (nfree k2) (skipn (nfree k1) th)))
  | KExp k e => ct k th
  end.

Lemma matcopy_h : forall (h : list (nat * bool)) th st st', NoDup (map fst h) -> (forall a, In a (map fst h) -> (a < length st)%nat) ->
  matcopy st (notfixed h) th = Some st' -> map (rd st') (map fst h) = setfree (map (fun x => (rd st (fst x), snd x)) h) th.
Proof.
  induction h as [|[a b] h IH]; intros th st st' ND B E; [reflexivity|]. cbn [map fst snd] in *. inversion ND as [|? ? Na ND']; subst.
  destruct b; cbn [setfree].
  - f_equal.
    + apply (matcopy_rd _ _ _ _ a E). unfold notfixed. cbn. intros I. apply Na. apply in_map_iff in I. destruct I as (x & <- & I). apply filter_In in I. apply in_map, I.
    + apply IH; auto. intros c Hc. apply B. now right.
  - assert (Nn : ~ In a (notfixed h)).
    { unfold notfixed. intros I. apply Na. apply in_map_iff in I. destruct I as (x & <- & I). apply filter_In in I. apply in_map, I. }
    change (notfixed ((a, false) :: h)) with (a :: notfixed h) in E. destruct th as [|t th]; cbn [matcopy] in E.
    + injection E as <-. f_equal. apply IH; auto. intros c Hc. apply B. now right.
    + f_equal.
      * rewrite (matcopy_rd _ _ _ _ a E) by assumption. rewrite rd_wr, Nat.eqb_refl. cbn [andb]. destruct (Nat.ltb_spec a (length st)) as [|G]; [reflexivity|]. specialize (B a (or_introl eq_refl)). lia.
      * rewrite (IH th (wr st a (exp t)) st'); auto; [|intros c Hc; rewrite wr_length; apply B; now right].
        f_equal. apply map_ext_in. intros x Hx. f_equal. rewrite rd_wr. destruct (Nat.eqb_spec a (fst x)) as [->|]; [|reflexivity]. exfalso. apply Na. now apply in_map.
Qed.
Lemma combine_fst {A B} (l : list A) (m : list B) : (length l <= length m)%nat -> map fst (combine l m) = l.
Proof. revert m. induction l as [|a l IH]; intros [|b m] H; cbn in *; auto; try lia. f_equal. apply IH. lia. Qed.
Lemma val_ext st st' k : (forall a, In a (addrs k) -> rd st' a = rd st a) -> val st' k = val st k.
Proof.
  unfold val. induction k as [c b|v b|ls bs|s b|k1 IH1 k2 IH2|k1 IH1 k2 IH2|k IH e]; intros H; cbn [kmap addrs] in *.
  1,2,4: now rewrite H by (now left).
  - f_equal. apply map_ext_in. auto.
  - rewrite IH1, IH2; auto; intros a Ha; apply H, in_or_app; auto.
  - rewrite IH1, IH2; auto; intros a Ha; apply H, in_or_app; auto.
  - rewrite IH; auto.
Qed.
Lemma nfree_val st k : nfree (val st k) = nfree k.
Proof. unfold nfree, val. rewrite tvars_map. destruct (tvars k); cbn; [apply map_length|reflexivity]. Qed.

Lemma clone_leaf st a b (mk : nat -> kern nat) w th st3 : (a < length st)%nat -> (w = length st \/ w = S (length st)) ->
  (forall x, tvars (mk x) = Some (notfixed [(x, fixedb b)])) -> matcopy_to (st ++ [rd st a; rd st a]) (mk w) th = Some st3 ->
  exists ext, st3 = st ++ ext /\ length ext = 2%nat /\ rd st3 w = hd (rd st a) (setfree [(rd st a, fixedb b)] th) /\
    (forall x, x <> w -> rd st3 x = rd (st ++ [rd st a; rd st a]) x).
Proof.
  intros Ha Hw Htv E. unfold matcopy_to in E. rewrite Htv in E.
  assert (Hin : forall x, In x (notfixed [(w, fixedb b)]) -> x = w) by (unfold notfixed; cbn; destruct (fixedb b); cbn; intros x [I|[]] || intros x []; auto).
  destruct (matcopy_app st th _ _ st3 ltac:(intros x Hx; apply Hin in Hx; lia) E) as (ext & EE & L). exists ext. split; [exact EE|]. split; [exact L|].
  assert (Rw : rd (st ++ [rd st a; rd st a]) w = rd st a).
  { unfold rd at 1. destruct Hw as [-> | ->]; rewrite app_nth2 by lia; [rewrite Nat.sub_diag|replace (S (length st) - length st)%nat with 1%nat by lia]; reflexivity. }
  assert (Lw : (w < length (st ++ [rd st a; rd st a]))%nat) by (rewrite app_length; cbn; lia). split.
  - pose proof (matcopy_h [(w, fixedb b)] th (st ++ [rd st a; rd st a]) st3 ltac:(repeat constructor; auto) ltac:(intros x [<-|[]]; exact Lw) E) as G.
    cbn [map fst snd] in G. rewrite Rw in G. rewrite <- G. reflexivity.
  - intros x Hx. apply (matcopy_rd _ _ _ _ x E). intros I. apply Hx. now apply Hin.
Qed.

Lemma clone_spec ok k : forall st th st' k', (forall a, In a (addrs k) -> (a < length st)%nat) -> clone ok st k th = Some (st', k') ->
  (exists ext, st' = st ++ ext) /\ (forall a, In a (addrs k') -> (length st <= a < length st')%nat) /\ val st' k' = ct (val st k) th.
Proof.
  induction k as [a b|a b|ls bs|a b|k1 IH1 k2 IH2|k1 IH1 k2 IH2|k IH e]; intros st th st' k' B H; cbn [clone addrs] in *; cbv zeta in H.
  - destruct (matcopy_to _ _ _) as [st3|] eqn:E; [|discriminate]. injection H as <- <-.
    destruct (clone_leaf st a b (fun x => KConst x b) _ th st3 (B a (or_introl eq_refl)) (or_intror eq_refl) ltac:(reflexivity) E) as (ext & -> & L & V & _).
    split; [eauto|]. split; [intros x [<-|[]]; rewrite app_length; lia|]. unfold val. cbn [kmap ct]. now rewrite V.
  - destruct (matcopy_to _ _ _) as [st3|] eqn:E; [|discriminate]. injection H as <- <-.
    destruct (clone_leaf st a b (fun x => KWhite x b) _ th st3 (B a (or_introl eq_refl)) (or_introl eq_refl) ltac:(reflexivity) E) as (ext & -> & L & _ & V).
    split; [eauto|]. split; [intros x [<-|[]]; rewrite app_length; lia|]. unfold val. cbn [kmap ct]. rewrite V by lia.
    unfold rd at 1. rewrite app_nth2 by lia. replace (S (length st) - length st)%nat with 1%nat by lia. reflexivity.
  - destruct (matcopy_to _ _ _) as [st3|] eqn:E; [|discriminate]. injection H as <- <-. unfold matcopy_to in E. cbn [tvars hyper] in E. rewrite seq_length in E.
    destruct (Nat.ltb_spec (length bs) (length ls)) as [|Hl]; [discriminate|]. cbn [option_map] in E.
    assert (Hf : map fst (combine (seq (length st) (length ls)) (map fixedb bs)) = seq (length st) (length ls)) by (apply combine_fst; rewrite seq_length, map_length; lia).
    assert (HI : forall x, In x (notfixed (combine (seq (length st) (length ls)) (map fixedb bs))) -> In x (seq (length st) (length ls))).
    { unfold notfixed. intros x I. rewrite <- Hf. apply in_map_iff in I. destruct I as (y & <- & I). apply filter_In in I. apply in_map, I. }
    destruct (matcopy_app st th _ _ st3 ltac:(intros x Hx; apply HI, in_seq in Hx; lia) E) as (ext & EE & L). rewrite map_length in L.
    split; [eauto|]. split; [intros x Hx; apply in_seq in Hx; rewrite EE, app_length; lia|]. unfold val. cbn [kmap ct]. f_equal.
    pose proof (matcopy_h (combine (seq (length st) (length ls)) (map fixedb bs)) th (st ++ map (rd st) ls) st3 ltac:(rewrite Hf; apply seq_NoDup)
      ltac:(rewrite Hf; intros x Hx; apply in_seq in Hx; rewrite app_length, map_length; lia) E) as G. rewrite Hf in G. rewrite G.
    f_equal. rewrite <- combine_map_fst. f_equal.
    apply nth_ext with 0 0; [now rewrite !map_length, seq_length|]. intros i Hi. rewrite map_length, seq_length in Hi.
    rewrite (nth_indep _ 0 (rd (st ++ map (rd st) ls) 0%nat)) by (rewrite map_length, seq_length; lia). rewrite map_nth, seq_nth by lia.
    unfold rd at 1. rewrite app_nth2 by lia. f_equal. lia.
  - destruct (matcopy_to _ _ _) as [st3|] eqn:E; [|discriminate]. injection H as <- <-.
    destruct (clone_leaf st a b (fun x => KDot x b) _ th st3 (B a (or_introl eq_refl)) (or_intror eq_refl) ltac:(reflexivity) E) as (ext & -> & L & V & _).
    split; [eauto|]. split; [intros x [<-|[]]; rewrite app_length; lia|]. unfold val. cbn [kmap ct]. now rewrite V.
  - destruct (tvars k1) as [v1|] eqn:T1; [|discriminate]. destruct (tvars k2) as [v2|] eqn:T2; [|discriminate].
    unfold slice2 in H. destruct (_ || _)%bool; [discriminate|]. destruct (clone ok st k1 _) as [[s1 k1']|] eqn:E1; [|discriminate].
    destruct (clone ok s1 k2 _) as [[s2 k2']|] eqn:E2; [|discriminate]. injection H as <- <-.
    destruct (IH1 _ _ _ _ ltac:(intros; apply B, in_or_app; auto) E1) as ([x1 ->] & A1 & V1).
    destruct (IH2 (st ++ x1) _ _ _ ltac:(intros a Ha; rewrite app_length; specialize (B a ltac:(apply in_or_app; auto)); lia) E2) as ([x2 ->] & A2 & V2).
    split; [exists (x1 ++ x2); now rewrite app_assoc|]. split.
    + cbn [addrs]. intros a Ha. apply in_app_or in Ha. destruct Ha as [Ha|Ha]; [specialize (A1 a Ha)|specialize (A2 a Ha)]; rewrite ?app_length in *; lia.
    + change (KSum (val ((st ++ x1) ++ x2) k1') (val ((st ++ x1) ++ x2) k2') = ct (KSum (val st k1) (val st k2)) th). cbn [ct].
      rewrite !nfree_val. unfold nfree. rewrite T1, T2. rewrite V2. f_equal.
      * rewrite <- V1. apply val_ext. intros a Ha. apply rd_app1. apply A1, Ha.
      * f_equal. apply val_ext. intros a Ha. apply rd_app1. apply B, in_or_app. auto.
  - destruct (tvars k1) as [v1|] eqn:T1; [|discriminate]. destruct (tvars k2) as [v2|] eqn:T2; [|discriminate].
    unfold slice2 in H. destruct (_ || _)%bool; [discriminate|]. destruct (clone ok st k1 _) as [[s1 k1']|] eqn:E1; [|discriminate].
    destruct (clone ok s1 k2 _) as [[s2 k2']|] eqn:E2; [|discriminate]. injection H as <- <-.
    destruct (IH1 _ _ _ _ ltac:(intros; apply B, in_or_app; auto) E1) as ([x1 ->] & A1 & V1).
    destruct (IH2 (st ++ x1) _ _ _ ltac:(intros a Ha; rewrite app_length; specialize (B a ltac:(apply in_or_app; auto)); lia) E2) as ([x2 ->] & A2 & V2).
    split; [exists (x1 ++ x2); now rewrite app_assoc|]. split.
    + cbn [addrs]. intros a Ha. apply in_app_or in Ha. destruct Ha as [Ha|Ha]; [specialize (A1 a Ha)|specialize (A2 a Ha)]; rewrite ?app_length in *; lia.
    + change (KProd (val ((st ++ x1) ++ x2) k1') (val ((st ++ x1) ++ x2) k2') = ct (KProd (val st k1) (val st k2)) th). cbn [ct].
      rewrite !nfree_val. unfold nfree. rewrite T1, T2. rewrite V2. f_equal.
      * rewrite <- V1. apply val_ext. intros a Ha. apply rd_app1. apply A1, Ha.
      * f_equal. apply val_ext. intros a Ha. apply rd_app1. apply B, in_or_app. auto.
  - destruct (IH _ _ _ _ B H) as (A1 & A2 & A3). split; [exact A1|]. split; [exact A2|]. exact A3.
Qed.
Lemma ct_wt k : haswhite k = false -> hasexp k = false -> forall th, ct k th = wt k th.
Proof.
  induction k as [c b|v b|ls bs|s b|k1 IH1 k2 IH2|k1 IH1 k2 IH2|k IH e]; cbn [haswhite hasexp]; intros W E th; try discriminate; try reflexivity;
  apply orb_false_iff in W; apply orb_false_iff in E; destruct W, E; cbn [ct wt]; now rewrite IH1, IH2.
Qed.
Lemma setfree_firstn h : forall th, setfree h (firstn (length (notfixed h)) th) = setfree h th.
Proof.
  induction h as [|[v b] h IH]; intros th; [reflexivity|]. destruct b; cbn [setfree].
  - change (notfixed ((v, true) :: h)) with (notfixed h). now rewrite IH.
  - change (notfixed ((v, false) :: h)) with (v :: notfixed h). cbn [length]. destruct th as [|t th]; cbn [firstn]; [reflexivity|]. now rewrite IH.
Qed.
Lemma setfree_app h1 : forall h2 th, setfree (h1 ++ h2) th = setfree h1 (firstn (length (notfixed h1)) th) ++ setfree h2 (skipn (length (notfixed h1)) th).
Proof.
  induction h1 as [|[v b] h IH]; intros h2 th; [reflexivity|]. destruct b; cbn [app setfree].
  - change (notfixed ((v, true) :: h)) with (notfixed h). now rewrite IH.
  - change (notfixed ((v, false) :: h)) with (v :: notfixed h). cbn [length]. destruct th as [|t th]; cbn [firstn skipn].
    + f_equal. rewrite IH. now rewrite firstn_nil, skipn_nil.
    + cbn [app]. f_equal. apply IH.
Qed.
Lemma setfree_length h : forall th, length (setfree h th) = length h.
Proof. induction h as [|[v [|]] h IH]; intros th; cbn; [reflexivity|now rewrite IH|]. destruct th; cbn; now rewrite IH. Qed.
Lemma combine_app {A B} (l l' : list A) (m m' : list B) : length l = length m -> combine (l ++ l') (m ++ m') = combine l m ++ combine l' m'.
Proof. revert m. induction l as [|a l IH]; intros [|b m] H; cbn in *; try discriminate; [reflexivity|]. f_equal. apply IH. lia. Qed.
Lemma nfree_hyper {A} (k : kern A) h : hyper k = Some h -> nfree k = length (notfixed h).
Proof. intros H. unfold nfree. now rewrite (tvars_hyper k h H). Qed.
Lemma combine_snd {A B} (l : list A) (m : list B) : map snd (combine l m) = firstn (length l) m.
Proof. revert m. induction l as [|a l IH]; intros [|b m]; cbn; auto. now rewrite IH. Qed.
Lemma combine_firstn_r {A B} (l : list A) (m : list B) n : (length l <= n)%nat -> combine l (firstn n m) = combine l m.
Proof. revert m n. induction l as [|a l IH]; intros m n H; [reflexivity|]. cbn in H. destruct n as [|n]; [lia|]. destruct m as [|b m]; [reflexivity|]. cbn. f_equal. apply IH. lia. Qed.
Lemma hyper_wt k : forall h th, hyper k = Some h -> hyper (wt k th) = Some (combine (setfree h th) (map snd h)).
Proof.
  induction k as [c b|v b|ls bs|s b|k1 IH1 k2 IH2|k1 IH1 k2 IH2|k IH e]; intros h th H; cbn [hyper] in H.
  1,2,4: injection H as <-; cbn [wt hyper setfree map snd]; destruct (fixedb b); [|destruct th]; reflexivity.
  - destruct (Nat.ltb_spec (length bs) (length ls)) as [|L]; [discriminate|]. injection H as <-. cbn [wt hyper].
    rewrite setfree_length, combine_length, map_length, Nat.min_l by lia. destruct (Nat.ltb_spec (length bs) (length ls)); [lia|].
    rewrite combine_snd, combine_firstn_r; [reflexivity|]. rewrite setfree_length, combine_length. lia.
  - destruct (hyper k1) as [h1|] eqn:E1; [|discriminate]. destruct (hyper k2) as [h2|] eqn:E2; [|discriminate]. injection H as <-.
    cbn [wt hyper]. rewrite (IH1 h1), (IH2 h2) by reflexivity. rewrite (nfree_hyper k1 h1 E1), (nfree_hyper k2 h2 E2).
    rewrite (setfree_app h1 h2 th), map_app, combine_app; [now rewrite (setfree_firstn h2)|]. now rewrite setfree_length, map_length.
  - destruct (hyper k1) as [h1|] eqn:E1; [|discriminate]. destruct (hyper k2) as [h2|] eqn:E2; [|discriminate]. injection H as <-.
    cbn [wt hyper]. rewrite (IH1 h1), (IH2 h2) by reflexivity. rewrite (nfree_hyper k1 h1 E1), (nfree_hyper k2 h2 E2).
    rewrite (setfree_app h1 h2 th), map_app, combine_app; [now rewrite (setfree_firstn h2)|]. now rewrite setfree_length, map_length.
  - discriminate.
Qed.
Lemma notfixed_setfree h : forall th, length th = length (notfixed h) -> notfixed (combine (setfree h th) (map snd h)) = map exp th.
Proof.
  induction h as [|[v b] h IH]; intros th L; [destruct th; [reflexivity|discriminate]|]. destruct b; cbn [setfree map snd combine].
  - exact (IH th L).
  - destruct th as [|t th]; [discriminate|]. cbn [combine]. change (notfixed ((exp t, false) :: ?l)) with (exp t :: notfixed l). cbn [map]. f_equal. apply IH.
    change (notfixed ((v, false) :: h)) with (v :: notfixed h) in L. cbn in L. lia.
Qed.
Lemma theta_wt k h th : hyper k = Some h -> length th = nfree k -> theta (wt k th) = Some th.
Proof.
  intros H L. unfold theta. rewrite (tvars_hyper _ _ (hyper_wt k h th H)). cbn [option_map]. rewrite (nfree_hyper k h H) in L.
  rewrite notfixed_setfree by exact L. rewrite map_map. f_equal. rewrite <- (map_id th) at 2. apply map_ext. intros; apply ln_exp.
Qed.
Lemma setfree_ln h : Forall (fun v => 0 < v) (notfixed h) -> setfree h (map ln (notfixed h)) = map fst h.
Proof.
  induction h as [|[v b] h IH]; intros F; [reflexivity|]. destruct b; cbn [setfree map fst].
  - change (notfixed ((v, true) :: h)) with (notfixed h) in *. now rewrite IH.
  - change (notfixed ((v, false) :: h)) with (v :: notfixed h) in *. inversion F; subst. cbn [map]. now rewrite IH, exp_ln.
Qed.
Lemma wt_ln k : forall h, hyper k = Some h -> Forall (fun v => 0 < v) (notfixed h) -> wt k (map ln (notfixed h)) = k.
Proof.
  induction k as [c b|v b|ls bs|s b|k1 IH1 k2 IH2|k1 IH1 k2 IH2|k IH e]; intros h H F; cbn [hyper] in H.
  1,2,4: injection H as <-; cbn [wt]; rewrite setfree_ln by exact F; reflexivity.
  - destruct (Nat.ltb_spec (length bs) (length ls)) as [|L]; [discriminate|]. injection H as <-. cbn [wt]. rewrite setfree_ln by exact F. rewrite combine_fst; [reflexivity|]. rewrite map_length. lia.
  - destruct (hyper k1) as [h1|] eqn:E1; [|discriminate]. destruct (hyper k2) as [h2|] eqn:E2; [|discriminate]. injection H as <-.
    rewrite notfixed_app in *. apply Forall_app in F. destruct F as [F1 F2]. cbn [wt]. rewrite (nfree_hyper k1 h1 E1), (nfree_hyper k2 h2 E2), map_app.
    rewrite firstn_app, skipn_app, !map_length, Nat.sub_diag, firstn_O, app_nil_r, skipn_O. rewrite firstn_all2, skipn_all2, app_nil_l, firstn_all2 by (rewrite map_length; lia).
    rewrite (IH1 h1), (IH2 h2); auto.
  - destruct (hyper k1) as [h1|] eqn:E1; [|discriminate]. destruct (hyper k2) as [h2|] eqn:E2; [|discriminate]. injection H as <-.
    rewrite notfixed_app in *. apply Forall_app in F. destruct F as [F1 F2]. cbn [wt]. rewrite (nfree_hyper k1 h1 E1), (nfree_hyper k2 h2 E2), map_app.
    rewrite firstn_app, skipn_app, !map_length, Nat.sub_diag, firstn_O, app_nil_r, skipn_O. rewrite firstn_all2, skipn_all2, app_nil_l, firstn_all2 by (rewrite map_length; lia).
    rewrite (IH1 h1), (IH2 h2); auto.
  - discriminate.
Qed.

(* the clone is made whenever the lengths agree *)
Fixpoint free_ops {A} (k : kern A) : bool :=
  match k with
  | KSum a b | KProd a b => (free_ops a && free_ops b && negb (nfree a =? 0)%nat && negb (nfree b =? 0)%nat)%bool
  | KExp a _ => free_ops a
  | _ => true
  end.
Lemma matcopy_total : forall th vars st, (length th <= length vars)%nat -> matcopy st vars th <> None.
Proof. induction th as [|t th IH]; intros vars st L; cbn [matcopy]; [discriminate|]. destruct vars as [|a vars]; [cbn in L; lia|]. apply IH. cbn in L. lia. Qed.
Lemma matcopy_to_total st k th : tvars k <> None -> length th = nfree k -> matcopy_to st k th <> None.
Proof. unfold matcopy_to, nfree. destruct (tvars k); [|now intros []]. intros _ L. apply matcopy_total. lia. Qed.
Lemma clone_total ok k : forall st th, hyper k <> None -> length th = nfree k -> ok = true \/ free_ops k = true -> clone ok st k th <> None.
Proof.
  induction k as [a b|a b|ls bs|a b|k1 IH1 k2 IH2|k1 IH1 k2 IH2|k IH e]; intros st th H L F; cbn [clone]; cbv zeta.
  1,2,4: match goal with |- context [matcopy_to ?s ?q ?t] => pose proof (matcopy_to_total s q t) as G; destruct (matcopy_to s q t); [discriminate|exfalso; apply G; auto; [discriminate|]; match goal with H0 : length t = _ |- _ => rewrite H0 end; unfold nfree; cbn; destruct (fixedb b); reflexivity] end.
  - match goal with |- context [matcopy_to ?s ?q ?t] => pose proof (matcopy_to_total s q t) as G; destruct (matcopy_to s q t); [discriminate|exfalso; apply G; auto] end.
    + cbn [tvars hyper] in *. rewrite seq_length. destruct (_ <? _)%nat; [congruence|discriminate].
    + rewrite L. unfold nfree. cbn [tvars hyper] in *. rewrite seq_length. destruct (Nat.ltb_spec (length bs) (length ls)) as [|Hl]; [reflexivity|]. cbn [option_map].
      assert (G2 : forall (l : list nat) (l' : list nat) (m : list bool), length l = length l' -> length (notfixed (combine l m)) = length (notfixed (combine l' m))).
      { induction l as [|x l IHl]; intros [|x' l'] m E; try discriminate; [reflexivity|]. destruct m as [|c m]; [reflexivity|]. cbn in E. cbn [combine].
        destruct c; [exact (IHl l' m ltac:(lia))|]. change (S (length (notfixed (combine l m))) = S (length (notfixed (combine l' m)))). f_equal. apply IHl. lia. }
      apply G2. now rewrite seq_length.
  - cbn [hyper] in H. destruct (hyper k1) as [h1|] eqn:E1; [|congruence]. destruct (hyper k2) as [h2|] eqn:E2; [|congruence].
    rewrite (tvars_hyper _ _ E1), (tvars_hyper _ _ E2). unfold slice2.
    assert (L2 : length th = (length (notfixed h1) + length (notfixed h2))%nat).
    { rewrite L. unfold nfree. cbn [tvars hyper]. rewrite E1, E2. cbn [option_map]. now rewrite notfixed_app, app_length. }
    destruct (Nat.ltb_spec (length th) (length (notfixed h1) + length (notfixed h2))); [lia|]. cbn [orb].
    assert (G : (negb ok && ((length (notfixed h1) =? 0) || (length (notfixed h2) =? 0))%nat)%bool = false).
    { destruct F as [-> |F]; [reflexivity|]. cbn [free_ops] in F. rewrite (nfree_hyper _ _ E1), (nfree_hyper _ _ E2) in F. rewrite !andb_true_iff, !negb_true_iff in F.
      destruct F as [[[_ _] ->] ->]. apply andb_false_r. }
    rewrite G.
    assert (F1 : ok = true \/ free_ops k1 = true) by (destruct F as [F|F]; [auto|right]; cbn [free_ops] in F; rewrite !andb_true_iff in F; tauto).
    assert (F2 : ok = true \/ free_ops k2 = true) by (destruct F as [F|F]; [auto|right]; cbn [free_ops] in F; rewrite !andb_true_iff in F; tauto).
    destruct (clone ok st k1 _) as [[s1 k1']|] eqn:C1; [|exfalso; revert C1; apply IH1; auto; [discriminate|]; rewrite firstn_length, (nfree_hyper _ _ E1); lia].
    destruct (clone ok s1 k2 _) as [[s2 k2']|] eqn:C2; [discriminate|exfalso; revert C2; apply IH2; auto; [discriminate|]; rewrite firstn_length, skipn_length, (nfree_hyper _ _ E2); lia].
  - cbn [hyper] in H. destruct (hyper k1) as [h1|] eqn:E1; [|congruence]. destruct (hyper k2) as [h2|] eqn:E2; [|congruence].
    rewrite (tvars_hyper _ _ E1), (tvars_hyper _ _ E2). unfold slice2.
    assert (L2 : length th = (length (notfixed h1) + length (notfixed h2))%nat).
    { rewrite L. unfold nfree. cbn [tvars hyper]. rewrite E1, E2. cbn [option_map]. now rewrite notfixed_app, app_length. }
    destruct (Nat.ltb_spec (length th) (length (notfixed h1) + length (notfixed h2))); [lia|]. cbn [orb].
    assert (G : (negb ok && ((length (notfixed h1) =? 0) || (length (notfixed h2) =? 0))%nat)%bool = false).
    { destruct F as [-> |F]; [reflexivity|]. cbn [free_ops] in F. rewrite (nfree_hyper _ _ E1), (nfree_hyper _ _ E2) in F. rewrite !andb_true_iff, !negb_true_iff in F.
      destruct F as [[[_ _] ->] ->]. apply andb_false_r. }
    rewrite G.
    assert (F1 : ok = true \/ free_ops k1 = true) by (destruct F as [F|F]; [auto|right]; cbn [free_ops] in F; rewrite !andb_true_iff in F; tauto).
    assert (F2 : ok = true \/ free_ops k2 = true) by (destruct F as [F|F]; [auto|right]; cbn [free_ops] in F; rewrite !andb_true_iff in F; tauto).
    destruct (clone ok st k1 _) as [[s1 k1']|] eqn:C1; [|exfalso; revert C1; apply IH1; auto; [discriminate|]; rewrite firstn_length, (nfree_hyper _ _ E1); lia].
    destruct (clone ok s1 k2 _) as [[s2 k2']|] eqn:C2; [discriminate|exfalso; revert C2; apply IH2; auto; [discriminate|]; rewrite firstn_length, skipn_length, (nfree_hyper _ _ E2); lia].
  - now cbn [hyper] in H.
Qed.
Lemma clone_noexp ok k : forall st th st' k', clone ok st k th = Some (st', k') -> hasexp k' = false.
Proof.
  induction k as [a b|a b|ls bs|a b|k1 IH1 k2 IH2|k1 IH1 k2 IH2|k IH e]; intros st th st' k' H; cbn [clone] in H; cbv zeta in H.
  1-4: destruct (matcopy_to _ _ _); [injection H as _ <-; reflexivity|discriminate].
  - destruct (tvars k1); [|discriminate]. destruct (tvars k2); [|discriminate]. destruct (slice2 _ _ _ _) as [[t1 t2]|]; [|discriminate].
    destruct (clone ok st k1 t1) as [[s1 k1']|] eqn:C1; [|discriminate]. destruct (clone ok s1 k2 t2) as [[s2 k2']|] eqn:C2; [|discriminate].
    injection H as _ <-. cbn [hasexp]. rewrite (IH1 _ _ _ _ C1), (IH2 _ _ _ _ C2). reflexivity.
  - destruct (tvars k1); [|discriminate]. destruct (tvars k2); [|discriminate]. destruct (slice2 _ _ _ _) as [[t1 t2]|]; [|discriminate].
    destruct (clone ok st k1 t1) as [[s1 k1']|] eqn:C1; [|discriminate]. destruct (clone ok s1 k2 t2) as [[s2 k2']|] eqn:C2; [|discriminate].
    injection H as _ <-. cbn [hasexp]. rewrite (IH1 _ _ _ _ C1), (IH2 _ _ _ _ C2). reflexivity.
  - eapply IH; eauto.
Qed.
