(* GaussianNB on reordered samples, features in other units and weights in another unit (C214) *)
From Coq Require Import Reals Qreals Lra.
From Verif Require Import QCommon NBModel NBProofs LabelProofs.
From Verif Require NBProbModel NBProbProofs.
Open Scope Q_scope.

(* ------------------------------------------------------------ weighted samples *)
(* value and weight in other units *)
Definition conv (a b k : Q) (s s' : Q * Q) : Prop := fst s' == a * fst s + b /\ snd s' == k * snd s.
Definition bag_conv (a b k : Q) (l l' : list (Q * Q)) : Prop := exists m, Permutation l' m /\ Forall2 (conv a b k) l m.
Lemma conv_sum a b k (f g : Q * Q -> Q) e l l' : (forall s s', conv a b k s s' -> g s' == e * f s) -> bag_conv a b k l l' -> qsum (map g l') == e * qsum (map f l).
Proof.
  intros H (m & P & F). rewrite (qsum_perm _ _ (Permutation_map g P)). clear P. induction F as [|s s' l m C F IH]; cbn [map]; [rewrite !qsum_nil; ring|].
  rewrite !qsum_cons, IH, (H s s' C). ring.
Qed.
Lemma conv_wsum a b k l l' : bag_conv a b k l l' -> wsum l' == k * wsum l.
Proof. intros H. unfold wsum. apply (conv_sum a b k snd snd k l l'); auto. intros s s' (_ & C). exact C. Qed.
Lemma conv_wmean a b k l l' : ~ k == 0 -> ~ wsum l == 0 -> bag_conv a b k l l' -> wmean l' == a * wmean l + b.
Proof.
  intros Hk Hw H. pose proof (conv_wsum _ _ _ _ _ H) as W. unfold wmean.
  assert (S : qsum (map (fun s => fst s * snd s) l') == k * qsum (map (fun s => (a * fst s + b) * snd s) l)).
  { apply (conv_sum a b k (fun s => (a * fst s + b) * snd s)); auto. intros s s' (C1 & C2). rewrite C1, C2. ring. }
  assert (T : qsum (map (fun s => (a * fst s + b) * snd s) l) == a * qsum (map (fun s => fst s * snd s) l) + b * wsum l).
  { unfold wsum. clear. induction l as [|s l IH]; cbn [map]; [rewrite !qsum_nil; ring|]. rewrite !qsum_cons, IH. ring. }
  rewrite S, T, W. field. auto.
Qed.
Lemma conv_wvar a b k l l' : ~ k == 0 -> ~ wsum l == 0 -> bag_conv a b k l l' -> wvar l' == a * a * wvar l.
Proof.
  intros Hk Hw H. pose proof (conv_wsum _ _ _ _ _ H) as W. pose proof (conv_wmean _ _ _ _ _ Hk Hw H) as M. unfold wvar.
  rewrite (conv_sum a b k (fun s => (fst s - wmean l) * (fst s - wmean l) * snd s) (fun s => (fst s - wmean l') * (fst s - wmean l') * snd s) (k * (a * a)) l l'); auto.
  - rewrite W. field. auto.
  - intros s s' (C1 & C2). rewrite C1, C2, M. ring.
Qed.

(* --------------------------------------------------------------- whole batches *)
(* sample i of b is sample sg i of b', feature c in unit a c with origin b c, weights times k *)
Definition b_conv (sg : nat -> nat) (xc : nat) (a b : nat -> Q) (k : Q) (B B' : batch) : Prop :=
  let n := length (bX B) in
  length (bX B') = n /\ Permutation (map sg (seq 0 n)) (seq 0 n) /\
  (forall i c, (i < n)%nat -> (c < xc)%nat -> cell (bX B') (sg i) c == a c * cell (bX B) i c + b c) /\
  (forall i, (i < n)%nat -> nth (sg i) (bY B') 0%Z = nth i (bY B) 0%Z) /\ (forall i, (i < n)%nat -> wt (bw B') (sg i) == k * wt (bw B) i).
Lemma filter_perm {A} (f : A -> bool) l l' : Permutation l l' -> Permutation (filter f l) (filter f l').
Proof.
  induction 1 as [|x l l' P IH|x y l|l l' l'' P1 I1 P2 I2]; cbn [filter]; auto.
  - destruct (f x); auto.
  - destruct (f x), (f y); auto. apply perm_swap.
  - eapply Permutation_trans; eauto.
Qed.
Lemma filter_map_comm {A B} (f : B -> bool) (g : A -> B) l : filter f (map g l) = map g (filter (fun x => f (g x)) l).
Proof. induction l as [|x l IH]; cbn [map filter]; [reflexivity|]. destruct (f (g x)); cbn [map]; now rewrite IH. Qed.
Lemma conv_select sg xc a b k B B' (keep keep' : nat -> bool) c : b_conv sg xc a b k B B' -> (c < xc)%nat -> (forall i, (i < length (bX B))%nat -> keep' (sg i) = keep i) ->
  bag_conv (a c) (b c) k (map (fun i => (cell (bX B) i c, wt (bw B) i)) (filter keep (seq 0 (length (bX B))))) (map (fun i => (cell (bX B') i c, wt (bw B') i)) (filter keep' (seq 0 (length (bX B'))))).
Proof.
  intros (Ln & P & EX & EY & EW) Hc K. exists (map (fun i => (cell (bX B') (sg i) c, wt (bw B') (sg i))) (filter keep (seq 0 (length (bX B))))). split.
  - rewrite Ln. eapply Permutation_trans; [apply Permutation_map, filter_perm, Permutation_sym, P|]. rewrite filter_map_comm, map_map.
    rewrite (filter_ext_in (fun i => keep' (sg i)) keep); [reflexivity|]. intros i Hi. apply in_seq in Hi. apply K. lia.
  - assert (G : forall l, (forall i, In i l -> (i < length (bX B))%nat) -> Forall2 (conv (a c) (b c) k) (map (fun i => (cell (bX B) i c, wt (bw B) i)) l) (map (fun i => (cell (bX B') (sg i) c, wt (bw B') (sg i))) l)).
    { induction l as [|i l IH]; intros Hl; cbn [map]; constructor; [|apply IH; intros j Hj; apply Hl; now right]. assert (i < length (bX B))%nat by (apply Hl; now left). split; cbn [fst snd]; auto. }
    apply G. intros i Hi. apply filter_In in Hi. destruct Hi as [Hi _]. apply in_seq in Hi. lia.
Qed.
Lemma conv_class sg xc a b k B B' y c : b_conv sg xc a b k B B' -> (c < xc)%nat -> bag_conv (a c) (b c) k (of_class B y c) (of_class B' y c).
Proof. intros H Hc. apply (conv_select _ _ _ _ _ _ _ _ _ _ H Hc). intros i Hi. pose proof H as (_ & _ & _ & EY & _). cbv beta. now rewrite EY. Qed.
Lemma filter_true {A} (l : list A) : filter (fun _ => true) l = l.
Proof. induction l; cbn; congruence. Qed.
Lemma conv_column sg xc a b k B B' c : b_conv sg xc a b k B B' -> (c < xc)%nat -> bag_conv (a c) (b c) k (column B c) (column B' c).
Proof. intros H Hc. pose proof (conv_select _ _ _ _ _ _ _ (fun _ => true) (fun _ => true) c H Hc ltac:(reflexivity)) as T. rewrite !filter_true in T. exact T. Qed.

(* ------------------------------------------------------------------- the fit *)
Lemma fit_prior pr vs X Y sw m : fit (Some pr) vs fresh X Y sw = Some m -> g_prior m = pr.
Proof.
  unfold fit, partial_fit. destruct (negb _ || _ || _)%bool; [discriminate|]. cbv zeta. cbn [g_par fresh].
  destruct (Nat.eqb _ 0 || _)%bool; [discriminate|]. destruct (forallb _ _); [|discriminate]. intros E. injection E as <-. reflexivity.
Qed.
Lemma fit_full priors vs b xc : (0 < xc)%nat -> (0 < length (bY b))%nat -> well_formed xc (bY b) b -> good_priors priors (length (np_unique (bY b))) ->
  exists m p e, fit priors vs fresh (bX b) (bY b) (bw b) = Some m /\ g_par m = Some p /\ g_cls m = np_unique (bY b) /\
    (exists M, e = vs * M /\ (exists c, (c < xc)%nat /\ M = wvar (column b c)) /\ forall c, (c < xc)%nat -> wvar (column b c) <= M) /\
    (forall k y c, nth_error (np_unique (bY b)) k = Some y -> (c < xc)%nat ->
      let l := of_class b y c in
      l <> [] /\ nth k (p_cnt p) 0 == wsum l /\ nth c (nth k (p_mu p) []) 0 == wmean l /\ nth c (nth k (p_va p) []) 0 == wvar l + e) /\
    psize (np_unique (bY b)) xc p /\ match priors with None => g_prior m = map (fun n => 1 / qsum (p_cnt p) * n) (p_cnt p) | Some pr => g_prior m = pr end.
Proof.
  intros XC NY WF GP. pose proof (@first_fit priors vs b xc XC NY WF GP) as (m & p & e & E & EP & EC & EM & MO).
  exists m, p, e. repeat (split; [assumption|]). destruct WF as (LB & WB & CB & SB). destruct (np_unique_spec (bY b)) as [US UI]. set (classes := np_unique (bY b)) in *.
  assert (NC : classes <> []).
  { destruct (bY b) as [|y ys]; [cbn in NY; lia|]. intros Z0. assert (X : In y classes) by (apply UI; now left). rewrite Z0 in X. contradiction. }
  assert (OKb : batch_ok classes xc b) by (split; [auto|]; split; [auto|]; split; [intros y I; now apply UI|auto]).
  destruct (@pfit_spec priors vs classes xc (ss_nodup US) XC fresh b NC (good_priors_ok _ _ GP) OKb I) as (q & prior & E' & PQ & _ & PRI).
  change (fit priors vs fresh (bX b) (bY b) (bw b)) with (partial_fit priors vs fresh (bX b) (bY b) classes false (bw b)) in E.
  rewrite E' in E. injection E as <-. cbn [g_par] in EP. injection EP as <-. cbn [g_prior p_cnt p_mu p_va]. split.
  - apply psize_shift; [exact XC|destruct q; exact PQ].
  - destruct priors as [pr|]; [|now apply PRI]. change prior with (g_prior (mkgnb classes (Some (mkpar (p_cnt q) (p_mu q) (shift (eps_of vs xc b) (p_va q)))) prior (eps_of vs xc b))).
    exact (fit_prior pr vs _ _ _ _ E').
Qed.
Lemma conv_classes sg xc a b k B B' : length (bX B) = length (bY B) -> length (bX B') = length (bY B') -> b_conv sg xc a b k B B' -> np_unique (bY B') = np_unique (bY B).
Proof.
  intros L L' (Ln & P & _ & EY & _). destruct (np_unique_spec (bY B)) as [S I]. destruct (np_unique_spec (bY B')) as [S' I']. apply sorted_lt_unique; auto.
  intros z. rewrite I, I'. split; intros H; apply (In_nth _ _ 0%Z) in H; destruct H as (i & Hi & <-).
  - assert (Hs : In i (map sg (seq 0 (length (bX B))))) by (apply (Permutation_in _ (Permutation_sym P)), in_seq; lia). apply in_map_iff in Hs. destruct Hs as (j & <- & Hj). apply in_seq in Hj. rewrite EY by lia. apply nth_In. lia.
  - rewrite <- EY by lia. apply nth_In. assert (In (sg i) (seq 0 (length (bX B)))) by (apply (Permutation_in _ P), in_map, in_seq; lia). rewrite in_seq in H. lia.
Qed.
Lemma qsum_nth_ext (l l' : list Q) e : length l = length l' -> (forall i, (i < length l)%nat -> nth i l' 0 == e * nth i l 0) -> qsum l' == e * qsum l.
Proof.
  revert l'. induction l as [|x l IH]; intros [|y l'] L H; try discriminate; [rewrite !qsum_nil; ring|]. rewrite !qsum_cons, (IH l'); [|now injection L|intros i Hi; apply (H (S i)); cbn; lia].
  pose proof (H 0%nat ltac:(cbn; lia)) as H0. cbn [nth] in H0. rewrite H0. ring.
Qed.

Lemma fit_units priors vs sg xc a b k B B' : (0 < xc)%nat -> (0 < length (bY B))%nat -> well_formed xc (bY B) B -> well_formed xc (bY B') B' -> good_priors priors (length (np_unique (bY B))) ->
  ~ k == 0 -> b_conv sg xc a b k B B' -> (vs == 0 \/ forall c c', (c < xc)%nat -> (c' < xc)%nat -> a c * a c == a c' * a c') ->
  exists m p m' p', fit priors vs fresh (bX B) (bY B) (bw B) = Some m /\ g_par m = Some p /\ fit priors vs fresh (bX B') (bY B') (bw B') = Some m' /\ g_par m' = Some p' /\
    g_cls m' = g_cls m /\ g_cls m = np_unique (bY B) /\ psize (g_cls m) xc p /\ psize (g_cls m) xc p' /\
    length (g_prior m) = length (g_cls m) /\ length (g_prior m') = length (g_cls m) /\
    (forall i, nth i (g_prior m') 0 == nth i (g_prior m) 0) /\ (forall i, (i < length (g_cls m))%nat -> nth i (p_cnt p') 0 == k * nth i (p_cnt p) 0) /\
    forall i c, (i < length (g_cls m))%nat -> (c < xc)%nat ->
      nth c (nth i (p_mu p') []) 0 == a c * nth c (nth i (p_mu p) []) 0 + b c /\ nth c (nth i (p_va p') []) 0 == a c * a c * nth c (nth i (p_va p) []) 0.
Proof.
  intros XC NY WF WF' GP Hk HC Ha. pose proof (conv_classes _ _ _ _ _ _ _ (proj1 WF) (proj1 WF') HC) as EC.
  assert (NY' : (0 < length (bY B'))%nat) by (destruct HC as (Ln & _); rewrite <- (proj1 WF'), Ln, (proj1 WF); exact NY).
  pose proof (fit_full priors vs B xc XC NY WF GP) as (m & p & e & E & EP & EG & (M & Ee & (c0 & Hc0 & EM) & MM) & MO & PS & PR).
  rewrite <- EC in GP. pose proof (fit_full priors vs B' xc XC NY' WF' GP) as (m' & p' & e' & E' & EP' & EG' & (M' & Ee' & (c1 & Hc1 & EM') & MM') & MO' & PS' & PR'). rewrite EC in *.
  exists m, p, m', p'. repeat (split; [assumption|]). split; [congruence|]. split; [assumption|]. rewrite EG. split; [assumption|]. split; [assumption|].
  assert (OKb : batch_ok (bY B) xc B) by exact WF.
  assert (POS : forall y c, of_class B y c <> [] -> ~ wsum (of_class B y c) == 0).
  { intros y c N. pose proof (wsum_pos (of_class_pos XC y c OKb) N). lra. }
  assert (POSC : forall c, ~ wsum (column B c) == 0).
  { intros c. assert (0 < wsum (column B c)); [|lra]. apply wsum_pos.
    - intros s Hs. unfold column in Hs. apply in_map_iff in Hs. destruct Hs as (i & <- & Hi). cbn [snd]. apply in_seq in Hi. destruct WF as (L & _ & _ & W). destruct (bw B) as [l|]; cbn [wt]; [|lra]. destruct W as [W1 W2]. apply W2, nth_In. lia.
    - unfold column. destruct WF as (L & _). destruct (length (bX B)) eqn:Z; [lia|discriminate]. }
  assert (CNT : forall i, (i < length (np_unique (bY B)))%nat -> nth i (p_cnt p') 0 == k * nth i (p_cnt p) 0).
  { intros i Hi. destruct (nth_error (np_unique (bY B)) i) as [y|] eqn:Ey; [|apply nth_error_None in Ey; lia].
    destruct (MO i y 0%nat Ey XC) as (_ & C & _). destruct (MO' i y 0%nat Ey XC) as (_ & C' & _). rewrite C, C'. apply (conv_wsum (a 0%nat) (b 0%nat)). now apply (conv_class sg xc). }
  assert (PRI : length (g_prior m) = length (np_unique (bY B)) /\ length (g_prior m') = length (np_unique (bY B)) /\ forall i, nth i (g_prior m') 0 == nth i (g_prior m) 0).
  { destruct priors as [pr|]; [rewrite PR, PR'; destruct GP as (GL & _); repeat split; auto; reflexivity|]. rewrite PR, PR', !map_length. destruct PS as (L1 & _). destruct PS' as (L1' & _). rewrite L1, L1'. split; [reflexivity|]. split; [reflexivity|].
    assert (S : qsum (p_cnt p') == k * qsum (p_cnt p)) by (apply qsum_nth_ext; [congruence|]; intros i Hi; apply CNT; lia).
    assert (SP : 0 < qsum (p_cnt p)).
    { assert (NE : p_cnt p <> []) by (intros Z; rewrite Z in L1; destruct (np_unique_spec (bY B)) as [_ UI]; destruct (bY B) as [|y ys]; [cbn in NY; lia|]; assert (X : In y (np_unique (y :: ys))) by (apply UI; now left); destruct (np_unique (y :: ys)); [contradiction|discriminate]).
      assert (AP : forall x, In x (p_cnt p) -> 0 < x).
      { intros x Hx. apply (In_nth _ _ 0) in Hx. destruct Hx as (i & Hi & <-). rewrite L1 in Hi. destruct (nth_error (np_unique (bY B)) i) as [y|] eqn:Ey; [|apply nth_error_None in Ey; lia].
        destruct (MO i y 0%nat Ey XC) as (N & C & _). rewrite C. exact (wsum_pos (of_class_pos XC y 0 OKb) N). }
      destruct (p_cnt p) as [|x l]; [congruence|]. rewrite qsum_cons. assert (0 < x) by (apply AP; now left). assert (0 <= qsum l); [|lra]. clear - AP. induction l as [|z l IH]; [rewrite qsum_nil; lra|]. rewrite qsum_cons.
      assert (0 < z) by (apply AP; right; now left). assert (0 <= qsum l) by (apply IH; intros w [<-|Hw]; apply AP; [now left|right; now right]). lra. }
    intros i. destruct (Nat.lt_ge_cases i (length (np_unique (bY B)))) as [Hi|Hi]; [|rewrite !nth_overflow by (rewrite map_length; lia); reflexivity].
    rewrite (nth_indep (map _ (p_cnt p')) 0 (1 / qsum (p_cnt p') * 0)), (nth_indep (map _ (p_cnt p)) 0 (1 / qsum (p_cnt p) * 0)) by (rewrite map_length; lia).
    rewrite (map_nth (fun n => 1 / qsum (p_cnt p') * n)), (map_nth (fun n => 1 / qsum (p_cnt p) * n)), S, (CNT i Hi). field. split; [lra|auto]. }
  destruct PRI as (PL & PL' & PRI). split; [exact PL|]. split; [exact PL'|]. split; [exact PRI|]. split; [exact CNT|].
  intros i c Hi Hc. destruct (nth_error (np_unique (bY B)) i) as [y|] eqn:Ey; [|apply nth_error_None in Ey; lia].
  destruct (MO i y c Ey Hc) as (N & _ & MU & VA). destruct (MO' i y c Ey Hc) as (_ & _ & MU' & VA'). pose proof (conv_class sg xc a b k B B' y c HC Hc) as BC.
  rewrite MU, MU', VA, VA', (conv_wmean _ _ _ _ _ Hk (POS y c N) BC), (conv_wvar _ _ _ _ _ Hk (POS y c N) BC). split; [reflexivity|].
  assert (EE : e' == a c * a c * e); [|rewrite EE; ring]. rewrite Ee, Ee'. destruct Ha as [V|Ha]; [rewrite V; ring|].
  assert (ME : M' == a c * a c * M); [|rewrite ME; ring].
  pose proof (fun c Hc => conv_wvar _ _ _ _ _ Hk (POSC c) (conv_column sg xc a b k B B' c HC Hc)) as CV.
  apply Qle_antisym.
  - rewrite EM', (CV c1 Hc1), (Ha c1 c Hc1 Hc). pose proof (MM c1 Hc1). rewrite !(Qmult_comm (a c * a c)). apply Qmult_le_compat_r; auto. destruct (Qlt_le_dec (a c) 0); [nra|nra].
  - rewrite EM. rewrite <- (Ha c0 c Hc0 Hc). rewrite <- (CV c0 Hc0). apply MM'. exact Hc0.
Qed.

(* --------------------------------------------------------------- predictions *)
From Coq Require Import Lra.
Import NBProbModel NBProbProofs.
Local Open Scope R_scope.
(* the fitted estimator as PredictProbas sees it *)
Definition real_model (m : gnb) (p : params) : list cls :=
  map (fun i => mkcls (nth i (g_cls m) 0%Z) (Q2R (nth i (g_prior m) 0%Q)) (map Q2R (nth i (p_mu p) [])) (map Q2R (nth i (p_va p) []))) (seq 0 (length (g_cls m))).
(* the same class in other units *)
Definition cls_conv (n : nat) (a b : nat -> R) (c c' : cls) : Prop :=
  c_label c' = c_label c /\ c_prior c' = c_prior c /\ length (c_theta c) = n /\ length (c_sigma c) = n /\ length (c_theta c') = n /\ length (c_sigma c') = n /\
  forall j, (j < n)%nat -> nth j (c_theta c') 0 = a j * nth j (c_theta c) 0 + b j /\ nth j (c_sigma c') 0 = a j * a j * nth j (c_sigma c) 0.
Definition term (x t s : R) : R := - / 2 * ln (2 * PI * s) - / 2 * (x - t) * (x - t) / s.
Lemma nij_cons x t s xs ts ss : nij (x :: xs) (t :: ts) (s :: ss) = term x t s + nij xs ts ss.
Proof. unfold nij, term. cbn [combine fold_left]. rewrite nij_acc. unfold Rminus. ring. Qed.
Lemma term_conv a b x t s : a <> 0 -> 0 < s -> term (a * x + b) (a * t + b) (a * a * s) = term x t s - / 2 * ln (a * a).
Proof.
  intros Ha S. unfold term. assert (0 < a * a) by (destruct (Rdichotomy _ _ Ha); nra). replace (2 * PI * (a * a * s)) with (a * a * (2 * PI * s)) by ring.
  rewrite ln_mult; [|assumption|pose proof PI_RGT_0; nra]. field. split; [lra|auto].
Qed.
(* what each feature adds to every class alike *)
Fixpoint offset (n : nat) (a : nat -> R) : R := match n with O => 0 | S n' => / 2 * ln (a 0%nat * a 0%nat) + offset n' (fun j => a (S j)) end.
Lemma nij_conv n : forall a b x x' th th' sg sg', length x = n -> length x' = n -> length th = n -> length th' = n -> length sg = n -> length sg' = n ->
  (forall j, (j < n)%nat -> a j <> 0) -> (forall s, In s sg -> 0 < s) -> (forall j, (j < n)%nat -> nth j x' 0 = a j * nth j x 0 + b j) ->
  (forall j, (j < n)%nat -> nth j th' 0 = a j * nth j th 0 + b j /\ nth j sg' 0 = a j * a j * nth j sg 0) -> nij x' th' sg' = nij x th sg - offset n a.
Proof.
  induction n as [|n IH]; intros a b [|x0 x] [|x0' x'] [|t0 th] [|t0' th'] [|s0 sg] [|s0' sg']; cbn [length]; intros; try discriminate; [cbn; lra|].
  rewrite !nij_cons. cbn [offset].
  rewrite (IH (fun j => a (S j)) (fun j => b (S j)) x x' th th' sg sg'); try lia.
  - pose proof (H7 0%nat ltac:(lia)) as X0. pose proof (H8 0%nat ltac:(lia)) as [T0 S0]. cbn [nth] in X0, T0, S0. rewrite X0, T0, S0, term_conv; [lra|apply H5; lia|apply H6; now left].
  - intros j Hj. apply H5. lia.
  - intros s Hs. apply H6. now right.
  - intros j Hj. exact (H7 (S j) ltac:(lia)).
  - intros j Hj. exact (H8 (S j) ltac:(lia)).
Qed.
Lemma jll_conv n a b c c' x x' : cls_conv n a b c c' -> (forall j, (j < n)%nat -> a j <> 0) -> cls_ok c -> length x = n -> length x' = n -> (forall j, (j < n)%nat -> nth j x' 0 = a j * nth j x 0 + b j) ->
  jll1 c' x' = jll1 c x - offset n a.
Proof.
  intros (_ & P & L1 & L2 & L3 & L4 & H) Ha (_ & S) Lx Lx' Hx. unfold jll1. rewrite P, (nij_conv n a b x x' (c_theta c) (c_theta c') (c_sigma c) (c_sigma c')); auto. lra.
Qed.
Lemma max_from_shift d l : forall best bv i, max_from best (bv - d) i (map (fun v => v - d) l) = max_from best bv i l.
Proof. induction l as [|v l IH]; intros best bv i; cbn [map max_from]; [reflexivity|]. destruct (Rlt_dec (bv - d) (v - d)), (Rlt_dec bv v); try lra; apply IH. Qed.
Lemma max_idx_shift d l : max_idx (map (fun v => v - d) l) = max_idx l.
Proof. destruct l as [|v l]; [reflexivity|]. cbn [map max_idx]. apply max_from_shift. Qed.
Lemma rmax_shift d l : l <> [] -> rmax (map (fun v => v - d) l) = rmax l - d.
Proof.
  destruct l as [|v l]; [congruence|]. intros _. cbn [map rmax]. revert v. induction l as [|w l IH]; intros v; cbn [map fold_left]; [reflexivity|]. rewrite <- IH. f_equal.
  unfold Rmax. destruct (Rle_dec (v - d) (w - d)), (Rle_dec v w); lra.
Qed.
Lemma lse_shift d l : l <> [] -> lse (map (fun v => v - d) l) = lse l - d.
Proof.
  intros N. unfold lse. rewrite (rmax_shift d l N), map_map.
  rewrite (map_ext (fun x => exp (x - d - (rmax l - d))) (fun v => exp (v - rmax l))) by (intros v; f_equal; lra). lra.
Qed.
Lemma predictions_conv n a b M M' x x' : M <> [] -> Forall2 (cls_conv n a b) M M' -> (forall j, (j < n)%nat -> a j <> 0) -> (forall c, In c M -> cls_ok c) ->
  length x = n -> length x' = n -> (forall j, (j < n)%nat -> nth j x' 0 = a j * nth j x 0 + b j) ->
  predict M' x' = predict M x /\ log_probas M' x' = log_probas M x /\ probas M' x' = probas M x.
Proof.
  intros NE F Ha OK Lx Lx' Hx.
  assert (J : jll M' x' = map (fun v => v - offset n a) (jll M x)).
  { clear NE. unfold jll. induction F as [|c c' M M' C F IH]; cbn [map]; [reflexivity|]. rewrite IH by (intros k Hk; apply OK; now right). f_equal. apply (jll_conv n a b); auto. apply OK. now left. }
  assert (NJ : jll M x <> []) by (unfold jll; destruct M; [congruence|discriminate]).
  assert (LP : log_probas M' x' = log_probas M x).
  { unfold log_probas. rewrite J, (lse_shift _ _ NJ), map_map. apply map_ext. intros v. lra. }
  split; [|split; [exact LP|unfold probas; now rewrite LP]].
  unfold predict. rewrite J, max_idx_shift. generalize (max_idx (jll M x)). clear - F. induction F as [|c c' M M' C F IH]; intros [|i]; cbn [nth]; auto. apply C.
Qed.
Lemma nth_map_Q2R l j : nth j (map Q2R l) 0 = Q2R (nth j l 0%Q).
Proof. rewrite <- (map_nth Q2R). f_equal. unfold Q2R. cbn. lra. Qed.
Lemma model_conv xc a b m p m' p' : (forall i, (nth i (g_prior m') 0 == nth i (g_prior m) 0)%Q) -> g_cls m' = g_cls m -> psize (g_cls m) xc p -> psize (g_cls m) xc p' ->
  (forall i c, (i < length (g_cls m))%nat -> (c < xc)%nat -> (nth c (nth i (p_mu p') []) 0 == a c * nth c (nth i (p_mu p) []) 0 + b c)%Q /\ (nth c (nth i (p_va p') []) 0 == a c * a c * nth c (nth i (p_va p) []) 0)%Q) ->
  Forall2 (cls_conv xc (fun c => Q2R (a c)) (fun c => Q2R (b c))) (real_model m p) (real_model m' p').
Proof.
  intros PR EC (_ & _ & _ & S) (_ & _ & _ & S') H. unfold real_model. rewrite EC.
  assert (G : forall l, (forall i, In i l -> (i < length (g_cls m))%nat) -> Forall2 (cls_conv xc (fun c => Q2R (a c)) (fun c => Q2R (b c)))
    (map (fun i => mkcls (nth i (g_cls m) 0%Z) (Q2R (nth i (g_prior m) 0%Q)) (map Q2R (nth i (p_mu p) [])) (map Q2R (nth i (p_va p) []))) l)
    (map (fun i => mkcls (nth i (g_cls m) 0%Z) (Q2R (nth i (g_prior m') 0%Q)) (map Q2R (nth i (p_mu p') [])) (map Q2R (nth i (p_va p') []))) l)).
  { induction l as [|i l IH]; intros Hl; cbn [map]; constructor; [|apply IH; intros j Hj; apply Hl; now right]. assert (Hi : (i < length (g_cls m))%nat) by (apply Hl; now left).
    destruct (S i Hi) as [S1 S2], (S' i Hi) as [S1' S2']. unfold cls_conv. cbn [c_label c_prior c_theta c_sigma]. rewrite !map_length.
    repeat (split; [first [reflexivity|assumption|apply Qeq_eqR, PR]|]).
    intros j Hj. destruct (H i j Hi Hj) as [H1 H2]. rewrite !nth_map_Q2R, <- !Q2R_mult, <- Q2R_plus. split; now apply Qeq_eqR. }
  apply G. intros i Hi. apply in_seq in Hi. lia.
Qed.
