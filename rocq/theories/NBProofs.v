(* Proofs about NBModel.v. *)
From Verif Require Import QCommon NBModel.
From Coq Require Import Sorted.
Set Implicit Arguments.

(* ------------------------------------------------------- weighted moments *)
Definition wsum (l : list (Q * Q)) : Q := qsum (map snd l).
Definition wmean (l : list (Q * Q)) : Q := qsum (map (fun s => fst s * snd s) l) / wsum l.
Definition wvar (l : list (Q * Q)) : Q := qsum (map (fun s => (fst s - wmean l) * (fst s - wmean l) * snd s) l) / wsum l.
(* value and weight of the rows of class y in column c *)
Definition of_class (b : batch) (y : Z) (c : nat) : list (Q * Q) :=
  map (fun i => (cell (bX b) i c, wt (bw b) i)) (filter (fun j => Z.eqb (nth j (bY b) 0%Z) y) (seq 0 (length (bX b)))).
Definition samples (bs : list batch) (y : Z) (c : nat) : list (Q * Q) := flat_map (fun b => of_class b y c) bs.

Lemma meanvar_spec b y c : meanvar (bX b) (bw b) (fun j => Z.eqb (nth j (bY b) 0%Z) y) c = (wmean (of_class b y c), wvar (of_class b y c), wsum (of_class b y c)).
Proof. unfold meanvar, wvar, wmean, wsum, of_class. rewrite !map_map. cbn [fst snd]. reflexivity. Qed.

Definition s2 (l : list (Q * Q)) : Q := qsum (map (fun s => fst s * fst s * snd s) l).
Definition s1 (l : list (Q * Q)) : Q := qsum (map (fun s => fst s * snd s) l).
Lemma centred (l : list (Q * Q)) m : qsum (map (fun s => (fst s - m) * (fst s - m) * snd s) l) == s2 l - 2 * m * s1 l + m * m * wsum l.
Proof.
  unfold s2, s1, wsum. induction l as [|x l IH]; cbn [map]; [rewrite !qsum_nil; ring|]. rewrite !qsum_cons, IH. ring.
Qed.
Lemma wvar_eq l : ~ wsum l == 0 -> wvar l == s2 l / wsum l - (s1 l / wsum l) * (s1 l / wsum l).
Proof. intros N. unfold wvar. rewrite centred. unfold wmean. fold (s1 l). field. exact N. Qed.
Lemma wsum_app l l' : wsum (l ++ l') == wsum l + wsum l'.
Proof. unfold wsum. now rewrite map_app, qsum_app. Qed.
Lemma s1_app l l' : s1 (l ++ l') == s1 l + s1 l'.
Proof. unfold s1. now rewrite map_app, qsum_app. Qed.
Lemma s2_app l l' : s2 (l ++ l') == s2 l + s2 l'.
Proof. unfold s2. now rewrite map_app, qsum_app. Qed.
Lemma wmean_app l l' : 0 < wsum l -> 0 < wsum l' -> wmean (l ++ l') == (wsum l * wmean l + wsum l' * wmean l') / (wsum l + wsum l').
Proof.
  intros A B. unfold wmean. fold (s1 l) (s1 l') (s1 (l ++ l')). rewrite s1_app, wsum_app. field. repeat split; lra.
Qed.
Lemma wvar_app l l' : 0 < wsum l -> 0 < wsum l' ->
  wvar (l ++ l') == (wsum l * wvar l + wsum l' * wvar l' + wsum l * wsum l' / (wsum l + wsum l') * ((wmean l - wmean l') * (wmean l - wmean l'))) / (wsum l + wsum l').
Proof.
  intros A B. rewrite !wvar_eq by (rewrite ?wsum_app; lra). unfold wmean. fold (s1 l) (s1 l'). rewrite s1_app, s2_app, wsum_app. field. repeat split; lra.
Qed.
Definition wpos (l : list (Q * Q)) : Prop := forall s, In s l -> 0 < snd s.
Lemma wsum_pos l : wpos l -> l <> [] -> 0 < wsum l.
Proof.
  intros P N. destruct l as [|s l]; [congruence|]. unfold wsum. cbn [map]. rewrite qsum_cons.
  assert (0 < snd s) by (apply P; now left). assert (0 <= qsum (map snd l)); [|lra].
  apply qsum_nonneg. intros x I. apply in_map_iff in I. destruct I as (t & <- & I). apply Qlt_le_weak, P. now right.
Qed.

(* ------------------------------------------------------------- np_unique *)
Lemma zins_in x l z : In z (zins x l) <-> z = x \/ In z l.
Proof.
  induction l as [|y l IH]; cbn [zins]; [cbn; intuition|]. destruct (Z.ltb_spec x y); [cbn; intuition|].
  destruct (Z.eqb_spec x y) as [->|]; cbn; [|rewrite IH]; intuition (subst; auto).
Qed.
Lemma zins_sorted x l : StronglySorted Z.lt l -> StronglySorted Z.lt (zins x l).
Proof.
  induction 1 as [|y l S IH F]; cbn [zins]; [repeat constructor|].
  destruct (Z.ltb_spec x y).
  - constructor; [constructor; auto|]. constructor; [auto|]. rewrite Forall_forall in *. intros z I. specialize (F z I). lia.
  - destruct (Z.eqb_spec x y); [constructor; auto|]. constructor; [auto|]. rewrite Forall_forall in *. intros z I. apply zins_in in I. destruct I as [->|I]; [lia|auto].
Qed.
Lemma np_unique_spec l : StronglySorted Z.lt (np_unique l) /\ forall z, In z (np_unique l) <-> In z l.
Proof.
  unfold np_unique. assert (G : forall l a, StronglySorted Z.lt a -> StronglySorted Z.lt (fold_left (fun a x => zins x a) l a) /\ forall z, In z (fold_left (fun a x => zins x a) l a) <-> In z a \/ In z l).
  { clear. induction l as [|x l IH]; intros a S; cbn [fold_left]; [split; [auto|cbn; intuition]|].
    destruct (IH (zins x a) (zins_sorted x S)) as [S' I']. split; [exact S'|]. intros z. rewrite I', zins_in. cbn. intuition. }
  destruct (G l [] (SSorted_nil _)) as [S I]. split; [exact S|]. intros z. rewrite I. cbn. intuition.
Qed.
Lemma ss_nodup l : StronglySorted Z.lt l -> NoDup l.
Proof. induction 1 as [|x l S IH F]; constructor; auto. intros I. rewrite Forall_forall in F. specialize (F x I). lia. Qed.

(* --------------------------------------------------------------- class_of *)
Lemma class_of_some cls y k : class_of cls y = Some k -> nth_error cls k = Some y.
Proof.
  revert k. induction cls as [|x cls IH]; intros k H; cbn in H; [discriminate|].
  destruct (class_of cls y) as [j|]; [injection H as <-; cbn; auto|]. destruct (Z.eqb_spec x y); [|discriminate]. injection H as <-. cbn. congruence.
Qed.
Lemma class_of_none cls y : class_of cls y = None -> ~ In y cls.
Proof.
  induction cls as [|x cls IH]; cbn; intros H; [auto|]. destruct (class_of cls y); [discriminate|]. destruct (Z.eqb_spec x y); [discriminate|]. intuition.
Qed.
Lemma class_of_nth cls y k : NoDup cls -> nth_error cls k = Some y -> class_of cls y = Some k.
Proof.
  intros N E. destruct (class_of cls y) as [j|] eqn:C.
  - apply class_of_some in C. f_equal. rewrite NoDup_nth_error in N. apply N; [apply nth_error_Some; congruence|congruence].
  - apply class_of_none in C. exfalso. apply C. eapply nth_error_In, E.
Qed.

(* ------------------------------------------------------------- one class *)
Lemma nth_upd {A} (d : A) l i j v : (i < length l)%nat -> nth j (upd l i v) d = if Nat.eqb i j then v else nth j l d.
Proof.
  revert i j. induction l as [|x l IH]; intros [|i] [|j] H; cbn [length] in H; try lia; cbn [upd nth Nat.eqb]; auto. apply IH. lia.
Qed.
Lemma cols_spec nP nN (f : nat -> Q * Q * Q) n : forall mu va, (n <= length mu)%nat -> length va = length mu ->
  let r := fold_left (fun s c => let '(nm, nv, _) := f c in upd_col nP nN nm nv c s) (seq 0 n) (mu, va) in
  length (fst r) = length mu /\ length (snd r) = length mu /\
  forall c, nth c (fst r) 0 = (if Nat.ltb c n then (nP * nth c mu 0 + nN * fst (fst (f c))) / (nP + nN) else nth c mu 0) /\
    nth c (snd r) 0 = (if Nat.ltb c n then
       (nP * nth c va 0 + nN * snd (fst (f c)) + nN * nP / (nP + nN) * (nth c (fst r) 0 - fst (fst (f c))) * (nth c (fst r) 0 - fst (fst (f c)))) / (nP + nN)
       else nth c va 0).
Proof.
  intros mu va L E. cbv zeta. induction n as [|n IH].
  - cbn [seq fold_left fst snd]. split; [auto|]. split; [auto|]. intros c. split; reflexivity.
  - rewrite seq_S, fold_left_app. cbn [fold_left Nat.add]. specialize (IH ltac:(lia)).
    destruct (fold_left _ (seq 0 n) (mu, va)) as [mu1 va1]. cbn [fst snd] in IH. destruct IH as (L1 & L2 & IH).
    destruct (f n) as [[nm nv] nn] eqn:F. unfold upd_col. cbn [fst snd].
    split; [rewrite upd_length; auto|]. split; [rewrite upd_length; auto|].
    assert (LT1 : forall c, Nat.ltb c (S n) = (Nat.ltb c n || Nat.eqb n c)%bool).
    { intros c. destruct (Nat.ltb_spec c (S n)), (Nat.ltb_spec c n), (Nat.eqb_spec n c); cbn; auto; lia. }
    intros c. rewrite !nth_upd by lia. rewrite Nat.eqb_refl. destruct (IH c) as [I1 I2]. destruct (IH n) as [J1 J2].
    rewrite Nat.ltb_irrefl in J1, J2. rewrite LT1. destruct (Nat.eqb_spec n c) as [<-|NC].
    + rewrite orb_true_r, F. cbn [fst snd]. rewrite J1, J2. split; reflexivity.
    + rewrite orb_false_r. split; [exact I1|exact I2].
Qed.

Lemma of_class_nil b y c : length (bX b) = length (bY b) -> of_class b y c = [] <-> ~ In y (bY b).
Proof.
  intros LEN. unfold of_class. split.
  - intros H I. apply map_eq_nil in H. apply (In_nth _ _ 0%Z) in I. destruct I as (i & I & E).
    assert (X : In i (filter (fun j => Z.eqb (nth j (bY b) 0%Z) y) (seq 0 (length (bX b))))) by (apply filter_In; split; [apply in_seq; lia|now apply Z.eqb_eq]).
    rewrite H in X. contradiction.
  - intros N. destruct (filter _ _) as [|i l] eqn:F; [reflexivity|]. exfalso. apply N.
    assert (X : In i (i :: l)) by now left. rewrite <- F in X. apply filter_In in X. destruct X as [X1 X2]. apply in_seq in X1. apply Z.eqb_eq in X2. rewrite <- X2. apply nth_In. lia.
Qed.

Section Classes.
  Variables (b : batch) (classes : list Z) (xc : nat).
  Hypothesis ND : NoDup classes.
  Hypothesis LEN : length (bX b) = length (bY b).
  Hypothesis WX : width (bX b) = xc.

  Definition psize (p : params) : Prop :=
    length (p_cnt p) = length classes /\ length (p_mu p) = length classes /\ length (p_va p) = length classes /\
    (forall k, (k < length classes)%nat -> length (nth k (p_mu p) []) = xc /\ length (nth k (p_va p) []) = xc).


  (* the row of class k after an update from row (n, mu, va) with the samples of y *)
  Definition row_upd (k : nat) (y : Z) (p q : params) : Prop :=
    nth k (p_cnt q) 0 = nth k (p_cnt p) 0 + wsum (of_class b y 0) /\
    forall c, (c < xc)%nat ->
      let nP := nth k (p_cnt p) 0 in let nN := wsum (of_class b y 0) in
      let mu := nth c (nth k (p_mu p) []) 0 in let mu' := nth c (nth k (p_mu q) []) 0 in let nm := wmean (of_class b y c) in
      mu' = (nP * mu + nN * nm) / (nP + nN) /\
      nth c (nth k (p_va q) []) 0 = (nP * nth c (nth k (p_va p) []) 0 + nN * wvar (of_class b y c) + nN * nP / (nP + nN) * (mu' - nm) * (mu' - nm)) / (nP + nN).
  Definition row_same (k : nat) (p q : params) : Prop :=
    nth k (p_cnt q) 0 = nth k (p_cnt p) 0 /\ nth k (p_mu q) [] = nth k (p_mu p) [] /\ nth k (p_va q) [] = nth k (p_va p) [].

  Lemma upd_class_spec p y k : psize p -> nth_error classes k = Some y -> In y (bY b) ->
    let q := upd_class (bX b) (bY b) (bw b) classes p y in
    psize q /\ row_upd k y p q /\ forall j, j <> k -> row_same j p q.
  Proof.
    intros (L1 & L2 & L3 & L4) EK IY. cbv zeta. unfold upd_class. rewrite (class_of_nth _ ND EK).
    assert (KL : (k < length classes)%nat) by (apply nth_error_Some; congruence).
    destruct (L4 k KL) as [M1 M2]. unfold update_mv.
    assert (NE : of_class b y 0 <> []) by (intros X; apply (@of_class_nil b y 0%nat LEN) in X; contradiction).
    destruct (Nat.eqb_spec (length (filter (fun j => Z.eqb (nth j (bY b) 0%Z) y) (seq 0 (length (bX b))))) 0) as [E0|E0].
    { exfalso. apply NE. unfold of_class. destruct (filter _ _); [reflexivity|discriminate]. }
    rewrite meanvar_spec. cbn [snd]. rewrite WX.
    pose proof (@cols_spec (nth k (p_cnt p) 0) (wsum (of_class b y 0)) (meanvar (bX b) (bw b) (fun j => Z.eqb (nth j (bY b) 0%Z) y)) xc (nth k (p_mu p) []) (nth k (p_va p) []) ltac:(lia) ltac:(lia)) as CS.
    cbv zeta in CS. destruct (fold_left _ (seq 0 xc) _) as [mu' va']. cbn [fst snd] in CS. destruct CS as (K1 & K2 & CS).
    unfold psize, row_upd, row_same. cbn [p_cnt p_mu p_va]. rewrite !upd_length.
    split; [|split].
    - split; [auto|]. split; [auto|]. split; [auto|]. intros j J. rewrite !nth_upd by lia. destruct (Nat.eqb_spec k j) as [<-|]; [lia|auto].
    - rewrite !nth_upd by lia. rewrite Nat.eqb_refl. split; [reflexivity|]. intros c C. destruct (CS c) as [C1 C2]. cbv zeta.
      destruct (Nat.ltb_spec c xc); [|lia]. rewrite meanvar_spec in C1, C2. cbn [fst snd] in C1, C2. split; [exact C1|exact C2].
    - intros j J. rewrite !nth_upd by lia. destruct (Nat.eqb_spec k j); [congruence|]. auto.
  Qed.
  Lemma all_classes_spec ys : NoDup ys -> (forall y, In y ys -> In y classes /\ In y (bY b)) -> forall p, psize p ->
    let q := fold_left (upd_class (bX b) (bY b) (bw b) classes) ys p in
    psize q /\ forall k y, nth_error classes k = Some y -> (In y ys -> row_upd k y p q) /\ (~ In y ys -> row_same k p q).
  Proof.
    induction 1 as [|y ys NI N IH]; intros OK p PS; cbv zeta; cbn [fold_left].
    - split; [exact PS|]. intros k y E. split; [intros []|]. intros _. unfold row_same. auto.
    - destruct (OK y (or_introl eq_refl)) as [IC IY]. apply In_nth_error in IC. destruct IC as [k EK].
      destruct (@upd_class_spec p y k PS EK IY) as (PS1 & RU & RS).
      set (p1 := upd_class (bX b) (bY b) (bw b) classes p y) in *.
      destruct (IH ltac:(intros z I; apply OK; now right) p1 PS1) as [PQ H]. split; [exact PQ|].
      intros j z EJ. destruct (H j z EJ) as [H1 H2]. split.
      + intros [<-|I].
        * assert (j = k). { rewrite NoDup_nth_error in ND. apply ND; [apply nth_error_Some; congruence|congruence]. } subst j.
          specialize (H2 NI). unfold row_upd, row_same in *. destruct H2 as (-> & -> & ->). exact RU.
        * assert (JK : j <> k) by (intros ->; rewrite EJ in EK; injection EK as ->; contradiction).
          specialize (H1 I). specialize (RS j JK). unfold row_upd, row_same in *. destruct RS as (R1 & R2 & R3). rewrite R1, R2, R3 in H1. exact H1.
      + intros NZ. assert (JK : j <> k) by (intros ->; rewrite EJ in EK; injection EK as ->; apply NZ; now left).
        specialize (H2 ltac:(intros I; apply NZ; now right)). specialize (RS j JK). unfold row_same in *. intuition congruence.
  Qed.
End Classes.

(* ------------------------------------------------------------ the history *)
Section Hist.
  Variables (priors : option (list Q)) (vs : Q) (classes : list Z) (xc : nat).
  Hypothesis ND : NoDup classes.
  Hypothesis XC : (0 < xc)%nat.
  Definition batch_ok (b : batch) : Prop :=
    length (bX b) = length (bY b) /\ width (bX b) = xc /\ (forall y, In y (bY b) -> In y classes) /\
    match bw b with None => True | Some l => (length (bX b) <= length l)%nat /\ forall w, In w l -> 0 < w end.

  Lemma of_class_pos b y c : batch_ok b -> wpos (of_class b y c).
  Proof.
    intros (L & _ & _ & W) s I. unfold of_class in I. apply in_map_iff in I. destruct I as (i & <- & I). apply filter_In in I. destruct I as [I _]. apply in_seq in I. cbn [snd].
    unfold wt. destruct (bw b) as [l|]; [|lra]. destruct W as [W1 W2]. apply W2, nth_In. lia.
  Qed.
  Lemma samples_pos bs y c : (forall b, In b bs -> batch_ok b) -> wpos (samples bs y c).
  Proof. intros OK s I. unfold samples in I. apply in_flat_map in I. destruct I as (b & B & I). eapply of_class_pos; eauto. Qed.
  Lemma of_class_wsum b y c c' : wsum (of_class b y c) = wsum (of_class b y c').
  Proof. unfold wsum, of_class. rewrite !map_map. reflexivity. Qed.
  Lemma samples_snoc bs b y c : samples (bs ++ [b]) y c = samples bs y c ++ of_class b y c.
  Proof. unfold samples. rewrite flat_map_app. cbn. now rewrite app_nil_r. Qed.
  Lemma samples_nil bs y c c' : samples bs y c = [] -> samples bs y c' = [].
  Proof.
    unfold samples. induction bs as [|b bs IH]; cbn [flat_map]; auto. intros H. apply app_eq_nil in H. destruct H as [H1 H2].
    rewrite (IH H2), app_nil_r. unfold of_class in *. apply map_eq_nil in H1. now rewrite H1.
  Qed.

  (* the class means of all batches with samples of the class agree *)
  Definition same_means (bs : list batch) (y : Z) (c : nat) : Prop :=
    exists m, forall b, In b bs -> of_class b y c <> [] -> wmean (of_class b y c) == m.

  Definition pinv (bs : list batch) (p : params) : Prop :=
    psize classes xc p /\ forall k y c, nth_error classes k = Some y -> (c < xc)%nat ->
      let l := samples bs y c in
      nth k (p_cnt p) 0 == wsum l /\ (l <> [] -> nth c (nth k (p_mu p) []) 0 == wmean l) /\
      (vs == 0 -> l <> [] -> nth c (nth k (p_va p) []) 0 <= wvar l /\ (same_means bs y c -> nth c (nth k (p_va p) []) 0 == wvar l)).

  Lemma wmean_single l : wmean ([] ++ l) = wmean l. Proof. reflexivity. Qed.
  Lemma same_means_app bs b y c : (forall b, In b bs -> batch_ok b) -> same_means (bs ++ [b]) y c -> same_means bs y c /\
    (samples bs y c <> [] -> of_class b y c <> [] -> wmean (samples bs y c) == wmean (of_class b y c)).
  Proof.
    intros OK (m & H). split.
    { exists m. intros b' I. apply H. apply in_or_app. now left. }
    intros NE NB. rewrite (H b) by (auto; apply in_or_app; right; now left).
    assert (G : forall bs, (forall b, In b bs -> batch_ok b) -> (forall b', In b' bs -> of_class b' y c <> [] -> wmean (of_class b' y c) == m) -> samples bs y c <> [] -> wmean (samples bs y c) == m).
    { clear -XC. induction bs as [|b bs IH] using rev_ind; intros OK H N; [now destruct N|]. rewrite samples_snoc in *.
      destruct (of_class b y c) as [|s l] eqn:E; [rewrite app_nil_r in *; apply IH; auto; intros; [apply OK|apply H; auto]; apply in_or_app; now left|].
      assert (EB : wmean (s :: l) == m) by (rewrite <- E; apply H; [apply in_or_app; right; now left|rewrite E; discriminate]).
      destruct (samples bs y c) as [|t l'] eqn:ES; [exact EB|]. rewrite <- E, <- ES in *.
      assert (P1 : 0 < wsum (samples bs y c)) by (apply wsum_pos; [apply samples_pos; intros; apply OK, in_or_app; now left|rewrite ES; discriminate]).
      assert (P2 : 0 < wsum (of_class b y c)) by (apply wsum_pos; [apply of_class_pos, OK, in_or_app; right; now left|rewrite E; discriminate]).
      rewrite wmean_app by auto. rewrite EB, IH; [field; lra| | |rewrite ES; discriminate].
      - intros; apply OK, in_or_app; now left.
      - intros; apply H; auto; apply in_or_app; now left. }
    apply G; auto. intros b' I. apply H. apply in_or_app. now left.
  Qed.

  Lemma pinv_step bs b p q : (forall b', In b' (bs ++ [b]) -> batch_ok b') -> pinv bs p ->
    (forall k y, nth_error classes k = Some y -> (In y (bY b) -> row_upd b xc k y p q) /\ (~ In y (bY b) -> row_same k p q)) -> psize classes xc q -> pinv (bs ++ [b]) q.
  Proof.
    intros OK [PS H] R PQ. split; [exact PQ|]. intros k y c EK C. cbv zeta. rewrite samples_snoc.
    assert (OKb : batch_ok b) by (apply OK, in_or_app; right; now left).
    assert (OKs : forall b, In b bs -> batch_ok b) by (intros; apply OK, in_or_app; now left).
    assert (OKb2 := OKb). destruct OKb2 as (LB & WB & _ & _).
    destruct (R k y EK) as [R1 R2]. destruct (H k y c EK C) as (H1 & H2 & H3).
    destruct (in_dec Z.eq_dec y (bY b)) as [I|I].
    - assert (NB : of_class b y c <> []) by (intros X; apply (@of_class_nil b y c LB) in X; contradiction).
      assert (PB : 0 < wsum (of_class b y c)) by (apply wsum_pos; [now apply of_class_pos|exact NB]).
      destruct (R1 I) as [C1 C2]. specialize (C2 c C). cbv zeta in C2. destruct C2 as [M V]. rewrite (of_class_wsum b y 0 c) in *.
      split; [rewrite C1, H1, wsum_app; reflexivity|].
      destruct (samples bs y c) as [|s l] eqn:ES.
      + assert (Z0 : nth k (p_cnt p) 0 == 0) by (rewrite H1; reflexivity). cbn [app].
        split; [intros _; rewrite M, Z0; field; lra|]. intros V0 _.
        assert (VE : nth c (nth k (p_va q) []) 0 == wvar (of_class b y c)) by (rewrite V, Z0; field; lra).
        split; [rewrite VE; lra|intros _; exact VE].
      + rewrite <- ES in *. assert (NS : samples bs y c <> []) by (rewrite ES; discriminate).
        assert (PP : 0 < wsum (samples bs y c)) by (apply wsum_pos; [now apply samples_pos|exact NS]).
        specialize (H2 NS). assert (MQ : nth c (nth k (p_mu q) []) 0 == wmean (samples bs y c ++ of_class b y c)) by (rewrite wmean_app, M, H1, H2 by auto; reflexivity).
        split; [intros _; exact MQ|]. intros V0 _. destruct (H3 V0 NS) as [H4 H5].
        set (n := wsum (samples bs y c)) in *. set (n' := wsum (of_class b y c)) in *. set (d := wmean (samples bs y c) - wmean (of_class b y c)).
        assert (VQ : nth c (nth k (p_va q) []) 0 == (n * nth c (nth k (p_va p) []) 0 + n' * wvar (of_class b y c) + n' * n / (n + n') * ((n / (n + n')) * (n / (n + n')) * (d * d))) / (n + n')).
        { rewrite V, M, H1, H2. unfold d. field. lra. }
        rewrite VQ, wvar_app by auto. fold n n' d. split.
        * apply Qmult_le_compat_r; [|apply Qlt_le_weak, Qinv_lt_0_compat; lra].
          assert (R0 : 0 <= n / (n + n') <= 1) by (split; [apply Qle_shift_div_l; lra|apply Qle_shift_div_r; lra]).
          assert (D0 : 0 <= d * d) by nra.
          assert (RR : n / (n + n') * (n / (n + n')) * (d * d) <= d * d).
          { assert (n / (n + n') * (n / (n + n')) <= 1) by nra. assert (0 <= n / (n + n') * (n / (n + n'))) by nra. nra. }
          assert (W : 0 <= n * n' / (n + n')) by (apply Qle_shift_div_l; [lra|]; nra).
          assert (NN : n * nth c (nth k (p_va p) []) 0 <= n * wvar (samples bs y c)) by (apply Qmult_le_l; auto).
          setoid_replace (n' * n / (n + n')) with (n * n' / (n + n')) by (field; lra).
          assert (n * n' / (n + n') * (n / (n + n') * (n / (n + n')) * (d * d)) <= n * n' / (n + n') * (d * d)).
          { destruct (Qeqb_spec (n * n' / (n + n')) 0) as [E|E]; [rewrite !E; lra|]. apply Qmult_le_l; [lra|exact RR]. }
          lra.
        * intros SM. destruct (@same_means_app bs b y c OKs SM) as [S1 S2]. specialize (H5 S1). assert (D0 : d == 0) by (unfold d; rewrite (S2 NS NB); ring).
          rewrite H5, D0. field. lra.
    - assert (NB : of_class b y c = []) by (apply of_class_nil; auto). rewrite NB, app_nil_r.
      destruct (R2 I) as (-> & -> & ->). split; [exact H1|]. split; [exact H2|]. intros V0 NS. destruct (H3 V0 NS) as [H4 H5]. split; [exact H4|].
      intros SM. apply H5. now apply (@same_means_app bs b y c).
  Qed.

  Lemma shift_nth e va k c : (k < length va)%nat -> (c < length (nth k va []))%nat -> nth c (nth k (shift e va) []) 0 = nth c (nth k va []) 0 + e.
  Proof.
    intros K C. unfold shift. rewrite (nth_indep _ [] (map (fun v => v + e) [])) by now rewrite map_length. rewrite map_nth.
    rewrite (nth_indep _ 0 (0 + e)) by now rewrite map_length. now rewrite (map_nth (fun v => v + e)).
  Qed.
  Lemma psize_shift e p : psize classes xc p -> psize classes xc (mkpar (p_cnt p) (p_mu p) (shift e (p_va p))).
  Proof.
    intros (L1 & L2 & L3 & L4). unfold psize. cbn [p_cnt p_mu p_va]. unfold shift at 1. rewrite map_length.
    split; [exact L1|]. split; [exact L2|]. split; [exact L3|]. intros k K. destruct (L4 k K) as [M1 M2]. split; [exact M1|].
    unfold shift. rewrite (nth_indep _ [] (map (fun v => v + e) [])) by (rewrite map_length; lia). rewrite map_nth, map_length. exact M2.
  Qed.
  Lemma pinv_shift e bs p : (vs == 0 -> e == 0) -> pinv bs p -> pinv bs (mkpar (p_cnt p) (p_mu p) (shift e (p_va p))).
  Proof.
    intros E0 [PS H]. split; [now apply psize_shift|]. intros k y c EK C. cbv zeta. cbn [p_cnt p_mu p_va]. destruct (H k y c EK C) as (H1 & H2 & H3).
    split; [exact H1|]. split; [exact H2|]. intros V0 NS. destruct (H3 V0 NS) as [H4 H5]. destruct PS as (L1 & L2 & L3 & L4).
    assert (KL : (k < length classes)%nat) by (apply nth_error_Some; congruence). destruct (L4 k KL) as [M1 M2].
    rewrite shift_nth by lia. rewrite (E0 V0). split; [lra|]. intros SM. rewrite (H5 SM). ring.
  Qed.
  Lemma pinv_zero : pinv [] (mkpar (repeat 0 (length classes)) (repeat (repeat 0 xc) (length classes)) (repeat (repeat 0 xc) (length classes))).
  Proof.
    split.
    - unfold psize. cbn [p_cnt p_mu p_va]. rewrite !repeat_length. split; [auto|]. split; [auto|]. split; [auto|]. intros k K.
      rewrite (nth_indep _ [] (repeat 0 xc)) by (rewrite repeat_length; auto). rewrite nth_repeat, repeat_length. auto.
    - intros k y c EK C. cbv zeta. cbn [p_cnt samples flat_map]. split; [rewrite nth_repeat; reflexivity|]. split; [congruence|]. intros _ X. congruence.
  Qed.

  Definition eps_of (b : batch) : Q := vs * lmax (map (fun c => snd (fst (meanvar (bX b) (bw b) (fun _ => true) c))) (seq 0 xc)).
  Definition pr_ok : Prop := match priors with Some pr => priors_ok pr (length classes) = true | None => True end.
  (* the parameters the update of the classes starts from *)
  Definition start (m : gnb) (b : batch) : params :=
    match g_par m with
    | None => mkpar (repeat 0 (length classes)) (repeat (repeat 0 xc) (length classes)) (repeat (repeat 0 xc) (length classes))
    | Some p => mkpar (p_cnt p) (p_mu p) (shift (- eps_of b) (p_va p))
    end.
  Definition gok (m : gnb) : Prop := match g_par m with None => True | Some p => g_cls m = classes /\ psize classes xc p end.
  Lemma pfit_spec m b : classes <> [] -> pr_ok -> batch_ok b -> gok m ->
    exists q prior, partial_fit priors vs m (bX b) (bY b) classes false (bw b) = Some (mkgnb classes (Some (mkpar (p_cnt q) (p_mu q) (shift (eps_of b) (p_va q)))) prior (eps_of b)) /\
      psize classes xc q /\ (forall k y, nth_error classes k = Some y -> (In y (bY b) -> row_upd b xc k y (start m b) q) /\ (~ In y (bY b) -> row_same k (start m b) q)) /\
      (priors = None -> prior = map (fun n => 1 / qsum (p_cnt q) * n) (p_cnt q)).
  Proof.
    intros NC PR OKb GOK. assert (OKb' := OKb). destruct OKb' as (LB & WB & CB & SB). unfold partial_fit.
    rewrite LB, Nat.eqb_refl, WB. cbn [negb orb]. destruct (Nat.eqb_spec xc 0); [lia|]. cbn [orb].
    assert (W0 : match bw b with Some l => Nat.ltb (length l) (length (bY b)) | None => false end = false).
    { destruct (bw b) as [l|]; [|reflexivity]. destruct SB as [SB _]. destruct (Nat.ltb_spec (length l) (length (bY b))); [lia|reflexivity]. }
    rewrite W0. fold (eps_of b).
    assert (PS0 : psize classes xc (start m b)).
    { unfold start, gok in *. destruct (g_par m) as [p|]; [now apply psize_shift|apply pinv_zero]. }
    set (pr0 := match g_par m with None => match priors with Some pr => pr | None => repeat 0 (length classes) end | Some _ => g_prior m end).
    match goal with |- context [match ?e with None => None | Some _ => _ end] => assert (E : e = Some (classes, start m b, pr0)) end.
    { unfold start, pr0, gok in *. destruct (g_par m) as [p|].
      - destruct GOK as [-> PS]. assert (WM : width (p_mu p) = xc).
        { destruct PS as (_ & L2 & _ & L4). unfold width. apply L4. destruct classes; [congruence|cbn; lia]. }
        rewrite WM, Nat.eqb_refl. reflexivity.
      - destruct (Nat.eqb_spec (length classes) 0) as [E|_]; [destruct classes; [congruence|discriminate]|]. cbn [orb].
        unfold pr_ok in PR. destruct priors as [pr|]; [rewrite PR|]; reflexivity. }
    rewrite E. destruct (np_unique_spec (bY b)) as [US UI].
    assert (FB : forallb (fun y => match class_of classes y with Some _ => true | None => false end) (np_unique (bY b)) = true).
    { apply forallb_forall. intros y I. apply UI in I. apply CB in I. destruct (class_of classes y) eqn:EC; [reflexivity|]. apply class_of_none in EC. contradiction. }
    rewrite FB. cbv zeta.
    destruct (@all_classes_spec b classes xc ND LB WB (np_unique (bY b)) (ss_nodup US) ltac:(intros y I; apply UI in I; split; auto) (start m b) PS0) as [PQ R].
    cbv zeta in PQ, R. set (q := fold_left (upd_class (bX b) (bY b) (bw b) classes) (np_unique (bY b)) (start m b)) in *.
    eexists q, _. split; [reflexivity|]. split; [exact PQ|]. split.
    - intros k y EK. destruct (R k y EK) as [R1 R2]. rewrite UI in R1, R2. auto.
    - intros ->. reflexivity.
  Qed.

  Definition ginv (bs : list batch) (m : gnb) : Prop :=
    match g_par m with
    | None => bs = []
    | Some p => g_cls m = classes /\ pinv bs p /\ (priors = None -> g_prior m = map (fun n => 1 / qsum (p_cnt p) * n) (p_cnt p))
    end.
  Lemma ginv_step bs b m : classes <> [] -> pr_ok -> (forall b', In b' (bs ++ [b]) -> batch_ok b') -> ginv bs m ->
    exists m', partial_fit priors vs m (bX b) (bY b) classes false (bw b) = Some m' /\ ginv (bs ++ [b]) m' /\ g_par m' <> None.
  Proof.
    intros NC PR OK G. assert (OKb : batch_ok b) by (apply OK, in_or_app; right; now left).
    assert (GOK : gok m) by (unfold ginv, gok in *; destruct (g_par m); [destruct G as (? & [? _] & _); auto|auto]).
    destruct (@pfit_spec m b NC PR OKb GOK) as (q & prior & E & PQ & R & PRI). eexists. split; [exact E|]. split; [|discriminate].
    unfold ginv. cbn [g_par g_cls g_prior p_cnt]. split; [reflexivity|]. split; [|exact PRI].
    assert (E0 : vs == 0 -> eps_of b == 0) by (intros V0; unfold eps_of; rewrite V0; ring).
    apply (@pinv_shift (eps_of b) (bs ++ [b]) q E0). apply (@pinv_step bs b (start m b) q OK); auto.
    unfold start, ginv in *. destruct (g_par m) as [p|]; [|subst bs; apply pinv_zero].
    destruct G as (_ & PI & _). apply pinv_shift; [intros V0; rewrite (E0 V0); reflexivity|exact PI].
  Qed.
  Lemma run_inv bs : forall bs0 m, classes <> [] -> pr_ok -> (forall b', In b' (bs0 ++ bs) -> batch_ok b') -> ginv bs0 m ->
    exists m', run priors vs classes m bs = Some m' /\ ginv (bs0 ++ bs) m' /\ (bs <> [] -> g_par m' <> None).
  Proof.
    induction bs as [|b bs IH]; intros bs0 m NC PR OK G; cbn [run].
    - exists m. rewrite app_nil_r. repeat split; auto.
    - destruct (@ginv_step bs0 b m NC PR) as (m1 & E & G1 & N1); auto.
      { intros b' I. apply OK. apply in_app_or in I. apply in_or_app. destruct I as [I|[I|[]]]; [now left|right; left; exact I]. }
      rewrite E. destruct (IH (bs0 ++ [b]) m1 NC PR) as (m2 & E2 & G2 & N2); auto.
      { intros b' I. apply OK. rewrite <- app_assoc in I. exact I. }
      exists m2. rewrite <- app_assoc in G2. split; [exact E2|]. split; [exact G2|]. intros _.
      destruct bs as [|b2 bs]; [cbn in E2; injection E2 as <-; exact N1|apply N2; discriminate].
  Qed.
End Hist.

(* ----------------------------------------------------- maximum of a list *)
Lemma lmax_spec l : l <> [] -> In (lmax l) l /\ forall x, In x l -> x <= lmax l.
Proof.
  destruct l as [|x l]; [congruence|]. intros _. cbn [lmax].
  assert (G : forall l a, (fold_left qmax l a = a \/ In (fold_left qmax l a) l) /\ a <= fold_left qmax l a /\ forall z, In z l -> z <= fold_left qmax l a).
  { clear. induction l as [|y l IH]; intros a; cbn [fold_left]; [split; [now left|]; split; [lra|intros z []]|].
    destruct (IH (qmax a y)) as (H1 & H2 & H3). assert (M : a <= qmax a y /\ y <= qmax a y /\ (qmax a y = a \/ qmax a y = y)).
    { unfold qmax. destruct (Qleb_spec a y) as [E|E]; repeat split; auto; lra. }
    destruct M as (M1 & M2 & M3). split; [|split; [lra|]].
    - destruct H1 as [H1|H1]; [rewrite H1; destruct M3 as [-> | ->]; [now left|right; now left]|right; now right].
    - intros z [<-|I]; [lra|auto]. }
  destruct (G l x) as (H1 & H2 & H3). split; [destruct H1 as [-> |H1]; [now left|now right]|]. intros z [<-|I]; auto.
Qed.

(* ---------------------------------------------------------------- first fit *)
Definition column (b : batch) (c : nat) : list (Q * Q) := map (fun i => (cell (bX b) i c, wt (bw b) i)) (seq 0 (length (bX b))).
Lemma meanvar_all b c : snd (fst (meanvar (bX b) (bw b) (fun _ => true) c)) = wvar (column b c).
Proof.
  assert (F : forall l : list nat, filter (fun _ => true) l = l) by (induction l; cbn; congruence).
  unfold meanvar, wvar, wmean, wsum, column. cbn [fst snd]. rewrite F, !map_map. reflexivity.
Qed.
Definition well_formed (xc : nat) (classes : list Z) (b : batch) : Prop :=
  length (bX b) = length (bY b) /\ width (bX b) = xc /\ (forall y, In y (bY b) -> In y classes) /\
  match bw b with None => True | Some l => (length (bX b) <= length l)%nat /\ forall w, In w l -> 0 < w end.
Definition good_priors (priors : option (list Q)) (k : nat) : Prop :=
  match priors with Some pr => length pr = k /\ Qabs (qsum pr - 1) <= 1 # 1000000 /\ forall x, In x pr -> 0 <= x | None => True end.
Lemma good_priors_ok priors classes : good_priors priors (length classes) -> pr_ok priors classes.
Proof.
  unfold good_priors, pr_ok, priors_ok. destruct priors as [pr|]; auto. intros (L & S & P). rewrite L, Nat.eqb_refl. cbn [andb].
  apply andb_true_iff. split; [now apply Qle_bool_iff|]. apply forallb_forall. intros x I. now apply Qle_bool_iff, P.
Qed.

Lemma first_fit priors vs b xc : (0 < xc)%nat -> (0 < length (bY b))%nat -> well_formed xc (bY b) b -> good_priors priors (length (np_unique (bY b))) ->
  exists m p e, fit priors vs fresh (bX b) (bY b) (bw b) = Some m /\ g_par m = Some p /\ g_cls m = np_unique (bY b) /\
    (exists M, e = vs * M /\ (exists c, (c < xc)%nat /\ M = wvar (column b c)) /\ forall c, (c < xc)%nat -> wvar (column b c) <= M) /\
    forall k y c, nth_error (np_unique (bY b)) k = Some y -> (c < xc)%nat ->
      let l := of_class b y c in
      l <> [] /\ nth k (p_cnt p) 0 == wsum l /\ nth c (nth k (p_mu p) []) 0 == wmean l /\ nth c (nth k (p_va p) []) 0 == wvar l + e.
Proof.
  intros XC NY (LB & WB & CB & SB) GP. set (classes := np_unique (bY b)) in *. destruct (np_unique_spec (bY b)) as [US UI]. fold classes in US, UI.
  assert (NC : classes <> []).
  { destruct (bY b) as [|y ys]; [cbn in NY; lia|]. intros E. assert (X : In y classes) by (apply UI; now left). rewrite E in X. contradiction. }
  assert (OKb : batch_ok classes xc b) by (split; [auto|]; split; [auto|]; split; [intros y I; now apply UI|auto]).
  destruct (@pfit_spec priors vs classes xc (ss_nodup US) XC fresh b NC (good_priors_ok _ _ GP) OKb I) as (q & prior & E & PQ & R & PRI).
  assert (OKb' := OKb). destruct PQ as (L1 & L2 & L3 & L4).
  eexists _, _, (eps_of vs xc b). split; [exact E|]. split; [reflexivity|]. split; [reflexivity|]. split.
  - unfold eps_of. eexists. split; [reflexivity|]. assert (EQ : map (fun c => snd (fst (meanvar (bX b) (bw b) (fun _ => true) c))) (seq 0 xc) = map (fun c => wvar (column b c)) (seq 0 xc)) by (apply map_ext; intros; apply meanvar_all).
    rewrite EQ. destruct (@lmax_spec (map (fun c => wvar (column b c)) (seq 0 xc))) as [H1 H2]; [destruct xc; [lia|discriminate]|].
    split; [apply in_map_iff in H1; destruct H1 as (c & H1 & HC); apply in_seq in HC; exists c; split; [lia|auto]|].
    intros c C. apply H2. apply in_map_iff. exists c. split; [reflexivity|]. apply in_seq. lia.
  - intros k y c EK C. cbv zeta. cbn [p_cnt p_mu p_va]. assert (IY : In y (bY b)) by (apply UI; eapply nth_error_In; eauto).
    assert (NB : of_class b y c <> []) by (intros X; apply (@of_class_nil b y c LB) in X; contradiction).
    assert (PB : 0 < wsum (of_class b y c)) by (apply wsum_pos; [exact (of_class_pos XC y c OKb)|exact NB]).
    destruct (R k y EK) as [R1 _]. destruct (R1 IY) as [C1 C2]. specialize (C2 c C). cbv zeta in C2. unfold start in *. cbn [g_par fresh p_cnt p_mu p_va] in *.
    assert (KL : (k < length classes)%nat) by (apply nth_error_Some; congruence). destruct (L4 k KL) as [M1 M2].
    rewrite nth_repeat in C1, C2. rewrite (of_class_wsum b y 0 c) in *. destruct C2 as [C2 C3].
    split; [exact NB|]. split; [rewrite C1; ring|]. split; [rewrite C2; field; lra|].
    rewrite shift_nth by lia. rewrite C3. field. lra.
Qed.

Lemma refit_panics priors vs m X Y sw : g_par m <> None -> fit priors vs m X Y sw = None.
Proof.
  intros G. unfold fit, partial_fit.
  destruct (negb (Nat.eqb (length X) (length Y)) || Nat.eqb (width X) 0 || _)%bool eqn:B; [reflexivity|].
  destruct (g_par m) as [p|]; [|congruence]. destruct (Nat.eqb (width X) (width (p_mu p))); [|reflexivity]. cbv zeta.
  apply orb_false_iff in B. destruct B as [B _]. apply orb_false_iff in B. destruct B as [B1 B2].
  destruct (np_unique_spec Y) as [_ UI]. destruct (np_unique Y) as [|y ys] eqn:E; [|reflexivity].
  exfalso. destruct Y as [|y Y]; [|specialize (UI y); cbn in UI; tauto].
  apply negb_false_iff, Nat.eqb_eq in B1. destruct X; [|discriminate]. discriminate.
Qed.

(* ------------------------------------------------------------------ batches *)
Lemma history priors vs classes xc bs : NoDup classes -> classes <> [] -> (0 < xc)%nat -> bs <> [] -> (forall b, In b bs -> well_formed xc classes b) -> good_priors priors (length classes) ->
  exists m p, run priors vs classes fresh bs = Some m /\ g_par m = Some p /\ g_cls m = classes /\
    forall k y c, nth_error classes k = Some y -> (c < xc)%nat -> let l := samples bs y c in
      nth k (p_cnt p) 0 == wsum l /\ (l <> [] -> nth c (nth k (p_mu p) []) 0 == wmean l) /\
      (priors = None -> nth k (g_prior m) 0 == wsum l / qsum (map (fun z => wsum (samples bs z 0)) classes)) /\
      (vs == 0 -> l <> [] -> nth c (nth k (p_va p) []) 0 <= wvar l /\ (same_means bs y c -> nth c (nth k (p_va p) []) 0 == wvar l)).
Proof.
  intros ND NC XC NB OK GP.
  destruct (@run_inv priors vs classes xc ND XC bs [] fresh NC (good_priors_ok _ _ GP) OK eq_refl) as (m & E & G & N). cbn [app] in G. specialize (N NB).
  unfold ginv in G. destruct (g_par m) as [p|] eqn:GM; [|congruence]. destruct G as (GC & [PS PI] & PRI).
  exists m, p. split; [exact E|]. split; [exact GM|]. split; [exact GC|]. intros k y c EK C. cbv zeta. destruct (PI k y c EK C) as (H1 & H2 & H3).
  split; [exact H1|]. split; [exact H2|]. split; [|exact H3]. intros PN. rewrite (PRI PN). destruct PS as (L1 & _).
  assert (KL : (k < length classes)%nat) by (apply nth_error_Some; congruence).
  rewrite (nth_indep _ 0 (1 / qsum (p_cnt p) * 0)) by (rewrite map_length; lia). rewrite (map_nth (fun n => 1 / qsum (p_cnt p) * n)).
  assert (QE : qsum (p_cnt p) == qsum (map (fun z => wsum (samples bs z 0)) classes)).
  { assert (G : forall cs cnt, length cnt = length cs -> (forall k z, nth_error cs k = Some z -> nth k cnt 0 == wsum (samples bs z 0)) -> qsum cnt == qsum (map (fun z => wsum (samples bs z 0)) cs)).
    { clear. induction cs as [|z cs IH]; intros [|n cnt] L H; try discriminate; [reflexivity|]. cbn [map]. rewrite !qsum_cons. rewrite (IH cnt); [|cbn in L; lia|intros k w K; exact (H (S k) w K)].
      rewrite <- (H 0%nat z eq_refl). reflexivity. }
    apply G; [exact L1|]. intros j z EJ. apply (PI j z 0%nat EJ). lia. }
  rewrite QE, H1. unfold Qdiv. ring.
Qed.

Lemma two_batches priors classes xc b1 b2 : NoDup classes -> classes <> [] -> (0 < xc)%nat -> well_formed xc classes b1 -> well_formed xc classes b2 -> good_priors priors (length classes) ->
  exists m p, run priors 0 classes fresh [b1; b2] = Some m /\ g_par m = Some p /\
    forall k y c, nth_error classes k = Some y -> (c < xc)%nat -> of_class b1 y c <> [] -> of_class b2 y c <> [] ->
      let n1 := wsum (of_class b1 y c) in let n2 := wsum (of_class b2 y c) in let d := wmean (of_class b1 y c) - wmean (of_class b2 y c) in
      nth c (nth k (p_va p) []) 0 + n1 * n2 / ((n1 + n2) * (n1 + n2)) * (1 - n1 / (n1 + n2) * (n1 / (n1 + n2))) * (d * d) == wvar (of_class b1 y c ++ of_class b2 y c).
Proof.
  intros ND NC XC OK1 OK2 GP. assert (PR := good_priors_ok _ _ GP).
  destruct (@ginv_step priors 0 classes xc ND XC [] b1 fresh NC PR) as (m1 & E1 & G1 & N1); [intros b' [<-|[]]; exact OK1|reflexivity|].
  unfold ginv in G1. destruct (g_par m1) as [p1|] eqn:GM1; [|congruence]. destruct G1 as (GC & [PS PI] & _). cbn [app] in PI.
  destruct (@pfit_spec priors 0 classes xc ND XC m1 b2 NC PR OK2) as (q & prior & E & PQ & R & _); [unfold gok; rewrite GM1; auto|].
  eexists _, _. cbn [run]. rewrite E1, E. split; [reflexivity|]. split; [reflexivity|].
  intros k y c EK C NB1 NB2. cbv zeta. destruct (PI k y c EK C) as (H1 & H2 & H3). unfold samples in *. cbn [flat_map] in *. rewrite app_nil_r in *.
  specialize (H2 NB1). destruct (H3 (Qeq_refl _) NB1) as [_ H4].
  assert (SM : same_means [b1] y c) by (exists (wmean (of_class b1 y c)); intros b' [<-|[]] _; reflexivity). specialize (H4 SM).
  assert (LB2 : length (bX b2) = length (bY b2)) by apply OK2.
  assert (P1 : 0 < wsum (of_class b1 y c)) by (apply wsum_pos; [exact (@of_class_pos classes xc XC b1 y c OK1)|exact NB1]).
  assert (P2 : 0 < wsum (of_class b2 y c)) by (apply wsum_pos; [exact (@of_class_pos classes xc XC b2 y c OK2)|exact NB2]).
  assert (IY : In y (bY b2)). { destruct (in_dec Z.eq_dec y (bY b2)) as [I|I]; [exact I|]. exfalso. apply NB2. now apply of_class_nil. }
  destruct (R k y EK) as [R1 _]. destruct (R1 IY) as [C1 C2]. specialize (C2 c C). cbv zeta in C2. unfold start in *. rewrite GM1 in C2. cbn [p_cnt p_mu p_va] in *.
  assert (KL : (k < length classes)%nat) by (apply nth_error_Some; congruence).
  destruct PS as (L1 & L2 & L3 & L4). destruct (L4 k KL) as [M1 M2]. destruct PQ as (Q1 & Q2 & Q3 & Q4). destruct (Q4 k KL) as [M3 M4].
  rewrite (of_class_wsum b2 y 0 c) in *. destruct C2 as [C2 C3]. rewrite shift_nth by lia. rewrite shift_nth in C3 by lia. rewrite C3, C2.
  assert (E0 : eps_of 0 xc b2 == 0) by (unfold eps_of; ring). rewrite E0, H1, H2, H4, wvar_app by auto. field. lra.
Qed.

(* ------------------------------------------------------------------ clones *)
Lemma pfit_clone priors vs h o b classes h' : (o < length (objs h))%nat -> o_fun (get h o) = Some o ->
  o_par (get h o) <> None -> (forall a, o_par (get h o) = Some a -> (a < length (cells h))%nat) ->
  let '(h1, o') := clone h o in pfit priors vs h1 o' b classes = Some h' ->
  g_par (model_of h' o) = g_par (model_of h' o') /\ g_prior (model_of h' o) = g_prior (model_of h' o').
Proof.
  intros LO FO PO LA. unfold clone. intros H. unfold pfit in H.
  set (h1 := mkmem (objs h ++ [get h o]) (cells h)) in *. set (o' := length (objs h)) in *.
  assert (GO' : get h1 o' = get h o) by (unfold get, h1; cbn [objs]; rewrite app_nth2 by (unfold o'; lia); unfold o'; rewrite Nat.sub_diag; reflexivity).
  destruct (partial_fit priors vs (value h1 o') (bX b) (bY b) classes false (bw b)) as [g|]; [|discriminate].
  rewrite GO' in H. destruct (o_par (get h o)) as [a|] eqn:PA; [|congruence]. specialize (LA a eq_refl).
  set (h2 := mkmem (upd (objs h1) o' (mkobj (g_cls g) (Some a) (Some o'))) (upd (cells h1) a g)) in *. assert (EH : h' = h2) by congruence. subst h'.
  assert (GL : get h2 o = get h o).
  { unfold get, h2, h1. cbn [objs]. rewrite nth_upd by (rewrite app_length; cbn; unfold o'; lia). destruct (Nat.eqb_spec o' o); [unfold o' in *; lia|]. now rewrite app_nth1 by lia. }
  assert (GR : get h2 o' = mkobj (g_cls g) (Some a) (Some o')).
  { unfold get, h2, h1. cbn [objs]. rewrite nth_upd by (rewrite app_length; cbn; unfold o'; lia). now rewrite Nat.eqb_refl. }
  unfold model_of. rewrite GL, GR, FO. cbn [o_fun]. unfold value. rewrite GL, GR, PA. cbn [o_par]. auto.
Qed.
Lemma pfit_original priors vs h o b classes h' : (o < length (objs h))%nat -> o_fun (get h o) = Some o ->
  let '(h1, o') := clone h o in pfit priors vs h1 o b classes = Some h' -> model_of h' o' = model_of h' o.
Proof.
  intros LO FO. unfold clone. intros H. unfold pfit in H.
  set (h1 := mkmem (objs h ++ [get h o]) (cells h)) in *. set (o' := length (objs h)) in *.
  destruct (partial_fit priors vs (value h1 o) (bX b) (bY b) classes false (bw b)) as [g|]; [|discriminate].
  assert (G : forall ob cs, let h2 := mkmem (upd (objs h1) o ob) cs in o_fun ob = Some o -> model_of h2 o' = model_of h2 o).
  { intros ob cs h2 F. unfold model_of.
    assert (E1 : get h2 o = ob) by (unfold get, h2, h1; cbn [objs]; rewrite nth_upd by (rewrite app_length; cbn; lia); now rewrite Nat.eqb_refl).
    assert (E2 : get h2 o' = get h o).
    { unfold get, h2, h1. cbn [objs]. rewrite nth_upd by (rewrite app_length; cbn; lia). destruct (Nat.eqb_spec o o'); [unfold o' in *; lia|].
      rewrite app_nth2 by (unfold o'; lia). unfold o'. rewrite Nat.sub_diag. reflexivity. }
    rewrite E1, E2, FO, F. reflexivity. }
  destruct (o_par (get h1 o)) as [a|].
  - assert (EH : h' = mkmem (upd (objs h1) o (mkobj (g_cls g) (Some a) (Some o))) (upd (cells h1) a g)) by congruence. rewrite EH. now apply G.
  - assert (EH : h' = mkmem (upd (objs h1) o (mkobj (g_cls g) (Some (length (cells h1))) (Some o))) (cells h1 ++ [g])) by congruence. rewrite EH. now apply G.
Qed.

(* no weights means weights of 1 *)
Lemma meanvar_ones X keep c : meanvar X None keep c = meanvar X (Some (repeat 1 (length X))) keep c.
Proof.
  unfold meanvar. cbv zeta.
  assert (W : forall f g : nat -> Q, (forall i, (i < length X)%nat -> f i = g i) -> map f (filter keep (seq 0 (length X))) = map g (filter keep (seq 0 (length X)))).
  { intros f g H. apply map_ext_in. intros i I. apply filter_In in I. destruct I as [I _]. apply in_seq in I. apply H. lia. }
  assert (O : forall i, (i < length X)%nat -> wt (Some (repeat 1 (length X))) i = 1).
  { intros i Hi. cbn [wt]. assert (I : In (nth i (repeat 1 (length X)) 0) (repeat 1 (length X))) by (apply nth_In; now rewrite repeat_length). now apply repeat_spec in I. }
  rewrite (W (wt None) (wt (Some (repeat 1 (length X))))) by (intros i Hi; now rewrite O).
  rewrite (W (fun i => cell X i c * wt None i) (fun i => cell X i c * wt (Some (repeat 1 (length X))) i)) by (intros i Hi; now rewrite O).
  set (m := qsum _ / _). rewrite (W (fun i => (cell X i c - m) * (cell X i c - m) * wt None i) (fun i => (cell X i c - m) * (cell X i c - m) * wt (Some (repeat 1 (length X))) i)) by (intros i Hi; now rewrite O).
  reflexivity.
Qed.
Lemma partial_fit_ones priors vs m X Y classes refit : partial_fit priors vs m X Y classes refit None = partial_fit priors vs m X Y classes refit (Some (repeat 1 (length X))).
Proof.
  unfold partial_fit. rewrite repeat_length, Nat.ltb_irrefl.
  assert (UM : forall nP mu va keep, update_mv nP mu va X None keep = update_mv nP mu va X (Some (repeat 1 (length X))) keep).
  { intros nP mu va keep. unfold update_mv. rewrite meanvar_ones. destruct (Nat.eqb _ 0); [reflexivity|].
    assert (F : forall l s0, fold_left (fun s c => let '(nm, nv, _) := meanvar X None keep c in upd_col nP (snd (meanvar X (Some (repeat 1 (length X))) keep 0)) nm nv c s) l s0 =
      fold_left (fun s c => let '(nm, nv, _) := meanvar X (Some (repeat 1 (length X))) keep c in upd_col nP (snd (meanvar X (Some (repeat 1 (length X))) keep 0)) nm nv c s) l s0).
    { induction l as [|c l IH]; intros s0; [reflexivity|]. cbn [fold_left]. rewrite meanvar_ones. apply IH. }
    cbv zeta. now rewrite F. }
  assert (UC : forall cls l p, fold_left (upd_class X Y None cls) l p = fold_left (upd_class X Y (Some (repeat 1 (length X))) cls) l p).
  { intros cls. induction l as [|y l IH]; intros p; [reflexivity|]. cbn [fold_left].
    assert (E : upd_class X Y None cls p y = upd_class X Y (Some (repeat 1 (length X))) cls p y) by (unfold upd_class; destruct (class_of cls y); [now rewrite UM|reflexivity]). rewrite E. apply IH. }
  rewrite (map_ext (fun c => snd (fst (meanvar X None (fun _ => true) c))) (fun c => snd (fst (meanvar X (Some (repeat 1 (length X))) (fun _ => true) c)))) by (intros c; now rewrite meanvar_ones).
  destruct (_ || _ || _)%bool; [reflexivity|]. cbv zeta. destruct (g_par m) as [q|].
  - destruct (Nat.eqb _ _); [|reflexivity]. now rewrite UC.
  - destruct (_ || _)%bool; [reflexivity|]. now rewrite UC.
Qed.
