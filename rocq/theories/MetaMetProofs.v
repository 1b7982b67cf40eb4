(* Metrics of two related samples: reordered, scores transformed, classes renamed. *)
From Verif Require Import QCommon LabelModel LabelProofs MetricsModel MetricsProofs RankProofs.
Open Scope Q_scope.

(* two strictly decreasing lists whose members correspond under an order-preserving relation are aligned *)
Lemma aligned (R : Q -> Q -> Prop) :
  (forall t t' u u', R t t' -> R u u' -> (t < u <-> t' < u')) -> (forall t t' u', R t t' -> t' == u' -> R t u') ->
  forall l l', StronglySorted (fun a b => b < a) l -> StronglySorted (fun a b => b < a) l' ->
  (forall t, In t l -> exists t', In t' l' /\ R t t') -> (forall t', In t' l' -> exists t, In t l /\ R t t') -> Forall2 R l l'.
Proof.
  intros HO HE. induction l as [|t l IH]; intros l' S S' H H'.
  - destruct l' as [|t' l']; [constructor|]. destruct (H' t' (or_introl eq_refl)) as (t & [] & _).
  - destruct l' as [|u' l']; [destruct (H t (or_introl eq_refl)) as (t' & [] & _)|].
    apply StronglySorted_inv in S. destruct S as (S & F). apply StronglySorted_inv in S'. destruct S' as (S' & F'). rewrite Forall_forall in F, F'.
    assert (RT: R t u').
    { destruct (H t (or_introl eq_refl)) as (t' & [<-|Ht'] & Rt); auto. destruct (H' u' (or_introl eq_refl)) as (u & [<-|Hu] & Ru); auto.
      specialize (F u Hu). specialize (F' t' Ht'). apply (HO _ _ _ _ Ru Rt) in F. lra. }
    constructor; auto. apply IH; auto.
    + intros v Hv. destruct (H v (or_intror Hv)) as (v' & [<-|Hv'] & Rv); [|eauto]. specialize (F v Hv). pose proof (HO _ _ _ _ Rv RT) as O. pose proof (proj1 O F). lra.
    + intros v' Hv. destruct (H' v' (or_intror Hv)) as (v & [<-|Hv'] & Rv); [|eauto]. specialize (F' v' Hv). pose proof (HO _ _ _ _ Rv RT) as O. pose proof (proj2 O F'). lra.
Qed.
Lemma sorted_of_nth (l : list Q) : (forall a b, (a < b < length l)%nat -> nth b l 0 < nth a l 0) -> StronglySorted (fun a b => b < a) l.
Proof.
  induction l as [|x l IH]; intros H; constructor.
  - apply IH. intros a b Hab. apply (H (S a) (S b)). cbn [length]. lia.
  - apply Forall_forall. intros y Hy. destruct (In_nth _ _ 0 Hy) as (k & Hk & <-). apply (H 0%nat (S k)). cbn [length]. lia.
Qed.
Lemma Forall2_of_nth {A B} (R : A -> B -> Prop) da db l : forall l', length l = length l' -> (forall k, (k < length l)%nat -> R (nth k l da) (nth k l' db)) -> Forall2 R l l'.
Proof.
  induction l as [|x l IH]; intros [|y l'] HL H; try discriminate; constructor; [apply (H 0%nat); cbn; lia|]. apply IH; [cbn in HL; lia|]. intros k Hk. apply (H (S k)). cbn. lia.
Qed.
Lemma Forall2_nth_QQ (R : Q -> Q -> Prop) l l' k : Forall2 R l l' -> (k < length l)%nat -> R (nth k l 0) (nth k l' 0).
Proof. intros F. revert k. induction F as [|x y l l' H F IH]; intros k Hk; cbn [length] in Hk; [lia|]. destruct k; cbn [nth]; auto. apply IH. lia. Qed.

Section Two.
Variables (sc sc' : list Q) (pos pos' : nat -> bool) (w w' : nat -> Q) (idx idx' : list nat) (sg : nat -> nat).
Notation s i := (nth i sc 0). Notation s' i := (nth i sc' 0).
Hypothesis HP : Permutation idx' (map sg idx).
Hypothesis Hpos : forall i, In i idx -> pos' (sg i) = pos i.
Hypothesis Hw : forall i, In i idx -> w' (sg i) == w i.
Hypothesis Hord : forall i j, In i idx -> In j idx -> (s i < s j <-> s' (sg i) < s' (sg j)).
Hypothesis HD : desc sc idx.
Hypothesis HD' : desc sc' idx'.
(* a threshold of one curve and the corresponding one of the other *)
Definition corr (t t' : Q) : Prop := exists i, In i idx /\ t == s i /\ t' == s' (sg i).
Lemma corr_order t t' u u' : corr t t' -> corr u u' -> (t < u <-> t' < u').
Proof using Hord. intros (i & Hi & E & E') (j & Hj & F & F'). rewrite E, E', F, F'. now apply Hord. Qed.
Lemma corr_le t t' i : corr t t' -> In i idx -> Qle_bool t' (s' (sg i)) = Qle_bool t (s i).
Proof using Hord.
  intros (j & Hj & E & E') Hi. apply Bool.eq_iff_eq_true. rewrite !Qle_bool_iff, E, E'. pose proof (Hord i j Hi Hj) as O. split; intros H; apply Qnot_lt_le; intros L; apply O in L; lra.
Qed.
Lemma TPt_corr t t' : corr t t' -> TPt sc' pos' w' idx' t' == TPt sc pos w idx t.
Proof using Hord HP Hpos Hw.
  intros C. rewrite (TPt_perm _ _ _ _ _ _ HP). unfold TPt. rewrite map_map. apply qsum_map_ext. intros i Hi. rewrite Hpos by auto. rewrite (corr_le t t' i C Hi).
  destruct (_ && _)%bool; [now apply Hw|reflexivity].
Qed.
Lemma FPt_corr t t' : corr t t' -> FPt sc' pos' w' idx' t' == FPt sc pos w idx t.
Proof using Hord HP Hpos Hw.
  intros C. rewrite (FPt_perm _ _ _ _ _ _ HP). unfold FPt. rewrite map_map. apply qsum_map_ext. intros i Hi. rewrite Hpos by auto. rewrite (corr_le t t' i C Hi).
  destruct (_ && _)%bool; [now apply Hw|reflexivity].
Qed.
Lemma curves_corr : let '(fps, tps, ths) := clf_curve pos w sc (clf_groups sc idx) 0 0 in let '(fps', tps', ths') := clf_curve pos' w' sc' (clf_groups sc' idx') 0 0 in
  Forall2 Qeq fps fps' /\ Forall2 Qeq tps tps' /\ Forall2 corr ths ths'.
Proof using All.
  pose proof (curve_points sc pos w idx HD) as C. pose proof (curve_points sc' pos' w' idx' HD') as C'.
  destruct (clf_curve pos w sc (clf_groups sc idx) 0 0) as [[fps tps] ths]. destruct (clf_curve pos' w' sc' (clf_groups sc' idx') 0 0) as [[fps' tps'] ths'].
  destruct C as (L1 & L2 & V & VD & VC & VI & _). destruct C' as (L1' & L2' & V' & VD' & VC' & VI' & _).
  assert (F: Forall2 corr ths ths').
  { apply aligned.
    - exact corr_order.
    - intros t t' u' (i & Hi & E & E') H. exists i. rewrite <- H. auto.
    - apply sorted_of_nth. rewrite L2. exact VD.
    - apply sorted_of_nth. rewrite L2'. exact VD'.
    - intros t Ht. destruct (In_nth _ _ 0 Ht) as (k & Hk & <-). destruct (VI k ltac:(lia)) as (i & Hi & ->).
      assert (Hs: In (sg i) idx') by (apply (Permutation_in _ (Permutation_sym HP)), in_map; auto).
      destruct (VC' _ Hs) as (k' & Hk' & E'). exists (nth k' ths' 0). split; [apply nth_In; lia|]. exists i. repeat split; auto; reflexivity.
    - intros t' Ht. destruct (In_nth _ _ 0 Ht) as (k & Hk & <-). destruct (VI' k ltac:(lia)) as (i' & Hi' & ->).
      apply (Permutation_in _ HP) in Hi'. apply in_map_iff in Hi' as (i & <- & Hi). destruct (VC _ Hi) as (k' & Hk' & E'). exists (nth k' ths 0). split; [apply nth_In; lia|]. exists i. repeat split; auto; reflexivity. }
  pose proof (Forall2_length F) as LF. split; [|split; [|exact F]].
  - apply (Forall2_of_nth _ 0 0); [lia|]. intros k Hk. destruct (V k Hk) as (A & _). destruct (V' k ltac:(lia)) as (A' & _). rewrite A, A'. symmetry. apply FPt_corr. apply (Forall2_nth_QQ corr); auto. lia.
  - apply (Forall2_of_nth _ 0 0); [lia|]. intros k Hk. destruct (V k ltac:(lia)) as (_ & A). destruct (V' k ltac:(lia)) as (_ & A'). rewrite A, A'. symmetry. apply TPt_corr. apply (Forall2_nth_QQ corr); auto. lia.
Qed.
End Two.

Lemma last_QQ l l' : Forall2 Qeq l l' -> last l 0 == last l' 0.
Proof. induction 1 as [|x y l l' H F IH]; [reflexivity|]. destruct F as [|x2 y2 l l' H2 F]; [exact H|exact IH]. Qed.
Lemma map_scale_QQ c c' l l' : c == c' -> Forall2 Qeq l l' -> Forall2 Qeq (map (Qmult c) l) (map (Qmult c') l').
Proof. intros Hc. induction 1; cbn [map]; constructor; auto. now rewrite Hc, H. Qed.
Lemma qsearch_QQ l l' x x' : x == x' -> Forall2 Qeq l l' -> qsearch l x = qsearch l' x'.
Proof.
  intros Hx. induction 1 as [|a b l l' H F IH]; cbn [qsearch]; auto. assert (E: Qltb a x = Qltb b x') by (unfold Qltb; f_equal; apply Bool.eq_iff_eq_true; rewrite !Qle_bool_iff, H, Hx; reflexivity).
  rewrite E, IH. reflexivity.
Qed.
Lemma Forall2_firstn {A B} (R : A -> B -> Prop) n l l' : Forall2 R l l' -> Forall2 R (firstn n l) (firstn n l').
Proof. intros F. revert n. induction F; intros [|n]; cbn [firstn]; constructor; auto. Qed.
Lemma Forall2_rev' {A B} (R : A -> B -> Prop) l l' : Forall2 R l l' -> Forall2 R (rev l) (rev l').
Proof. induction 1; cbn [rev]; [constructor|]. apply Forall2_app; auto. Qed.
Lemma auc_QQ xs xs' : Forall2 Qeq xs xs' -> forall ys ys', Forall2 Qeq ys ys' -> forall x y a x' y' a', x == x' -> y == y' -> a == a' -> auc_loop xs ys x y a == auc_loop xs' ys' x' y' a'.
Proof.
  induction 1 as [|p q xs xs' H F IH]; intros ys ys' FY x y a x' y' a' E1 E2 E3; cbn [auc_loop]; auto. destruct FY as [|p2 q2 ys ys' H2 FY]; auto.
  apply IH; auto. rewrite H, H2, E1, E2, E3. reflexivity.
Qed.
Lemma ap_QQ p p' : Forall2 Qeq p p' -> forall r r', Forall2 Qeq r r' -> ap_loop p r == ap_loop p' r'.
Proof.
  induction 1 as [|a b p p' H F IH]; intros r r' FR; cbn [ap_loop]; [reflexivity|]. destruct FR as [|c d r r' H2 FR]; [reflexivity|]. destruct FR as [|e f r r' H3 FR]; [reflexivity|].
  rewrite (IH (e :: r) (f :: r')) by (constructor; auto). rewrite H, H2, H3. reflexivity.
Qed.
Lemma Qeqb_QQ a b c d : a == c -> b == d -> Qeq_bool a b = Qeq_bool c d.
Proof. intros H1 H2. apply Bool.eq_iff_eq_true. rewrite !Qeq_bool_iff, H1, H2. reflexivity. Qed.
Lemma Qleb_QQ a b c d : a == c -> b == d -> Qle_bool a b = Qle_bool c d.
Proof. intros H1 H2. apply Bool.eq_iff_eq_true. rewrite !Qle_bool_iff, H1, H2. reflexivity. Qed.

(* two samples with the same ranking: sample i of the first is sample sg i of the second *)
Definition same_ranking (labels labels' : list Z) (pl pl' : Z) (wt wt' : option (list Q)) (sc sc' : list Q) (sg : nat -> nat) : Prop :=
  let n := length labels in
  length labels' = n /\ Permutation (map sg (seq 0 n)) (seq 0 n) /\
  (forall i, (i < n)%nat -> (nth (sg i) labels' 0%Z = pl' <-> nth i labels 0%Z = pl) /\ weight wt' (sg i) == weight wt i) /\
  (forall i j, (i < n)%nat -> (j < n)%nat -> (nth i sc 0 < nth j sc 0 <-> nth (sg i) sc' 0 < nth (sg j) sc' 0)).
Lemma ranking_curves labels labels' pl pl' wt wt' sc sc' idx idx' sg : same_ranking labels labels' pl pl' wt wt' sc sc' sg ->
  let n := length labels in Permutation idx (seq 0 n) -> Permutation idx' (seq 0 n) -> desc sc idx -> desc sc' idx' ->
  let '(fps, tps, ths) := binary_clf_curve labels pl wt sc idx in let '(fps', tps', ths') := binary_clf_curve labels' pl' wt' sc' idx' in
  Forall2 Qeq fps fps' /\ Forall2 Qeq tps tps' /\ length ths = length ths' /\ length ths = length fps.
Proof.
  intros (HL & HG & HW & HO) n P P' D D'. unfold binary_clf_curve.
  assert (In0: forall i, In i idx -> (i < n)%nat) by (intros i Hi; apply (Permutation_in _ P) in Hi; apply in_seq in Hi; lia).
  pose proof (curves_corr sc sc' (fun i => Z.eqb (nth i labels 0%Z) pl) (fun i => Z.eqb (nth i labels' 0%Z) pl') (weight wt) (weight wt') idx idx' sg) as C.
  pose proof (curve_points sc (fun i => Z.eqb (nth i labels 0%Z) pl) (weight wt) idx D) as CP.
  destruct (clf_curve _ _ sc _ 0 0) as [[fps tps] ths]. destruct (clf_curve _ _ sc' _ 0 0) as [[fps' tps'] ths'].
  destruct CP as (_ & L2 & _).
  destruct C as (A & B & E); auto.
  - rewrite P'. unfold n. rewrite <- HG at 1. apply Permutation_map. now symmetry.
  - intros i Hi. destruct (HW i (In0 i Hi)) as (H & _). apply Bool.eq_iff_eq_true. now rewrite !Z.eqb_eq.
  - intros i Hi. apply HW. auto.
  - split; [exact A|]. split; [exact B|]. split; [eapply Forall2_length; eauto|exact L2].
Qed.
Definition same_curve (r r' : option (list Q * list Q * list Q)) : Prop :=
  match r, r' with
  | Some (x, y, t), Some (x', y', t') => Forall2 Qeq x x' /\ Forall2 Qeq y y' /\ length t = length t'
  | None, None => True
  | _, _ => False
  end.
Lemma roc_same labels labels' pl pl' wt wt' sc sc' idx idx' sg : same_ranking labels labels' pl pl' wt wt' sc sc' sg ->
  let n := length labels in Permutation idx (seq 0 n) -> Permutation idx' (seq 0 n) -> desc sc idx -> desc sc' idx' ->
  same_curve (roc_curve labels pl wt sc idx) (roc_curve labels' pl' wt' sc' idx').
Proof.
  intros HR n P P' D D'. pose proof (ranking_curves _ _ _ _ _ _ _ _ _ _ _ HR P P' D D') as C. unfold roc_curve.
  destruct (binary_clf_curve labels pl wt sc idx) as [[fps tps] ths]. destruct (binary_clf_curve labels' pl' wt' sc' idx') as [[fps' tps'] ths'].
  destruct C as (A & B & L & L2). destruct A as [|f f' fps fps' Hf A].
  - destruct ths; [|discriminate]. destruct ths'; [exact I|discriminate].
  - destruct ths as [|t ths]; [discriminate|]. destruct ths' as [|t' ths']; [discriminate|]. rewrite (Qeqb_QQ f 0 f' 0 Hf (Qeq_refl _)).
    assert (K: forall X X' Y Y' (T T' : list Q), Forall2 Qeq X X' -> Forall2 Qeq Y Y' -> length T = length T' ->
      same_curve (if (Qle_bool (last X 0) 0 || Qle_bool (last Y 0) 0)%bool then None else Some (map (Qmult (1 / last X 0)) X, map (Qmult (1 / last Y 0)) Y, T))
        (if (Qle_bool (last X' 0) 0 || Qle_bool (last Y' 0) 0)%bool then None else Some (map (Qmult (1 / last X' 0)) X', map (Qmult (1 / last Y' 0)) Y', T'))).
    { intros X X' Y Y' T T' FX FY LT. pose proof (last_QQ _ _ FX) as EX. pose proof (last_QQ _ _ FY) as EY.
      rewrite (Qleb_QQ _ 0 _ 0 EX (Qeq_refl _)), (Qleb_QQ _ 0 _ 0 EY (Qeq_refl _)). destruct (_ || _)%bool; [exact I|].
      split; [|split; auto]; apply map_scale_QQ; auto; [rewrite EX|rewrite EY]; reflexivity. }
    destruct (Qeq_bool f' 0); apply K; auto; try (constructor; auto); try reflexivity. cbn [length] in *. lia.
Qed.
Lemma pr_same labels labels' pl pl' wt wt' sc sc' idx idx' sg : same_ranking labels labels' pl pl' wt wt' sc sc' sg ->
  let n := length labels in Permutation idx (seq 0 n) -> Permutation idx' (seq 0 n) -> desc sc idx -> desc sc' idx' ->
  same_curve (pr_curve labels pl wt sc idx) (pr_curve labels' pl' wt' sc' idx').
Proof.
  intros HR n P P' D D'. pose proof (ranking_curves _ _ _ _ _ _ _ _ _ _ _ HR P P' D D') as C. unfold pr_curve.
  destruct (binary_clf_curve labels pl wt sc idx) as [[fps tps] ths]. destruct (binary_clf_curve labels' pl' wt' sc' idx') as [[fps' tps'] ths'].
  destruct C as (A & B & L & L2). pose proof (last_QQ _ _ B) as EL.
  assert (EX: existsb (fun tf => Qeq_bool (fst tf + snd tf) 0) (combine tps fps) = existsb (fun tf => Qeq_bool (fst tf + snd tf) 0) (combine tps' fps')).
  { clear -A B. revert fps fps' A. induction B as [|a b tps tps' H B IH]; intros fps fps' A; cbn [combine existsb]; auto. destruct A as [|c d fps fps' H2 A]; cbn [existsb]; auto.
    rewrite (IH _ _ A). f_equal. cbn [fst snd]. apply Qeqb_QQ; [rewrite H, H2|]; reflexivity. }
  assert (FP: Forall2 Qeq (map (fun tf => fst tf / (fst tf + snd tf)) (combine tps fps)) (map (fun tf => fst tf / (fst tf + snd tf)) (combine tps' fps'))).
  { clear -A B. revert fps fps' A. induction B as [|a b tps tps' H B IH]; intros fps fps' A; cbn [combine map]; [constructor|]. destruct A as [|c d fps fps' H2 A]; cbn [map]; constructor; auto. cbn [fst snd]. rewrite H, H2. reflexivity. }
  assert (FR: forall c c', c == c' -> Forall2 Qeq (map (fun t => t / c) tps) (map (fun t => t / c') tps')).
  { clear -B. intros c c' Hc. induction B; cbn [map]; constructor; auto. rewrite H, Hc. reflexivity. }
  rewrite EX, (Qeqb_QQ _ 0 _ 0 EL (Qeq_refl _)). rewrite (qsearch_QQ _ _ _ _ EL B).
  destruct tps as [|t0 tps]; destruct tps' as [|t0' tps']; [exact I|inversion B|inversion B|].
  destruct (_ || _)%bool; [exact I|].
  split; [|split].
  - apply Forall2_app; [|repeat constructor]. apply Forall2_rev', Forall2_firstn. exact FP.
  - apply Forall2_app; [|repeat constructor]. apply Forall2_rev', Forall2_firstn. now apply FR.
  - rewrite !rev_length, !firstn_length, L. reflexivity.
Qed.

(* ------------------------------------------------------------ classes *)
Lemma wsum_relabel (f : Z -> Z) (s s' : list (Z * Z * Q)) (P : Z -> Z -> bool) (P' : Z -> Z -> bool) :
  Permutation (map (fun x => ((f (fst (fst x)), f (snd (fst x))), snd x)) s) s' ->
  (forall x, In x s -> P' (f (fst (fst x))) (f (snd (fst x))) = P (fst (fst x)) (snd (fst x))) ->
  qsum (map (fun x => if P' (fst (fst x)) (snd (fst x)) then snd x else 0) s') == qsum (map (fun x => if P (fst (fst x)) (snd (fst x)) then snd x else 0) s).
Proof.
  intros HP H. rewrite <- (qsum_perm _ _ (Permutation_map (fun x => if P' (fst (fst x)) (snd (fst x)) then snd x else 0) HP)). rewrite map_map. apply qsum_map_ext. intros x Hx. cbn [fst snd]. rewrite H by auto. reflexivity.
Qed.

Definition TPv (s : list (Z * Z * Q)) (v : Z) : Q := qsum (map (fun x => if (Z.eqb (fst (fst x)) v && Z.eqb (snd (fst x)) v)%bool then snd x else 0) s).
Definition TRv (s : list (Z * Z * Q)) (v : Z) : Q := qsum (map (fun x => if Z.eqb (fst (fst x)) v then snd x else 0) s).
Definition PRv (s : list (Z * Z * Q)) (v : Z) : Q := qsum (map (fun x => if Z.eqb (snd (fst x)) v then snd x else 0) s).
Definition eq3 (a b : Q * Q * Q) : Prop := fst (fst a) == fst (fst b) /\ snd (fst a) == snd (fst b) /\ snd a == snd b.
Lemma prf_eq3 beta a b c a' b' c' : a == a' -> b == b' -> c == c' -> eq3 (prf beta a b c) (prf beta a' b' c').
Proof.
  intros Ha Hb Hc. unfold prf, eq3. cbn [fst snd].
  assert (Ec: Qltb 0 c = Qltb 0 c') by (unfold Qltb; f_equal; now apply Qleb_QQ). assert (Eb: Qltb 0 b = Qltb 0 b') by (unfold Qltb; f_equal; now apply Qleb_QQ).
  rewrite Ec, Eb. set (p := if Qltb 0 c' then a / c else 0). set (p' := if Qltb 0 c' then a' / c' else 0). set (r := if Qltb 0 b' then a / b else 0). set (r' := if Qltb 0 b' then a' / b' else 0).
  assert (Ep: p == p') by (unfold p, p'; destruct (Qltb 0 c'); [rewrite Ha, Hc|]; reflexivity). assert (Er: r == r') by (unfold r, r'; destruct (Qltb 0 b'); [rewrite Ha, Hb|]; reflexivity).
  split; [exact Ep|]. split; [exact Er|].
  assert (EF: Qltb 0 (beta * beta * p + r) = Qltb 0 (beta * beta * p' + r')) by (unfold Qltb; f_equal; apply Qleb_QQ; [rewrite Ep, Er|]; reflexivity).
  rewrite EF. destruct (Qltb 0 (beta * beta * p' + r')); [rewrite Ep, Er|]; reflexivity.
Qed.
Lemma eq3_trans a b c : eq3 a b -> eq3 b c -> eq3 a c.
Proof. intros (A1 & A2 & A3) (B1 & B2 & B3). repeat split; [rewrite A1|rewrite A2|rewrite A3]; auto. Qed.
Lemma eq3_sym a b : eq3 a b -> eq3 b a.
Proof. intros (A1 & A2 & A3). repeat split; symmetry; auto. Qed.
Lemma seq_nth_map (c : list Z) (g : nat -> Q) (G : Z -> Q) : (forall k, (k < length c)%nat -> g k == G (nth k c 0%Z)) -> qsum (map g (seq 0 (length c))) == qsum (map G c).
Proof.
  intros H. assert (E: map G c = map (fun k => G (nth k c 0%Z)) (seq 0 (length c))).
  { clear. rewrite <- (map_map (fun k => nth k c 0%Z) G). f_equal. symmetry. induction c as [|x c IH]; [reflexivity|]. cbn [length seq map nth]. f_equal. rewrite <- seq_shift, map_map. exact IH. }
  rewrite E. apply qsum_map_ext. intros k Hk. apply in_seq in Hk. apply H. lia.
Qed.
(* the matrix of a sample in terms of the classes only *)
Lemma classes_of (s : list (Z * Z * Q)) : s <> [] -> (forall x, In x s -> In (snd (fst x)) (map (fun x => fst (fst x)) s)) ->
  exists c cm, confusion (Some (map snd s)) 1 (map smp s) = Some (length c, cm) /\ StronglySorted Z.lt c /\ NoDup c /\ (forall v, In v c <-> In v (map (fun x => fst (fst x)) s)) /\
    (forall i j, (i < length c)%nat -> (j < length c)%nat -> cm_at (length c) cm i j == qsum (map (fun x => if (Z.eqb (fst (fst x)) (nth i c 0%Z) && Z.eqb (snd (fst x)) (nth j c 0%Z))%bool then snd x else 0) s)) /\
    (forall k, (k < length c)%nat -> cm_row (length c) cm k == TRv s (nth k c 0%Z) /\ cm_col (length c) cm k == PRv s (nth k c 0%Z)).
Proof.
  intros Hne Hp. destruct (confusion_main s Hne Hp) as (c & cm & E & HS & HI & L & V). exists c, cm. split; [exact E|]. split; [exact HS|].
  split. { clear -HS; induction HS as [|x l HS IH HF]; constructor; auto; intros Hx; rewrite Forall_forall in HF; specialize (HF x Hx); lia. }
  split; [exact HI|]. split; [exact V|]. intros k Hk. split.
  - apply (cm_row_spec c cm s k HS); auto. intros x Hx. apply HI, Hp, Hx.
  - apply (cm_col_spec c cm s k HS); auto. intros x Hx. apply HI. now apply (in_map (fun x => fst (fst x))).
Qed.
Section Rename.
Variables (f : Z -> Z) (s s' : list (Z * Z * Q)).
Hypothesis Hinj : forall a b, f a = f b -> a = b.
Hypothesis HP : Permutation (map (fun x => ((f (fst (fst x)), f (snd (fst x))), snd x)) s) s'.
Lemma eqb_inj a b : Z.eqb (f a) (f b) = Z.eqb a b.
Proof using Hinj. apply Bool.eq_iff_eq_true. rewrite !Z.eqb_eq. split; [apply Hinj|congruence]. Qed.
Lemma TPv_f v : TPv s' (f v) == TPv s v.
Proof using All. apply (wsum_relabel f s s' (fun t p => Z.eqb t v && Z.eqb p v)%bool (fun t p => Z.eqb t (f v) && Z.eqb p (f v))%bool HP). intros. now rewrite !eqb_inj. Qed.
Lemma TRv_f v : TRv s' (f v) == TRv s v.
Proof using All. apply (wsum_relabel f s s' (fun t p => Z.eqb t v) (fun t p => Z.eqb t (f v)) HP). intros. now rewrite !eqb_inj. Qed.
Lemma PRv_f v : PRv s' (f v) == PRv s v.
Proof using All. apply (wsum_relabel f s s' (fun t p => Z.eqb p v) (fun t p => Z.eqb p (f v)) HP). intros. now rewrite !eqb_inj. Qed.
Lemma labels_f v : In v (map (fun x => fst (fst x)) s') <-> exists u, v = f u /\ In u (map (fun x => fst (fst x)) s).
Proof using HP.
  split.
  - intros H. apply in_map_iff in H as (x & <- & Hx). apply (Permutation_in _ (Permutation_sym HP)) in Hx. apply in_map_iff in Hx as (y & <- & Hy). cbn [fst]. eexists. split; [reflexivity|]. now apply (in_map (fun x => fst (fst x))).
  - intros (u & -> & Hu). apply in_map_iff in Hu as (y & <- & Hy). apply in_map_iff. exists ((f (fst (fst y)), f (snd (fst y))), snd y). split; [reflexivity|]. apply (Permutation_in _ HP), in_map_iff. eauto.
Qed.
Lemma renamed beta : s <> [] -> (forall x, In x s -> In (snd (fst x)) (map (fun x => fst (fst x)) s)) ->
  exists c cm c' cm', confusion (Some (map snd s)) 1 (map smp s) = Some (length c, cm) /\ confusion (Some (map snd s')) 1 (map smp s') = Some (length c', cm') /\
    StronglySorted Z.lt c /\ StronglySorted Z.lt c' /\ Permutation c' (map f c) /\
    (forall i j i' j', (i < length c)%nat -> (j < length c)%nat -> (i' < length c')%nat -> (j' < length c')%nat -> nth i' c' 0%Z = f (nth i c 0%Z) -> nth j' c' 0%Z = f (nth j c 0%Z) ->
       cm_at (length c') cm' i' j' == cm_at (length c) cm i j) /\
    (forall k k', (k < length c)%nat -> (k' < length c')%nat -> nth k' c' 0%Z = f (nth k c 0%Z) -> eq3 (prf_class beta (length c') cm' k') (prf_class beta (length c) cm k)) /\
    eq3 (fst (prf_macro beta (length c') cm')) (fst (prf_macro beta (length c) cm)) /\
    eq3 (fst (prf_micro beta (length c') cm')) (fst (prf_micro beta (length c) cm)).
Proof using All.
  intros Hne Hp. destruct (classes_of s Hne Hp) as (c & cm & E & HS & ND & HI & V & RC).
  assert (Hne': s' <> []) by (intros ->; apply Permutation_sym, Permutation_nil in HP; destruct s; [congruence|discriminate]).
  assert (Hp': forall x, In x s' -> In (snd (fst x)) (map (fun x => fst (fst x)) s')).
  { intros x Hx. apply (Permutation_in _ (Permutation_sym HP)) in Hx. apply in_map_iff in Hx as (y & <- & Hy). cbn [fst snd]. apply labels_f. eexists. split; [reflexivity|]. now apply Hp. }
  destruct (classes_of s' Hne' Hp') as (c' & cm' & E' & HS' & ND' & HI' & V' & RC').
  exists c, cm, c', cm'. split; [exact E|]. split; [exact E'|]. split; [exact HS|]. split; [exact HS'|].
  assert (PC: Permutation c' (map f c)).
  { apply NoDup_Permutation; auto.
    - apply FinFun.Injective_map_NoDup; auto.
    - intros v. rewrite HI', labels_f, in_map_iff. split; intros (u & A & B); exists u; [|symmetry in A]; split; auto; now apply HI. }
  split; [exact PC|].
  assert (PK: forall k, (k < length c)%nat -> eq3 (prf_class beta (length c) cm k) (prf beta (TPv s (nth k c 0%Z)) (TRv s (nth k c 0%Z)) (PRv s (nth k c 0%Z)))).
  { intros k Hk. destruct (RC k Hk) as (R1 & R2). unfold prf_class. apply prf_eq3; auto. apply (V k k Hk Hk). }
  assert (PK': forall k, (k < length c')%nat -> eq3 (prf_class beta (length c') cm' k) (prf beta (TPv s' (nth k c' 0%Z)) (TRv s' (nth k c' 0%Z)) (PRv s' (nth k c' 0%Z)))).
  { intros k Hk. destruct (RC' k Hk) as (R1 & R2). unfold prf_class. apply prf_eq3; auto. apply (V' k k Hk Hk). }
  assert (PF: forall v, eq3 (prf beta (TPv s' (f v)) (TRv s' (f v)) (PRv s' (f v))) (prf beta (TPv s v) (TRv s v) (PRv s v))) by (intros v; apply prf_eq3; [apply TPv_f|apply TRv_f|apply PRv_f]).
  split; [|split; [|split]].
  - intros i j i' j' Hi Hj Hi' Hj' E1 E2. rewrite V, V' by auto. rewrite E1, E2.
    apply (wsum_relabel f s s' (fun t p => Z.eqb t (nth i c 0%Z) && Z.eqb p (nth j c 0%Z))%bool (fun t p => Z.eqb t (f (nth i c 0%Z)) && Z.eqb p (f (nth j c 0%Z)))%bool HP). intros. now rewrite !eqb_inj.
  - intros k k' Hk Hk' Ek. eapply eq3_trans; [apply PK'; auto|]. rewrite Ek. eapply eq3_trans; [apply PF|]. apply eq3_sym, PK. auto.
  - assert (LC: length c' = length c) by (rewrite (Permutation_length PC); apply map_length).
    assert (SUM: forall (pr : Q * Q * Q -> Q), (forall a b, eq3 a b -> pr a == pr b) ->
       qsum (map (fun k => pr (prf_class beta (length c') cm' k)) (seq 0 (length c'))) == qsum (map (fun k => pr (prf_class beta (length c) cm k)) (seq 0 (length c)))).
    { intros pr Hpr. rewrite (seq_nth_map c' _ (fun v => pr (prf beta (TPv s' v) (TRv s' v) (PRv s' v)))) by (intros; apply Hpr, PK'; auto).
      rewrite (seq_nth_map c _ (fun v => pr (prf beta (TPv s v) (TRv s v) (PRv s v)))) by (intros; apply Hpr, PK; auto).
      rewrite (qsum_perm _ _ (Permutation_map _ PC)), map_map. apply qsum_map_ext. intros v _. apply Hpr, PF. }
    unfold prf_macro, eq3. cbn [fst snd]. unfold qmean. rewrite !map_map, !map_length, !seq_length, LC. rewrite LC in SUM.
    split; [|split].
    + rewrite (SUM (fun x => fst (fst x))); [reflexivity|]. intros a b (A & _ & _). exact A.
    + rewrite (SUM (fun x => snd (fst x))); [reflexivity|]. intros a b (_ & A & _). exact A.
    + rewrite (SUM snd); [reflexivity|]. intros a b (_ & _ & A). exact A.
  - unfold prf_micro. cbn [fst]. apply prf_eq3.
    + rewrite (seq_nth_map c' _ (TPv s')) by (intros k Hk; apply (V' k k Hk Hk)). rewrite (seq_nth_map c _ (TPv s)) by (intros k Hk; apply (V k k Hk Hk)).
      rewrite (qsum_perm _ _ (Permutation_map _ PC)), map_map. apply qsum_map_ext. intros v _. apply TPv_f.
    + rewrite (seq_nth_map c' _ (TRv s')) by (intros k Hk; apply (RC' k Hk)). rewrite (seq_nth_map c _ (TRv s)) by (intros k Hk; apply (RC k Hk)).
      rewrite (qsum_perm _ _ (Permutation_map _ PC)), map_map. apply qsum_map_ext. intros v _. apply TRv_f.
    + rewrite (seq_nth_map c' _ (PRv s')) by (intros k Hk; apply (RC' k Hk)). rewrite (seq_nth_map c _ (PRv s)) by (intros k Hk; apply (RC k Hk)).
      rewrite (qsum_perm _ _ (Permutation_map _ PC)), map_map. apply qsum_map_ext. intros v _. apply PRv_f.
Qed.
End Rename.

(* ------------------------------------------------------------ regression *)
Lemma reg_perm loss yt yp yt' yp' j : length yt = length yp -> yt <> [] -> length yt' = length yp' -> Permutation (combine yt yp) (combine yt' yp') ->
  exists v v', reg_err loss None yt yp j = Some v /\ reg_err loss None yt' yp' j = Some v' /\ v == v'.
Proof.
  intros L Hne L' P. assert (LL: length yt = length yt').
  { pose proof (Permutation_length P) as H. rewrite !combine_length in H. lia. }
  assert (Hne': yt' <> []) by (intros ->; destruct yt; [congruence|discriminate]).
  destruct (reg_err_spec loss None yt yp j L Hne) as (v & E & V). destruct (reg_err_spec loss None yt' yp' j L' Hne') as (v' & E' & V').
  exists v, v'. split; [exact E|]. split; [exact E'|]. rewrite V, V', LL. rewrite (qsum_perm _ _ (Permutation_map _ P)). reflexivity.
Qed.
Lemma r2_perm s s' : Permutation s s' -> r2_raw s == r2_raw s'.
Proof.
  intros P. assert (EA: r2_avg s == r2_avg s').
  { unfold r2_avg. rewrite (qsum_perm _ _ (Permutation_map snd P)), (qsum_perm _ _ (Permutation_map (fun x => snd x * fst (fst x)) P)). reflexivity. }
  assert (EN: r2_num s == r2_num s') by (apply qsum_perm, Permutation_map; exact P).
  assert (ED: r2_den s == r2_den s').
  { unfold r2_den. rewrite (qsum_perm _ _ (Permutation_map _ P)). apply qsum_map_ext. intros x _. rewrite EA. reflexivity. }
  assert (EM: qmax (r2_den s) r2_tiny == qmax (r2_den s') r2_tiny).
  { unfold qmax. rewrite (Qleb_QQ _ r2_tiny _ r2_tiny ED (Qeq_refl _)). destruct (Qle_bool (r2_den s') r2_tiny); [reflexivity|exact ED]. }
  unfold r2_raw. rewrite EN, EM. reflexivity.
Qed.
Lemma row_eq_map (f : Z -> Z) : (forall a b, f a = f b -> a = b) -> forall r p, row_eq (map f r) (map f p) = row_eq r p.
Proof.
  intros Hf. induction r as [|a r IH]; intros [|b p]; cbn [map row_eq]; auto. rewrite IH. f_equal. apply Bool.eq_iff_eq_true. rewrite !Z.eqb_eq. split; [apply Hf|congruence].
Qed.
Lemma accuracy_map norm (g : list Z -> list Z) (s : list (list Z * list Z * Q)) : (forall x, In x s -> row_eq (g (fst (fst x))) (g (snd (fst x))) = row_eq (fst (fst x)) (snd (fst x))) ->
  accuracy norm (Some (map snd s)) (map fst s) = accuracy norm (Some (map snd s)) (map (fun x => (g (fst (fst x)), g (snd (fst x)))) s).
Proof.
  intros H. unfold accuracy. assert (E: forall w i N D, acc_loop i w (map fst s) N D = acc_loop i w (map (fun x => (g (fst (fst x)), g (snd (fst x)))) s) N D).
  { induction s as [|x s IH]; intros w i N D; cbn [map acc_loop]; auto. cbn [fst snd]. rewrite H by (cbn; auto). apply IH. intros; apply H; cbn; auto. }
  now rewrite E.
Qed.
Lemma accuracy_renamed (f : Z -> Z) (s s' : list (list Z * list Z * Q)) norm : (forall a b, f a = f b -> a = b) ->
  (forall x, In x s -> length (fst (fst x)) = length (snd (fst x))) ->
  Permutation (map (fun x => ((map f (fst (fst x)), map f (snd (fst x))), snd x)) s) s' ->
  match accuracy norm (Some (map snd s)) (map fst s), accuracy norm (Some (map snd s')) (map fst s') with
  | Some a, Some b => a == b | None, None => True | _, _ => False end.
Proof.
  intros Hf _ P. pose proof (accuracy_perm norm _ _ P) as A. rewrite !map_map in A. cbn [fst snd] in A.
  rewrite (accuracy_map norm (map f) s) by (intros; apply row_eq_map; auto). exact A.
Qed.
