(* Proofs about KernModel: kernel matrices are positive semidefinite. *)
From Coq Require Import Reals Lra Lia List Arith Bool.
From Verif Require Import MtModel MtProofs KernModel KernProofs.
Import ListNotations.
Open Scope R_scope.

Definition psd (n : nat) (K : rmtx) : Prop := forall c : nat -> R, 0 <= rs n (fun i => rs n (fun j => c i * c j * K i j)).
(* inner products of finite feature vectors, and limits of such *)
Definition gsum (l : list (nat -> R)) (i j : nat) : R := fold_right (fun f a => f i * f j + a) 0 l.
Definition gram (n : nat) (K : rmtx) : Prop := exists l, forall i j, (i < n)%nat -> (j < n)%nat -> K i j = gsum l i j.
Definition lgram (n : nat) (K : rmtx) : Prop := exists G : nat -> rmtx, (forall m, gram n (G m)) /\ forall i j, (i < n)%nat -> (j < n)%nat -> Un_cv (fun m => G m i j) (K i j).

Lemma gsum_app l l' i j : gsum (l ++ l') i j = gsum l i j + gsum l' i j.
Proof. unfold gsum. induction l as [|f l IH]; cbn [app fold_right]; [ring|]. rewrite IH. ring. Qed.
Lemma gsum_map1 f l i j : gsum (map (fun g x => f x * g x) l) i j = f i * f j * gsum l i j.
Proof. unfold gsum. induction l as [|g l IH]; cbn [map fold_right]; [ring|]. rewrite IH. ring. Qed.
Definition gprod (l l' : list (nat -> R)) : list (nat -> R) := flat_map (fun f => map (fun g x => f x * g x) l') l.
Lemma gsum_prod l l' i j : gsum (gprod l l') i j = gsum l i j * gsum l' i j.
Proof.
  unfold gprod. induction l as [|f l IH]; cbn [flat_map]; [unfold gsum; cbn [fold_right]; ring|]. rewrite gsum_app, gsum_map1, IH.
  change (gsum (f :: l) i j) with (f i * f j + gsum l i j). ring.
Qed.
Section N.
  Variable n : nat.
  Lemma gram_plus A B : gram n A -> gram n B -> gram n (fun i j => A i j + B i j).
  Proof. intros [l H] [l' H']. exists (l ++ l'). intros i j Hi Hj. now rewrite gsum_app, H, H'. Qed.
  Lemma gram_mult A B : gram n A -> gram n B -> gram n (fun i j => A i j * B i j).
  Proof. intros [l H] [l' H']. exists (gprod l l'). intros i j Hi Hj. now rewrite gsum_prod, H, H'. Qed.
  Lemma gram_const c : 0 <= c -> gram n (fun _ _ => c).
  Proof. intros H. exists [fun _ => sqrt c]. intros i j _ _. unfold gsum. cbn [fold_right]. rewrite sqrt_sqrt by exact H. ring. Qed.
  Lemma gram_pow A m : gram n A -> gram n (fun i j => A i j ^ m).
  Proof. intros H. induction m as [|m IH]; cbn [pow]; [apply gram_const; lra|now apply (gram_mult A)]. Qed.
  Lemma gram_ext A B : (forall i j, (i < n)%nat -> (j < n)%nat -> A i j = B i j) -> gram n A -> gram n B.
  Proof. intros E [l H]. exists l. intros i j Hi Hj. rewrite <- E by assumption. auto. Qed.
  Lemma gram_rank1 (f : nat -> R) : gram n (fun i j => f i * f j).
  Proof. exists [f]. intros i j _ _. unfold gsum. cbn [fold_right]. ring. Qed.
  Lemma gram_rs q (A : nat -> rmtx) : (forall k, (k < q)%nat -> gram n (A k)) -> gram n (fun i j => rs q (fun k => A k i j)).
  Proof.
    induction q as [|q IH]; intros H; cbn [rs]; [apply gram_const; lra|]. apply (gram_plus (fun i j => rs q (fun k => A k i j)) (A q)); auto.
  Qed.
  Lemma gram_dot q (U : rmtx) : gram n (fun i j => rs q (fun f => U i f * U j f)).
  Proof. apply (gram_rs q (fun f i j => U i f * U j f)). intros k _. apply (gram_rank1 (fun i => U i k)). Qed.
  Lemma gram_lgram A : gram n A -> lgram n A.
  Proof. intros H. exists (fun _ => A). split; auto. intros i j _ _ e He. exists O. intros m _. unfold R_dist. replace (A i j - A i j) with 0 by ring. rewrite Rabs_R0. exact He. Qed.
  Lemma lgram_plus A B : lgram n A -> lgram n B -> lgram n (fun i j => A i j + B i j).
  Proof. intros (G & H & C) (G' & H' & C'). exists (fun m i j => G m i j + G' m i j). split; [intros; now apply gram_plus|]. intros i j Hi Hj. apply CV_plus; auto. Qed.
  Lemma lgram_mult A B : lgram n A -> lgram n B -> lgram n (fun i j => A i j * B i j).
  Proof. intros (G & H & C) (G' & H' & C'). exists (fun m i j => G m i j * G' m i j). split; [intros; now apply gram_mult|]. intros i j Hi Hj. apply CV_mult; auto. Qed.
  Lemma lgram_pow A m : lgram n A -> lgram n (fun i j => A i j ^ m).
  Proof. intros H. induction m as [|m IH]; cbn [pow]; [apply gram_lgram, gram_const; lra|now apply (lgram_mult A)]. Qed.
  Lemma lgram_ext A B : (forall i j, (i < n)%nat -> (j < n)%nat -> A i j = B i j) -> lgram n A -> lgram n B.
  Proof. intros E (G & H & C). exists G. split; auto. intros i j Hi Hj. rewrite <- E by assumption. auto. Qed.

  Lemma sum_rs f m : sum_f_R0 f m = rs (S m) f.
  Proof. induction m as [|m IH]; cbn [sum_f_R0 rs] in *; [ring|]. now rewrite IH. Qed.
  Lemma exp_cv x : Un_cv (fun m => rs (S m) (fun k => / INR (fact k) * x ^ k)) (exp x).
  Proof. unfold exp. destruct (exist_exp x) as [l H]. cbn [proj1_sig]. intros e He. destruct (H e He) as [N HN]. exists N. intros m Hm. rewrite <- sum_rs. apply HN. exact Hm. Qed.
  Lemma lgram_exp A : gram n A -> lgram n (fun i j => exp (A i j)).
  Proof.
    intros H. exists (fun m i j => rs (S m) (fun k => / INR (fact k) * A i j ^ k)). split.
    - intros m. apply (gram_rs (S m) (fun k i j => / INR (fact k) * A i j ^ k)). intros k _. apply (gram_mult (fun _ _ => / INR (fact k)) (fun i j => A i j ^ k)); [|now apply gram_pow].
      apply gram_const. left. apply Rinv_0_lt_compat, INR_fact_lt_0.
    - intros i j _ _. apply exp_cv.
  Qed.
  Lemma lgram_rbf q (U : rmtx) : lgram n (fun i j => exp (- (1 / 2) * rs q (fun f => (U i f - U j f) * (U i f - U j f)))).
  Proof.
    set (a := fun i => exp (- (1 / 2) * rs q (fun f => U i f * U i f))).
    apply (lgram_ext (fun i j => a i * a j * exp (rs q (fun f => U i f * U j f)))).
    - intros i j _ _. unfold a. rewrite <- !exp_plus. f_equal. rewrite <- !rs_scale, <- !rs_plus. apply rs_ext. intros f _. field.
    - apply (lgram_mult (fun i j => a i * a j)); [apply gram_lgram, gram_rank1|]. apply (lgram_exp (fun i j => rs q (fun f => U i f * U j f))). apply gram_dot.
  Qed.

  (* equivalence classes of indices *)
  Section Cls.
    Variables (rel : nat -> nat -> bool).
    Hypotheses (Hrefl : forall i, (i < n)%nat -> rel i i = true) (Hsym : forall i j, (i < n)%nat -> (j < n)%nat -> rel i j = rel j i)
      (Htrans : forall i j k, (i < n)%nat -> (j < n)%nat -> (k < n)%nat -> rel i j = true -> rel j k = true -> rel i k = true).
    Fixpoint rep (m i : nat) : nat := match m with O => n | S m' => let r := rep m' i in if (r <? n)%nat then r else if rel i m' then m' else n end.
    Lemma rep_spec m i : (m <= n)%nat -> ((rep m i < m)%nat /\ rel i (rep m i) = true) \/ (rep m i = n /\ forall k, (k < m)%nat -> rel i k = false).
    Proof using.
      induction m as [|m IH]; intros H; cbn [rep]; [right; split; [auto|intros; lia]|]. destruct (IH ltac:(lia)) as [[A B]|[A B]].
      - destruct (Nat.ltb_spec (rep m i) n); [|lia]. left. split; [lia|exact B].
      - destruct (Nat.ltb_spec (rep m i) n); [lia|]. destruct (rel i m) eqn:E; [left; split; [lia|exact E]|]. right. split; [auto|].
        intros k Hk. destruct (Nat.eq_dec k m) as [-> |]; [exact E|]. apply B. lia.
    Qed.
    Lemma rep_ext m i j : (m <= n)%nat -> (i < n)%nat -> (j < n)%nat -> rel i j = true -> rep m i = rep m j.
    Proof using Hsym Htrans.
      intros Hm Hi Hj H. induction m as [|m IH]; [reflexivity|]. cbn [rep]. rewrite <- IH by lia.
      assert (E : rel i m = rel j m); [|now rewrite E].
      destruct (rel i m) eqn:E1, (rel j m) eqn:E2; try reflexivity.
      - assert (rel j m = true) by (apply (Htrans j i m); auto; rewrite Hsym; auto). congruence.
      - assert (rel i m = true) by (apply (Htrans i j m); auto). congruence.
    Qed.
    Lemma rep_iff i j : (i < n)%nat -> (j < n)%nat -> rel i j = true <-> rep n i = rep n j.
    Proof using Hrefl Hsym Htrans.
      intros Hi Hj. split; [now apply rep_ext|]. intros E.
      destruct (rep_spec n i ltac:(lia)) as [[A B]|[A B]]; [|pose proof (Hrefl i Hi) as X; rewrite (B i Hi) in X; discriminate].
      destruct (rep_spec n j ltac:(lia)) as [[A' B']|[A' B']]; [|pose proof (Hrefl j Hj) as X; rewrite (B' j Hj) in X; discriminate].
      rewrite <- E in B'. apply (Htrans i (rep n i) j); auto. rewrite Hsym; auto.
    Qed.
    Lemma gram_classes v : 0 <= v -> gram n (fun i j => if rel i j then v else 0).
    Proof using Hrefl Hsym Htrans.
      intros Hv. apply (gram_ext (fun i j => rs (S n) (fun k => (if Nat.eqb (rep n i) k then sqrt v else 0) * (if Nat.eqb (rep n j) k then sqrt v else 0)))).
      - intros i j Hi Hj. rewrite (rs_split (S n) (fun k => (if Nat.eqb (rep n i) k then sqrt v else 0) * (if Nat.eqb (rep n j) k then sqrt v else 0)) (rep n i)).
        2:{ destruct (rep_spec n i ltac:(lia)) as [[A _]|[A _]]; lia. }
        rewrite Nat.eqb_refl. rewrite (rs_ext (S n) _ (fun _ => 0)).
        2:{ intros k _. destruct (Nat.eqb_spec k (rep n i)); [reflexivity|]. destruct (Nat.eqb_spec (rep n i) k); [congruence|ring]. }
        rewrite rs_zero. destruct (rel i j) eqn:E.
        + apply rep_iff in E; auto. rewrite <- E, Nat.eqb_refl, sqrt_sqrt by exact Hv. ring.
        + destruct (Nat.eqb_spec (rep n j) (rep n i)) as [E2|]; [|ring]. symmetry in E2. apply rep_iff in E2; auto. congruence.
      - apply (gram_rs (S n) (fun k i j => (if Nat.eqb (rep n i) k then sqrt v else 0) * (if Nat.eqb (rep n j) k then sqrt v else 0))). intros k _. apply (gram_rank1 (fun i => if Nat.eqb (rep n i) k then sqrt v else 0)).
    Qed.
  End Cls.

  Lemma gram_psd A : gram n A -> psd n A.
  Proof.
    intros [l H] c. rewrite (rs_ext n _ (fun i => rs n (fun j => c i * c j * gsum l i j))).
    2:{ intros i Hi. apply rs_ext. intros j Hj. now rewrite H. }
    clear H. induction l as [|f l IH].
    - rewrite (rs_ext n _ (fun _ => 0)); [rewrite rs_zero; lra|]. intros i _. rewrite (rs_ext n _ (fun _ => 0)); [apply rs_zero|]. intros j _. unfold gsum. cbn [fold_right]. ring.
    - rewrite (rs_ext n _ (fun i => c i * f i * rs n (fun j => c j * f j) + rs n (fun j => c i * c j * gsum l i j))).
      2:{ intros i _. rewrite <- rs_scale, <- rs_plus. apply rs_ext. intros j _. change (gsum (f :: l) i j) with (f i * f j + gsum l i j). ring. }
      rewrite rs_plus. set (s := rs n (fun j => c j * f j)).
      rewrite (rs_ext n (fun i => c i * f i * s) (fun i => s * (c i * f i))) by (intros; ring). rewrite rs_scale. fold s. nra.
  Qed.
  Lemma CV_rs q (f : nat -> nat -> R) l : (forall k, (k < q)%nat -> Un_cv (fun m => f m k) (l k)) -> Un_cv (fun m => rs q (f m)) (rs q l).
  Proof.
    induction q as [|q IH]; intros H; cbn [rs].
    - intros e He. exists O. intros m _. unfold R_dist. rewrite Rminus_0_r, Rabs_R0. exact He.
    - apply (CV_plus (fun m => rs q (f m)) (fun m => f m q)); [apply IH; intros; apply H; lia|apply H; lia].
  Qed.
  Lemma CV_scal a f l : Un_cv f l -> Un_cv (fun m => a * f m) (a * l).
  Proof. intros H. apply (CV_mult (fun _ => a) f); [|exact H]. intros e He. exists O. intros m _. unfold R_dist. replace (a - a) with 0 by ring. rewrite Rabs_R0. exact He. Qed.
  Lemma CV_nonneg f l : Un_cv f l -> (forall m, 0 <= f m) -> 0 <= l.
  Proof.
    intros H F. destruct (Rle_or_lt 0 l) as [|Hl]; [assumption|]. exfalso. destruct (H (- l) ltac:(lra)) as [N HN]. specialize (HN N (Nat.le_refl _)). specialize (F N).
    unfold R_dist in HN. rewrite Rabs_pos_eq in HN by lra. lra.
  Qed.
  Lemma lgram_psd A : lgram n A -> psd n A.
  Proof.
    intros (G & H & C) c. apply (CV_nonneg (fun m => rs n (fun i => rs n (fun j => c i * c j * G m i j)))); [|intros m; now apply (gram_psd (G m))].
    apply (CV_rs n (fun m i => rs n (fun j => c i * c j * G m i j)) (fun i => rs n (fun j => c i * c j * A i j))). intros i Hi.
    apply (CV_rs n (fun m j => c i * c j * G m i j) (fun j => c i * c j * A i j)). intros j Hj. apply CV_scal. now apply C.
  Qed.
End N.

Section K.
  Variables (pw : R -> R -> R) (p n : nat) (X : rmtx).
  Hypothesis Hpw : forall v m, pw v (INR m) = v ^ m.
  (* parameters that make a covariance: no negative constant or noise, natural exponents, and rows that WhiteKernel takes for
     equal form classes *)
  Fixpoint pk (k : kern R) : Prop :=
    match k with
    | KConst c _ => 0 <= c
    | KWhite v _ => 0 <= v /\ forall i j l, (i < n)%nat -> (j < n)%nat -> (l < n)%nat -> near p (X i) (X j) = true -> near p (X j) (X l) = true -> near p (X i) (X l) = true
    | KRBF _ _ | KDot _ _ => True
    | KSum k1 k2 | KProd k1 k2 => pk k1 /\ pk k2
    | KExp k e => pk k /\ exists m, e = INR m
    end.
  Lemma pk_lgram k : forall K, pk k -> eval pw p k X X = Some K -> lgram n K.
  Proof using Hpw.
    induction k as [c b|v b|ls bs|s b|k1 IH1 k2 IH2|k1 IH1 k2 IH2|k IH e]; intros K H E; cbn [pk eval] in *.
    - injection E as <-. now apply gram_lgram, gram_const.
    - injection E as <-. destruct H as [Hv Ht]. apply gram_lgram. apply (gram_classes n (fun i j => near p (X i) (X j))); eauto; intros; [apply near_refl|apply near_sym].
    - destruct (rbf_scale p ls (fun _ => 0)) eqn:E0; [|discriminate]. injection E as <-.
      apply (lgram_ext n (fun i j => exp (- (1 / 2) * rs p (fun f => (match rbf_scale p ls (X i) with Some x => x f | None => 0 end - match rbf_scale p ls (X j) with Some x => x f | None => 0 end) *
        (match rbf_scale p ls (X i) with Some x => x f | None => 0 end - match rbf_scale p ls (X j) with Some x => x f | None => 0 end))))).
      + intros i j _ _. destruct (rbf_scale_some p ls (X i)) as [x ->]; [congruence|]. destruct (rbf_scale_some p ls (X j)) as [y ->]; [congruence|]. reflexivity.
      + apply (lgram_rbf n p (fun i f => match rbf_scale p ls (X i) with Some x => x f | None => 0 end)).
    - injection E as <-. apply gram_lgram. apply (gram_plus n (fun _ _ => s * s)); [apply gram_const; nra|]. apply gram_dot.
    - destruct H as [H1 H2]. destruct (eval pw p k1 X X) as [K1|]; [|discriminate]. destruct (eval pw p k2 X X) as [K2|]; [|discriminate]. injection E as <-. apply lgram_plus; auto.
    - destruct H as [H1 H2]. destruct (eval pw p k1 X X) as [K1|]; [|discriminate]. destruct (eval pw p k2 X X) as [K2|]; [|discriminate]. injection E as <-. apply lgram_mult; auto.
    - destruct H as [H1 [m ->]]. destruct (eval pw p k X X) as [K1|]; [|discriminate]. injection E as <-.
      apply (lgram_ext n (fun i j => K1 i j ^ m)); [intros; now rewrite Hpw|]. apply lgram_pow; auto.
  Qed.
End K.
