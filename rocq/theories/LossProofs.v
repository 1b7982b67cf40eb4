(* Proofs about LossModel.v *)
From Coq Require Import Reals Lra Lia List Arith Psatz.
From Verif Require Import MtModel MtProofs LossModel.
Import ListNotations.
Open Scope R_scope.

Notation D := derivable_pt_lim.
Lemma D_ext f g x l : (forall t, f t = g t) -> D f x l -> D g x l.
Proof. intros E H e He. destruct (H e He) as [d Hd]. exists d. intros h H0 H1. rewrite <- !E. now apply Hd. Qed.
Lemma D_val f x l l' : l = l' -> D f x l -> D f x l'.
Proof. now intros ->. Qed.
Lemma D_const c x : D (fun _ => c) x 0.
Proof. apply derivable_pt_lim_const. Qed.
Lemma D_id x : D (fun t => t) x 1.
Proof. apply derivable_pt_lim_id. Qed.
Lemma D_plus f g x a b : D f x a -> D g x b -> D (fun t => f t + g t) x (a + b).
Proof. intros. now apply (derivable_pt_lim_plus f g). Qed.
Lemma D_minus f g x a b : D f x a -> D g x b -> D (fun t => f t - g t) x (a - b).
Proof. intros. now apply (derivable_pt_lim_minus f g). Qed.
Lemma D_mult f g x a b : D f x a -> D g x b -> D (fun t => f t * g t) x (a * g x + f x * b).
Proof. intros. now apply (derivable_pt_lim_mult f g). Qed.
Lemma D_scal c f x a : D f x a -> D (fun t => c * f t) x (c * a).
Proof. intros. now apply (derivable_pt_lim_scal f c). Qed.
Lemma D_comp f g x a b : D f x a -> D g (f x) b -> D (fun t => g (f t)) x (b * a).
Proof. intros. now apply (derivable_pt_lim_comp f g). Qed.
Lemma D_sq f x a : D f x a -> D (fun t => f t * f t) x (2 * f x * a).
Proof. intros H. eapply D_val; [|exact (D_mult _ _ _ _ _ H H)]. ring. Qed.
Lemma D_rs m (f : nat -> R -> R) x d : (forall i, (i < m)%nat -> D (f i) x (d i)) -> D (fun t => rs m (fun i => f i t)) x (rs m d).
Proof.
  induction m as [|m IH]; intros H; cbn [rs]; [apply D_const|].
  apply (D_plus (fun t => rs m (fun i => f i t)) (f m)); [apply IH; auto|auto].
Qed.
(* only what happens near x matters *)
Lemma D_local f g x l (e : R) : 0 < e -> (forall t, Rabs (t - x) < e -> f t = g t) -> D f x l -> D g x l.
Proof.
  intros He E H eps Heps. destruct (H eps Heps) as [d Hd].
  assert (Hm : 0 < Rmin d e) by (apply Rmin_pos; [apply cond_pos|exact He]).
  exists (mkposreal _ Hm). cbn. intros h H0 H1. rewrite <- (E (x + h)), <- (E x).
  - apply Hd; [exact H0|]. apply Rlt_le_trans with (1 := H1), Rmin_l.
  - replace (x - x) with 0 by ring. rewrite Rabs_R0. exact He.
  - replace (x + h - x) with h by ring. apply Rlt_le_trans with (1 := H1), Rmin_r.
Qed.

(* ---------------------------------------------------------------- activations *)
Lemma logistic_range x : 0 < 1 / (1 + exp (- x)) < 1.
Proof.
  pose proof (exp_pos (- x)). split; [apply Rdiv_lt_0_compat; lra|].
  apply Rmult_lt_reg_r with (1 + exp (- x)); [lra|]. field_simplify; lra.
Qed.
Lemma cosh_pos x : 0 < cosh x.
Proof. unfold cosh. pose proof (exp_pos x). pose proof (exp_pos (- x)). lra. Qed.
Lemma act_deriv a x : (a = AReLU -> x <> 0) -> D (actF a) x (actFp a (actF a x)).
Proof.
  destruct a; intros Hx; unfold actF, actFp.
  - apply D_id.
  - pose proof (exp_pos (- x)) as P.
    assert (H : D (fun t => 1 + exp (- t)) x (- exp (- x))).
    { apply (D_val _ _ (0 + exp (- x) * (-1))); [ring|]. apply D_plus; [apply D_const|].
      apply (D_comp (fun t => - t) exp); [|apply derivable_pt_lim_exp].
      apply (D_ext (fun t => (-1) * t)); [intros; ring|]. apply (D_val _ _ (-1 * 1)); [ring|]. apply D_scal, D_id. }
    pose proof (derivable_pt_lim_div (fct_cte 1) (fun t => 1 + exp (- t)) x 0 (- exp (- x)) (D_const 1 x) H ltac:(lra)) as G.
    apply (D_ext (div_fct (fct_cte 1) (fun t => 1 + exp (- t)))); [reflexivity|].
    eapply D_val; [|exact G]. unfold fct_cte, Rsqr. field. lra.
  - pose proof (cosh_pos x) as P.
    pose proof (derivable_pt_lim_div sinh cosh x (cosh x) (sinh x) (derivable_pt_lim_sinh x) (derivable_pt_lim_cosh x) ltac:(lra)) as G.
    apply (D_ext (div_fct sinh cosh)); [reflexivity|]. eapply D_val; [|exact G]. unfold tanh, Rsqr. field. lra.
  - specialize (Hx eq_refl). destruct (rltb_spec x 0) as [L|L].
    + destruct (Rle_dec 0 0); [|lra]. apply (D_local (fun _ => 0) _ x 0 (- x)); [lra| |apply D_const].
      intros t Ht. apply Rabs_def2 in Ht. destruct (rltb_spec t 0); [reflexivity|lra].
    + destruct (Rle_dec x 0); [lra|]. apply (D_local (fun t => t) _ x 1 x); [lra| |apply D_id].
      intros t Ht. apply Rabs_def2 in Ht. destruct (rltb_spec t 0); [lra|reflexivity].
Qed.

Section L.
  Variables (n p q : nat) (X Y : rmtx).
  Notation z := (zz p X).

  Lemma zz_set2 th j o t i b : (j < p)%nat -> z (set2 th j o t) i b = if Nat.eqb b o then z th i o + X i j * (t - th j o) else z th i b.
  Proof.
    intros Hj. unfold zz. destruct (Nat.eqb_spec b o) as [->|N].
    - rewrite (rs_split p (fun k => X i k * set2 th j o t k o) j Hj), (rs_split p (fun k => X i k * th k o) j Hj).
      rewrite (rs_ext p (fun k => if Nat.eqb k j then 0 else X i k * set2 th j o t k o) (fun k => if Nat.eqb k j then 0 else X i k * th k o)).
      2:{ intros k Hk. unfold set2. destruct (Nat.eqb k j); reflexivity. }
      unfold set2. rewrite !Nat.eqb_refl. cbn [andb]. ring.
    - apply rs_ext. intros k Hk. unfold set2. destruct (Nat.eqb_spec b o); [contradiction|]. now rewrite Bool.andb_false_r.
  Qed.

  (* the sum of a loss over all samples and outputs *)
  Lemma partial_data (l : nat -> nat -> R -> R) (d : nat -> R) th j o : (j < p)%nat -> (o < q)%nat ->
    (forall i, (i < n)%nat -> D (l i o) (z th i o) (d i)) ->
    D (fun t => rs n (fun i => rs q (fun b => l i b (z (set2 th j o t) i b)))) (th j o) (rs n (fun i => X i j * d i)).
  Proof.
    intros Hj Ho H. apply D_rs. intros i Hi.
    apply (D_ext (fun t => l i o (z th i o + X i j * (t - th j o)) + rs q (fun b => if Nat.eqb b o then 0 else l i b (z th i b)))).
    { intros t. rewrite (rs_split q (fun b => l i b (z (set2 th j o t) i b)) o Ho). rewrite zz_set2, Nat.eqb_refl by exact Hj. f_equal.
      apply rs_ext. intros b Hb. destruct (Nat.eqb b o) eqn:E; [reflexivity|]. rewrite zz_set2, E by exact Hj. reflexivity. }
    apply (D_val _ _ (d i * (X i j) + 0)); [ring|]. apply D_plus; [|apply D_const].
    apply (D_comp (fun t => z th i o + X i j * (t - th j o)) (l i o)).
    - apply (D_val _ _ (0 + X i j * (1 - 0))); [ring|]. apply D_plus; [apply D_const|]. apply D_scal. apply D_minus; [apply D_id|apply D_const].
    - replace (z th i o + X i j * (th j o - th j o)) with (z th i o) by ring. now apply H.
  Qed.
  (* the sum of a penalty over the penalised coefficients *)
  Lemma partial_pen (r : R -> R) (d : R) skip th j o : (j < p)%nat -> (o < q)%nat ->
    ((skip && Nat.eqb j 0)%bool = false -> D r (th j o) d) ->
    D (fun t => rsf p skip (fun a => rs q (fun b => r (set2 th j o t a b)))) (th j o) (if (skip && Nat.eqb j 0)%bool then 0 else d).
  Proof.
    intros Hj Ho H. unfold rsf.
    apply (D_ext (fun t => (if (skip && Nat.eqb j 0)%bool then 0 else r t + rs q (fun b => if Nat.eqb b o then 0 else r (th j b))) +
       rs p (fun a => if Nat.eqb a j then 0 else if (skip && Nat.eqb a 0)%bool then 0 else rs q (fun b => r (th a b))))).
    { intros t. rewrite (rs_split p (fun a => if (skip && Nat.eqb a 0)%bool then 0 else rs q (fun b => r (set2 th j o t a b))) j Hj). f_equal.
      - destruct (skip && Nat.eqb j 0)%bool; [reflexivity|]. rewrite (rs_split q (fun b => r (set2 th j o t j b)) o Ho). unfold set2 at 1. rewrite !Nat.eqb_refl. cbn [andb]. f_equal.
        apply rs_ext. intros b Hb. unfold set2. rewrite Nat.eqb_refl. cbn [andb]. destruct (Nat.eqb b o); reflexivity.
      - apply rs_ext. intros a Haa. destruct (Nat.eqb a j) eqn:E; [reflexivity|]. destruct (skip && Nat.eqb a 0)%bool; [reflexivity|].
        apply rs_ext. intros b Hb. unfold set2. now rewrite E. }
    destruct (skip && Nat.eqb j 0)%bool; [apply D_const|].
    apply (D_val _ _ ((d + 0) + 0)); [ring|]. apply D_plus; [|apply D_const]. apply D_plus; [now apply H|apply D_const].
  Qed.

  (* ------------------------------------------------------------- SquareLoss *)
  Lemma sq_data a th j o : (0 < n)%nat -> (j < p)%nat -> (o < q)%nat -> (a = AReLU -> forall i, (i < n)%nat -> z th i o <> 0) ->
    D (fun t => rs n (fun i => rs q (fun b => (actF a (z (set2 th j o t) i b) - Y i b) * (actF a (z (set2 th j o t) i b) - Y i b)))) (th j o)
      (2 * rs n (fun i => X i j * ((actF a (z th i o) - Y i o) * actFp a (actF a (z th i o))))).
  Proof.
    intros Hn Hj Ho Hr. rewrite <- rs_scale.
    rewrite (rs_ext n _ (fun i => X i j * (2 * (actF a (z th i o) - Y i o) * actFp a (actF a (z th i o))))) by (intros; ring).
    apply (partial_data (fun i b x => (actF a x - Y i b) * (actF a x - Y i b))); auto. intros i Hi.
    apply (D_sq (fun x => actF a x - Y i o)). apply (D_val _ _ (actFp a (actF a (z th i o)) - 0)); [ring|].
    apply D_minus; [apply act_deriv; intros; now apply Hr|apply D_const].
  Qed.
  Lemma INRn : (0 < n)%nat -> INR n <> 0.
  Proof. intros. apply not_0_INR. lia. Qed.
  Lemma sq_d a th j o : match a with
      | AIdentity => rs n (fun i => X i j * (actF a (z th i o) - Y i o))
      | _ => rs n (fun i => (actF a (z th i o) - Y i o) * X i j * actFp a (actF a (z th i o)))
      end = rs n (fun i => X i j * ((actF a (z th i o) - Y i o) * actFp a (actF a (z th i o)))).
  Proof. destruct a; apply rs_ext; intros i Hi; cbn [actFp]; ring. Qed.

  (* the gradient is off by (alpha - 1) theta / n, for the L2 penalty *)
  Lemma sq_l2 a alpha skip th j o g : (0 < n)%nat -> (j < p)%nat -> (o < q)%nat -> 0 <= alpha -> (a = AReLU -> forall i, (i < n)%nat -> z th i o <> 0) ->
    sq_grad n p q X Y a alpha 0 skip th j o = Some g ->
    D (fun t => sq_J n p q X Y a alpha 0 skip (set2 th j o t)) (th j o)
      (g + (if (rltb 0 alpha && negb (skip && Nat.eqb j 0))%bool then (alpha - 1) * th j o / INR n else 0)).
  Proof.
    intros Hn Hj Ho Ha Hr. unfold sq_grad, sq_J. cbv zeta. rewrite sq_d. set (d := rs n _).
    pose proof (INRn Hn) as Hn'. pose proof (sq_data a th j o Hn Hj Ho Hr) as HD. fold d in HD.
    assert (Z : rltb 0 0 = false) by (destruct (rltb_spec 0 0); [lra|reflexivity]).
    assert (Z1 : rltb 0 1 = true) by (destruct (rltb_spec 0 1); [reflexivity|lra]).
    destruct (rltb_spec 0 alpha) as [L|L].
    - unfold reg_g. rewrite Z, Z1. cbn [andb]. unfold reg_J. rewrite Z, Z1.
      assert (HP : D (fun t => alpha * rsf p skip (fun a0 => rs q (fun b => (1 - 0) * (set2 th j o t a0 b * set2 th j o t a0 b)) + 0 * 0)) (th j o)
                 (alpha * (if (skip && Nat.eqb j 0)%bool then 0 else 2 * th j o))).
      { apply D_scal. apply (D_ext (fun t => rsf p skip (fun a0 => rs q (fun b => set2 th j o t a0 b * set2 th j o t a0 b)))).
        - intros t. unfold rsf. apply rs_ext. intros a0 Ha0. destruct (skip && Nat.eqb a0 0)%bool; [reflexivity|].
          rewrite (rs_ext q (fun b => (1 - 0) * (set2 th j o t a0 b * set2 th j o t a0 b)) (fun b => set2 th j o t a0 b * set2 th j o t a0 b)) by (intros; ring). ring.
        - apply (partial_pen (fun x => x * x)); auto. intros _. apply (D_val _ _ (2 * th j o * 1)); [ring|]. apply (D_sq (fun x => x)). apply D_id. }
      pose proof (D_plus _ _ _ _ _ HD HP) as HS. apply (D_scal (/ (2 * INR n))) in HS.
      destruct (skip && Nat.eqb j 0)%bool; intros E; injection E as <-; cbn [negb].
      + refine (D_ext _ _ _ _ _ (D_val _ _ _ _ _ HS)); [intros t; unfold Rdiv; ring|]. field. exact Hn'.
      + refine (D_ext _ _ _ _ _ (D_val _ _ _ _ _ HS)); [intros t; unfold Rdiv; ring|]. field. exact Hn'.
    - intros E. injection E as <-. cbn [andb]. apply (D_scal (/ (2 * INR n))) in HD.
      refine (D_ext _ _ _ _ _ (D_val _ _ _ _ _ HD)); [intros t; unfold Rdiv; ring|]. field. exact Hn'.
  Qed.

  (* ------------------------------------------------------- CrossEntropyLoss *)
  Lemma ce_deriv y x : D (fun t => let h := clip (actF ALogistic t) in - y * ln h - (1 - y) * ln (1 - h)) x (actF ALogistic x - y).
  Proof.
    apply (D_ext (fun t => - y * ln (actF ALogistic t) - (1 - y) * ln (1 - actF ALogistic t))).
    { intros t. cbv zeta. unfold clip. pose proof (logistic_range t). cbn [actF].
      destruct (Rle_dec (1 / (1 + exp (- t))) 0); [lra|]. destruct (Rle_dec 1 (1 / (1 + exp (- t)))); [lra|]. reflexivity. }
    pose proof (logistic_range x) as R. pose proof (act_deriv ALogistic x ltac:(discriminate)) as H. set (h := actF ALogistic x) in *. change (1 / (1 + exp (- x))) with h in R.
    cbn [actFp] in H.
    apply (D_val _ _ (- y * (/ h * (h * (1 - h))) - (1 - y) * (/ (1 - h) * (0 - h * (1 - h))))); [field; lra|].
    apply D_minus; apply D_scal.
    - apply (D_comp (actF ALogistic) ln); [exact H|]. apply derivable_pt_lim_ln. fold h. lra.
    - apply (D_comp (fun t => 1 - actF ALogistic t) ln); [apply D_minus; [apply D_const|exact H]|]. apply derivable_pt_lim_ln. fold h. lra.
  Qed.
  Lemma sgn_abs c : c <> 0 -> D Rabs c (sgn c).
  Proof.
    intros Hc. unfold sgn. destruct (rltb_spec c 0) as [L|L]; [apply Rabs_derive_2; exact L|].
    destruct (rltb_spec 0 c) as [G|G]; [apply Rabs_derive_1; exact G|]. lra.
  Qed.
  Lemma ce_gradient alpha l1 skip th j o : (0 < n)%nat -> (j < p)%nat -> (o < q)%nat -> (l1 = 0 \/ th j o <> 0) ->
    D (fun t => ce_J n p q X Y ALogistic alpha l1 skip (set2 th j o t)) (th j o) (ce_grad n p X Y ALogistic alpha l1 skip th j o).
  Proof.
    intros Hn Hj Ho Hl. unfold ce_J, ce_grad. cbv zeta. pose proof (INRn Hn) as Hn'.
    pose proof (partial_data (fun i b x => let h := clip (actF ALogistic x) in - Y i b * ln h - (1 - Y i b) * ln (1 - h)) (fun i => actF ALogistic (z th i o) - Y i o) th j o Hj Ho (fun i _ => ce_deriv (Y i o) (z th i o))) as HD.
    cbv zeta in HD. set (d := rs n (fun i => X i j * _)) in *.
    destruct (rltb_spec 0 alpha) as [L|L].
    - assert (HP : D (fun t => ce_reg p q alpha l1 skip (set2 th j o t)) (th j o) (alpha * (l1 * (if (skip && Nat.eqb j 0)%bool then 0 else sgn (th j o)) + (1 - l1) * (if (skip && Nat.eqb j 0)%bool then 0 else th j o)))).
      { unfold ce_reg. apply D_scal. apply D_plus.
        - destruct Hl as [-> | Hl].
          + apply (D_ext (fun _ => 0)); [intros; ring|]. apply (D_val _ _ 0); [ring|]. apply D_const.
          + apply D_scal. apply (partial_pen Rabs); auto. intros _. now apply sgn_abs.
        - apply D_scal. apply (partial_pen (fun x => x * x / 2)); auto. intros _.
          apply (D_ext (fun x => / 2 * (x * x))); [intros; field|]. apply (D_val _ _ (/ 2 * (2 * th j o * 1))); [field|]. apply D_scal, (D_sq (fun x => x)), D_id. }
      pose proof (D_plus _ _ _ _ _ HD HP) as HS. apply (D_scal (/ INR n)) in HS.
      destruct (skip && Nat.eqb j 0)%bool.
      + refine (D_ext _ _ _ _ _ (D_val _ _ _ _ _ HS)); [intros t; unfold Rdiv; ring|]. field. exact Hn'.
      + refine (D_ext _ _ _ _ _ (D_val _ _ _ _ _ HS)); [intros t; unfold Rdiv; ring|]. field. exact Hn'.
    - apply (D_scal (/ INR n)) in HD. refine (D_ext _ _ _ _ _ (D_val _ _ _ _ _ HD)); [intros t; unfold Rdiv; ring|]. field. exact Hn'.
  Qed.
  (* other activations: the sum of the derivatives by the linear predictors *)
  Lemma clip_local h : 0 < h < 1 -> clip h = h.
  Proof. intros H. unfold clip. destruct (Rle_dec h 0); [lra|]. destruct (Rle_dec 1 h); [lra|]. reflexivity. Qed.
  Lemma clip01_local h : 0 < h < 1 -> clip01 h = h.
  Proof. intros H. unfold clip01. destruct (reqb_spec h 0); [lra|]. destruct (reqb_spec h 1); [lra|]. reflexivity. Qed.
  (* a differentiable function stays inside (0, 1) for a while *)
  Lemma D_inside f x l (g1 g2 : R -> R) d : D f x l -> 0 < f x < 1 -> (forall t, 0 < f t < 1 -> g1 t = g2 t) -> D g1 x d -> D g2 x d.
  Proof.
    intros HD HR HE HG. assert (CT : continuity_pt f x) by (apply derivable_continuous_pt; exists l; exact HD).
    set (e := Rmin (f x) (1 - f x)). assert (He : 0 < e) by (unfold e; apply Rmin_pos; lra).
    destruct (CT e He) as (al & Hal & B). apply (D_local g1 g2 x d al); [exact Hal| |exact HG].
    intros t Ht. apply HE. destruct (Req_dec t x) as [->|N]; [exact HR|].
    assert (C : Rabs (f t - f x) < e). { apply (B t). split; [split; [exact I|auto]|]. exact Ht. }
    apply Rabs_def2 in C. unfold e in C. pose proof (Rmin_l (f x) (1 - f x)). pose proof (Rmin_r (f x) (1 - f x)). lra.
  Qed.
  Lemma ce_term_deriv a y x : (a = AReLU -> x <> 0) -> 0 < actF a x < 1 ->
    D (fun t => let h := clip (actF a t) in - y * ln h - (1 - y) * ln (1 - h)) x (ce_term a y (actF a x)).
  Proof.
    intros Ha HR. pose proof (act_deriv a x Ha) as H.
    apply (D_inside (actF a) x (actFp a (actF a x)) (fun t => - y * ln (actF a t) - (1 - y) * ln (1 - actF a t)) _ _ H HR).
    { intros t Ht. cbv zeta. now rewrite clip_local. }
    set (h := actF a x) in *. set (h' := actFp a h) in *.
    apply (D_val _ _ (- y * (/ h * h') - (1 - y) * (/ (1 - h) * (0 - h')))).
    { unfold ce_term. fold h'. destruct (reqb_spec y 1) as [->|]; [field; lra|]. destruct (reqb_spec y 0) as [->|]; field; lra. }
    apply D_minus; apply D_scal.
    - apply (D_comp (actF a) ln); [exact H|]. apply derivable_pt_lim_ln. fold h. lra.
    - apply (D_comp (fun t => 1 - actF a t) ln); [apply D_minus; [apply D_const|exact H]|]. apply derivable_pt_lim_ln. fold h. lra.
  Qed.
  Lemma ce_bias a alpha l1 skip th j o : a <> ALogistic -> (0 < n)%nat -> (j < p)%nat -> (o < q)%nat -> (l1 = 0 \/ th j o <> 0) ->
    (forall i, (i < n)%nat -> X i j = 1) -> (forall i, (i < n)%nat -> 0 < actF a (z th i o) < 1) ->
    D (fun t => ce_J n p q X Y a alpha l1 skip (set2 th j o t)) (th j o) (ce_grad n p X Y a alpha l1 skip th j o).
  Proof.
    intros NL Hn Hj Ho Hl HX HR. unfold ce_J, ce_grad. cbv zeta. pose proof (INRn Hn) as Hn'.
    assert (RE : a = AReLU -> forall i, (i < n)%nat -> z th i o <> 0).
    { intros -> i Hi E. specialize (HR i Hi). rewrite E in HR. cbn [actF] in HR. destruct (rltb_spec 0 0); lra. }
    pose proof (partial_data (fun i b x => let h := clip (actF a x) in - Y i b * ln h - (1 - Y i b) * ln (1 - h)) (fun i => ce_term a (Y i o) (actF a (z th i o))) th j o Hj Ho
      (fun i Hi => ce_term_deriv a (Y i o) (z th i o) (fun E => RE E i Hi) (HR i Hi))) as HD.
    cbv zeta in HD. rewrite (rs_ext n (fun i => X i j * _) (fun i => ce_term a (Y i o) (actF a (z th i o)))) in HD by (intros i Hi; rewrite HX by exact Hi; ring).
    assert (DE : match a with ALogistic => rs n (fun i => X i j * (actF a (z th i o) - Y i o)) | _ => rs n (fun i => ce_term a (Y i o) (actF a (z th i o))) end = rs n (fun i => ce_term a (Y i o) (actF a (z th i o)))) by (destruct a; congruence).
    rewrite DE. set (d := rs n (fun i => ce_term a _ _)) in *.
    destruct (rltb_spec 0 alpha) as [L|L].
    - assert (HP : D (fun t => ce_reg p q alpha l1 skip (set2 th j o t)) (th j o) (alpha * (l1 * (if (skip && Nat.eqb j 0)%bool then 0 else sgn (th j o)) + (1 - l1) * (if (skip && Nat.eqb j 0)%bool then 0 else th j o)))).
      { unfold ce_reg. apply D_scal. apply D_plus.
        - destruct Hl as [-> | Hl].
          + apply (D_ext (fun _ => 0)); [intros; ring|]. apply (D_val _ _ 0); [ring|]. apply D_const.
          + apply D_scal. apply (partial_pen Rabs); auto. intros _. now apply sgn_abs.
        - apply D_scal. apply (partial_pen (fun x => x * x / 2)); auto. intros _.
          apply (D_ext (fun x => / 2 * (x * x))); [intros; field|]. apply (D_val _ _ (/ 2 * (2 * th j o * 1))); [field|]. apply D_scal, (D_sq (fun x => x)), D_id. }
      pose proof (D_plus _ _ _ _ _ HD HP) as HS. apply (D_scal (/ INR n)) in HS.
      destruct (skip && Nat.eqb j 0)%bool.
      + refine (D_ext _ _ _ _ _ (D_val _ _ _ _ _ HS)); [intros t; unfold Rdiv; ring|]. field. exact Hn'.
      + refine (D_ext _ _ _ _ _ (D_val _ _ _ _ _ HS)); [intros t; unfold Rdiv; ring|]. field. exact Hn'.
    - apply (D_scal (/ INR n)) in HD. refine (D_ext _ _ _ _ _ (D_val _ _ _ _ _ HD)); [intros t; unfold Rdiv; ring|]. field. exact Hn'.
  Qed.
  (* ---------------------------------------------------------------- LogLoss *)
  Lemma log_term_deriv a y x : (a = AReLU -> x <> 0) -> 0 < actF a x < 1 -> D (fun t => - y * ln (clip01 (actF a t))) x (- y * actFp a (actF a x) / actF a x).
  Proof.
    intros Ha HR. pose proof (act_deriv a x Ha) as H.
    apply (D_inside (actF a) x (actFp a (actF a x)) (fun t => - y * ln (actF a t)) _ _ H HR).
    { intros t Ht. now rewrite clip01_local. }
    apply (D_val _ _ (- y * (/ actF a x * actFp a (actF a x)))); [field; lra|]. apply D_scal.
    apply (D_comp (actF a) ln); [exact H|]. apply derivable_pt_lim_ln. lra.
  Qed.
  Lemma log_bias a alpha skip th j o g : (0 < n)%nat -> (j < p)%nat -> (o < q)%nat -> 0 <= alpha ->
    (forall i, (i < n)%nat -> X i j = 1) -> (forall i, (i < n)%nat -> 0 < actF a (z th i o) < 1) ->
    log_grad n p q X Y a alpha 0 skip th j o = Some g ->
    D (fun t => log_J n p q X Y a alpha 0 skip (set2 th j o t)) (th j o)
      (g + (if (rltb 0 alpha && negb (skip && Nat.eqb j 0))%bool then (2 * alpha - 1) * th j o / INR n else 0)).
  Proof.
    intros Hn Hj Ho Ha HX HR. unfold log_grad, log_J. cbv zeta. pose proof (INRn Hn) as Hn'.
    assert (RE : a = AReLU -> forall i, (i < n)%nat -> z th i o <> 0).
    { intros -> i Hi E. specialize (HR i Hi). rewrite E in HR. cbn [actF] in HR. destruct (rltb_spec 0 0); lra. }
    pose proof (partial_data (fun i b x => - Y i b * ln (clip01 (actF a x))) (fun i => - Y i o * actFp a (actF a (z th i o)) / actF a (z th i o)) th j o Hj Ho
      (fun i Hi => log_term_deriv a (Y i o) (z th i o) (fun E => RE E i Hi) (HR i Hi))) as HD.
    rewrite (rs_ext n (fun i => X i j * _) (fun i => - Y i o * actFp a (actF a (z th i o)) / actF a (z th i o))) in HD by (intros i Hi; rewrite HX by exact Hi; ring).
    set (d := rs n (fun i => - Y i o * actFp a (actF a (z th i o)) / _)) in *.
    assert (Z : rltb 0 0 = false) by (destruct (rltb_spec 0 0); [lra|reflexivity]).
    assert (Z1 : rltb 0 1 = true) by (destruct (rltb_spec 0 1); [reflexivity|lra]).
    destruct (rltb_spec 0 alpha) as [L|L].
    - unfold reg_g. rewrite Z, Z1. cbn [andb]. unfold reg_J. rewrite Z, Z1.
      assert (HP : D (fun t => alpha * rsf p skip (fun a0 => rs q (fun b => (1 - 0) * (set2 th j o t a0 b * set2 th j o t a0 b)) + 0 * 0)) (th j o)
                 (alpha * (if (skip && Nat.eqb j 0)%bool then 0 else 2 * th j o))).
      { apply D_scal. apply (D_ext (fun t => rsf p skip (fun a0 => rs q (fun b => set2 th j o t a0 b * set2 th j o t a0 b)))).
        - intros t. unfold rsf. apply rs_ext. intros a0 Ha0. destruct (skip && Nat.eqb a0 0)%bool; [reflexivity|].
          rewrite (rs_ext q (fun b => (1 - 0) * (set2 th j o t a0 b * set2 th j o t a0 b)) (fun b => set2 th j o t a0 b * set2 th j o t a0 b)) by (intros; ring). ring.
        - apply (partial_pen (fun x => x * x)); auto. intros _. apply (D_val _ _ (2 * th j o * 1)); [ring|]. apply (D_sq (fun x => x)). apply D_id. }
      pose proof (D_plus _ _ _ _ _ HD HP) as HS. apply (D_scal (/ INR n)) in HS.
      destruct (skip && Nat.eqb j 0)%bool; intros E; injection E as <-; cbn [negb].
      + refine (D_ext _ _ _ _ _ (D_val _ _ _ _ _ HS)); [intros t; unfold Rdiv; ring|]. field. exact Hn'.
      + refine (D_ext _ _ _ _ _ (D_val _ _ _ _ _ HS)); [intros t; unfold Rdiv; ring|]. field. exact Hn'.
    - intros E. injection E as <-. cbn [andb]. apply (D_scal (/ INR n)) in HD.
      refine (D_ext _ _ _ _ _ (D_val _ _ _ _ _ HD)); [intros t; unfold Rdiv; ring|]. field. exact Hn'.
  Qed.
  (* ------------------------------------------------------------- the values *)
  Lemma rs_nonneg m f : (forall i, (i < m)%nat -> 0 <= f i) -> 0 <= rs m f.
  Proof. induction m as [|m IH]; intros H; cbn [rs]; [lra|]. assert (0 <= f m) by (apply H; lia). assert (0 <= rs m f) by (apply IH; intros; apply H; lia). lra. Qed.
  Lemma clip_in h : 0 < clip h < 1.
  Proof. unfold clip. destruct (Rle_dec h 0); [lra|]. destruct (Rle_dec 1 h); lra. Qed.
  Lemma ce_one_nonneg y h : 0 <= y <= 1 -> 0 < h < 1 -> 0 <= - y * ln h - (1 - y) * ln (1 - h).
  Proof.
    intros Hy Hh. assert (L1 : ln h < 0) by (rewrite <- ln_1; apply ln_increasing; lra). assert (L2 : ln (1 - h) < 0) by (rewrite <- ln_1; apply ln_increasing; lra). nra.
  Qed.
  Lemma ce_J_nonneg a alpha l1 skip th : (0 < n)%nat -> 0 <= l1 <= 1 -> (forall i o, (i < n)%nat -> (o < q)%nat -> 0 <= Y i o <= 1) -> 0 <= ce_J n p q X Y a alpha l1 skip th.
  Proof.
    intros Hn Hl HY. unfold ce_J. assert (0 < INR n) by (apply lt_0_INR; lia). apply Rmult_le_pos; [|left; now apply Rinv_0_lt_compat]. apply Rplus_le_le_0_compat.
    - apply rs_nonneg. intros i Hi. apply rs_nonneg. intros o Ho. cbv zeta. apply ce_one_nonneg; [now apply HY|apply clip_in].
    - destruct (rltb_spec 0 alpha); [|lra]. unfold ce_reg. apply Rmult_le_pos; [lra|]. apply Rplus_le_le_0_compat; (apply Rmult_le_pos; [lra|]); unfold rsf; apply rs_nonneg; intros k _; (destruct (skip && Nat.eqb k 0)%bool; [lra|]); apply rs_nonneg; intros o _; [apply Rabs_pos|]. pose proof (Rle_0_sqr (th k o)) as S. unfold Rsqr in S. lra.
  Qed.
End L.

(* ------------------------------------------------------------ SGDRegressor *)
Lemma sgn_cases g : sgn g = -1 /\ g < 0 \/ sgn g = 1 /\ 0 < g \/ sgn g = 0 /\ g = 0.
Proof. unfold sgn. destruct (rltb_spec g 0); [auto|]. destruct (rltb_spec 0 g); [auto|]. right. right. split; [reflexivity|lra]. Qed.
Lemma sgd_zero n p X Y alpha l1 o c j : 0 <= alpha -> 0 <= l1 <= 1 ->
  sgd_grad n p X Y alpha l1 o c j = 0 <-> rs n (fun i => X i j * (rs p (fun k => X i k * c k) - Y i o)) = 0.
Proof.
  intros Ha Hl. unfold sgd_grad. cbv zeta. set (g := rs n _). set (N := / INR n).
  assert (HN : 0 <= N). { unfold N. destruct n as [|m]; [cbn; rewrite Rinv_0; lra|]. left. apply Rinv_0_lt_compat. apply lt_0_INR. lia. }
  assert (A1 : 0 <= alpha * l1 * N) by (apply Rmult_le_pos; nra). assert (A2 : 0 <= alpha * (1 - l1) * N) by (apply Rmult_le_pos; [apply Rmult_le_pos; lra|lra]).
  unfold Rdiv. fold N. generalize dependent (alpha * l1 * N). generalize dependent (alpha * (1 - l1) * N). intros a2 A2 a1 A1.
  destruct (sgn_cases g) as [[-> L] | [[-> L] | [-> ->]]]; split; intros H; nra.
Qed.
Lemma sgd_scaled n p X Y l1 o c j : (0 < n)%nat -> (j < p)%nat ->
  D (fun t => sgd_J n p X Y 0 l1 o (fun k => if Nat.eqb k j then t else c k)) (c j) (sgd_grad n p X Y 0 l1 o c j / INR n).
Proof.
  intros Hn Hj. assert (Hn' : INR n <> 0) by (apply not_0_INR; lia).
  pose proof (partial_data n p 1 X (fun i _ x => (x - Y i o) * (x - Y i o)) (fun i => 2 * (rs p (fun k => X i k * c k) - Y i o) * 1) (fun k _ => c k) j 0 Hj ltac:(lia)) as H.
  specialize (H ltac:(intros i Hi; apply (D_sq (fun x => x - Y i o)); apply (D_val _ _ (1 - 0)); [ring|]; apply D_minus; [apply D_id|apply D_const])).
  apply (D_scal (/ 2 * / INR n)) in H.
  assert (Z : rltb 0 0 = false) by (destruct (rltb_spec 0 0); [lra|reflexivity]).
  refine (D_ext _ _ _ _ _ (D_val _ _ _ _ _ H)).
  - intros t. unfold sgd_J. rewrite Z. unfold Rdiv. rewrite Rplus_0_r. rewrite Rmult_comm, Rmult_assoc. f_equal.
    + apply rs_ext. intros i Hi. cbn [rs]. rewrite Rplus_0_l.
      assert (E : zz p X (set2 (fun k _ => c k) j 0 t) i 0 = rs p (fun j0 => X i j0 * (if Nat.eqb j0 j then t else c j0))).
      { unfold zz. apply rs_ext. intros k Hk. unfold set2. rewrite Nat.eqb_refl, Bool.andb_true_r. reflexivity. }
      now rewrite E.
  - unfold sgd_grad. cbv zeta. rewrite (rs_ext n (fun i => X i j * (2 * (rs p (fun k => X i k * c k) - Y i o) * 1)) (fun i => 2 * (X i j * (rs p (fun k => X i k * c k) - Y i o)))) by (intros; ring).
    rewrite rs_scale. unfold Rdiv. field. exact Hn'.
Qed.

(* one output, any mix of penalties, away from 0 *)
Lemma sq_mix n p X Y a alpha l1 skip th j g : (0 < n)%nat -> (j < p)%nat -> 0 < alpha -> 0 <= l1 <= 1 -> th j 0%nat <> 0 ->
  (a = AReLU -> forall i, (i < n)%nat -> zz p X th i 0 <> 0) ->
  sq_grad n p 1 X Y a alpha l1 skip th j 0 = Some g ->
  D (fun t => sq_J n p 1 X Y a alpha l1 skip (set2 th j 0 t)) (th j 0%nat)
    (g + (if (skip && Nat.eqb j 0)%bool then 0 else (l1 * (alpha / 2 - 1) * sgn (th j 0%nat) + (1 - l1) * (alpha - 1) * th j 0%nat) / INR n)).
Proof.
  intros Hn Hj Ha Hl Ht Hr. unfold sq_grad, sq_J. cbv zeta. rewrite sq_d. set (d := rs n _).
  assert (Hn' : INR n <> 0) by (apply not_0_INR; lia). pose proof (sq_data n p 1 X Y a th j 0 Hn Hj ltac:(lia) Hr) as HD. fold d in HD.
  destruct (rltb_spec 0 alpha) as [L|L]; [|lra].
  assert (HP : D (fun t => reg_J p 1 alpha l1 skip (set2 th j 0 t)) (th j 0%nat)
     (alpha * (if (skip && Nat.eqb j 0)%bool then 0 else (1 - l1) * (2 * th j 0%nat * 1) + l1 * sgn (th j 0%nat)))).
  { unfold reg_J. apply D_scal.
    apply (D_ext (fun t => rsf p skip (fun a0 => rs 1 (fun b => (fun x => (1 - l1) * (x * x) + l1 * Rabs x) (set2 th j 0 t a0 b))))).
    - intros t. unfold rsf. apply rs_ext. intros a0 Ha0. destruct (skip && Nat.eqb a0 0)%bool; [reflexivity|]. cbn [rs Nat.eqb].
      set (x := set2 th j 0 t a0 0%nat). destruct (rltb_spec l1 1), (rltb_spec 0 l1); try (replace l1 with 1 by lra); try (replace l1 with 0 by lra); try ring; lra.
    - apply (partial_pen p 1 (fun x => (1 - l1) * (x * x) + l1 * Rabs x)); auto. intros _. apply D_plus; apply D_scal; [apply (D_sq (fun x => x)), D_id|now apply sgn_abs]. }
  pose proof (D_plus _ _ _ _ _ HD HP) as HS. apply (D_scal (/ (2 * INR n))) in HS.
  assert (En : nrm2 1 (th j) = Rabs (th j 0%nat)) by (unfold nrm2; cbn [rs]; rewrite Rplus_0_l; rewrite <- (sqrt_Rsqr_abs (th j 0%nat)); reflexivity).
  assert (Es : th j 0%nat / Rabs (th j 0%nat) = sgn (th j 0%nat)).
  { unfold sgn. destruct (rltb_spec (th j 0%nat) 0) as [N|N]; [rewrite Rabs_left by lra; field; lra|]. rewrite Rabs_right by lra. destruct (rltb_spec 0 (th j 0%nat)); [field; lra|lra]. }
  unfold reg_g. destruct (skip && Nat.eqb j 0)%bool.
  - intros E. injection E as <-. refine (D_ext _ _ _ _ _ (D_val _ _ _ _ _ HS)); [intros t; unfold Rdiv; ring|]. field. exact Hn'.
  - destruct (reqb_spec (nrm2 1 (th j)) 0) as [Z|Z]; [exfalso; rewrite En in Z; apply Rabs_no_R0 in Ht; lra|]. rewrite Bool.andb_false_r.
    intros E. injection E as <-. refine (D_ext _ _ _ _ _ (D_val _ _ _ _ _ HS)); [intros t; unfold Rdiv; ring|].
    assert (E1 : (if rltb 0 l1 then l1 * th j 0%nat / nrm2 1 (th j) else 0) = l1 * sgn (th j 0%nat)).
    { rewrite En, <- Es. destruct (rltb_spec 0 l1); [unfold Rdiv; ring|]. replace l1 with 0 by lra. ring. }
    assert (E2 : (if rltb l1 1 then (1 - l1) * th j 0%nat else 0) = (1 - l1) * th j 0%nat).
    { destruct (rltb_spec l1 1); [reflexivity|]. replace l1 with 1 by lra. ring. }
    rewrite E1, E2. field. exact Hn'.
Qed.

(* cross entropy with another activation: one sample, x = 2, theta = 1/4, y = 0 *)
Lemma ce_identity : D (fun t => ce_J 1 1 1 (fun _ _ => 2) (fun _ _ => 0) AIdentity 0 0 false (set2 (fun _ _ => / 4) 0 0 t)) (/ 4) 4 /\
  ce_grad 1 1 (fun _ _ => 2) (fun _ _ => 0) AIdentity 0 0 false (fun _ _ => / 4) 0 0 = 2.
Proof.
  assert (Z : rltb 0 0 = false) by (destruct (rltb_spec 0 0); [lra|reflexivity]). split.
  - apply (D_local (fun t => -1 * ln (1 - 2 * t)) _ _ _ (/ 8)); [lra| |].
    + intros t Ht. apply Rabs_def2 in Ht. unfold ce_J. rewrite Z. cbn [rs actF INR]. unfold zz. cbn [rs]. unfold set2. cbn [Nat.eqb andb].
      rewrite !Rplus_0_l. unfold clip. destruct (Rle_dec (2 * t) 0); [lra|]. destruct (Rle_dec 1 (2 * t)); [lra|]. field.
    + apply (D_val _ _ (-1 * (/ (1 - 2 * / 4) * (0 - 2 * 1)))); [field|]. apply D_scal. apply (D_comp (fun t => 1 - 2 * t) ln).
      * apply D_minus; [apply D_const|apply D_scal, D_id].
      * apply derivable_pt_lim_ln. lra.
  - unfold ce_grad. rewrite Z. cbn [rs actF INR]. unfold zz. cbn [rs]. unfold ce_term. cbn [actFp].
    destruct (reqb_spec 0 1); [lra|]. destruct (reqb_spec 0 0); [|lra]. field.
Qed.
Lemma log_identity : D (fun t => log_J 1 1 1 (fun _ _ => 2) (fun _ _ => 1) AIdentity 0 0 false (set2 (fun _ _ => / 4) 0 0 t)) (/ 4) (-4) /\
  log_grad 1 1 1 (fun _ _ => 2) (fun _ _ => 1) AIdentity 0 0 false (fun _ _ => / 4) 0 0 = Some (-2).
Proof.
  assert (Z : rltb 0 0 = false) by (destruct (rltb_spec 0 0); [lra|reflexivity]). split.
  - apply (D_local (fun t => -1 * ln (2 * t)) _ _ _ (/ 8)); [lra| |].
    + intros t Ht. apply Rabs_def2 in Ht. unfold log_J. rewrite Z. cbn [rs actF INR]. unfold zz. cbn [rs]. unfold set2. cbn [Nat.eqb andb].
      rewrite !Rplus_0_l. unfold clip01. destruct (reqb_spec (2 * t) 0); [lra|]. destruct (reqb_spec (2 * t) 1); [lra|]. field.
    + apply (D_val _ _ (-1 * (/ (2 * / 4) * (2 * 1)))); [field|]. apply D_scal. apply (D_comp (fun t => 2 * t) ln).
      * apply D_scal, D_id.
      * apply derivable_pt_lim_ln. lra.
  - unfold log_grad. rewrite Z. cbn [rs actF INR]. unfold zz. cbn [rs]. cbn [actFp]. f_equal. field.
Qed.

(* ------------------------------------------------------------------- LinFit *)
Lemma best_spec {T} (h : list (T * option R * R)) : forall th jb rm,
  let '(th', jb', rm') := fold_left linfit_epoch h (th, jb, rm) in
  match jb' with
  | None => th' = th /\ jb = None /\ forall e, In e h -> snd (fst e) = None
  | Some b => ((th' = th /\ jb = Some b) \/ exists r, In (th', Some b, r) h) /\
      (forall c, jb = Some c -> b <= c) /\ forall t j r, In (t, Some j, r) h -> b <= j
  end /\ rm' = match rev h with [] => rm | e :: _ => snd e end.
Proof.
  induction h as [|[[t j] r] h IH]; intros th jb rm; cbn [fold_left rev].
  - split; [|reflexivity]. destruct jb as [b|].
    + split; [left; auto|]. split; [intros c E; injection E as <-; lra|]. intros ? ? ? [].
    + split; [reflexivity|]. split; [reflexivity|]. intros e [].
  - unfold linfit_epoch at 2. cbn [fst snd].
    assert (ER : forall rm0, match rev h ++ [(t, j, r)] with [] => rm0 | e :: _ => snd e end = match rev h with [] => r | e :: _ => snd e end) by (intros; destruct (rev h); reflexivity).
    rewrite ER. clear ER. destruct (jless j jb) eqn:E.
    + specialize (IH t j r). destruct (fold_left linfit_epoch h (t, j, r)) as [[th' jb'] rm']. destruct IH as [A B]. split; [|exact B].
      destruct j as [j|]; [|discriminate]. destruct jb' as [b|]; [|destruct A as (_ & A & _); discriminate].
      destruct A as (A1 & A2 & A3). pose proof (A2 j eq_refl) as Hbj. split.
      * right. destruct A1 as [[-> E2]|[r' A1]]; [injection E2 as ->; exists r; left; reflexivity|exists r'; right; exact A1].
      * split; [intros c ->; cbn in E; destruct (rltb_spec j c); [lra|discriminate]|]. intros t' j' r' [H|H]; [injection H as <- <- <-; lra|exact (A3 _ _ _ H)].
    + specialize (IH th jb r). destruct (fold_left linfit_epoch h (th, jb, r)) as [[th' jb'] rm']. destruct IH as [A B]. split; [|exact B].
      destruct jb' as [b|].
      * destruct A as (A1 & A2 & A3). split; [destruct A1 as [A1|[r' A1]]; [left; exact A1|right; exists r'; right; exact A1]|]. split; [exact A2|].
        intros t' j' r' [H|H]; [|exact (A3 _ _ _ H)]. injection H as <- -> <-.
        destruct jb as [c|]; [|discriminate]. cbn in E. destruct (rltb_spec j' c); [discriminate|]. specialize (A2 c eq_refl). lra.
      * destruct A as (A1 & A2 & A3). split; [exact A1|]. split; [exact A2|]. intros e [<-|H]; [|now apply A3]. cbn. subst jb. destruct j; [discriminate|reflexivity].
Qed.
