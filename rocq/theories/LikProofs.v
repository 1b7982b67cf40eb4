(* The likelihood of Yeo-Johnson and Box-Cox models *)
From Coq Require Import Reals Lra Lia List Arith Bool.
From Verif Require Import MtModel MtProofs PowerModel PowerProofs LikModel.
Import ListNotations.
Open Scope R_scope.

(* log of the normal density *)
Definition gauss_log (mu s2 y : R) : R := - ln (2 * PI * s2) / 2 - (y - mu) * (y - mu) / (2 * s2).
(* the value of a transform; 0 where it is NaN *)
Definition val (o : option R) : R := match o with Some y => y | None => 0 end.
(* log-likelihood of data whose transforms are normal with mean mu and variance s2; d are the derivatives of the transform at
   the data points (change of variables) *)
Definition loglik (t : R -> option R) (mu s2 : R) (x d : list R) : R :=
  rsum (map (fun xi => gauss_log mu s2 (val (t xi))) x) + rsum (map ln d).
Definition derivatives (t : R -> option R) (x d : list R) : Prop :=
  Forall2 (fun xi di => derivable_pt_lim (fun z => val (t z)) xi di) x d.
(* the constant by which minus the objective and the largest log-likelihood differ *)
Definition lik_const (n : nat) : R := INR n / 2 * ln (INR n) - INR n / 2 * (ln (2 * PI) + 1).

Lemma rsum_plus {A} (f g : A -> R) l : rsum (map (fun a => f a + g a) l) = rsum (map f l) + rsum (map g l).
Proof. unfold rsum. induction l as [|a l IH]; cbn; [lra|]. rewrite IH. lra. Qed.
Lemma rsum_scale {A} c (f : A -> R) l : rsum (map (fun a => c * f a) l) = c * rsum (map f l).
Proof. unfold rsum. induction l as [|a l IH]; cbn; [lra|]. rewrite IH. lra. Qed.
Lemma rsum_const {A} c (l : list A) : rsum (map (fun _ => c) l) = INR (length l) * c.
Proof. unfold rsum. induction l as [|a l IH]; [cbn; lra|]. cbn [map fold_right length]. rewrite S_INR, IH. lra. Qed.
Lemma rsum_ext {A} (f g : A -> R) l : (forall a, In a l -> f a = g a) -> rsum (map f l) = rsum (map g l).
Proof. intros H. f_equal. apply map_ext_in. exact H. Qed.
Lemma rsum_nonneg {A} (f : A -> R) l : (forall a, In a l -> 0 <= f a) -> 0 <= rsum (map f l).
Proof. unfold rsum. induction l as [|a l IH]; intros H; cbn; [lra|]. pose proof (H a (or_introl eq_refl)). pose proof (IH (fun b Hb => H b (or_intror Hb))). lra. Qed.
Lemma rsum_pos {A} (f : A -> R) l b : (forall a, In a l -> 0 <= f a) -> In b l -> 0 < f b -> 0 < rsum (map f l).
Proof.
  induction l as [|a l IH]; intros H Hb P; [contradiction|]. unfold rsum in *. cbn.
  pose proof (rsum_nonneg f l (fun b Hb => H b (or_intror Hb))) as N. unfold rsum in N.
  destruct Hb as [-> |Hb]; [lra|]. pose proof (H a (or_introl eq_refl)). pose proof (IH (fun b Hb => H b (or_intror Hb)) Hb P). lra.
Qed.

Definition dev (m : R) (t : list R) : R := rsum (map (fun y => (y - m) * (y - m)) t).
Lemma dev_shift t m : (0 < length t)%nat -> dev m t = var1 t + INR (length t) * ((rsum t / INR (length t) - m) * (rsum t / INR (length t) - m)).
Proof.
  intros Hn. assert (Hn' : 0 < INR (length t)) by (apply lt_0_INR; lia).
  unfold dev, var1. set (a := rsum t / INR (length t)).
  assert (Ha : rsum t = INR (length t) * a) by (unfold a; field; lra).
  assert (E : forall c, rsum (map (fun y => (y - c) * (y - c)) t) = rsum (map (fun y => y * y) t) + -2 * c * rsum t + INR (length t) * (c * c)).
  { intros c. rewrite (rsum_ext _ (fun y => (y * y + -2 * c * y) + c * c)) by (intros; ring).
    rewrite rsum_plus, rsum_plus, rsum_const, rsum_scale, map_id. reflexivity. }
  rewrite E. rewrite (rsum_ext (fun y => (y + - a) * (y + - a)) (fun y => (y - a) * (y - a))) by (intros; ring).
  rewrite E, Ha. cbn [INR]. field.
Qed.
Lemma var1_pos t a b : In a t -> In b t -> a <> b -> 0 < var1 t.
Proof.
  intros Ha Hb N. unfold var1. set (m := rsum t / INR (length t)). cbn [INR].
  destruct (Req_dec a m) as [E|E].
  - assert (0 < rsum (map (fun y => (y + - m) * (y + - m)) t)); [|lra].
    apply rsum_pos with b; auto; [intros y _; apply (Rle_0_sqr (y + - m))|]. apply (Rsqr_pos_lt (b + - m)). lra.
  - assert (0 < rsum (map (fun y => (y + - m) * (y + - m)) t)); [|lra].
    apply rsum_pos with a; auto; [intros y _; apply (Rle_0_sqr (y + - m))|]. apply (Rsqr_pos_lt (a + - m)). lra.
Qed.

Lemma ln_le_sub u : 0 < u -> ln u <= u - 1.
Proof. intros H. pose proof (exp_ineq1_le (ln u)) as X. rewrite exp_ln in X by exact H. lra. Qed.

Lemma gauss_sum mu s2 t : 0 < s2 -> rsum (map (gauss_log mu s2) t) = - INR (length t) / 2 * ln (2 * PI * s2) - dev mu t / (2 * s2).
Proof.
  intros H. unfold gauss_log, dev.
  rewrite (rsum_ext _ (fun y => (- ln (2 * PI * s2) / 2) + (- / (2 * s2)) * ((y - mu) * (y - mu)))) by (intros; field; lra).
  rewrite rsum_plus, rsum_const, rsum_scale. field. lra.
Qed.
(* the largest normal log-likelihood of given values *)
Lemma gauss_max t mu s2 : (0 < length t)%nat -> 0 < var1 t -> 0 < s2 ->
  rsum (map (gauss_log mu s2) t) <= - INR (length t) / 2 * ln (var1 t) + lik_const (length t).
Proof.
  intros Hn Hv Hs. assert (Hn' : 0 < INR (length t)) by (apply lt_0_INR; lia). pose proof PI_RGT_0.
  rewrite gauss_sum by exact Hs. rewrite (ln_mult (2 * PI) s2) by lra. unfold lik_const. rewrite dev_shift by exact Hn.
  set (n := INR (length t)) in *. set (q := rsum t / n - mu). set (S := var1 t) in *.
  pose proof (ln_le_sub (S / (n * s2))) as L. specialize (L ltac:(apply Rdiv_lt_0_compat; nra)).
  unfold Rdiv in L at 1. rewrite ln_mult, ln_Rinv, ln_mult in L; try lra; try nra; [|apply Rinv_0_lt_compat; nra].
  assert (E : (S + n * (q * q)) / (2 * s2) = n / 2 * (S / (n * s2)) + n * (q * q) / (2 * s2)) by (field; lra).
  rewrite E. assert (0 <= n * (q * q) / (2 * s2)). { apply Rmult_le_pos; [nra|]. left. apply Rinv_0_lt_compat. lra. }
  nra.
Qed.
Lemma gauss_max_at t : (0 < length t)%nat -> 0 < var1 t ->
  let mu := rsum t / INR (length t) in let s2 := var1 t / INR (length t) in
  0 < s2 /\ rsum (map (gauss_log mu s2) t) = - INR (length t) / 2 * ln (var1 t) + lik_const (length t).
Proof.
  intros Hn Hv. cbn zeta. assert (Hn' : 0 < INR (length t)) by (apply lt_0_INR; lia). pose proof PI_RGT_0.
  assert (Hs : 0 < var1 t / INR (length t)) by (apply Rdiv_lt_0_compat; lra). split; [exact Hs|].
  rewrite gauss_sum by exact Hs. rewrite (ln_mult (2 * PI)) by lra. rewrite dev_shift by exact Hn. unfold lik_const.
  set (n := INR (length t)) in *. set (S := var1 t) in *. 
  assert (LD : ln (S / n) = ln S - ln n). { unfold Rdiv. rewrite ln_mult, ln_Rinv; try lra. apply Rinv_0_lt_compat; lra. }
  rewrite LD. field. lra.
Qed.

Lemma mapo_val (t : R -> option R) x : (forall a, In a x -> t a <> None) -> mapo t x = Some (map (fun a => val (t a)) x).
Proof.
  induction x as [|a x IH]; intros H; [reflexivity|]. cbn. rewrite IH by (intros b Hb; apply H; right; exact Hb).
  destruct (t a) eqn:E; [reflexivity|]. destruct (H a (or_introl eq_refl) E).
Qed.
Lemma mapo_none (t : R -> option R) x a : In a x -> t a = None -> mapo t x = None.
Proof.
  induction x as [|b x IH]; intros Ha E; [contradiction|]. destruct Ha as [-> |Hx]; cbn; [rewrite E; reflexivity|]. rewrite (IH Hx E). destruct (t b); reflexivity.
Qed.

(* what is common to the two methods: the data, the derivatives with their logarithms, two values told apart *)
Lemma nll_lik (t : R -> R -> option R) sumlog x d l a b :
  (forall c, In c x -> t l c <> None) -> In a x -> In b x -> val (t l a) <> val (t l b) ->
  rsum (map ln d) = (l - 1) * sumlog ->
  exists v, nll t sumlog x l = Some v /\
    (forall mu s2, 0 < s2 -> loglik (t l) mu s2 x d <= - v + lik_const (length x)) /\
    (exists mu s2, 0 < s2 /\ loglik (t l) mu s2 x d = - v + lik_const (length x)).
Proof.
  intros H Ha Hb N J. unfold nll. rewrite mapo_val by exact H. cbn [bind]. set (xt := map (fun c => val (t l c)) x).
  assert (Hn : (0 < length xt)%nat) by (unfold xt; rewrite map_length; destruct x; [contradiction|cbn; lia]).
  assert (Hv : 0 < var1 xt).
  { apply var1_pos with (val (t l a)) (val (t l b)); [|auto..]; unfold xt.
    - apply in_map_iff. exists a. auto.
    - apply in_map_iff. exists b. auto. }
  destruct (rltb_spec 0 (var1 xt)) as [_|G]; [|lra].
  assert (E : length xt = length x) by apply map_length.
  assert (L : forall mu s2, loglik (t l) mu s2 x d = rsum (map (gauss_log mu s2) xt) + (l - 1) * sumlog).
  { intros mu s2. unfold loglik, xt. rewrite map_map, J. reflexivity. }
  eexists. split; [reflexivity|]. split.
  - intros mu s2 Hs. rewrite L. pose proof (gauss_max xt mu s2 Hn Hv Hs). rewrite E in *. lra.
  - destruct (gauss_max_at xt Hn Hv) as (Hs & X). eexists. eexists. split; [exact Hs|]. rewrite L, X, E. lra.
Qed.

(* -------------------------------------------------------- derivatives *)
Lemma derivable_eq f g x d eps : 0 < eps -> (forall h, Rabs h < eps -> f (x + h) = g (x + h)) -> derivable_pt_lim g x d -> derivable_pt_lim f x d.
Proof.
  intros He E D e Pe. destruct (D e Pe) as (del & Hd). assert (Hm : 0 < Rmin del eps) by (apply Rmin_pos; [apply (cond_pos del)|exact He]).
  exists (mkposreal _ Hm). intros h Hh Lh. cbn in Lh. rewrite E by (apply Rlt_le_trans with (1 := Lh), Rmin_r).
  rewrite <- (Rplus_0_r x) at 2. rewrite E by (rewrite Rabs_R0; exact He). rewrite Rplus_0_r. apply Hd; [exact Hh|].
  apply Rlt_le_trans with (1 := Lh), Rmin_l.
Qed.
Lemma derivable_glue f g k x d : (forall h, 0 <= h -> f (x + h) = g (x + h)) -> (forall h, h <= 0 -> f (x + h) = k (x + h)) ->
  derivable_pt_lim g x d -> derivable_pt_lim k x d -> derivable_pt_lim f x d.
Proof.
  intros Eg Ek Dg Dk e Pe. destruct (Dg e Pe) as (d1 & H1), (Dk e Pe) as (d2 & H2).
  assert (Hm : 0 < Rmin d1 d2) by (apply Rmin_pos; [apply (cond_pos d1)|apply (cond_pos d2)]).
  exists (mkposreal _ Hm). intros h Hh Lh. cbn in Lh.
  assert (L1 : Rabs h < d1) by (apply Rlt_le_trans with (1 := Lh), Rmin_l).
  assert (L2 : Rabs h < d2) by (apply Rlt_le_trans with (1 := Lh), Rmin_r).
  assert (G0 := Eg 0 (Rle_refl 0)). assert (K0 := Ek 0 (Rle_refl 0)). rewrite Rplus_0_r in G0, K0.
  destruct (Rle_or_lt 0 h) as [P|P].
  - rewrite Eg, G0 by exact P. apply H1; auto.
  - rewrite Ek, K0 by lra. apply H2; auto.
Qed.

Lemma d_pow c s e x : 0 < c + s * x -> e <> 0 -> derivable_pt_lim (fun z => (Rpower (c + s * z) e - 1) / e) x (s * Rpower (c + s * x) (e - 1)).
Proof.
  intros H He.
  assert (D : derivable_pt_lim (fun z => c + s * z) x (0 + s * 1)).
  { apply derivable_pt_lim_plus with (f1 := fun _ => c) (f2 := fun z => s * z); [apply derivable_pt_lim_const|].
    apply derivable_pt_lim_scal with (f := fun z => z). apply derivable_pt_lim_id. }
  pose proof (derivable_pt_lim_comp (fun z => c + s * z) (fun u => Rpower u e) x _ _ D (derivable_pt_lim_power _ e H)) as C.
  unfold comp in C.
  pose proof (derivable_pt_lim_minus _ (fun _ => 1) x _ _ C (derivable_pt_lim_const 1 x)) as M. unfold minus_fct in M.
  pose proof (derivable_pt_lim_scal _ (/ e) x _ M) as S. unfold mult_real_fct in S.
  replace (s * Rpower (c + s * x) (e - 1)) with (/ e * (e * Rpower (c + s * x) (e - 1) * (0 + s * 1) - 0)) by (field; exact He).
  apply derivable_eq with (g := fun z => / e * (Rpower (c + s * z) e - 1)) (eps := 1); [lra| |exact S].
  intros h _. unfold Rdiv. ring.
Qed.
Lemma d_ln c s x : 0 < c + s * x -> derivable_pt_lim (fun z => ln (c + s * z)) x (s * / (c + s * x)).
Proof.
  intros H.
  assert (D : derivable_pt_lim (fun z => c + s * z) x (0 + s * 1)).
  { apply derivable_pt_lim_plus with (f1 := fun _ => c) (f2 := fun z => s * z); [apply derivable_pt_lim_const|].
    apply derivable_pt_lim_scal with (f := fun z => z). apply derivable_pt_lim_id. }
  pose proof (derivable_pt_lim_comp (fun z => c + s * z) ln x _ _ D (derivable_pt_lim_ln _ H)) as C. unfold comp in C.
  replace (s * / (c + s * x)) with (/ (c + s * x) * (0 + s * 1)) by ring. exact C.
Qed.

(* the two branches of yjr as functions on their own *)
Definition yj_up (l z : R) : R := (Rpower (1 + 1 * z) l - 1) / l.
Definition yj_dn (l z : R) : R := if reqb l 2 then - ln (1 + -1 * z) else - ((Rpower (1 + -1 * z) (2 - l) - 1) / (2 - l)).
Lemma d_up l x : -1 < x -> l <> 0 -> derivable_pt_lim (yj_up l) x (Rpower (1 + x) (l - 1)).
Proof. intros H Hl. replace (Rpower (1 + x) (l - 1)) with (1 * Rpower (1 + 1 * x) (l - 1)) by (rewrite !Rmult_1_l; reflexivity). apply d_pow; [lra|exact Hl]. Qed.
Lemma d_dn l x : x < 1 -> derivable_pt_lim (yj_dn l) x (Rpower (1 - x) (1 - l)).
Proof.
  intros H. unfold yj_dn. destruct (reqb_spec l 2) as [-> |N].
  - replace (Rpower (1 - x) (1 - 2)) with (- (-1 * / (1 + -1 * x))).
    + apply derivable_pt_lim_opp with (f := fun z => ln (1 + -1 * z)). apply d_ln. lra.
    + replace (1 - 2) with (- (1)) by ring. rewrite Rpower_Ropp, Rpower_1 by lra. replace (1 + -1 * x) with (1 - x) by ring. ring.
  - replace (Rpower (1 - x) (1 - l)) with (- (-1 * Rpower (1 + -1 * x) (2 - l - 1))).
    + apply derivable_pt_lim_opp with (f := fun z => (Rpower (1 + -1 * z) (2 - l) - 1) / (2 - l)). apply d_pow; lra.
    + replace (1 + -1 * x) with (1 - x) by ring. replace (2 - l - 1) with (1 - l) by ring. ring.
Qed.
Lemma yjr_up l z : 0 <= z -> yjr l z = yj_up l z.
Proof. intros H. unfold yjr, yj_up. destruct (rltb_spec z 0); [lra|]. rewrite Rmult_1_l. reflexivity. Qed.
Lemma yjr_dn l z : l <> 0 -> z <= 0 -> yjr l z = yj_dn l z.
Proof.
  intros Hl H. unfold yjr, yj_dn. replace (1 + -1 * z) with (1 - z) by ring. destruct (rltb_spec z 0) as [G|G]; [reflexivity|].
  assert (z = 0) by lra. subst z. rewrite Rplus_0_r, Rminus_0_r, !Rpower_one, ln_1. destruct (reqb l 2); unfold Rdiv; lra.
Qed.

Definition yj_dens (l x : R) : R := if rltb x 0 then Rpower (1 - x) (1 - l) else Rpower (1 + x) (l - 1).
Lemma yj_derivative l x : l <> 0 -> derivable_pt_lim (fun z => val (yj l z)) x (yj_dens l x).
Proof.
  intros Hl. assert (V : forall z, val (yj l z) = yjr l z) by (intros z; rewrite yj_val by (right; exact Hl); reflexivity).
  unfold yj_dens. destruct (rltb_spec x 0) as [Hx|Hx].
  - apply derivable_eq with (g := yj_dn l) (eps := - x); [lra| |apply d_dn; lra].
    intros h Hh. rewrite V. apply yjr_dn; [exact Hl|]. apply Rabs_def2 in Hh. lra.
  - destruct (Req_dec x 0) as [-> |Nx].
    + apply derivable_glue with (g := yj_up l) (k := yj_dn l).
      * intros h Hh. rewrite V. apply yjr_up. lra.
      * intros h Hh. rewrite V. apply yjr_dn; [exact Hl|lra].
      * apply d_up; [lra|exact Hl].
      * replace (Rpower (1 + 0) (l - 1)) with (Rpower (1 - 0) (1 - l)) by (rewrite Rplus_0_r, Rminus_0_r, !Rpower_one; reflexivity). apply d_dn. lra.
    + apply derivable_eq with (g := yj_up l) (eps := x); [lra| |apply d_up; [lra|exact Hl]].
      intros h Hh. rewrite V. apply yjr_up. apply Rabs_def2 in Hh. lra.
Qed.
Lemma yj_dens_ln l x : ln (yj_dens l x) = (l - 1) * (if rltb 0 x then ln (1 + x) else - ln (1 + - x)).
Proof.
  unfold yj_dens. destruct (rltb_spec x 0) as [Hx|Hx].
  - rewrite ln_Rpower. destruct (rltb_spec 0 x); [lra|]. replace (1 + - x) with (1 - x) by ring. ring.
  - rewrite ln_Rpower. destruct (rltb_spec 0 x) as [G|G]; [reflexivity|]. assert (x = 0) by lra. subst x.
    rewrite Ropp_0, Rplus_0_r, ln_1. ring.
Qed.
Lemma bc_derivative l x : 0 < x -> derivable_pt_lim (fun z => val (bc l z)) x (Rpower x (l - 1)).
Proof.
  intros Hx. destruct (Req_dec l 0) as [-> |N].
  - replace (Rpower x (0 - 1)) with (/ x). 2: { replace (0 - 1) with (- (1)) by ring. rewrite Rpower_Ropp, Rpower_1 by exact Hx. reflexivity. }
    apply derivable_eq with (g := ln) (eps := x); [exact Hx| |apply derivable_pt_lim_ln; exact Hx].
    intros h Hh. apply Rabs_def2 in Hh. rewrite bc_val by lra. destruct (reqb_spec 0 0); [reflexivity|lra].
  - replace (Rpower x (l - 1)) with (1 * Rpower (0 + 1 * x) (l - 1)) by (rewrite !Rmult_1_l, Rplus_0_l; reflexivity).
    apply derivable_eq with (g := fun z => (Rpower (0 + 1 * z) l - 1) / l) (eps := x); [exact Hx| |apply d_pow; [lra|exact N]].
    intros h Hh. apply Rabs_def2 in Hh. rewrite bc_val by lra. destruct (reqb_spec l 0); [contradiction|]. rewrite Rplus_0_l, Rmult_1_l. reflexivity.
Qed.

Lemma derivatives_are t x d (g : R -> R) : derivatives t x d -> (forall c, In c x -> derivable_pt_lim (fun z => val (t z)) c (g c)) -> d = map g x.
Proof.
  induction 1 as [|c e x d H F IH]; intros G; [reflexivity|]. cbn. f_equal.
  - eapply uniqueness_limite; [exact H|]. apply G. left. reflexivity.
  - apply IH. intros b Hb. apply G. right. exact Hb.
Qed.
Lemma derivatives_exist t x (g : R -> R) : (forall c, In c x -> derivable_pt_lim (fun z => val (t z)) c (g c)) -> derivatives t x (map g x).
Proof. induction x as [|c x IH]; intros G; constructor; [apply G; left; reflexivity|]. apply IH. intros b Hb. apply G. right. exact Hb. Qed.
