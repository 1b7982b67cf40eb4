From Verif Require Import QCommon DistModel.
Open Scope R_scope.

(* ------------------------------------------------------------------ sums *)
Lemma rsum_acc l : forall a, fold_left Rplus l a = a + fold_right Rplus 0 l.
Proof. induction l as [|x l IH]; intros a; cbn; [ring|]. rewrite IH. ring. Qed.
Lemma rsum_cons x l : rsum (x :: l) = x + rsum l.
Proof. unfold rsum. cbn. rewrite !rsum_acc. ring. Qed.
Lemma rsum_nonneg l : (forall x, In x l -> 0 <= x) -> 0 <= rsum l.
Proof. induction l as [|x l IH]; intros H; [unfold rsum; cbn; lra|]. rewrite rsum_cons. assert (0 <= x) by (apply H; now left). assert (0 <= rsum l) by (apply IH; intros; apply H; now right). lra. Qed.
Lemma rsum_zero l : (forall x, In x l -> 0 <= x) -> rsum l = 0 -> forall x, In x l -> x = 0.
Proof.
  induction l as [|y l IH]; intros H E x Hx; [destruct Hx|]. rewrite rsum_cons in E. assert (0 <= y) by (apply H; now left).
  assert (0 <= rsum l) by (apply rsum_nonneg; intros; apply H; now right). destruct Hx as [<-|Hx]; [lra|]. apply IH; auto; [intros; apply H; now right|lra].
Qed.
Lemma rmaxl_spec l : forall a, let v := fold_left Rmax l a in a <= v /\ (forall e, In e l -> e <= v) /\ forall u, a <= u -> (forall e, In e l -> e <= u) -> v <= u.
Proof.
  induction l as [|y l IH]; intros a; cbn [fold_left].
  - split; [lra|]. split; [intros ? []|auto].
  - destruct (IH (Rmax a y)) as (A & B & C). cbv zeta in *. pose proof (Rmax_l a y). pose proof (Rmax_r a y).
    split; [lra|]. split; [intros e [<-|He]; [lra|auto]|]. intros u Hu He. apply C; [apply Rmax_lub; auto; apply He; now left|]. intros; apply He; now right.
Qed.

(* ------------------------------------------------------------------ rpow *)
Lemma rpow_0 p : rpow 0 p = 0.
Proof. unfold rpow. destruct (Req_EM_T 0 0); [reflexivity|congruence]. Qed.
Lemma rpow_pos t p : 0 < t -> rpow t p = Rpower t p.
Proof. intros H. unfold rpow. destruct (Req_EM_T t 0); [lra|reflexivity]. Qed.
Lemma rpow_gt0 t p : 0 < t -> 0 < rpow t p.
Proof. intros H. rewrite rpow_pos by exact H. unfold Rpower. apply exp_pos. Qed.
Lemma rpow_ge0 t p : 0 <= t -> 0 <= rpow t p.
Proof. intros [H|<-]; [apply Rlt_le, rpow_gt0, H|rewrite rpow_0; lra]. Qed.
Lemma rpow_eq0 t p : 0 <= t -> rpow t p = 0 -> t = 0.
Proof. intros [H|<-] E; [|reflexivity]. pose proof (rpow_gt0 t p H). lra. Qed.
Lemma rpow_1 t : 0 <= t -> rpow t 1 = t.
Proof. intros [H|<-]; [rewrite rpow_pos by exact H; now apply Rpower_1|apply rpow_0]. Qed.
Lemma rpow_rpow t p q : 0 <= t -> rpow (rpow t p) q = rpow t (p * q).
Proof.
  intros [H|<-]; [|now rewrite !rpow_0]. rewrite (rpow_pos (rpow t p)) by now apply rpow_gt0. rewrite !rpow_pos by exact H. apply Rpower_mult.
Qed.
Lemma rpow_mult s t p : 0 <= s -> 0 <= t -> rpow (s * t) p = rpow s p * rpow t p.
Proof.
  intros [Hs|<-] [Ht|<-]; rewrite ?Rmult_0_l, ?Rmult_0_r, ?rpow_0; try ring.
  rewrite !rpow_pos; auto; [|now apply Rmult_lt_0_compat]. symmetry; apply Rpower_mult_distr; auto.
Qed.
Lemma rpow_le s t p : 0 < p -> 0 <= s -> s <= t -> rpow s p <= rpow t p.
Proof.
  intros Hp [Hs|<-] Ht; [|rewrite rpow_0; now apply rpow_ge0]. rewrite !rpow_pos by lra. unfold Rpower.
  destruct (Req_dec s t) as [->|N]; [lra|]. apply Rlt_le, exp_increasing. apply Rmult_lt_compat_l; [exact Hp|]. apply ln_increasing; lra.
Qed.
Lemma rpow_lt s t p : 0 < p -> 0 <= s -> s < t -> rpow s p < rpow t p.
Proof.
  intros Hp [Hs|<-] Ht; [|rewrite rpow_0; now apply rpow_gt0]. rewrite !rpow_pos by lra. unfold Rpower.
  apply exp_increasing. apply Rmult_lt_compat_l; [exact Hp|]. apply ln_increasing; lra.
Qed.
Lemma rpow_2 t : 0 <= t -> rpow t 2 = t * t.
Proof.
  intros [H|<-]; [|rewrite rpow_0; ring]. rewrite rpow_pos by exact H. replace 2 with (INR 2) by (cbn; ring). rewrite Rpower_pow by exact H. cbn. ring.
Qed.
Lemma rpow_half t : 0 <= t -> rpow t (1 / 2) = sqrt t.
Proof.
  intros [H|<-]; [|rewrite rpow_0, sqrt_0; ring]. rewrite rpow_pos by exact H. replace (1 / 2) with (/ 2) by field. now apply Rpower_sqrt.
Qed.

(* ----------------------------------------------- Bernoulli and convexity *)
Lemma bernoulli p r : 1 <= p -> 0 <= r -> 1 + p * (r - 1) <= rpow r p.
Proof.
  intros Hp [Hr|<-]; [|rewrite rpow_0; lra]. rewrite rpow_pos by exact Hr. unfold Rpower. set (m := ln r).
  assert (Er: r = exp m) by (unfold m; now rewrite exp_ln). rewrite Er.
  assert (A: exp m * (1 + (p * m - m)) <= exp (p * m)).
  { replace (exp (p * m)) with (exp m * exp (p * m - m)) by (rewrite <- exp_plus; f_equal; ring). apply Rmult_le_compat_l; [apply Rlt_le, exp_pos|].
    apply exp_ineq1_le. }
  assert (B: exp m * (1 - m) <= 1).
  { assert (E: exp m * exp (- m) = 1) by (rewrite <- exp_plus, Rplus_opp_r; apply exp_0). rewrite <- E. apply Rmult_le_compat_l; [apply Rlt_le, exp_pos|].
    pose proof (exp_ineq1_le (- m)). rewrite E. lra. }
  nra.
Qed.

Lemma rpow_convex p s t l : 1 <= p -> 0 <= s -> 0 <= t -> 0 < l -> l < 1 -> rpow (l * s + (1 - l) * t) p <= l * rpow s p + (1 - l) * rpow t p.
Proof.
  intros Hp Hs Ht Hl Hl1. set (c := l * s + (1 - l) * t). assert (Hc: 0 <= c) by (unfold c; nra).
  destruct Hc as [Hc|Hc].
  - assert (T: forall u, 0 <= u -> rpow c p * (1 + p * (u / c - 1)) <= rpow u p).
    { intros u Hu. assert (Hq: 0 <= u / c) by (apply Rmult_le_pos; [exact Hu|left; now apply Rinv_0_lt_compat]).
      replace (rpow u p) with (rpow c p * rpow (u / c) p) by (rewrite <- rpow_mult by lra; f_equal; field; lra).
      apply Rmult_le_compat_l; [apply rpow_ge0; lra|]. now apply bernoulli. }
    pose proof (T s Hs) as T1. pose proof (T t Ht) as T2. set (C := rpow c p) in *.
    assert (E: l * (C * (1 + p * (s / c - 1))) + (1 - l) * (C * (1 + p * (t / c - 1))) = C).
    { replace (l * (C * (1 + p * (s / c - 1))) + (1 - l) * (C * (1 + p * (t / c - 1)))) with (C * (1 + p * ((l * s + (1 - l) * t) / c - 1))) by (field; lra).
      fold c. field. lra. }
    nra.
  - rewrite <- Hc, rpow_0. pose proof (rpow_ge0 s p Hs). pose proof (rpow_ge0 t p Ht). nra.
Qed.

(* ------------------------------------------------------------- the norms *)
Definition psum (p : R) (u : list R) : R := rsum (map (fun x => rpow (Rabs x) p) u).
Definition pnorm (p : R) (u : list R) : R := rpow (psum p u) (1 / p).

Lemma psum_nonneg p u : 0 <= psum p u.
Proof. apply rsum_nonneg. intros x Hx. apply in_map_iff in Hx. destruct Hx as (y & <- & _). apply rpow_ge0, Rabs_pos. Qed.
Lemma psum_cons p x u : psum p (x :: u) = rpow (Rabs x) p + psum p u.
Proof. unfold psum. cbn [map]. apply rsum_cons. Qed.
Lemma psum_zero p u : psum p u = 0 -> forall x, In x u -> x = 0.
Proof.
  intros E x Hx. assert (H: rpow (Rabs x) p = 0).
  { apply (rsum_zero (map (fun x => rpow (Rabs x) p) u)); auto; [|now apply in_map_iff; exists x]. intros y Hy. apply in_map_iff in Hy. destruct Hy as (z & <- & _). apply rpow_ge0, Rabs_pos. }
  apply rpow_eq0 in H; [|apply Rabs_pos]. destruct (Req_dec x 0); [assumption|]. apply Rabs_no_R0 in H0. contradiction.
Qed.

Lemma psum_scaled p A u : 1 <= p -> 0 < A -> psum p (map (fun x => x / A) u) = psum p u / rpow A p.
Proof.
  intros Hp HA. induction u as [|x u IH]; [unfold psum, rsum; cbn; unfold Rdiv; ring|]. cbn [map]. rewrite !psum_cons, IH.
  assert (E: rpow (Rabs (x / A)) p = rpow (Rabs x) p / rpow A p).
  { unfold Rdiv. rewrite Rabs_mult. assert (HI: 0 < / A) by now apply Rinv_0_lt_compat. rewrite (Rabs_pos_eq (/ A)) by lra.
    rewrite rpow_mult; [|apply Rabs_pos|lra]. f_equal. assert (X: rpow A p * rpow (/ A) p = 1).
    { rewrite <- rpow_mult by lra. rewrite Rinv_r by lra. rewrite rpow_pos by lra. unfold Rpower. rewrite ln_1, Rmult_0_r. apply exp_0. }
    pose proof (rpow_gt0 A p HA). apply (Rmult_eq_reg_l (rpow A p)); [|lra]. rewrite X. rewrite Rinv_r by lra. reflexivity. }
  rewrite E. unfold Rdiv. ring.
Qed.

Lemma pnorm_pow p u : 1 <= p -> rpow (pnorm p u) p = psum p u.
Proof. intros Hp. unfold pnorm. rewrite rpow_rpow by apply psum_nonneg. replace (1 / p * p) with 1 by (field; lra). apply rpow_1, psum_nonneg. Qed.

Lemma minkowski_ineq p : 1 <= p -> forall u v, length u = length v -> pnorm p (zip Rplus u v) <= pnorm p u + pnorm p v.
Proof.
  intros Hp u v HL. set (A := pnorm p u). set (B := pnorm p v).
  assert (HA: 0 <= A) by (unfold A, pnorm; apply rpow_ge0, psum_nonneg). assert (HB: 0 <= B) by (unfold B, pnorm; apply rpow_ge0, psum_nonneg).
  destruct HA as [HA|HA]; [destruct HB as [HB|HB]|].
  - set (l := A / (A + B)). assert (Hl: 0 < l) by (unfold l; apply Rdiv_lt_0_compat; lra). assert (Hl1: l < 1) by (unfold l; apply (Rmult_lt_reg_r (A + B)); [lra|]; field_simplify; lra).
    assert (S: psum p (map (fun x => x / (A + B)) (zip Rplus u v)) <= l * psum p (map (fun x => x / A) u) + (1 - l) * psum p (map (fun x => x / B) v)).
    { clear -HL HA HB Hl Hl1 Hp. assert (E1: l * (A + B) = A) by (unfold l; field; lra). assert (E2: (1 - l) * (A + B) = B) by (unfold l; field; lra).
      clearbody l A B. revert v HL. induction u as [|x u IH]; intros [|y v] HL; cbn [length] in HL; try discriminate.
      - unfold psum, rsum; cbn; lra.
      - cbn [zip map]. rewrite !psum_cons. assert (HL': length u = length v) by lia. specialize (IH v HL').
        assert (P: rpow (Rabs ((x + y) / (A + B))) p <= l * rpow (Rabs (x / A)) p + (1 - l) * rpow (Rabs (y / B)) p).
        { eapply Rle_trans; [|apply rpow_convex; auto; apply Rabs_pos]. apply rpow_le; [lra|apply Rabs_pos|].
          replace ((x + y) / (A + B)) with (l * (x / A) + (1 - l) * (y / B)).
          - eapply Rle_trans; [apply Rabs_triang|]. rewrite !Rabs_mult. rewrite (Rabs_pos_eq l), (Rabs_pos_eq (1 - l)) by lra. lra.
          - apply (Rmult_eq_reg_r (A + B)); [|lra].
            replace ((l * (x / A) + (1 - l) * (y / B)) * (A + B)) with ((l * (A + B)) * (x / A) + ((1 - l) * (A + B)) * (y / B)) by ring. rewrite E1, E2. field. lra. }
        lra. }
    rewrite !psum_scaled in S by lra. pose proof (pnorm_pow p u Hp) as P1. pose proof (pnorm_pow p v Hp) as P2. fold A in P1. fold B in P2. rewrite <- P1, <- P2 in S.
    pose proof (rpow_gt0 A p HA). pose proof (rpow_gt0 B p HB). pose proof (rpow_gt0 (A + B) p ltac:(lra)) as HAB.
    replace (rpow A p / rpow A p) with 1 in S by (field; lra). replace (rpow B p / rpow B p) with 1 in S by (field; lra).
    assert (S': psum p (zip Rplus u v) <= rpow (A + B) p).
    { apply (Rmult_le_reg_r (/ rpow (A + B) p)); [now apply Rinv_0_lt_compat|]. rewrite Rinv_r by lra. unfold Rdiv in S. lra. }
    unfold pnorm. replace (A + B) with (rpow (rpow (A + B) p) (1 / p)).
    + apply rpow_le; [apply Rdiv_lt_0_compat; lra|apply psum_nonneg|exact S'].
    + rewrite rpow_rpow by lra. replace (p * (1 / p)) with 1 by (field; lra). apply rpow_1. lra.
  - assert (Z: psum p v = 0) by (rewrite <- (pnorm_pow p v Hp); fold B; rewrite <- HB; apply rpow_0).
    assert (E: zip Rplus u v = u).
    { pose proof (psum_zero p v Z) as Z'. clear -HL Z'. revert v HL Z'. induction u as [|x u IH]; intros [|y v] HL Z'; cbn in *; try discriminate; auto.
      rewrite (Z' y) by now left. rewrite IH; [f_equal; ring|lia|]. intros; apply Z'; now right. }
    rewrite E. fold A. lra.
  - assert (Z: psum p u = 0) by (rewrite <- (pnorm_pow p u Hp); fold A; rewrite <- HA; apply rpow_0).
    assert (E: zip Rplus u v = v).
    { pose proof (psum_zero p u Z) as Z'. clear -HL Z'. revert v HL Z'. induction u as [|x u IH]; intros [|y v] HL Z'; cbn in *; try discriminate; auto.
      rewrite (Z' x) by now left. rewrite IH; [f_equal; ring|lia|]. intros; apply Z'; now right. }
    rewrite E. fold B. lra.
Qed.

(* ---------------------------------------------------------- the distances *)
Definition dvec (a b : list R) : list R := zip (fun x y => y - x) a b.

Lemma zip_map {A B C E} (g : C -> E) (f : A -> B -> C) : forall a b, map g (zip f a b) = zip (fun x y => g (f x y)) a b.
Proof. induction a as [|x a IH]; intros [|y b]; cbn; auto. now rewrite IH. Qed.

Lemma mink_fin_unfold p a b : length a = length b -> length a <> 1%nat -> minkowski_p (Pfin p) a b = psum p (dvec a b).
Proof.
  intros HL H1. unfold minkowski_p, psum, dvec. rewrite zip_map. destruct a as [|x [|x' a]]; destruct b as [|y b]; cbn in HL, H1; try lia; reflexivity.
Qed.
Lemma mink_inf_unfold a b : length a = length b -> minkowski_p Pinf a b = rmaxl (map Rabs (dvec a b)).
Proof.
  intros HL. unfold minkowski_p, dvec. rewrite zip_map. destruct a as [|x [|x' a]]; destruct b as [|y b]; cbn in HL; try lia; try reflexivity.
  destruct b; cbn in HL; [|lia]. unfold rmaxl. cbn. rewrite Rmax_right; [reflexivity|apply Rabs_pos].
Qed.

Lemma mink_formula p a b : 1 <= p -> length a = length b -> length a <> 1%nat ->
  minkowski (Pfin p) a b = rpow (rsum (zip (fun x y => rpow (Rabs (y - x)) p) a b)) (1 / p).
Proof.
  intros Hp HL H1. unfold minkowski. cbv zeta. rewrite mink_fin_unfold by auto. unfold psum, dvec. rewrite zip_map.
  destruct (Req_EM_T p 1) as [->|N]; [|reflexivity]. replace (1 / 1) with 1 by field. rewrite rpow_1; [reflexivity|].
  apply rsum_nonneg. intros x Hx. rewrite <- (zip_map (fun z => rpow (Rabs z) 1) (fun x y => y - x)) in Hx. apply in_map_iff in Hx. destruct Hx as (z & <- & _). apply rpow_ge0, Rabs_pos.
Qed.
Lemma mink_is_pnorm p a b : 1 <= p -> length a = length b -> length a <> 1%nat -> minkowski (Pfin p) a b = pnorm p (dvec a b).
Proof. intros. rewrite mink_formula by auto. unfold pnorm, psum, dvec. now rewrite zip_map. Qed.

Lemma psum_opp p u v : length u = length v -> psum p (dvec u v) = psum p (dvec v u).
Proof.
  revert v. induction u as [|x u IH]; intros [|y v] H; cbn in H; try discriminate; [reflexivity|]. unfold dvec in *. cbn [zip]. rewrite !psum_cons, (IH v) by lia.
  f_equal. f_equal. rewrite <- Rabs_Ropp. f_equal. ring.
Qed.
Lemma dvec_plus a : forall b c, length a = length b -> length b = length c -> zip Rplus (dvec a b) (dvec b c) = dvec a c.
Proof. induction a as [|x a IH]; intros [|y b] [|z c] H1 H2; cbn in *; try discriminate; auto. unfold dvec in *. rewrite IH by lia. f_equal. ring. Qed.
Lemma dvec_length a b : length a = length b -> length (dvec a b) = length a.
Proof. intros. unfold dvec. now rewrite zip_length. Qed.
Lemma dvec_zero a : forall b, length a = length b -> (forall x, In x (dvec a b) -> x = 0) -> a = b.
Proof.
  induction a as [|x a IH]; intros [|y b] H Z; cbn in *; try discriminate; auto. f_equal; [assert (y - x = 0) by (apply Z; now left); lra|]. apply IH; [lia|]. intros; apply Z; now right.
Qed.
Lemma dvec_self a : forall x, In x (dvec a a) -> x = 0.
Proof. induction a as [|x a IH]; intros z H; cbn in H; [destruct H|]. destruct H as [<-|H]; [ring|auto]. Qed.
Lemma psum_all0 p u : (forall x, In x u -> x = 0) -> psum p u = 0.
Proof. induction u as [|x u IH]; intros H; [reflexivity|]. rewrite psum_cons, (H x) by now left. rewrite Rabs_R0, rpow_0, IH; [ring|]. intros; apply H; now right. Qed.

Definition is_metric (n : nat) (d : list R -> list R -> R) : Prop :=
  (forall a b, length a = n -> length b = n -> 0 <= d a b) /\
  (forall a b, length a = n -> length b = n -> (d a b = 0 <-> a = b)) /\
  (forall a b, length a = n -> length b = n -> d a b = d b a) /\
  (forall a b c, length a = n -> length b = n -> length c = n -> d a c <= d a b + d b c).

Lemma mink_metric p n : 1 <= p -> n <> 1%nat -> is_metric n (minkowski (Pfin p)).
Proof.
  intros Hp Hn. repeat split.
  - intros a b HA HB. rewrite mink_is_pnorm by (first [assumption | lia]). apply rpow_ge0, psum_nonneg.
  - rewrite mink_is_pnorm by (first [assumption | lia]). intros E. apply rpow_eq0 in E; [|apply psum_nonneg]. apply dvec_zero; [lia|]. now apply (psum_zero p).
  - intros ->. rewrite mink_is_pnorm by (first [assumption | lia]). unfold pnorm. rewrite (psum_all0 p); [apply rpow_0|apply dvec_self].
  - intros a b HA HB. rewrite !mink_is_pnorm by (first [assumption | lia]). unfold pnorm. now rewrite psum_opp by lia.
  - intros a b c HA HB HC. rewrite !mink_is_pnorm by (first [assumption | lia]). rewrite <- (dvec_plus a b c) by lia. apply minkowski_ineq; [exact Hp|]. rewrite !dvec_length by lia. lia.
Qed.

Lemma rmaxl_abs_zero u : rmaxl (map Rabs u) = 0 -> forall x, In x u -> x = 0.
Proof.
  intros E x Hx. destruct (rmaxl_spec (map Rabs u) 0) as (_ & B & _). cbv zeta in B. unfold rmaxl in E. rewrite E in B. assert (Rabs x <= 0) by (apply B, in_map, Hx).
  pose proof (Rabs_pos x). destruct (Req_dec x 0); [assumption|]. pose proof (Rabs_pos_lt x H1). lra.
Qed.

Lemma mink_inf_metric n : is_metric n (minkowski Pinf).
Proof.
  unfold minkowski. cbv zeta. repeat split.
  - intros a b HA HB. rewrite mink_inf_unfold by lia. exact (proj1 (rmaxl_spec _ 0)).
  - rewrite mink_inf_unfold by lia. intros E. apply dvec_zero; [lia|]. now apply rmaxl_abs_zero.
  - intros ->. rewrite mink_inf_unfold by lia. apply Rle_antisym; [|exact (proj1 (rmaxl_spec _ 0))]. apply (proj2 (proj2 (rmaxl_spec _ 0))); [lra|].
    intros e He. apply in_map_iff in He. destruct He as (z & <- & Hz). rewrite (dvec_self _ z Hz), Rabs_R0. lra.
  - intros a b HA HB. rewrite !mink_inf_unfold by lia. f_equal. assert (HL: length a = length b) by lia. clear HA HB. revert b HL. induction a as [|x a IH]; intros [|y b] HL; cbn in *; try discriminate; auto.
    unfold dvec in IH. rewrite (IH b) by lia. f_equal. rewrite <- Rabs_Ropp. f_equal. ring.
  - intros a b c HA HB HC. rewrite !mink_inf_unfold by lia. rewrite <- (dvec_plus a b c) by lia.
    apply (proj2 (proj2 (rmaxl_spec _ 0))).
    + pose proof (proj1 (rmaxl_spec (map Rabs (dvec a b)) 0)). pose proof (proj1 (rmaxl_spec (map Rabs (dvec b c)) 0)). cbv zeta in *. unfold rmaxl. lra.
    + intros e He. apply in_map_iff in He. destruct He as (z & <- & Hz).
      assert (X: exists u v, In u (dvec a b) /\ In v (dvec b c) /\ z = u + v).
      { clear -Hz. revert Hz. generalize (dvec b c). generalize (dvec a b). induction l as [|u l IH]; intros [|v l'] Hz; cbn in Hz; try contradiction. destruct Hz as [<-|Hz].
        - exists u, v. repeat split; cbn; auto.
        - destruct (IH l' Hz) as (u' & v' & A & B & C). exists u', v'. repeat split; cbn; auto. }
      destruct X as (u & v & Hu & Hv & ->). eapply Rle_trans; [apply Rabs_triang|]. apply Rplus_le_compat.
      * apply (rmaxl_spec (map Rabs (dvec a b)) 0). now apply in_map.
      * apply (rmaxl_spec (map Rabs (dvec b c)) 0). now apply in_map.
Qed.

Lemma euclid_mink a b : length a = length b -> length a <> 1%nat -> euclidean a b = minkowski (Pfin 2) a b.
Proof.
  intros HL H1. rewrite mink_formula by (auto; lra). rewrite rpow_half.
  - assert (E: zip (fun x y => rpow (Rabs (y - x)) 2) a b = zip (fun x y => (y - x) * (y - x)) a b).
    { clear H1. revert b HL. induction a as [|x a IH]; intros [|y b] HL; cbn in *; try discriminate; auto. rewrite IH by lia. f_equal. rewrite rpow_2 by apply Rabs_pos. rewrite <- Rabs_mult. apply Rabs_pos_eq. apply (Rle_0_sqr (y - x)). }
    rewrite E. unfold euclidean. destruct a as [|x [|x' a]]; destruct b as [|y b]; cbn in HL, H1; try lia; reflexivity.
  - rewrite <- (zip_map (fun z => rpow (Rabs z) 2) (fun x y => y - x)). apply rsum_nonneg. intros x Hx. apply in_map_iff in Hx. destruct Hx as (z & <- & _). apply rpow_ge0, Rabs_pos.
Qed.

Lemma mink_one p x y : p <> 1 -> minkowski (Pfin p) [x] [y] = rpow (Rabs (y - x)) (1 / p).
Proof. intros H. unfold minkowski, minkowski_p. destruct (Req_EM_T p 1); [contradiction|reflexivity]. Qed.
