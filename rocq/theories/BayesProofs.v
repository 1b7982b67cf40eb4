(* Lemmas about BayesModel *)
From Coq Require Import Reals Lra Lia List Arith Bool.
From Verif Require Import MtModel MtProofs PcaProofs BayesModel.
Import ListNotations.
Open Scope R_scope.

Lemma gamma_zero lam al ev : bgamma lam al ev = 0.
Proof. unfold bgamma, gcopy. cbn [length firstn app]. rewrite !skipn_nil. reflexivity. Qed.

(* what is used of the decomposition *)
Definition eig_of (n p : nat) (X V : rmtx) (s : nat -> R) : Prop :=
  (forall i k, (i < p)%nat -> (k < p)%nat -> rs n (fun r => X r i * X r k) = rs p (fun m => V i m * (s m * s m) * V k m)) /\
  (forall a b, (a < p)%nat -> (b < p)%nat -> rs p (fun j => V j a * V j b) = delta a b) /\
  (forall a b, (a < p)%nat -> (b < p)%nat -> rs p (fun k => V a k * V b k) = delta a b).
Lemma svd_eig n p X U V s : svd_of n p X U V s -> eig_of n p X V s.
Proof.
  intros H. split; [|split; [apply (sv_V _ _ _ _ _ _ H)|apply (sv_V' _ _ _ _ _ _ H)]]. intros i k Hi Hk.
  transitivity (rs n (fun r => rs p (fun m => rs p (fun l => s m * V i m * (s l * V k l) * (U r m * U r l))))).
  { apply rs_ext. intros r Hr. rewrite (sv_eq _ _ _ _ _ _ H r i Hr Hi), (sv_eq _ _ _ _ _ _ H r k Hr Hk), <- rs_scale_r. apply rs_ext. intros m Hm. rewrite <- rs_scale. apply rs_ext. intros; ring. }
  rewrite rs_swap. apply rs_ext. intros m Hm. rewrite rs_swap. transitivity (rs p (fun l => s m * V i m * (s l * V k l) * delta l m)).
  - apply rs_ext. intros l Hl. rewrite rs_scale. f_equal. rewrite (sv_U _ _ _ _ _ _ H m l Hm Hl). unfold delta. now rewrite Nat.eqb_sym.
  - rewrite (rs_delta p (fun l => s m * V i m * (s l * V k l)) m Hm). ring.
Qed.
Section B.
  Variables (n p q : nat) (X Y V : rmtx) (s : nat -> R).
  Hypothesis HE : eig_of n p X V s.
  Lemma gram_shift kap i k : (i < p)%nat -> (k < p)%nat -> rs n (fun r => X r i * X r k) + kap * delta i k = rs p (fun m => V i m * (s m * s m + kap) * V k m).
  Proof. intros Hi Hk. destruct HE as (E & _ & O). rewrite (E i k Hi Hk), <- (O i k Hi Hk), <- rs_scale, <- rs_plus. apply rs_ext. intros; ring. Qed.
  Lemma sig_inverse lam al i j : 0 < lam / al -> (i < p)%nat -> (j < p)%nat ->
    rs p (fun k => (rs n (fun r => X r i * X r k) + lam / al * delta i k) * bsig p V s lam al k j) = delta i j.
  Proof.
    intros HK Hi Hj. set (kap := lam / al) in *. assert (NZ : forall m, s m * s m + kap <> 0) by (intros m; pose proof (Rle_0_sqr (s m)); unfold Rsqr in *; lra).
    transitivity (rs p (fun k => rs p (fun m => rs p (fun l => V i m * (s m * s m + kap) * (1 / (s l * s l + kap) * V j l) * (V k m * V k l))))).
    { apply rs_ext. intros k Hk. rewrite (gram_shift kap i k Hi Hk). rewrite <- rs_scale_r. apply rs_ext. intros m Hm. unfold bsig. fold kap. rewrite <- rs_scale. apply rs_ext. intros; ring. }
    rewrite rs_swap. destruct HE as (_ & O & O'). rewrite <- (O' i j Hi Hj). apply rs_ext. intros m Hm. rewrite rs_swap.
    transitivity (rs p (fun l => V i m * (s m * s m + kap) * (1 / (s l * s l + kap) * V j l) * delta l m)).
    - apply rs_ext. intros l Hl. rewrite rs_scale. f_equal. rewrite (O m l Hm Hl). unfold delta. now rewrite Nat.eqb_sym.
    - rewrite (rs_delta p (fun l => V i m * (s m * s m + kap) * (1 / (s l * s l + kap) * V j l)) m Hm). field. apply NZ.
  Qed.
  Lemma sig_sym lam al i j : bsig p V s lam al i j = bsig p V s lam al j i.
  Proof. unfold bsig. apply rs_ext. intros; ring. Qed.
  Lemma sig_quad lam al x : rs p (fun i => rs p (fun j => x i * bsig p V s lam al i j * x j)) = rs p (fun m => 1 / (s m * s m + lam / al) * (rs p (fun i => x i * V i m) * rs p (fun i => x i * V i m))).
  Proof.
    transitivity (rs p (fun i => rs p (fun m => 1 / (s m * s m + lam / al) * (x i * V i m) * rs p (fun j => x j * V j m)))).
    - apply rs_ext. intros i Hi. transitivity (rs p (fun j => rs p (fun m => 1 / (s m * s m + lam / al) * (x i * V i m) * (x j * V j m)))).
      + apply rs_ext. intros j Hj. unfold bsig. rewrite <- rs_scale, <- rs_scale_r. apply rs_ext. intros; ring.
      + rewrite rs_swap. apply rs_ext. intros m Hm. now rewrite rs_scale.
    - rewrite rs_swap. apply rs_ext. intros m Hm. rewrite rs_scale_r, rs_scale. ring.
  Qed.
  (* ridge regression: the normal equations *)
  Lemma normal lam al i o : 0 < lam / al -> (i < p)%nat ->
    rs p (fun k => (rs n (fun r => X r i * X r k) + lam / al * delta i k) * bcoef n p X Y V s lam al k o) = rs n (fun r => X r i * Y r o).
  Proof.
    intros HK Hi. transitivity (rs p (fun k => rs p (fun j => (rs n (fun r => X r i * X r k) + lam / al * delta i k) * bsig p V s lam al k j * bxty n X Y j o))).
    { apply rs_ext. intros k Hk. unfold bcoef. rewrite <- rs_scale. apply rs_ext. intros; ring. }
    rewrite rs_swap. transitivity (rs p (fun j => bxty n X Y j o * delta i j)).
    - apply rs_ext. intros j Hj. rewrite rs_scale_r, (sig_inverse lam al i j HK Hi Hj). ring.
    - exact (rs_delta' p (fun j => bxty n X Y j o) i Hi).
  Qed.
End B.
(* the ridge objective at a solution of the normal equations *)
Section Min.
  Variables (n p q : nat) (X Y W W' : rmtx) (kap : R).
  Hypothesis HK : 0 <= kap.
  Hypothesis HN : forall i o, (i < p)%nat -> (o < q)%nat -> rs p (fun k => (rs n (fun r => X r i * X r k) + kap * delta i k) * W k o) = rs n (fun r => X r i * Y r o).
  Definition rres (W : rmtx) (r o : nat) : R := rs p (fun i => X r i * W i o) - Y r o.
  Definition robj (W : rmtx) : R := rs n (fun r => rs q (fun o => rres W r o * rres W r o)) + kap * rs p (fun i => rs q (fun o => W i o * W i o)).
  Lemma orth : rs n (fun r => rs q (fun o => rres W r o * (rres W' r o - rres W r o))) + kap * rs p (fun i => rs q (fun o => W i o * (W' i o - W i o))) = 0.
  Proof.
    assert (A : rs n (fun r => rs q (fun o => rres W r o * (rres W' r o - rres W r o))) = rs q (fun o => rs p (fun i => (W' i o - W i o) * rs n (fun r => X r i * rres W r o)))).
    { rewrite rs_swap. apply rs_ext. intros o Ho. transitivity (rs n (fun r => rs p (fun i => (W' i o - W i o) * (X r i * rres W r o)))).
      - apply rs_ext. intros r Hr. unfold rres at 2 3. replace (rs p (fun i => X r i * W' i o) - Y r o - (rs p (fun i => X r i * W i o) - Y r o)) with (rs p (fun i => X r i * W' i o - X r i * W i o)) by (rewrite rs_minus; ring).
        rewrite <- rs_scale. apply rs_ext. intros; ring.
      - rewrite rs_swap. apply rs_ext. intros i Hi. apply rs_scale. }
    rewrite A, (rs_swap p q), <- rs_scale, <- rs_plus. rewrite <- (rs_zero q). apply rs_ext. intros o Ho. rewrite <- rs_scale, <- rs_plus. rewrite <- (rs_zero p). apply rs_ext. intros i Hi.
    assert (N : rs n (fun r => X r i * rres W r o) = - kap * W i o).
    { specialize (HN i o Hi Ho). unfold rres. rewrite (rs_ext n _ (fun r => rs p (fun k => X r i * X r k * W k o) - X r i * Y r o)).
      - rewrite rs_minus, <- HN, rs_swap. rewrite <- rs_minus. rewrite (rs_ext p _ (fun k => (- kap * W k o) * delta i k)).
        + exact (rs_delta' p (fun k => - kap * W k o) i Hi).
        + intros k Hk. rewrite rs_scale_r. ring.
      - intros r Hr. rewrite Rmult_minus_distr_l. f_equal. rewrite <- rs_scale. apply rs_ext. intros; ring. }
    rewrite N. ring.
  Qed.
  Lemma ridge_min : robj W <= robj W'.
  Proof.
    pose proof orth as E. set (d r o := rres W' r o - rres W r o) in *. set (e i o := W' i o - W i o) in *.
    assert (A : rs n (fun r => rs q (fun o => rres W' r o * rres W' r o)) = rs n (fun r => rs q (fun o => rres W r o * rres W r o)) + 2 * rs n (fun r => rs q (fun o => rres W r o * d r o)) + rs n (fun r => rs q (fun o => d r o * d r o))).
    { rewrite <- rs_scale, <- !rs_plus. apply rs_ext. intros r Hr. rewrite <- rs_scale, <- !rs_plus. apply rs_ext. intros o Ho. unfold d. ring. }
    assert (B : rs p (fun r => rs q (fun o => W' r o * W' r o)) = rs p (fun r => rs q (fun o => W r o * W r o)) + 2 * rs p (fun r => rs q (fun o => W r o * e r o)) + rs p (fun r => rs q (fun o => e r o * e r o))).
    { rewrite <- rs_scale, <- !rs_plus. apply rs_ext. intros r Hr. rewrite <- rs_scale, <- !rs_plus. apply rs_ext. intros o Ho. unfold e. ring. }
    unfold robj. rewrite A, B. assert (0 <= rs n (fun r => rs q (fun o => d r o * d r o))) by (apply rs_nonneg; intros; apply rs_sq). assert (0 <= kap * rs p (fun r => rs q (fun o => e r o * e r o))) by (apply Rmult_le_pos; [exact HK|apply rs_nonneg; intros; apply rs_sq]).
    change (rs n (fun r => rs q (fun o => rres W r o * d r o)) + kap * rs p (fun i => rs q (fun o => W i o * e i o)) = 0) in E. lra.
  Qed.
End Min.

Section Loop.
  Variables (n p q : nat) (X Y V : rmtx) (s : nat -> R) (a1 a2 l1 l2 tol : R).
  Hypothesis Hn : (0 < n)%nat.
  Hypothesis H1 : 0 <= a1. Hypothesis H2 : 0 < a2. Hypothesis H3 : 0 < l1. Hypothesis H4 : 0 < l2.
  Notation lp := (bloop n p q X Y V s a1 a2 l1 l2 tol).
  Lemma lam_pos lam al : 0 < blam' n p q X Y V s l1 l2 lam al.
  Proof. unfold blam'. rewrite gamma_zero. assert (0 <= rs p (fun i => rs q (fun o => bcoef n p X Y V s lam al i o * bcoef n p X Y V s lam al i o))) by (apply rs_nonneg; intros; apply rs_sq). apply Rdiv_lt_0_compat; lra. Qed.
  Lemma al_pos lam al : 0 < bal' n p q X Y V s a1 a2 lam al.
  Proof. unfold bal'. rewrite gamma_zero. assert (0 < INR n) by now apply lt_0_INR. pose proof (sqrt_pos (rs n (fun r => rs q (fun o => (rs p (fun i => X r i * bcoef n p X Y V s lam al i o) - Y r o) * (rs p (fun i => X r i * bcoef n p X Y V s lam al i o) - Y r o))))). apply Rdiv_lt_0_compat; [lra|]. unfold bnorm. lra. Qed.
  (* what a run of at least one iteration returns: coefficients for some (lambda, alpha), and that pair moved on by one step *)
  Lemma loop_ends : forall fuel iter lam al old W reg, 0 < lam -> 0 < al ->
    let b := lp fuel iter lam al old W reg in
    (iter <= b_iter b <= iter + fuel)%nat /\
    ((fuel = 0%nat /\ b_coef b = W /\ b_alpha b = al /\ b_lambda b = reg /\ b_sigma b = (fun i k => 1 / al * bsig p V s lam al i k)) \/
     exists lam0 al0, 0 < lam0 /\ 0 < al0 /\ b_coef b = bcoef n p X Y V s lam0 al0 /\ b_lambda b = lam0 /\ b_alpha b = bal' n p q X Y V s a1 a2 lam0 al0 /\
       b_sigma b = (fun i k => 1 / b_alpha b * bsig p V s (blam' n p q X Y V s l1 l2 lam0 al0) (b_alpha b) i k)).
  Proof.
    induction fuel as [|f IH]; intros iter lam al old W reg HL HA; cbv zeta.
    - cbn [bloop b_iter b_coef b_alpha b_lambda b_sigma]. split; [lia|]. left. auto.
    - cbn [bloop]. cbv zeta. destruct (_ && _)%bool.
      + cbn [b_iter b_coef b_alpha b_lambda b_sigma]. split; [lia|]. right. exists lam, al. auto 6.
      + specialize (IH (S iter) (blam' n p q X Y V s l1 l2 lam al) (bal' n p q X Y V s a1 a2 lam al) (bcoef n p X Y V s lam al) (bcoef n p X Y V s lam al) lam (lam_pos lam al) (al_pos lam al)).
        cbv zeta in IH. set (b := lp f _ _ _ _ _ _) in *. destruct IH as [I [(-> & E1 & E2 & E3 & E4)|D]]; (split; [lia|]).
        * right. exists lam, al. split; [exact HL|]. split; [exact HA|]. split; [exact E1|]. split; [exact E3|]. split; [exact E2|]. now rewrite E2.
        * right. exact D.
  Qed.
  Lemma loop_stop : forall fuel iter lam al old W reg, let b := lp fuel iter lam al old W reg in b_stop b = true ->
    exists lam0 al0 lam1 al1, b_coef b = bcoef n p X Y V s lam1 al1 /\ lam1 = blam' n p q X Y V s l1 l2 lam0 al0 /\ al1 = bal' n p q X Y V s a1 a2 lam0 al0 /\
      bchange p q (bcoef n p X Y V s lam0 al0) (b_coef b) < tol \/ (0 < iter)%nat /\ bchange p q old (bcoef n p X Y V s lam al) < tol /\ b_coef b = bcoef n p X Y V s lam al.
  Proof.
    induction fuel as [|f IH]; intros iter lam al old W reg; cbv zeta; cbn [bloop]; [discriminate|]. cbv zeta.
    destruct ((0 <? iter)%nat && _)%bool eqn:E.
    - cbn [b_coef b_stop]. intros _. apply andb_prop in E as [E1 E2]. exists lam, al, lam, al. right. split; [now apply Nat.ltb_lt|]. split; [|reflexivity]. destruct (rltb_spec (bchange p q old (bcoef n p X Y V s lam al)) tol); [assumption|discriminate].
    - intros H. destruct (IH _ _ _ _ _ _ H) as (lam0 & al0 & lam1 & al1 & [D|(D1 & D2 & D3)]).
      + exists lam0, al0, lam1, al1. now left.
      + exists lam, al, (blam' n p q X Y V s l1 l2 lam al), (bal' n p q X Y V s a1 a2 lam al). left. split; [exact D3|]. split; [reflexivity|]. split; [reflexivity|]. now rewrite D3.
  Qed.
End Loop.
Lemma loop_lambda n p q X Y V s a1 a2 l1 l2 tol : 0 < l1 <= l2 -> forall fuel iter lam al old W reg, lam <= 1 -> reg <= 1 -> b_lambda (bloop n p q X Y V s a1 a2 l1 l2 tol fuel iter lam al old W reg) <= 1.
Proof.
  intros HL. induction fuel as [|f IH]; intros iter lam al old W reg H1 H2; cbn [bloop]; [exact H2|]. cbv zeta. destruct (_ && _)%bool; [exact H1|]. apply IH; [|exact H1]. unfold blam'. rewrite gamma_zero.
  set (c := rs p _). assert (0 <= c) by (apply rs_nonneg; intros; apply rs_sq). apply (Rmult_le_reg_r (c + 2 * l2)); [lra|]. replace ((0 + 2 * l1) / (c + 2 * l2) * (c + 2 * l2)) with (2 * l1) by (field; lra). lra.
Qed.

(* two samples, one feature, X = Y = (1, 0) *)
Definition bx (r c : nat) : R := if Nat.eqb r 0 then 1 else 0.
Definition e6 : R := / 1000000.
Lemma bsig1 lam al : bsig 1 (fun _ _ => 1) (fun _ => 1) lam al 0%nat 0%nat = / (1 + lam / al).
Proof. unfold bsig. cbn [rs]. unfold Rdiv. rewrite !Rmult_1_l, !Rmult_1_r, Rplus_0_l. reflexivity. Qed.
Lemma bcoef1 lam al : bcoef 2 1 bx bx (fun _ _ => 1) (fun _ => 1) lam al 0%nat 0%nat = / (1 + lam / al).
Proof. unfold bcoef, bxty. cbn [rs]. rewrite bsig1. unfold bx. cbn [Nat.eqb]. ring. Qed.
Lemma bcoef1_0 : bcoef 2 1 bx bx (fun _ _ => 1) (fun _ => 1) 1 2 0%nat 0%nat = 2 / 3.
Proof. rewrite bcoef1. field. Qed.
Lemma bnorm1 : bnorm 2 1 1 bx bx (bcoef 2 1 bx bx (fun _ _ => 1) (fun _ => 1) 1 2) = 1 / 3.
Proof. unfold bnorm. cbn [rs]. rewrite bcoef1_0. unfold bx. cbn [Nat.eqb]. match goal with |- sqrt ?a = _ => replace a with (1 / 3 * (1 / 3)) by field end. apply sqrt_square. lra. Qed.

