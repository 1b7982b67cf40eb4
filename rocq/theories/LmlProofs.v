(* Lemmas about LmlModel *)
From Coq Require Import Reals Lra Lia List Arith Bool FunctionalExtensionality.
From Verif Require Import MtModel MtProofs LossProofs PcaProofs KernModel KernProofs KernGradProofs KernPsdProofs LmlModel.
Import ListNotations.
Open Scope R_scope.

Lemma rs_front n f : rs (S n) f = f 0%nat + rs n (fun i => f (S i)).
Proof. induction n as [|n IH]; [cbn; ring|]. change (rs (S (S n)) f) with (rs (S n) f + f (S n)). rewrite IH. cbn [rs]. ring. Qed.

(* what Cholesky.Factorize returns *)
Definition is_chol (n : nat) (K L : rmtx) : Prop :=
  (forall i j, (i < n)%nat -> (j < n)%nat -> (i < j)%nat -> L i j = 0) /\ (forall i, (i < n)%nat -> 0 < L i i) /\
  (forall i j, (i < n)%nat -> (j < n)%nat -> rs n (fun k => L i k * L j k) = K i j).
Definition sch (K : rmtx) : rmtx := fun i j => K (S i) (S j) - K (S i) 0%nat * K 0%nat (S j) / K 0%nat 0%nat.
Definition sh (L : rmtx) : rmtx := fun i j => L (S i) (S j).
Lemma chol_sym n K L : is_chol n K L -> forall i j, (i < n)%nat -> (j < n)%nat -> K i j = K j i.
Proof. intros (_ & _ & E) i j Hi Hj. rewrite <- !E by assumption. apply rs_ext. intros; ring. Qed.
Lemma chol_first n K L : is_chol (S n) K L -> 0 < L 0%nat 0%nat /\ L 0%nat 0%nat * L 0%nat 0%nat = K 0%nat 0%nat /\ forall i, (i < n)%nat -> L (S i) 0%nat * L 0%nat 0%nat = K (S i) 0%nat.
Proof.
  intros (T & P & E). split; [apply P; lia|]. assert (Z : forall i, (i < S n)%nat -> rs n (fun k => L i (S k) * L 0%nat (S k)) = 0).
  { intros i Hi. rewrite <- (rs_zero n). apply rs_ext. intros k Hk. rewrite (T 0%nat (S k)) by lia. ring. }
  split; [|intros i Hi].
  - rewrite <- E, rs_front by lia. rewrite (Z 0%nat) by lia. ring.
  - rewrite <- E, rs_front by lia. rewrite (Z (S i)) by lia. ring.
Qed.
Lemma chol_sch n K L : is_chol (S n) K L -> is_chol n (sch K) (sh L).
Proof.
  intros H. pose proof H as (T & P & E). destruct (chol_first n K L H) as (P0 & E0 & E1). split; [|split].
  - intros i j Hi Hj Hij. apply T; lia.
  - intros i Hi. apply P. lia.
  - intros i j Hi Hj. unfold sch, sh. rewrite (chol_sym _ _ _ H 0%nat (S j)) by lia. rewrite <- (E (S i) (S j)), rs_front by lia. rewrite <- E1, <- (E1 j), <- E0 by assumption. field. lra.
Qed.
Lemma chol_K00 n K L : is_chol (S n) K L -> 0 < K 0%nat 0%nat.
Proof. intros H. destruct (chol_first n K L H) as (P0 & E0 & _). rewrite <- E0. now apply Rmult_lt_0_compat. Qed.

Lemma D_uniq f x l l' : derivable_pt_lim f x l -> derivable_pt_lim f x l' -> l = l'.
Proof. apply uniqueness_limite. Qed.

(* derivative of the Schur complement *)
Definition dsch (K dK : rmtx) : rmtx := fun i j =>
  dK (S i) (S j) - (dK (S i) 0%nat * K 0%nat (S j) + K (S i) 0%nat * dK 0%nat (S j)) / K 0%nat 0%nat + K (S i) 0%nat * K 0%nat (S j) * dK 0%nat 0%nat / (K 0%nat 0%nat * K 0%nat 0%nat).
Lemma D_quot f g df dg : derivable_pt_lim f 0 df -> derivable_pt_lim g 0 dg -> g 0 <> 0 -> derivable_pt_lim (fun t => f t / g t) 0 ((df * g 0 - f 0 * dg) / (g 0 * g 0)).
Proof.
  intros Hf Hg H. pose proof (derivable_pt_lim_div f g 0 df dg Hf Hg H) as Q. unfold div_fct in Q. apply (D_val _ _ ((df * g 0 - dg * f 0) / Rsqr (g 0))); [unfold Rsqr; field; exact H|exact Q].
Qed.
Lemma D_prod f g df dg : derivable_pt_lim f 0 df -> derivable_pt_lim g 0 dg -> derivable_pt_lim (fun t => f t * g t) 0 (df * g 0 + f 0 * dg).
Proof. intros Hf Hg. exact (derivable_pt_lim_mult f g 0 df dg Hf Hg). Qed.
Lemma D_sch n (K : R -> rmtx) dK : K 0 0%nat 0%nat <> 0 -> (forall i j, (i < S n)%nat -> (j < S n)%nat -> derivable_pt_lim (fun t => K t i j) 0 (dK i j)) ->
  forall i j, (i < n)%nat -> (j < n)%nat -> derivable_pt_lim (fun t => sch (K t) i j) 0 (dsch (K 0) dK i j).
Proof.
  intros H0 HD i j Hi Hj. unfold sch.
  pose proof (derivable_pt_lim_minus _ _ 0 _ _ (HD (S i) (S j) ltac:(lia) ltac:(lia)) (D_quot _ _ _ _ (D_prod _ _ _ _ (HD (S i) 0%nat ltac:(lia) ltac:(lia)) (HD 0%nat (S j) ltac:(lia) ltac:(lia))) (HD 0%nat 0%nat ltac:(lia) ltac:(lia)) H0)) as Q.
  cbv beta in Q. eapply D_val; [|exact Q]. unfold dsch. field. exact H0.
Qed.

(* the inverse of a symmetric matrix is symmetric *)
Lemma inv_sym n K V : (forall i j, (i < n)%nat -> (j < n)%nat -> K i j = K j i) -> (forall i j, (i < n)%nat -> (j < n)%nat -> rs n (fun k => K i k * V k j) = delta i j) ->
  forall i j, (i < n)%nat -> (j < n)%nat -> V i j = V j i.
Proof.
  intros HS HI i j Hi Hj. transitivity (rs n (fun k => V k j * rs n (fun l => K l k * V l i))).
  - rewrite <- (rs_delta n (fun k => V k j) i Hi). apply rs_ext. intros k Hk. f_equal. rewrite <- (HI k i Hk Hi). apply rs_ext. intros l Hl. now rewrite HS.
  - transitivity (rs n (fun l => V l i * rs n (fun k => K l k * V k j))).
    + transitivity (rs n (fun k => rs n (fun l => V k j * (K l k * V l i)))); [apply rs_ext; intros; now rewrite rs_scale|]. rewrite rs_swap. apply rs_ext. intros l Hl. rewrite <- rs_scale. apply rs_ext. intros; ring.
    + rewrite (rs_ext n _ (fun l => V l i * delta l j)) by (intros l Hl; f_equal; now apply HI). exact (rs_delta n (fun l => V l i) j Hj).
Qed.
Lemma inv_sch n K V : 0 <> K 0%nat 0%nat -> (forall i j, (i < S n)%nat -> (j < S n)%nat -> rs (S n) (fun k => K i k * V k j) = delta i j) ->
  (forall j, (j < n)%nat -> V 0%nat (S j) = - rs n (fun k => K 0%nat (S k) * V (S k) (S j)) / K 0%nat 0%nat) /\
  V 0%nat 0%nat = (1 - rs n (fun k => K 0%nat (S k) * V (S k) 0%nat)) / K 0%nat 0%nat /\
  (forall i j, (i < n)%nat -> (j < n)%nat -> rs n (fun k => sch K i k * sh V k j) = delta i j).
Proof.
  intros H0 H. assert (A : forall j, (j < n)%nat -> V 0%nat (S j) = - rs n (fun k => K 0%nat (S k) * V (S k) (S j)) / K 0%nat 0%nat).
  { intros j Hj. specialize (H 0%nat (S j) ltac:(lia) ltac:(lia)). rewrite rs_front in H. unfold delta in H. cbn [Nat.eqb] in H. set (z := rs n _) in *. apply (Rmult_eq_reg_l (K 0%nat 0%nat)); [|lra]. replace (K 0%nat 0%nat * (- z / K 0%nat 0%nat)) with (- z) by (field; lra). lra. }
  split; [exact A|]. split.
  - specialize (H 0%nat 0%nat ltac:(lia) ltac:(lia)). rewrite rs_front in H. unfold delta in H. cbn [Nat.eqb] in H. set (z := rs n _) in *. apply (Rmult_eq_reg_l (K 0%nat 0%nat)); [|lra]. replace (K 0%nat 0%nat * ((1 - z) / K 0%nat 0%nat)) with (1 - z) by (field; lra). lra.
  - intros i j Hi Hj. specialize (H (S i) (S j) ltac:(lia) ltac:(lia)). rewrite rs_front, (A j Hj) in H. unfold sch, sh. change (delta i j) with (delta (S i) (S j)). rewrite <- H.
    rewrite (rs_ext n _ (fun k => K (S i) (S k) * V (S k) (S j) - K (S i) 0%nat / K 0%nat 0%nat * (K 0%nat (S k) * V (S k) (S j)))) by (intros; field; lra). rewrite rs_minus, rs_scale. field. lra.
Qed.

(* the derivative of the sum of the logarithms of the diagonal: half the trace of K^-1 dK *)
Lemma D_logdet : forall n (K L : R -> rmtx) dK V, (forall t, is_chol n (K t) (L t)) ->
  (forall i j, (i < n)%nat -> (j < n)%nat -> derivable_pt_lim (fun t => K t i j) 0 (dK i j)) ->
  (forall i j, (i < n)%nat -> (j < n)%nat -> rs n (fun k => K 0 i k * V k j) = delta i j) ->
  derivable_pt_lim (fun t => rs n (fun i => ln (L t i i))) 0 (1 / 2 * rs n (fun i => rs n (fun j => V i j * dK i j))).
Proof.
  induction n as [|n IH]; intros K L dK V HC HD HV.
  - apply (D_val _ _ 0); [cbn; ring|]. exact (derivable_pt_lim_const 0 0).
  - assert (P : forall t, 0 < K t 0%nat 0%nat) by (intros t; exact (chol_K00 n _ _ (HC t))). specialize (P 0) as P0. set (k := K 0 0%nat 0%nat) in *.
    destruct (inv_sch n (K 0) V ltac:(fold k; lra) HV) as (A1 & A2 & A3). assert (VS : forall i j, (i < S n)%nat -> (j < S n)%nat -> V i j = V j i) by (apply (inv_sym (S n) (K 0) V); [exact (chol_sym _ _ _ (HC 0))|exact HV]).
    specialize (IH (fun t => sch (K t)) (fun t => sh (L t)) (dsch (K 0) dK) (sh V) (fun t => chol_sch n _ _ (HC t)) (D_sch n K dK ltac:(fold k; lra) HD) A3).
    assert (D0 : derivable_pt_lim (fun t => ln (L t 0%nat 0%nat)) 0 (1 / 2 * (dK 0%nat 0%nat / k))).
    { apply (D_ext (fun t => 1 / 2 * ln (K t 0%nat 0%nat))).
      - intros t. destruct (chol_first n _ _ (HC t)) as (Q0 & Q1 & _). rewrite <- Q1, ln_mult by assumption. lra.
      - apply derivable_pt_lim_scal. apply (D_val _ _ (/ k * dK 0%nat 0%nat)); [unfold Rdiv; ring|]. apply (derivable_pt_lim_comp (fun t => K t 0%nat 0%nat) ln); [apply HD; lia|apply derivable_pt_lim_ln; exact P0]. }
    pose proof (derivable_pt_lim_plus _ _ 0 _ _ D0 IH) as Q. eapply D_ext; [|eapply D_val; [|exact Q]].
    + intros t. rewrite rs_front. reflexivity.
    + rewrite <- Rmult_plus_distr_l. f_equal. assert (KS : forall i j, (i < S n)%nat -> (j < S n)%nat -> K 0 i j = K 0 j i) by exact (chol_sym _ _ _ (HC 0)).
      assert (DS : forall i j, (i < S n)%nat -> (j < S n)%nat -> dK i j = dK j i).
      { intros i j Hi Hj. apply (D_uniq (fun t => K t i j) 0); [now apply HD|]. apply (D_ext (fun t => K t j i)); [intros t; apply (chol_sym _ _ _ (HC t)); assumption|now apply HD]. }
      rewrite rs_front. rewrite (rs_front n (fun j => V 0%nat j * dK 0%nat j)). rewrite (rs_ext n (fun i => rs (S n) (fun j => V (S i) j * dK (S i) j)) (fun i => V 0%nat (S i) * dK 0%nat (S i) + rs n (fun j => V (S i) (S j) * dK (S i) (S j)))).
      2: { intros i Hi. rewrite rs_front, (VS (S i) 0%nat), (DS (S i) 0%nat) by lia. reflexivity. }
      rewrite rs_plus. set (T := rs n (fun i => rs n (fun j => V (S i) (S j) * dK (S i) (S j)))).
      set (w i := rs n (fun l => K 0 0%nat (S l) * V (S l) (S i))). set (e := rs n (fun i => V 0%nat (S i) * dK 0%nat (S i))).
      assert (E2 : e = - rs n (fun i => w i * dK 0%nat (S i)) / k). { unfold e. rewrite (rs_ext n _ (fun i => - / k * (w i * dK 0%nat (S i)))); [rewrite rs_scale; field; lra|]. intros i Hi. rewrite (A1 i Hi). fold k. unfold w. field. lra. }
      set (g := rs n (fun i => w i * dK 0%nat (S i))) in *.
      assert (W0 : rs n (fun l => K 0 0%nat (S l) * V (S l) 0%nat) = - rs n (fun l => K 0 0%nat (S l) * w l) / k).
      { rewrite (rs_ext n _ (fun l => - / k * (K 0 0%nat (S l) * w l))); [rewrite rs_scale; field; lra|]. intros l Hl. rewrite (VS (S l) 0%nat), (A1 l Hl) by lia. fold k. unfold w. field. lra. }
      set (h := rs n (fun l => K 0 0%nat (S l) * w l)) in *. rewrite W0 in A2. fold k in A2.
      (* the Schur part *)
      assert (SP : rs n (fun i => rs n (fun j => sh V i j * dsch (K 0) dK i j)) = T - 2 * g / k + h * dK 0%nat 0%nat / (k * k)).
      { assert (B1 : rs n (fun i => rs n (fun j => V (S i) (S j) * (dK 0%nat (S i) * K 0 0%nat (S j)))) = g).
        { unfold g. apply rs_ext. intros i Hi. unfold w. rewrite <- rs_scale_r. apply rs_ext. intros j Hj. rewrite (VS (S i) (S j)) by lia. ring. }
        assert (B2 : rs n (fun i => rs n (fun j => V (S i) (S j) * (K 0 0%nat (S i) * dK 0%nat (S j)))) = g).
        { rewrite rs_swap. unfold g. apply rs_ext. intros j Hj. unfold w. rewrite <- rs_scale_r. apply rs_ext. intros; ring. }
        assert (B3 : rs n (fun i => rs n (fun j => V (S i) (S j) * (K 0 0%nat (S i) * K 0 0%nat (S j)))) = h).
        { rewrite rs_swap. unfold h. apply rs_ext. intros j Hj. unfold w. rewrite <- rs_scale. apply rs_ext. intros; ring. }
        transitivity (rs n (fun i => rs n (fun j => V (S i) (S j) * dK (S i) (S j)) - (rs n (fun j => V (S i) (S j) * (dK 0%nat (S i) * K 0 0%nat (S j))) + rs n (fun j => V (S i) (S j) * (K 0 0%nat (S i) * dK 0%nat (S j)))) * / k + rs n (fun j => V (S i) (S j) * (K 0 0%nat (S i) * K 0 0%nat (S j))) * (dK 0%nat 0%nat / (k * k)))).
        - apply rs_ext. intros i Hi. rewrite <- rs_plus, <- !rs_scale_r, <- rs_minus, <- rs_plus. apply rs_ext. intros j Hj. unfold sh, dsch. fold k. rewrite (DS (S i) 0%nat), (KS (S i) 0%nat) by lia. field. lra.
        - rewrite rs_plus, rs_minus, !rs_scale_r, rs_plus, B1, B2, B3. fold T. field. lra. }
      rewrite SP, A2, E2. field. lra.
Qed.

(* the derivative of y' K^-1 y *)
Lemma D_quad : forall n (K L : R -> rmtx) dK (y A : R -> nat -> R) dy, (forall t, is_chol n (K t) (L t)) ->
  (forall i j, (i < n)%nat -> (j < n)%nat -> derivable_pt_lim (fun t => K t i j) 0 (dK i j)) -> (forall i, (i < n)%nat -> derivable_pt_lim (fun t => y t i) 0 (dy i)) ->
  (forall t i, (i < n)%nat -> rs n (fun k => K t i k * A t k) = y t i) ->
  derivable_pt_lim (fun t => rs n (fun i => y t i * A t i)) 0 (2 * rs n (fun i => A 0 i * dy i) - rs n (fun i => rs n (fun j => A 0 i * dK i j * A 0 j))).
Proof.
  induction n as [|n IH]; intros K L dK y A dy HC HD HY HA.
  - apply (D_val _ _ 0); [cbn; ring|]. exact (derivable_pt_lim_const 0 0).
  - assert (P : forall t, 0 < K t 0%nat 0%nat) by (intros t; exact (chol_K00 n _ _ (HC t))).
    set (c t := rs n (fun k => K t 0%nat (S k) * A t (S k))).
    assert (A0 : forall t, A t 0%nat = (y t 0%nat - c t) / K t 0%nat 0%nat).
    { intros t. specialize (P t). specialize (HA t 0%nat ltac:(lia)). rewrite rs_front in HA. fold (c t) in HA. rewrite <- HA. field. lra. }
    assert (KS : forall t i j, (i < S n)%nat -> (j < S n)%nat -> K t i j = K t j i) by (intros t; exact (chol_sym _ _ _ (HC t))).
    assert (DS : forall i j, (i < S n)%nat -> (j < S n)%nat -> dK i j = dK j i).
    { intros i j Hi Hj. apply (D_uniq (fun t => K t i j) 0); [now apply HD|]. apply (D_ext (fun t => K t j i)); [intros t; now apply KS|now apply HD]. }
    set (y' t i := y t (S i) - K t (S i) 0%nat * y t 0%nat / K t 0%nat 0%nat).
    set (dy' i := dy (S i) - (dK (S i) 0%nat * y 0 0%nat + K 0 (S i) 0%nat * dy 0%nat) / K 0 0%nat 0%nat + K 0 (S i) 0%nat * y 0 0%nat * dK 0%nat 0%nat / (K 0 0%nat 0%nat * K 0 0%nat 0%nat)).
    specialize (P 0) as P0. assert (DY' : forall i, (i < n)%nat -> derivable_pt_lim (fun t => y' t i) 0 (dy' i)).
    { intros i Hi. unfold y'. pose proof (derivable_pt_lim_minus _ _ 0 _ _ (HY (S i) ltac:(lia)) (D_quot _ _ _ _ (D_prod _ _ _ _ (HD (S i) 0%nat ltac:(lia) ltac:(lia)) (HY 0%nat ltac:(lia))) (HD 0%nat 0%nat ltac:(lia) ltac:(lia)) ltac:(lra))) as Q.
      cbv beta in Q. eapply D_val; [|exact Q]. unfold dy'. field. lra. }
    assert (HA' : forall t i, (i < n)%nat -> rs n (fun k => sch (K t) i k * A t (S k)) = y' t i).
    { intros t i Hi. specialize (P t). pose proof (HA t (S i) ltac:(lia)) as H. rewrite rs_front, A0 in H. unfold y', sch. rewrite <- H.
      rewrite (rs_ext n _ (fun k => K t (S i) (S k) * A t (S k) - K t (S i) 0%nat / K t 0%nat 0%nat * (K t 0%nat (S k) * A t (S k)))) by (intros; field; lra). rewrite rs_minus, rs_scale. fold (c t). field. lra. }
    specialize (IH (fun t => sch (K t)) (fun t => sh (L t)) (dsch (K 0) dK) y' (fun t k => A t (S k)) dy' (fun t => chol_sch n _ _ (HC t)) (D_sch n K dK ltac:(lra) HD) DY' HA').
    pose proof (derivable_pt_lim_plus _ _ 0 _ _ (D_quot _ _ _ _ (D_prod _ _ _ _ (HY 0%nat ltac:(lia)) (HY 0%nat ltac:(lia))) (HD 0%nat 0%nat ltac:(lia) ltac:(lia)) ltac:(lra)) IH) as Q. cbv beta in Q.
    eapply D_ext; [|eapply D_val; [|exact Q]].
    + intros t. specialize (P t). unfold plus_fct. rewrite rs_front, A0. rewrite (rs_ext n (fun i => y t (S i) * A t (S i)) (fun i => y' t i * A t (S i) + y t 0%nat / K t 0%nat 0%nat * (K t 0%nat (S i) * A t (S i)))).
      * rewrite rs_plus, rs_scale. fold (c t). field. lra.
      * intros i Hi. unfold y'. rewrite (KS t (S i) 0%nat) by lia. field. lra.
    + set (k := K 0 0%nat 0%nat) in *. set (y0 := y 0 0%nat) in *. set (cc := c 0). set (e := rs n (fun i => A 0 (S i) * dK 0%nat (S i))). set (G := rs n (fun i => A 0 (S i) * dy (S i))). set (T := rs n (fun i => rs n (fun j => A 0 (S i) * dK (S i) (S j) * A 0 (S j)))).
      assert (E1 : rs n (fun i => A 0 (S i) * dy' i) = G - (e * y0 + cc * dy 0%nat) / k + cc * y0 * dK 0%nat 0%nat / (k * k)).
      { rewrite (rs_ext n _ (fun i => A 0 (S i) * dy (S i) - (A 0 (S i) * dK 0%nat (S i) * y0 + K 0 0%nat (S i) * A 0 (S i) * dy 0%nat) * / k + K 0 0%nat (S i) * A 0 (S i) * (y0 * dK 0%nat 0%nat / (k * k)))).
        - rewrite rs_plus, rs_minus, !rs_scale_r, rs_plus, !rs_scale_r. fold e G. change (rs n (fun i => K 0 0%nat (S i) * A 0 (S i))) with cc. field. lra.
        - intros i Hi. unfold dy'. fold k y0. rewrite (DS (S i) 0%nat), (KS 0 (S i) 0%nat) by lia. field. lra. }
      assert (E2 : rs n (fun i => rs n (fun j => A 0 (S i) * dsch (K 0) dK i j * A 0 (S j))) = T - 2 * e * cc / k + cc * cc * dK 0%nat 0%nat / (k * k)).
      { transitivity (rs n (fun i => rs n (fun j => A 0 (S i) * dK (S i) (S j) * A 0 (S j)) - (A 0 (S i) * dK 0%nat (S i) * cc + K 0 0%nat (S i) * A 0 (S i) * e) * / k + K 0 0%nat (S i) * A 0 (S i) * (cc * (dK 0%nat 0%nat / (k * k))))).
        - apply rs_ext. intros i Hi. change cc with (rs n (fun j => K 0 0%nat (S j) * A 0 (S j))). unfold e. rewrite <- (rs_scale_r n (dK 0%nat 0%nat / (k * k))), <- !rs_scale, <- rs_plus, <- rs_scale_r, <- rs_minus, <- rs_plus.
          apply rs_ext. intros j Hj. unfold dsch. fold k. rewrite (DS (S i) 0%nat), (KS 0 (S i) 0%nat) by lia. field. lra.
        - rewrite rs_plus, rs_minus, !rs_scale_r, rs_plus, !rs_scale_r. fold T e. change (rs n (fun i => K 0 0%nat (S i) * A 0 (S i))) with cc. field. lra. }
      assert (E3 : rs (S n) (fun i => rs (S n) (fun j => A 0 i * dK i j * A 0 j)) = A 0 0%nat * A 0 0%nat * dK 0%nat 0%nat + 2 * A 0 0%nat * e + T).
      { rewrite rs_front, (rs_front n (fun j => A 0 0%nat * dK 0%nat j * A 0 j)). rewrite (rs_ext n (fun i => rs (S n) (fun j => A 0 (S i) * dK (S i) j * A 0 j)) (fun i => A 0 (S i) * dK 0%nat (S i) * A 0 0%nat + rs n (fun j => A 0 (S i) * dK (S i) (S j) * A 0 (S j)))).
        - rewrite rs_plus, rs_scale_r. fold e T. rewrite (rs_ext n (fun i => A 0 0%nat * dK 0%nat (S i) * A 0 (S i)) (fun i => A 0 (S i) * dK 0%nat (S i) * A 0 0%nat)) by (intros; ring). rewrite rs_scale_r. fold e. ring.
        - intros i Hi. rewrite rs_front, (DS (S i) 0%nat) by lia. reflexivity. }
      rewrite E1, E2, E3, rs_front. fold G. rewrite A0. fold k y0 cc. field. lra.
Qed.

Lemma D_shift f x l : derivable_pt_lim (fun s => f (x + s)) 0 l -> derivable_pt_lim f x l.
Proof.
  intros H. apply (D_ext (fun t => f (x + (t - x)))); [intros t; f_equal; ring|]. apply (D_val _ _ (l * 1)); [ring|].
  apply (derivable_pt_lim_comp (fun t => t - x) (fun s => f (x + s))); [|now replace (x - x) with 0 by ring].
  apply (D_val _ _ (1 - 0)); [ring|]. apply (D_minus (fun t => t) (fun _ => x)); [apply D_id|apply D_const].
Qed.
Lemma D_unshift f x l : derivable_pt_lim f x l -> derivable_pt_lim (fun s => f (x + s)) 0 l.
Proof.
  intros H. apply (D_val _ _ (l * 1)); [ring|]. apply (derivable_pt_lim_comp (fun s => x + s) f); [|now replace (x + 0) with x by ring].
  apply (D_val _ _ (0 + 1)); [ring|]. apply (D_plus (fun _ => x) (fun t => t)); [apply D_const|apply D_id].
Qed.

(* the derivative of the value is the gradient formula *)
Lemma D_lml n cy (K L A : R -> rmtx) dK V Y x : (forall t, is_chol n (K t) (L t)) ->
  (forall i j, (i < n)%nat -> (j < n)%nat -> derivable_pt_lim (fun t => K t i j) x (dK i j)) ->
  (forall t i k, (i < n)%nat -> (k < cy)%nat -> rs n (fun j => K t i j * A t j k) = Y i k) ->
  (forall i j, (i < n)%nat -> (j < n)%nat -> rs n (fun k => K x i k * V k j) = delta i j) ->
  derivable_pt_lim (fun t => lml_value n cy (L t) (A t) Y) x (rs cy (fun l => 1 / 2 * rs n (fun i => rs n (fun j => (A x i l * A x j l - V i j) * dK i j)))).
Proof.
  intros HC HD HA HV. apply D_shift. unfold lml_value.
  apply (D_rs cy (fun k s => - (1 / 2) * rs n (fun i => Y i k * A (x + s) i k) - rs n (fun i => ln (L (x + s) i i)) - INR n / 2 * ln (2 * PI))). intros l Hl.
  assert (X0 : x + 0 = x) by ring.
  pose proof (D_logdet n (fun s => K (x + s)) (fun s => L (x + s)) dK V (fun s => HC (x + s)) (fun i j Hi Hj => D_unshift (fun t => K t i j) x _ (HD i j Hi Hj)) ltac:(intros i j Hi Hj; cbv beta; rewrite X0; now apply HV)) as Q1.
  pose proof (D_quad n (fun s => K (x + s)) (fun s => L (x + s)) dK (fun _ i => Y i l) (fun s i => A (x + s) i l) (fun _ => 0) (fun s => HC (x + s)) (fun i j Hi Hj => D_unshift (fun t => K t i j) x _ (HD i j Hi Hj)) (fun i Hi => D_const (Y i l) 0) ltac:(intros s i Hi; cbv beta; now apply HA)) as Q2.
  cbv beta in Q1, Q2. rewrite X0 in Q2.
  pose proof (D_minus _ _ 0 _ _ (D_minus _ _ 0 _ _ (D_scal (- (1 / 2)) _ 0 _ Q2) Q1) (D_const (INR n / 2 * ln (2 * PI)) 0)) as Q. eapply D_val; [|exact Q].
  rewrite (rs_ext n (fun i => A x i l * 0) (fun _ => 0)) by (intros; ring). rewrite rs_zero.
  rewrite (rs_ext n (fun i => rs n (fun j => (A x i l * A x j l - V i j) * dK i j)) (fun i => rs n (fun j => A x i l * dK i j * A x j l) - rs n (fun j => V i j * dK i j))).
  - rewrite rs_minus. field.
  - intros i Hi. rewrite <- rs_minus. apply rs_ext. intros; ring.
Qed.

(* log density of y under N(0, K), one coordinate after the other: the first is N(0, K00), the others have the conditional
   mean and covariance *)
Fixpoint logdens (n : nat) (K : rmtx) (y : nat -> R) : R :=
  match n with
  | O => 0
  | S m => - (y 0%nat * y 0%nat / (2 * K 0%nat 0%nat)) - 1 / 2 * ln (2 * PI * K 0%nat 0%nat) + logdens m (sch K) (fun i => y (S i) - K (S i) 0%nat * y 0%nat / K 0%nat 0%nat)
  end.
Lemma logdens_value : forall n K L y A, is_chol n K L -> (forall i, (i < n)%nat -> rs n (fun k => K i k * A k) = y i) ->
  logdens n K y = - (1 / 2) * rs n (fun i => y i * A i) - rs n (fun i => ln (L i i)) - INR n / 2 * ln (2 * PI).
Proof.
  induction n as [|n IH]; intros K L y A HC HA; [cbn; field|]. pose proof (chol_K00 n _ _ HC) as P. cbn [logdens].
  set (c := rs n (fun k => K 0%nat (S k) * A (S k))). assert (A0 : A 0%nat = (y 0%nat - c) / K 0%nat 0%nat).
  { specialize (HA 0%nat ltac:(lia)). rewrite rs_front in HA. fold c in HA. rewrite <- HA. field. lra. }
  rewrite (IH (sch K) (sh L) _ (fun k => A (S k)) (chol_sch n _ _ HC)).
  - rewrite !rs_front, S_INR, A0. destruct (chol_first n _ _ HC) as (Q0 & Q1 & _). pose proof PI_RGT_0.
    rewrite (ln_mult (2 * PI)) by lra. replace (ln (K 0%nat 0%nat)) with (2 * ln (L 0%nat 0%nat)) by (rewrite <- Q1, ln_mult by assumption; ring).
    rewrite (rs_ext n (fun i => (y (S i) - K (S i) 0%nat * y 0%nat / K 0%nat 0%nat) * A (S i)) (fun i => y (S i) * A (S i) - y 0%nat / K 0%nat 0%nat * (K 0%nat (S i) * A (S i)))).
    + rewrite rs_minus, rs_scale. fold c. unfold sh. field. lra.
    + intros i Hi. rewrite (chol_sym _ _ _ HC (S i) 0%nat) by lia. field. lra.
  - intros i Hi. pose proof (HA (S i) ltac:(lia)) as H. rewrite rs_front, A0 in H. unfold sch. rewrite <- H.
    rewrite (rs_ext n _ (fun k => K (S i) (S k) * A (S k) - K (S i) 0%nat / K 0%nat 0%nat * (K 0%nat (S k) * A (S k)))) by (intros; field; lra). rewrite rs_minus, rs_scale. fold c. field. lra.
Qed.

(* a symmetric positive definite matrix has a Cholesky factor, and its systems have solutions *)
Definition posdef (n : nat) (K : rmtx) : Prop := (forall i j, (i < n)%nat -> (j < n)%nat -> K i j = K j i) /\
  forall c : nat -> R, (exists i, (i < n)%nat /\ c i <> 0) -> 0 < rs n (fun i => rs n (fun j => c i * c j * K i j)).
Lemma quad_front n (K : rmtx) (c : nat -> R) : (forall i j, (i < S n)%nat -> (j < S n)%nat -> K i j = K j i) ->
  rs (S n) (fun i => rs (S n) (fun j => c i * c j * K i j)) =
  c 0%nat * c 0%nat * K 0%nat 0%nat + 2 * c 0%nat * rs n (fun i => c (S i) * K 0%nat (S i)) + rs n (fun i => rs n (fun j => c (S i) * c (S j) * K (S i) (S j))).
Proof.
  intros HS. rewrite rs_front, (rs_front n (fun j => c 0%nat * c j * K 0%nat j)).
  rewrite (rs_ext n (fun i => rs (S n) (fun j => c (S i) * c j * K (S i) j)) (fun i => c 0%nat * (c (S i) * K 0%nat (S i)) + rs n (fun j => c (S i) * c (S j) * K (S i) (S j)))).
  - rewrite rs_plus, rs_scale. rewrite (rs_ext n (fun i => c 0%nat * c (S i) * K 0%nat (S i)) (fun i => c 0%nat * (c (S i) * K 0%nat (S i)))) by (intros; ring). rewrite rs_scale. ring.
  - intros i Hi. rewrite rs_front, (HS (S i) 0%nat) by lia. ring.
Qed.
Lemma posdef_00 n K : posdef (S n) K -> 0 < K 0%nat 0%nat.
Proof.
  intros [HS HP]. specialize (HP (fun i => match i with O => 1 | _ => 0 end) (ex_intro _ 0%nat (conj (Nat.lt_0_succ n) R1_neq_R0))). rewrite quad_front in HP by exact HS.
  rewrite (rs_ext n (fun i => 0 * K 0%nat (S i)) (fun _ => 0)) in HP by (intros; ring). rewrite (rs_ext n (fun i => rs n (fun j => 0 * 0 * K (S i) (S j))) (fun _ => 0)) in HP by (intros i Hi; transitivity (rs n (fun _ => 0)); [apply rs_ext; intros; ring|apply rs_zero]). rewrite rs_zero in HP. lra.
Qed.
Lemma posdef_sch n K : posdef (S n) K -> posdef n (sch K).
Proof.
  intros H. pose proof (posdef_00 n K H) as P. destruct H as [HS HP]. split.
  - intros i j Hi Hj. unfold sch. rewrite (HS (S i) (S j)), (HS (S i) 0%nat), (HS 0%nat (S j)) by lia. unfold Rdiv. ring.
  - intros c (i0 & Hi0 & Hc). set (s := rs n (fun i => c i * K 0%nat (S i))).
    specialize (HP (fun i => match i with O => - s / K 0%nat 0%nat | S i => c i end) (ex_intro _ (S i0) (conj (proj1 (Nat.succ_lt_mono i0 n) Hi0) Hc))). rewrite quad_front in HP by exact HS. cbv beta iota in HP. fold s in HP.
    replace (rs n (fun i => rs n (fun j => c i * c j * sch K i j))) with (rs n (fun i => rs n (fun j => c i * c j * K (S i) (S j))) - s * s / K 0%nat 0%nat).
    + eapply Rlt_le_trans; [exact HP|]. right. field. lra.
    + replace (s * s / K 0%nat 0%nat) with (rs n (fun i => c i * K 0%nat (S i) * (s * / K 0%nat 0%nat))) by (rewrite rs_scale_r; fold s; unfold Rdiv; ring).
      rewrite <- rs_minus. apply rs_ext. intros i Hi. unfold s. rewrite <- rs_scale_r, <- rs_scale, <- rs_minus. apply rs_ext. intros j Hj. unfold sch. rewrite (HS (S i) 0%nat) by lia. field. lra.
Qed.
Fixpoint chol (n : nat) (K : rmtx) : rmtx :=
  match n with
  | O => fun _ _ => 0
  | S m => fun i j => match i, j with O, O => sqrt (K 0%nat 0%nat) | O, S _ => 0 | S _, O => K i 0%nat / sqrt (K 0%nat 0%nat) | S i, S j => chol m (sch K) i j end
  end.
Lemma chol_ok : forall n K, posdef n K -> is_chol n K (chol n K).
Proof.
  induction n as [|n IH]; intros K H; [repeat split; intros; lia|]. pose proof (posdef_00 n K H) as P. destruct (IH _ (posdef_sch n K H)) as (T & Q & E). destruct H as [HS _].
  assert (SP := sqrt_lt_R0 _ P). assert (SS := sqrt_sqrt _ (Rlt_le _ _ P)). split; [|split].
  - intros [|i] [|j] Hi Hj Hij; try lia; [reflexivity|]. cbn [chol]. apply T; lia.
  - intros [|i] Hi; [exact SP|]. cbn [chol]. apply Q. lia.
  - assert (Z0 : forall f, rs n (fun k : nat => f k * 0) = 0) by (intros f; transitivity (rs n (fun _ => 0)); [apply rs_ext; intros; ring|apply rs_zero]).
    intros [|i] [|j] Hi Hj; rewrite rs_front; cbn [chol].
    + rewrite Z0, SS. ring.
    + rewrite (rs_ext n _ (fun k => chol n (sch K) j k * 0)) by (intros; ring). rewrite Z0, (HS 0%nat (S j)) by lia. field. lra.
    + rewrite Z0. field. lra.
    + rewrite E by lia. unfold sch. rewrite (HS 0%nat (S j)) by lia. replace (K 0%nat 0%nat) with (sqrt (K 0%nat 0%nat) * sqrt (K 0%nat 0%nat)) at 3 by exact SS. field. lra.
Qed.
Fixpoint solve (n : nat) (K : rmtx) (y : nat -> R) : nat -> R :=
  match n with
  | O => fun _ => 0
  | S m => let A := solve m (sch K) (fun i => y (S i) - K (S i) 0%nat * y 0%nat / K 0%nat 0%nat) in
      fun i => match i with O => (y 0%nat - rs m (fun k => K 0%nat (S k) * A k)) / K 0%nat 0%nat | S i => A i end
  end.
Lemma solve_ok : forall n K y, posdef n K -> forall i, (i < n)%nat -> rs n (fun k => K i k * solve n K y k) = y i.
Proof.
  induction n as [|n IH]; intros K y H i Hi; [lia|]. pose proof (posdef_00 n K H) as P. specialize (IH (sch K) (fun i => y (S i) - K (S i) 0%nat * y 0%nat / K 0%nat 0%nat) (posdef_sch n K H)).
  rewrite rs_front. cbn [solve]. set (A := solve n (sch K) _) in *. destruct i as [|i]; [field; lra|]. specialize (IH i ltac:(lia)). unfold sch in IH.
  rewrite (rs_ext n _ (fun k => K (S i) (S k) * A k - K (S i) 0%nat / K 0%nat 0%nat * (K 0%nat (S k) * A k))) in IH by (intros; field; lra). rewrite rs_minus, rs_scale in IH.
  set (c := rs n (fun k => K 0%nat (S k) * A k)) in *. replace (K (S i) 0%nat * ((y 0%nat - c) / K 0%nat 0%nat)) with (K (S i) 0%nat * y 0%nat / K 0%nat 0%nat - K (S i) 0%nat / K 0%nat 0%nat * c) by (field; lra). lra.
Qed.
Lemma add_alpha_entry n al K G : add_alpha n al K = Some G -> exists d, (forall i, (i < n)%nat -> alpha_at al i = Some (d i)) /\ forall i j, (i < n)%nat -> G i j = K i j + (if Nat.eqb i j then d i else 0).
Proof.
  unfold add_alpha. destruct (forallb _ _) eqn:F; [|discriminate]. intros E. injection E as <-. rewrite forallb_forall in F.
  exists (fun i => match alpha_at al i with Some a => a | None => 0 end). split.
  - intros i Hi. specialize (F i ltac:(apply in_seq; lia)). destruct (alpha_at al i); [reflexivity|discriminate].
  - intros i j _. destruct (Nat.eqb i j); ring.
Qed.
Lemma add_alpha_D n al (K G : R -> rmtx) dK x : (forall t, add_alpha n al (K t) = Some (G t)) -> (forall i j, (i < n)%nat -> (j < n)%nat -> derivable_pt_lim (fun t => K t i j) x (dK i j)) ->
  forall i j, (i < n)%nat -> (j < n)%nat -> derivable_pt_lim (fun t => G t i j) x (dK i j).
Proof.
  intros HG HD i j Hi Hj. apply (D_ext (fun t => K t i j + (if Nat.eqb i j then match alpha_at al i with Some a => a | None => 0 end else 0))).
  - intros t. destruct (add_alpha_entry _ _ _ _ (HG t)) as (d & D1 & D2). rewrite D2, (D1 i Hi) by assumption. reflexivity.
  - apply (D_val _ _ (dK i j + 0)); [ring|]. apply (D_plus (fun t => K t i j)); [now apply HD|apply D_const].
Qed.

(* changing the parameters keeps a covariance *)
Lemma pk_wt p n X k : pk p n X k -> gk p n X k -> forall th, pk p n X (wt k th).
Proof.
  induction k as [c b|v b|ls bs|s b|k1 IH1 k2 IH2|k1 IH1 k2 IH2|k IH e]; intros H G th; cbn [pk gk wt] in *; try tauto.
  - cbn [setfree]. destruct (fixedb b); [exact H|]. destruct th as [|t th]; cbn [hd]; [exact H|left; apply exp_pos].
  - destruct H as [H H2]. split; [|exact H2]. cbn [setfree]. destruct (fixedb b); [exact H|]. destruct th as [|t th]; cbn [hd]; [exact H|left; apply exp_pos].
  - destruct H, G; split; auto.
  - destruct H, G; split; auto.
Qed.
Lemma kmat_sym pw p X k K : eval pw p k X X = Some K -> forall i j, K i j = K j i.
Proof. intros E i j. destruct (eval_sym pw p k X X K E) as (K' & E' & H). rewrite E in E'. injection E' as <-. apply H. Qed.
Lemma alpha_posdef n al K G : (forall i j, K i j = K j i) -> psd n K -> add_alpha n al K = Some G -> Forall (fun a => 0 < a) al -> posdef n G.
Proof.
  intros HS HP HG HA. destruct (add_alpha_entry _ _ _ _ HG) as (d & D1 & D2).
  assert (DP : forall i, (i < n)%nat -> 0 < d i).
  { intros i Hi. specialize (D1 i Hi). rewrite Forall_forall in HA. apply HA. unfold alpha_at in D1. destruct (Nat.eqb _ _); eapply nth_error_In; exact D1. }
  split.
  - intros i j Hi Hj. rewrite !D2, (HS i j) by assumption. destruct (Nat.eqb_spec i j) as [->|N]; [now rewrite Nat.eqb_refl|]. destruct (Nat.eqb_spec j i); [congruence|reflexivity].
  - intros c (i0 & Hi0 & Hc). specialize (HP c). rewrite (rs_ext n _ (fun i => rs n (fun j => c i * c j * K i j) + d i * (c i * c i))).
    + rewrite rs_plus. apply Rplus_le_lt_0_compat; [exact HP|]. rewrite (rs_split n (fun i => d i * (c i * c i)) i0 Hi0). apply Rplus_lt_le_0_compat; [apply Rmult_lt_0_compat; [auto|nra]|].
      apply rs_nonneg. intros i Hi. destruct (Nat.eqb i i0); [lra|]. apply Rmult_le_pos; [left; auto|nra].
    + intros i Hi. rewrite (rs_ext n _ (fun j => c i * c j * K i j + (if Nat.eqb i j then d i * (c i * c j) else 0))) by (intros j Hj; rewrite D2 by assumption; destruct (Nat.eqb i j); ring).
      rewrite rs_plus. f_equal. rewrite (rs_split n (fun j => if Nat.eqb i j then d i * (c i * c j) else 0) i Hi), Nat.eqb_refl.
      rewrite (rs_ext n _ (fun _ => 0)); [rewrite rs_zero; ring|]. intros j _. destruct (Nat.eqb_spec j i) as [|N]; [reflexivity|]. destruct (Nat.eqb_spec i j); [congruence|reflexivity].
Qed.
Lemma add_alpha_some n al K : (length al = 1 \/ n <= length al)%nat -> exists G, add_alpha n al K = Some G.
Proof.
  intros H. unfold add_alpha. replace (forallb _ _) with true; [eauto|]. symmetry. apply forallb_forall. intros i Hi. apply in_seq in Hi. unfold alpha_at.
  destruct (Nat.eqb_spec (length al) 1) as [E|N]; [destruct al; [discriminate|reflexivity]|]. destruct (nth_error al i) eqn:E; [reflexivity|]. apply nth_error_None in E. lia.
Qed.
(* what gonum promises for symmetric positive definite matrices *)
Definition solver_ok (n cy : nat) (Y : rmtx) (fac : rmtx -> option rmtx) (sol inv : rmtx -> rmtx) : Prop := forall G,
  (forall L, fac G = Some L -> is_chol n G L) /\ (posdef n G -> fac G <> None) /\
  (posdef n G -> forall i c, (i < n)%nat -> (c < cy)%nat -> rs n (fun j => G i j * sol G j c) = Y i c) /\
  (posdef n G -> forall i j, (i < n)%nat -> (j < n)%nat -> rs n (fun k => G i k * inv G k j) = if Nat.eqb i j then 1 else 0).
(* a solver that keeps the promise *)
Fixpoint pivots (n : nat) (K : rmtx) : bool := match n with O => true | S m => (rltb 0 (K 0%nat 0%nat) && pivots m (sch K))%bool end.
Definition symb (n : nat) (K : rmtx) : bool := forallb (fun i => forallb (fun j => reqb (K i j) (K j i)) (seq 0 n)) (seq 0 n).
Definition xfac (n : nat) (K : rmtx) : option rmtx := if (symb n K && pivots n K)%bool then Some (chol n K) else None.
Lemma symb_ok n K : symb n K = true <-> forall i j, (i < n)%nat -> (j < n)%nat -> K i j = K j i.
Proof.
  unfold symb. rewrite forallb_forall. split.
  - intros H i j Hi Hj. specialize (H i ltac:(apply in_seq; lia)). rewrite forallb_forall in H. specialize (H j ltac:(apply in_seq; lia)). destruct (reqb_spec (K i j) (K j i)); congruence.
  - intros H i Hi. apply in_seq in Hi. apply forallb_forall. intros j Hj. apply in_seq in Hj. destruct (reqb_spec (K i j) (K j i)) as [|N]; [reflexivity|]. exfalso. apply N, H; lia.
Qed.
Lemma pivots_posdef : forall n K, (forall i j, (i < n)%nat -> (j < n)%nat -> K i j = K j i) -> pivots n K = true -> posdef n K.
Proof.
  induction n as [|n IH]; intros K HS HP; [split; [exact HS|intros c (i & Hi & _); lia]|]. cbn [pivots] in HP. apply andb_true_iff in HP. destruct HP as [P0 P1]. destruct (rltb_spec 0 (K 0%nat 0%nat)) as [P|]; [|discriminate]. clear P0.
  assert (SS : forall i j, (i < n)%nat -> (j < n)%nat -> sch K i j = sch K j i) by (intros i j Hi Hj; unfold sch; rewrite (HS (S i) (S j)), (HS (S i) 0%nat), (HS 0%nat (S j)) by lia; unfold Rdiv; ring).
  destruct (IH _ SS P1) as [_ Q]. split; [exact HS|]. intros c (i0 & Hi0 & Hc). rewrite quad_front by exact HS. set (s := rs n (fun i => c (S i) * K 0%nat (S i))).
  assert (E : rs n (fun i => rs n (fun j => c (S i) * c (S j) * K (S i) (S j))) = rs n (fun i => rs n (fun j => c (S i) * c (S j) * sch K i j)) + s * s / K 0%nat 0%nat).
  { replace (s * s / K 0%nat 0%nat) with (rs n (fun i => c (S i) * K 0%nat (S i) * (s * / K 0%nat 0%nat))) by (rewrite rs_scale_r; fold s; unfold Rdiv; ring).
    rewrite <- rs_plus. apply rs_ext. intros i Hi. unfold s. rewrite <- rs_scale_r, <- rs_scale, <- rs_plus. apply rs_ext. intros j Hj. unfold sch. rewrite (HS (S i) 0%nat) by lia. field. lra. }
  rewrite E. set (q := rs n (fun i => rs n (fun j => c (S i) * c (S j) * sch K i j))). set (k := K 0%nat 0%nat) in *. set (c0 := c 0%nat) in *.
  replace (c0 * c0 * k + 2 * c0 * s + (q + s * s / k)) with (k * ((c0 + s / k) * (c0 + s / k)) + q) by (field; lra).
  assert (A0 : 0 <= (c0 + s / k) * (c0 + s / k)) by apply Rle_0_sqr.
  destruct (Classical_Prop.classic (exists i, (i < n)%nat /\ c (S i) <> 0)) as [N|N].
  - specialize (Q (fun i => c (S i)) N). cbv beta in Q. fold q in Q. pose proof (Rmult_le_pos k _ (Rlt_le _ _ P) A0). lra.
  - assert (Z : forall i, (i < n)%nat -> c (S i) = 0) by (intros i Hi; destruct (Req_dec (c (S i)) 0) as [|Z]; [assumption|]; exfalso; apply N; eauto).
    assert (S0 : s = 0) by (unfold s; transitivity (rs n (fun _ => 0)); [apply rs_ext; intros i Hi; rewrite Z by exact Hi; ring|apply rs_zero]).
    assert (Q0 : q = 0). { unfold q. transitivity (rs n (fun _ => 0)); [|apply rs_zero]. apply rs_ext; intros i Hi. transitivity (rs n (fun _ => 0)); [|apply rs_zero]. apply rs_ext; intros j Hj. rewrite Z by exact Hi. ring. }
    destruct i0 as [|i0]; [|exfalso; apply Hc, Z; lia]. rewrite S0, Q0. replace (k * ((c0 + 0 / k) * (c0 + 0 / k)) + 0) with (k * (c0 * c0)) by (field; lra). apply Rmult_lt_0_compat; [exact P|]. exact (Rsqr_pos_lt c0 Hc).
Qed.
Lemma posdef_pivots : forall n K, posdef n K -> pivots n K = true.
Proof. induction n as [|n IH]; intros K H; [reflexivity|]. cbn [pivots]. apply andb_true_iff. split; [|apply IH, posdef_sch, H]. destruct (rltb_spec 0 (K 0%nat 0%nat)) as [|N]; [reflexivity|]. exfalso. apply N, (posdef_00 n), H. Qed.
Lemma chol_posdef : forall n K L, is_chol n K L -> posdef n K.
Proof.
  intros n K L H. apply pivots_posdef; [exact (chol_sym _ _ _ H)|]. revert K L H. induction n as [|n IH]; intros K L H; [reflexivity|]. cbn [pivots]. apply andb_true_iff. split; [|exact (IH _ _ (chol_sch _ _ _ H))].
  destruct (rltb_spec 0 (K 0%nat 0%nat)) as [|N]; [reflexivity|]. exfalso. apply N. exact (chol_K00 _ _ _ H).
Qed.
Lemma xsolver_ok n cy Y : solver_ok n cy Y (xfac n) (fun G j c => solve n G (fun i => Y i c) j) (fun G k j => solve n G (fun i => if Nat.eqb i j then 1 else 0) k).
Proof.
  intros G. unfold xfac. split; [|split; [|split]].
  - intros L. destruct (symb n G && pivots n G)%bool eqn:E; [|discriminate]. intros H. injection H as <-. apply andb_true_iff in E. destruct E as [E1 E2]. apply chol_ok. apply pivots_posdef; [now apply symb_ok|exact E2].
  - intros H. rewrite (proj2 (symb_ok n G) (proj1 H)), (posdef_pivots n G H). discriminate.
  - intros H i c Hi Hc. exact (solve_ok n G (fun i => Y i c) H i Hi).
  - intros H i j Hi Hj. exact (solve_ok n G (fun i => if Nat.eqb i j then 1 else 0) H i Hi).
Qed.
(* shapes under wt *)
Lemma wt_shape k : forall th, hyper k <> None -> kmap (fun _ => tt) (wt k th) = kmap (fun _ => tt) k.
Proof.
  induction k as [c b|v b|ls bs|s b|k1 IH1 k2 IH2|k1 IH1 k2 IH2|k IH e]; intros th Hn; cbn [wt kmap hyper] in *; try reflexivity.
  - destruct (Nat.ltb_spec (length bs) (length ls)) as [|Hl]; [congruence|]. f_equal.
    assert (L : length (setfree (combine ls (map fixedb bs)) th) = length ls) by (rewrite setfree_length, combine_length, map_length; lia).
    revert L. generalize (setfree (combine ls (map fixedb bs)) th). clear. induction ls as [|a ls IH]; intros [|b l] L; try discriminate; [reflexivity|]. cbn. f_equal. apply IH. cbn in L. lia.
  - destruct (hyper k1), (hyper k2); try congruence. rewrite IH1, IH2; congruence.
  - destruct (hyper k1), (hyper k2); try congruence. rewrite IH1, IH2; congruence.
  - congruence.
Qed.
Lemma haswhite_map {A B} (f : A -> B) k : haswhite (kmap f k) = haswhite k.
Proof. induction k; cbn; auto; now rewrite IHk1, IHk2. Qed.
Lemma hasexp_map {A B} (f : A -> B) k : hasexp (kmap f k) = hasexp k.
Proof. induction k; cbn; auto; now rewrite IHk1, IHk2. Qed.
Lemma nfree_map {A B} (f : A -> B) k : nfree (kmap f k) = nfree k.
Proof.
  unfold nfree. assert (E : tvars (kmap f k) = option_map (map f) (tvars k)).
  { induction k; cbn [kmap tvars]; try exact IHk; match goal with |- option_map _ (hyper ?x) = option_map _ (option_map _ (hyper ?y)) => change x with (kmap f y); rewrite hyper_map; destruct (hyper y); [|reflexivity]; cbn [option_map]; now rewrite notfixed_map end. }
  rewrite E. destruct (tvars k); [cbn; apply map_length|reflexivity].
Qed.
