(* Proofs about NBProbModel.v. *)
From Coq Require Import Reals List Lra Lia ZArith.
From Verif Require Import NBProbModel.
Import ListNotations.
Local Open Scope R_scope.

Definition density (x t s : R) : R := exp (- ((x - t) * (x - t)) / (2 * s)) / sqrt (2 * PI * s).
Fixpoint joint (x th sg : list R) : R :=
  match x, th, sg with a :: x', t :: th', s :: sg' => density a t s * joint x' th' sg' | _, _, _ => 1 end.
Definition posterior (c : cls) (x : list R) : R := c_prior c * joint x (c_theta c) (c_sigma c).

Lemma exp_half_ln y : 0 < y -> exp (- / 2 * ln y) = / sqrt y.
Proof.
  intros P. assert (S : 0 < sqrt y) by now apply sqrt_lt_R0.
  rewrite <- (exp_ln (sqrt y) S), <- exp_Ropp. f_equal.
  rewrite <- (sqrt_sqrt y) at 1 by lra. rewrite ln_mult by auto. lra.
Qed.
Lemma density_exp x t s : 0 < s -> density x t s = exp (- / 2 * ln (2 * PI * s) - / 2 * (x - t) * (x - t) / s).
Proof.
  intros S. unfold density. assert (P : 0 < 2 * PI * s) by (apply Rmult_lt_0_compat; [pose proof PI_RGT_0; lra|exact S]).
  replace (- / 2 * ln (2 * PI * s) - / 2 * (x - t) * (x - t) / s) with (- ((x - t) * (x - t)) / (2 * s) + - / 2 * ln (2 * PI * s)) by (field; lra).
  rewrite exp_plus, exp_half_ln by exact P. reflexivity.
Qed.
Lemma nij_acc l : forall a, fold_left (fun n t => let '(xj, tj, sj) := t in n - / 2 * ln (2 * PI * sj) - / 2 * (xj - tj) * (xj - tj) / sj) l a =
  a + fold_left (fun n t => let '(xj, tj, sj) := t in n - / 2 * ln (2 * PI * sj) - / 2 * (xj - tj) * (xj - tj) / sj) l 0.
Proof.
  induction l as [|[[x t] s] l IH]; intros a; cbn [fold_left]; [lra|]. rewrite IH. symmetry. rewrite IH. unfold Rminus. ring.
Qed.
Lemma exp_nij x : forall th sg, (forall s, In s sg -> 0 < s) -> exp (nij x th sg) = joint x th sg.
Proof.
  induction x as [|a x IH]; intros [|t th] [|s sg] P; cbn [joint]; try (cbn; apply exp_0).
  unfold nij. cbn [combine fold_left]. rewrite nij_acc. fold (nij x th sg).
  rewrite exp_plus, IH by (intros u I; apply P; now right). rewrite density_exp by (apply P; now left).
  f_equal. f_equal. unfold Rminus. ring.
Qed.
Lemma density_pos x t s : 0 < s -> 0 < density x t s.
Proof. intros S. rewrite density_exp by auto. apply exp_pos. Qed.
Definition cls_ok (c : cls) : Prop := 0 < c_prior c /\ forall s, In s (c_sigma c) -> 0 < s.
Lemma exp_jll c x : cls_ok c -> exp (jll1 c x) = posterior c x.
Proof. intros [P S]. unfold jll1, posterior. rewrite exp_plus, exp_ln by auto. now rewrite exp_nij. Qed.
Lemma posterior_pos c x : cls_ok c -> 0 < posterior c x.
Proof. intros K. rewrite <- exp_jll by auto. apply exp_pos. Qed.

Lemma max_from_spec l : forall best bv i pre, nth_error pre best = Some bv -> length pre = i -> (forall j v, nth_error pre j = Some v -> v <= bv) -> (forall j v, nth_error pre j = Some v -> (j < best)%nat -> v < bv) ->
  exists v, nth_error (pre ++ l) (max_from best bv i l) = Some v /\ (forall j u, nth_error (pre ++ l) j = Some u -> u <= v) /\ forall j u, nth_error (pre ++ l) j = Some u -> (j < max_from best bv i l)%nat -> u < v.
Proof.
  induction l as [|x l IH]; intros best bv i pre B L M F; cbn [max_from]; [rewrite app_nil_r; exists bv; auto|].
  assert (E : pre ++ x :: l = (pre ++ [x]) ++ l) by (rewrite <- app_assoc; reflexivity). rewrite E.
  assert (NE : forall j v, nth_error (pre ++ [x]) j = Some v -> nth_error pre j = Some v \/ (j = i /\ v = x)).
  { intros j v H. destruct (Nat.lt_ge_cases j (length pre)); [left; now rewrite nth_error_app1 in H|]. right. rewrite nth_error_app2 in H by lia.
    destruct (j - length pre)%nat as [|n] eqn:D; cbn in H; [split; [lia|congruence]|destruct n; discriminate]. }
  destruct (Rlt_dec bv x) as [G|G]; apply IH.
  - rewrite nth_error_app2 by lia. now rewrite L, Nat.sub_diag.
  - rewrite app_length. cbn. lia.
  - intros j v H. apply NE in H. destruct H as [H|[_ ->]]; [specialize (M _ _ H); lra|lra].
  - intros j v H J. apply NE in H. destruct H as [H|[-> _]]; [specialize (M _ _ H); lra|lia].
  - rewrite nth_error_app1; auto. apply nth_error_Some. congruence.
  - rewrite app_length. cbn. lia.
  - intros j v H. apply NE in H. destruct H as [H|[_ ->]]; [eauto|lra].
  - intros j v H J. apply NE in H. destruct H as [H|[-> _]]; [eauto|]. assert (X : (best < length pre)%nat) by (apply nth_error_Some; congruence). lia.
Qed.
Lemma max_idx_spec l : l <> [] -> exists v, nth_error l (max_idx l) = Some v /\ (forall j u, nth_error l j = Some u -> u <= v) /\ forall j u, nth_error l j = Some u -> (j < max_idx l)%nat -> u < v.
Proof.
  destruct l as [|x l]; [congruence|]. intros _. apply (max_from_spec l 0 x 1 [x]); auto.
  - intros [|[|j]] v H; cbn in H; try discriminate. injection H as <-. lra.
  - intros j v H J. lia.
Qed.

Lemma rsum_cons a b : rsum (a :: b) = a + rsum b.
Proof. reflexivity. Qed.
Lemma rsum_pos l : l <> [] -> (forall v, In v l -> 0 < v) -> 0 < rsum l.
Proof.
  induction l as [|x l IH]; intros N P; [congruence|]. change (rsum (x :: l)) with (x + rsum l). assert (0 < x) by (apply P; now left).
  destruct l as [|y l]; [cbn; lra|]. assert (0 < rsum (y :: l)); [|lra]. apply IH; [discriminate|]. intros v I. apply P. now right.
Qed.
Lemma lse_spec l : l <> [] -> exp (lse l) = rsum (map exp l).
Proof.
  intros N. unfold lse. generalize (rmax l). intros M. rewrite exp_plus, exp_ln.
  - assert (G : forall l, rsum (map (fun v => exp (v - M)) l) * exp M = rsum (map exp l)).
    { clear. induction l as [|v l IH]; cbn [map]; [unfold rsum; cbn [fold_right]; ring|]. rewrite !rsum_cons. rewrite Rmult_plus_distr_r. rewrite <- exp_plus. replace (v - M + M) with v by lra. f_equal. exact IH. }
    apply G.
  - apply rsum_pos; [destruct l; [congruence|discriminate]|]. intros v I. apply in_map_iff in I. destruct I as (u & <- & _). apply exp_pos.
Qed.

Lemma probas_bayes m x : m <> [] -> (forall c, In c m -> cls_ok c) ->
  probas m x = map (fun c => posterior c x / rsum (map (fun k => posterior k x) m)) m /\ rsum (probas m x) = 1.
Proof.
  intros N OK. assert (J : jll m x <> []) by (unfold jll; destruct m; [congruence|discriminate]).
  assert (S : rsum (map exp (jll m x)) = rsum (map (fun k => posterior k x) m)).
  { unfold jll. rewrite map_map. f_equal. apply map_ext_in. intros c I. now apply exp_jll, OK. }
  assert (PS : 0 < rsum (map (fun k => posterior k x) m)).
  { apply rsum_pos; [destruct m; [congruence|discriminate]|]. intros v I. apply in_map_iff in I. destruct I as (c & <- & I). now apply posterior_pos, OK. }
  assert (E : probas m x = map (fun c => posterior c x / rsum (map (fun k => posterior k x) m)) m).
  { unfold probas, log_probas. rewrite map_map. unfold jll at 2. rewrite map_map. apply map_ext_in. intros c I.
    rewrite exp_plus, exp_Ropp, lse_spec, S by auto. rewrite exp_jll by auto. reflexivity. }
  split; [exact E|]. rewrite E.
  assert (G : forall l k, rsum (map (fun c => posterior c x / k) l) = rsum (map (fun c => posterior c x) l) / k).
  { clear. induction l as [|c l IH]; intros k; cbn [map]; [cbn; unfold Rdiv; ring|]. rewrite !rsum_cons. rewrite IH. unfold Rdiv. ring. }
  rewrite G. field. lra.
Qed.
Lemma predict_bayes m x : m <> [] -> (forall c, In c m -> cls_ok c) ->
  exists i c, nth_error m i = Some c /\ predict m x = c_label c /\ (forall k, In k m -> posterior k x <= posterior c x) /\
    forall j k, nth_error m j = Some k -> (j < i)%nat -> posterior k x < posterior c x.
Proof.
  intros N OK. destruct (max_idx_spec (jll m x)) as (v & E & M & F); [unfold jll; destruct m; [congruence|discriminate]|].
  unfold jll in E. rewrite nth_error_map in E. destruct (nth_error m (max_idx (jll m x))) as [c|] eqn:EC; fold (jll m x) in E; rewrite EC in E; [|discriminate]. injection E as <-.
  exists (max_idx (jll m x)), c. split; [exact EC|]. assert (IC : In c m) by (eapply nth_error_In; eauto).
  split; [unfold predict; now rewrite (nth_error_nth _ _ _ EC)|]. split.
  - intros k I. apply In_nth_error in I. destruct I as [j EJ]. rewrite <- !exp_jll by (apply OK; eauto using nth_error_In).
    assert (L : jll1 k x <= jll1 c x) by (apply (M j); unfold jll; rewrite nth_error_map, EJ; reflexivity).
    destruct L as [L| ->]; [left; now apply exp_increasing|lra].
  - intros j k EJ J. rewrite <- !exp_jll by (apply OK; eauto using nth_error_In).
    apply exp_increasing. apply (F j); [unfold jll; rewrite nth_error_map, EJ; reflexivity|exact J].
Qed.
