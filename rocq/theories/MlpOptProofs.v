(* Lemmas on the optimizers of neural_network. *)
From Coq Require Import Reals Lra Lia List Arith Bool.
From Verif Require Import MtModel MtProofs LossModel MlpNetModel.
Import ListNotations.
Open Scope R_scope.

Section Sgd.
  Variables (nest : bool) (mom : R).
  Lemma sgd_step_nth lr ps : forall gs i p g, nth_error ps i = Some p -> nth_error gs i = Some g -> nth_error (sgd_step nest mom lr ps gs) i = Some (sgd1 nest mom lr p g).
  Proof. induction ps as [|p0 ps IH]; intros [|g0 gs] [|i] p g Hp Hg; cbn [nth_error sgd_step] in *; try discriminate; [congruence|auto]. Qed.
  Lemma sgd_step_length lr ps : forall gs, length (sgd_step nest mom lr ps gs) = length ps.
  Proof. induction ps as [|p ps IH]; intros [|g gs]; cbn [sgd_step length]; auto. Qed.
  (* one coordinate on its own *)
  Definition sgd_coord (p : R) (steps : list (R * R)) : R * R := fold_left (fun st s => sgd1 nest mom (fst s) st (snd s)) steps (p, 0).
  Lemma sgd_run_nth n (ps : list R) steps i p : length ps = n -> (forall lr gs, In (lr, gs) steps -> length gs = n) -> nth_error ps i = Some p ->
    nth_error (sgd_run nest mom ps steps) i = Some (sgd_coord p (map (fun s => (fst s, nth i (snd s) 0)) steps)).
  Proof.
    intros HL HS Hp. unfold sgd_run, sgd_coord.
    assert (G : forall st q, length st = n -> nth_error st i = Some q ->
      nth_error (fold_left (fun st s => sgd_step nest mom (fst s) st (snd s)) steps st) i = Some (fold_left (fun st s => sgd1 nest mom (fst s) st (snd s)) (map (fun s => (fst s, nth i (snd s) 0)) steps) q)).
    { clear Hp. induction steps as [|[lr gs] steps IH]; intros st q Hl Hq; [exact Hq|]. cbn [fold_left map fst snd]. apply IH.
      - intros lr' gs' H. apply (HS lr'). now right.
      - now rewrite sgd_step_length.
      - apply sgd_step_nth; [exact Hq|]. apply nth_error_nth'. rewrite (HS lr gs (or_introl eq_refl)), <- Hl. apply nth_error_Some. congruence. }
    apply G; [now rewrite map_length|]. rewrite nth_error_map, Hp. reflexivity.
  Qed.
  Lemma sgd_coord_snoc p steps s : sgd_coord p (steps ++ [s]) = sgd1 nest mom (fst s) (sgd_coord p steps) (snd s).
  Proof. unfold sgd_coord. now rewrite fold_left_app. Qed.
  Lemma sgd_velocity p steps : snd (sgd_coord p steps) = - rs (length steps) (fun k => mom ^ (length steps - 1 - k) * (fst (nth k steps (0, 0)) * snd (nth k steps (0, 0)))).
  Proof.
    induction steps as [|s steps IH] using rev_ind; [cbn; ring|]. rewrite sgd_coord_snoc. unfold sgd1. cbn [snd]. rewrite IH, app_length. cbn [length].
    rewrite Nat.add_1_r. cbn [rs]. rewrite app_nth2, Nat.sub_diag by lia. cbn [nth]. replace (S (length steps) - 1 - length steps)%nat with O by lia. cbn [pow].
    assert (E : rs (length steps) (fun k => mom ^ (S (length steps) - 1 - k) * (fst (nth k (steps ++ [s]) (0, 0)) * snd (nth k (steps ++ [s]) (0, 0)))) =
      mom * rs (length steps) (fun k => mom ^ (length steps - 1 - k) * (fst (nth k steps (0, 0)) * snd (nth k steps (0, 0))))).
    { rewrite <- rs_scale. apply rs_ext. intros k Hk. rewrite app_nth1 by exact Hk. replace (S (length steps) - 1 - k)%nat with (S (length steps - 1 - k)) by lia. cbn [pow]. ring. }
    rewrite E. ring.
  Qed.
  Lemma sgd_position p steps : fst (sgd_coord p steps) - (if nest then mom * snd (sgd_coord p steps) else 0) = p + rs (length steps) (fun k => snd (sgd_coord p (firstn (S k) steps))).
  Proof.
    induction steps as [|s steps IH] using rev_ind; [cbn; destruct nest; ring|].
    rewrite app_length. cbn [length]. rewrite Nat.add_1_r. cbn [rs].
    assert (E : rs (length steps) (fun k => snd (sgd_coord p (firstn (S k) (steps ++ [s])))) = rs (length steps) (fun k => snd (sgd_coord p (firstn (S k) steps)))).
    { apply rs_ext. intros k Hk. rewrite firstn_app. replace (S k - length steps)%nat with O by lia. cbn [firstn]. now rewrite app_nil_r. }
    rewrite E. rewrite <- Rplus_assoc, <- IH. rewrite firstn_all2 by (rewrite app_length; cbn; lia). rewrite sgd_coord_snoc. unfold sgd1. destruct nest; cbn [fst snd]; ring.
  Qed.
End Sgd.

Section Adam.
  Variables (lr b1 b2 eps : R).
  (* the update of one parameter with exponent e *)
  Definition adam1 (e : nat) (st : R * R * R) (g : R) : R * R * R :=
    let '(p, m, v) := st in
    let m' := b1 * m + (1 - b1) * g in let v' := b2 * v + (1 - b2) * g * g in
    (p + - (lr * sqrt (1 - b2 ^ e) / (1 - b1 ^ e)) * m' / (sqrt v' + eps), m', v').
  Lemma adam_loop_spec : forall ps gs e, length gs = length ps -> let '(l, c1, c2) := adam_loop lr b1 b2 eps (b1 ^ e) (b2 ^ e) ps gs in
    c1 = b1 ^ (e + length ps) /\ c2 = b2 ^ (e + length ps) /\ length l = length ps /\
    forall i st g, nth_error ps i = Some st -> nth_error gs i = Some g -> nth_error l i = Some (adam1 (e + i + 1) st g).
  Proof.
    induction ps as [|[[p m] v] ps IH]; intros [|g gs] e HL; try discriminate HL.
    - cbn. rewrite Nat.add_0_r. repeat split. intros [|i] st g H; discriminate.
    - cbn [adam_loop length]. specialize (IH gs (S e) ltac:(cbn in HL; lia)).
      replace (b1 ^ e * b1) with (b1 ^ S e) by (cbn; ring). replace (b2 ^ e * b2) with (b2 ^ S e) by (cbn; ring).
      destruct (adam_loop lr b1 b2 eps (b1 ^ S e) (b2 ^ S e) ps gs) as [[l c1] c2]. destruct IH as (-> & -> & HL' & IH).
      split; [f_equal; lia|]. split; [f_equal; lia|]. split; [cbn; lia|]. intros [|i] st g' Hs Hg; cbn [nth_error] in *.
      + injection Hs as <-. injection Hg as <-. unfold adam1. replace (e + 0 + 1)%nat with (S e) by lia. reflexivity.
      + rewrite (IH i st g' Hs Hg). do 2 f_equal. lia.
  Qed.
  Lemma adam_run_spec n ps steps : length ps = n -> (forall gs, In gs steps -> length gs = n) ->
    let '(l, c1, c2) := adam_run lr b1 b2 eps ps steps in c1 = b1 ^ (length steps * n) /\ c2 = b2 ^ (length steps * n) /\ length l = n.
  Proof.
    intros HL. induction steps as [|gs steps IH] using rev_ind; intros HS; [cbn; rewrite map_length; auto|].
    unfold adam_run in *. rewrite fold_left_app. cbn [fold_left].
    destruct (fold_left _ steps _) as [[l c1] c2]. destruct IH as (-> & -> & HL'); [intros; apply HS; apply in_or_app; now left|].
    pose proof (adam_loop_spec l gs (length steps * n)) as A. rewrite HL' in A. specialize (A (HS gs ltac:(apply in_or_app; right; now left))).
    destruct (adam_loop _ _ _ _ _ _ l gs) as [[l' d1] d2]. destruct A as (-> & -> & A & _). rewrite app_length. cbn [length]. split; [f_equal; lia|]. split; [f_equal; lia|exact A].
  Qed.
  Lemma adam_next n ps steps gs : length ps = n -> (forall g, In g (steps ++ [gs]) -> length g = n) ->
    forall i st g, nth_error (fst (fst (adam_run lr b1 b2 eps ps steps))) i = Some st -> nth_error gs i = Some g ->
    nth_error (fst (fst (adam_run lr b1 b2 eps ps (steps ++ [gs])))) i = Some (adam1 (length steps * n + i + 1) st g).
  Proof.
    intros HL HS i st g Hs Hg. pose proof (adam_run_spec n ps steps HL ltac:(intros; apply HS; apply in_or_app; now left)) as A.
    unfold adam_run in *. rewrite fold_left_app. cbn [fold_left]. destruct (fold_left _ steps _) as [[l c1] c2]. cbn [fst] in *. destruct A as (-> & -> & HL').
    pose proof (adam_loop_spec l gs (length steps * n)) as B. rewrite HL' in B. specialize (B (HS gs ltac:(apply in_or_app; right; now left))).
    destruct (adam_loop _ _ _ _ _ _ l gs) as [[l' d1] d2]. destruct B as (_ & _ & _ & B). cbn [fst]. now apply B.
  Qed.
  (* two equal parameters with equal gradients part at the first step *)
  Lemma adam_two p g : 0 < b1 < 1 -> 0 < b2 < 1 -> lr <> 0 -> 0 < eps -> g <> 0 -> (1 + b1) * (1 + b1) <> 1 + b2 ->
    forall x y, fst (fst (adam_run lr b1 b2 eps [p; p] [[g; g]])) = [x; y] -> fst (fst x) <> fst (fst y).
  Proof.
    intros H1 H2 Hl He Hg HN x y E. cbn in E. injection E as <- <-. cbn [fst]. intros E. apply Rplus_eq_reg_l in E.
    set (m := b1 * 0 + (1 - b1) * g) in *. set (v := b2 * 0 + (1 - b2) * g * g) in *.
    assert (Hm : m <> 0) by (unfold m; rewrite Rmult_0_r, Rplus_0_l; apply Rmult_integral_contrapositive_currified; lra).
    pose proof (sqrt_pos v) as Hv. assert (HV : sqrt v + eps <> 0) by lra.
    assert (K : sqrt (1 - 1 * b2) / (1 - 1 * b1) = sqrt (1 - 1 * b2 * b2) / (1 - 1 * b1 * b1)).
    { apply (Rmult_eq_reg_l (lr * (m / (sqrt v + eps)))).
      - apply Ropp_eq_compat in E. unfold Rdiv in *. lra.
      - apply Rmult_integral_contrapositive_currified; [exact Hl|]. unfold Rdiv. apply Rmult_integral_contrapositive_currified; [exact Hm|]. now apply Rinv_neq_0_compat. }
    replace (1 - 1 * b2 * b2) with ((1 - 1 * b2) * (1 + b2)) in K by ring. rewrite sqrt_mult in K by lra.
    assert (S1 : 0 < sqrt (1 - 1 * b2)) by (apply sqrt_lt_R0; lra).
    assert (K2 : sqrt (1 + b2) = 1 + b1).
    { apply (Rmult_eq_reg_l (sqrt (1 - 1 * b2) / (1 - 1 * b1 * b1))).
      - transitivity (sqrt (1 - 1 * b2) / (1 - 1 * b1)); [rewrite K; unfold Rdiv; ring|]. field. split; [|nra]. nra.
      - unfold Rdiv. apply Rmult_integral_contrapositive_currified; [lra|]. apply Rinv_neq_0_compat. nra. }
    apply HN. rewrite <- K2. apply sqrt_sqrt. lra.
  Qed.
End Adam.
