(* Lemmas about LogregModel *)
From Coq Require Import Reals Lra Lia List Arith Bool FunctionalExtensionality.
From Verif Require Import MtModel MtProofs LossModel LossProofs MlpNetModel MlpNetProofs LogregModel.
Import ListNotations.
Open Scope R_scope.

Lemma rs_pos q f : (0 < q)%nat -> (forall k, 0 < f k) -> 0 < rs q f.
Proof.
  intros Hq H. destruct q as [|q]; [lia|]. clear Hq. induction q as [|q IH]; cbn [rs] in *; [specialize (H 0%nat); lra|]. specialize (H (S q)). lra.
Qed.
Lemma rs_app a b f : rs (a + b) f = rs a f + rs b (fun i => f (a + i)%nat).
Proof. induction b as [|b IH]; [rewrite Nat.add_0_r; cbn; ring|]. rewrite Nat.add_succ_r. cbn [rs]. rewrite IH. ring. Qed.
Lemma rs_scale_r n c f : rs n (fun i => f i * c) = rs n f * c.
Proof. rewrite Rmult_comm, <- rs_scale. apply rs_ext. intros; ring. Qed.

(* ln of a sum of exponentials lies above its tangents *)
Lemma lse q z d : (0 < q)%nat -> let S := rs q (fun k => exp (z k)) in
  ln (rs q (fun k => exp (z k + d k))) >= ln S + rs q (fun k => exp (z k) / S * d k).
Proof.
  intros Hq S. assert (HS : 0 < S) by (apply rs_pos; [exact Hq|intros; apply exp_pos]). set (m := rs q (fun k => exp (z k) / S * d k)).
  assert (E1 : rs q (fun k => exp (z k) / S) = 1). { unfold Rdiv. rewrite rs_scale_r. fold S. now apply Rinv_r, Rgt_not_eq. }
  assert (A : S * exp m <= rs q (fun k => exp (z k + d k))).
  { assert (B : 1 <= rs q (fun k => exp (z k) / S * exp (d k - m))).
    { apply Rle_trans with (rs q (fun k => exp (z k) / S * (1 + (d k - m)))).
      - right. rewrite (rs_ext q _ (fun k => exp (z k) / S + (exp (z k) / S * d k + - m * (exp (z k) / S)))) by (intros; ring). rewrite rs_plus, rs_plus, rs_scale, E1. fold m. ring.
      - apply rs_le. intros k Hk. apply Rmult_le_compat_l; [apply Rlt_le, Rdiv_lt_0_compat; [apply exp_pos|exact HS]|apply exp_ineq1_le]. }
    apply Rle_trans with (S * exp m * rs q (fun k => exp (z k) / S * exp (d k - m))).
    - rewrite <- (Rmult_1_r (S * exp m)) at 1. apply Rmult_le_compat_l; [|exact B]. apply Rlt_le, Rmult_lt_0_compat; [exact HS|apply exp_pos].
    - right. rewrite <- rs_scale. apply rs_ext. intros k Hk. replace (z k + d k) with (z k + m + (d k - m)) by ring. rewrite !exp_plus. field. lra. }
  apply Rle_ge. rewrite <- (ln_exp m), <- ln_mult by (auto; apply exp_pos). destruct A as [A|A]; [left; apply ln_increasing; [apply Rmult_lt_0_compat; [exact HS|apply exp_pos]|exact A]|right; now rewrite A].
Qed.

Section Rows.
  Variables (hmin hmax : R).
  Hypothesis Hm : 0 <= hmin.
  Hypothesis HM : hmax <= 1.
  Lemma clip_in h : hmin < h < hmax -> hclip hmin hmax h = h.
  Proof. intros H. unfold hclip. destruct (rltb_spec h hmin); [lra|]. destruct (rltb_spec hmax h); [lra|reflexivity]. Qed.
  (* one row of the softmax loss *)
  Lemma soft_row q y z : (forall c, (c < q)%nat -> hmin < outF OSoftmax q z c < hmax) -> rs q y = 1 ->
    rs q (fun c => if reqb (y c) 0 then 0 else - y c * ln (hclip hmin hmax (outF OSoftmax q z c))) = ln (rs q (fun k => exp (z k))) - rs q (fun c => y c * z c).
  Proof.
    intros H HY. destruct q as [|q']; [cbn in HY; lra|]. set (q := S q') in *. assert (HS : 0 < rs q (fun k => exp (z k))) by (apply rs_pos; [unfold q; lia|intros; apply exp_pos]).
    rewrite (rs_ext q _ (fun c => ln (rs q (fun k => exp (z k))) * y c - y c * z c)).
    - rewrite rs_minus, rs_scale, HY. ring.
    - intros c Hc. rewrite clip_in by now apply H. unfold outF. unfold Rdiv. rewrite ln_mult by (try apply exp_pos; now apply Rinv_0_lt_compat). rewrite ln_exp, ln_Rinv by exact HS.
      destruct (reqb_spec (y c) 0) as [E|E]; [rewrite E; ring|ring].
  Qed.
  (* one cell of the logistic loss *)
  Lemma log_cell y z : hmin < actF ALogistic z < hmax -> - y * ln (hclip hmin hmax (actF ALogistic z)) - (1 - y) * ln (1 - hclip hmin hmax (actF ALogistic z)) = ln (1 + exp (- z)) + (1 - y) * z.
  Proof.
    intros H. rewrite clip_in by exact H. assert (P : 0 < exp (- z)) by apply exp_pos. unfold actF.
    assert (E1 : ln (1 / (1 + exp (- z))) = - ln (1 + exp (- z))) by (unfold Rdiv; rewrite Rmult_1_l; apply ln_Rinv; lra).
    assert (E2 : ln (1 - 1 / (1 + exp (- z))) = - z - ln (1 + exp (- z))).
    { replace (1 - 1 / (1 + exp (- z))) with (exp (- z) * / (1 + exp (- z))) by (field; lra). rewrite ln_mult by (auto; apply Rinv_0_lt_compat; lra). rewrite ln_exp, ln_Rinv by lra. ring. }
    rewrite E1, E2. ring.
  Qed.
  Lemma log_convex z d : ln (1 + exp (- (z + d))) >= ln (1 + exp (- z)) + (actF ALogistic z - 1) * d.
  Proof.
    pose proof (lse 2 (fun k => match k with O => 0 | _ => - z end) (fun k => match k with O => 0 | _ => - d end) ltac:(lia)) as G. cbn [rs] in G. rewrite Rplus_0_l, exp_0 in G. rewrite !Rplus_0_l in G. rewrite exp_0 in G.
    replace (- (z + d)) with (- z + - d) by ring. eapply Rge_trans; [exact G|]. right. unfold actF. field. assert (0 < exp (- z)) by apply exp_pos. lra.
  Qed.
End Rows.

Definition dl (W W' : rmtx) : rmtx := fun i j => W' i j - W i j.
Section Convex.
  Variables (hmin hmax alpha : R) (n p q : nat) (X y : rmtx) (W W' : rmtx) (b b' : nat -> R).
  Hypothesis Hn : (0 < n)%nat.
  Hypothesis Ha : 0 <= alpha.
  Notation z := (lr_pre p X W b).
  Notation d := (lr_pre p X (dl W W') (fun j => b' j - b j)).
  Lemma pre_add r c : lr_pre p X W' b' r c = z r c + d r c.
  Proof. unfold lr_pre, dl. rewrite (rs_ext p (fun i => X r i * (W' i c - W i c)) (fun i => X r i * W' i c - X r i * W i c)) by (intros; ring). rewrite rs_minus. ring. Qed.
  Definition ip (o : out) : R :=
    rs p (fun i => rs q (fun j => lr_gW alpha n p q X y o W b i j * (W' i j - W i j))) + rs q (fun j => lr_gb n p q X y o W b j * (b' j - b j)).
  Definition ridge (W : rmtx) : R := rs p (fun i => rs q (fun j => W i j * W i j)).
  Lemma ip_split o : ip o = rs n (fun r => rs q (fun c => (lr_h p q X o W b r c - y r c) * d r c)) / INR n + alpha / INR n * rs p (fun i => rs q (fun j => W i j * (W' i j - W i j))).
  Proof.
    unfold ip. set (e := fun r c => lr_h p q X o W b r c - y r c).
    assert (E1 : rs p (fun i => rs q (fun j => lr_gW alpha n p q X y o W b i j * (W' i j - W i j))) =
      / INR n * rs n (fun r => rs q (fun c => e r c * rs p (fun i => X r i * (W' i c - W i c)))) + alpha / INR n * rs p (fun i => rs q (fun j => W i j * (W' i j - W i j)))).
    { rewrite <- (rs_scale p (alpha / INR n)). transitivity (rs p (fun i => rs n (fun r => / INR n * rs q (fun c => e r c * (X r i * (W' i c - W i c)))) + alpha / INR n * rs q (fun j => W i j * (W' i j - W i j)))).
      - apply rs_ext. intros i Hi. rewrite rs_scale, rs_swap. rewrite <- (rs_scale q (alpha / INR n)), <- (rs_scale q (/ INR n)), <- rs_plus. apply rs_ext. intros j Hj. unfold lr_gW. fold (e) .
        rewrite Rmult_plus_distr_r. f_equal; [|ring]. rewrite Rmult_assoc, <- rs_scale_r. unfold Rdiv. rewrite Rmult_1_l. f_equal. apply rs_ext. intros r Hr. unfold e. ring.
      - rewrite rs_plus. f_equal. rewrite rs_swap, <- rs_scale. apply rs_ext. intros r Hr. rewrite rs_scale. f_equal. rewrite rs_swap. apply rs_ext. intros c Hc. apply rs_scale. }
    assert (E2 : rs q (fun j => lr_gb n p q X y o W b j * (b' j - b j)) = / INR n * rs n (fun r => rs q (fun c => e r c * (b' c - b c)))).
    { rewrite rs_swap, <- rs_scale. apply rs_ext. intros j Hj. unfold lr_gb. fold e. rewrite rs_scale_r. unfold e, Rdiv. ring. }
    rewrite E1, E2. unfold lr_pre, dl. fold e. rewrite (rs_ext n (fun r => rs q (fun c => (lr_h p q X o W b r c - y r c) * (rs p (fun i => X r i * (W' i c - W i c)) + (b' c - b c)))) (fun r => rs q (fun c => e r c * rs p (fun i => X r i * (W' i c - W i c))) + rs q (fun c => e r c * (b' c - b c)))).
    - rewrite rs_plus. unfold Rdiv. ring.
    - intros r Hr. rewrite <- rs_plus. apply rs_ext. intros c Hc. unfold e. ring.
  Qed.
  Lemma ridge_convex : 1 / 2 * alpha * ridge W' / INR n >= 1 / 2 * alpha * ridge W / INR n + alpha / INR n * rs p (fun i => rs q (fun j => W i j * (W' i j - W i j))).
  Proof.
    assert (HI : 0 < INR n) by now apply lt_0_INR. assert (K : ridge W' - ridge W - 2 * rs p (fun i => rs q (fun j => W i j * (W' i j - W i j))) >= 0).
    { unfold ridge. rewrite <- rs_scale, <- !rs_minus. apply Rle_ge, rs_nonneg. intros i Hi. rewrite <- rs_scale, <- !rs_minus. apply rs_nonneg. intros j Hj.
      replace (W' i j * W' i j - W i j * W i j - 2 * (W i j * (W' i j - W i j))) with ((W' i j - W i j) * (W' i j - W i j)) by ring. apply Rle_0_sqr. }
    set (A := ridge W') in *. set (B := ridge W) in *. set (C := rs p _) in *.
    assert (0 <= alpha / INR n * (A - B - 2 * C)). { apply Rmult_le_pos; [unfold Rdiv; apply Rmult_le_pos; [exact Ha|now apply Rlt_le, Rinv_0_lt_compat]|lra]. }
    apply Rle_ge. apply Rminus_le. replace (1 / 2 * alpha * B / INR n + alpha / INR n * C - 1 / 2 * alpha * A / INR n) with (- (1 / 2 * (alpha / INR n * (A - B - 2 * C)))) by (field; lra). lra.
  Qed.
  Lemma convex o : o <> OIdentity -> 0 <= hmin -> hmax <= 1 -> (o = OSoftmax -> forall r, (r < n)%nat -> rs q (y r) = 1) ->
    (forall r c, (r < n)%nat -> (c < q)%nat -> hmin < lr_h p q X o W b r c < hmax) -> (forall r c, (r < n)%nat -> (c < q)%nat -> hmin < lr_h p q X o W' b' r c < hmax) ->
    lr_loss hmin hmax alpha n p q X y o W' b' >= lr_loss hmin hmax alpha n p q X y o W b + ip o.
  Proof.
    intros HO H0 H1 HY C1 C2. rewrite ip_split. unfold lr_loss. fold (ridge W). fold (ridge W'). pose proof ridge_convex as RC.
    assert (HI : 0 < INR n) by now apply lt_0_INR.
    assert (DC : data_loss hmin hmax o n n q y (lr_h p q X o W' b') >= data_loss hmin hmax o n n q y (lr_h p q X o W b) + rs n (fun r => rs q (fun c => (lr_h p q X o W b r c - y r c) * d r c)) / INR n).
    { assert (K : forall A B C, C <= A - B -> A / INR n >= B / INR n + C / INR n).
      { intros A B C H. apply Rle_ge. unfold Rdiv. rewrite <- Rmult_plus_distr_r. apply Rmult_le_compat_r; [now apply Rlt_le, Rinv_0_lt_compat|lra]. }
      destruct o; [congruence| |]; unfold data_loss; apply K; rewrite <- rs_minus; apply rs_le; intros r Hr.
      - specialize (HY eq_refl r Hr). unfold lr_h in *. rewrite (soft_row hmin hmax q (y r) (lr_pre p X W' b' r)) by (auto; intros; now apply C2). rewrite (soft_row hmin hmax q (y r) (z r)) by (auto; intros; now apply C1).
        assert (Hq : (0 < q)%nat) by (destruct q; [cbn in HY; lra|lia]). pose proof (lse q (z r) (d r) Hq) as L. cbv zeta in L.
        rewrite (rs_ext q (fun k => exp (z r k + d r k)) (fun k => exp (lr_pre p X W' b' r k))) in L by (intros; now rewrite pre_add).
        rewrite (rs_ext q (fun c => y r c * lr_pre p X W' b' r c) (fun c => y r c * z r c + y r c * d r c)) by (intros; rewrite pre_add; ring). rewrite rs_plus.
        rewrite (rs_ext q (fun c => (outF OSoftmax q (z r) c - y r c) * d r c) (fun c => exp (z r c) / rs q (fun k => exp (z r k)) * d r c - y r c * d r c)) by (intros; unfold outF; ring). rewrite rs_minus. lra.
      - rewrite <- rs_minus. apply rs_le. intros c Hc. unfold lr_h, outF in *. rewrite (log_cell hmin hmax (y r c) (lr_pre p X W' b' r c)) by now apply C2. rewrite (log_cell hmin hmax (y r c) (z r c)) by now apply C1.
        pose proof (log_convex (z r c) (d r c)) as L. rewrite pre_add. cbv beta in *. lra. }
    lra.
  Qed.
End Convex.

Lemma lr_gradient hmin hmax alpha n p q X y o W b dW db : (0 < n)%nat ->
  (o = OSoftmax -> forall r, (r < n)%nat -> rs q (y r) = 1) -> (forall r c, (r < n)%nat -> (c < q)%nat -> in_clip hmin hmax o (lr_h p q X o W b r c)) ->
  D (fun t => lr_loss hmin hmax alpha n p q X y o (fun i j => W i j + t * dW i j) (fun j => b j + t * db j)) 0
    (rs p (fun i => rs q (fun j => lr_gW alpha n p q X y o W b i j * dW i j)) + rs q (fun j => lr_gb n p q X y o W b j * db j)).
Proof.
  intros Hn HY HC. set (l := mklayer p q W b). set (dd := (dW, db) : dir).
  pose proof (net_gradient hmin hmax AIdentity o alpha n X y [l] [dd] [] [] Hn ltac:(discriminate) eq_refl I ltac:(discriminate) HC HY) as G.
  eapply D_ext; [|eapply D_val; [|exact G]].
  - intros t. cbn [moves]. unfold net_loss, lr_loss. change (nout [move t l dd]) with q. cbn [coef_squares fold_right]. cbn [move l_in l_out l_W l_b l dd fst snd]. rewrite Rplus_0_r. f_equal.
    apply data_loss_ext. intros r c Hr Hc. cbn [forward last]. unfold upd_rows. cbn [l_in l_out l_W l_b]. apply Nat.ltb_lt in Hr. rewrite Hr. reflexivity.
  - unfold backprop. cbn [forward backward fst hd dot]. unfold inner, layer_grad. cbn [l_in l_out l_W fst snd l dd]. rewrite Rplus_0_r.
    assert (EH : forall r c, (r < n)%nat -> upd_rows n (fun r0 c0 => upd_rows n (fun r1 => outF o q (upd_rows n (fun r2 c1 => upd_rows n (fun r3 c2 => rs p (fun i => X r3 i * W i c2)) (fun _ _ => 0) r2 c1 + b c1) (upd_rows n (fun r2 c1 => rs p (fun i => X r2 i * W i c1)) (fun _ _ => 0)) r1)) (upd_rows n (fun r1 c1 => upd_rows n (fun r2 c2 => rs p (fun i => X r2 i * W i c2)) (fun _ _ => 0) r1 c1 + b c1) (upd_rows n (fun r1 c1 => rs p (fun i => X r1 i * W i c1)) (fun _ _ => 0))) r0 c0 - y r0 c0) (fun _ _ => 0) r c = lr_h p q X o W b r c - y r c).
    { intros r c Hr. unfold upd_rows. apply Nat.ltb_lt in Hr. rewrite Hr. reflexivity. }
    f_equal.
    + apply rs_ext. intros i Hi. apply rs_ext. intros j Hj. unfold lr_gW. f_equal. f_equal. f_equal. apply rs_ext. intros r Hr. f_equal. exact (EH r j Hr).
    + apply rs_ext. intros j Hj. unfold lr_gb. f_equal. f_equal. apply rs_ext. intros r Hr. exact (EH r j Hr).
Qed.

(* ------------------------------------------------------------------ the loop over the deltas *)
Section Deltas.
  Context {A : Type} (sub : A -> A -> A) (cols stride : nat) (H y : list A).
  Definition dstep (acc : option (list A)) (ro : nat * nat) : option (list A) := match acc with
    | None => None
    | Some D => let pos := (fst ro * stride + snd ro)%nat in
                match nth_error H pos, nth_error y pos, nth_error D pos with
                | Some h, Some v, Some _ => Some (firstn pos D ++ sub h v :: skipn (S pos) D)
                | _, _, _ => None
                end
    end.
  Lemma dstep_none l : fold_left dstep l None = None.
  Proof. induction l; [reflexivity|exact IHl]. Qed.
  Lemma dstep_len D ro D' : dstep (Some D) ro = Some D' -> length D' = length D.
  Proof.
    unfold dstep. set (pos := (fst ro * stride + snd ro)%nat). destruct (nth_error H pos); [|discriminate]. destruct (nth_error y pos); [|discriminate]. destruct (nth_error D pos) eqn:E; [|discriminate].
    intros F. injection F as <-. assert (pos < length D)%nat by (apply nth_error_Some; congruence). rewrite app_length. change (length (firstn pos D) + S (length (skipn (S pos) D)) = length D)%nat. rewrite firstn_length, skipn_length. lia.
  Qed.
  Lemma dstep_out l : forall D ro, In ro l -> (length D <= fst ro * stride + snd ro)%nat -> fold_left dstep l (Some D) = None.
  Proof.
    induction l as [|a l IH]; intros D ro I L; [destruct I|]. cbn [fold_left]. destruct (dstep (Some D) a) as [D'|] eqn:E; [|apply dstep_none].
    destruct I as [->|I]; [|apply (IH D' ro I); now rewrite (dstep_len _ _ _ E)]. exfalso. cbn in E. assert (X : nth_error D (fst ro * stride + snd ro) = None) by now apply nth_error_None.
    rewrite X in E. destruct (nth_error H _); [|discriminate]. destruct (nth_error y _); discriminate.
  Qed.
  (* positions already visited hold H - y *)
  Lemma dstep_all l : forall D, (forall ro, In ro l -> (fst ro * stride + snd ro < length D)%nat) -> (length D <= length H)%nat -> (length D <= length y)%nat ->
    exists D', fold_left dstep l (Some D) = Some D' /\ length D' = length D /\
    forall k h v, nth_error H k = Some h -> nth_error y k = Some v -> (k < length D)%nat -> nth_error D' k = (if existsb (fun ro => Nat.eqb (fst ro * stride + snd ro) k) l then Some (sub h v) else nth_error D k).
  Proof.
    induction l as [|a l IH]; intros D HI HH HY; [exists D; auto|]. cbn [fold_left existsb]. set (pos := (fst a * stride + snd a)%nat).
    assert (HP : (pos < length D)%nat) by (apply HI; now left). destruct (nth_error H pos) as [h0|] eqn:E1; [|apply nth_error_None in E1; lia]. destruct (nth_error y pos) as [v0|] eqn:E2; [|apply nth_error_None in E2; lia].
    destruct (nth_error D pos) as [d0|] eqn:E3; [|apply nth_error_None in E3; lia]. assert (ED : dstep (Some D) a = Some (firstn pos D ++ sub h0 v0 :: skipn (S pos) D)) by (unfold dstep; fold pos; now rewrite E1, E2, E3).
    rewrite ED. pose proof (dstep_len _ _ _ ED) as LD. destruct (IH (firstn pos D ++ sub h0 v0 :: skipn (S pos) D)) as (D' & F & L & G); [intros; rewrite LD; apply HI; now right|now rewrite LD|now rewrite LD|].
    exists D'. split; [exact F|]. split; [lia|]. intros k h v Hh Hv Hk. rewrite (G k h v Hh Hv) by lia. destruct (existsb _ l) eqn:EX; [now rewrite orb_true_r|]. rewrite orb_false_r.
    destruct (Nat.eqb_spec pos k) as [<-|N].
    - rewrite nth_error_app2 by (rewrite firstn_length; lia). rewrite firstn_length, Nat.min_l, Nat.sub_diag by lia. cbn. congruence.
    - destruct (Nat.lt_ge_cases k pos) as [LT|GE].
      + rewrite nth_error_app1 by (rewrite firstn_length; lia). rewrite <- (firstn_skipn pos D) at 2. now rewrite nth_error_app1 by (rewrite firstn_length; lia).
      + rewrite nth_error_app2 by (rewrite firstn_length; lia). rewrite firstn_length, Nat.min_l by lia. destruct (k - pos)%nat as [|m] eqn:EM; [lia|]. cbn [nth_error].
        rewrite <- (firstn_skipn (S pos) D) at 2. rewrite nth_error_app2 by (rewrite firstn_length; lia). rewrite firstn_length, Nat.min_l by lia. f_equal. lia.
  Qed.
End Deltas.

(* ------------------------------------------------------------------ the predicted class *)
Lemma rmaxidx_spec n f : (0 < n)%nat -> (rmaxidx n f < n)%nat /\ forall k, (k < n)%nat -> f k <= f (rmaxidx n f).
Proof.
  intros Hn. destruct n as [|n]; [lia|]. clear Hn. induction n as [|n [IH1 IH2]].
  - cbn. split; [destruct (rltb _ _); lia|]. intros k Hk. replace k with 0%nat by lia. destruct (rltb _ _); lra.
  - change (rmaxidx (S (S n)) f) with (if rltb (f (rmaxidx (S n) f)) (f (S n)) then S n else rmaxidx (S n) f). destruct (rltb_spec (f (rmaxidx (S n) f)) (f (S n))) as [L|L].
    + split; [lia|]. intros k Hk. destruct (Nat.eq_dec k (S n)) as [->|N]; [lra|]. specialize (IH2 k ltac:(lia)). lra.
    + split; [lia|]. intros k Hk. destruct (Nat.eq_dec k (S n)) as [->|N]; [lra|]. apply IH2. lia.
Qed.
Lemma soft_order q z a b : (0 < q)%nat -> outF OSoftmax q z a <= outF OSoftmax q z b -> z a <= z b.
Proof.
  intros Hq H. unfold outF in H. assert (S : 0 < rs q (fun k => exp (z k))) by (apply rs_pos; [exact Hq|intros; apply exp_pos]).
  destruct (Rle_or_lt (z a) (z b)) as [L|L]; [exact L|]. exfalso. apply exp_increasing in L. apply (Rmult_lt_compat_r (/ rs q (fun k => exp (z k)))) in L; [|now apply Rinv_0_lt_compat]. unfold Rdiv in H. lra.
Qed.
Lemma half_logistic z : / 2 < actF ALogistic z <-> 0 < z.
Proof.
  unfold actF. assert (P : 0 < exp (- z)) by apply exp_pos. assert (E : 1 / (1 + exp (- z)) * (1 + exp (- z)) = 1) by (field; lra). split; intros H.
  - destruct (Rlt_or_le 0 z) as [L|L]; [exact L|]. exfalso. assert (1 <= exp (- z)). { rewrite <- exp_0. destruct (Req_dec z 0) as [->|N]; [rewrite Ropp_0; lra|]. left. apply exp_increasing. lra. }
    apply (Rmult_lt_compat_r (1 + exp (- z))) in H; [|lra]. rewrite E in H. lra.
  - assert (exp (- z) < 1) by (rewrite <- exp_0; apply exp_increasing; lra). apply (Rmult_lt_reg_r (1 + exp (- z))); [lra|]. rewrite E. lra.
Qed.
