(* Proofs about MlpExtModel. *)
From Coq Require Import Reals Lra Lia List Arith Bool FunctionalExtensionality.
From Verif Require Import MtModel MtProofs LossModel LossProofs MlpNetModel MlpNetProofs MlpExtModel.
From Verif Require LogregProofs MlpIoModel MlpIoProofs MlpModel.
Import ListNotations.
Open Scope R_scope.

(* ------------------------------------------------------------------ thresholds *)
Lemma half_logistic z : rltb (/ 2) (actF ALogistic z) = rltb 0 z.
Proof.
  unfold actF. assert (P : 0 < exp (- z)) by apply exp_pos.
  destruct (rltb_spec (/ 2) (1 / (1 + exp (- z)))) as [H|H], (rltb_spec 0 z) as [G|G]; auto; exfalso.
  - assert (E : 1 <= exp (- z)). { rewrite <- exp_0. destruct (Rle_lt_or_eq_dec z 0) as [L|L]; [lra| |]. left. apply exp_increasing. lra. subst z. rewrite Ropp_0. lra. }
    assert (1 / (1 + exp (- z)) <= / 2); [|lra]. unfold Rdiv. rewrite Rmult_1_l. apply Rinv_le_contravar; lra.
  - apply H. assert (E : exp (- z) < 1). { rewrite <- exp_0. apply exp_increasing. lra. }
    unfold Rdiv. rewrite Rmult_1_l. apply Rinv_lt_contravar; nra.
Qed.
Lemma rmaxidx_mono n f g : (forall i j, rltb (f i) (f j) = rltb (g i) (g j)) -> rmaxidx n f = rmaxidx n g.
Proof. intros H. induction n as [|n IH]; cbn; auto. rewrite IH, H. reflexivity. Qed.
Lemma softmax_lt q z i j : (0 < q)%nat -> rltb (outF OSoftmax q z i) (outF OSoftmax q z j) = rltb (z i) (z j).
Proof.
  intros Hq. unfold outF. set (s := rs q (fun k => exp (z k))). assert (Hs : 0 < s) by (apply rs_pos; auto; intros; apply exp_pos).
  assert (E : exp (z i) / s < exp (z j) / s <-> z i < z j).
  { split; intros H.
    - apply exp_lt_inv. apply Rmult_lt_reg_r with (/ s); [now apply Rinv_0_lt_compat|]. exact H.
    - apply Rmult_lt_compat_r; [now apply Rinv_0_lt_compat|]. now apply exp_increasing. }
  destruct (rltb_spec (exp (z i) / s) (exp (z j) / s)), (rltb_spec (z i) (z j)); tauto.
Qed.
Lemma rmaxidx_first n f : forall k, (k < rmaxidx n f)%nat -> f k < f (rmaxidx n f).
Proof.
  induction n as [|n IH]; intros k Hk; cbn in *; [lia|]. destruct (rltb_spec (f (rmaxidx n f)) (f n)) as [H|H]; [|now apply IH].
  destruct (Nat.eq_dec k (rmaxidx n f)) as [->|Hne]; auto. destruct n as [|n]; [lia|].
  destruct (LogregProofs.rmaxidx_spec (S n) f) as [_ HM]; [lia|]. specialize (HM k Hk). lra.
Qed.

Section Loaded.
  Variables (fs : list (MlpIoModel.pfield R)) (p q : nat) (W : list (list R)) (bi : list R).
  Hypothesis Hsh : MlpIoProofs.shaped [p; q] [W] [bi].
  Let n := MlpIoModel.mknet fs [p; q] [] (1 <? q)%nat (MlpIoProofs.body [W] [bi]).
  Definition lin_score (x : nat -> R) (c : nat) : R := rs p (fun i => x i * nth c (nth i W []) 0) + nth c bi 0.
  Lemma shape_facts : length W = p /\ Forall (fun row => length row = q) W /\ length bi = q.
  Proof. inversion Hsh; subst. auto. Qed.
  Lemma loaded_W i j : (i < p)%nat -> (j < q)%nat -> l_W (loaded_layer n) i j = nth j (nth i W []) 0 /\ l_b (loaded_layer n) j = nth j bi 0.
  Proof.
    intros Hi Hj. destruct shape_facts as (HL & HF & HB).
    destruct (@MlpIoProofs.loaded_cells R fs [p; q] [W] [bi] [] (1 <? q)%nat Hsh 0 W bi eq_refl eq_refl) as [HC HI]. fold n in HC, HI.
    assert (Er : nth_error W i = Some (nth i W [])) by (apply nth_error_nth'; lia).
    assert (El : length (nth i W []) = q) by (rewrite Forall_forall in HF; apply HF; eapply nth_error_In; eauto).
    assert (Ew : nth_error (nth i W []) j = Some (nth j (nth i W []) 0)) by (apply nth_error_nth'; lia).
    cbn [loaded_layer l_W l_b]. rewrite (HC i _ j _ Er Ew). rewrite (HI j (nth j bi 0)) by (apply nth_error_nth'; lia). auto.
  Qed.
  Lemma loaded_b j : (j < q)%nat -> l_b (loaded_layer n) j = nth j bi 0.
  Proof.
    intros Hj. destruct shape_facts as (HL & HF & HB).
    destruct (@MlpIoProofs.loaded_cells R fs [p; q] [W] [bi] [] (1 <? q)%nat Hsh 0 W bi eq_refl eq_refl) as [_ HI]. fold n in HI.
    cbn [loaded_layer l_b]. now rewrite (HI j (nth j bi 0)) by (apply nth_error_nth'; lia).
  Qed.
  Lemma loaded_H a rows X Y r c : (r < rows)%nat -> (c < q)%nat ->
    hd (fun _ _ => 0) (forward a (loaded_out n) rows rows X [loaded_layer n] [Y]) r c = outF (loaded_out n) q (lin_score (X r)) c.
  Proof.
    intros Hr Hc. cbn [forward hd]. unfold upd_rows. apply Nat.ltb_lt in Hr. rewrite Hr. change (l_out (loaded_layer n)) with q.
    apply outF_ext; auto. intros k Hk. change (l_in (loaded_layer n)) with p. unfold lin_score. rewrite loaded_b by auto. f_equal. apply rs_ext. intros i Hi. now rewrite (proj1 (loaded_W i k Hi Hk)).
  Qed.
  Lemma rmaxidx_ext m f g : (forall k, (k < m)%nat -> f k = g k) -> rmaxidx m f = rmaxidx m g.
  Proof.
    induction m as [|m IH]; intros H; [reflexivity|]. cbn. rewrite IH by (intros; apply H; lia). rewrite (H m) by lia.
    destruct m as [|m]; [cbn; now rewrite (H 0%nat) by lia|].
    rewrite (H (rmaxidx (S m) g)); [reflexivity|]. destruct (LogregProofs.rmaxidx_spec (S m) g) as [Hm _]; lia.
  Qed.
  Lemma loaded_one a rows X Y r : q = 1%nat -> (r < rows)%nat -> loaded_predict n a rows X Y r 0 = if rltb 0 (lin_score (X r) 0) then 1 else 0.
  Proof.
    intros Hq Hr. unfold loaded_predict. assert (Eo : loaded_out n = OLogistic) by (unfold loaded_out, n; cbn; now rewrite Hq).
    pose proof (loaded_H a rows X Y r 0 Hr) as HH. rewrite Eo in *. unfold predict_row, to_logits. change (l_out (loaded_layer n)) with q. rewrite HH by lia. rewrite Hq. cbn [Nat.eqb outF].
    rewrite half_logistic. reflexivity.
  Qed.
  Lemma loaded_many a rows X Y r c : (2 <= q)%nat -> (r < rows)%nat -> loaded_predict n a rows X Y r c = if Nat.eqb c (rmaxidx q (lin_score (X r))) then 1 else 0.
  Proof.
    intros Hq Hr. unfold loaded_predict. assert (Eo : loaded_out n = OSoftmax).
    { unfold loaded_out, n; cbn [MlpIoModel.n_soft]. destruct (Nat.ltb_spec 1 q); [reflexivity|lia]. }
    unfold predict_row. rewrite Eo. unfold to_logits. change (l_out (loaded_layer n)) with q. destruct (Nat.eqb_spec q 1); [lia|].
    rewrite <- Eo. rewrite (rmaxidx_ext q _ (outF (loaded_out n) q (lin_score (X r)))) by (intros k Hk; now apply loaded_H).
    rewrite Eo. rewrite (rmaxidx_mono q _ (lin_score (X r))); [reflexivity|]. intros i j. apply softmax_lt. lia.
  Qed.
End Loaded.
Lemma loaded_01 n a rows X Y r c : loaded_predict n a rows X Y r c = 0 \/ loaded_predict n a rows X Y r c = 1.
Proof.
  unfold loaded_predict, predict_row, loaded_out. destruct (MlpIoModel.n_soft n); unfold to_logits; destruct (Nat.eqb _ 1); try (destruct (rltb _ _); auto); destruct (Nat.eqb _ _); auto.
Qed.

(* ------------------------------------------------------------------ initial weights *)
Lemma init_bound_pos lg a b : (0 < a + b)%nat -> 0 < init_bound lg a b.
Proof. intros H. unfold init_bound. apply sqrt_lt_R0. apply Rmult_lt_0_compat; [destruct lg; unfold init_factor; lra|]. apply Rinv_0_lt_compat. now apply lt_0_INR. Qed.
Lemma init_range u lg us : (forall k, 0 <= u k < 1) -> forall pos m io il co cl k w off, nth_error (MlpModel.pack off us) m = Some (io, il, co, cl) ->
  (io <= k < co + cl)%nat -> nth_error (init_mem u lg pos us) (k - off) = Some w ->
  0 <= w < init_bound lg (nth m us O) (nth (S m) us O).
Proof.
  intros Hu. induction us as [|a us IH]; intros pos m io il co cl k w off HP Hk Hw; [destruct m; discriminate|].
  destruct us as [|b us]; [destruct m; discriminate|].
  change (MlpModel.pack off (a :: b :: us)) with ((off, b, (off + b)%nat, (a * b)%nat) :: MlpModel.pack (off + b + a * b) (b :: us)) in HP.
  change (init_mem u lg pos (a :: b :: us)) with (map (fun k => u (pos + k)%nat * init_bound lg a b) (seq 0 (b + a * b)) ++ init_mem u lg (pos + (b + a * b)) (b :: us)) in Hw.
  destruct m as [|m].
  - cbn [nth_error] in HP. injection HP as <- <- <- <-. rewrite nth_error_app1 in Hw by (rewrite map_length, seq_length; lia).
    rewrite nth_error_map in Hw. destruct (nth_error (seq 0 (b + a * b)) (k - off)) as [s|]; [|discriminate]. cbn in Hw. injection Hw as <-.
    assert (HB : 0 < init_bound lg a b) by (apply init_bound_pos; nia). specialize (Hu (pos + s)%nat). cbn [nth]. split; nra.
  - assert (Hge : (off + b + a * b <= io)%nat).
    { clear - HP. cbn [nth_error] in HP. revert m HP. generalize (off + b + a * b)%nat. generalize (b :: us). clear. induction l as [|x l IH]; intros o m H; [destruct m; discriminate|].
      destruct l as [|y l]; [destruct m; discriminate|]. destruct m; cbn [MlpModel.pack nth_error] in H; [injection H as <- <- <- <-; lia|]. apply IH in H. lia. }
    rewrite nth_error_app2 in Hw by (rewrite map_length, seq_length; lia). rewrite map_length, seq_length in Hw.
    replace (k - off - (b + a * b))%nat with (k - (off + b + a * b))%nat in Hw by lia.
    change (nth (S m) (a :: b :: us) O) with (nth m (b :: us) O). change (nth (S (S m)) (a :: b :: us) O) with (nth (S m) (b :: us) O).
    eapply IH; eauto.
Qed.
Lemma init_length u lg us : forall pos, length (init_mem u lg pos us) = MlpModel.packed_size us.
Proof.
  induction us as [|a us IH]; intros pos; [reflexivity|]. destruct us as [|b us]; [reflexivity|].
  change (init_mem u lg pos (a :: b :: us)) with (map (fun k => u (pos + k)%nat * init_bound lg a b) (seq 0 (b + a * b)) ++ init_mem u lg (pos + (b + a * b)) (b :: us)).
  change (MlpModel.packed_size (a :: b :: us)) with ((1 + a) * b + MlpModel.packed_size (b :: us))%nat. rewrite app_length, map_length, seq_length, IH. lia.
Qed.
Lemma init_nonneg u lg us : (forall k, 0 <= u k < 1) -> forall pos w, In w (init_mem u lg pos us) -> 0 <= w.
Proof.
  intros Hu. induction us as [|a us IH]; intros pos w H; [destruct H|]. destruct us as [|b us]; [destruct H|].
  change (init_mem u lg pos (a :: b :: us)) with (map (fun k => u (pos + k)%nat * init_bound lg a b) (seq 0 (b + a * b)) ++ init_mem u lg (pos + (b + a * b)) (b :: us)) in H.
  apply in_app_or in H. destruct H as [H|H]; [|eapply IH; eauto]. apply in_map_iff in H. destruct H as (k & <- & _). apply Rmult_le_pos; [apply Hu|apply sqrt_pos].
Qed.

(* ------------------------------------------------------------------ batch normalisation *)
Lemma rmaxn_nonneg n f : 0 <= rmaxn n f.
Proof. induction n as [|n IH]; cbn; [lra|]. destruct (rltb_spec (rmaxn n f) (f n)); lra. Qed.
Lemma rmaxn_attained n f : 0 < rmaxn n f -> exists i, (i < n)%nat /\ f i = rmaxn n f.
Proof.
  induction n as [|n IH]; cbn; intros H; [lra|]. destruct (rltb_spec (rmaxn n f) (f n)) as [G|G]; [exists n; auto|].
  destruct (IH H) as (i & Hi & E). exists i. split; [lia|auto].
Qed.
Lemma bn_unit n H o : 0 < bn_max n H o -> (forall r, (r < n)%nat -> Rabs (bn_div n H r o) <= 1) /\ exists r, (r < n)%nat /\ Rabs (bn_div n H r o) = 1.
Proof.
  intros HM. unfold bn_div. destruct (rltb_spec 0 (bn_max n H o)) as [_|G]; [|lra].
  assert (E : forall r, (r < n)%nat -> Rabs (if (r <? n)%nat then H r o / bn_max n H o else H r o) = Rabs (H r o) / bn_max n H o).
  { intros r Hr. apply Nat.ltb_lt in Hr. rewrite Hr. unfold Rdiv. rewrite Rabs_mult. f_equal. rewrite Rabs_right; auto. left. now apply Rinv_0_lt_compat. }
  split.
  - intros r Hr. rewrite E by auto. assert (G : Rabs (H r o) <= bn_max n H o) by (unfold bn_max; apply (rmaxn_ub n (fun r => Rabs (H r o))); auto).
    apply Rmult_le_reg_r with (bn_max n H o); auto. unfold Rdiv. rewrite Rmult_assoc, Rinv_l by lra. lra.
  - destruct (rmaxn_attained n (fun r => Rabs (H r o)) HM) as (r & Hr & EE). exists r. split; auto. rewrite E by auto. rewrite EE. unfold bn_max in *. field. lra.
Qed.
Lemma bn_zero n H o : bn_max n H o <= 0 -> forall r, (r < n)%nat -> H r o = 0 /\ bn_div n H r o = 0.
Proof.
  intros HM r Hr. assert (G : Rabs (H r o) <= bn_max n H o) by (unfold bn_max; apply (rmaxn_ub n (fun r => Rabs (H r o))); auto).
  assert (E : H r o = 0). { pose proof (Rabs_pos (H r o)). destruct (Req_dec (H r o) 0) as [|N]; auto. apply Rabs_pos_lt in N. lra. }
  split; auto. unfold bn_div. destruct (rltb_spec 0 (bn_max n H o)); [lra|auto].
Qed.

(* the direction that moves one weight *)
Definition one_weight (i0 j0 : nat) : dir := (fun i j => if Nat.eqb i i0 && Nat.eqb j j0 then 1 else 0, fun _ => 0).
Definition no_move : dir := (fun _ _ => 0, fun _ => 0).
Lemma inner_one l g i0 j0 : (i0 < l_in l)%nat -> (j0 < l_out l)%nat -> inner l g (one_weight i0 j0) = fst g i0 j0.
Proof.
  intros Hi Hj. unfold inner, one_weight. cbn [fst snd].
  rewrite (rs_ext (l_out l) (fun j => snd g j * 0) (fun _ => 0)) by (intros; ring). rewrite rs_zero, Rplus_0_r.
  rewrite (rs_split (l_in l) _ i0) by auto. rewrite (rs_ext (l_in l) _ (fun _ => 0)).
  - rewrite rs_zero, Rplus_0_r. rewrite (rs_split (l_out l) _ j0) by auto. rewrite !Nat.eqb_refl. cbn [andb].
    rewrite (rs_ext (l_out l) _ (fun _ => 0)); [rewrite rs_zero; ring|]. intros j Hj'. destruct (Nat.eqb j j0); cbn; ring.
  - intros i Hi'. destruct (Nat.eqb i i0); auto. cbn [andb]. rewrite (rs_ext (l_out l) _ (fun _ => 0)); [apply rs_zero|]. intros. ring.
Qed.
Lemma inner_none l g : inner l g no_move = 0.
Proof.
  unfold inner, no_move. cbn [fst snd]. rewrite (rs_ext (l_out l) (fun j => snd g j * 0) (fun _ => 0)) by (intros; ring). rewrite rs_zero.
  rewrite (rs_ext (l_in l) _ (fun _ => 0)); [rewrite rs_zero; ring|]. intros. rewrite (rs_ext (l_out l) _ (fun _ => 0)); [apply rs_zero|]. intros. ring.
Qed.
Section BNgrad.
  Variables (a : act) (o : out) (n : nat) (X y : rmtx) (l1 l2 : layer) (oldA oldD : list rmtx).
  Lemma bn_grad i j : (0 < n)%nat -> let M := bn_max n (fst (bn_acts a o n X l1 l2 oldA)) i in 0 < M ->
    forall g1 g2, backprop a o 0 n n X y [l1; l2] oldA oldD = [g1; g2] ->
    fst g2 i j = M * fst (bn_out_grad a o 0 n X y l1 l2 oldA oldD) i j.
  Proof.
    intros Hn. unfold bn_out_grad, bn_out_delta, bn_acts, backprop.
    remember (forward a o n n X [l1; l2] oldA) as hs eqn:Ehs. assert (Hhs : exists H1 H2, hs = [H1; H2]) by (rewrite Ehs; cbn [forward]; eauto).
    clear Ehs. destruct Hhs as (H1 & H2 & ->). cbn [fst snd]. intros HM g1 g2 E. set (M := bn_max n H1 i) in *. cbn [backward fst hd tl] in E. injection E as _ <-.
    unfold layer_grad. cbn [fst].
    replace (0 / INR n) with 0 by (unfold Rdiv; ring). rewrite !Rmult_0_l, !Rplus_0_r. rewrite <- Rmult_assoc. rewrite (Rmult_comm M). rewrite Rmult_assoc. f_equal. rewrite <- rs_scale. apply rs_ext.
    intros r Hr. unfold bn_div. fold M. destruct (rltb_spec 0 M) as [_|G]; [|lra]. apply Nat.ltb_lt in Hr. rewrite Hr. field. lra.
  Qed.
  Lemma dead_delta r i : (forall r, (r < n)%nat -> fst (bn_acts a o n X l1 l2 oldA) r i = 0) -> bn_hid_delta a o n X y l1 l2 oldA oldD r i = None.
  Proof.
    intros H. unfold bn_hid_delta, bn_delta. replace (bn_max n (fst (bn_acts a o n X l1 l2 oldA)) i) with 0; [destruct (reqb_spec 0 0); [reflexivity|lra]|].
    unfold bn_max. clear - H. assert (G : forall m, (m <= n)%nat -> rmaxn m (fun r => Rabs (fst (bn_acts a o n X l1 l2 oldA) r i)) = 0).
    { induction m as [|m IH]; intros Hm; cbn [rmaxn]; auto. rewrite IH by lia. rewrite (H m) by lia. rewrite Rabs_R0. destruct (rltb_spec 0 0); lra. }
    now rewrite G.
  Qed.
End BNgrad.
