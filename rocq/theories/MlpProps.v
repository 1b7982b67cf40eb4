(* Properties of neural_network: shuffling, packing, mini-batches, early stopping, stopping rule, Copy, LabelBinarizer64. *)
From Verif Require Import Common QCommon MlpModel MlpProofs MlpTrainProofs.
Open Scope nat_scope.

(* C49: whatever exchanges the shuffles made, the rows of X and Y are those of one and the same rearrangement idx *)
Theorem C49_paired : forall A (X0 Y0 : gen A) l, gwf X0 -> gwf Y0 -> g_rows Y0 = g_rows X0 ->
  (forall i j, In (i, j) l -> i < g_rows X0 /\ j < g_rows X0) ->
  exists s, ixy_swaps (ixy_start X0 Y0) l = Some s /\ Permutation (i_idx s) (seq 0 (g_rows X0)) /\
    (forall r k, r < g_rows X0 -> k < g_cols X0 -> g_at (i_X s) r k = g_at X0 (nth r (i_idx s) 0) k) /\
    (forall r k, r < g_rows X0 -> k < g_cols Y0 -> g_at (i_Y s) r k = g_at Y0 (nth r (i_idx s) 0) k).
Proof.
  intros A X0 Y0 l WX WY HR HL. destruct (@swaps_spec A X0 Y0 WX WY HR l (ixy_start X0 Y0) HL) as (s & E & P & SX & SY & _).
  - cbn. reflexivity.
  - apply shuffled_start.
  - cbn [ixy_start i_idx i_Y]. rewrite <- HR. apply shuffled_start.
  - exists s. split; [exact E|]. split; [exact P|]. split; [apply SX|]. intros r k Hr Hk. apply SY; [lia|exact Hk].
Qed.
Print Assumptions C49_paired.
(* once the indices are sorted, by whatever exchanges, X and Y are exactly what they were: every cell, also the padding *)
Theorem C49_restored : forall A (X0 Y0 : gen A) l s, gwf X0 -> gwf Y0 -> g_rows Y0 = g_rows X0 ->
  (forall i j, In (i, j) l -> i < g_rows X0 /\ j < g_rows X0) ->
  ixy_swaps (ixy_start X0 Y0) l = Some s -> StronglySorted le (i_idx s) -> i_X s = X0 /\ i_Y s = Y0.
Proof.
  intros A X0 Y0 l s WX WY HR HL E HS. destruct (@swaps_spec A X0 Y0 WX WY HR l (ixy_start X0 Y0) HL) as (s' & E' & P & SX & SY & _).
  - cbn. reflexivity.
  - apply shuffled_start.
  - cbn [ixy_start i_idx i_Y]. rewrite <- HR. apply shuffled_start.
  - rewrite E in E'. injection E' as <-. assert (I : i_idx s = seq 0 (g_rows X0)) by (apply sorted_unique; auto using seq_sorted). rewrite I in *.
    split; [now apply shuffled_id|]. apply shuffled_id; [exact WY|]. now rewrite HR.
Qed.
Print Assumptions C49_restored.
(* the order can always be restored by exchanges *)
Theorem C49_can_sort : forall A (X0 Y0 : gen A) l, gwf X0 -> gwf Y0 -> g_rows Y0 = g_rows X0 ->
  (forall i j, In (i, j) l -> i < g_rows X0 /\ j < g_rows X0) ->
  exists l' s, ixy_swaps (ixy_start X0 Y0) (l ++ l') = Some s /\ StronglySorted le (i_idx s).
Proof.
  intros A X0 Y0 l WX WY HR HL. exists (rev l). destruct (@swaps_spec A X0 Y0 WX WY HR (l ++ rev l) (ixy_start X0 Y0)) as (s & E & P & SX & SY & I).
  - intros i j H. apply in_app_or in H. rewrite <- in_rev in H. destruct H; auto.
  - cbn. reflexivity.
  - apply shuffled_start.
  - cbn [ixy_start i_idx i_Y]. rewrite <- HR. apply shuffled_start.
  - exists s. split; [exact E|]. rewrite I, rev_swaps. apply seq_sorted.
Qed.
Print Assumptions C49_can_sort.
(* three rows, X with stride 3 and two columns, Y with one column *)
Definition mlp_X : gen nat := mkgen 3 2 3 [1; 2; 91; 3; 4; 92; 5; 6].
Definition mlp_Y : gen nat := mkgen 3 1 1 [10; 30; 50].
Example C49_ex : gwf mlp_X /\ gwf mlp_Y /\
  (exists s, ixy_swaps (ixy_start mlp_X mlp_Y) [(2, 0); (1, 1)] = Some s /\ g_data (i_X s) = [5; 6; 91; 3; 4; 92; 1; 2] /\ g_data (i_Y s) = [50; 30; 10] /\ i_idx s = [2; 1; 0]) /\
  (exists s, ixy_swaps (ixy_start mlp_X mlp_Y) [(2, 0); (1, 1); (1, 0); (1, 2); (0, 1)] = Some s /\ i_idx s = [0; 1; 2] /\ i_X s = mlp_X).
Proof.
  split; [split; [cbn; lia|]; intros [|[|[|r]]] H; cbn in *; lia|]. split; [split; [cbn; lia|]; intros [|[|[|r]]] H; cbn in *; lia|].
  split; eexists; vm_compute; repeat split; reflexivity.
Qed.

(* C50: the blocks of intercepts and coefficients of all layers, in order, are exactly the packed vector *)
Theorem C50_tiles : forall us, concat (map block_cells (pack 0 us)) = seq 0 (packed_size us).
Proof. intros us. apply pack_tiles. Qed.
Print Assumptions C50_tiles.
Theorem C50_sizes : forall us m, S m < length us -> exists bo, nth_error (pack 0 us) m = Some (bo, nth (S m) us 0, bo + nth (S m) us 0, nth m us 0 * nth (S m) us 0).
Proof. intros us m H. now apply pack_nth. Qed.
Print Assumptions C50_sizes.
Theorem C50_layers : forall us, length (pack 0 us) = pred (length us).
Proof. intros us. apply pack_length. Qed.
Print Assumptions C50_layers.
Theorem C50_gradients : forall us, pack_grads 0 us = pack 0 us.
Proof. intros us. apply pack_grads_same. Qed.
Print Assumptions C50_gradients.
Example C50_ex : pack 0 [3; 4; 2] = [(0, 4, 4, 12); (16, 2, 18, 8)] /\ packed_size [3; 4; 2] = 26.
Proof. vm_compute. auto. Qed.

(* C120: the batches of an epoch cover the training rows once, in order; each is full but perhaps the last *)
Theorem C120_batches : forall bs lim, 0 < bs -> exists l, epoch_batches bs lim = Some l /\ concat (map range l) = seq 0 lim /\
  forall a b, In (a, b) l -> a < b <= lim /\ b - a <= bs /\ (b < lim -> b - a = bs).
Proof. intros bs lim H. destruct (@batches_spec bs lim H lim 0) as (l & E & C & I); [lia|]. exists l. rewrite Nat.sub_0_r in C. auto. Qed.
Print Assumptions C120_batches.
Example C120_ex : epoch_batches 4 10 = Some [(0, 4); (4, 8); (8, 10)] /\ epoch_batches 4 0 = Some [].
Proof. vm_compute. auto. Qed.

(* C119: without shuffling the validation rows are rows no batch contains *)
Theorem C119_held_out_partial : forall A (X V : gen A) test bs l, gwf X -> test <= g_rows X -> 0 < bs ->
  row_slice X (g_rows X - test) (g_rows X) = Some V -> epoch_batches bs (g_rows X - test) = Some l ->
  (forall r k, r < test -> k < g_cols X -> g_at V r k = g_at X (g_rows X - test + r) k) /\
  (forall b i, In b l -> In i (range b) -> i < g_rows X - test).
Proof.
  intros A X V test bs l W Ht Hb EV EL. split.
  - intros r k Hr Hk. assert (D : g_rows V = g_rows X - (g_rows X - test)) by (unfold row_slice in EV; destruct (_ || _); [discriminate|]; injection EV as <-; reflexivity).
    apply (@row_slice_at A X V (g_rows X - test) (g_rows X) r k W D EV); lia.
  - intros [a b] i HI Hi. destruct (@C120_batches bs (g_rows X - test) Hb) as (l' & E & _ & H). rewrite EL in E. injection E as <-. specialize (H a b HI). unfold range in Hi. cbn [fst snd] in Hi. apply in_seq in Hi. lia.
Qed.
Print Assumptions C119_held_out_partial.
(* with Shuffle they are not held out: for every data set and every split there is a run of the shuffle, exchanging each
   row i = n-1, ..., 1 with some j <= i, after which a row trained on in the epoch before is a validation row *)
Theorem C119_shuffle_refuted : forall A (X Y : gen A) test, gwf X -> gwf Y -> g_rows Y = g_rows X -> 1 <= test -> test < g_rows X ->
  exists l s a b, map fst l = rev (seq 1 (g_rows X - 1)) /\ (forall i j, In (i, j) l -> j <= i) /\
    ixy_swaps (ixy_start X Y) l = Some s /\ a < g_rows X - test /\ g_rows X - test <= b < g_rows X /\
    nth b (i_idx s) 0 = nth a (i_idx (ixy_start X Y)) 0 /\ (forall k, k < g_cols X -> g_at (i_X s) b k = g_at X a k) /\ (forall k, k < g_cols Y -> g_at (i_Y s) b k = g_at Y a k).
Proof.
  intros A X Y test WX WY HR H1 H2. set (n := g_rows X) in *.
  set (l := (n - 1, 0) :: map (fun i => (i, i)) (rev (seq 1 (n - 2)))).
  assert (HL : forall i j, In (i, j) l -> (i < n /\ j < n) /\ j <= i).
  { intros i j [H|H]; [injection H as <- <-; lia|]. apply in_map_iff in H. destruct H as (q & E & H). injection E as <- <-. apply in_rev, in_seq in H. lia. }
  destruct (@swaps_spec A X Y WX WY HR l (ixy_start X Y)) as (s & E & P & SX & SY & I).
  - intros i j H. apply HL, H.
  - cbn. reflexivity.
  - apply shuffled_start.
  - cbn [ixy_start i_idx i_Y]. change (g_rows X) with n. rewrite <- HR. apply shuffled_start.
  - assert (N : nth (n - 1) (i_idx s) 0 = 0).
    { rewrite I. unfold l. cbn [fold_left fst snd ixy_start i_idx]. rewrite fold_same.
      - rewrite nth_swap by (rewrite seq_length; fold n; lia). unfold tr. rewrite Nat.eqb_refl. rewrite seq_nth by lia. reflexivity.
      - intros i Hi. apply in_rev, in_seq in Hi. rewrite swap_length, seq_length. fold n. lia. }
    exists l, s, 0, (n - 1). split.
    { unfold l. cbn [map fst]. rewrite map_map. cbn [fst]. rewrite map_id. replace (seq 1 (n - 1)) with (seq 1 (S (n - 2))) by (f_equal; lia). rewrite seq_S, rev_app_distr. cbn [rev app]. f_equal. lia. }
    split; [intros i j H; apply HL, H|]. split; [exact E|]. split; [lia|]. split; [lia|]. split.
    { rewrite N. cbn [ixy_start i_idx]. rewrite seq_nth by (fold n; lia). reflexivity. }
    split; intros k Hk.
    + destruct SX as (_ & SX & _). rewrite SX by (try exact Hk; fold n; lia). now rewrite N.
    + destruct SY as (_ & SY & _). rewrite SY by (try exact Hk; rewrite HR; fold n; lia). now rewrite N.
Qed.
Print Assumptions C119_shuffle_refuted.
Example C119_ex : row_slice mlp_Y 2 3 = Some (mkgen 1 1 1 [50]) /\ (exists s, ixy_swaps (ixy_start mlp_X mlp_Y) [(2, 0); (1, 1)] = Some s /\ row_slice (i_Y s) 2 3 = Some (mkgen 1 1 1 [10])).
Proof. split; [reflexivity|]. eexists. vm_compute. auto. Qed.

(* C52: if some epoch that was run scored above the value BestValidationScore had before Fit, the parameters are those of an epoch of greatest score *)
Theorem C52_best_partial : forall P adaptive tol nic lr (zeros init : P) old l, let s := train_fit true adaptive tol nic lr zeros init old l in
  t_niter s <= length l /\
  ((exists i p lo v, i < t_niter s /\ nth_error l i = Some (p, lo, Some v) /\ (t_score old < v)%Q) ->
   exists i p lo v, i < t_niter s /\ nth_error l i = Some (p, lo, Some v) /\ t_params s = p /\ t_score s = v /\
     forall j p' lo' v', j < t_niter s -> nth_error l j = Some (p', lo', Some v') -> (v' <= v)%Q).
Proof.
  intros P adaptive tol nic lr zeros init old l s.
  destruct (@epochs_best P adaptive tol nic l (mktrain init zeros (t_score old) None (t_noimp old) lr 0)) as (k & Hk & Hn & H). cbn [t_niter t_score t_best plus] in *.
  assert (E : t_niter s = k) by exact Hn. rewrite E. split; [exact Hk|]. intros (i & p & lo & v & Hi & N & L).
  destruct H as [(H & _)|(i' & p' & lo' & v' & Hi' & N' & _ & B & C & M)].
  - exfalso. specialize (H i p lo v Hi N). apply (Qlt_irrefl v). eapply Qle_lt_trans; eauto.
  - exists i', p', lo', v'. repeat split; auto.
Qed.
Print Assumptions C52_best_partial.
(* otherwise Fit ends with all parameters zero, whatever was learned *)
Theorem C52_zeros_refuted : forall P adaptive tol nic lr (zeros init : P) old l, let s := train_fit true adaptive tol nic lr zeros init old l in
  (forall i p lo v, i < t_niter s -> nth_error l i = Some (p, lo, Some v) -> (v <= t_score old)%Q) -> t_params s = zeros.
Proof.
  intros P adaptive tol nic lr zeros init old l s HA.
  destruct (@epochs_best P adaptive tol nic l (mktrain init zeros (t_score old) None (t_noimp old) lr 0)) as (k & Hk & Hn & H). cbn [t_niter t_score t_best plus] in *.
  assert (E : t_niter s = k) by exact Hn. rewrite E in HA.
  destruct H as [(_ & B & _)|(i & p & lo & v & Hi & N & L & _)]; [exact B|].
  exfalso. specialize (HA i p lo v Hi N). apply (Qlt_irrefl v). eapply Qle_lt_trans; eauto.
Qed.
Print Assumptions C52_zeros_refuted.
(* a regressor with scores -3, -2, -1/2: the last epoch is the best, the parameters are zero; with scores 1/2, 3/4, 5/8 the second is kept *)
Example C52_ex : t_params (train_fit true false (1 # 100) 5 (1 # 1000) 0 7 (train_new 7) [(1, Some (9 # 1), Some (-3 # 1)); (2, Some (4 # 1), Some (-2 # 1)); (3, Some (1 # 1), Some (-1 # 2))]) = 0 /\
  t_params (train_fit true false (1 # 100) 5 (1 # 1000) 0 7 (train_new 7) [(1, Some (9 # 1), Some (1 # 2)); (2, Some (4 # 1), Some (3 # 4)); (3, Some (1 # 1), Some (5 # 8))]) = 2.
Proof. vm_compute. auto. Qed.

(* C125: without early stopping, whatever earlier fits left: training stops before the last allowed epoch only after
   NIterNoChange+1 epochs in a row each of which was not better by Tol than some epoch before it *)
Theorem C125_stop_partial : forall P adaptive tol nic lr (zeros init : P) old l, let s := train_fit false adaptive tol nic lr zeros init old l in
  t_niter s <= length l /\ (t_niter s < length l -> S nic < t_niter s /\ stale tol l (t_niter s) (S nic)).
Proof.
  intros P adaptive tol nic lr zeros init old l. cbv zeta. unfold train_fit. destruct l as [|[[p lo] sc] l]; [cbn; split; [lia|]; intros; lia|].
  cbn [epochs]. rewrite first_epoch_false by reflexivity. cbv zeta iota. cbn [t_best t_score t_lr t_niter].
  set (s1 := mktrain p (t_best old) (t_score old) lo 0 lr 1).
  pose proof (@epochs_stale P adaptive tol nic [(p, lo, sc)] l s1) as H. cbn [length app] in H. destruct H as (A & B & C & D).
  - reflexivity.
  - cbn. lia.
  - intros i Hi. cbn in Hi. lia.
  - cbn. intros b ->. exists 0, p, sc. reflexivity.
  - cbn. lia.
  - cbn [length] in *. set (s' := epochs false adaptive tol nic s1 l) in *. split; [lia|]. intros HL. specialize (D HL). rewrite D in B, C. split; [|exact C].
    destruct (Nat.eq_dec (t_niter s') (S nic)) as [E|E]; [|lia]. exfalso. destruct (C 0) as (j & _ & _ & _ & _ & _ & _ & Hj & _); lia.
Qed.
Print Assumptions C125_stop_partial.
(* with early stopping, on an estimator that has not been fitted (its count is 0): the same for the scores, which are compared with
   the best score so far; t_score old is 0 for a new estimator *)
Theorem C125_early_partial : forall P adaptive tol nic lr (zeros init : P) old l, t_noimp old = 0 -> let s := train_fit true adaptive tol nic lr zeros init old l in
  t_niter s <= length l /\ (t_niter s < length l -> S nic <= t_niter s /\
    forall i, t_niter s - S nic <= i < t_niter s -> exists p lo v, nth_error l i = Some (p, lo, Some v) /\
      ((v < t_score old + tol)%Q \/ exists j p' lo' w, j < i /\ nth_error l j = Some (p', lo', Some w) /\ (v < w + tol)%Q)).
Proof.
  intros P adaptive tol nic lr zeros init old l H0. cbv zeta. unfold train_fit. rewrite H0. cbn [t_niter].
  pose proof (@epochs_estale P (t_score old) adaptive tol nic [] l (mktrain init zeros (t_score old) None 0 lr 0)) as H. cbn [length app] in H.
  destruct H as (A & B & C & D); [reflexivity|cbn; lia|intros i Hi; cbn in Hi; lia|now left|cbn; lia|]. split; [lia|]. intros HL. specialize (D HL). rewrite D in B, C. split; [exact B|exact C].
Qed.
Print Assumptions C125_early_partial.
(* with early stopping a second Fit continues the count of the first: after a fit that stopped, a fit whose first score is
   not above the old best ends after one epoch, with zero parameters *)
Theorem C125_refit_refuted : forall P tol nic lr lr' (zeros init init' : P) old l l' p lo v, (0 < tol)%Q ->
  let s := train_fit true false tol nic lr zeros init old l in nic < t_noimp s -> (v <= t_score s)%Q ->
  let s2 := train_fit true false tol nic lr' zeros init' s ((p, lo, Some v) :: l') in t_niter s2 = 1 /\ t_params s2 = zeros.
Proof.
  intros P tol nic lr lr' zeros init init' old l l' p lo v Ht s Hn Hv. cbv zeta. unfold train_fit. cbn [epochs].
  unfold epoch, update_noimp. cbn [t_params t_best t_score t_loss t_noimp t_lr t_niter olt].
  destruct (Qltb_spec v (t_score s + tol)%Q) as [E|E]; [|exfalso; assert (v < t_score s + tol)%Q; [|apply (Qlt_irrefl v); eapply Qlt_le_trans; eauto]].
  2: { eapply Qle_lt_trans; [exact Hv|]. rewrite <- (Qplus_0_r (t_score s)) at 1. apply Qplus_lt_r. exact Ht. }
  destruct (Qltb_spec (t_score s) v) as [F|F]; [exfalso; apply (Qlt_irrefl v); eapply Qle_lt_trans; eauto|].
  cbn [t_params t_best t_score t_loss t_noimp t_lr t_niter]. destruct (Nat.ltb_spec nic (S (t_noimp s))) as [G|G]; [|lia]. cbn. auto.
Qed.
Print Assumptions C125_refit_refuted.
Definition mlp_epochs : list (nat * option Q * option Q) := [(1, Some (9 # 1), Some (1 # 2)); (2, Some (9 # 1), Some (1 # 2)); (3, Some (9 # 1), Some (1 # 2)); (4, Some (9 # 1), Some (1 # 2)); (5, Some (9 # 1), Some (1 # 2))].
Example C125_ex : t_niter (train_fit false false (1 # 100) 2 (1 # 1000) 0 7 (train_new 7) mlp_epochs) = 4 /\ t_niter (train_fit true false (1 # 100) 2 (1 # 1000) 0 7 (train_new 7) mlp_epochs) = 4 /\
  t_noimp (train_fit true false (1 # 100) 2 (1 # 1000) 0 7 (train_new 7) mlp_epochs) = 3 /\
  t_niter (train_fit true false (1 # 100) 2 (1 # 1000) 0 7 (train_fit true false (1 # 100) 2 (1 # 1000) 0 7 (train_new 7) mlp_epochs) mlp_epochs) = 1.
Proof. vm_compute. auto. Qed.

(* C122: Copy copies every cell, unless the source is a General64 whose rows are not contiguous *)
Theorem C122_copy_partial : forall A (z : A) a r c, swf a -> (forall g, a = SGeneral g -> g_stride g = g_cols g) ->
  r < fst (s_dims a) -> c < snd (s_dims a) -> g_at (g_copy z a) r c = s_at a r c.
Proof. intros A z a r c. apply copy_cells. Qed.
Print Assumptions C122_copy_partial.
Theorem C122_copy_dims : forall A (z : A) a, g_rows (g_copy z a) = fst (s_dims a) /\ g_cols (g_copy z a) = snd (s_dims a).
Proof. intros A z [g|g|r c f]; unfold g_copy, s_dims; cbn; [auto| |auto]. destruct (_ =? _); auto. Qed.
Print Assumptions C122_copy_dims.
(* for such a General64 the second row of the copy starts with what follows the first row in memory *)
Theorem C122_view_refuted : forall A (z : A) g, gwf g -> g_cols g < g_stride g -> 2 <= g_rows g -> 1 <= g_cols g ->
  g_at (g_copy z (SGeneral g)) 1 0 = nth_error (g_data g) (g_cols g) /\ s_at (SGeneral g) 1 0 = nth_error (g_data g) (g_stride g).
Proof.
  intros A z g [W1 W2] Hs Hr Hc. split; [|unfold s_at, g_at; f_equal; lia]. unfold g_copy, g_at, s_dims. cbn [g_data g_stride]. cbn [plus]. rewrite Nat.mul_1_l.
  apply nth_error_copy1; [nia|]. specialize (W2 (g_rows g - 1)). nia.
Qed.
Print Assumptions C122_view_refuted.
Example C122_ex : g_data (g_copy 0 (SGeneral mlp_X)) = [1; 2; 91; 3; 4; 92] /\ g_data (g_copy 0 (SRaw mlp_X)) = [1; 2; 3; 4; 5; 6].
Proof. vm_compute. auto. Qed.

(* C123: LabelBinarizer64 on one column of labels: InverseTransform undoes Transform *)
Theorem C123_one_column_partial : forall neg pos ys, let Y := map (fun v => [v]) ys in let m := lb_fit neg pos 1 Y in (0 < lb_pos m)%Z ->
  lb_inverse m (lb_transform m Y) = map (fun v => Some [v]) ys.
Proof. intros neg pos ys. apply lb_roundtrip1. Qed.
Print Assumptions C123_one_column_partial.
(* with two columns, the first having at least as many classes, every label of the second decodes to 0 *)
Theorem C123_two_columns_refuted : forall neg pos ys, let Y := map (fun p => [fst p; snd p]) ys in let m := lb_fit neg pos 2 Y in (0 < lb_pos m)%Z ->
  length (nth 1 (lb_classes m) []) <= length (nth 0 (lb_classes m) []) ->
  lb_inverse m (lb_transform m Y) = map (fun p => Some [fst p; 0%Z]) ys.
Proof. intros neg pos ys. apply lb_two. Qed.
Print Assumptions C123_two_columns_refuted.
(* Fit keeps the two labels when they differ; a binarizer left at its zero value gets PosLabel 1, so the round trip above covers it *)
Theorem C123_default_labels : forall neg pos cols Y, let m := lb_fit neg pos cols Y in
  lb_neg m = neg /\ (pos <> neg -> lb_pos m = pos) /\ (pos = neg -> lb_pos m = neg + 1)%Z.
Proof. intros neg pos cols Y m. unfold m, lb_fit. cbn. destruct (Z.eqb_spec pos neg) as [->|N]; repeat split; congruence. Qed.
Print Assumptions C123_default_labels.
(* NegLabel is never written for a known label: cells are 0 or PosLabel *)
Theorem C123_neg_label_refuted : forall neg pos cols Y c, let m := lb_fit neg pos cols Y in In c (concat (lb_transform m Y)) -> c = 0%Z \/ c = lb_pos m.
Proof. intros neg pos cols Y c. apply lb_cells. Qed.
Print Assumptions C123_neg_label_refuted.
Example C123_ex : let Y := [[7; 4]; [3; 5]; [9; 4]]%Z in lb_inverse (lb_fit 0 1 2 Y) (lb_transform (lb_fit 0 1 2 Y) Y) = [Some [7; 0]; Some [3; 0]; Some [9; 0]]%Z /\
  lb_transform (lb_fit (-1) 1 1 [[7]; [3]; [9]]%Z) [[7]; [3]; [9]]%Z = [[0; 1; 0]; [1; 0; 0]; [0; 0; 1]]%Z.
Proof. vm_compute. auto. Qed.

(* C128: with early stopping and labels that had to be binarized into two or more columns, scoring the validation rows panics *)
Theorem C128_early_score_refuted : forall ys yval, let Y := map (fun v => [v]) ys in let m := lb_fit 0 1 1 Y in
  2 <= length (nth 0 (lb_classes m) []) -> yval <> [] -> incl yval (lb_transform m Y) -> val_predict m yval = None.
Proof.
  intros ys yval Y m HC HN HI. unfold val_predict, lb_transform_chk. destruct yval as [|r yval]; [congruence|]. cbn [hd].
  assert (HR : In r (lb_transform m Y)) by (apply HI; now left). unfold lb_transform, Y in HR. rewrite map_map in HR. apply in_map_iff in HR. destruct HR as (v & <- & _).
  set (cl := zsort (distinctz [] (map (fun r => nth 0 r 0%Z) Y))). assert (EC : lb_classes m = [cl]) by reflexivity.
  rewrite EC in *. cbn [nth] in HC. rewrite (@lb_row1 m cl v EC). cbn [length].
  destruct (find_ix v cl 0); rewrite upd_length, repeat_length; destruct (Nat.ltb_spec 1 (length cl)); auto; lia.
Qed.
Print Assumptions C128_early_score_refuted.
(* with one class there is one column and no panic *)
Theorem C128_one_class_partial : forall ys yval, let Y := map (fun v => [v]) ys in let m := lb_fit 0 1 1 Y in
  length (nth 0 (lb_classes m) []) <= 1 -> incl yval (lb_transform m Y) -> val_predict m yval <> None.
Proof.
  intros ys yval Y m HC HI. unfold val_predict, lb_transform_chk. set (cl := zsort (distinctz [] (map (fun r => nth 0 r 0%Z) Y))). assert (EC : lb_classes m = [cl]) by reflexivity.
  rewrite EC in *. cbn [nth length] in *. destruct yval as [|r yval]; [discriminate|]. cbn [hd].
  assert (HR : In r (lb_transform m Y)) by (apply HI; now left). unfold lb_transform, Y in HR. rewrite map_map in HR. apply in_map_iff in HR. destruct HR as (v & <- & _).
  rewrite (@lb_row1 m cl v EC). destruct (find_ix v cl 0); rewrite upd_length, repeat_length; destruct (Nat.ltb_spec 1 (length cl)); try discriminate; lia.
Qed.
Print Assumptions C128_one_class_partial.
Example C128_ex : let Y := [[7]; [3]; [9]; [3]]%Z in let m := lb_fit 0 1 1 Y in val_predict m (skipn 3 (lb_transform m Y)) = None.
Proof. vm_compute. reflexivity. Qed.
