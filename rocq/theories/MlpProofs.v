(* Lemmas on neural_network: shuffling, packing, batches. *)
From Verif Require Import Common QCommon MlpModel.
Open Scope nat_scope.

Section Gen.
  Context {A : Type}.
  Implicit Types (d vs : list A) (g : gen A).

  Lemma blit_length d pos vs : pos + length vs <= length d -> length (blit d pos vs) = length d.
  Proof. intros H. unfold blit. rewrite !app_length, firstn_length, skipn_length. lia. Qed.
  Lemma nth_error_blit d pos vs p : pos + length vs <= length d ->
    nth_error (blit d pos vs) p = if (pos <=? p) && (p <? pos + length vs) then nth_error vs (p - pos) else nth_error d p.
  Proof.
    intros H. unfold blit. assert (L : length (firstn pos d) = pos) by (rewrite firstn_length; lia).
    destruct (Nat.leb_spec pos p) as [E|E]; cbn [andb].
    - rewrite nth_error_app2 by lia. rewrite L. destruct (Nat.ltb_spec p (pos + length vs)) as [F|F].
      + now rewrite nth_error_app1 by lia.
      + rewrite nth_error_app2 by lia. rewrite <- (firstn_skipn (pos + length vs) d) at 2.
        rewrite nth_error_app2 by (rewrite firstn_length; lia). f_equal. rewrite firstn_length. lia.
    - rewrite nth_error_app1 by lia. rewrite <- (firstn_skipn pos d) at 2. now rewrite nth_error_app1 by lia.
  Qed.
  Lemma slice_length d pos len : pos + len <= length d -> length (slice d pos len) = len.
  Proof. intros H. unfold slice. rewrite firstn_length, skipn_length. lia. Qed.
  Lemma nth_error_skipn' d pos k : nth_error (skipn pos d) k = nth_error d (pos + k).
  Proof. revert d; induction pos as [|q IH]; intros [|x d]; cbn [skipn nth_error plus]; auto. now destruct k. Qed.
  Lemma nth_error_firstn' d n k : nth_error (firstn n d) k = if k <? n then nth_error d k else None.
  Proof.
    revert d k; induction n as [|n IH]; intros [|x d] [|k]; cbn [firstn nth_error]; auto.
    - now destruct (k <? n) eqn:?, (S k <? S n) eqn:?.
    - rewrite IH. change (S k <? S n) with (k <? n). reflexivity.
  Qed.
  Lemma nth_error_slice d pos len k : nth_error (slice d pos len) k = if k <? len then nth_error d (pos + k) else None.
  Proof. unfold slice. rewrite nth_error_firstn', nth_error_skipn'. reflexivity. Qed.

  Definition gwf g : Prop := g_cols g <= g_stride g /\ forall r, r < g_rows g -> r * g_stride g + g_cols g <= length (g_data g).
  Definition tr (i j r : nat) : nat := if r =? i then j else if r =? j then i else r.
  Definition off_grid g p : Prop := forall r k, r < g_rows g -> k < g_cols g -> p <> k + r * g_stride g.
  Definition same_dims g g' : Prop := g_rows g' = g_rows g /\ g_cols g' = g_cols g /\ g_stride g' = g_stride g /\ length (g_data g') = length (g_data g).

  (* one exchange of rows *)
  Lemma fast_swap_spec g i j : gwf g -> i < g_rows g -> j < g_rows g -> exists g', fast_swap g i j = Some g' /\ same_dims g g' /\
    (forall r k, r < g_rows g -> k < g_cols g -> g_at g' r k = g_at g (tr i j r) k) /\
    (forall p, off_grid g p -> nth_error (g_data g') p = nth_error (g_data g) p).
  Proof.
    intros [Hc Hw] Hi Hj. pose proof (Hw i Hi) as Li. pose proof (Hw j Hj) as Lj. unfold fast_swap.
    set (d := g_data g) in *. set (c := g_cols g) in *. set (s := g_stride g) in *. cbv zeta.
    assert (G : forall r r' k k', k < c -> k' < c -> k + r * s = k' + r' * s -> r = r' /\ k = k').
    { intros r r' k k' Hk Hk' E. assert (r = r') by nia. subst. split; [reflexivity|lia]. }
    destruct (Nat.eqb_spec c 1) as [C1|C1].
    - destruct (Nat.ltb_spec (i * s) (length d)); [|lia]. destruct (Nat.ltb_spec (j * s) (length d)); [|lia]. cbn [andb].
      eexists. split; [reflexivity|]. split; [repeat split; cbn; auto; apply swap_length|]. split.
      + intros r k Hr Hk. unfold g_at. cbn [g_data g_stride]. fold d s. rewrite nth_error_swap by assumption. replace k with 0 by (unfold c in *; lia). rewrite !Nat.add_0_l. unfold tr.
        destruct (Nat.eqb_spec (r * s) (j * s)) as [E|E].
        * destruct (Nat.eqb_spec r i) as [-> | Ni]; [now rewrite E|]. destruct (Nat.eqb_spec r j) as [-> | Nj]; [reflexivity|].
          exfalso. apply Nj. eapply (G r j 0 0); lia.
        * destruct (Nat.eqb_spec (r * s) (i * s)) as [F|F].
          -- destruct (Nat.eqb_spec r i) as [-> | Ni]; [reflexivity|]. exfalso. apply Ni. eapply (G r i 0 0); lia.
          -- destruct (Nat.eqb_spec r i) as [-> | Ni]; [lia|]. destruct (Nat.eqb_spec r j) as [-> | Nj]; [lia|reflexivity].
      + intros p Hp. cbn [g_data]. rewrite nth_error_swap by assumption.
        destruct (Nat.eqb_spec p (j * s)) as [E|E]; [exfalso; apply (Hp j 0); fold c s; lia|].
        destruct (Nat.eqb_spec p (i * s)) as [F|F]; [exfalso; apply (Hp i 0); fold c s; lia|reflexivity].
    - destruct (Nat.ltb_spec (length d) (i * s + c)); [lia|]. destruct (Nat.ltb_spec (length d) (j * s + c)); [lia|]. cbn [orb].
      eexists. split; [reflexivity|].
      assert (S1 : length (slice d (j * s) c) = c) by (apply slice_length; lia).
      assert (S2 : length (slice d (i * s) c) = c) by (apply slice_length; lia).
      assert (B1 : length (blit d (i * s) (slice d (j * s) c)) = length d) by (apply blit_length; lia).
      assert (B2 : length (blit (blit d (i * s) (slice d (j * s) c)) (j * s) (slice d (i * s) c)) = length d) by (rewrite blit_length; lia).
      assert (N : forall p, nth_error (blit (blit d (i * s) (slice d (j * s) c)) (j * s) (slice d (i * s) c)) p =
        if (j * s <=? p) && (p <? j * s + c) then nth_error d (i * s + (p - j * s)) else
        if (i * s <=? p) && (p <? i * s + c) then nth_error d (j * s + (p - i * s)) else nth_error d p).
      { intros p. rewrite nth_error_blit by lia. rewrite nth_error_blit by lia. rewrite S1, S2, !nth_error_slice.
        destruct (Nat.leb_spec (j * s) p), (Nat.ltb_spec p (j * s + c)); cbn [andb].
        1: destruct (Nat.ltb_spec (p - j * s) c); [reflexivity|lia].
        all: destruct (Nat.leb_spec (i * s) p), (Nat.ltb_spec p (i * s + c)); cbn [andb]; try reflexivity; destruct (Nat.ltb_spec (p - i * s) c); [reflexivity|lia]. }
      split; [repeat split; cbn; auto|]. split.
      + intros r k Hr Hk. unfold g_at. cbn [g_data g_stride]. fold d s. rewrite N. unfold tr. fold c in Hk.
        destruct (Nat.eqb_spec r j) as [-> | Nj].
        * destruct (Nat.leb_spec (j * s) (k + j * s)); [|lia]. destruct (Nat.ltb_spec (k + j * s) (j * s + c)); [|lia]. cbn [andb].
          destruct (Nat.eqb_spec j i) as [-> | ?]; f_equal; lia.
        * destruct ((j * s <=? k + r * s) && (k + r * s <? j * s + c)) eqn:E.
          { apply andb_prop in E. destruct E as [E1 E2]. apply Nat.leb_le in E1. apply Nat.ltb_lt in E2. exfalso. apply Nj. eapply (G r j k (k + r * s - j * s)); lia. }
          destruct (Nat.eqb_spec r i) as [-> | Ni].
          -- destruct (Nat.leb_spec (i * s) (k + i * s)); [|lia]. destruct (Nat.ltb_spec (k + i * s) (i * s + c)); [|lia]. cbn [andb]. f_equal. lia.
          -- destruct ((i * s <=? k + r * s) && (k + r * s <? i * s + c)) eqn:F; [|reflexivity].
             apply andb_prop in F. destruct F as [E1 E2]. apply Nat.leb_le in E1. apply Nat.ltb_lt in E2. exfalso. apply Ni. eapply (G r i k (k + r * s - i * s)); lia.
      + intros p Hp. cbn [g_data]. rewrite N.
        destruct ((j * s <=? p) && (p <? j * s + c)) eqn:E.
        { apply andb_prop in E. destruct E as [E1 E2]. apply Nat.leb_le in E1. apply Nat.ltb_lt in E2. exfalso. apply (Hp j (p - j * s)); fold c s; lia. }
        destruct ((i * s <=? p) && (p <? i * s + c)) eqn:F; [|reflexivity].
        apply andb_prop in F. destruct F as [E1 E2]. apply Nat.leb_le in E1. apply Nat.ltb_lt in E2. exfalso. apply (Hp i (p - i * s)); fold c s; lia.
  Qed.

  (* a matrix whose rows are those of g0 in the order idx *)
  Definition shuffled g0 (idx : list nat) g : Prop :=
    same_dims g0 g /\ (forall r k, r < g_rows g0 -> k < g_cols g0 -> g_at g r k = g_at g0 (nth r idx 0) k) /\
    (forall p, off_grid g0 p -> nth_error (g_data g) p = nth_error (g_data g0) p).
  Lemma shuffled_start g : shuffled g (seq 0 (g_rows g)) g.
  Proof. split; [repeat split|]. split; [|auto]. intros r k Hr Hk. rewrite seq_nth by assumption. reflexivity. Qed.
  Lemma nth_swap (idx : list nat) i j r : i < length idx -> j < length idx -> nth r (swap idx i j) 0 = nth (tr i j r) idx 0.
  Proof.
    intros Hi Hj. assert (E : nth_error (swap idx i j) r = nth_error idx (tr i j r)).
    { rewrite nth_error_swap by assumption. unfold tr. destruct (Nat.eqb_spec r j) as [E|E], (Nat.eqb_spec r i) as [F|F]; try reflexivity. now rewrite <- E, <- F. }
    clear Hi Hj. revert E. generalize (swap idx i j) (tr i j r). intros l m E.
    destruct (nth_error l r) as [x|] eqn:F; symmetry in E.
    - now rewrite (nth_error_nth _ _ _ F), (nth_error_nth _ _ _ E).
    - apply nth_error_None in F, E. now rewrite !nth_overflow.
  Qed.
  Lemma shuffled_swap g0 idx g i j : gwf g0 -> length idx = g_rows g0 -> shuffled g0 idx g -> i < g_rows g0 -> j < g_rows g0 ->
    exists g', fast_swap g i j = Some g' /\ shuffled g0 (swap idx i j) g'.
  Proof.
    intros [Hc Hw] HL ((D1 & D2 & D3 & D4) & Hr & Hp) Hi Hj.
    assert (W : gwf g) by (split; [lia|]; intros r Hr'; rewrite D2, D3, D4; apply Hw; lia).
    destruct (@fast_swap_spec g i j W) as (g' & E & (E1 & E2 & E3 & E4) & Er & Ep); [lia|lia|].
    exists g'. split; [exact E|]. split; [repeat split; congruence|]. split.
    - intros r k Hr' Hk. rewrite Er by congruence. rewrite nth_swap by lia. apply Hr; [|exact Hk]. unfold tr. destruct (_ =? _); [lia|]. destruct (_ =? _); lia.
    - intros p Hoff. rewrite Ep; [now apply Hp|]. intros r k Hr' Hk. rewrite D1 in Hr'. rewrite D2 in Hk. rewrite D3. now apply Hoff.
  Qed.
  (* the original order restores every cell *)
  Lemma grid_dec g p : gwf g -> (exists r k, r < g_rows g /\ k < g_cols g /\ p = k + r * g_stride g) \/ off_grid g p.
  Proof.
    intros [Hc _]. destruct (Nat.eq_dec (g_stride g) 0) as [Hs|Hs]; [right; intros r k Hr Hk; lia|].
    pose proof (Nat.div_mod p _ Hs) as E. pose proof (Nat.mod_upper_bound p _ Hs).
    destruct (lt_dec (p mod g_stride g) (g_cols g)) as [F|F]; [destruct (lt_dec (p / g_stride g) (g_rows g)) as [G|G]|].
    - left. exists (p / g_stride g), (p mod g_stride g). repeat split; auto. lia.
    - right. intros r k Hr Hk E2. apply G. assert (p / g_stride g = r); [|lia]. subst p. rewrite Nat.div_add by exact Hs. rewrite Nat.div_small by lia. reflexivity.
    - right. intros r k Hr Hk E2. apply F. subst p. rewrite Nat.mod_add by exact Hs. rewrite Nat.mod_small by lia. exact Hk.
  Qed.
  Lemma shuffled_id g0 g : gwf g0 -> shuffled g0 (seq 0 (g_rows g0)) g -> g = g0.
  Proof.
    intros W ((D1 & D2 & D3 & D4) & Hr & Hp).
    assert (E : g_data g = g_data g0).
    { apply list_ext. intros p. destruct (@grid_dec g0 p W) as [(r & k & Hr' & Hk & ->)|Ho]; [|now apply Hp].
      specialize (Hr r k Hr' Hk). rewrite seq_nth in Hr by assumption. unfold g_at in Hr. rewrite D3 in Hr. exact Hr. }
    destruct g, g0. cbn in *. congruence.
  Qed.

  (* any number of exchanges *)
  Lemma swaps_spec X0 Y0 : gwf X0 -> gwf Y0 -> g_rows Y0 = g_rows X0 -> forall l s, (forall i j, In (i, j) l -> i < g_rows X0 /\ j < g_rows X0) ->
    Permutation (i_idx s) (seq 0 (g_rows X0)) -> shuffled X0 (i_idx s) (i_X s) -> shuffled Y0 (i_idx s) (i_Y s) ->
    exists s', ixy_swaps s l = Some s' /\ Permutation (i_idx s') (seq 0 (g_rows X0)) /\ shuffled X0 (i_idx s') (i_X s') /\ shuffled Y0 (i_idx s') (i_Y s') /\
      i_idx s' = fold_left (fun m e => swap m (fst e) (snd e)) l (i_idx s).
  Proof.
    intros WX WY HR. induction l as [|[i j] l IH]; intros s Hl HP HX HY; [exists s; auto|].
    destruct (Hl i j (or_introl eq_refl)) as [Hi Hj]. pose proof (Permutation_length HP) as HL. rewrite seq_length in HL.
    destruct (@shuffled_swap X0 (i_idx s) (i_X s) i j WX HL HX Hi Hj) as (X' & EX & SX).
    destruct (@shuffled_swap Y0 (i_idx s) (i_Y s) i j WY ltac:(lia) HY ltac:(lia) ltac:(lia)) as (Y' & EY & SY).
    cbn [ixy_swaps]. unfold ixy_swap. cbn [fst snd]. rewrite EX, EY.
    apply IH; cbn [i_idx i_X i_Y]; auto.
    - intros a b Hab. apply Hl. now right.
    - now rewrite swap_perm.
  Qed.
End Gen.

(* a sorted rearrangement of 0..n-1 is 0..n-1 *)
Lemma sorted_unique (l m : list nat) : StronglySorted le l -> StronglySorted le m -> Permutation l m -> l = m.
Proof.
  revert m. induction l as [|x l IH]; intros [|y m] Hl Hm HP; auto.
  - apply Permutation_length in HP. discriminate.
  - apply Permutation_length in HP. discriminate.
  - inversion Hl as [|? ? Sl Fl]. inversion Hm as [|? ? Sm Fm]. subst. rewrite Forall_forall in Fl, Fm.
    assert (x = y).
    { assert (In x (y :: m)) as [-> | Hx] by (eapply Permutation_in; [exact HP|now left]); [reflexivity|].
      assert (In y (x :: l)) as [-> | Hy] by (eapply Permutation_in; [symmetry; exact HP|now left]); [reflexivity|].
      specialize (Fl _ Hy). specialize (Fm _ Hx). lia. }
    subst. f_equal. apply IH; auto. now apply Permutation_cons_inv in HP.
Qed.
Lemma seq_sorted n : forall a, StronglySorted le (seq a n).
Proof. induction n as [|n IH]; intros a; cbn [seq]; constructor; [apply IH|]. apply Forall_forall. intros x Hx. apply in_seq in Hx. lia. Qed.

Lemma rev_swaps l : forall (m : list nat), fold_left (fun m e => swap m (fst e) (snd e)) (l ++ rev l) m = m.
Proof.
  induction l as [|e l IH]; intros m; [reflexivity|]. cbn [rev app fold_left]. rewrite app_assoc, fold_left_app, IH. cbn [fold_left]. apply swap_involutive.
Qed.
Lemma swaps_app {A} (s : ixy A) l l' : ixy_swaps s (l ++ l') = match ixy_swaps s l with Some s' => ixy_swaps s' l' | None => None end.
Proof. revert s; induction l as [|e l IH]; intros s; cbn [app ixy_swaps]; auto. destruct (ixy_swap s e); auto. Qed.

(* ------------------------------------------------------------------ packing *)
Definition block_cells (b : nat * nat * nat * nat) : list nat := let '(bo, bl, wo, wl) := b in seq bo bl ++ seq wo wl.
Lemma pack_tiles us : forall off, concat (map block_cells (pack off us)) = seq off (packed_size us).
Proof.
  induction us as [|a us IH]; intros off; [reflexivity|]. destruct us as [|b us]; [reflexivity|].
  change (pack off (a :: b :: us)) with ((off, b, off + b, a * b) :: pack (off + b + a * b) (b :: us)).
  change (packed_size (a :: b :: us)) with ((1 + a) * b + packed_size (b :: us)).
  cbn [map concat block_cells]. rewrite IH. rewrite <- seq_app. replace (off + b + a * b) with (off + (b + a * b)) by lia. rewrite <- seq_app. f_equal.
Qed.
Lemma pack_grads_same us : forall off, pack_grads off us = pack off us.
Proof. induction us as [|a [|b us] IH]; intros off; [reflexivity|reflexivity|]. change (pack_grads off (a :: b :: us)) with ((off, b, off + b, a * b) :: pack_grads (off + b + a * b) (b :: us)). now rewrite IH. Qed.
Lemma pack_nth us : forall off m, S m < length us -> exists bo, nth_error (pack off us) m = Some (bo, nth (S m) us 0, bo + nth (S m) us 0, nth m us 0 * nth (S m) us 0).
Proof.
  induction us as [|a us IH]; intros off m Hm; [cbn in Hm; lia|]. destruct us as [|b us]; [cbn in Hm; lia|].
  change (pack off (a :: b :: us)) with ((off, b, off + b, a * b) :: pack (off + b + a * b) (b :: us)).
  destruct m as [|m]; [exists off; reflexivity|]. cbn [nth_error]. destruct (IH (off + b + a * b) m) as [bo E]; [cbn in *; lia|]. exists bo. exact E.
Qed.
Lemma pack_length us : forall off, length (pack off us) = pred (length us).
Proof. induction us as [|a [|b us] IH]; intros off; [reflexivity|reflexivity|]. change (pack off (a :: b :: us)) with ((off, b, off + b, a * b) :: pack (off + b + a * b) (b :: us)). cbn [length]. now rewrite IH. Qed.

(* ------------------------------------------------------------------ batches *)
Definition range (b : nat * nat) : list nat := seq (fst b) (snd b - fst b).
Lemma batches_spec bs lim : 0 < bs -> forall fuel b0, lim <= fuel + b0 -> exists l, batches (S fuel) b0 (b0 + bs) bs lim = Some l /\
  concat (map range l) = seq b0 (lim - b0) /\ forall a b, In (a, b) l -> a < b <= lim /\ b - a <= bs /\ (b < lim -> b - a = bs).
Proof.
  intros Hb. induction fuel as [|f IH]; intros b0 Hf.
  { cbn [batches]. destruct (Nat.ltb_spec b0 lim) as [E|E]; [lia|]. exists []. split; [reflexivity|]. split; [|intros a b []]. replace (lim - b0) with 0 by lia. reflexivity. }
  remember (S f) as f1 eqn:Ef. cbn [batches]. destruct (Nat.ltb_spec b0 lim) as [E|E].
  - destruct (Nat.ltb_spec lim (b0 + bs)) as [F|F].
    + destruct (IH lim ltac:(lia)) as (l & El & Ec & Ei). rewrite El. eexists. split; [reflexivity|]. split.
      * cbn [map concat]. rewrite Ec. unfold range. cbn [fst snd]. replace (lim - lim) with 0 by lia. cbn [seq]. now rewrite app_nil_r.
      * intros a b [H|H]; [injection H as <- <-; lia|apply Ei; exact H].
    + destruct (IH (b0 + bs) ltac:(lia)) as (l & El & Ec & Ei). rewrite El. eexists. split; [reflexivity|]. split.
      * cbn [map concat]. rewrite Ec. unfold range. cbn [fst snd]. replace (b0 + bs - b0) with bs by lia. rewrite <- seq_app. f_equal. lia.
      * intros a b [H|H]; [injection H as <- <-; lia|apply Ei; exact H].
  - exists []. split; [reflexivity|]. split; [|intros a b []]. replace (lim - b0) with 0 by lia. reflexivity.
Qed.
