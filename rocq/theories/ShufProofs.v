From Verif Require Import QCommon ScaleModel ScaleProofs.
Open Scope nat_scope.

Section Shuf.
Context {A : Type}.
Variable dflt : A.

Lemma swap_sym (l : list A) i j : swap l i j = swap l j i.
Proof.
  unfold swap. destruct (nth_error l i) as [a|] eqn:E1, (nth_error l j) as [b|] eqn:E2; auto.
  destruct (Nat.eq_dec i j) as [->|H]; [congruence|]. now rewrite upd_comm by auto.
Qed.

(* swapping two disjoint blocks *)
Definition blk (cols s d k : nat) : nat :=
  if (Nat.leb s k && Nat.ltb k (s + cols))%bool then d + (k - s)
  else if (Nat.leb d k && Nat.ltb k (d + cols))%bool then s + (k - d) else k.

Lemma swap_cells_none cols s d : swap_cells (A:=A) cols s d None = None.
Proof. unfold swap_cells. induction (seq 0 cols); cbn; auto. Qed.

Ltac cases := repeat match goal with
  | |- context[Nat.leb ?a ?b] => destruct (Nat.leb_spec a b); try (exfalso; lia); cbn [andb]
  | |- context[Nat.ltb ?a ?b] => destruct (Nat.ltb_spec a b); try (exfalso; lia); cbn [andb]
  | |- context[Nat.eqb ?a ?b] => destruct (Nat.eqb_spec a b); try (exfalso; lia); cbn [andb]
  end.

Lemma swap_cells_spec cols s d (data : list A) :
  s + cols <= d \/ d + cols <= s -> s + cols <= length data -> d + cols <= length data ->
  exists data', swap_cells cols s d (Some data) = Some data' /\ length data' = length data /\
    forall k, nth_error data' k = nth_error data (blk cols s d k).
Proof.
  induction cols as [|c IH]; intros Hd Hs Hdl.
  - exists data. repeat split. intros k. unfold blk. cases; f_equal; lia.
  - destruct IH as (d1 & E & HL & H); try lia.
    unfold swap_cells in *. rewrite seq_S, fold_left_app, E. cbn [Nat.add fold_left].
    destruct (Nat.ltb_spec (s + c) (length d1)); [|lia]. destruct (Nat.ltb_spec (d + c) (length d1)); [|lia]. cbn [andb].
    exists (swap d1 (s + c) (d + c)). split; auto. split; [now rewrite swap_length|].
    intros k. rewrite nth_error_swap by lia.
    destruct (Nat.eq_dec k (s + c)) as [->|N1].
    + rewrite !H. unfold blk. cases; try lia; f_equal; lia.
    + destruct (Nat.eq_dec k (d + c)) as [->|N2].
      * rewrite !H. unfold blk. cases; try lia; f_equal; lia.
      * rewrite !H. unfold blk. cases; try lia; f_equal; lia.
Qed.

(* compact matrices *)
Definition compact (m : raw A) : Prop :=
  rstride m = rcols m /\ 0 < rcols m /\ length (rdata m) = rrows m * rcols m.

Lemma raw_rows_length (m : raw A) : length (raw_rows dflt m) = rrows m.
Proof. unfold raw_rows. now rewrite map_length, seq_length. Qed.
Lemma raw_rows_nth (m : raw A) i : i < rrows m ->
  nth_error (raw_rows dflt m) i = Some (map (fun j => nth (i * rstride m + j) (rdata m) dflt) (seq 0 (rcols m))).
Proof. intros H. unfold raw_rows. rewrite nth_error_map, nth_error_seq. destruct (Nat.ltb_spec i (rrows m)); [reflexivity|lia]. Qed.

Lemma swap_rows (m : raw A) i p : compact m -> i < rrows m -> p < rrows m -> i <> p ->
  exists dt, swap_cells (rcols m) (i * rcols m) (p * rcols m) (Some (rdata m)) = Some dt /\
    let m' := mkraw (rrows m) (rcols m) (rstride m) dt in
    compact m' /\ raw_rows dflt m' = swap (raw_rows dflt m) i p.
Proof.
  intros (Es & Hc & HL) Hi Hp Hne. set (c := rcols m) in *. set (r := rrows m) in *.
  assert (Bi: i * c + c <= r * c) by (replace (i * c + c) with (S i * c) by (cbn; lia); apply Nat.mul_le_mono_r; lia).
  assert (Bp: p * c + c <= r * c) by (replace (p * c + c) with (S p * c) by (cbn; lia); apply Nat.mul_le_mono_r; lia).
  assert (Dis: i * c + c <= p * c \/ p * c + c <= i * c).
  { destruct (Nat.lt_total i p) as [H|[H|H]]; [left|lia|right].
    - replace (i * c + c) with (S i * c) by (cbn; lia). apply Nat.mul_le_mono_r. lia.
    - replace (p * c + c) with (S p * c) by (cbn; lia). apply Nat.mul_le_mono_r. lia. }
  destruct (swap_cells_spec c (i * c) (p * c) (rdata m) Dis) as (dt & E & HL' & H); [lia|lia|].
  exists dt. split; [exact E|]. cbv zeta. split.
  - unfold compact. cbn [rstride rcols rrows rdata]. repeat split; auto. now rewrite HL', HL.
  - apply nth_error_ext_len; [now rewrite swap_length, !raw_rows_length|].
    intros k Hk. rewrite raw_rows_length in Hk. cbn [rrows] in Hk.
    rewrite nth_error_swap by (rewrite raw_rows_length; auto).
    rewrite raw_rows_nth by auto. cbn [rstride rcols rdata]. 
    assert (G: forall q, q < r -> (forall j, j < c -> blk c (i * c) (p * c) (k * c + j) = q * c + j) ->
       Some (map (fun j => nth (k * rstride m + j) dt dflt) (seq 0 c)) = nth_error (raw_rows dflt m) q).
    { intros q Hq Hb. rewrite raw_rows_nth by auto. f_equal. apply map_ext_in. intros j Hj. apply in_seq in Hj.
      rewrite Es. specialize (H (k * c + j)). rewrite Hb in H by lia. 
      destruct (nth_error (rdata m) (q * c + j)) as [v|] eqn:Ev.
      - now rewrite (nth_error_nth _ _ dflt H), (nth_error_nth _ _ dflt Ev).
      - rewrite !nth_overflow; auto; apply nth_error_None; auto. }
    assert (Sep: forall a b, a < b -> a * c + c <= b * c).
    { intros a b Hab. replace (a * c + c) with (S a * c) by (cbn; lia). apply Nat.mul_le_mono_r. lia. }
    assert (Bk: forall a, a <> k -> k * c + c <= a * c \/ a * c + c <= k * c).
    { intros a Ha. destruct (Nat.lt_total a k) as [H'|[H'|H']]; [right; apply Sep; lia|lia|left; apply Sep; lia]. }
    destruct (Nat.eq_dec k i) as [->|N1]; [|destruct (Nat.eq_dec k p) as [->|N2]].
    + destruct (Nat.eqb_spec i p); [lia|]. rewrite Nat.eqb_refl. apply G; auto. intros j Hj. unfold blk. cases; try lia.
    + rewrite Nat.eqb_refl. apply G; auto. intros j Hj. unfold blk. cases; try lia.
    + destruct (Nat.eqb_spec k p); [lia|]. destruct (Nat.eqb_spec k i); [lia|]. apply G; auto. intros j Hj. pose proof (Bk i ltac:(lia)). pose proof (Bk p ltac:(lia)). unfold blk. cases; try lia.
Qed.

(* the whole loops, for any list of row numbers *)
Definition row_swaps {B} (perm is : list nat) (rows : list B) : list B :=
  fold_left (fun l i => if Nat.ltb i (nth i perm 0) then swap l i (nth i perm 0) else l) is rows.

Lemma shuf_data_rows (perm is : list nat) c : forall (m : raw A), compact m -> rcols m = c ->
  (forall i, In i is -> i < rrows m) -> (forall i, In i is -> nth i perm 0 < rrows m) ->
  exists dt, fold_left (fun acc i => if Nat.ltb i (nth i perm 0) then swap_cells c (i * c) (nth i perm 0 * c) acc else acc) is (Some (rdata m)) = Some dt /\
    let m' := mkraw (rrows m) c c dt in compact m' /\ raw_rows dflt m' = row_swaps perm is (raw_rows dflt m).
Proof.
  induction is as [|i is IH]; intros m HC Hc Hi Hp; cbn [fold_left].
  - exists (rdata m). split; auto. destruct HC as (E1 & E2 & E3). cbv zeta. subst c. unfold compact. cbn [rstride rcols rrows rdata].
    repeat split; auto. unfold raw_rows. cbn [rrows rcols rstride rdata]. rewrite E1. reflexivity.
  - unfold row_swaps. cbn [fold_left]. destruct (Nat.ltb_spec i (nth i perm 0)).
    + destruct (swap_rows m i (nth i perm 0) HC) as (dt & E & HC' & HR); [apply Hi; cbn; auto|apply Hp; cbn; auto|lia|].
      rewrite Hc in E. rewrite E.
      destruct (IH (mkraw (rrows m) (rcols m) (rstride m) dt) HC') as (dt' & E' & HC'' & HR'); auto.
      * intros; apply Hi; cbn; auto.
      * intros; apply Hp; cbn; auto.
      * cbn [rdata] in E'. exists dt'. split; [exact E'|]. cbn [rrows] in *. split; [exact HC''|]. rewrite HR', HR. reflexivity.
    + apply IH; auto; intros; [apply Hi|apply Hp]; cbn; auto.
Qed.

Lemma concat_nth (rows : list (list A)) c i j : Forall (fun r => length r = c) rows -> i < length rows -> j < c ->
  nth (i * c + j) (concat rows) dflt = nth j (nth i rows []) dflt.
Proof.
  intros H. revert i. induction H as [|r rows Hr HF IH]; intros i Hi Hj; cbn [length] in Hi; [lia|].
  cbn [concat]. destruct i as [|i].
  - cbn [Nat.mul Nat.add nth]. rewrite app_nth1 by lia. reflexivity.
  - rewrite app_nth2 by (cbn; lia). replace (S i * c + j - length r) with (i * c + j) by (cbn; lia). cbn [nth]. apply IH; lia.
Qed.
Lemma concat_len (rows : list (list A)) c : Forall (fun r => length r = c) rows -> length (concat rows) = length rows * c.
Proof. induction 1 as [|r rows Hr HF IH]; cbn; auto. rewrite app_length, IH. lia. Qed.
Lemma raw_rows_widths (m : raw A) : Forall (fun r => length r = rcols m) (raw_rows dflt m).
Proof. unfold raw_rows. apply Forall_map, Forall_forall. intros i _. now rewrite map_length, seq_length. Qed.

Lemma raw_copy_spec (m : raw A) : 0 < rcols m -> compact (raw_copy dflt m) /\ raw_rows dflt (raw_copy dflt m) = raw_rows dflt m.
Proof.
  intros Hc. unfold raw_copy. split.
  - unfold compact. cbn [rstride rcols rrows rdata]. repeat split; auto.
    rewrite (concat_len _ (rcols m)) by apply raw_rows_widths. now rewrite raw_rows_length.
  - apply nth_error_ext_len; [now rewrite !raw_rows_length|]. intros i Hi. rewrite raw_rows_length in Hi. cbn [rrows] in Hi.
    rewrite raw_rows_nth by auto. rewrite raw_rows_nth by auto. cbn [rstride rcols rdata]. f_equal.
    apply map_ext_in. intros j Hj. apply in_seq in Hj.
    rewrite concat_nth; [|apply raw_rows_widths|rewrite raw_rows_length; auto|lia].
    pose proof (raw_rows_nth m i Hi) as E. rewrite (nth_error_nth _ _ [] E).
    rewrite (nth_indep _ dflt (nth (i * rstride m + 0) (rdata m) dflt)) by (rewrite map_length, seq_length; lia).
    rewrite (map_nth (fun j => nth (i * rstride m + j) (rdata m) dflt)). now rewrite seq_nth by lia.
Qed.

(* row_swaps facts *)
Lemma row_swaps_map {B C} (f : B -> C) perm is : forall l, row_swaps perm is (map f l) = map f (row_swaps perm is l).
Proof.
  induction is as [|i is IH]; intros l; [reflexivity|]. unfold row_swaps in *. cbn [fold_left].
  destruct (Nat.ltb i (nth i perm 0)); [|apply IH]. rewrite <- map_swap. apply IH.
Qed.
Lemma row_swaps_perm {B} perm is : forall (l : list B), Permutation (row_swaps perm is l) l.
Proof.
  induction is as [|i is IH]; intros l; [reflexivity|]. unfold row_swaps in *. cbn [fold_left].
  destruct (Nat.ltb i (nth i perm 0)); [|apply IH]. rewrite IH. apply swap_perm.
Qed.
Lemma row_swaps_app {B} perm is is' (l : list B) : row_swaps perm (is ++ is') l = row_swaps perm is' (row_swaps perm is l).
Proof. unfold row_swaps. apply fold_left_app. Qed.
Lemma row_swaps_rev {B} perm is : forall (l : list B), row_swaps perm (rev is) (row_swaps perm is l) = l.
Proof.
  induction is as [|i is IH]; intros l; cbn [rev]; auto.
  rewrite row_swaps_app. unfold row_swaps at 3. cbn [fold_left].
  change (fold_left (fun (l : list B) (i : nat) => if i <? nth i perm 0 then swap l i (nth i perm 0) else l) is) with (row_swaps (B:=B) perm is).
  rewrite IH. unfold row_swaps. cbn [fold_left]. destruct (Nat.ltb i (nth i perm 0)); auto. apply swap_involutive.
Qed.

Lemma shuf_transform_rows perm (X : raw A) : raw_wf X -> Permutation perm (seq 0 (rrows X)) ->
  exists X', shuf_transform dflt perm X = Some X' /\ rrows X' = rrows X /\ rcols X' = rcols X /\ compact X' /\
    raw_rows dflt X' = row_swaps perm (seq 0 (length perm)) (raw_rows dflt X).
Proof.
  intros (Hc & Hr & HL) HP. unfold shuf_transform. destruct (raw_copy_spec X) as [HC HR]; [lia|].
  pose proof (Permutation_length HP) as LP. rewrite seq_length in LP.
  destruct (shuf_data_rows perm (seq 0 (length perm)) (rcols X) (raw_copy dflt X) HC eq_refl) as (dt & E & HC' & HR').
  - intros i Hi. apply in_seq in Hi. cbn [raw_copy rrows]. lia.
  - intros i Hi. apply in_seq in Hi. cbn [raw_copy rrows].
    assert (In (nth i perm 0) perm) by (apply nth_In; lia).
    apply (Permutation_in _ HP) in H. apply in_seq in H. lia.
  - unfold shuf_transform_data. cbn [raw_copy rcols rstride rrows rdata] in *. rewrite E.
    eexists. split; [reflexivity|]. cbn [rrows rcols]. repeat split; auto; try apply HC'. rewrite HR'. now rewrite HR.
Qed.

Lemma shuf_inverse_rows perm (X : raw A) : compact X -> Permutation perm (seq 0 (rrows X)) ->
  exists X', shuf_inverse perm X = Some X' /\ rrows X' = rrows X /\ rcols X' = rcols X /\
    raw_rows dflt X' = row_swaps perm (rev (seq 0 (length perm))) (raw_rows dflt X).
Proof.
  intros HC HP. unfold shuf_inverse, shuf_inverse_data.
  pose proof (Permutation_length HP) as LP. rewrite seq_length in LP.
  assert (Es: rstride X = rcols X) by apply HC. rewrite Es.
  assert (Hsym: forall is acc, fold_left (fun acc i => if Nat.ltb i (nth i perm 0) then swap_cells (rcols X) (nth i perm 0 * rcols X) (i * rcols X) acc else acc) is acc =
     fold_left (fun acc i => if Nat.ltb i (nth i perm 0) then swap_cells (rcols X) (i * rcols X) (nth i perm 0 * rcols X) acc else acc) is (acc : option (list A))).
  { assert (S1: forall c s d acc, swap_cells c s d acc = swap_cells c d s (acc : option (list A))).
    { intros c s d. unfold swap_cells. induction (seq 0 c) as [|j l IH]; intros acc; cbn [fold_left]; auto.
      rewrite IH. f_equal. destruct acc as [dt|]; auto. rewrite andb_comm, swap_sym. reflexivity. }
    induction is as [|i is IH]; intros acc; cbn [fold_left]; auto. rewrite IH. now rewrite S1. }
  rewrite Hsym.
  destruct (shuf_data_rows perm (rev (seq 0 (length perm))) (rcols X) X HC eq_refl) as (dt & E & HC' & HR').
  - intros i Hi. apply in_rev, in_seq in Hi. lia.
  - intros i Hi. apply in_rev, in_seq in Hi.
    assert (In (nth i perm 0) perm) by (apply nth_In; lia).
    apply (Permutation_in _ HP) in H. apply in_seq in H. lia.
  - rewrite E. eexists. split; [reflexivity|]. cbn [rrows rcols]. repeat split; auto.
Qed.
End Shuf.

Lemma map_nth_seq {B} (d : B) (l : list B) : map (fun k => nth k l d) (seq 0 (length l)) = l.
Proof.
  apply nth_error_ext_len; [now rewrite map_length, seq_length|]. intros i Hi. rewrite map_length, seq_length in Hi.
  rewrite nth_error_map, nth_error_seq. destruct (Nat.ltb_spec i (length l)); [|lia]. cbn. symmetry. now apply nth_error_nth'.
Qed.

Lemma shuffler_main {A B} (da : A) (db : B) perm (X : raw A) (Y : raw B) :
  raw_wf X -> raw_wf Y -> rrows Y = rrows X -> Permutation perm (seq 0 (rrows X)) ->
  exists X1 Y1 X2 Y2 p,
    shuf_transform da perm X = Some X1 /\ shuf_transform db perm Y = Some Y1 /\
    shuf_inverse perm X1 = Some X2 /\ shuf_inverse perm Y1 = Some Y2 /\
    Permutation p (seq 0 (rrows X)) /\
    raw_rows da X1 = map (fun k => nth k (raw_rows da X) []) p /\
    raw_rows db Y1 = map (fun k => nth k (raw_rows db Y) []) p /\
    raw_rows da X2 = raw_rows da X /\ raw_rows db Y2 = raw_rows db Y.
Proof.
  intros WX WY Er HP.
  destruct (shuf_transform_rows da perm X WX HP) as (X1 & E1 & R1 & C1 & K1 & V1).
  destruct (shuf_transform_rows db perm Y WY) as (Y1 & F1 & S1 & D1 & L1 & U1); [now rewrite Er|].
  destruct (shuf_inverse_rows da perm X1 K1) as (X2 & E2 & R2 & C2 & V2); [now rewrite R1|].
  destruct (shuf_inverse_rows db perm Y1 L1) as (Y2 & F2 & S2 & D2 & U2); [now rewrite S1, Er|].
  exists X1, Y1, X2, Y2, (row_swaps perm (seq 0 (length perm)) (seq 0 (rrows X))).
  repeat split; auto.
  - apply row_swaps_perm.
  - rewrite <- row_swaps_map. rewrite V1. f_equal. rewrite <- (raw_rows_length da X). symmetry. apply map_nth_seq.
  - rewrite <- row_swaps_map. rewrite U1. f_equal. rewrite <- Er, <- (raw_rows_length db Y). symmetry. apply map_nth_seq.
  - rewrite V2, V1. apply row_swaps_rev.
  - rewrite U2, U1. apply row_swaps_rev.
Qed.

(* rows before those the swaps start from keep their place *)
Lemma row_swaps_before {B} perm is j : (forall i, In i is -> j < i) -> forall (l : list B), nth_error (row_swaps perm is l) j = nth_error l j.
Proof.
  induction is as [|i is IH]; intros H l; [reflexivity|]. unfold row_swaps in *. cbn [fold_left]. rewrite IH by (intros; apply H; now right). pose proof (H i (or_introl eq_refl)) as Hi.
  destruct (Nat.ltb_spec i (nth i perm 0)) as [L|L]; [|reflexivity]. unfold swap. destruct (nth_error l i); [|reflexivity]. destruct (nth_error l (nth i perm 0)); [|reflexivity]. rewrite !nth_error_upd_other by lia. reflexivity.
Qed.
Lemma row_swaps_order {B} perm (l : list B) k : NoDup l -> Permutation perm (seq 0 (length l)) -> 2 <= k < length l ->
  nth_error (row_swaps perm (seq 0 (length perm)) l) 0 = nth_error l k -> nth_error (row_swaps perm (seq 0 (length perm)) l) 1 = nth_error l 0 -> False.
Proof.
  intros ND HP Hk E0 E1. pose proof (Permutation_length HP) as HL. rewrite seq_length in HL.
  assert (NP : NoDup perm) by (eapply Permutation_NoDup; [apply Permutation_sym; exact HP|apply seq_NoDup]).
  assert (LT : forall i, i < length l -> nth i perm 0 < length l) by (intros i Hi; assert (I : In (nth i perm 0) (seq 0 (length l))) by (apply (Permutation_in _ HP), nth_In; lia); apply in_seq in I; lia).
  assert (ES : seq 0 (length perm) = 0 :: 1 :: seq 2 (length l - 2)) by (rewrite HL; destruct (length l) as [|[|n]] eqn:Q; [lia|lia|]; cbn; now rewrite Nat.sub_0_r).
  rewrite ES in E0, E1. change (0 :: 1 :: seq 2 (length l - 2)) with ([0; 1] ++ seq 2 (length l - 2)) in E0, E1. rewrite row_swaps_app in E0, E1. rewrite row_swaps_before in E0, E1 by (intros i I; apply in_seq in I; lia).
  unfold row_swaps in E0, E1. cbn [fold_left] in E0, E1.
  assert (INJ : forall a b, a < length l -> nth_error l a = nth_error l b -> a = b) by (intros a b Ha E; apply (proj1 (NoDup_nth_error l) ND); assumption).
  set (p0 := nth 0 perm 0) in *. set (p1 := nth 1 perm 0) in *. assert (P0 : p0 < length l) by (apply LT; lia). assert (P1 : p1 < length l) by (apply LT; lia).
  assert (PN : p0 <> p1). { intros E. assert (X : 0 = 1); [|discriminate]. apply (proj1 (NoDup_nth perm 0) NP); [lia|lia|exact E]. }
  set (l1 := if 0 <? p0 then swap l 0 p0 else l) in *.
  assert (F0 : nth_error l1 0 = nth_error l p0). { unfold l1. destruct (Nat.ltb_spec 0 p0) as [L|L]; [|now replace p0 with 0 by lia]. rewrite nth_error_swap by lia. destruct (Nat.eqb_spec 0 p0) as [X|_]; [lia|reflexivity]. }
  assert (G0 : nth_error l1 0 = nth_error l k). { rewrite <- E0. destruct (Nat.ltb_spec 1 p1) as [L|L]; [|reflexivity]. unfold swap. destruct (nth_error l1 1); [|reflexivity]. destruct (nth_error l1 p1); [|reflexivity]. now rewrite !nth_error_upd_other by lia. }
  assert (K : p0 = k) by (apply INJ; [exact P0|congruence]). subst k.
  unfold l1 in E1. destruct (Nat.ltb_spec 0 p0) as [L0|L0]; [|lia]. destruct (Nat.ltb_spec 1 p1) as [L|L].
  - rewrite nth_error_swap in E1 by (rewrite swap_length; lia). destruct (Nat.eqb_spec 1 p1) as [X|_]; [lia|]. change (1 =? 1) with true in E1. cbv iota in E1. rewrite nth_error_swap in E1 by lia. destruct (Nat.eqb_spec p1 p0) as [X|_]; [congruence|]. destruct (Nat.eqb_spec p1 0) as [X|_]; [lia|]. apply INJ in E1; lia.
  - rewrite nth_error_swap in E1 by lia. destruct (Nat.eqb_spec 1 p0) as [X|_]; [lia|]. change (1 =? 0) with false in E1. cbv iota in E1. apply INJ in E1; lia.
Qed.
