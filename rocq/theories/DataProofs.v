(* Lemmas about DataModel *)
From Coq Require Import QArith Qabs List Arith Bool Lia Lqa.
From Verif Require Import QCommon DataModel.
Import ListNotations.

Lemma opt_all_some {A} (l : list (option A)) r : opt_all l = Some r <-> l = map Some r.
Proof.
  revert r. induction l as [|[x|] l IH]; intros r; cbn.
  - destruct r; split; intros H; try discriminate; reflexivity.
  - destruct (opt_all l) as [r'|] eqn:E.
    + split; [intros [= <-]; cbn; f_equal; now apply IH|]. destruct r as [|y r]; [discriminate|]. intros [= -> H]. apply IH in H. congruence.
    + split; [discriminate|]. destruct r as [|y r]; [discriminate|]. intros [= -> H]. apply IH in H. discriminate.
  - split; [discriminate|]. destruct r; discriminate.
Qed.
Lemma opt_all_map {A B} (f : A -> option B) l r : opt_all (map f l) = Some r -> length r = length l /\ forall i a, nth_error l i = Some a -> exists b, nth_error r i = Some b /\ f a = Some b.
Proof.
  intros H. apply opt_all_some in H. split; [rewrite <- (map_length f), H, map_length; reflexivity|]. intros i a Hi.
  pose proof (map_nth_error f i l Hi) as M. rewrite H in M. destruct (nth_error r i) as [b|] eqn:E.
  - exists b. split; [reflexivity|]. rewrite (map_nth_error Some i r E) in M. congruence.
  - apply nth_error_None in E. assert (i < length (map Some r))%nat by (apply nth_error_Some; congruence). rewrite map_length in *. lia.
Qed.
Lemma opt_all_ex {A B} (f : A -> option B) l : (forall a, In a l -> exists b, f a = Some b) -> exists r, opt_all (map f l) = Some r.
Proof.
  induction l as [|a l IH]; intros H; cbn; [eauto|]. destruct (H a) as [b ->]; [now left|]. destruct IH as [r ->]; [intros; apply H; now right|]. eauto.
Qed.
Lemma opt_all_none {A B} (f : A -> option B) l a : In a l -> f a = None -> opt_all (map f l) = None.
Proof. induction l as [|x l IH]; intros I E; [destruct I|]. destruct I as [->|I]; cbn; [now rewrite E|]. destruct (f x); [|reflexivity]. now rewrite (IH I E). Qed.
Definition cell_of {A} (M : list (list A)) (i j : nat) : option A := match nth_error M i with Some row => nth_error row j | None => None end.
Lemma seq_nth_error a n i : (i < n)%nat -> nth_error (seq a n) i = Some (a + i)%nat.
Proof. intros H. rewrite (nth_error_nth' _ 0%nat) by now rewrite seq_length. now rewrite seq_nth. Qed.
Lemma apply_new_some {A} r c (f : nat -> nat -> option A) M : apply_new r c f = Some M ->
  (0 < r)%nat /\ (0 < c)%nat /\ length M = r /\ (forall row, In row M -> length row = c) /\ forall i j, (i < r)%nat -> (j < c)%nat -> exists v, f i j = Some v /\ cell_of M i j = Some v.
Proof.
  unfold apply_new. destruct (Nat.eqb_spec r 0); [discriminate|]. destruct (Nat.eqb_spec c 0); [discriminate|]. cbn [orb]. intros H. apply opt_all_map in H as [L H]. rewrite seq_length in L.
  split; [lia|]. split; [lia|]. split; [exact L|]. split.
  - intros row I. apply In_nth_error in I as [i Hi]. assert (i < r)%nat by (rewrite <- L; apply nth_error_Some; congruence).
    destruct (H i i) as (b & E1 & E2); [now rewrite seq_nth_error|]. apply opt_all_map in E2 as [L2 _]. rewrite seq_length in L2. congruence.
  - intros i j Hi Hj. destruct (H i i) as (b & E1 & E2); [now rewrite seq_nth_error|]. apply opt_all_map in E2 as [_ H2]. destruct (H2 j j) as (v & F1 & F2); [now rewrite seq_nth_error|].
    exists v. split; [exact F2|]. unfold cell_of. now rewrite E1.
Qed.
Lemma apply_new_ex {A} r c (f : nat -> nat -> option A) : (0 < r)%nat -> (0 < c)%nat -> (forall i j, (i < r)%nat -> (j < c)%nat -> exists v, f i j = Some v) -> exists M, apply_new r c f = Some M.
Proof.
  intros Hr Hc H. unfold apply_new. destruct (Nat.eqb_spec r 0); [lia|]. destruct (Nat.eqb_spec c 0); [lia|]. cbn [orb]. apply opt_all_ex. intros i Hi. apply in_seq in Hi. apply opt_all_ex. intros j Hj. apply in_seq in Hj. apply H; lia.
Qed.
Lemma coord_in fuel lo hi s : forall k c k', blob_coord fuel lo hi s k = Some (c, k') -> (lo <= c < hi)%Q /\ (k < k')%nat.
Proof.
  induction fuel as [|f IH]; intros k c k'; cbn [blob_coord]; [discriminate|]. cbv zeta. destruct (Qle_bool lo _ && Qltb _ hi)%bool eqn:E.
  - intros [= <- <-]. apply andb_prop in E as [E1 E2]. split; [|lia]. split; [now apply Qle_bool_iff|]. destruct (Qltb_spec ((lo + hi) / 2 + s k * (Qabs (hi - lo) / 2)) hi); [assumption|discriminate].
  - intros H. destruct (IH _ _ _ H). split; [assumption|lia].
Qed.
Lemma coord_stuck fuel lo hi s : (hi <= lo)%Q -> forall k, blob_coord fuel lo hi s k = None.
Proof.
  intros H. induction fuel as [|f IH]; intros k; cbn [blob_coord]; [reflexivity|]. cbv zeta. destruct (Qle_bool lo _ && Qltb _ hi)%bool eqn:E; [|apply IH]. exfalso. apply andb_prop in E as [E1 E2].
  apply Qle_bool_iff in E1. destruct (Qltb_spec ((lo + hi) / 2 + s k * (Qabs (hi - lo) / 2)) hi) as [L|L]; [|discriminate]. set (c := ((lo + hi) / 2 + s k * (Qabs (hi - lo) / 2))%Q) in *. lra.
Qed.
Lemma coord_ends fuel lo hi s : (lo < hi)%Q -> forall k m, (m < fuel)%nat -> (-(1) <= s (k + m)%nat < 1)%Q -> exists c k', blob_coord fuel lo hi s k = Some (c, k').
Proof.
  intros H. induction fuel as [|f IH]; intros k m Hm Hs; [lia|]. cbn [blob_coord]. cbv zeta. destruct (Qle_bool lo _ && Qltb _ hi)%bool eqn:E; [eauto|].
  destruct m as [|m].
  - exfalso. rewrite Nat.add_0_r in Hs. assert (A : (Qabs (hi - lo) == hi - lo)%Q) by (apply Qabs_pos; lra).
    assert (V : ((lo + hi) / 2 + s k * (Qabs (hi - lo) / 2) == (lo + hi) * (1 # 2) + s k * ((hi - lo) * (1 # 2)))%Q) by (rewrite A; unfold Qdiv; reflexivity).
    assert (P : (0 <= (s k + 1) * ((hi - lo) * (1 # 2)))%Q) by (apply Qmult_le_0_compat; lra). assert (P2 : (0 < (1 - s k) * ((hi - lo) * (1 # 2)))%Q) by (apply Qmult_lt_0_compat; lra).
    apply andb_false_iff in E as [E|E].
    + apply not_true_iff_false in E. apply E. apply Qle_bool_iff. rewrite V. lra.
    + destruct (Qltb_spec ((lo + hi) / 2 + s k * (Qabs (hi - lo) / 2)) hi) as [L|L]; [discriminate|]. rewrite V in L. lra.
  - apply (IH (S k) m); [lia|]. replace (S k + m)%nat with (k + S m)%nat by lia. exact Hs.
Qed.
Lemma coords_in fuel lo hi s : forall n k l, blob_coords fuel n lo hi s k = Some l -> length l = n /\ forall c, In c l -> (lo <= c < hi)%Q.
Proof.
  induction n as [|n IH]; intros k l; cbn [blob_coords]; [intros [= <-]; split; [reflexivity|intros c []]|]. destruct (blob_coord fuel lo hi s k) as [[c k']|] eqn:E; [|discriminate].
  destruct (blob_coords fuel n lo hi s k') as [l'|] eqn:E2; [|discriminate]. intros [= <-]. destruct (IH _ _ E2) as [L H]. split; [cbn; lia|]. intros x [<-|I]; [now apply (coord_in _ _ _ _ _ _ _ E)|now apply H].
Qed.
