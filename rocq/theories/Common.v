(* List helpers shared by all models.  Nothing here models repository code by
   itself: [upd] is Go's [l[i] = v] on a slice (no effect out of range; every
   theorem using it keeps the index in range), [swap] is Go's
   [l[i], l[j] = l[j], l[i]]. *)
From Coq Require Export List Arith ZArith Lia Bool Permutation Sorted.
Export ListNotations.
Set Implicit Arguments.

Section Upd.
Context {A : Type}.

Fixpoint upd (l : list A) (i : nat) (v : A) : list A :=
  match l, i with
  | [], _ => []
  | _ :: t, 0 => v :: t
  | x :: t, S j => x :: upd t j v
  end.

Definition swap (l : list A) (i j : nat) : list A :=
  match nth_error l i, nth_error l j with
  | Some x, Some y => upd (upd l i y) j x
  | _, _ => l
  end.

Lemma upd_length l i v : length (upd l i v) = length l.
Proof. revert i; induction l as [|x l IH]; intros [|i]; simpl; auto. Qed.

Lemma nth_error_upd_same l i v : i < length l -> nth_error (upd l i v) i = Some v.
Proof. revert i; induction l as [|x l IH]; intros [|i]; simpl; intros; try lia; auto. apply IH; lia. Qed.

Lemma nth_error_upd_other l i j v : i <> j -> nth_error (upd l i v) j = nth_error l j.
Proof.
  revert i j; induction l as [|x l IH]; intros [|i] [|j]; simpl; intros H; auto; try lia.
Qed.

Lemma nth_error_upd l i j v :
  nth_error (upd l i v) j =
  if Nat.eqb i j then (if Nat.ltb j (length l) then Some v else None) else nth_error l j.
Proof.
  destruct (Nat.eqb_spec i j) as [->|H].
  - destruct (Nat.ltb_spec j (length l)).
    + now apply nth_error_upd_same.
    + apply nth_error_None. now rewrite upd_length.
  - now apply nth_error_upd_other.
Qed.

Lemma upd_oob l i v : length l <= i -> upd l i v = l.
Proof. revert i; induction l as [|x l IH]; intros [|i]; simpl; intros; auto; try lia. f_equal; apply IH; lia. Qed.

Lemma upd_same l i v : nth_error l i = Some v -> upd l i v = l.
Proof. revert i; induction l as [|x l IH]; intros [|i]; simpl; intros; auto; [congruence|f_equal; auto]. Qed.

Lemma list_ext (l l' : list A) :
  (forall i, nth_error l i = nth_error l' i) -> l = l'.
Proof.
  revert l'; induction l as [|x l IH]; intros [|y l'] H; auto.
  - specialize (H 0); discriminate.
  - specialize (H 0); discriminate.
  - f_equal.
    + specialize (H 0); simpl in H; congruence.
    + apply IH; intro i; apply (H (S i)).
Qed.

Lemma upd_comm l i j v w : i <> j -> upd (upd l i v) j w = upd (upd l j w) i v.
Proof.
  intros H; apply list_ext; intro k. rewrite !nth_error_upd, !upd_length.
  destruct (Nat.eqb_spec i k), (Nat.eqb_spec j k); auto; lia.
Qed.

Lemma upd_upd l i v w : upd (upd l i v) i w = upd l i w.
Proof.
  apply list_ext; intro k. rewrite !nth_error_upd, !upd_length.
  destruct (Nat.eqb_spec i k); auto.
Qed.

Lemma upd_app_r (l l' : list A) i v : upd (l ++ l') (length l + i) v = l ++ upd l' i v.
Proof. induction l; simpl; auto. now f_equal. Qed.

Lemma upd_app_l (l l' : list A) i v : i < length l -> upd (l ++ l') i v = upd l i v ++ l'.
Proof. revert i; induction l as [|x l IH]; intros [|i]; simpl; intros; auto; try lia. f_equal; apply IH; lia. Qed.

Lemma swap_length l i j : length (swap l i j) = length l.
Proof. unfold swap. destruct (nth_error l i), (nth_error l j); auto. now rewrite !upd_length. Qed.

Lemma nth_error_swap l i j k : i < length l -> j < length l ->
  nth_error (swap l i j) k =
  if Nat.eqb k j then nth_error l i else if Nat.eqb k i then nth_error l j else nth_error l k.
Proof.
  intros Hi Hj. unfold swap.
  destruct (nth_error l i) eqn:Ei; [|apply nth_error_None in Ei; lia].
  destruct (nth_error l j) eqn:Ej; [|apply nth_error_None in Ej; lia].
  rewrite !nth_error_upd, !upd_length.
  destruct (Nat.eqb_spec j k), (Nat.eqb_spec k j), (Nat.eqb_spec i k), (Nat.eqb_spec k i); try lia; subst; auto.
  - destruct (Nat.ltb_spec k (length l)); auto; lia.
  - destruct (Nat.ltb_spec k (length l)); auto; lia.
  - destruct (Nat.ltb_spec k (length l)); auto; lia.
Qed.

Lemma swap_involutive l i j : swap (swap l i j) i j = l.
Proof.
  destruct (Nat.ltb_spec i (length l)) as [Hi|Hi];
  destruct (Nat.ltb_spec j (length l)) as [Hj|Hj].
  - apply list_ext; intro k.
    rewrite nth_error_swap by (now rewrite swap_length).
    rewrite !nth_error_swap by assumption.
    rewrite !Nat.eqb_refl.
    destruct (Nat.eqb_spec i j), (Nat.eqb_spec k j), (Nat.eqb_spec k i); subst; auto.
  - assert (E: nth_error l j = None) by (now apply nth_error_None).
    assert (E2: swap l i j = l) by (unfold swap; rewrite E; destruct (nth_error l i); auto).
    now rewrite !E2.
  - assert (E: nth_error l i = None) by (now apply nth_error_None).
    assert (E2: swap l i j = l) by (unfold swap; rewrite E; auto).
    now rewrite !E2.
  - assert (E: nth_error l i = None) by (now apply nth_error_None).
    assert (E2: swap l i j = l) by (unfold swap; rewrite E; auto).
    now rewrite !E2.
Qed.

Lemma nth_error_split' (l : list A) i x : nth_error l i = Some x ->
  l = firstn i l ++ x :: skipn (S i) l.
Proof.
  revert i; induction l as [|y l IH]; intros [|i] H; try discriminate.
  - injection H as <-. reflexivity.
  - cbn [firstn skipn app]. f_equal. cbn [nth_error] in H. rewrite (IH i H) at 1. reflexivity.
Qed.

Lemma upd_split (l : list A) i v : i < length l ->
  upd l i v = firstn i l ++ v :: skipn (S i) l.
Proof.
  revert i; induction l as [|y l IH]; intros [|i] H; simpl in *; try lia; auto.
  f_equal. apply IH; lia.
Qed.

Lemma upd_perm_cons l i x v : nth_error l i = Some x -> Permutation (x :: upd l i v) (v :: l).
Proof.
  revert i; induction l as [|y l IH]; intros [|i] H; try discriminate.
  - injection H as <-. simpl. apply perm_swap.
  - simpl in *. rewrite perm_swap. rewrite (IH i H). apply perm_swap.
Qed.

Lemma swap_perm l i j : Permutation (swap l i j) l.
Proof.
  unfold swap.
  destruct (nth_error l i) as [x|] eqn:Ei; [|reflexivity].
  destruct (nth_error l j) as [y|] eqn:Ej; [|reflexivity].
  destruct (Nat.eq_dec i j) as [->|Hne].
  - rewrite upd_upd. assert (x = y) by congruence. subst.
    now rewrite upd_same.
  - assert (H1: Permutation (x :: upd l i y) (y :: l)) by (now apply upd_perm_cons).
    assert (H2: Permutation (y :: upd (upd l i y) j x) (x :: upd l i y)).
    { apply upd_perm_cons. now rewrite nth_error_upd_other. }
    rewrite H1 in H2. now apply Permutation_cons_inv in H2.
Qed.

End Upd.

Lemma map_upd {A B} (f : A -> B) l i v : map f (upd l i v) = upd (map f l) i (f v).
Proof. revert i; induction l as [|x l IH]; intros [|i]; simpl; auto. now rewrite IH. Qed.

Lemma map_swap {A B} (f : A -> B) l i j : map f (swap l i j) = swap (map f l) i j.
Proof.
  unfold swap. rewrite !nth_error_map.
  destruct (nth_error l i), (nth_error l j); simpl; auto. now rewrite !map_upd.
Qed.

Lemma fold_left_ind {A B} (P : A -> Prop) (f : A -> B -> A) l a :
  P a -> (forall x b, P x -> In b l -> P (f x b)) -> P (fold_left f l a).
Proof.
  revert a; induction l as [|b l IH]; simpl; intros a Ha H; [exact Ha|].
  apply IH; auto.
Qed.

Lemma in_seq_iff n a len : In n (seq a len) <-> a <= n < a + len.
Proof. apply in_seq. Qed.

Lemma NoDup_app_iff {A} (l1 l2 : list A) :
  NoDup (l1 ++ l2) <-> NoDup l1 /\ NoDup l2 /\ (forall x, In x l1 -> In x l2 -> False).
Proof.
  induction l1 as [|x l1 IH]; simpl.
  - split; [intros H; repeat split; auto using NoDup_nil|tauto].
  - rewrite !NoDup_cons_iff, IH, in_app_iff. split.
    + intros (H1 & H2 & H3 & H4). repeat split; auto.
      intros y [->|Hy] Hy2; eauto.
    + intros ((H1 & H2) & H3 & H4). repeat split; auto.
      * intros [H|H]; eauto.
      * intros; eauto.
Qed.

Lemma firstn_skipn_perm_partition {A} n (l : list A) : l = firstn n l ++ skipn n l.
Proof. symmetry; apply firstn_skipn. Qed.

Lemma nth_error_seq a len i : nth_error (seq a len) i = if Nat.ltb i len then Some (a + i) else None.
Proof.
  revert a i; induction len as [|n IH]; intros a [|i]; cbn [seq nth_error].
  - reflexivity.
  - reflexivity.
  - simpl. f_equal; lia.
  - rewrite IH. change (Nat.ltb (S i) (S n)) with (Nat.ltb i n).
    destruct (Nat.ltb i n); auto. f_equal; lia.
Qed.

Lemma nth_error_ext_len {A} (l l' : list A) :
  length l = length l' ->
  (forall i, i < length l -> nth_error l i = nth_error l' i) -> l = l'.
Proof.
  intros Hl H; apply list_ext; intro i.
  destruct (Nat.ltb_spec i (length l)); auto.
  rewrite (proj2 (nth_error_None l i)), (proj2 (nth_error_None l' i)); auto; lia.
Qed.

Lemma Forall2_length {A B} (R : A -> B -> Prop) l l' : Forall2 R l l' -> length l = length l'.
Proof. induction 1; simpl; auto. Qed.

Lemma skipn_skipn {A} n m (l : list A) : skipn n (skipn m l) = skipn (m + n) l.
Proof.
  revert l; induction m as [|m IH]; intros l; [reflexivity|].
  destruct l as [|x l]; cbn [skipn Nat.add]; [now rewrite skipn_nil|apply IH].
Qed.

Lemma Forall2_nth_error {A B} (R : A -> B -> Prop) l l' i x :
  Forall2 R l l' -> nth_error l i = Some x -> exists y, nth_error l' i = Some y /\ R x y.
Proof.
  intros H; revert i; induction H as [|a b l l' Hab H IH]; intros [|i] E; try discriminate.
  - injection E as <-. exists b; auto.
  - apply IH; auto.
Qed.
Arguments Forall2_nth_error {A B R l l'} i {x} _ _.
