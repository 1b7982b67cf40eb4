(* Lemmas about UtilModel *)
From Coq Require Import Reals ZArith List Bool Arith String Lia Lra.
From Flocq Require Import Core.Core IEEE754.BinarySingleNaN.
From Verif Require Import FloatModel FloatProofs UtilModel.
Import ListNotations.

Lemma flt_trans x y z : flt x y = true -> flt y z = true -> flt x z = true.
Proof.
  intros A B. destruct (is_finite x) eqn:Fx; [destruct (is_finite y) eqn:Fy; [destruct (is_finite z) eqn:Fz|]|].
  - apply flt_val in A; [|assumption|assumption]. apply flt_val in B; [|assumption|assumption]. apply flt_val; [assumption|assumption|lra].
  - destruct z as [s|s| |s m e P]; try discriminate Fz; [|destruct y; discriminate B]. destruct y as [t|t| |t m e P]; try discriminate Fy; destruct s; try (destruct t; discriminate B); try discriminate B; destruct x as [u|u| |u m' e' P']; try discriminate Fx; try reflexivity.
  - destruct y as [s|s| |s m e P]; try discriminate Fy; [|destruct x; discriminate A]. destruct s; [destruct x as [t|t| |t m e P]; try discriminate Fx; try (destruct t; discriminate A); discriminate A|]. destruct z as [t|t| |t m e P]; try (destruct t; discriminate B); discriminate B.
  - destruct x as [s|s| |s m e P]; try discriminate Fx; [|destruct y; discriminate A]. destruct s; [|destruct y as [t|t| |t m e P]; try (destruct t; discriminate A); discriminate A]. destruct z as [t|t| |t m e P]; try reflexivity; [destruct t; [|reflexivity]|]; exfalso; destruct y as [r|r| |r m e P]; try (destruct r; discriminate B); discriminate B.
Qed.

Lemma cells3_In s0 s1 s2 i j k : In (i, j, k) (cells3 s0 s1 s2) <-> (i < s0 /\ j < s1 /\ k < s2)%nat.
Proof.
  unfold cells3. rewrite in_flat_map. split.
  - intros (a & Ia & I). apply in_flat_map in I as (b & Ib & I). apply in_map_iff in I as (c & E & Ic). injection E as <- <- <-. apply in_seq in Ia, Ib, Ic. lia.
  - intros (A & B & C). exists i. split; [apply in_seq; lia|]. apply in_flat_map. exists j. split; [apply in_seq; lia|]. apply in_map_iff. exists k. split; [reflexivity|apply in_seq; lia].
Qed.

Lemma diff_inv a b tol l : forall st, (flt tol (snd st) = true -> snd st = cell_diff a b (fst st)) -> (flt tol (snd st) = false -> snd st = f0) ->
  let st' := fold_left (diff_step a b tol) l st in
  (flt tol (snd st') = true -> snd st' = cell_diff a b (fst st') /\ (fst st' = fst st \/ In (fst st') l)) /\ (flt tol (snd st') = false -> snd st' = f0) /\
  (flt tol (snd st) = true -> flt tol (snd st') = true) /\ flt (snd st') (snd st) = false /\
  (flt tol f0 = false -> forall c, In c l -> flt tol (cell_diff a b c) = true -> flt f0 (cell_diff a b c) = true -> flt tol (snd st') = true /\ flt (snd st') (cell_diff a b c) = false).
Proof.
  assert (Irr : forall x, flt x x = false) by (intros x; destruct (flt x x) eqn:E; [|reflexivity]; destruct (is_finite x) eqn:F; [apply flt_val in E; [exfalso; lra|exact F|exact F]|destruct x as [s|[]| |s m e P]; try discriminate F; discriminate E]).
  induction l as [|c l IH]; intros st H1 H2 st'; cbn [fold_left] in st'; [subst st'; split; [intros T; split; [auto|left; reflexivity]|]; split; [auto|]; split; [auto|]; split; [apply Irr|intros _ c []]|].
  assert (S1 : flt tol (snd (diff_step a b tol st c)) = true -> snd (diff_step a b tol st c) = cell_diff a b (fst (diff_step a b tol st c))).
  { unfold diff_step. destruct (flt tol (cell_diff a b c) && flt (snd st) (cell_diff a b c)) eqn:E; [reflexivity|exact H1]. }
  assert (S2 : flt tol (snd (diff_step a b tol st c)) = false -> snd (diff_step a b tol st c) = f0).
  { unfold diff_step. destruct (flt tol (cell_diff a b c) && flt (snd st) (cell_diff a b c)) eqn:E; [|exact H2]. cbn [snd]. apply andb_prop in E as [E _]. congruence. }
  destruct (IH _ S1 S2) as (A & B & C & D & F). fold st' in A, B, C, D, F.
  assert (K : flt tol (snd st) = true -> flt tol (snd (diff_step a b tol st c)) = true).
  { intros T. unfold diff_step. destruct (flt tol (cell_diff a b c) && flt (snd st) (cell_diff a b c)) eqn:E; [|exact T]. now apply andb_prop in E as [E _]. }
  assert (G : flt (snd (diff_step a b tol st c)) (snd st) = false).
  { unfold diff_step. destruct (flt tol (cell_diff a b c) && flt (snd st) (cell_diff a b c)) eqn:E; [|apply Irr]. cbn [snd]. apply andb_prop in E as [_ E]. destruct (flt (cell_diff a b c) (snd st)) eqn:X; [|reflexivity]. pose proof (flt_trans _ _ _ E X) as Y. rewrite Irr in Y. discriminate. }
  split; [|split; [exact B|split; [intros T; apply C, K, T|split]]].
  - intros T. destruct (A T) as [A1 [A2|A2]]; (split; [exact A1|]); [|right; right; exact A2]. rewrite A2. unfold diff_step. destruct (flt tol (cell_diff a b c) && flt (snd st) (cell_diff a b c)); [right; left; reflexivity|left; reflexivity].
  - destruct (flt (snd st') (snd st)) eqn:E; [|reflexivity]. exfalso. unfold diff_step in D, G. destruct (flt tol (cell_diff a b c) && flt (snd st) (cell_diff a b c)) eqn:X; cbn [snd] in D, G; [|congruence]. apply andb_prop in X as [_ X]. rewrite (flt_trans _ _ _ E X) in D. discriminate.
  - intros T0 d I Td Pd. destruct I as [->|I]; [|now apply F]. unfold diff_step in C, D. rewrite Td in C, D. cbn [andb] in C, D. destruct (flt (snd st) (cell_diff a b d)) eqn:X; cbn [snd] in C, D.
    + split; [now apply C|exact D].
    + assert (T : flt tol (snd st) = true). { destruct (flt tol (snd st)) eqn:T; [reflexivity|]. rewrite (H2 eq_refl) in X. congruence. }
      split; [now apply C|]. destruct (flt (snd st') (cell_diff a b d)) eqn:Y; [|reflexivity].
      exfalso. destruct (A (C T)) as [_ _].
      (* st' is not below st, and st is not below d *)
      destruct (is_nan (snd st)) eqn:N; [destruct (snd st); try discriminate N; destruct tol as [[]|[]| |[]]; discriminate T|].
      assert (TT : forall x y z : f64, flt x y = true -> is_nan z = false -> flt x z = true \/ flt z y = true).
      { clear. intros x y z H N. destruct (is_finite x) eqn:Fx, (is_finite y) eqn:Fy, (is_finite z) eqn:Fz; try (apply flt_val in H; [|assumption|assumption]; destruct (Rlt_or_le (B2R x) (B2R z)) as [L|L]; [left|right]; apply flt_val; try assumption; lra);
          destruct x as [s|[]| |s m e P]; try discriminate Fx; destruct y as [t|[]| |t m' e' P']; try discriminate Fy; destruct z as [r|[]| |r m'' e'' P'']; try discriminate Fz; try discriminate N; auto; try (destruct s; discriminate H); try (destruct t; discriminate H); try discriminate H; try (left; reflexivity); try (right; reflexivity). }
      destruct (TT _ _ (snd st) Y N) as [Z|Z]; [|congruence]. 
      assert (D' : flt (snd st') (snd st) = false) by exact D. congruence.
Qed.

Section Loop.
  Context {A : Type}.
  (* a loop that writes g of what it reads at the addresses srcs of the cell *)
  Definition loop {C} (pd : C -> nat) (g : C -> (nat -> A) -> A) (l : list C) (m : nat -> A) : nat -> A := fold_left (fun m c => upd m (pd c) (g c m)) l m.
  Lemma loop_other {C} (pd : C -> nat) g l : forall m q, (forall c, In c l -> pd c <> q) -> loop pd g l m q = m q.
  Proof. induction l as [|c l IH]; intros m q H; [reflexivity|]. change (loop pd g (c :: l) m q) with (loop pd g l (upd m (pd c) (g c m)) q). rewrite IH by (intros d I; apply H; now right). unfold upd. destruct (Nat.eqb_spec q (pd c)) as [E|E]; [exfalso; exact (H c (or_introl eq_refl) (eq_sym E))|reflexivity]. Qed.
  Lemma loop_spec {C} (pd : C -> nat) g l : NoDup (map pd l) -> (forall c, In c l -> forall d m v, In d l -> pd d <> pd c -> g c (upd m (pd d) v) = g c m) -> forall m c, In c l -> loop pd g l m (pd c) = g c m.
  Proof.
    induction l as [|x l IH]; intros N H m c I; [destruct I|]. cbn [map] in N. inversion N as [|? ? N1 N2]; subst. change (loop pd g (x :: l) m (pd c)) with (loop pd g l (upd m (pd x) (g x m)) (pd c)). destruct I as [->|I].
    - rewrite loop_other by (intros d Id E; apply N1; rewrite <- E; now apply in_map). unfold upd. now rewrite Nat.eqb_refl.
    - rewrite IH; [|exact N2|intros; apply H; auto; now right|exact I]. apply H; [now right|now left|]. intros E. apply N1. rewrite E. now apply in_map.
  Qed.
End Loop.

Lemma upper_In n i j : In (i, j) (upper n) <-> (i <= j < n)%nat.
Proof.
  unfold upper. rewrite in_flat_map. split.
  - intros (a & Ia & I). apply in_map_iff in I as (b & E & Ib). injection E as <- <-. apply in_seq in Ia, Ib. lia.
  - intros H. exists i. split; [apply in_seq; lia|]. apply in_map_iff. exists j. split; [reflexivity|apply in_seq; lia].
Qed.
Lemma grid_In r c i j : In (i, j) (grid r c) <-> (i < r /\ j < c)%nat.
Proof.
  unfold grid. rewrite in_flat_map. split.
  - intros (a & Ia & I). apply in_map_iff in I as (b & E & Ib). injection E as <- <-. apply in_seq in Ia, Ib. lia.
  - intros H. exists i. split; [apply in_seq; lia|]. apply in_map_iff. exists j. split; [reflexivity|apply in_seq; lia].
Qed.
Lemma NoDup_map_in {A B} (f : A -> B) l : NoDup l -> (forall x y, In x l -> In y l -> f x = f y -> x = y) -> NoDup (map f l).
Proof. induction 1 as [|x l N D IH]; intros H; cbn [map]; constructor; [|apply IH; intros; apply H; auto; now right]. intros I. apply in_map_iff in I as (y & E & I). apply N. rewrite (H x y); auto; [now left|now right]. Qed.
Lemma rows_NoDup (f : nat -> list nat) l : NoDup l -> (forall i, NoDup (f i)) -> NoDup (flat_map (fun i => map (fun j => (i, j)) (f i)) l).
Proof.
  intros N H. induction N as [|i l Ni N IH]; cbn [flat_map]; [constructor|].
  assert (D : forall (l1 l2 : list (nat * nat)), NoDup l1 -> NoDup l2 -> (forall x, In x l1 -> ~ In x l2) -> NoDup (l1 ++ l2)).
  { induction l1 as [|x l1 IH1]; intros l2 A B C; [exact B|]. inversion A; subst. cbn. constructor; [intros I; apply in_app_or in I as [I|I]; [contradiction|exact (C x (or_introl eq_refl) I)]|]. apply IH1; [assumption|assumption|intros y I; apply C; now right]. }
  apply D; [|exact IH|].
  - apply NoDup_map_in; [apply H|intros x y _ _ E; now injection E].
  - intros [a b] I1 I2. apply in_map_iff in I1 as (y & E & _). injection E as -> ->. apply in_flat_map in I2 as (z & Iz & I2). apply in_map_iff in I2 as (w & E & _). injection E as -> ->. contradiction.
Qed.
Lemma upper_NoDup n : NoDup (upper n). Proof. apply (rows_NoDup (fun i => seq i (n - i))); intros; apply seq_NoDup. Qed.
Lemma grid_NoDup r c : NoDup (grid r c). Proof. apply (rows_NoDup (fun _ => seq 0 c)); intros; apply seq_NoDup. Qed.
(* distinct cells of a matrix whose stride is at least its number of columns have distinct addresses *)
Lemma pos_inj b s n i j i' j' : (n <= s)%nat -> (j < n)%nat -> (j' < n)%nat -> pos b s (i, j) = pos b s (i', j') -> i = i' /\ j = j'.
Proof. unfold pos. cbn [fst snd]. intros H1 H2 H3 E. assert (X : (i * s + j = i' * s + j')%nat) by lia. assert (i = i'). { destruct (Nat.lt_trichotomy i i') as [L|[L|L]]; [exfalso; nia|exact L|exfalso; nia]. } subst. lia. Qed.

(* the views of source and destination are the same or share no address *)
Definition apart {C} (l : list C) (pd ps : C -> nat) : Prop := (forall c, In c l -> ps c = pd c) \/ (forall c c', In c l -> In c' l -> pd c <> ps c').
Lemma read_ok {A C} (l : list C) (pd ps : C -> nat) : apart l pd ps -> forall c d (m : nat -> A) v, In c l -> In d l -> pd d <> pd c -> upd m (pd d) v (ps c) = m (ps c).
Proof. intros H c d m v Ic Id N. unfold upd. destruct (Nat.eqb_spec (ps c) (pd d)) as [E|E]; [|reflexivity]. exfalso. destruct H as [H|H]; [rewrite (H c Ic) in E; congruence|exact (H d c Id Ic (eq_sym E))]. Qed.
Lemma upper_pos_NoDup n b s : (n <= s)%nat -> NoDup (map (pos b s) (upper n)).
Proof. intros H. apply NoDup_map_in; [apply upper_NoDup|]. intros [i j] [i' j'] I I' E. apply upper_In in I, I'. destruct (pos_inj b s n i j i' j' H) as [-> ->]; [lia|lia|exact E|reflexivity]. Qed.
Lemma grid_pos_NoDup r n b s : (n <= s)%nat -> NoDup (map (pos b s) (grid r n)).
Proof. intros H. apply NoDup_map_in; [apply grid_NoDup|]. intros [i j] [i' j'] I I' E. apply grid_In in I, I'. destruct (pos_inj b s n i j i' j' H) as [-> ->]; [lia|lia|exact E|reflexivity]. Qed.
