(* Helpers for exact rational arithmetic and for flat "raw" matrices. *)
From Coq Require Export QArith Qabs Lqa.
From Verif Require Export Common.
Open Scope Q_scope.

Definition Qltb (x y : Q) : bool := negb (Qle_bool y x).
Lemma Qltb_spec x y : BoolSpec (x < y) (y <= x) (Qltb x y).
Proof.
  unfold Qltb. destruct (Qle_bool y x) eqn:E; cbn; constructor.
  - now apply Qle_bool_iff.
  - apply Qnot_le_lt. intros H. apply Qle_bool_iff in H. congruence.
Qed.
Lemma Qleb_spec x y : BoolSpec (x <= y) (y < x) (Qle_bool x y).
Proof.
  destruct (Qle_bool x y) eqn:E; constructor.
  - now apply Qle_bool_iff.
  - apply Qnot_le_lt. intros H. apply Qle_bool_iff in H. congruence.
Qed.
Lemma Qeqb_spec x y : BoolSpec (x == y) (~ x == y) (Qeq_bool x y).
Proof.
  destruct (Qeq_bool x y) eqn:E; constructor.
  - now apply Qeq_bool_iff.
  - intros H. apply Qeq_bool_iff in H. congruence.
Qed.

Definition qmin (x y : Q) : Q := if Qle_bool x y then x else y.
Definition qmax (x y : Q) : Q := if Qle_bool x y then y else x.

(* running sum, as the loops do it *)
Definition qsum (l : list Q) : Q := fold_left Qplus l 0.
Definition qn (n : nat) : Q := inject_Z (Z.of_nat n).

Lemma qsum_acc l : forall a, fold_left Qplus l a == a + fold_right Qplus 0 l.
Proof. induction l as [|x l IH]; intros a; cbn; [ring|]. rewrite IH. ring. Qed.
Lemma qsum_fr l : qsum l == fold_right Qplus 0 l.
Proof. unfold qsum. rewrite qsum_acc. ring. Qed.
Lemma qsum_nil : qsum [] == 0. Proof. reflexivity. Qed.
Lemma qsum_cons x l : qsum (x :: l) == x + qsum l.
Proof. rewrite !qsum_fr. reflexivity. Qed.
Lemma qsum_app l l' : qsum (l ++ l') == qsum l + qsum l'.
Proof. induction l as [|x l IH]; cbn [app]; [rewrite qsum_nil; ring|]. rewrite !qsum_cons, IH. ring. Qed.
Lemma qsum_perm l l' : Permutation l l' -> qsum l == qsum l'.
Proof.
  induction 1 as [|x l l' H IH|x y l|l l' l'' H1 IH1 H2 IH2]; rewrite ?qsum_cons in *.
  - reflexivity.
  - rewrite IH. reflexivity.
  - ring.
  - now rewrite IH1.
Qed.
Lemma qsum_map_ext {A} (f g : A -> Q) l : (forall x, In x l -> f x == g x) -> qsum (map f l) == qsum (map g l).
Proof.
  induction l as [|x l IH]; intros H; cbn [map]; [reflexivity|]. rewrite !qsum_cons, IH by (intros; apply H; cbn; auto).
  now rewrite (H x) by (cbn; auto).
Qed.
Lemma qsum_map_plus {A} (f g : A -> Q) l : qsum (map (fun x => f x + g x) l) == qsum (map f l) + qsum (map g l).
Proof. induction l as [|x l IH]; cbn [map]; [reflexivity|]. rewrite !qsum_cons, IH. ring. Qed.
Lemma qsum_map_scale {A} (f : A -> Q) c l : qsum (map (fun x => c * f x) l) == c * qsum (map f l).
Proof. induction l as [|x l IH]; cbn [map]; [rewrite !qsum_nil; ring|]. rewrite !qsum_cons, IH. ring. Qed.
Lemma qn_S n : qn (S n) == 1 + qn n.
Proof. unfold qn. rewrite Nat2Z.inj_succ. unfold Z.succ. rewrite inject_Z_plus. ring. Qed.
Lemma qn_plus n m : qn (n + m) == qn n + qn m.
Proof. unfold qn. now rewrite Nat2Z.inj_add, inject_Z_plus. Qed.
Lemma qn_nonneg n : 0 <= qn n.
Proof. unfold qn. change 0 with (inject_Z 0). rewrite <- Zle_Qle. lia. Qed.
Lemma qn_pos n : (0 < n)%nat -> 0 < qn n.
Proof. intros H. unfold qn. change 0 with (inject_Z 0). rewrite <- Zlt_Qlt. lia. Qed.
Lemma qn_le n m : (n <= m)%nat <-> qn n <= qn m.
Proof. unfold qn. rewrite <- Zle_Qle. lia. Qed.
Lemma qn_lt n m : (n < m)%nat <-> qn n < qn m.
Proof. unfold qn. rewrite <- Zlt_Qlt. lia. Qed.
Lemma qsum_const {A} c (l : list A) : qsum (map (fun _ => c) l) == qn (length l) * c.
Proof. induction l as [|x l IH]; cbn [map length]; [rewrite qsum_nil; unfold qn; cbn; ring|]. rewrite qsum_cons, IH, qn_S. ring. Qed.
Lemma qsum_nonneg l : (forall x, In x l -> 0 <= x) -> 0 <= qsum l.
Proof.
  induction l as [|x l IH]; intros H; [rewrite qsum_nil; lra|]. rewrite qsum_cons.
  assert (0 <= x) by (apply H; cbn; auto). assert (0 <= qsum l) by (apply IH; intros; apply H; cbn; auto). lra.
Qed.
Lemma qsum_le {A} (f g : A -> Q) l : (forall x, In x l -> f x <= g x) -> qsum (map f l) <= qsum (map g l).
Proof.
  induction l as [|x l IH]; intros H; cbn [map]; [rewrite !qsum_nil; lra|]. rewrite !qsum_cons.
  assert (f x <= g x) by (apply H; cbn; auto). assert (qsum (map f l) <= qsum (map g l)) by (apply IH; intros; apply H; cbn; auto). lra.
Qed.

(* elementwise combination of two rows *)
Fixpoint zip {A B C} (f : A -> B -> C) (l : list A) (m : list B) : list C :=
  match l, m with x :: l', y :: m' => f x y :: zip f l' m' | _, _ => [] end.
Lemma zip_length {A B C} (f : A -> B -> C) l : forall m, length l = length m -> length (zip f l m) = length l.
Proof. induction l as [|x l IH]; intros [|y m] H; try discriminate; cbn; auto. Qed.
Lemma nth_error_zip {A B C} (f : A -> B -> C) l : forall m i x y, nth_error l i = Some x -> nth_error m i = Some y ->
  nth_error (zip f l m) i = Some (f x y).
Proof. induction l as [|a l IH]; intros [|b m] [|i] x y H1 H2; try discriminate; cbn in *; [congruence|]. now apply IH. Qed.
Lemma nth_zip {A B C} (f : A -> B -> C) l m i dx dy d : length l = length m -> (i < length l)%nat ->
  nth i (zip f l m) d = f (nth i l dx) (nth i m dy).
Proof.
  revert m i. induction l as [|a l IH]; intros [|b m] [|i] HL Hi; try discriminate; cbn in *; try lia; auto.
  apply IH; lia.
Qed.

(* ------------------------------------------------------------ raw matrices *)
(* gonum blas64.General: Rows, Cols, Stride, Data.  [rdata] may be longer than
   needed (a view of a larger matrix). *)
Record raw (A : Type) := mkraw { rrows : nat; rcols : nat; rstride : nat; rdata : list A }.
Arguments mkraw {A}. Arguments rrows {A}. Arguments rcols {A}. Arguments rstride {A}. Arguments rdata {A}.

Definition raw_wf {A} (m : raw A) : Prop :=
  (0 < rcols m <= rstride m)%nat /\ (0 < rrows m)%nat /\
  ((rrows m - 1) * rstride m + rcols m <= length (rdata m))%nat.

(* cell (i,j), the meaning of a raw matrix; mat.Dense.At *)
Definition raw_rows {A} (d : A) (m : raw A) : list (list A) :=
  map (fun i => map (fun j => nth (i * rstride m + j) (rdata m) d) (seq 0 (rcols m))) (seq 0 (rrows m)).

(* mat.NewDense(r, c, nil) *)
Definition new_raw {A} (d : A) (r c : nat) : raw A := mkraw r c c (repeat d (r * c)).

(* a sequence of assignments data[p] = v, None when one is out of range *)
Definition write1 {A} (acc : option (list A)) (pv : nat * A) : option (list A) :=
  match acc with
  | None => None
  | Some d => if Nat.ltb (fst pv) (length d) then Some (upd d (fst pv) (snd pv)) else None
  end.
Definition write_all {A} (ws : list (nat * A)) (d : list A) : option (list A) := fold_left write1 ws (Some d).

Lemma write_all_none {A} (ws : list (nat * A)) : fold_left write1 ws None = None.
Proof. induction ws; cbn; auto. Qed.
Lemma write_all_cons {A} p (v : A) ws d : (p < length d)%nat -> write_all ((p, v) :: ws) d = write_all ws (upd d p v).
Proof. intros H. unfold write_all. cbn [fold_left write1 fst snd]. destruct (Nat.ltb_spec p (length d)); [reflexivity|lia]. Qed.
Lemma write_all_spec {A} (ws : list (nat * A)) : forall d,
  (forall p v, In (p, v) ws -> (p < length d)%nat) ->
  exists d', write_all ws d = Some d' /\ length d' = length d /\
    (NoDup (map fst ws) -> forall p v, In (p, v) ws -> nth_error d' p = Some v) /\
    (forall p, ~ In p (map fst ws) -> nth_error d' p = nth_error d p).
Proof.
  induction ws as [|[p v] ws IH]; intros d H.
  - exists d. repeat split; auto. intros _ p v [].
  - rewrite write_all_cons by (eapply H; cbn; eauto).
    destruct (IH (upd d p v)) as (d' & E & HL & H1 & H2).
    { intros p' v' Hin. rewrite upd_length. eapply H. cbn; eauto. }
    rewrite upd_length in HL. exists d'. split; [exact E|]. split; [exact HL|]. split.
    + cbn [map fst]. intros ND. apply NoDup_cons_iff in ND. destruct ND as [Hn ND]. intros p' v' [E'|Hin].
      * injection E' as <- <-. rewrite H2 by auto. apply nth_error_upd_same. eapply H. cbn; eauto.
      * now apply H1.
    + cbn [map fst In]. intros p' Hp'. rewrite H2 by tauto. apply nth_error_upd_other. intros ->. tauto.
Qed.
Lemma write_all_oob {A} (ws : list (nat * A)) p v : In (p, v) ws -> forall d, (length d <= p)%nat -> write_all ws d = None.
Proof.
  unfold write_all. induction ws as [|[q w] ws IH]; intros Hin d Hd; [destruct Hin|]. cbn [fold_left write1 fst snd].
  destruct Hin as [E|Hin].
  - injection E as -> ->. destruct (Nat.ltb_spec p (length d)); [lia|]. apply write_all_none.
  - destruct (Nat.ltb_spec q (length d)); [|apply write_all_none]. apply IH; auto. now rewrite upd_length.
Qed.

(* all cells, row by row / column by column *)
Definition row_major (r c : nat) : list (nat * nat) := flat_map (fun i => map (fun j => (i, j)) (seq 0 c)) (seq 0 r).
Definition col_major (r c : nat) : list (nat * nat) := flat_map (fun j => map (fun i => (i, j)) (seq 0 r)) (seq 0 c).

Lemma row_major_In r c i j : In (i, j) (row_major r c) <-> (i < r /\ j < c)%nat.
Proof.
  unfold row_major. rewrite in_flat_map. split.
  - intros (x & Hx & H). apply in_map_iff in H. destruct H as (y & E & Hy). injection E as -> ->.
    apply in_seq in Hx, Hy. lia.
  - intros [H1 H2]. exists i. split; [apply in_seq; lia|]. apply in_map_iff. exists j. split; auto. apply in_seq; lia.
Qed.
Lemma col_major_In r c i j : In (i, j) (col_major r c) <-> (i < r /\ j < c)%nat.
Proof.
  unfold col_major. rewrite in_flat_map. split.
  - intros (x & Hx & H). apply in_map_iff in H. destruct H as (y & E & Hy). injection E as -> ->.
    apply in_seq in Hx, Hy. lia.
  - intros [H1 H2]. exists j. split; [apply in_seq; lia|]. apply in_map_iff. exists i. split; auto. apply in_seq; lia.
Qed.
Lemma NoDup_flat_map {A B} (f : A -> list B) l : NoDup l -> (forall x, In x l -> NoDup (f x)) ->
  (forall x y b, In x l -> In y l -> In b (f x) -> In b (f y) -> x = y) -> NoDup (flat_map f l).
Proof.
  induction 1 as [|x l Hn ND IH]; intros H1 H2; cbn [flat_map]; [constructor|].
  apply NoDup_app_iff. split; [apply H1; cbn; auto|]. split.
  - apply IH; [intros; apply H1; cbn; auto|]. intros a b c Ha Hb. apply H2; cbn; auto.
  - intros b Hb Hb'. apply in_flat_map in Hb'. destruct Hb' as (y & Hy & Hb').
    assert (x = y) by (apply (H2 x y b); cbn; auto). subst; auto.
Qed.
Lemma row_major_NoDup r c : NoDup (row_major r c).
Proof.
  apply NoDup_flat_map; [apply seq_NoDup| |].
  - intros i _. apply FinFun.Injective_map_NoDup; [intros a b E; congruence|apply seq_NoDup].
  - intros i i' [a b] _ _ H1 H2. apply in_map_iff in H1, H2. destruct H1 as (? & E1 & _), H2 as (? & E2 & _). congruence.
Qed.
Lemma col_major_NoDup r c : NoDup (col_major r c).
Proof.
  apply NoDup_flat_map; [apply seq_NoDup| |].
  - intros i _. apply FinFun.Injective_map_NoDup; [intros a b E; congruence|apply seq_NoDup].
  - intros i i' [a b] _ _ H1 H2. apply in_map_iff in H1, H2. destruct H1 as (? & E1 & _), H2 as (? & E2 & _). congruence.
Qed.

Lemma cell_inj s i j i' j' : (j < s)%nat -> (j' < s)%nat -> (i * s + j = i' * s + j')%nat -> i = i' /\ j = j'.
Proof.
  intros H1 H2 E.
  assert (i = i') by (apply (f_equal (fun x => (x / s)%nat)) in E;
    rewrite !Nat.div_add_l in E by lia; rewrite !Nat.div_small in E by lia; lia).
  subst. split; lia.
Qed.
Lemma cell_bound s c r i j : (i < r)%nat -> (j < c)%nat -> (c <= s)%nat -> (i * s + j < (r - 1) * s + c)%nat.
Proof. intros. assert (i * s <= (r - 1) * s)%nat by (apply Nat.mul_le_mono_r; lia). lia. Qed.

(* fill a raw matrix cell by cell, in any order of the cells *)
Definition raw_fill {A} (order : list (nat * nat)) (f : nat -> nat -> A) (m : raw A) : option (raw A) :=
  match write_all (map (fun ij => (fst ij * rstride m + snd ij, f (fst ij) (snd ij))%nat) order) (rdata m) with
  | Some d => Some (mkraw (rrows m) (rcols m) (rstride m) d)
  | None => None
  end.

Lemma NoDup_map_inj' {A B} (f : A -> B) l : NoDup l -> (forall a b, In a l -> In b l -> f a = f b -> a = b) -> NoDup (map f l).
Proof.
  induction 1 as [|x l Hn ND IH]; intros H; cbn; constructor.
  - intros Hin. apply in_map_iff in Hin. destruct Hin as (y & E & Hy). apply Hn. rewrite (H x y); cbn; auto.
  - apply IH. intros; apply H; cbn; auto.
Qed.

Lemma raw_fill_rows {A} (d : A) order (f : nat -> nat -> A) (m : raw A) : raw_wf m ->
  NoDup order -> (forall i j, In (i, j) order <-> (i < rrows m /\ j < rcols m)%nat) ->
  exists m', raw_fill order f m = Some m' /\ rrows m' = rrows m /\ rcols m' = rcols m /\ rstride m' = rstride m /\
    length (rdata m') = length (rdata m) /\
    raw_rows d m' = map (fun i => map (f i) (seq 0 (rcols m))) (seq 0 (rrows m)) /\
    (forall p, (forall i j, (i < rrows m)%nat -> (j < rcols m)%nat -> p <> (i * rstride m + j)%nat) ->
       nth_error (rdata m') p = nth_error (rdata m) p).
Proof.
  intros (Hc & Hr & HL) ND HI. unfold raw_fill.
  set (ws := map _ order).
  destruct (write_all_spec ws (rdata m)) as (d' & E & HL' & H1 & H2).
  { intros p v Hin. apply in_map_iff in Hin. destruct Hin as ([i j] & E & Hin). injection E as <- <-.
    apply HI in Hin. cbn [fst snd]. pose proof (cell_bound (rstride m) (rcols m) (rrows m) i j). lia. }
  rewrite E. eexists. split; [reflexivity|]. cbn [rrows rcols rstride rdata]. repeat split; auto.
  - unfold raw_rows. cbn [rrows rcols rstride rdata]. apply map_ext_in. intros i Hi. apply map_ext_in. intros j Hj.
    apply in_seq in Hi, Hj. apply nth_error_nth. apply H1.
    + unfold ws. rewrite map_map. cbn [fst]. apply NoDup_map_inj'; auto.
      intros [a b] [a' b'] Ha Hb Eq. apply HI in Ha, Hb. cbn [fst snd] in Eq. apply cell_inj in Eq; [|lia|lia].
      destruct Eq. congruence.
    + unfold ws. apply in_map_iff. exists (i, j). split; auto. apply HI. lia.
  - intros p Hp. apply H2. unfold ws. rewrite map_map. cbn [fst]. intros Hin. apply in_map_iff in Hin.
    destruct Hin as ([i j] & Eq & Hin). apply HI in Hin. cbn [fst snd] in Eq. apply (Hp i j); lia.
Qed.

Lemma new_raw_wf {A} (d : A) r c : (0 < r)%nat -> (0 < c)%nat -> raw_wf (new_raw d r c).
Proof.
  intros Hr Hc. unfold raw_wf, new_raw. cbn [rrows rcols rstride rdata]. rewrite repeat_length.
  replace (r * c)%nat with ((r - 1) * c + c)%nat by (destruct r; [lia|cbn; lia]). lia.
Qed.
Lemma raw_cell {A} (d : A) (m : raw A) i j : (i < rrows m)%nat -> (j < rcols m)%nat ->
  nth j (nth i (raw_rows d m) []) d = nth (i * rstride m + j) (rdata m) d.
Proof.
  intros Hi Hj. unfold raw_rows.
  rewrite (nth_indep _ [] (map (fun j => nth (0 * rstride m + j) (rdata m) d) (seq 0 (rcols m)))) by (now rewrite map_length, seq_length).
  rewrite (map_nth (fun i => map (fun j => nth (i * rstride m + j) (rdata m) d) (seq 0 (rcols m)))).
  rewrite seq_nth by auto. cbn [Nat.add].
  rewrite (nth_indep _ d (nth (i * rstride m + 0) (rdata m) d)) by (now rewrite map_length, seq_length).
  rewrite (map_nth (fun j => nth (i * rstride m + j) (rdata m) d)). now rewrite seq_nth by auto.
Qed.
