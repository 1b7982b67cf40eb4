From Coq Require Import QArith.
From Verif Require Import Common PolyModel.
Open Scope nat_scope.

(* lexicographic enumerations *)
Fixpoint lex_cwr (lo n r : nat) : list (list nat) :=
  match r with
  | 0 => [[]]
  | S r' => flat_map (fun x => map (cons x) (lex_cwr x n r')) (seq lo (n - lo))
  end.
Fixpoint lex_comb (lo n r : nat) : list (list nat) :=
  match r with
  | 0 => [[]]
  | S r' => flat_map (fun x => map (cons x) (lex_comb (S x) n r')) (seq lo (n - lo))
  end.

(* ------------------------------------------- next on a cons *)
Lemma scan_down_cons i x a mv :
  scan_down (S i) mv (x :: a) =
  match scan_down i (fun k => mv (S k)) a with
  | Some k => Some (S k)
  | None => if Nat.eqb x (mv 0) then None else Some 0
  end.
Proof.
  induction i as [|i IH].
  - reflexivity.
  - change (scan_down (S (S i)) mv (x :: a)) with
      (if Nat.eqb (nth i a 0) (mv (S i)) then scan_down (S i) mv (x :: a) else Some (S i)).
    rewrite IH. cbn [scan_down]. destruct (Nat.eqb (nth i a 0) (mv (S i))); reflexivity.
Qed.

Lemma cwr_next_cons n x a :
  cwr_next n (x :: a) =
  match cwr_next n a with
  | Some b => Some (x :: b)
  | None => if Nat.eqb x (n - 1) then None else Some (repeat (x + 1) (S (length a)))
  end.
Proof.
  unfold cwr_next. cbn [length]. rewrite scan_down_cons.
  destruct (scan_down (length a) (fun _ => n - 1) a) as [k|].
  - cbn [firstn nth app]. reflexivity.
  - destruct (Nat.eqb x (n - 1)); reflexivity.
Qed.

Lemma comb_next_cons n x a :
  comb_next n (x :: a) =
  match comb_next n a with
  | Some b => Some (x :: b)
  | None => if Nat.eqb x (n - S (length a)) then None else Some (seq (x + 1) (S (length a)))
  end.
Proof.
  unfold comb_next. cbn [length]. rewrite scan_down_cons.
  assert (E: forall i l, scan_down i (fun k => S k + n - S (length a)) l = scan_down i (fun k => k + n - length a) l).
  { induction i as [|i IH]; intros l; [reflexivity|]. cbn [scan_down]. rewrite IH.
    replace (S i + n - S (length a)) with (i + n - length a) by lia. reflexivity. }
  rewrite E. destruct (scan_down (length a) (fun i => i + n - length a) a) as [k|].
  - cbn [firstn nth app]. reflexivity.
  - cbn [Nat.add]. destruct (Nat.eqb x (n - S (length a))); reflexivity.
Qed.

(* ------------------------------------------------------------- chains *)
Section Chain.
Variable next : list nat -> option (list nat).
Fixpoint chain (l : list (list nat)) : Prop :=
  match l with
  | [] => False
  | [a] => next a = None
  | a :: (b :: _) as t => next a = Some b /\ chain t
  end.
End Chain.

Lemma chain_run next l : chain next l -> forall a t, l = a :: t -> forall fuel, length l <= fuel ->
  run_gen fuel next a = Some l.
Proof.
  induction l as [|a l IH]; intros H a' t E fuel Hf; [destruct H|]. injection E as <- <-.
  destruct fuel as [|fuel]; cbn [length] in Hf; [lia|]. cbn [run_gen].
  destruct l as [|b l].
  - cbn in H. now rewrite H.
  - destruct H as [H1 H2]. rewrite H1. rewrite (IH H2 b l eq_refl fuel); [reflexivity|lia].
Qed.

(* link of two chains *)
Lemma chain_app next next' l1 l2 : (* next' agrees with next on l2 *)
  l1 <> [] -> l2 <> [] ->
  (forall i a b, nth_error l1 i = Some a -> nth_error l1 (S i) = Some b -> next a = Some b) ->
  (forall a, nth_error l1 (length l1 - 1) = Some a -> next a = nth_error l2 0) ->
  next' = next -> chain next' l2 -> chain next (l1 ++ l2).
Proof.
  intros N1 N2 Hi Hlast -> Hc. induction l1 as [|a l1 IH]; [congruence|].
  destruct l1 as [|b l1].
  - cbn [app]. destruct l2 as [|c l2]; [congruence|]. split; [apply (Hlast a); reflexivity|exact Hc].
  - cbn [app]. split.
    + apply (Hi 0 a b); reflexivity.
    + apply IH; [discriminate| |].
      * intros i x y. apply (Hi (S i)).
      * intros x E. apply Hlast. cbn [length] in *. replace (S (S (length l1)) - 1) with (S (S (length l1) - 1)) by lia. exact E.
Qed.

Lemma chain_steps next l : chain next l ->
  forall i a b, nth_error l i = Some a -> nth_error l (S i) = Some b -> next a = Some b.
Proof.
  induction l as [|x l IH]; intros H i a b E1 E2; [destruct H|].
  destruct l as [|y l]; [destruct i; cbn in E2; try destruct i; discriminate|].
  destruct H as [H1 H2]. destruct i as [|i].
  - cbn in E1, E2. congruence.
  - apply (IH H2 i); auto.
Qed.
Lemma chain_last next l : chain next l -> forall a, nth_error l (length l - 1) = Some a -> next a = None.
Proof.
  induction l as [|x l IH]; intros H a E; [destruct H|].
  destruct l as [|y l].
  - cbn in E. injection E as <-. exact H.
  - destruct H as [_ H]. apply IH; auto. cbn [length] in *.
    replace (S (S (length l)) - 1) with (S (S (length l) - 1)) in E by lia. exact E.
Qed.

(* blocks x, x+1, ..., hi-1 : map (cons x) (L x) *)
Section Blocks.
Variable next : list nat -> option (list nat).
Variable L : nat -> list (list nat).
Variables (lo top : nat).
Hypothesis Lne : forall x, lo <= x <= top -> L x <> [].
Hypothesis Lchain : forall x, lo <= x <= top -> chain next (L x).
Hypothesis nextcons : forall x a, lo <= x <= top -> In a (L x) ->
  next (x :: a) = match next a with
                  | Some b => Some (x :: b)
                  | None => if Nat.eqb x top then None
                            else match L (S x) with [] => None | b :: _ => Some (S x :: b) end
                  end.

Lemma blocks_chain cnt : forall x, lo <= x -> x + cnt = top ->
  chain next (flat_map (fun x => map (cons x) (L x)) (seq x (S cnt))).
Proof.
  assert (HM: forall x, lo <= x <= top ->
     (forall i a b, nth_error (map (cons x) (L x)) i = Some a -> nth_error (map (cons x) (L x)) (S i) = Some b -> next a = Some b) /\
     (forall a, nth_error (map (cons x) (L x)) (length (map (cons x) (L x)) - 1) = Some a ->
        next a = if Nat.eqb x top then None else match L (S x) with [] => None | b :: _ => Some (S x :: b) end)).
  { intros x Hx. split.
    - intros i a b E1 E2. rewrite nth_error_map in E1, E2.
      destruct (nth_error (L x) i) as [a'|] eqn:A1; [|discriminate].
      destruct (nth_error (L x) (S i)) as [b'|] eqn:A2; [|discriminate].
      injection E1 as <-. injection E2 as <-.
      rewrite nextcons by (auto; eapply nth_error_In; eauto).
      rewrite (chain_steps next (L x) (Lchain x Hx) i a' b' A1 A2). reflexivity.
    - intros a E. rewrite map_length, nth_error_map in E.
      destruct (nth_error (L x) (length (L x) - 1)) as [a'|] eqn:A1; [|discriminate]. injection E as <-.
      rewrite nextcons by (auto; eapply nth_error_In; eauto).
      rewrite (chain_last next (L x) (Lchain x Hx) a' A1). reflexivity. }
  induction cnt as [|cnt IH]; intros x Hlo Htop.
  - cbn [seq flat_map]. rewrite app_nil_r. assert (x = top) by lia. subst x.
    destruct (HM top ltac:(lia)) as [H1 H2]. rewrite Nat.eqb_refl in H2.
    assert (Hne: map (cons top) (L top) <> []) by (specialize (Lne top ltac:(lia)); destruct (L top); [congruence|discriminate]).
    set (l := map (cons top) (L top)) in *. clearbody l.
    clear -H1 H2 Hne. induction l as [|a l IH]; [congruence|]. destruct l as [|b l].
    + apply H2. reflexivity.
    + split; [apply (H1 0); reflexivity|]. apply IH; [intros i; apply (H1 (S i))| |discriminate].
      intros c E. apply H2. cbn [length] in *. replace (S (S (length l)) - 1) with (S (S (length l) - 1)) by lia. exact E.
  - cbn [seq flat_map].
    specialize (IH (S x) ltac:(lia) ltac:(lia)). cbn [seq flat_map] in IH.
    assert (Hx: lo <= x <= top) by lia. assert (Hx1: lo <= S x <= top) by lia.
    pose proof (Lne x Hx) as N1. pose proof (Lne (S x) Hx1) as N2.
    destruct (HM x Hx) as [H1 H2].
    apply (chain_app next next); auto.
    + destruct (L x); [congruence|discriminate].
    + destruct (L (S x)); [congruence|discriminate].
    + intros a E. rewrite (H2 a E). destruct (Nat.eqb_spec x top); [lia|].
      destruct (L (S x)) as [|b l]; [congruence|]. reflexivity.
Qed.
End Blocks.

Lemma lex_cwr_length lo n r a : In a (lex_cwr lo n r) -> length a = r.
Proof.
  revert lo a. induction r as [|r IH]; intros lo a H; cbn [lex_cwr] in H.
  - destruct H as [<-|[]]. reflexivity.
  - apply in_flat_map in H. destruct H as (x & _ & H). apply in_map_iff in H. destruct H as (b & <- & H).
    cbn. f_equal. eauto.
Qed.
Lemma lex_comb_length lo n r a : In a (lex_comb lo n r) -> length a = r.
Proof.
  revert lo a. induction r as [|r IH]; intros lo a H; cbn [lex_comb] in H.
  - destruct H as [<-|[]]. reflexivity.
  - apply in_flat_map in H. destruct H as (x & _ & H). apply in_map_iff in H. destruct H as (b & <- & H).
    cbn. f_equal. eauto.
Qed.

Lemma lex_cwr_head lo n r : lo < n -> exists t, lex_cwr lo n r = repeat lo r :: t.
Proof.
  revert lo. induction r as [|r IH]; intros lo H; cbn [lex_cwr].
  - exists []. reflexivity.
  - destruct (n - lo) as [|k] eqn:E; [lia|]. cbn [seq flat_map].
    destruct (IH lo H) as [t ->]. cbn. eexists. reflexivity.
Qed.
Lemma lex_comb_head lo n r : lo + r <= n -> exists t, lex_comb lo n r = seq lo r :: t.
Proof.
  revert lo. induction r as [|r IH]; intros lo H; cbn [lex_comb].
  - exists []. reflexivity.
  - destruct (n - lo) as [|k] eqn:E; [lia|]. cbn [seq flat_map].
    destruct (IH (S lo)) as [t ->]; [lia|]. cbn. eexists. reflexivity.
Qed.

Lemma cwr_chain n r : forall lo, lo < n -> chain (cwr_next n) (lex_cwr lo n r).
Proof.
  induction r as [|r IH]; intros lo H; cbn [lex_cwr].
  - reflexivity.
  - replace (n - lo) with (S (n - lo - 1)) by lia.
    apply (blocks_chain (cwr_next n) (fun x => lex_cwr x n r) lo (n - 1)); try lia.
    + intros x Hx E. destruct (lex_cwr_head x n r) as [t Et]; [lia|]. congruence.
    + intros x Hx. apply IH. lia.
    + intros x a Hx Ha. rewrite cwr_next_cons. destruct (cwr_next n a); auto.
      destruct (Nat.eqb_spec x (n - 1)); auto.
      destruct (lex_cwr_head (S x) n r) as [t ->]; [lia|].
      apply lex_cwr_length in Ha. rewrite Ha. cbn. rewrite Nat.add_1_r. reflexivity.
Qed.

(* only x <= n - r - 1 contribute *)
Lemma lex_comb_nil n r : forall lo, 0 < r -> n < lo + r -> lex_comb lo n r = [].
Proof.
  induction r as [|r IH]; intros lo Hr H; [lia|]. cbn [lex_comb].
  destruct r as [|r].
  - replace (n - lo) with 0 by lia. reflexivity.
  - assert (forall k lo', n < lo' + S (S r) -> flat_map (fun x => map (cons x) (lex_comb (S x) n (S r))) (seq lo' k) = []).
    { induction k as [|k IHk]; intros lo' Hl; cbn [seq flat_map]; auto.
      rewrite IH by lia. cbn. apply IHk. lia. }
    apply H0. lia.
Qed.

Lemma flat_map_app {A B} (f : A -> list B) l1 l2 : flat_map f (l1 ++ l2) = flat_map f l1 ++ flat_map f l2.
Proof. induction l1 as [|x l1 IH]; cbn; auto. rewrite IH. apply app_assoc. Qed.

Lemma lex_comb_cut lo n r : lo + S r <= n ->
  lex_comb lo n (S r) = flat_map (fun x => map (cons x) (lex_comb (S x) n r)) (seq lo (S (n - S r - lo))).
Proof.
  intros H. cbn [lex_comb]. replace (n - lo) with (S (n - S r - lo) + r) by lia.
  rewrite seq_app, flat_map_app.
  assert (E: forall k x0, n < x0 + S r -> r = 0 \/ flat_map (fun x => map (cons x) (lex_comb (S x) n r)) (seq x0 k) = []).
  { intros k. induction k as [|k IHk]; intros x0 Hx0; cbn [seq flat_map]; [auto|].
    destruct r as [|r']; [auto|]. right. rewrite lex_comb_nil by lia. cbn.
    destruct (IHk (S x0)); [lia|discriminate|auto]. }
  destruct (E r (lo + S (n - S r - lo))) as [->|E1]; [lia| |].
  - cbn [seq flat_map]. apply app_nil_r.
  - rewrite E1. apply app_nil_r.
Qed.

Lemma comb_chain n r : forall lo, lo + r <= n -> chain (comb_next n) (lex_comb lo n r).
Proof.
  induction r as [|r IH]; intros lo H.
  - reflexivity.
  - rewrite lex_comb_cut by auto.
    apply (blocks_chain (comb_next n) (fun x => lex_comb (S x) n r) lo (n - S r)); try lia.
    + intros x Hx E. destruct (lex_comb_head (S x) n r) as [t Et]; [lia|]. congruence.
    + intros x Hx. apply IH. lia.
    + intros x a Hx Ha. rewrite comb_next_cons. destruct (comb_next n a); auto.
      apply lex_comb_length in Ha. rewrite Ha.
      destruct (Nat.eqb_spec x (n - S r)); auto.
      destruct (lex_comb_head (S (S x)) n r) as [t ->]; [lia|].
      rewrite Nat.add_1_r. reflexivity.
Qed.

Lemma cwr_correct n r : exists f0, forall fuel, f0 <= fuel ->
  combinations_with_replacement fuel n r = Some (lex_cwr 0 n r).
Proof.
  exists (length (lex_cwr 0 n r)). intros fuel Hf. unfold combinations_with_replacement.
  destruct (Nat.eqb_spec n 0) as [->|Hn].
  - destruct r as [|r]; cbn [Nat.ltb Nat.leb andb]; [|reflexivity].
    cbn [repeat]. cbn in Hf. destruct fuel; [lia|]. reflexivity.
  - cbn [andb]. destruct (lex_cwr_head 0 n r) as [t Et]; [lia|].
    apply (chain_run _ _ (cwr_chain n r 0 ltac:(lia)) _ t); auto.
Qed.
Lemma comb_correct n r : exists f0, forall fuel, f0 <= fuel ->
  combinations fuel n r = Some (lex_comb 0 n r).
Proof.
  exists (length (lex_comb 0 n r)). intros fuel Hf. unfold combinations.
  destruct (Nat.ltb_spec n r).
  - rewrite lex_comb_nil by lia. reflexivity.
  - destruct (lex_comb_head 0 n r) as [t Et]; [lia|].
    apply (chain_run _ _ (comb_chain n r 0 ltac:(lia)) _ t); auto.
Qed.

(* ------------------------------------------------- members and no repeats *)
Lemma lex_cwr_In n r : forall lo a, In a (lex_cwr lo n r) <->
  length a = r /\ StronglySorted le a /\ Forall (fun x => lo <= x < n) a.
Proof.
  induction r as [|r IH]; intros lo a; cbn [lex_cwr].
  - split.
    + intros [<-|[]]. repeat split; constructor.
    + intros (H & _). destruct a; [cbn; auto|discriminate].
  - rewrite in_flat_map. split.
    + intros (x & Hx & H). apply in_map_iff in H. destruct H as (b & <- & H). apply IH in H.
      destruct H as (H1 & H2 & H3). apply in_seq in Hx. cbn. split; [lia|]. split.
      * constructor; auto. eapply Forall_impl; [|exact H3]. cbn; intros; lia.
      * constructor; [lia|]. eapply Forall_impl; [|exact H3]. cbn; intros; lia.
    + intros (H1 & H2 & H3). destruct a as [|x b]; [discriminate|].
      apply Forall_cons_iff in H3. destruct H3 as [Hx H3]. apply StronglySorted_inv in H2. destruct H2 as [H2 HF].
      exists x. split; [apply in_seq; lia|]. apply in_map. apply IH. split; [cbn in H1; lia|]. split; auto.
      rewrite Forall_forall in *. intros y Hy. specialize (HF y Hy). specialize (H3 y Hy). lia.
Qed.
Lemma lex_comb_In n r : forall lo a, In a (lex_comb lo n r) <->
  length a = r /\ StronglySorted lt a /\ Forall (fun x => lo <= x < n) a.
Proof.
  induction r as [|r IH]; intros lo a; cbn [lex_comb].
  - split.
    + intros [<-|[]]. repeat split; constructor.
    + intros (H & _). destruct a; [cbn; auto|discriminate].
  - rewrite in_flat_map. split.
    + intros (x & Hx & H). apply in_map_iff in H. destruct H as (b & <- & H). apply IH in H.
      destruct H as (H1 & H2 & H3). apply in_seq in Hx. cbn. split; [lia|]. split.
      * constructor; auto. eapply Forall_impl; [|exact H3]. cbn; intros; lia.
      * constructor; [lia|]. eapply Forall_impl; [|exact H3]. cbn; intros; lia.
    + intros (H1 & H2 & H3). destruct a as [|x b]; [discriminate|].
      apply Forall_cons_iff in H3. destruct H3 as [Hx H3]. apply StronglySorted_inv in H2. destruct H2 as [H2 HF].
      exists x. split; [apply in_seq; lia|]. apply in_map. apply IH. split; [cbn in H1; lia|]. split; auto.
      rewrite Forall_forall in *. intros y Hy. specialize (HF y Hy). specialize (H3 y Hy). lia.
Qed.

Lemma NoDup_flat_cons (f : nat -> list (list nat)) l : NoDup l -> (forall x, In x l -> NoDup (f x)) ->
  NoDup (flat_map (fun x => map (cons x) (f x)) l).
Proof.
  induction 1 as [|x l Hn ND IH]; intros H; cbn [flat_map]; [constructor|].
  apply NoDup_app_iff. split; [|split].
  - apply FinFun.Injective_map_NoDup; [intros a b E; congruence|]. apply H. cbn; auto.
  - apply IH. intros; apply H; cbn; auto.
  - intros a Ha Hb. apply in_map_iff in Ha. destruct Ha as (b & <- & _).
    apply in_flat_map in Hb. destruct Hb as (y & Hy & Hb). apply in_map_iff in Hb. destruct Hb as (c & E & _).
    injection E as -> _. auto.
Qed.
Lemma lex_cwr_NoDup n r : forall lo, NoDup (lex_cwr lo n r).
Proof.
  induction r as [|r IH]; intros lo; cbn [lex_cwr]; [repeat constructor; intros []|].
  apply (NoDup_flat_cons (fun x => lex_cwr x n r)); [apply seq_NoDup|auto].
Qed.
Lemma lex_comb_NoDup n r : forall lo, NoDup (lex_comb lo n r).
Proof.
  induction r as [|r IH]; intros lo; cbn [lex_comb]; [repeat constructor; intros []|].
  apply (NoDup_flat_cons (fun x => lex_comb (S x) n r)); [apply seq_NoDup|auto].
Qed.

(* ---------------------------------------------------------------- bincount *)
Lemma bincount_spec a n : bincount a n = map (fun j => count_occ Nat.eq_dec a j) (seq 0 n).
Proof.
  unfold bincount.
  assert (H: forall ret, length ret = n ->
    fold_left (fun ret ai => if Nat.ltb ai n then upd ret ai (nth ai ret 0 + 1) else ret) a ret =
    map (fun j => nth j ret 0 + count_occ Nat.eq_dec a j) (seq 0 n)).
  { induction a as [|x a IH]; intros ret HL; cbn [fold_left].
    - apply nth_error_ext_len; [now rewrite map_length, seq_length|]. intros i Hi.
      rewrite nth_error_map, nth_error_seq. destruct (Nat.ltb_spec i n); [|lia]. cbn. rewrite Nat.add_0_r.
      apply nth_error_nth'. lia.
    - destruct (Nat.ltb_spec x n).
      + rewrite IH by (now rewrite upd_length). apply map_ext_in. intros j Hj. apply in_seq in Hj. cbn [count_occ].
        destruct (Nat.eq_dec x j) as [->|Hne].
        * assert (E: nth_error (upd ret j (nth j ret 0 + 1)) j = Some (nth j ret 0 + 1)) by (apply nth_error_upd_same; lia).
          rewrite (nth_error_nth _ _ 0 E). lia.
        * f_equal. assert (E: nth_error (upd ret x (nth x ret 0 + 1)) j = nth_error ret j) by (now apply nth_error_upd_other).
          rewrite (nth_error_nth' ret 0) in E by lia. now rewrite (nth_error_nth _ _ 0 E).
      + rewrite IH by auto. apply map_ext_in. intros j Hj. apply in_seq in Hj. cbn [count_occ].
        destruct (Nat.eq_dec x j); [lia|reflexivity]. }
  rewrite H by apply repeat_length. apply map_ext_in. intros j Hj. rewrite nth_repeat. reflexivity.
Qed.
Lemma bincount_length a n : length (bincount a n) = n.
Proof. now rewrite bincount_spec, map_length, seq_length. Qed.

(* sum of counts *)
Lemma count_sum a n : Forall (fun x => x < n) a -> list_sum (bincount a n) = length a.
Proof.
  rewrite bincount_spec. induction a as [|x a IH]; intros H.
  - cbn [length]. induction (seq 0 n) as [|y l IHl]; cbn; auto.
  - apply Forall_cons_iff in H. destruct H as [Hx H]. specialize (IH H). cbn [length count_occ].
    rewrite <- IH. clear IH H.
    assert (forall l, NoDup l -> In x l ->
      list_sum (map (fun j => if Nat.eq_dec x j then S (count_occ Nat.eq_dec a j) else count_occ Nat.eq_dec a j) l) =
      S (list_sum (map (fun j => count_occ Nat.eq_dec a j) l))).
    { induction l as [|y l IHl]; intros ND Hin; [destruct Hin|]. apply NoDup_cons_iff in ND. destruct ND as [Hn ND].
      cbn [map list_sum fold_right]. fold (list_sum). destruct (Nat.eq_dec x y) as [->|Hne].
      - assert (E: map (fun j => if Nat.eq_dec y j then S (count_occ Nat.eq_dec a j) else count_occ Nat.eq_dec a j) l = map (fun j => count_occ Nat.eq_dec a j) l).
        { apply map_ext_in. intros j Hj. destruct (Nat.eq_dec y j); [subst; tauto|auto]. }
        rewrite E. reflexivity.
      - destruct Hin as [|Hin]; [congruence|].
        specialize (IHl ND Hin). unfold list_sum in *. lia. }
    apply H; [apply seq_NoDup|apply in_seq; lia].
Qed.

(* the sorted word of an exponent vector *)
Fixpoint word_from (k : nat) (e : list nat) : list nat :=
  match e with [] => [] | p :: e' => repeat k p ++ word_from (S k) e' end.

Lemma word_from_bounds e : forall k, Forall (fun x => k <= x < k + length e) (word_from k e).
Proof.
  induction e as [|p e IH]; intros k; cbn [word_from length]; [constructor|].
  apply Forall_app. split.
  - apply Forall_forall. intros x Hx. apply repeat_spec in Hx. lia.
  - eapply Forall_impl; [|apply IH]. cbn; intros; lia.
Qed.
Lemma repeat_app_sorted k p l : Forall (fun x => k <= x) l -> StronglySorted le l -> StronglySorted le (repeat k p ++ l).
Proof.
  intros HF HS. induction p as [|p IH]; cbn; auto. constructor; auto. apply Forall_app. split; auto.
  apply Forall_forall. intros x Hx. apply repeat_spec in Hx. lia.
Qed.
Lemma word_from_sorted e : forall k, StronglySorted le (word_from k e).
Proof.
  induction e as [|p e IH]; intros k; cbn [word_from]; [constructor|].
  apply repeat_app_sorted; auto. eapply Forall_impl; [|apply word_from_bounds]. cbn; intros; lia.
Qed.
Lemma word_from_strict e : forall k, Forall (fun p => p <= 1) e -> StronglySorted lt (word_from k e).
Proof.
  induction e as [|p e IH]; intros k H; cbn [word_from]; [constructor|].
  apply Forall_cons_iff in H. destruct H as [Hp H]. specialize (IH (S k) H).
  destruct p as [|[|p]]; [exact IH| |lia]. cbn. constructor; auto.
  eapply Forall_impl; [|apply word_from_bounds]. cbn; intros; lia.
Qed.
Lemma word_from_length e : forall k, length (word_from k e) = list_sum e.
Proof. induction e as [|p e IH]; intros k; cbn; auto. now rewrite app_length, repeat_length, IH. Qed.
Lemma count_repeat k p j : count_occ Nat.eq_dec (repeat k p) j = if Nat.eq_dec k j then p else 0.
Proof. induction p as [|p IH]; cbn; [destruct (Nat.eq_dec k j); auto|]. rewrite IH. destruct (Nat.eq_dec k j); auto. Qed.
Lemma word_from_count e : forall k j, k <= j < k + length e -> count_occ Nat.eq_dec (word_from k e) j = nth (j - k) e 0.
Proof.
  induction e as [|p e IH]; intros k j H; cbn [length] in H; [lia|]. cbn [word_from].
  rewrite count_occ_app, count_repeat. destruct (Nat.eq_dec k j) as [->|Hne].
  - rewrite Nat.sub_diag. cbn [nth].
    rewrite (proj1 (count_occ_not_In Nat.eq_dec (word_from (S j) e) j)); [lia|].
    intros Hin. pose proof (word_from_bounds e (S j)) as HB. rewrite Forall_forall in HB. specialize (HB j Hin). lia.
  - rewrite IH by lia. replace (j - k) with (S (j - S k)) by lia. reflexivity.
Qed.
Lemma bincount_word e : bincount (word_from 0 e) (length e) = e.
Proof.
  rewrite bincount_spec. apply nth_error_ext_len; [now rewrite map_length, seq_length|]. intros i Hi.
  rewrite map_length, seq_length in Hi. rewrite nth_error_map, nth_error_seq.
  destruct (Nat.ltb_spec i (length e)); [|lia]. cbn. rewrite word_from_count by lia. rewrite Nat.sub_0_r.
  symmetry. now apply nth_error_nth'.
Qed.

Lemma sorted_le_unique (l1 : list nat) : forall l2, StronglySorted le l1 -> StronglySorted le l2 ->
  (forall x, count_occ Nat.eq_dec l1 x = count_occ Nat.eq_dec l2 x) -> l1 = l2.
Proof.
  induction l1 as [|a l1 IH]; intros [|b l2] S1 S2 H; auto.
  - specialize (H b). cbn in H. destruct (Nat.eq_dec b b); [discriminate|congruence].
  - specialize (H a). cbn in H. destruct (Nat.eq_dec a a); [discriminate|congruence].
  - apply StronglySorted_inv in S1, S2. destruct S1 as [S1 F1], S2 as [S2 F2]. rewrite Forall_forall in F1, F2.
    assert (a = b).
    { assert (Ha: In a (b :: l2)).
      { apply (count_occ_In Nat.eq_dec). rewrite <- H. cbn. destruct (Nat.eq_dec a a); [lia|congruence]. }
      assert (Hb: In b (a :: l1)).
      { apply (count_occ_In Nat.eq_dec). rewrite H. cbn. destruct (Nat.eq_dec b b); [lia|congruence]. }
      destruct Ha as [|Ha]; auto. destruct Hb as [|Hb]; auto. specialize (F2 a Ha). specialize (F1 b Hb). lia. }
    subst b. f_equal. apply IH; auto. intros x. specialize (H x). cbn in H. destruct (Nat.eq_dec a x); lia.
Qed.

Lemma sorted_lt_le (l : list nat) : StronglySorted lt l -> StronglySorted le l.
Proof. induction 1 as [|x l HS IH HF]; constructor; auto. eapply Forall_impl; [|exact HF]. cbn; intros; lia. Qed.

Lemma bincount_inj n a b : Forall (fun x => x < n) a -> Forall (fun x => x < n) b ->
  StronglySorted le a -> StronglySorted le b -> bincount a n = bincount b n -> a = b.
Proof.
  intros Fa Fb Sa Sb E. apply sorted_le_unique; auto. intros x. rewrite !bincount_spec in E.
  destruct (Nat.ltb_spec x n).
  - apply (f_equal (fun l => nth_error l x)) in E. rewrite !nth_error_map, nth_error_seq in E.
    destruct (Nat.ltb_spec x n); [|lia]. cbn in E. congruence.
  - rewrite (proj1 (count_occ_not_In Nat.eq_dec a x)), (proj1 (count_occ_not_In Nat.eq_dec b x)); auto;
      intros Hin; rewrite Forall_forall in *; [specialize (Fb x Hin)|specialize (Fa x Hin)]; lia.
Qed.

(* exponent vectors of degree i *)
Definition lex_deg (interaction : bool) (n i : nat) : list (list nat) :=
  map (fun c => bincount c n) (if interaction then lex_comb 0 n i else lex_cwr 0 n i).

Lemma lex_deg_In interaction n i e : In e (lex_deg interaction n i) <->
  length e = n /\ list_sum e = i /\ (interaction = true -> Forall (fun p => p <= 1) e).
Proof.
  unfold lex_deg. rewrite in_map_iff. split.
  - intros (c & <- & H). split; [apply bincount_length|]. destruct interaction.
    + apply lex_comb_In in H. destruct H as (H1 & H2 & H3). split.
      * rewrite count_sum; auto. eapply Forall_impl; [|exact H3]. cbn; intros; lia.
      * intros _. rewrite bincount_spec. apply Forall_map, Forall_forall. intros j _.
        apply (proj1 (NoDup_count_occ Nat.eq_dec c)).
        clear -H2. induction H2 as [|x l HS IH HF]; constructor; auto. intros Hin. rewrite Forall_forall in HF. specialize (HF x Hin). lia.
    + apply lex_cwr_In in H. destruct H as (H1 & H2 & H3). split; [|discriminate].
      rewrite count_sum; auto. eapply Forall_impl; [|exact H3]. cbn; intros; lia.
  - intros (H1 & H2 & H3). exists (word_from 0 e). rewrite <- H1. split; [apply bincount_word|].
    destruct interaction.
    + apply lex_comb_In. split; [now rewrite word_from_length|]. split; [now apply word_from_strict; auto|].
      eapply Forall_impl; [|apply word_from_bounds]. cbn; intros; lia.
    + apply lex_cwr_In. split; [now rewrite word_from_length|]. split; [apply word_from_sorted|].
      eapply Forall_impl; [|apply word_from_bounds]. cbn; intros; lia.
Qed.

Lemma NoDup_map_inj {A B} (f : A -> B) l : NoDup l -> (forall a b, In a l -> In b l -> f a = f b -> a = b) -> NoDup (map f l).
Proof.
  induction 1 as [|x l Hn ND IH]; intros H; cbn; constructor.
  - intros Hin. apply in_map_iff in Hin. destruct Hin as (y & E & Hy). apply Hn.
    rewrite (H x y); cbn; auto.
  - apply IH. intros; apply H; cbn; auto.
Qed.

Lemma lex_deg_NoDup interaction n i : NoDup (lex_deg interaction n i).
Proof.
  unfold lex_deg. apply NoDup_map_inj.
  - destruct interaction; [apply lex_comb_NoDup|apply lex_cwr_NoDup].
  - intros a b Ha Hb E. destruct interaction.
    + apply lex_comb_In in Ha, Hb. destruct Ha as (_ & Sa & Fa), Hb as (_ & Sb & Fb).
      apply (bincount_inj n); auto using sorted_lt_le; (eapply Forall_impl; [|eassumption]); cbn; intros; lia.
    + apply lex_cwr_In in Ha, Hb. destruct Ha as (_ & Sa & Fa), Hb as (_ & Sb & Fb).
      apply (bincount_inj n); auto; (eapply Forall_impl; [|eassumption]); cbn; intros; lia.
Qed.

Lemma poly_loop_correct interaction n cnt : forall i, exists f0, forall fuel, f0 <= fuel ->
  poly_loop cnt i fuel interaction n = Some (flat_map (lex_deg interaction n) (seq i cnt)).
Proof.
  induction cnt as [|cnt IH]; intros i; cbn [poly_loop seq flat_map].
  - exists 0. reflexivity.
  - destruct (IH (S i)) as [f1 H1].
    assert (exists f0, forall fuel, f0 <= fuel -> (if interaction then combinations fuel n i else combinations_with_replacement fuel n i) =
      Some (if interaction then lex_comb 0 n i else lex_cwr 0 n i)) as [f2 H2].
    { destruct interaction; [apply comb_correct|apply cwr_correct]. }
    exists (Nat.max f1 f2). intros fuel Hf. rewrite H2 by lia. rewrite Nat.add_1_r, H1 by lia. reflexivity.
Qed.

Lemma poly_fit_correct degree interaction bias n : exists f0 powers, (forall fuel, f0 <= fuel ->
  poly_fit fuel degree interaction bias n = Some powers) /\
  NoDup powers /\
  (forall e, In e powers <-> length e = n /\ (Z.of_nat (list_sum e) <= degree)%Z /\
     (interaction = true -> Forall (fun p => p <= 1) e) /\ (bias = false -> 0 < list_sum e)).
Proof.
  set (start := if bias then 0 else 1).
  destruct (poly_loop_correct interaction n (Z.to_nat (degree + 1 - Z.of_nat start)) start) as [f0 H].
  exists f0, (flat_map (lex_deg interaction n) (seq start (Z.to_nat (degree + 1 - Z.of_nat start)))).
  split; [exact H|]. split.
  - assert (forall l, NoDup l -> NoDup (flat_map (lex_deg interaction n) l)).
    { induction 1 as [|x l Hn ND IH]; cbn [flat_map]; [constructor|]. apply NoDup_app_iff.
      split; [apply lex_deg_NoDup|]. split; auto. intros e He Hf. apply in_flat_map in Hf.
      destruct Hf as (y & Hy & Hf). apply lex_deg_In in He, Hf. destruct He as (_ & <- & _), Hf as (_ & <- & _). auto. }
    apply H0, seq_NoDup.
  - intros e. rewrite in_flat_map. split.
    + intros (i & Hi & He). apply lex_deg_In in He. destruct He as (H1 & H2 & H3). apply in_seq in Hi.
      split; auto. rewrite H2. split; [lia|]. split; auto. intros ->. subst start. lia.
    + intros (H1 & H2 & H3 & H4). exists (list_sum e). split; [|apply lex_deg_In; auto].
      apply in_seq. assert (start <= list_sum e) by (unfold start; destruct bias; [lia|apply H4; auto]). lia.
Qed.

(* ------------------------------------------------------------- values *)
Open Scope Q_scope.
Definition monomial (x : list Q) (e : list nat) : Q :=
  fold_right (fun xp v => Qpower (fst xp) (Z.of_nat (snd xp)) * v) 1 (combine x e).

Lemma poly_value_eq x e : length e = length x -> poly_value x e == monomial x e.
Proof.
  intros HL. unfold poly_value.
  assert (H: forall (e' x' pre : list nat) (xs ys : list Q) v, length e' = length ys ->
    fold_left (fun v jp => v * Qpower (nth (fst jp) (xs ++ ys) 0) (Z.of_nat (snd jp))) (combine (seq (length xs) (length e')) e') v
     == v * monomial ys e').
  { clear. intros e'. induction e' as [|p e' IH]; intros x' pre xs ys v HL; destruct ys as [|y ys]; try discriminate.
    - cbn. ring.
    - cbn [length seq combine fold_left fst snd]. unfold monomial. cbn [combine fold_right fst snd]. fold (monomial ys e').
      rewrite app_nth2, Nat.sub_diag by lia. cbn [nth].
      specialize (IH [] [] (xs ++ [y]) ys (v * Qpower y (Z.of_nat p))).
      rewrite app_length, <- app_assoc in IH. cbn [length app] in IH. rewrite Nat.add_1_r in IH.
      rewrite IH by (cbn in HL; lia). ring. }
  specialize (H e [] [] [] x 1 HL). cbn [app length] in H. rewrite H. ring.
Qed.

Lemma poly_transform_row_eq powers x : Forall (fun e => length e = length x) powers ->
  Forall2 (fun v e => v == monomial x e) (poly_transform_row powers x) powers.
Proof.
  unfold poly_transform_row. induction 1 as [|e powers H HF IH]; cbn; constructor; auto using poly_value_eq.
Qed.

(* ------------------------------------------------------------- inverse *)
Lemma intsum_spec a : intsum a = list_sum a.
Proof. unfold intsum. apply (fold_symmetric Nat.add); intros; lia. Qed.

Definition unitv (a b : nat) : list nat := repeat 0%nat a ++ 1%nat :: repeat 0%nat b.
Lemma sum1_unit e : list_sum e = 1%nat -> exists a b, e = unitv a b.
Proof.
  induction e as [|p e IH]; intros H; [discriminate|]. cbn in H. destruct p as [|[|p]]; [| |lia].
  - destruct IH as (a & b & ->); [exact H|]. exists (S a), b. reflexivity.
  - exists 0%nat, (length e). unfold unitv. cbn. f_equal. assert (list_sum e = 0)%nat by (unfold list_sum; lia).
    clear -H0. induction e as [|q e IH]; auto. cbn in *. destruct q; [|lia]. f_equal. apply IH. exact H0.
Qed.
Lemma unitv_sum a b : list_sum (unitv a b) = 1%nat.
Proof.
  unfold unitv. rewrite list_sum_app. assert (Z: forall k, list_sum (repeat 0%nat k) = 0%nat) by (induction k; auto).
  rewrite Z. cbn [list_sum fold_right]. specialize (Z b). unfold list_sum in Z. lia.
Qed.
Lemma unitv_length a b : length (unitv a b) = (a + S b)%nat.
Proof. unfold unitv. rewrite app_length. cbn. now rewrite !repeat_length. Qed.

Lemma combine_app {A B} (l1 l2 : list A) (m1 m2 : list B) : length l1 = length m1 ->
  combine (l1 ++ l2) (m1 ++ m2) = combine l1 m1 ++ combine l2 m2.
Proof. revert m1. induction l1 as [|x l1 IH]; intros [|y m1] H; try discriminate; cbn; auto. f_equal. apply IH. cbn in H. lia. Qed.

Lemma intmaxidx_unit a b : intmaxidx (unitv a b) = a.
Proof.
  unfold intmaxidx. set (e := unitv a b) at 1.
  assert (Z: forall (l : list (nat * nat)) i, (forall p, In p l -> snd p = 0%nat) ->
     fold_left (fun i jv => if Nat.ltb (nth i e 0%nat) (snd jv) then fst jv else i) l i = i).
  { induction l as [|p l IH]; intros i H; cbn; auto. rewrite (H p) by (cbn; auto). cbn.
    apply IH. intros; apply H; cbn; auto. }
  rewrite unitv_length. unfold unitv. rewrite seq_app.
  rewrite combine_app by (now rewrite seq_length, repeat_length). rewrite fold_left_app.
  rewrite (Z (combine (seq 0 a) (repeat 0%nat a))).
  2:{ intros [i v] H. apply in_combine_r in H. apply repeat_spec in H. exact H. }
  cbn [seq combine fold_left snd fst].
  assert (E: (if Nat.ltb (nth 0 e 0%nat) 1 then (0 + a)%nat else 0%nat) = a).
  { unfold e, unitv. destruct a as [|a]; cbn; auto. }
  rewrite E. apply Z. intros [i v] H. apply in_combine_r in H. apply repeat_spec in H. exact H.
Qed.

Lemma monomial_unit a b x : length x = (a + S b)%nat -> monomial x (unitv a b) == nth a x 0.
Proof.
  assert (Z: forall k xs, monomial xs (repeat 0%nat k) == 1).
  { unfold monomial. intros k. induction k as [|k IH]; intros [|y xs]; cbn [repeat combine fold_right fst snd]; try reflexivity.
    rewrite IH. cbn. ring. }
  revert x. induction a as [|a IH]; intros [|y x] H; try (cbn in H; lia).
  - unfold unitv. cbn [repeat app nth]. unfold monomial. cbn [combine fold_right fst snd]. fold (monomial x (repeat 0%nat b)).
    rewrite Z. cbn. ring.
  - unfold unitv, monomial. cbn [repeat app nth combine fold_right fst snd]. fold (unitv a b). fold (monomial x (unitv a b)).
    rewrite IH by (cbn in H; lia). cbn. ring.
Qed.

Lemma combine_seq_In {A} (l : list A) i x : In (i, x) (combine (seq 0 (length l)) l) <-> nth_error l i = Some x.
Proof.
  assert (H: forall k, In (i, x) (combine (seq k (length l)) l) <-> (k <= i)%nat /\ nth_error l (i - k) = Some x).
  { induction l as [|y l IH]; intros k; cbn [length seq combine].
    - split; [intros []|]. intros [_ H]. destruct (i - k)%nat; discriminate.
    - cbn [In]. rewrite IH. split.
      + intros [E|[H1 H2]].
        * injection E as -> ->. rewrite Nat.sub_diag. split; auto.
        * split; [lia|]. replace (i - k)%nat with (S (i - S k)) by lia. exact H2.
      + intros [H1 H2]. destruct (Nat.eq_dec k i) as [->|Hne].
        * rewrite Nat.sub_diag in H2. cbn in H2. left. congruence.
        * right. split; [lia|]. replace (i - k)%nat with (S (i - S k)) in H2 by lia. exact H2. }
  rewrite H, Nat.sub_0_r. intuition lia.
Qed.

Lemma poly_pairs_In powers j k : In (j, k) (poly_pairs powers) <->
  exists a b, j = a /\ nth_error powers k = Some (unitv a b).
Proof.
  unfold poly_pairs. rewrite in_flat_map. split.
  - intros ([i e] & H & Hin). apply combine_seq_In in H. cbn [snd fst] in Hin.
    destruct (Nat.eqb_spec (intsum e) 1) as [E|]; [|destruct Hin].
    destruct Hin as [E2|[]]. injection E2 as <- <-. rewrite intsum_spec in E. destruct (sum1_unit e E) as (a & b & ->).
    exists a, b. rewrite intmaxidx_unit. auto.
  - intros (a & b & -> & H). exists (k, unitv a b). split; [now apply combine_seq_In|]. cbn [snd fst].
    rewrite intsum_spec, unitv_sum. cbn. left. now rewrite intmaxidx_unit.
Qed.

Lemma outcols_spec (prs : list (nat * nat)) : forall m,
  let r := fold_left (fun m pr => if Nat.leb m (fst pr) then (fst pr + 1)%nat else m) prs m in
  (m <= r)%nat /\ (forall p, In p prs -> (fst p < r)%nat) /\ (r = m \/ exists p, In p prs /\ r = (fst p + 1)%nat).
Proof.
  induction prs as [|p prs IH]; intros m; cbn [fold_left].
  - cbn. repeat split; auto. intros p [].
  - cbv zeta. destruct (IH (if Nat.leb m (fst p) then (fst p + 1)%nat else m)) as (H1 & H2 & H3).
    set (r := fold_left _ prs _) in *. destruct (Nat.leb_spec m (fst p)).
    + split; [lia|]. split.
      * intros q [<-|Hq]; [lia|auto].
      * right. destruct H3 as [->|(q & Hq & ->)]; [exists p|exists q]; split; cbn; auto.
    + split; [lia|]. split.
      * intros q [<-|Hq]; [lia|auto].
      * destruct H3 as [->|(q & Hq & ->)]; [left; auto|right; exists q]; split; cbn; auto.
Qed.

Lemma inverse_fold x (xr : list Q) prs : forall out,
  length out = length x ->
  (forall p, In p prs -> (fst p < length x)%nat /\ exists v, nth_error xr (snd p) = Some v /\ v == nth (fst p) x 0) ->
  exists out', fold_left (fun acc pr =>
      match acc with
      | None => None
      | Some out =>
        match nth_error xr (snd pr) with
        | Some v => if Nat.ltb (fst pr) (length out) then Some (upd out (fst pr) v) else None
        | None => None
        end
      end) prs (Some out) = Some out' /\ length out' = length x /\
    forall j, (j < length x)%nat -> (In j (map fst prs) \/ nth j out 0 == nth j x 0) -> nth j out' 0 == nth j x 0.
Proof.
  induction prs as [|p prs IH]; intros out HL H; cbn [fold_left].
  - exists out. repeat split; auto. intros j _ [[]|E]; auto.
  - destruct (H p) as (Hj & v & Ev & Hv); [cbn; auto|]. rewrite Ev, HL.
    destruct (Nat.ltb_spec (fst p) (length x)); [|lia].
    destruct (IH (upd out (fst p) v)) as (out' & E & HL' & Hout).
    { now rewrite upd_length. }
    { intros q Hq. apply H. cbn; auto. }
    exists out'. split; [exact E|]. split; auto. intros j Hjx HH. apply Hout; auto.
    destruct (Nat.eq_dec (fst p) j) as [<-|Hne].
    + right. assert (EE: nth_error (upd out (fst p) v) (fst p) = Some v) by (apply nth_error_upd_same; lia).
      now rewrite (nth_error_nth _ _ 0 EE).
    + destruct HH as [[|Hin]|E2]; [congruence|left; exact Hin|]. right.
      assert (EE: nth_error (upd out (fst p) v) j = nth_error out j) by (now apply nth_error_upd_other).
      rewrite (nth_error_nth' out 0) in EE by lia. rewrite (nth_error_nth _ _ 0 EE). exact E2.
Qed.

Lemma Forall2_nth_Q (l l' : list Q) : length l = length l' ->
  (forall j, (j < length l')%nat -> nth j l 0 == nth j l' 0) -> Forall2 Qeq l l'.
Proof.
  revert l'. induction l as [|x l IH]; intros [|y l'] HL H; try discriminate; constructor.
  - apply (H 0%nat). cbn. lia.
  - apply IH; [cbn in HL; lia|]. intros j Hj. apply (H (S j)). cbn. lia.
Qed.

Lemma poly_roundtrip (powers : list (list nat)) (x : list Q) :
  x <> [] ->
  Forall (fun e => length e = length x) powers ->
  (forall a b, (a + S b)%nat = length x -> In (unitv a b) powers) ->
  exists out, poly_inverse_row powers (poly_transform_row powers x) = Some out /\ Forall2 Qeq out x.
Proof.
  intros Hx HL HU. unfold poly_inverse_row.
  assert (Hn: (0 < length x)%nat) by (destruct x; [congruence|cbn; lia]).
  assert (HP: forall p, In p (poly_pairs powers) -> (fst p < length x)%nat /\
     exists v, nth_error (poly_transform_row powers x) (snd p) = Some v /\ v == nth (fst p) x 0).
  { intros [j k] Hp. apply poly_pairs_In in Hp. destruct Hp as (a & b & -> & E). cbn [fst snd].
    assert (Hlen: length (unitv a b) = length x).
    { rewrite Forall_forall in HL. apply HL. eapply nth_error_In; eauto. }
    rewrite unitv_length in Hlen. split; [lia|].
    exists (poly_value x (unitv a b)). split.
    - unfold poly_transform_row. rewrite nth_error_map, E. reflexivity.
    - rewrite poly_value_eq by (now rewrite unitv_length). now apply monomial_unit. }
  assert (HC: poly_outcols powers = length x).
  { unfold poly_outcols. destruct (outcols_spec (poly_pairs powers) 0) as (_ & H2 & H3).
    set (r := fold_left _ _ _) in *. apply Nat.le_antisymm.
    - destruct H3 as [->|(p & Hp & ->)]; [lia|]. destruct (HP p Hp). lia.
    - specialize (HU (length x - 1)%nat 0%nat ltac:(lia)). apply In_nth_error in HU. destruct HU as [k E].
      assert (Hin: In ((length x - 1)%nat, k) (poly_pairs powers)) by (apply poly_pairs_In; eauto).
      specialize (H2 _ Hin). cbn [fst] in H2. lia. }
  rewrite HC. destruct (Nat.eqb_spec (length x) 0); [lia|].
  destruct (inverse_fold x (poly_transform_row powers x) (poly_pairs powers) (repeat 0 (length x))) as (out & E & HLo & Ho).
  { apply repeat_length. }
  { exact HP. }
  exists out. split; [exact E|]. apply Forall2_nth_Q; auto. intros j Hj. apply Ho; auto. left.
  specialize (HU j (length x - j - 1)%nat ltac:(lia)). apply In_nth_error in HU. destruct HU as [k Ek].
  apply in_map_iff. exists (j, k). split; auto. apply poly_pairs_In. eauto.
Qed.

Lemma poly_fit_roundtrip degree interaction bias x : (1 <= degree)%Z -> x <> [] ->
  exists f0 powers, (forall fuel, (f0 <= fuel)%nat -> poly_fit fuel degree interaction bias (length x) = Some powers) /\
  exists out, poly_inverse_row powers (poly_transform_row powers x) = Some out /\ Forall2 Qeq out x.
Proof.
  intros Hd Hx. destruct (poly_fit_correct degree interaction bias (length x)) as (f0 & powers & Hf & _ & HI).
  exists f0, powers. split; [exact Hf|]. apply poly_roundtrip; auto.
  - apply Forall_forall. intros e He. apply HI in He. tauto.
  - intros a b E. apply HI. rewrite unitv_length, unitv_sum. split; [exact E|]. split; [lia|]. split; [|lia].
    intros _. unfold unitv. apply Forall_app. split; [|constructor; [lia|]];
      (apply Forall_forall; intros p Hp; apply repeat_spec in Hp; lia).
Qed.
