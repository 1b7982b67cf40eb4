From Verif Require Import Common ParallelModel.

Definition range_of (c : nat * nat * nat) : list nat := let '(_, s, e) := c in seq s (e - s).
Definition call_id (c : nat * nat * nat) : nat := let '(t, _, _) := c in t.

(* ---------------------------------------------------------------- ranges *)

Lemma par_loop_past rem th s N : N <= th * s -> 0 < s -> par_loop rem th s N = [].
Proof.
  intros H Hs. destruct rem as [|r]; [reflexivity|]. cbn [par_loop].
  destruct (Nat.ltb_spec N ((th + 1) * s)) as [_|Hc]; [|exfalso; nia].
  destruct (Nat.leb_spec N (th * s)); [reflexivity|lia].
Qed.

Lemma par_loop_cover rem : forall th s N, th * s <= N ->
  flat_map range_of (par_loop rem th s N) = seq (th * s) (Nat.min N ((th + rem) * s) - th * s).
Proof.
  induction rem as [|r IH]; intros th s N H; cbn [par_loop].
  - rewrite Nat.add_0_r. replace (Nat.min N (th * s) - th * s) with 0 by lia. reflexivity.
  - destruct (Nat.ltb_spec N ((th + 1) * s)) as [H1|H1].
    + assert (Hs: 0 < s) by nia.
      replace (Nat.min N ((th + S r) * s)) with N by nia.
      destruct (Nat.leb_spec N (th * s)) as [H2|H2].
      * replace (N - th * s) with 0 by lia. reflexivity.
      * cbn [flat_map range_of]. rewrite par_loop_past by (nia || lia). now rewrite app_nil_r.
    + cbn [flat_map range_of]. rewrite IH by lia.
      replace (th + 1 + r) with (th + S r) by lia.
      replace ((th + 1) * s) with (th * s + s) by lia.
      replace (th * s + s - th * s) with s by lia.
      replace (Nat.min N ((th + S r) * s) - th * s) with (s + (Nat.min N ((th + S r) * s) - (th * s + s))) by nia.
      rewrite seq_app. reflexivity.
Qed.

Lemma par_loop_bounds rem : forall th s N,
  Forall (fun '(_, st, en) => st <= en /\ en <= N) (par_loop rem th s N).
Proof.
  induction rem as [|r IH]; intros th s N; cbn [par_loop]; [constructor|].
  destruct (Nat.ltb_spec N ((th + 1) * s)).
  - destruct (Nat.leb_spec N (th * s)); constructor; auto. lia.
  - constructor; auto. nia.
Qed.

Lemma par_loop_ids rem : forall th s N,
  map call_id (par_loop rem th s N) = seq th (length (par_loop rem th s N)) /\
  length (par_loop rem th s N) <= rem.
Proof.
  induction rem as [|r IH]; intros th s N; cbn [par_loop]; [split; auto|].
  destruct (IH (th + 1) s N) as [IH1 IH2].
  destruct (Nat.ltb_spec N ((th + 1) * s)).
  - destruct (Nat.leb_spec N (th * s)); cbn [map length call_id seq]; [split; [auto|lia]|].
    replace (S th) with (th + 1) by lia. rewrite IH1. split; [auto|lia].
  - cbn [map length call_id seq]. replace (S th) with (th + 1) by lia.
    rewrite IH1. split; [auto|lia].
Qed.

Lemma samp_per_th_enough t N : 0 < t -> N <= t * samp_per_th t N.
Proof.
  intros Ht. unfold samp_per_th.
  pose proof (Nat.div_mod (N + t - 1) t ltac:(lia)) as Hd.
  pose proof (Nat.mod_upper_bound (N + t - 1) t ltac:(lia)) as Hm. lia.
Qed.

Lemma eff_threads_pos numcpu threads : (0 < numcpu)%Z -> (0 < eff_threads numcpu threads)%Z.
Proof. unfold eff_threads. destruct (Z.leb_spec threads 0); lia. Qed.

Lemma calls_cover numcpu threads N : (0 < numcpu)%Z ->
  flat_map range_of (parallelize_calls numcpu threads N) = seq 0 N.
Proof.
  intros Hn. pose proof (eff_threads_pos numcpu threads Hn) as Hp.
  unfold parallelize_calls.
  destruct (Nat.eqb_spec (Z.to_nat (eff_threads numcpu threads)) 1) as [_|H].
  - cbn [flat_map range_of]. rewrite app_nil_r. now rewrite Nat.sub_0_r.
  - set (t := Z.to_nat (eff_threads numcpu threads)) in *.
    assert (Ht: 0 < t) by lia.
    rewrite par_loop_cover by lia.
    pose proof (samp_per_th_enough t N Ht).
    f_equal; simpl. lia.
Qed.

Lemma calls_bounds numcpu threads N :
  Forall (fun '(_, st, en) => st <= en /\ en <= N) (parallelize_calls numcpu threads N).
Proof.
  unfold parallelize_calls. destruct (Nat.eqb _ 1).
  - constructor; [lia|constructor].
  - apply par_loop_bounds.
Qed.

Lemma calls_ids numcpu threads N : (0 < numcpu)%Z ->
  map call_id (parallelize_calls numcpu threads N) = seq 0 (length (parallelize_calls numcpu threads N)) /\
  (Z.of_nat (length (parallelize_calls numcpu threads N)) <= eff_threads numcpu threads)%Z.
Proof.
  intros Hn. pose proof (eff_threads_pos numcpu threads Hn) as Hp.
  unfold parallelize_calls.
  destruct (Nat.eqb_spec (Z.to_nat (eff_threads numcpu threads)) 1) as [E|H].
  - simpl. split; auto. lia.
  - destruct (par_loop_ids (Z.to_nat (eff_threads numcpu threads)) 0
       (samp_per_th (Z.to_nat (eff_threads numcpu threads)) N) N) as [H1 H2].
    split; auto. lia.
Qed.

(* --------------------------------------------------------------- machine *)
Section Machine.
Variables (V L : Type).
Variable body : nat -> list (V * L -> V * L).
Variable l0 : L.

Notation run_prog := (@run_prog V L).
Notation exec_instr := (@exec_instr V L).
Notation prog_range := (@prog_range V L body).
Notation mstate := (@mstate V L).
Notation mstep := (@mstep V L body l0).
Notation mexec := (@mexec V L body l0).

Definition run_iter (i : nat) (st : V * L) : V * L := fold_left (fun st f => f st) (body i) st.

Definition cells (p : list (instr V L)) : list nat := map fst p.

Lemma exec_instr_length ins st : length (fst (exec_instr ins st)) = length (fst st).
Proof.
  unfold ParallelModel.exec_instr. destruct (nth_error (fst st) (fst ins)) as [v|]; auto.
  destruct (snd ins (v, snd st)). simpl. apply upd_length.
Qed.

Lemma run_prog_length p st : length (fst (run_prog p st)) = length (fst st).
Proof.
  revert st; induction p as [|ins p IH]; intros st; simpl; auto.
  unfold ParallelModel.run_prog in *. simpl. rewrite IH. apply exec_instr_length.
Qed.

Lemma run_prog_app p q st : run_prog (p ++ q) st = run_prog q (run_prog p st).
Proof. unfold ParallelModel.run_prog. apply fold_left_app. Qed.

Lemma exec_instr_other ins m l j :
  fst ins <> j -> nth_error (fst (exec_instr ins (m, l))) j = nth_error m j.
Proof.
  intros H. unfold ParallelModel.exec_instr; simpl. destruct (nth_error m (fst ins)) as [v|]; auto.
  destruct (snd ins (v, l)); simpl. now apply nth_error_upd_other.
Qed.

Lemma run_prog_other p : forall m l j,
  ~ In j (cells p) -> nth_error (fst (run_prog p (m, l))) j = nth_error m j.
Proof.
  induction p as [|ins p IH]; intros m l j H; auto.
  unfold ParallelModel.run_prog in *. cbn [fold_left].
  destruct (exec_instr ins (m, l)) as [m' l'] eqn:E. rewrite IH by (intro; apply H; simpl; auto).
  rewrite <- (exec_instr_other ins m l j) by (intro; apply H; simpl; auto). now rewrite E.
Qed.

(* an instruction sees only its own cell *)
Lemma exec_instr_local ins m1 m2 l :
  nth_error m1 (fst ins) = nth_error m2 (fst ins) ->
  snd (exec_instr ins (m1, l)) = snd (exec_instr ins (m2, l)) /\
  nth_error (fst (exec_instr ins (m1, l))) (fst ins) = nth_error (fst (exec_instr ins (m2, l))) (fst ins).
Proof.
  intros H. unfold ParallelModel.exec_instr; simpl. rewrite <- H.
  destruct (nth_error m1 (fst ins)) as [v|] eqn:E; simpl; [|split; congruence].
  destruct (snd ins (v, l)); simpl. split; auto.
  rewrite !nth_error_upd_same; auto; apply nth_error_Some; congruence.
Qed.

(* run_prog depends on, and changes, only its own cells *)
Lemma run_prog_local p : forall m1 m2 l,
  (forall j, In j (cells p) -> nth_error m1 j = nth_error m2 j) ->
  snd (run_prog p (m1, l)) = snd (run_prog p (m2, l)) /\
  (forall j, In j (cells p) ->
    nth_error (fst (run_prog p (m1, l))) j = nth_error (fst (run_prog p (m2, l))) j).
Proof.
  induction p as [|ins p IH]; intros m1 m2 l H.
  - split; [reflexivity|]. intros j [].
  - unfold ParallelModel.run_prog in *. cbn [fold_left].
    destruct (exec_instr ins (m1, l)) as [m1' l1'] eqn:E1.
    destruct (exec_instr ins (m2, l)) as [m2' l2'] eqn:E2.
    destruct (exec_instr_local ins m1 m2 l) as [Hl Hv]; [apply H; simpl; auto|].
    rewrite E1, E2 in Hl, Hv. simpl in Hl, Hv. subst l2'.
    assert (Hs: forall j, nth_error m1 j = nth_error m2 j -> nth_error m1' j = nth_error m2' j).
    { intros j Hj. destruct (Nat.eq_dec (fst ins) j) as [<-|Hn]; auto.
      rewrite <- (exec_instr_other ins m1 l j Hn), <- (exec_instr_other ins m2 l j Hn) in Hj.
      now rewrite E1, E2 in Hj. }
    destruct (IH m1' m2' l1') as [IHl IHv].
    { intros j Hj. apply Hs. apply H. simpl; auto. }
    split; auto.
    intros j [Hj|Hj]; [|now apply IHv].
    destruct (in_dec Nat.eq_dec j (cells p)) as [Hin|Hnin]; [now apply IHv|].
    pose proof (run_prog_other p m1' l1' j Hnin) as R1.
    pose proof (run_prog_other p m2' l1' j Hnin) as R2.
    unfold ParallelModel.run_prog in R1, R2.
    rewrite R1, R2. apply Hs. apply H. simpl; auto.
Qed.

Lemma run_prog_commute p q m lp lq :
  (forall j, In j (cells p) -> In j (cells q) -> False) ->
  fst (run_prog q (fst (run_prog p (m, lp)), lq)) = fst (run_prog p (fst (run_prog q (m, lq)), lp)) /\
  snd (run_prog q (fst (run_prog p (m, lp)), lq)) = snd (run_prog q (m, lq)).
Proof.
  intros Hd.
  set (mp := fst (run_prog p (m, lp))). set (mq := fst (run_prog q (m, lq))).
  assert (Hq: forall j, In j (cells q) -> nth_error mp j = nth_error m j).
  { intros j Hj. apply run_prog_other. intro; eapply Hd; eauto. }
  assert (Hp: forall j, In j (cells p) -> nth_error mq j = nth_error m j).
  { intros j Hj. apply run_prog_other. intro; eapply Hd; eauto. }
  destruct (run_prog_local q mp m lq Hq) as [Q1 Q2].
  destruct (run_prog_local p mq m lp Hp) as [P1 P2].
  split; auto.
  apply list_ext. intro j.
  destruct (in_dec Nat.eq_dec j (cells q)) as [Hjq|Hjq].
  - rewrite Q2 by assumption. symmetry. apply run_prog_other. intro; eapply Hd; eauto.
  - rewrite run_prog_other by assumption.
    destruct (in_dec Nat.eq_dec j (cells p)) as [Hjp|Hjp].
    + symmetry. now apply P2.
    + unfold mp. rewrite (run_prog_other p m lp j Hjp).
      rewrite (run_prog_other p mq lp j Hjp). symmetry. now apply run_prog_other.
Qed.

(* ---- what remains to be done, executed in spawn order *)
Definition finish_workers (ws : list (worker V L)) (m : list V) : list V :=
  fold_left (fun m w => fst (run_prog (w_prog w) (m, w_loc w))) ws m.
Definition finish_ranges (rs : list (nat * nat * nat)) (m : list V) : list V :=
  fold_left (fun m r => fst (run_prog (prog_range (snd (fst r)) (snd r)) (m, l0))) rs m.
Definition finish (s : mstate) : list V :=
  finish_ranges (to_spawn s) (finish_workers (workers s) (memory s)).

Lemma finish_workers_commute ws : forall p l m,
  (forall w j, In w ws -> In j (cells (w_prog w)) -> In j (cells p) -> False) ->
  finish_workers ws (fst (run_prog p (m, l))) = fst (run_prog p (finish_workers ws m, l)) /\
  snd (run_prog p (finish_workers ws m, l)) = snd (run_prog p (m, l)).
Proof.
  induction ws as [|w ws IH]; intros p l m H; [split; reflexivity|].
  unfold finish_workers in *. cbn [fold_left].
  destruct (run_prog_commute p (w_prog w) m l (w_loc w)) as [C1 C2].
  { intros j Hj1 Hj2. eapply H; eauto. left; reflexivity. }
  destruct (run_prog_commute (w_prog w) p m (w_loc w) l) as [C3 C4].
  { intros j Hj1 Hj2. eapply H; eauto. left; reflexivity. }
  rewrite C1.
  destruct (IH p l (fst (run_prog (w_prog w) (m, w_loc w)))) as [I1 I2].
  { intros w' j Hw. apply H. right; auto. }
  split; [exact I1|]. now rewrite I2, C4.
Qed.

Lemma cells_prog_range s e j : In j (cells (prog_range s e)) -> s <= j < e.
Proof.
  unfold cells, ParallelModel.prog_range. rewrite in_map_iff.
  intros ([i f] & Hf & Hin). simpl in Hf; subst i.
  apply in_flat_map in Hin. destruct Hin as (k & Hk & Hin).
  apply in_seq in Hk. apply in_map_iff in Hin. destruct Hin as (g & Hg & _). injection Hg as -> _. lia.
Qed.

Set Implicit Arguments.
(* every worker owns a sub-range of the ranges list, in order *)
Definition owns (w : worker V L) (r : nat * nat * nat) : Prop :=
  forall j, In j (cells (w_prog w)) -> In j (range_of r).

Definition count_live (ws : list (worker V L)) : nat :=
  length (filter (fun w => negb (w_done w)) ws).

Record Inv (ranges : list (nat * nat * nat)) (m0 : list V) (s : mstate) : Prop := {
  inv_owns : exists rs, ranges = rs ++ to_spawn s /\ Forall2 owns (workers s) rs;
  inv_wg : wgcount s = count_live (workers s);
  inv_done : forall w, In w (workers s) -> w_done w = true -> w_prog w = [];
  inv_finish : finish s = finish_ranges ranges m0;
  inv_ret : returned s = true -> to_spawn s = [] /\ wgcount s = 0 }.

Lemma inv_init ranges m0 : Inv ranges m0 (minit L ranges m0).
Proof.
  constructor; simpl; auto.
  - exists []. split; auto.
  - intros w [].
  - discriminate.
Qed.

Lemma Forall2_upd_l {A B} (R : A -> B -> Prop) l l' i x y :
  Forall2 R l l' -> nth_error l' i = Some y -> R x y -> Forall2 R (upd l i x) l'.
Proof.
  intros H; revert i; induction H as [|a b l l' Hab H IH]; intros [|i] E Hx; simpl; try discriminate.
  - injection E as <-. constructor; auto.
  - constructor; auto.
Qed.

Lemma NoDup_flat_map_disjoint {A B} (f : A -> list B) l1 x l2 y l3 :
  NoDup (flat_map f (l1 ++ x :: l2 ++ y :: l3)) -> forall j, In j (f x) -> In j (f y) -> False.
Proof.
  rewrite flat_map_app; cbn [flat_map]. rewrite flat_map_app; cbn [flat_map].
  rewrite !NoDup_app_iff. intros (_ & (_ & _ & Hd) & _) j Hx Hy.
  apply (Hd j Hx). rewrite !in_app_iff. auto.
Qed.

Lemma In_firstn_nth {A} (l : list A) k x : In x (firstn k l) -> exists i, i < k /\ nth_error l i = Some x.
Proof.
  revert l; induction k as [|k IH]; intros [|y l]; simpl; try tauto.
  intros [->|H]; [exists 0; split; [lia|reflexivity]|].
  destruct (IH l H) as (i & Hi & E). exists (S i); split; [lia|exact E].
Qed.

Lemma nth_error_two_split {A} (l : list A) i k x y : i < k ->
  nth_error l i = Some x -> nth_error l k = Some y ->
  exists l1 l2 l3, l = l1 ++ x :: l2 ++ y :: l3.
Proof.
  intros Hik Ex Ey.
  pose proof (nth_error_split' l i Ex) as E.
  assert (Ey': nth_error (skipn (S i) l) (k - S i) = Some y).
  { rewrite E in Ey at 1. rewrite nth_error_app2 in Ey; rewrite firstn_length_le in *;
      try (apply Nat.lt_le_incl, nth_error_Some; congruence); try lia.
    replace (k - i) with (S (k - S i)) in Ey by lia. exact Ey. }
  pose proof (nth_error_split' _ _ Ey') as E2.
  exists (firstn i l), (firstn (k - S i) (skipn (S i) l)), (skipn (S (k - S i)) (skipn (S i) l)).
  rewrite E at 1. now rewrite E2 at 1.
Qed.

Lemma finish_workers_upd ws k w w' m :
  nth_error ws k = Some w ->
  finish_workers (upd ws k w') m =
  finish_workers (skipn (S k) ws)
    (fst (run_prog (w_prog w') (finish_workers (firstn k ws) m, w_loc w'))).
Proof.
  intros E. rewrite upd_split by (apply nth_error_Some; congruence).
  unfold finish_workers. rewrite fold_left_app. reflexivity.
Qed.

Lemma finish_workers_split ws k w m :
  nth_error ws k = Some w ->
  finish_workers ws m =
  finish_workers (skipn (S k) ws)
    (fst (run_prog (w_prog w) (finish_workers (firstn k ws) m, w_loc w))).
Proof.
  intros E. rewrite (nth_error_split' _ _ E) at 1.
  unfold finish_workers. rewrite fold_left_app. reflexivity.
Qed.

Lemma count_live_upd_same ws k w w' :
  nth_error ws k = Some w -> w_done w' = w_done w -> count_live (upd ws k w') = count_live ws.
Proof.
  revert k; induction ws as [|x ws IH]; intros [|k] E Hd; try discriminate.
  - injection E as <-. unfold count_live; simpl. rewrite Hd. destruct (negb (w_done x)); reflexivity.
  - unfold count_live in *; simpl. specialize (IH k E Hd). destruct (negb (w_done x)); simpl; auto.
Qed.

Lemma count_live_upd_done ws k w w' :
  nth_error ws k = Some w -> w_done w = false -> w_done w' = true ->
  S (count_live (upd ws k w')) = count_live ws.
Proof.
  revert k; induction ws as [|x ws IH]; intros [|k] E Hd Hd'; try discriminate.
  - injection E as <-. unfold count_live; simpl. now rewrite Hd, Hd'.
  - unfold count_live in *; simpl. specialize (IH k E Hd Hd'). destruct (negb (w_done x)); simpl; auto.
Qed.

Lemma In_upd {A} (l : list A) k v x : In x (upd l k v) -> x = v \/ In x l.
Proof.
  revert k; induction l as [|y l IH]; intros [|k]; simpl; auto.
  - intros [->|H]; auto.
  - intros [->|H]; auto. destruct (IH k H); auto.
Qed.

Lemma inv_step ranges m0 s c s' :
  NoDup (flat_map range_of ranges) ->
  Inv ranges m0 s -> mstep s c = Some s' -> Inv ranges m0 s'.
Proof.
  intros ND [Hown Hwg Hdn Hf Hret] Hs.
  destruct c as [|k|k|]; cbn [ParallelModel.mstep] in Hs.
  - (* Spawn *)
    destruct (to_spawn s) as [|[[t st] en] rest] eqn:Esp; [discriminate|]. injection Hs as <-.
    destruct Hown as (rs & Hr & Hf2).
    constructor; cbn [to_spawn workers wgcount returned memory].
    + exists (rs ++ [(t, st, en)]). split.
      * rewrite <- app_assoc. exact Hr.
      * apply Forall2_app; auto. constructor; [|constructor].
        intros j Hj. simpl in Hj. apply cells_prog_range in Hj. simpl. apply in_seq. lia.
    + rewrite Hwg. unfold count_live. rewrite filter_app, app_length. reflexivity.
    + intros w Hw Hd. apply in_app_iff in Hw. destruct Hw as [Hw|[<-|[]]]; [auto|discriminate].
    + rewrite <- Hf. unfold finish; cbn [to_spawn workers memory]. rewrite Esp.
      unfold finish_workers, finish_ranges. rewrite fold_left_app. reflexivity.
    + intros H. destruct (Hret H) as [H1 _]. discriminate.
  - (* Run *)
    destruct (nth_error (workers s) k) as [[[|ins p] l d]|] eqn:Ek; try discriminate.
    destruct (exec_instr ins (memory s, l)) as [m' l'] eqn:Ex. injection Hs as <-.
    destruct Hown as (rs & Hr & Hf2).
    destruct (Forall2_nth_error k Hf2 Ek) as (r & Er & Hor).
    constructor; cbn [to_spawn workers wgcount returned memory]; auto.
    + exists rs. split; auto. eapply Forall2_upd_l; eauto.
      intros j Hj. apply Hor. simpl in *. auto.
    + rewrite Hwg. symmetry. eapply count_live_upd_same; eauto.
    + intros w Hw Hd. apply In_upd in Hw. destruct Hw as [->|Hw]; auto.
      simpl in *. apply nth_error_In in Ek. specialize (Hdn _ Ek). simpl in Hdn.
      specialize (Hdn Hd). discriminate.
    + rewrite <- Hf. unfold finish; cbn [to_spawn workers memory]. f_equal.
      rewrite (finish_workers_upd _ _ _ _ Ek). rewrite (finish_workers_split _ _ _ Ek).
      f_equal. cbn [w_prog w_loc].
      destruct (finish_workers_commute (firstn k (workers s)) [ins] l (memory s)) as [C1 C2].
      { intros w j Hw Hj [Hji|[]]. subst j.
        apply In_firstn_nth in Hw; destruct Hw as (i & Hik & Ei).
        destruct (Forall2_nth_error i Hf2 Ei) as (r' & Er' & Hor').
        destruct (nth_error_two_split _ Hik Er' Er) as (l1 & l2 & l3 & E3).
        rewrite Hr, E3 in ND.
        rewrite <- app_assoc in ND. cbn [app] in ND. rewrite <- app_assoc in ND. cbn [app] in ND.
        eapply (NoDup_flat_map_disjoint _ _ _ _ _ _ ND (fst ins)); [apply Hor'; auto|].
        apply Hor. simpl; auto. }
      unfold ParallelModel.run_prog in C1, C2; cbn [fold_left] in C1, C2.
      rewrite Ex in C1, C2; cbn [fst snd] in C1, C2.
      rewrite C1. unfold ParallelModel.run_prog; cbn [fold_left].
      destruct (exec_instr ins (finish_workers (firstn k (workers s)) (memory s), l)) as [m2 l2] eqn:E2.
      cbn [fst snd] in *. now rewrite C2.
  - (* Done *)
    destruct (nth_error (workers s) k) as [[[|ins p] l [|]]|] eqn:Ek; try discriminate.
    injection Hs as <-.
    destruct Hown as (rs & Hr & Hf2).
    destruct (Forall2_nth_error k Hf2 Ek) as (r & Er & Hor).
    constructor; cbn [to_spawn workers wgcount returned memory]; auto.
    + exists rs. split; [exact Hr|]. eapply Forall2_upd_l; eauto.
    + rewrite Hwg.
      pose proof (count_live_upd_done (workers s) k {| w_prog := []; w_loc := l; w_done := true |} Ek eq_refl eq_refl).
      lia.
    + intros w Hw Hd. apply In_upd in Hw. destruct Hw as [->|Hw]; auto.
    + rewrite <- Hf. unfold finish; cbn [to_spawn workers memory]. f_equal.
      rewrite (finish_workers_upd _ _ _ _ Ek). rewrite (finish_workers_split _ _ _ Ek). reflexivity.
    + intros H. destruct (Hret H) as [H1 H2]. split; auto. now rewrite H2.
  - (* Return *)
    destruct (to_spawn s) eqn:Esp; [|discriminate].
    destruct (wgcount s) eqn:Ewg; [|discriminate].
    destruct (returned s) eqn:Eret; [discriminate|]. injection Hs as <-.
    constructor; cbn [to_spawn workers wgcount returned memory]; auto.
    rewrite <- Hf. unfold finish; cbn [to_spawn workers memory]. now rewrite Esp.
Qed.

Lemma inv_exec ranges m0 sched : NoDup (flat_map range_of ranges) ->
  forall s s', Inv ranges m0 s -> mexec s sched = Some s' -> Inv ranges m0 s'.
Proof.
  intros ND. induction sched as [|c cs IH]; intros s s' HI E; cbn [ParallelModel.mexec] in E.
  - now injection E as <-.
  - destruct (mstep s c) as [s1|] eqn:E1; [|discriminate].
    apply (IH s1 s'); [|exact E]. exact (inv_step _ ND HI E1).
Qed.

Lemma count_live_zero ws : count_live ws = 0 -> forall w, In w ws -> w_done w = true.
Proof.
  unfold count_live. induction ws as [|x ws IH]; simpl; [tauto|].
  destruct (w_done x) eqn:E; simpl; [|discriminate].
  intros H w [<-|Hw]; auto.
Qed.

Lemma finish_workers_nil ws m : (forall w, In w ws -> w_prog w = []) -> finish_workers ws m = m.
Proof.
  induction ws as [|w ws IH]; intros H; [reflexivity|].
  unfold finish_workers in *; cbn [fold_left]. rewrite (H w) by (left; reflexivity).
  cbn. apply IH. intros; apply H; right; auto.
Qed.

Lemma inv_returned ranges m0 s : Inv ranges m0 s -> returned s = true ->
  memory s = finish_ranges ranges m0.
Proof.
  intros [Hown Hwg Hdn Hf Hret] Hr. rewrite <- Hf. destruct (Hret Hr) as [E1 E2].
  unfold finish. rewrite E1. unfold finish_ranges; simpl.
  rewrite finish_workers_nil; auto.
  intros w Hw. apply Hdn; auto. eapply count_live_zero; eauto. congruence.
Qed.

(* progress: before returning, something can always step *)
Lemma inv_progress ranges m0 s : Inv ranges m0 s -> returned s = false ->
  exists c s', mstep s c = Some s'.
Proof.
  intros [Hown Hwg Hdn Hf Hret] Hr.
  destruct (to_spawn s) as [|[[t st] en] rest] eqn:Esp.
  - destruct (wgcount s) as [|n] eqn:Ew.
    + exists Return. simpl. rewrite Esp, Ew, Hr. eauto.
    + assert (exists k w, nth_error (workers s) k = Some w /\ w_done w = false) as (k & w & Ek & Ed).
      { unfold count_live in Hwg. clear - Hwg. revert n Hwg.
        induction (workers s) as [|x ws IH]; intros n H; simpl in H; [discriminate|].
        destruct (w_done x) eqn:E; simpl in H.
        - destruct (IH n H) as (k & w & E1 & E2). exists (S k), w; auto.
        - exists 0, x; auto. }
      destruct w as [[|ins p] l d]; simpl in Ed; subst d.
      * exists (Done k). cbn [ParallelModel.mstep]. rewrite Ek. eauto.
      * exists (Run k). cbn [ParallelModel.mstep]. rewrite Ek. destruct (exec_instr _ _); eauto.
  - exists Spawn. cbn [ParallelModel.mstep]. rewrite Esp. eauto.
Qed.

(* termination: a measure that every step decreases *)
Definition wmeasure (w : worker V L) : nat := length (w_prog w) + (if w_done w then 0 else 1).
Definition rmeasure (r : nat * nat * nat) : nat := length (prog_range (snd (fst r)) (snd r)) + 2.
Definition mmeasure (s : mstate) : nat :=
  list_sum (map rmeasure (to_spawn s)) + list_sum (map wmeasure (workers s)) + (if returned s then 0 else 1).

Lemma list_sum_map_upd {A} (f : A -> nat) ws k w w' : nth_error ws k = Some w -> f w' < f w ->
  list_sum (map f (upd ws k w')) < list_sum (map f ws).
Proof.
  revert k; induction ws as [|x ws IH]; intros [|k] E H; try discriminate; simpl.
  - injection E as ->. lia.
  - specialize (IH k E H). lia.
Qed.

Lemma step_measure s c s' : mstep s c = Some s' -> mmeasure s' < mmeasure s.
Proof.
  intros Hs. unfold mmeasure.
  destruct c as [|k|k|]; cbn [ParallelModel.mstep] in Hs.
  - destruct (to_spawn s) as [|[[t st] en] rest] eqn:Esp; [discriminate|]. injection Hs as <-.
    cbn [to_spawn workers returned]. rewrite map_app, list_sum_app.
    cbn [map list_sum fold_right]. change (list_sum []) with 0. unfold rmeasure at 2, wmeasure at 2. cbn [w_prog w_done fst snd]. unfold list_sum. cbn [fold_right]. lia.
  - destruct (nth_error (workers s) k) as [[[|ins p] l d]|] eqn:Ek; try discriminate.
    destruct (exec_instr ins (memory s, l)) as [m' l']. injection Hs as <-.
    cbn [to_spawn workers returned].
    pose proof (list_sum_map_upd wmeasure _ _ {| w_prog := p; w_loc := l'; w_done := d |} Ek) as H.
    unfold wmeasure in H at 1 2; simpl in H. specialize (H ltac:(lia)). lia.
  - destruct (nth_error (workers s) k) as [[[|ins p] l [|]]|] eqn:Ek; try discriminate.
    injection Hs as <-. cbn [to_spawn workers returned].
    pose proof (list_sum_map_upd wmeasure _ _ {| w_prog := []; w_loc := l; w_done := true |} Ek) as H.
    unfold wmeasure in H at 1 2; simpl in H. specialize (H ltac:(lia)). lia.
  - destruct (to_spawn s) eqn:Esp; [|discriminate].
    destruct (wgcount s) eqn:Ewg; [|discriminate].
    destruct (returned s) eqn:Eret; [discriminate|]. injection Hs as <-. simpl. lia.
Qed.

Lemma exec_measure sched : forall s s', mexec s sched = Some s' -> length sched + mmeasure s' <= mmeasure s.
Proof.
  induction sched as [|c cs IH]; intros s s' E; cbn [ParallelModel.mexec length] in *.
  - injection E as <-. lia.
  - destruct (mstep s c) as [s1|] eqn:E1; [|discriminate].
    pose proof (step_measure _ _ E1). specialize (IH _ _ E). lia.
Qed.

Lemma mexec_app sched1 : forall s s1 sched2, mexec s sched1 = Some s1 ->
  mexec s (sched1 ++ sched2) = mexec s1 sched2.
Proof.
  induction sched1 as [|c cs IH]; intros s s1 sched2 E; cbn [ParallelModel.mexec app] in *.
  - now injection E as <-.
  - destruct (mstep s c); [|discriminate]. now apply IH.
Qed.

Lemma can_finish ranges m0 : NoDup (flat_map range_of ranges) -> forall n s,
  mmeasure s <= n -> Inv ranges m0 s ->
  exists sched s', mexec s sched = Some s' /\ returned s' = true.
Proof.
  intros ND. induction n as [|n IH]; intros s Hm HI.
  - destruct (returned s) eqn:Er; [exists [], s; auto|].
    destruct (inv_progress HI Er) as (c & s' & E). pose proof (step_measure _ _ E). lia.
  - destruct (returned s) eqn:Er; [exists [], s; auto|].
    destruct (inv_progress HI Er) as (c & s' & E). pose proof (step_measure _ _ E).
    destruct (IH s') as (sched & s2 & E2 & R2); [lia|eapply inv_step; eauto|].
    exists (c :: sched), s2. split; auto. cbn [ParallelModel.mexec]. now rewrite E.
Qed.

Unset Implicit Arguments.
(* --------- sequential result, cell by cell *)
Definition cell_result (i : nat) (v : V) : V := fst (run_iter i (v, l0)).

Variable P : L -> Prop.   (* invariant of the goroutine-local state *)
Definition local_irrelevant : Prop :=
  P l0 /\ (forall i v l, P l -> P (snd (run_iter i (v, l)))) /\
  (forall i v l, P l -> fst (run_iter i (v, l)) = fst (run_iter i (v, l0))).

Lemma run_iter_prog i : forall fs v l m,
  nth_error m i = Some v ->
  run_prog (map (pair i) fs) (m, l) =
  (upd m i (fst (fold_left (fun st f => f st) fs (v, l))), snd (fold_left (fun st f => f st) fs (v, l))).
Proof.
  induction fs as [|f fs IH]; intros v l m E; cbn [map fold_left].
  - cbn. f_equal. symmetry. now apply upd_same.
  - unfold ParallelModel.run_prog in *. cbn [fold_left].
    unfold ParallelModel.exec_instr at 2; cbn [fst snd]. rewrite E.
    destruct (f (v, l)) as [v' l'].
    rewrite (IH v' l').
    + now rewrite upd_upd.
    + apply nth_error_upd_same. apply nth_error_Some. congruence.
Qed.

Lemma run_prog_range_cells (Hloc : local_irrelevant) : forall len st m l, P l ->
  st + len <= length m ->
  forall j, nth_error (fst (run_prog (prog_range st (st + len)) (m, l))) j =
    if andb (Nat.leb st j) (Nat.ltb j (st + len)) then option_map (cell_result j) (nth_error m j)
    else nth_error m j.
Proof.
  induction len as [|len IH]; intros st m l HP Hlen j.
  - unfold ParallelModel.prog_range. replace (st + 0 - st) with 0 by lia. cbn [seq flat_map ParallelModel.run_prog fold_left fst].
    destruct (Nat.leb_spec st j), (Nat.ltb_spec j (st + 0)); cbn [andb]; auto; lia.
  - unfold ParallelModel.prog_range. replace (st + S len - st) with (S len) by lia.
    cbn [seq flat_map]. rewrite run_prog_app.
    destruct (nth_error m st) as [v|] eqn:Ev; [|apply nth_error_None in Ev; lia].
    rewrite (run_iter_prog st (body st) v l m Ev).
    match goal with |- context [run_prog _ (?a, ?b)] => set (m1 := a); set (l1 := b) end.
    specialize (IH (S st) m1 l1). unfold ParallelModel.prog_range in IH.
    replace (S st + len - S st) with len in IH by lia.
    rewrite IH; [|apply (proj1 (proj2 Hloc) st v l HP)|unfold m1; rewrite upd_length; lia].
    unfold m1. rewrite !nth_error_upd.
    replace (S st + len) with (st + S len) by lia.
    destruct (Nat.eqb_spec st j) as [<-|Hne].
    + destruct (Nat.leb_spec (S st) st); [lia|]. cbn [andb].
      destruct (Nat.leb_spec st st); [|lia]. destruct (Nat.ltb_spec st (st + S len)); [|lia]. cbn [andb].
      destruct (Nat.ltb_spec st (length m)); [|lia]. rewrite Ev. cbn [option_map].
      f_equal. apply (proj2 (proj2 Hloc) st v l HP).
    + destruct (Nat.leb_spec (S st) j), (Nat.leb_spec st j), (Nat.ltb_spec j (st + S len)); cbn [andb]; auto; lia.
Qed.

Lemma finish_ranges_cells (Hloc : local_irrelevant) : forall ranges m,
  NoDup (flat_map range_of ranges) ->
  Forall (fun '(_, st, en) => st <= en /\ en <= length m) ranges ->
  forall j, nth_error (finish_ranges ranges m) j =
    if existsb (Nat.eqb j) (flat_map range_of ranges) then option_map (cell_result j) (nth_error m j)
    else nth_error m j.
Proof.
  induction ranges as [|[[t st] en] rs IH]; intros m ND HB j; [reflexivity|].
  apply Forall_cons_iff in HB. destruct HB as [[Hb1 Hb2] HB'].
  cbn [flat_map range_of] in *. apply NoDup_app_iff in ND. destruct ND as (ND1 & ND2 & ND3).
  unfold finish_ranges in *. cbn [fold_left fst snd].
  set (m1 := fst (run_prog (prog_range st en) (m, l0))).
  assert (Hl: length m1 = length m) by (unfold m1; apply run_prog_length).
  rewrite IH; auto; [|now rewrite Hl].
  assert (Hm1: nth_error m1 j = if andb (Nat.leb st j) (Nat.ltb j en) then option_map (cell_result j) (nth_error m j) else nth_error m j).
  { unfold m1. pose proof (run_prog_range_cells Hloc (en - st) st m l0 (proj1 Hloc) ltac:(lia) j) as H.
    replace (st + (en - st)) with en in H by lia. exact H. }
  rewrite Hm1, existsb_app.
  assert (Hr: existsb (Nat.eqb j) (seq st (en - st)) = andb (Nat.leb st j) (Nat.ltb j en)).
  { apply Bool.eq_iff_eq_true. rewrite existsb_exists, andb_true_iff, Nat.leb_le, Nat.ltb_lt.
    split.
    - intros (x & Hx & E). apply Nat.eqb_eq in E. subst x. apply in_seq in Hx. lia.
    - intros Hj. exists j. split; [apply in_seq; lia|apply Nat.eqb_refl]. }
  rewrite Hr.
  destruct (andb (Nat.leb st j) (Nat.ltb j en)) eqn:Ej; cbn [orb]; auto.
  destruct (existsb (Nat.eqb j) (flat_map range_of rs)) eqn:Ex; auto.
  exfalso. apply existsb_exists in Ex. destruct Ex as (x & Hx & E). apply Nat.eqb_eq in E. subst x.
  apply (ND3 j); auto. apply existsb_exists in Hr.
  destruct Hr as (y & Hy & E). apply Nat.eqb_eq in E. now subst y.
Qed.

Lemma existsb_seq j n : existsb (Nat.eqb j) (seq 0 n) = Nat.ltb j n.
Proof.
  apply Bool.eq_iff_eq_true. rewrite existsb_exists, Nat.ltb_lt. split.
  - intros (x & Hx & E). apply Nat.eqb_eq in E. subst. apply in_seq in Hx. lia.
  - intros H. exists j. split; [apply in_seq; lia|apply Nat.eqb_refl].
Qed.

Lemma seq_loop_cells (Hloc : local_irrelevant) N m j : N <= length m ->
  nth_error (seq_loop body l0 N m) j =
  if Nat.ltb j N then option_map (cell_result j) (nth_error m j) else nth_error m j.
Proof.
  intros H. unfold seq_loop. exact (run_prog_range_cells Hloc N 0 m l0 (proj1 Hloc) H j).
Qed.

Lemma parallelize_run_correct (Hloc : local_irrelevant) numcpu threads N sched m m' :
  (0 < numcpu)%Z -> N <= length m ->
  parallelize_run body l0 numcpu threads N sched m = Some m' -> m' = seq_loop body l0 N m.
Proof.
  intros Hn Hlen H. unfold parallelize_run in H.
  destruct (Nat.eqb (Z.to_nat (eff_threads numcpu threads)) 1).
  - injection H as <-. reflexivity.
  - destruct (mexec _ sched) as [s|] eqn:E; [|discriminate].
    destruct (returned s) eqn:Er; [|discriminate]. injection H as <-.
    assert (ND: NoDup (flat_map range_of (parallelize_calls numcpu threads N))).
    { rewrite calls_cover by assumption. apply seq_NoDup. }
    rewrite (inv_returned (inv_exec sched ND (inv_init _ m) E) Er).
    apply list_ext. intro j.
    rewrite (finish_ranges_cells Hloc _ _ ND), calls_cover, existsb_seq, seq_loop_cells; auto.
    pose proof (calls_bounds numcpu threads N) as HB.
    eapply Forall_impl; [|exact HB]. intros [[? ?] ?]. lia.
Qed.

Lemma parallelize_run_terminates numcpu threads N m :
  (0 < numcpu)%Z -> Nat.eqb (Z.to_nat (eff_threads numcpu threads)) 1 = false ->
  (forall sched s, mexec (minit L (parallelize_calls numcpu threads N) m) sched = Some s ->
     length sched <= mmeasure (minit L (parallelize_calls numcpu threads N) m) /\
     exists sched' s', mexec s sched' = Some s' /\ returned s' = true).
Proof.
  intros Hn Ht sched s E.
  assert (ND: NoDup (flat_map range_of (parallelize_calls numcpu threads N))).
  { rewrite calls_cover by assumption. apply seq_NoDup. }
  split.
  - pose proof (exec_measure _ _ E). lia.
  - eapply can_finish; eauto. eapply inv_exec; eauto. apply inv_init.
Qed.

End Machine.

Definition covers (i : nat) (c : nat * nat * nat) : bool :=
  let '(_, s, e) := c in andb (Nat.leb s i) (Nat.ltb i e).

Lemma count_covers i calls :
  length (filter (covers i) calls) = count_occ Nat.eq_dec (flat_map range_of calls) i.
Proof.
  induction calls as [|[[t s] e] cs IH]; [reflexivity|].
  cbn [filter flat_map range_of covers]. rewrite count_occ_app, <- IH.
  destruct (Nat.leb_spec s i) as [H1|H1]; [destruct (Nat.ltb_spec i e) as [H2|H2]|]; cbn [andb length].
  - assert (Hin: In i (seq s (e - s))) by (apply in_seq; lia).
    pose proof (proj1 (NoDup_count_occ' Nat.eq_dec _) (seq_NoDup (e - s) s) i Hin) as E. lia.
  - rewrite (proj1 (count_occ_not_In Nat.eq_dec (seq s (e - s)) i)); [reflexivity|]. rewrite in_seq. lia.
  - rewrite (proj1 (count_occ_not_In Nat.eq_dec (seq s (e - s)) i)); [reflexivity|]. rewrite in_seq. lia.
Qed.

Lemma parallelize_partition numcpu threads N : (0 < numcpu)%Z ->
  let calls := parallelize_calls numcpu threads N in
  (forall th s e, In (th, s, e) calls -> s <= e /\ e <= N) /\
  (forall i, i < N -> length (filter (covers i) calls) = 1) /\
  (forall i, N <= i -> length (filter (covers i) calls) = 0) /\
  NoDup (map call_id calls) /\
  (forall th s e, In (th, s, e) calls -> (0 <= Z.of_nat th < eff_threads numcpu threads)%Z).
Proof.
  intros Hn calls. destruct (calls_ids numcpu threads N Hn) as [Hid Hlen]. fold calls in Hid, Hlen.
  repeat split.
  - pose proof (proj1 (Forall_forall _ _) (calls_bounds numcpu threads N) _ H). simpl in *. lia.
  - pose proof (proj1 (Forall_forall _ _) (calls_bounds numcpu threads N) _ H). simpl in *. lia.
  - intros i Hi. rewrite count_covers. unfold calls. rewrite calls_cover by assumption.
    apply (proj1 (NoDup_count_occ' Nat.eq_dec _) (seq_NoDup N 0)). apply in_seq. lia.
  - intros i Hi. rewrite count_covers. unfold calls. rewrite calls_cover by assumption.
    apply count_occ_not_In. rewrite in_seq. lia.
  - rewrite Hid. apply seq_NoDup.
  - lia.
  - assert (Hin: In th (map call_id calls)) by (apply in_map_iff; exists (th, s, e); auto).
    rewrite Hid in Hin. apply in_seq in Hin. lia.
Qed.
