(* Property C258: Theta and Bounds are windows on the kernel *)
From Coq Require Import List Arith Bool Lia ZArith.
From Verif Require Import BoundsModel BoundsProofs.
Import ListNotations.

(* Bounds() has a row for every row of Theta(), showing the bounds of that parameter, and copying does not change the kernel *)
Theorem C258_rows_partial : forall V (dflt : V) veq lg st k st' view, allocated st k -> bounds_view dflt veq st k = Some (st', view) ->
  exists tv ps, theta_view dflt veq st k = Some tv /\ params k = Some ps /\ length tv = length view /\ (forall a, a < length st -> bnd dflt st' a = bnd dflt st a) /\
  forall i v, nth_error tv i = Some v -> exists b, In (v, b) ps /\
    at_ dflt lg st' view i 0 = Some (lg (fst (bnd dflt st b))) /\ at_ dflt lg st' view i 1 = Some (lg (snd (bnd dflt st b))).
Proof.
  intros V dflt veq lg st k st' view A B. assert (G : forall ps, params k = Some ps -> forall f, f = free dflt veq st ps -> forall i v, nth_error (map fst f) i = Some v -> exists b, In (v, b) ps /\ nth_error (map snd f) i = Some b).
  { intros ps P f -> i v H. rewrite nth_error_map in H. destruct (nth_error (free dflt veq st ps) i) as [[v' b]|] eqn:E; [|discriminate]. injection H as <-. exists b. split; [apply nth_error_In in E; now apply filter_In in E as [E _]|]. now rewrite nth_error_map, E. }
  destruct k as [v b|ls bs|k1 k2].
  - cbn [bounds_view] in B. injection B as <- <-. destruct (A _ eq_refl) as [_ L]. assert (Lb : b < length st) by (apply (L v); now left).
    unfold theta_view, free. cbn [params option_map filter snd]. rewrite bnd_last. eexists; exists [(v, b)]. split; [reflexivity|]. split; [reflexivity|]. split; [destruct (negb _); reflexivity|]. split; [intros a H; now apply bnd_app|].
    intros i w H. destruct (negb _); [|destruct i; discriminate H]. destruct i as [|[|i]]; [|discriminate H|discriminate H]. injection H as <-. exists b. split; [now left|]. unfold at_. cbn [map snd nth_error]. rewrite bnd_last. split; reflexivity.
  - cbn [bounds_view] in B. unfold theta_view. destruct (params (BRBF ls bs)) as [ps|] eqn:P; [|discriminate]. injection B as <- <-. eexists; exists ps. split; [reflexivity|]. split; [reflexivity|]. split; [now rewrite !map_length|]. split; [auto|].
    intros i v H. destruct (G ps eq_refl _ eq_refl i v H) as (b & I & E). exists b. split; [exact I|]. unfold at_. rewrite E. split; reflexivity.
  - cbn [bounds_view] in B. unfold theta_view. destruct (params (BOp k1 k2)) as [ps|] eqn:P; [|discriminate]. injection B as <- <-. eexists; exists ps. split; [reflexivity|]. split; [reflexivity|]. split; [now rewrite !map_length|]. split; [auto|].
    intros i v H. destruct (G ps eq_refl _ eq_refl i v H) as (b & I & E). exists b. split; [exact I|]. unfold at_. rewrite E. split; reflexivity.
Qed.
Print Assumptions C258_rows_partial.

(* for RBF, Sum and Product a value set through Bounds() is shown by every later Bounds(), as long as it does not make the bounds equal;
   everything else stays *)
Theorem C258_set_partial : forall V (dflt : V) veq lg ex st k st' view i j v st2, allocated st k -> (forall x y, k <> BLeaf x y) ->
  bounds_view dflt veq st k = Some (st', view) -> set_ dflt ex st' view i j v = Some st2 ->
  (forall a, nth_error view i = Some a -> veq (snd (bnd dflt st2 a)) (fst (bnd dflt st2 a)) = false) ->
  bounds_view dflt veq st2 k = Some (st2, view) /\ theta_view dflt veq st2 k = theta_view dflt veq st k /\ at_ dflt lg st2 view i j = Some (lg (ex v)) /\
  forall i' j', i' <> i \/ j' <> j -> at_ dflt lg st2 view i' j' = at_ dflt lg st view i' j'.
Proof.
  intros V dflt veq lg ex st k st' view i j v st2 A NL B S F.
  assert (B' : exists ps, params k = Some ps /\ st' = st /\ view = map snd (free dflt veq st ps)).
  { destruct k as [x y|ls bs|k1 k2]; [exfalso; now apply (NL x y)| |]; cbn [bounds_view] in B; destruct (params _) as [ps|]; try discriminate B; injection B as <- <-; eauto. }
  destruct B' as (ps & P & -> & Ev). destruct (A _ P) as [ND L]. unfold set_ in S. destruct (nth_error view i) as [a|] eqn:N; [|discriminate S].
  rewrite Ev in N. destruct (nth_free dflt veq st ps i a N) as (NF & w & I). rewrite <- Ev in N. pose proof (L w a I) as La.
  assert (X : exists x, st2 = put st a x /\ (j = 0 /\ x = (ex v, snd (bnd dflt st a)) \/ j = 1 /\ x = (fst (bnd dflt st a), ex v))).
  { destruct j as [|[|j]]; [| |discriminate S]; injection S as <-; eauto 7. }
  destruct X as (x & -> & X). specialize (F a eq_refl). rewrite put_same in F by exact La.
  assert (K : free dflt veq (put st a x) ps = free dflt veq st ps) by (apply free_put; [exact La|congruence]).
  split; [destruct k as [x' y|ls bs|k1 k2]; [exfalso; now apply (NL x' y)| |]; cbn [bounds_view]; rewrite P; cbn [option_map]; now rewrite K, <- Ev|].
  split; [unfold theta_view; rewrite P; cbn [option_map]; now rewrite K|].
  split; [unfold at_; rewrite N, put_same by exact La; destruct X as [[-> ->]|[-> ->]]; reflexivity|].
  intros i' j' D. unfold at_. destruct (nth_error view i') as [a'|] eqn:N'; [|reflexivity]. destruct (Nat.eq_dec a a') as [<-|Na].
  - assert (i' = i). { apply (proj1 (NoDup_nth_error view)); [rewrite Ev; now apply free_nodup|apply nth_error_Some; congruence|congruence]. } subst i'. destruct D as [D|D]; [congruence|].
    rewrite put_same by exact La. destruct X as [[-> ->]|[-> ->]]; destruct j' as [|[|j']]; try reflexivity; congruence.
  - rewrite put_other by exact Na. reflexivity.
Qed.
Print Assumptions C258_set_partial.
(* a kernel without parts is not changed by setting its Bounds() *)
Theorem C258_leaf_refuted : forall V (dflt : V) veq ex st v b st' view i j x st2, b < length st ->
  bounds_view dflt veq st (BLeaf v b) = Some (st', view) -> set_ dflt ex st' view i j x = Some st2 -> forall a, a < length st -> bnd dflt st2 a = bnd dflt st a.
Proof.
  intros V dflt veq ex st v b st' view i j x st2 H B S a La. cbn [bounds_view] in B. injection B as <- <-. unfold set_ in S. destruct (nth_error _ i) as [c|] eqn:N in S; [|discriminate S].
  destruct (nth_free dflt veq (st ++ [bnd dflt st b]) [(v, length st)] i c N) as (_ & w & [E|[]]). injection E as _ <-. assert (O : forall y, bnd dflt (put (st ++ [bnd dflt st b]) (length st) y) a = bnd dflt st a) by (intros y; rewrite put_other by lia; now apply bnd_app).
  destruct j as [|[|j]]; [| |discriminate S]; injection S as <-; apply O.
Qed.
Print Assumptions C258_leaf_refuted.
(* bounds that are made equal through the window take the parameter out of every later Theta(), for all kernels with parts *)
Theorem C258_fixed_refuted : forall V (dflt : V) veq ex st k st' view i v a st2, (forall x, veq x x = true) -> allocated st k -> (forall x y, k <> BLeaf x y) ->
  bounds_view dflt veq st k = Some (st', view) -> nth_error view i = Some a -> ex v = snd (bnd dflt st a) -> set_ dflt ex st' view i 0 v = Some st2 ->
  exists view2, bounds_view dflt veq st2 k = Some (st2, view2) /\ ~ In a view2.
Proof.
  intros V dflt veq ex st k st' view i v a st2 R A NL B N E S.
  assert (B' : exists ps, params k = Some ps /\ st' = st /\ view = map snd (free dflt veq st ps)).
  { destruct k as [x y|ls bs|k1 k2]; [exfalso; now apply (NL x y)| |]; cbn [bounds_view] in B; destruct (params _) as [ps|]; try discriminate B; injection B as <- <-; eauto. }
  destruct B' as (ps & P & -> & Ev). unfold set_ in S. rewrite N in S. injection S as <-. rewrite Ev in N. destruct (nth_free dflt veq st ps i a N) as (_ & w & I). destruct (A _ P) as [_ L]. pose proof (L w a I) as La.
  exists (map snd (free dflt veq (put st a (ex v, snd (bnd dflt st a))) ps)). split; [destruct k as [x' y|ls bs|k1 k2]; [exfalso; now apply (NL x' y)| |]; cbn [bounds_view]; now rewrite P|].
  intros J. apply In_nth_error in J as (n & J). destruct (nth_free _ _ _ _ _ _ J) as (F & _). rewrite put_same in F by exact La. cbn [fst snd] in F. now rewrite E, R in F.
Qed.
Print Assumptions C258_fixed_refuted.
(* two kernels of a sum, the second with one fixed length scale; the window of the sum changes it, that of the leaf does not *)
Example C258_example : let st := [(1, 9); (2, 8); (3, 3)]%Z in let k := BOp (BLeaf 0 0) (BRBF [1; 2] [1; 2]) in let id := fun x : Z => x in
  theta_view 0%Z Z.eqb st k = Some [0; 1] /\ bounds_view 0%Z Z.eqb st k = Some (st, [0; 1]) /\ set_ 0%Z id st [0; 1] 0 1 7%Z = Some [(1, 7); (2, 8); (3, 3)]%Z /\ set_ 0%Z id st [0; 1] 2 1 7%Z = None /\
  bounds_view 0%Z Z.eqb st (BLeaf 0 0) = Some (st ++ [(1, 9)%Z], [3]) /\ set_ 0%Z id (st ++ [(1, 9)%Z]) [3] 0 1 7%Z = Some (st ++ [(1, 7)%Z]).
Proof. vm_compute. repeat split. Qed.
