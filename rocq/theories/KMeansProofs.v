From Verif Require Import QCommon NeighModel ClusterModel KnnProofs.
Open Scope Q_scope.

Lemma nearest_spec dist C x : (0 < length C)%nat -> let b := nearest dist C x in
  (b < length C)%nat /\ (forall k, (k < length C)%nat -> dist x (nth b C []) <= dist x (nth k C [])) /\ (forall k, (k < b)%nat -> dist x (nth b C []) < dist x (nth k C [])).
Proof.
  intros HK. unfold nearest. set (step := fun best ic => _).
  assert (G: forall d s b, (b < s)%nat -> (forall k, (k < s)%nat -> dist x (nth b C []) <= dist x (nth k C [])) -> (forall k, (k < b)%nat -> dist x (nth b C []) < dist x (nth k C [])) ->
    exists b', fold_left step (seq s d) (Some (b, dist x (nth b C []))) = Some (b', dist x (nth b' C [])) /\ (b' < s + d)%nat /\
    (forall k, (k < s + d)%nat -> dist x (nth b' C []) <= dist x (nth k C [])) /\ (forall k, (k < b')%nat -> dist x (nth b' C []) < dist x (nth k C []))).
  { induction d as [|d IH]; intros s b Hb H1 H2; cbn [seq fold_left].
    - exists b. rewrite Nat.add_0_r. auto.
    - replace (s + S d)%nat with (S s + d)%nat by lia. unfold step at 2. destruct (Qltb_spec (dist x (nth s C [])) (dist x (nth b C []))) as [E|E].
      + apply IH; [lia| |].
        * intros k Hk. destruct (Nat.eq_dec k s) as [->|]; [lra|]. specialize (H1 k ltac:(lia)). lra.
        * intros k Hk. specialize (H1 k ltac:(lia)). lra.
      + apply IH; [lia| |exact H2]. intros k Hk. destruct (Nat.eq_dec k s) as [->|]; [exact E|]. apply H1. lia. }
  destruct (length C) as [|K] eqn:EK; [lia|]. cbn [seq fold_left]. change (step None 0%nat) with (Some (0%nat, dist x (nth 0 C []))).
  destruct (G K 1%nat 0%nat ltac:(lia)) as (b' & E & A & B & D).
  - intros k Hk. replace k with 0%nat by lia. lra.
  - lia.
  - rewrite E. cbv zeta. cbn [Nat.add] in *. auto.
Qed.

Lemma nearest_compat dist C C' x : length C = length C' -> (0 < length C)%nat -> (forall k, (k < length C)%nat -> dist x (nth k C []) == dist x (nth k C' [])) -> nearest dist C x = nearest dist C' x.
Proof.
  intros L HK H. destruct (nearest_spec dist C x HK) as (A & B & D). destruct (nearest_spec dist C' x ltac:(lia)) as (A' & B' & D'). cbv zeta in *.
  set (b := nearest dist C x) in *. set (b' := nearest dist C' x) in *.
  destruct (Nat.lt_trichotomy b b') as [X|[X|X]]; [|exact X|]; exfalso.
  - specialize (D' b X). specialize (B b' ltac:(lia)). rewrite (H b ltac:(lia)), (H b' ltac:(lia)) in B. lra.
  - specialize (D b' X). specialize (B' b ltac:(lia)). rewrite <- (H b ltac:(lia)), <- (H b' ltac:(lia)) in B'. lra.
Qed.

Section KM.
Variable K m : nat.
Variable X : list (list Q).
Let n := length X.
Hypothesis HK : (0 < K)%nat.
Hypothesis HX : forall r, In r X -> length r = m.
Definition x_ (i j : nat) : Q := nth j (nth i X []) 0.
Definition okY (y : list nat) : Prop := length y = n /\ forall i, In i y -> (i < K)%nat.
Definition okC (C : list (list Q)) : Prop := length C = K /\ forall k, (k < K)%nat -> length (nth k C []) = m.
(* coordinate j of the mean of the samples of cluster k (0 if there are none) *)
Definition msum (y : list nat) (k j : nat) : Q := qsum (map (fun i => if Nat.eqb (nth i y 0%nat) k then x_ i j else 0) (seq 0 n)).
Definition is_mean (y : list nat) (C : list (list Q)) : Prop :=
  okC C /\ forall k j, (k < K)%nat -> (j < m)%nat -> nth j (nth k C []) 0 == msum y k j / qn (ccount y k).

Lemma okY_nth y i : okY y -> (i < n)%nat -> (nth i y 0%nat < K)%nat.
Proof. intros (L & H) Hi. apply H. apply nth_In. lia. Qed.

Lemma upd_cell (C : list (list Q)) k r j k' : (k < length C)%nat -> nth j (nth k' (upd C k r) []) 0 = if Nat.eqb k' k then nth j r 0 else nth j (nth k' C []) 0.
Proof.
  intros H. destruct (Nat.eqb_spec k' k) as [->|E].
  - f_equal. apply nth_error_nth. now apply nth_error_upd_same.
  - f_equal. destruct (nth_error C k') eqn:Ec.
    + rewrite (nth_error_nth C k' [] Ec). apply nth_error_nth. now rewrite nth_error_upd_other by lia.
    + apply nth_error_None in Ec. rewrite !nth_overflow; auto. now rewrite upd_length.
Qed.
Lemma upd_rowlen (C : list (list Q)) k r k' : (k < length C)%nat -> length (nth k' (upd C k r) []) = if Nat.eqb k' k then length r else length (nth k' C []).
Proof.
  intros H. destruct (Nat.eqb_spec k' k) as [->|E].
  - f_equal. apply nth_error_nth. now apply nth_error_upd_same.
  - f_equal. destruct (nth_error C k') eqn:Ec.
    + rewrite (nth_error_nth C k' [] Ec). apply nth_error_nth. now rewrite nth_error_upd_other by lia.
    + apply nth_error_None in Ec. rewrite !nth_overflow; auto. now rewrite upd_length.
Qed.

Lemma recompute_acc y : okY y -> forall ord C, okC C -> (forall s, In s ord -> (s < n)%nat) ->
  let C' := fold_left (add_sample X y) ord C in
  okC C' /\ forall k j, (k < K)%nat -> (j < m)%nat -> nth j (nth k C' []) 0 == nth j (nth k C []) 0 + qsum (map (fun i => if Nat.eqb (nth i y 0%nat) k then 1 / qn (ccount y k) * x_ i j else 0) ord).
Proof.
  intros HY. induction ord as [|s ord IH]; intros C HC Ho; cbn [fold_left].
  - split; [exact HC|]. intros k j _ _. cbn [map]. rewrite qsum_nil. lra.
  - assert (Hs: (s < n)%nat) by (apply Ho; now left). pose proof (okY_nth y s HY Hs) as Hk. destruct HC as (LC & RC).
    assert (RL: length (nth (nth s y 0%nat) C []) = length (nth s X [])) by (rewrite RC by exact Hk; symmetry; apply HX, nth_In, Hs).
    assert (OK1: okC (add_sample X y C s)).
    { unfold add_sample. split; [now rewrite upd_length|]. intros k Hk'. rewrite upd_rowlen by lia. destruct (Nat.eqb_spec k (nth s y 0%nat)); [|now apply RC].
      rewrite zip_length by exact RL. now apply RC. }
    destruct (IH _ OK1 ltac:(intros; apply Ho; now right)) as (A & B). cbv zeta in *. split; [exact A|]. intros k j Hk' Hj. rewrite B by assumption. cbn [map]. rewrite qsum_cons.
    unfold add_sample. rewrite upd_cell by lia. rewrite (Nat.eqb_sym k). destruct (Nat.eqb_spec (nth s y 0%nat) k) as [E|E]; [|lra]. subst k.
    rewrite (nth_zip _ _ _ _ 0 0 0); [|exact RL|rewrite RC; assumption]. unfold x_. lra.
Qed.

Lemma recompute_mean y ord : okY y -> Permutation ord (seq 0 n) -> is_mean y (recompute K m X y ord).
Proof.
  intros HY P. unfold recompute.
  assert (OK0: okC (repeat (repeat 0 m) K)).
  { split; [apply repeat_length|]. intros k Hk. rewrite (nth_indep _ [] (repeat 0 m)) by (rewrite repeat_length; exact Hk). rewrite nth_repeat. apply repeat_length. }
  destruct (recompute_acc y HY ord _ OK0) as (A & B).
  { intros s Hs. apply (Permutation_in _ P) in Hs. apply in_seq in Hs. lia. }
  split; [exact A|]. intros k j Hk Hj. rewrite B by assumption. rewrite (nth_indep _ [] (repeat 0 m)) by (rewrite repeat_length; exact Hk). rewrite nth_repeat, nth_repeat.
  rewrite (qsum_perm _ _ (Permutation_map _ P)). unfold msum.
  rewrite (qsum_map_ext _ (fun i => 1 / qn (ccount y k) * (if Nat.eqb (nth i y 0%nat) k then x_ i j else 0))) by (intros i _; destruct (Nat.eqb _ _); ring).
  rewrite (qsum_map_scale (fun i => if Nat.eqb (nth i y 0%nat) k then x_ i j else 0)). unfold Qdiv. ring.
Qed.

Lemma mean_eq y C C' : is_mean y C -> is_mean y C' -> forall k j, (k < K)%nat -> nth j (nth k C []) 0 == nth j (nth k C' []) 0.
Proof.
  intros ((L & R) & A) ((L' & R') & A') k j Hk. destruct (Nat.ltb_spec j m).
  - now rewrite A, A' by assumption.
  - rewrite !nth_overflow; [reflexivity|rewrite R'; lia|rewrite R; lia].
Qed.

Section Dist.
Variable dist : list Q -> list Q -> Q.
Hypothesis Hdist : forall x c c', length c = length c' -> (forall j, nth j c 0 == nth j c' 0) -> dist x c == dist x c'.

Lemma assign_mean y C C' : is_mean y C -> is_mean y C' -> assign dist C X = assign dist C' X.
Proof.
  intros M M'. unfold assign. apply map_ext. intros x. pose proof M as ((L & R) & _). pose proof M' as ((L' & R') & _).
  apply nearest_compat; [congruence|lia|]. intros k Hk. apply Hdist; [rewrite R, R'; lia|]. intros j. apply (mean_eq y C C' M M'). lia.
Qed.

Lemma assign_ok C : okC C -> okY (assign dist C X).
Proof.
  intros (L & _). unfold assign. split; [now rewrite map_length|]. intros i Hi. apply in_map_iff in Hi. destruct Hi as (x & <- & _). rewrite <- L. apply nearest_spec. lia.
Qed.

Variable ord : nat -> list nat.
Hypothesis Hord : forall e, Permutation (ord e) (seq 0 n).

Lemma loop_fixed : forall fuel e C y u C1 y1, okC C -> ((1 <= u)%nat -> is_mean y C) -> ((2 <= u)%nat -> assign dist C X = y) ->
  km_loop dist fuel ord e K m X C y u = Some (C1, y1) -> is_mean y1 C1 /\ assign dist C1 X = y1.
Proof.
  induction fuel as [|f IH]; intros e C y u C1 y1 OK H1 H2 E; cbn [km_loop] in E.
  - destruct (Nat.leb_spec 2 u); [|discriminate]. injection E as <- <-. split; [apply H1; lia|now apply H2].
  - destruct (Nat.leb_spec 2 u); [injection E as <- <-; split; [apply H1; lia|now apply H2]|].
    pose proof (assign_ok C OK) as OKY. pose proof (recompute_mean (assign dist C X) (ord e) OKY (Hord e)) as M.
    apply IH in E; [exact E|apply M|intros _; exact M|].
    destruct (list_eq_dec Nat.eq_dec (assign dist C X) y) as [Ey|]; [|lia]. intros Hu. apply (assign_mean (assign dist C X)); [exact M|]. rewrite Ey. apply H1. lia.
Qed.

Lemma loop_stable y : forall u e C, is_mean y C -> assign dist C X = y -> exists fuel r, km_loop dist fuel ord e K m X C y u = Some r.
Proof.
  assert (G: forall d u e C, (2 - u <= d)%nat -> is_mean y C -> assign dist C X = y -> exists r, km_loop dist d ord e K m X C y u = Some r).
  { induction d as [|d IH]; intros u e C Hd M E; cbn [km_loop].
    - destruct (Nat.leb_spec 2 u); [eauto|lia].
    - destruct (Nat.leb_spec 2 u); [eauto|]. rewrite E. destruct (list_eq_dec Nat.eq_dec y y) as [_|]; [|congruence].
      assert (M': is_mean y (recompute K m X y (ord e))) by (apply recompute_mean; [rewrite <- E; apply assign_ok; apply M|apply Hord]).
      apply IH; [lia|exact M'|]. now rewrite (assign_mean y _ C M' M). }
  intros u e C M E. exists (2 - u)%nat. apply G; auto.
Qed.

(* two assignments that lead to each other *)
Lemma loop_cycle y1 y2 : y1 <> y2 -> (forall C, is_mean y1 C -> assign dist C X = y2) -> (forall C, is_mean y2 C -> assign dist C X = y1) ->
  okY y1 -> okY y2 -> forall fuel e C u, (u < 2)%nat -> is_mean y1 C \/ is_mean y2 C ->
  km_loop dist fuel ord e K m X C (if list_eq_dec Nat.eq_dec (assign dist C X) y1 then y2 else y1) u = None.
Proof.
  intros Hne H1 H2 O1 O2. induction fuel as [|f IH]; intros e C u Hu HM; cbn [km_loop]; (destruct (Nat.leb_spec 2 u); [lia|]); [reflexivity|].
  destruct HM as [HM|HM].
  - rewrite (H1 C HM). destruct (list_eq_dec Nat.eq_dec y2 y1) as [E|_]; [congruence|]. destruct (list_eq_dec Nat.eq_dec y2 y1) as [E|_]; [congruence|].
    pose proof (recompute_mean y2 (ord e) O2 (Hord e)) as M2. specialize (IH (S e) _ 0%nat ltac:(lia) (or_intror M2)). rewrite (H2 _ M2) in IH.
    destruct (list_eq_dec Nat.eq_dec y1 y1) as [_|]; [exact IH|congruence].
  - rewrite (H2 C HM). destruct (list_eq_dec Nat.eq_dec y1 y1) as [_|]; [|congruence]. destruct (list_eq_dec Nat.eq_dec y1 y2) as [E|_]; [congruence|].
    pose proof (recompute_mean y1 (ord e) O1 (Hord e)) as M1. specialize (IH (S e) _ 0%nat ltac:(lia) (or_introl M1)). rewrite (H1 _ M1) in IH.
    destruct (list_eq_dec Nat.eq_dec y2 y1) as [E|_]; [congruence|exact IH].
Qed.
End Dist.

(* ------------------------------------------------- Euclidean: termination *)
Definition cost (y : list nat) (C : list (list Q)) : Q := qsum (map (fun i => euclid2 (nth i X []) (nth (nth i y 0%nat) C [])) (seq 0 n)).

Lemma euclid2_sum a b : length a = length b -> euclid2 a b == qsum (map (fun j => (nth j b 0 - nth j a 0) * (nth j b 0 - nth j a 0)) (seq 0 (length a))).
Proof.
  intros L. unfold euclid2. revert b L. induction a as [|x a IH]; intros [|y b] L; cbn [length] in L; try discriminate; [reflexivity|]. injection L as L.
  cbn [zip length seq map nth]. rewrite !qsum_cons. rewrite IH by exact L. rewrite <- seq_shift, map_map. cbn [nth]. reflexivity.
Qed.
Lemma euclid2_compat x c c' : length c = length c' -> (forall j, nth j c 0 == nth j c' 0) -> euclid2 x c == euclid2 x c'.
Proof.
  unfold euclid2. revert c c'. induction x as [|a x IH]; intros [|u c] [|v c'] L H; cbn [length] in L; try discriminate; try reflexivity.
  cbn [zip]. rewrite !qsum_cons. rewrite (IH c c'); [|lia|intros j; exact (H (S j))]. pose proof (H 0%nat) as H0. cbn [nth] in H0. rewrite H0. reflexivity.
Qed.
Lemma manhattan_compat x c c' : length c = length c' -> (forall j, nth j c 0 == nth j c' 0) -> manhattan x c == manhattan x c'.
Proof.
  unfold manhattan, mink_p. assert (G: forall x c c', length c = length c' -> (forall j, nth j c 0 == nth j c' 0) -> qsum (zip (fun x y => Qabs (y - x)) x c) == qsum (zip (fun x y => Qabs (y - x)) x c')).
  { clear. induction x as [|a x IH]; intros [|u c] [|v c'] L H; cbn [length] in L; try discriminate; try reflexivity.
    cbn [zip]. rewrite !qsum_cons. rewrite (IH c c'); [|lia|intros j; exact (H (S j))]. pose proof (H 0%nat) as H0. cbn [nth] in H0. rewrite H0. reflexivity. }
  intros L H. destruct x as [|a [|a' x]]; [apply (G []); auto| |apply (G (a :: a' :: x)); auto].
  destruct c as [|u c], c' as [|v c']; cbn [length] in L; try discriminate; [reflexivity|]. pose proof (H 0%nat) as H0. cbn [nth] in H0. now rewrite H0.
Qed.

Lemma qsum_swap {A B} (f : A -> B -> Q) la lb : qsum (map (fun a => qsum (map (f a) lb)) la) == qsum (map (fun b => qsum (map (fun a => f a b) la)) lb).
Proof.
  induction la as [|a la IH]; cbn [map].
  - rewrite qsum_nil. rewrite (qsum_map_ext _ (fun _ => 0)) by (intros; apply qsum_nil). rewrite qsum_const. ring.
  - rewrite qsum_cons, IH. rewrite <- (qsum_map_plus (f a) (fun b => qsum (map (fun a => f a b) la))). apply qsum_map_ext. intros b _. rewrite qsum_cons. reflexivity.
Qed.

Lemma cost_sum y C : okY y -> okC C -> cost y C == qsum (map (fun j => qsum (map (fun i => (nth j (nth (nth i y 0%nat) C []) 0 - x_ i j) * (nth j (nth (nth i y 0%nat) C []) 0 - x_ i j)) (seq 0 n))) (seq 0 m)).
Proof.
  intros HY (L & R). unfold cost. rewrite (qsum_map_ext _ (fun i => qsum (map (fun j => (nth j (nth (nth i y 0%nat) C []) 0 - x_ i j) * (nth j (nth (nth i y 0%nat) C []) 0 - x_ i j)) (seq 0 m)))).
  - apply (qsum_swap (fun i j => (nth j (nth (nth i y 0%nat) C []) 0 - x_ i j) * (nth j (nth (nth i y 0%nat) C []) 0 - x_ i j))).
  - intros i Hi. apply in_seq in Hi. assert (HL: length (nth i X []) = m) by (apply HX, nth_In; unfold n in *; lia). rewrite euclid2_sum; [now rewrite HL|]. rewrite HL. symmetry. apply R. apply okY_nth; [exact HY|lia].
Qed.

Lemma group_sum (y : list nat) (f : nat -> Q) : okY y -> qsum (map f (seq 0 n)) == qsum (map (fun k => qsum (map (fun i => if Nat.eqb (nth i y 0%nat) k then f i else 0) (seq 0 n))) (seq 0 K)).
Proof.
  intros HY. rewrite <- (qsum_swap (fun i k => if Nat.eqb (nth i y 0%nat) k then f i else 0)). apply qsum_map_ext. intros i Hi. apply in_seq in Hi. pose proof (okY_nth y i HY ltac:(lia)) as Hk.
  set (a := nth i y 0%nat) in *. clearbody a. clear -Hk.
  assert (G: forall d s, qsum (map (fun k => if Nat.eqb a k then f i else 0) (seq s d)) == if (Nat.leb s a && Nat.ltb a (s + d))%bool then f i else 0).
  { induction d as [|d IH]; intros s; cbn [seq map].
    - rewrite qsum_nil. destruct (Nat.leb_spec s a), (Nat.ltb_spec a (s + 0)); cbn [andb]; try lra; lia.
    - rewrite qsum_cons, IH. destruct (Nat.eqb_spec a s), (Nat.leb_spec (S s) a), (Nat.ltb_spec a (S s + d)), (Nat.leb_spec s a), (Nat.ltb_spec a (s + S d)); cbn [andb]; try lra; lia. }
  rewrite G. destruct (Nat.ltb_spec a (0 + K)); [reflexivity|lia].
Qed.

Lemma ccount_sum y k : okY y -> qn (ccount y k) == qsum (map (fun i => if Nat.eqb (nth i y 0%nat) k then 1 else 0) (seq 0 n)).
Proof.
  intros (L & _). unfold n in *. rewrite <- L. clear. unfold ccount. induction y as [|a y IH]; [reflexivity|]. cbn [length seq map filter nth]. rewrite <- seq_shift, map_map, qsum_cons. cbn [nth]. rewrite <- IH.
  rewrite (Nat.eqb_sym k a). destruct (Nat.eqb a k); cbn [length]; [rewrite qn_S; reflexivity|ring].
Qed.

(* the means minimise the cost of an assignment *)
Lemma mean_min y C C' : okY y -> is_mean y C -> okC C' -> cost y C <= cost y C'.
Proof.
  intros HY M O'. pose proof M as (O & HM). rewrite (cost_sum y C HY O), (cost_sum y C' HY O'). apply qsum_le. intros j Hj. apply in_seq in Hj.
  set (mu := fun k => nth j (nth k C []) 0). set (c := fun k => nth j (nth k C' []) 0).
  assert (Hmu: forall k, (k < K)%nat -> mu k == msum y k j / qn (ccount y k)) by (intros k Hk; apply HM; [exact Hk|lia]).
  rewrite (qsum_map_ext (fun i => (nth j (nth (nth i y 0%nat) C' []) 0 - x_ i j) * (nth j (nth (nth i y 0%nat) C' []) 0 - x_ i j))
    (fun i => (mu (nth i y 0%nat) - x_ i j) * (mu (nth i y 0%nat) - x_ i j) + ((c (nth i y 0%nat) - mu (nth i y 0%nat)) * (c (nth i y 0%nat) - mu (nth i y 0%nat)) + 2 * ((c (nth i y 0%nat) - mu (nth i y 0%nat)) * (mu (nth i y 0%nat) - x_ i j)))))
    by (intros i _; unfold c, mu; ring).
  rewrite (qsum_map_plus (fun i => (mu (nth i y 0%nat) - x_ i j) * (mu (nth i y 0%nat) - x_ i j)) (fun i => (c (nth i y 0%nat) - mu (nth i y 0%nat)) * (c (nth i y 0%nat) - mu (nth i y 0%nat)) + 2 * ((c (nth i y 0%nat) - mu (nth i y 0%nat)) * (mu (nth i y 0%nat) - x_ i j)))).
  rewrite (qsum_map_plus (fun i => (c (nth i y 0%nat) - mu (nth i y 0%nat)) * (c (nth i y 0%nat) - mu (nth i y 0%nat))) (fun i => 2 * ((c (nth i y 0%nat) - mu (nth i y 0%nat)) * (mu (nth i y 0%nat) - x_ i j)))).
  rewrite (qsum_map_scale (fun i => (c (nth i y 0%nat) - mu (nth i y 0%nat)) * (mu (nth i y 0%nat) - x_ i j))).
  assert (Z: qsum (map (fun i => (c (nth i y 0%nat) - mu (nth i y 0%nat)) * (mu (nth i y 0%nat) - x_ i j)) (seq 0 n)) == 0).
  { rewrite (group_sum y) by exact HY. rewrite (qsum_map_ext _ (fun _ => 0)); [rewrite qsum_const; ring|]. intros k Hk. apply in_seq in Hk.
    rewrite (qsum_map_ext _ (fun i => (c k - mu k) * (mu k * (if Nat.eqb (nth i y 0%nat) k then 1 else 0) + (-1) * (if Nat.eqb (nth i y 0%nat) k then x_ i j else 0)))).
    2:{ intros i _. destruct (Nat.eqb_spec (nth i y 0%nat) k) as [->|]; ring. }
    rewrite (qsum_map_scale (fun i => mu k * (if Nat.eqb (nth i y 0%nat) k then 1 else 0) + (-1) * (if Nat.eqb (nth i y 0%nat) k then x_ i j else 0))).
    rewrite (qsum_map_plus (fun i => mu k * (if Nat.eqb (nth i y 0%nat) k then 1 else 0)) (fun i => (-1) * (if Nat.eqb (nth i y 0%nat) k then x_ i j else 0))).
    rewrite (qsum_map_scale (fun i => if Nat.eqb (nth i y 0%nat) k then 1 else 0)), (qsum_map_scale (fun i => if Nat.eqb (nth i y 0%nat) k then x_ i j else 0)).
    rewrite <- ccount_sum by exact HY. fold (msum y k j). rewrite Hmu by lia.
    destruct (Nat.eq_dec (ccount y k) 0) as [E0|E0].
    - assert (MS: msum y k j == 0).
      { unfold msum. rewrite (qsum_map_ext _ (fun _ => 0)); [rewrite qsum_const; ring|]. intros i Hi. apply in_seq in Hi. destruct (Nat.eqb_spec (nth i y 0%nat) k) as [Ek|]; [|reflexivity]. exfalso.
        unfold ccount in E0. apply length_zero_iff_nil in E0. assert (Hin: In k (filter (Nat.eqb k) y)); [|rewrite E0 in Hin; destruct Hin]. apply filter_In. split; [|apply Nat.eqb_refl]. rewrite <- Ek. apply nth_In. destruct HY. lia. }
      rewrite MS, E0. change (qn 0) with 0. unfold Qdiv. ring.
    - field. pose proof (qn_pos (ccount y k) ltac:(lia)). lra. }
  rewrite Z. set (S2 := qsum (map (fun i => (c (nth i y 0%nat) - mu (nth i y 0%nat)) * (c (nth i y 0%nat) - mu (nth i y 0%nat))) (seq 0 n))).
  assert (0 <= S2). { apply qsum_nonneg. intros v Hv. apply in_map_iff in Hv. destruct Hv as (i & <- & _). set (t := c (nth i y 0%nat) - mu (nth i y 0%nat)). clearbody t. destruct (Qlt_le_dec t 0); nra. }
  unfold mu. lra.
Qed.

Lemma assign_nth dist C i : (i < n)%nat -> nth i (assign dist C X) 0%nat = nearest dist C (nth i X []).
Proof. intros Hi. unfold assign. rewrite (nth_indep _ 0%nat (nearest dist C [])) by (now rewrite map_length). apply map_nth. Qed.

Lemma assign_cost C y : okC C -> okY y -> cost (assign euclid2 C X) C <= cost y C.
Proof.
  intros (L & R) HY. unfold cost. apply qsum_le. intros i Hi. apply in_seq in Hi. rewrite assign_nth by lia. destruct (nearest_spec euclid2 C (nth i X []) ltac:(lia)) as (_ & B & _). apply B. rewrite L. apply okY_nth; [exact HY|lia].
Qed.

(* one epoch never increases the cost *)
Lemma epoch_cost C y ord : okC C -> okY y -> Permutation ord (seq 0 n) -> let y' := assign euclid2 C X in cost y' (recompute K m X y' ord) <= cost y C.
Proof.
  intros OC HY P y'. pose proof (assign_ok euclid2 C OC) as OY'. eapply Qle_trans; [|apply assign_cost; eauto]. apply mean_min; [exact OY'|now apply recompute_mean|exact OC].
Qed.

Lemma sum_le_eq {A} (f g : A -> Q) l : (forall a, In a l -> f a <= g a) -> qsum (map g l) <= qsum (map f l) -> forall a, In a l -> f a == g a.
Proof.
  induction l as [|b l IH]; intros H E a Ha; [destruct Ha|]. cbn [map] in E. rewrite !qsum_cons in E.
  assert (H1: f b <= g b) by (apply H; now left). assert (H2: qsum (map f l) <= qsum (map g l)) by (apply qsum_le; intros; apply H; now right).
  destruct Ha as [<-|Ha]; [lra|]. apply IH; [intros; apply H; now right|lra|exact Ha].
Qed.

Lemma epoch_ties C y : okC C -> okY y -> cost y C <= cost (assign euclid2 C X) C -> assign euclid2 C X <> y -> (list_sum (assign euclid2 C X) < list_sum y)%nat.
Proof.
  intros (L & R) HY E Hne. set (y' := assign euclid2 C X) in *. destruct (assign_ok euclid2 C (conj L R)) as (LY' & RY'). fold y' in LY', RY'.
  assert (LE: forall i, (i < n)%nat -> (nth i y' 0 <= nth i y 0)%nat).
  { intros i Hi. unfold cost in E. assert (Hk: (nth i y 0 < length C)%nat) by (rewrite L; now apply okY_nth).
    pose proof (sum_le_eq (fun i => euclid2 (nth i X []) (nth (nth i y' 0%nat) C [])) (fun i => euclid2 (nth i X []) (nth (nth i y 0%nat) C [])) (seq 0 n)) as S.
    assert (H1: forall a, In a (seq 0 n) -> euclid2 (nth a X []) (nth (nth a y' 0%nat) C []) <= euclid2 (nth a X []) (nth (nth a y 0%nat) C [])).
    { intros a Ha. apply in_seq in Ha. unfold y'. rewrite assign_nth by lia. destruct (nearest_spec euclid2 C (nth a X []) ltac:(lia)) as (_ & B & _). apply B. rewrite L. apply okY_nth; [exact HY|lia]. }
    specialize (S H1 E i). rewrite in_seq in S. specialize (S ltac:(lia)). cbv beta in S. unfold y' in *. rewrite assign_nth in * by lia.
    destruct (nearest_spec euclid2 C (nth i X []) ltac:(lia)) as (_ & _ & D). cbv zeta in D. destruct (Nat.le_gt_cases (nearest euclid2 C (nth i X [])) (nth i y 0%nat)) as [G|G]; [exact G|]. exfalso. specialize (D _ G). lra. }
  destruct HY as (LY & _). assert (LL: length y' = length y) by congruence. rewrite <- LY in LE. clear -LE LL Hne.
  revert y LE LL Hne. induction y' as [|a l IH]; intros [|b y] LE LL Hne; cbn [length] in LL; try discriminate; [congruence|].
  change (list_sum (?x :: ?l)) with (x + list_sum l)%nat. pose proof (LE 0%nat ltac:(cbn; lia)) as L0. cbn [nth] in L0.
  assert (LT: forall i, (i < length y)%nat -> (nth i l 0 <= nth i y 0)%nat) by (intros i Hi; apply (LE (S i)); cbn; lia).
  destruct (list_eq_dec Nat.eq_dec l y) as [->|Hn].
  - assert (a <> b) by congruence. lia.
  - specialize (IH y LT ltac:(lia) Hn). lia.
Qed.

(* all assignments of n samples to K clusters *)
Fixpoint alls (k : nat) : list (list nat) := match k with O => [[]] | S k => flat_map (fun y => map (fun a => a :: y) (seq 0 K)) (alls k) end.
Lemma alls_In y : forall k, length y = k -> (forall i, In i y -> (i < K)%nat) -> In y (alls k).
Proof.
  induction y as [|a y IH]; intros k L H; subst k; cbn [alls length]; [now left|]. apply in_flat_map. exists y. split; [apply IH; [reflexivity|intros; apply H; now right]|].
  apply (in_map (fun a => a :: y)). apply in_seq. split; [lia|]. cbn. apply H. now left.
Qed.

Definition canon (y : list nat) : list (list Q) := recompute K m X y (seq 0 n).
Definition lexlt (z y : list nat) : bool := (Qltb (cost z (canon z)) (cost y (canon y)) || (Qeq_bool (cost z (canon z)) (cost y (canon y)) && Nat.ltb (list_sum z) (list_sum y)))%bool.
Definition rank (y : list nat) : nat := length (filter (fun z => lexlt z y) (alls n)).

Lemma lexlt_irr y : lexlt y y = false.
Proof. unfold lexlt. rewrite Nat.ltb_irrefl, Bool.andb_false_r, Bool.orb_false_r. destruct (Qltb_spec (cost y (canon y)) (cost y (canon y))); [lra|reflexivity]. Qed.
Lemma lexlt_iff z y : lexlt z y = true <-> cost z (canon z) < cost y (canon y) \/ (cost z (canon z) == cost y (canon y) /\ (list_sum z < list_sum y)%nat).
Proof.
  unfold lexlt. destruct (Qltb_spec (cost z (canon z)) (cost y (canon y))) as [A|A], (Qeqb_spec (cost z (canon z)) (cost y (canon y))) as [B|B], (Nat.ltb_spec (list_sum z) (list_sum y)) as [D|D]; cbn [orb andb]; split; intros G; try discriminate; try tauto; exfalso; destruct G as [G|(G & G')]; lra || lia || tauto.
Qed.
Lemma filter_lt {A} (P R : A -> bool) l a : In a l -> P a = false -> R a = true -> (forall z, P z = true -> R z = true) -> (length (filter P l) < length (filter R l))%nat.
Proof.
  intros Hin Pa Ra H. assert (LE: forall l, (length (filter P l) <= length (filter R l))%nat).
  { induction l0 as [|b l0 IH]; cbn [filter]; [lia|]. specialize (H b). destruct (P b), (R b); cbn [length]; try lia; exfalso; discriminate (H eq_refl). }
  induction l as [|b l IH]; [destruct Hin|]. cbn [filter]. destruct Hin as [->|Hin].
  - rewrite Pa, Ra. cbn [length]. specialize (LE l). lia.
  - specialize (IH Hin). specialize (H b). destruct (P b), (R b); cbn [length]; try lia; exfalso; discriminate (H eq_refl).
Qed.
Lemma rank_lt z y : okY z -> lexlt z y = true -> (rank z < rank y)%nat.
Proof.
  intros (L & H) E. unfold rank. apply (filter_lt _ _ _ z); [now apply alls_In|apply lexlt_irr|exact E|].
  intros w Hw. apply lexlt_iff in Hw. apply lexlt_iff in E. apply lexlt_iff. destruct Hw as [A|(A & B)], E as [D|(D & F)]; [left; lra|left; lra|left; lra|right; split; [lra|lia]].
Qed.
Lemma cost_mean y C : okY y -> is_mean y C -> cost y C == cost y (canon y).
Proof.
  intros HY M. assert (M': is_mean y (canon y)) by (apply recompute_mean; [exact HY|reflexivity]).
  apply Qle_antisym; apply mean_min; auto; [apply M'|apply M].
Qed.

Variable ord : nat -> list nat.
Hypothesis Hord : forall e, Permutation (ord e) (seq 0 n).

Lemma loop_terminates : forall r y C, (rank y <= r)%nat -> okY y -> is_mean y C -> forall u e, exists fuel res, km_loop euclid2 fuel ord e K m X C y u = Some res.
Proof.
  induction r as [r IH] using lt_wf_ind. intros y C Hr HY M u e.
  destruct (list_eq_dec Nat.eq_dec (assign euclid2 C X) y) as [E|E].
  - apply loop_stable; auto. apply euclid2_compat.
  - destruct (Nat.le_gt_cases 2 u) as [Hu|Hu]; [exists 0%nat; cbn [km_loop]; destruct (Nat.leb_spec 2 u); [eauto|lia]|].
    set (y' := assign euclid2 C X) in *. pose proof M as (OC & _). pose proof (assign_ok euclid2 C OC) as OY'. fold y' in OY'.
    assert (M': is_mean y' (recompute K m X y' (ord e))) by (apply recompute_mean; auto).
    assert (LX: lexlt y' y = true).
    { apply lexlt_iff. pose proof (epoch_cost C y (ord e) OC HY (Hord e)) as EC. cbv zeta in EC. fold y' in EC. rewrite (cost_mean y' _ OY' M'), (cost_mean y C HY M) in EC.
      destruct (Qlt_le_dec (cost y' (canon y')) (cost y (canon y))) as [|G]; [now left|]. right. split; [lra|]. apply epoch_ties; auto. fold y'.
      pose proof (mean_min y' _ C OY' M' OC) as MM. rewrite (cost_mean y' _ OY' M') in MM. rewrite (cost_mean y C HY M). lra. }
    pose proof (rank_lt y' y OY' LX) as RL.
    destruct (IH (rank y') ltac:(lia) y' _ (Nat.le_refl _) OY' M' 0%nat (S e)) as (f & res & F). exists (S f), res. cbn [km_loop]. destruct (Nat.leb_spec 2 u); [lia|]. fold y'.
    destruct (list_eq_dec Nat.eq_dec y' y); [contradiction|]. exact F.
Qed.
End KM.

Lemma firstn_okC K X : (K <= length X)%nat -> (forall r, In r X -> length r = length (hd [] X)) -> okC K (length (hd [] X)) (firstn K X).
Proof.
  intros H HX. split; [rewrite firstn_length; lia|]. intros k Hk. apply HX. assert (I: In (nth k (firstn K X) []) (firstn K X)) by (apply nth_In; rewrite firstn_length; lia). revert I. generalize (nth k (firstn K X) []). intros r I. rewrite <- (firstn_skipn K X). apply in_app_iff. now left.
Qed.

Lemma fit_terminates K X ord : (1 <= K <= length X)%nat -> (forall r, In r X -> length r = length (hd [] X)) -> (forall e, Permutation (ord e) (seq 0 (length X))) ->
  exists fuel res, km_fit euclid2 fuel ord K X = Some res.
Proof.
  intros HK HX Hord. unfold km_fit. destruct (Nat.ltb_spec (length X) K); [lia|]. destruct (Nat.eqb_spec K 0); [lia|]. cbn [orb].
  pose proof (firstn_okC K X ltac:(lia) HX) as OC. set (m := length (hd [] X)) in *.
  pose proof (assign_ok K m X ltac:(lia) euclid2 _ OC) as OY'. set (y' := assign euclid2 (firstn K X) X) in *.
  assert (M': is_mean K m X y' (recompute K m X y' (ord 0%nat))) by (apply recompute_mean; auto; lia).
  destruct (loop_terminates K m X ltac:(lia) HX ord Hord _ y' _ (Nat.le_refl _) OY' M' (if list_eq_dec Nat.eq_dec y' (repeat 0%nat (length X)) then 1%nat else 0%nat) 1%nat) as (f & res & F).
  exists (S f), res. cbn [km_loop Nat.leb]. fold y'. exact F.
Qed.

Lemma fit_fixed dist K X ord fuel C y : (forall x c c', length c = length c' -> (forall j, nth j c 0 == nth j c' 0) -> dist x c == dist x c') ->
  (forall r, In r X -> length r = length (hd [] X)) -> (forall e, Permutation (ord e) (seq 0 (length X))) ->
  km_fit dist fuel ord K X = Some (C, y) -> is_mean K (length (hd [] X)) X y C /\ assign dist C X = y.
Proof.
  intros Hd HX Hord. unfold km_fit. destruct (Nat.ltb_spec (length X) K); [discriminate|]. destruct (Nat.eqb_spec K 0); [discriminate|]. cbn [orb]. intros E.
  eapply loop_fixed in E; [exact E|lia|exact HX|exact Hd|exact Hord|apply firstn_okC; [lia|exact HX]|lia|lia].
Qed.

(* four samples, two clusters, Manhattan distance: all samples move back and
   forth between the two clusters, the empty one staying at the origin *)
Definition manX : list (list Q) := [[-1; 0; 0]; [-1; 0; 0]; [1; 0; 1]; [0; -1; 0]].
Lemma manX_loops ord : (forall e, Permutation (ord e) (seq 0 4)) -> forall fuel, km_fit manhattan fuel ord 2 manX = None.
Proof.
  intros Hord fuel. unfold km_fit. cbn [length manX Nat.ltb Nat.leb Nat.eqb orb hd]. set (y1 := repeat 0%nat 4). set (y2 := repeat 1%nat 4).
  assert (HX: forall r, In r manX -> length r = 3%nat) by (intros r [<-|[<-|[<-|[<-|[]]]]]; reflexivity).
  assert (O1: okY 2 manX y1) by (split; [reflexivity|]; intros i Hi; apply repeat_spec in Hi; lia).
  assert (O2: okY 2 manX y2) by (split; [reflexivity|]; intros i Hi; apply repeat_spec in Hi; lia).
  assert (H1: forall C, is_mean 2 3 manX y1 C -> assign manhattan C manX = y2).
  { intros C M. rewrite (assign_mean 2 3 manX ltac:(lia) manhattan manhattan_compat y1 C (recompute 2 3 manX y1 (seq 0 4)) M); [vm_compute; reflexivity|]. apply recompute_mean; [lia|exact HX|exact O1|reflexivity]. }
  assert (H2: forall C, is_mean 2 3 manX y2 C -> assign manhattan C manX = y1).
  { intros C M. rewrite (assign_mean 2 3 manX ltac:(lia) manhattan manhattan_compat y2 C (recompute 2 3 manX y2 (seq 0 4)) M); [vm_compute; reflexivity|]. apply recompute_mean; [lia|exact HX|exact O2|reflexivity]. }
  destruct fuel as [|f]; [reflexivity|]. cbn [km_loop Nat.leb].
  replace (assign manhattan (firstn 2 manX) manX) with y1 by (vm_compute; reflexivity). destruct (list_eq_dec Nat.eq_dec y1 y1) as [_|]; [|congruence].
  pose proof (recompute_mean 2 3 manX ltac:(lia) HX y1 (ord 0%nat) O1 (Hord 0%nat)) as M1.
  pose proof (loop_cycle 2 3 manX ltac:(lia) HX manhattan ord Hord y1 y2 ltac:(discriminate) H1 H2 O1 O2 f 1%nat _ 1%nat ltac:(lia) (or_introl M1)) as R.
  rewrite (H1 _ M1) in R. destruct (list_eq_dec Nat.eq_dec y2 y1) as [E|_]; [discriminate|]. exact R.
Qed.
