(* Nearest neighbour estimators on reordered samples and data in another unit or with another origin (C215) *)
From Verif Require Import QCommon NeighModel KdProofs KdQueryProofs KnnModel KnnProofs KnnPredModel NeighProps MetaNBProofs MetaClusProofs.
Open Scope Q_scope.

(* ------------------------------------------------------------------ answers *)
(* what any search returns for the distances D of n samples: k samples, nobody outside nearer than f times someone inside *)
Definition answer (D : nat -> Q) (n k : nat) (f : Q) (res : list nele) : Prop :=
  length res = k /\ NoDup (map snd res) /\ (forall e, In e res -> fst e == D (snd e) /\ (snd e < n)%nat) /\
  (forall i, (i < n)%nat -> ~ In i (map snd res) -> forall e, In e res -> f * fst e <= D i).
(* no tie at rank k: a ball holds exactly k samples, and the others are not within a factor f of its boundary *)
Definition isolated (D : nat -> Q) (n k : nat) (f r : Q) : Prop :=
  length (filter (fun i => Qle_bool (D i) r) (seq 0 n)) = k /\ forall i, (i < n)%nat -> r < D i -> r < f * D i.

Lemma brute_answer pinf pw data x k isrt res : sorting (fun i => mink_p pinf pw x (nth i data [])) isrt -> knn_brute pinf pw data x k isrt = Some res ->
  answer (fun i => mink_p pinf pw x (nth i data [])) (length data) k 1 res.
Proof.
  intros S E. unfold knn_brute in E. destruct (Nat.leb_spec k (length data)) as [Hk|]; [|discriminate]. injection E as <-.
  pose (D := fun i => mink_p pinf pw x (nth i data [])). change (answer D (length data) k 1 (map (fun i => (D i, i)) (firstn k (isrt (seq 0 (length data)))))). change (sorting D isrt) in S. destruct (S (seq 0 (length data))) as [P O]. set (l := isrt (seq 0 (length data))) in *.
  assert (ND : NoDup l) by (apply (Permutation_NoDup (Permutation_sym P)), seq_NoDup). assert (LL : length l = length data) by (rewrite (Permutation_length P); apply seq_length).
  assert (M : map snd (map (fun i => (D i, i)) (firstn k l)) = firstn k l) by (rewrite map_map; cbn [snd]; apply map_id). 
  assert (SP : firstn k l ++ skipn k l = l) by apply firstn_skipn.
  split; [rewrite map_length, firstn_length; lia|]. rewrite M. split; [|split].
  - rewrite <- SP in ND. clear - ND. induction (firstn k l) as [|a q IH]; [constructor|]. cbn [app] in ND. inversion ND; subst. constructor; [|auto]. intros H. apply H1, in_or_app. now left.
  - intros e He. apply in_map_iff in He. destruct He as (i & <- & Hi). cbn [fst snd]. split; [reflexivity|]. assert (In i l) by (rewrite <- SP; apply in_or_app; now left). apply (Permutation_in _ P), in_seq in H. lia.
  - intros i Hi Hn e He. apply in_map_iff in He. destruct He as (j & <- & Hj). cbn [fst]. assert (Il : In i l) by (apply (Permutation_in _ (Permutation_sym P)), in_seq; lia).
    rewrite <- SP in Il, O. apply in_app_or in Il. destruct Il as [Il|Il]; [contradiction|]. clear - O Hj Il. enough (D j <= D i) by lra.
    unfold sorted_by in O. induction (firstn k l) as [|a q IH]; [contradiction|]. cbn [app] in O. inversion O; subst. destruct Hj as [<-|Hj]; [|now apply IH]. rewrite Forall_forall in H2. apply H2, in_or_app. now right.
Qed.
Lemma tree_answer mid fuel data leafsize t pinf pw x k epsfac qsrt nsrt fsrt res : kd_new mid fuel data leafsize = Some t -> (1 <= k <= length data)%nat -> 0 <= epsfac <= 1 ->
  sorting qmind qsrt -> sorting (fun e : nele => fst e) nsrt -> sorting (fun e : nele => fst e) fsrt ->
  pw 0 == 0 -> (forall s u, 0 <= s -> s <= u -> pw s <= pw u) -> (2 <= length x)%nat -> (forall r, In r data -> length r = length x) ->
  kd_query data pinf pw x k epsfac qsrt nsrt fsrt (kd_maxes data) (kd_mins data) t None = Some res ->
  answer (fun i => mink_p pinf pw x (nth i data [])) (length data) k epsfac res.
Proof.
  intros E Hk He Sq Sn Sf P0 PM Hx Hr ER. destruct (C34_kdtree_query mid fuel data leafsize t pinf pw x k epsfac qsrt nsrt fsrt E (proj1 Hk) He Sq Sn Sf P0 PM Hx Hr) as (res' & E' & L & ND & V & _ & F).
  rewrite ER in E'. injection E' as <-. split; [rewrite L; lia|]. split; [exact ND|]. split; [exact V|exact F].
Qed.

Lemma answer_set D n k f r res : answer D n k f res -> isolated D n k f r -> Permutation (map snd res) (filter (fun i => Qle_bool (D i) r) (seq 0 n)).
Proof.
  intros (L & ND & V & F) (C & G). set (S := filter (fun i => Qle_bool (D i) r) (seq 0 n)) in *.
  assert (L2 : length (map snd res) = k) by (rewrite map_length; exact L).
  assert (NS : NoDup S) by (apply NoDup_filter, seq_NoDup).
  apply NoDup_Permutation_bis; [exact ND|rewrite L2, C; reflexivity|]. intros i Hi. apply in_map_iff in Hi. destruct Hi as (e & <- & He). destruct (V e He) as [Ve Vn].
  apply filter_In. split; [apply in_seq; lia|]. apply Qle_bool_iff. destruct (Qlt_le_dec r (D (snd e))) as [Lt|]; [|assumption]. exfalso.
  destruct (Forall_Exists_dec (fun i => In i (map snd res)) (fun i => in_dec Nat.eq_dec i _) S) as [A|A].
  - assert (I : incl (snd e :: S) (map snd res)) by (intros j [<-|Hj]; [now apply in_map|rewrite Forall_forall in A; now apply A]).
    assert (N2 : NoDup (snd e :: S)) by (constructor; [|exact NS]; intros H; apply filter_In in H; destruct H as [_ H]; apply Qle_bool_iff in H; lra).
    pose proof (NoDup_incl_length N2 I) as LL. cbn [length] in LL. rewrite L2, C in LL. lia.
  - apply Exists_exists in A. destruct A as (j & Hj & Nj). apply filter_In in Hj. destruct Hj as [Hj Dj]. apply in_seq in Hj. apply Qle_bool_iff in Dj.
    pose proof (F j ltac:(lia) Nj e He) as FF. rewrite Ve in FF. pose proof (G _ Vn Lt). lra.
Qed.

(* ------------------------------------------------------------- two searches *)
Section Two.
  Variables (sg : nat -> nat) (n k : nat) (f f' r e : Q) (D D' : nat -> Q) (res res' : list nele).
  Hypothesis HP : Permutation (map sg (seq 0 n)) (seq 0 n).
  Hypothesis He : 0 < e.
  Hypothesis HD : forall i, (i < n)%nat -> D' (sg i) == e * D i.
  Hypothesis HA : answer D n k f res.
  Hypothesis HA' : answer D' n k f' res'.
  Hypothesis HI : isolated D n k f r.
  Hypothesis HI' : forall i, (i < n)%nat -> r < D i -> r < f' * D i.

  Lemma isolated' : isolated D' n k f' (e * r).
  Proof.
    destruct HI as [C _]. split.
    - rewrite <- C. transitivity (length (filter (fun i => Qle_bool (D' i) (e * r)) (map sg (seq 0 n)))).
      + apply Permutation_length, filter_perm. now apply Permutation_sym.
      + rewrite filter_map_comm, map_length. f_equal. apply filter_ext_in. intros i Hi. apply in_seq in Hi. assert (E := HD i ltac:(lia)).
        apply eq_true_iff_eq. rewrite !Qle_bool_iff, E. split; intros H; [|nra]. apply (Qmult_le_l _ _ e); auto.
    - intros i Hi Lt. assert (Is : In i (map sg (seq 0 n))) by (apply (Permutation_in _ (Permutation_sym HP)), in_seq; lia). apply in_map_iff in Is. destruct Is as (j & <- & Hj). apply in_seq in Hj.
      assert (E := HD j ltac:(lia)). rewrite E in Lt |- *. assert (r < D j) by (apply (Qmult_lt_l _ _ e); auto). pose proof (HI' j ltac:(lia) H). nra.
  Qed.
  (* the neighbours correspond *)
  Lemma answers_correspond : exists l, Permutation res' l /\ Forall2 (fun a a' : nele => snd a' = sg (snd a) /\ fst a' == e * fst a /\ (snd a < n)%nat) res l.
  Proof.
    pose proof (answer_set _ _ _ _ _ _ HA HI) as P1. pose proof (answer_set _ _ _ _ _ _ HA' isolated') as P2.
    assert (P : Permutation (map sg (map snd res)) (map snd res')).
    { eapply Permutation_trans; [apply Permutation_map, P1|]. apply Permutation_sym. eapply Permutation_trans; [exact P2|]. eapply Permutation_trans; [apply filter_perm, Permutation_sym, HP|].
      rewrite filter_map_comm. rewrite (filter_ext_in (fun x => Qle_bool (D' (sg x)) (e * r)) (fun i => Qle_bool (D i) r)); [reflexivity|]. intros i Hi. apply in_seq in Hi. assert (E := HD i ltac:(lia)).
      apply eq_true_iff_eq. rewrite !Qle_bool_iff, E. split; intros H; [|nra]. apply (Qmult_le_l _ _ e); auto. }
    destruct (Permutation_map_inv _ _ P) as (l & El & Pl). exists l. split; [exact Pl|].
    destruct HA as (_ & _ & V & _). destruct HA' as (_ & _ & V' & _). assert (Vl : forall a, In a l -> fst a == D' (snd a)) by (intros a Ha; apply V'; exact (Permutation_in _ (Permutation_sym Pl) Ha)).
    clear - El V Vl HD. rename l into l0. revert l0 El Vl. induction res as [|a q IH]; intros [|b l] El Vl; cbn [map] in El; try discriminate; constructor.
    - injection El as E1 E2. destruct (V a (or_introl eq_refl)) as [Va Vn]. split; [now rewrite E1|]. split; [|exact Vn]. rewrite (Vl b (or_introl eq_refl)), Va, <- E1. now apply HD.
    - injection El as E1 E2. apply IH; auto. intros c Hc. apply V. now right. intros c Hc. apply Vl. now right.
  Qed.
  (* targets and weights of the neighbours, the targets in another unit *)
  Lemma yw_conv c d bydist epsilon root (Y Y' : list Q) : (forall a b, a == b -> root a == root b) -> (bydist = true -> e == 1) -> (forall i, (i < n)%nat -> nth (sg i) Y' 0 == c * nth i Y 0 + d) ->
    bag_conv c d 1 (knn_yw bydist epsilon root Y res) (knn_yw bydist epsilon root Y' res').
  Proof.
    intros HR He1 HY. destruct answers_correspond as (l & P & F).
    assert (W : forall res Y, knn_yw bydist epsilon root Y res = map (fun a => (nth (snd a) Y 0, if bydist then 1 / (epsilon + root (fst a)) else 1)) res).
    { clear. intros res Y. unfold knn_yw, knn_weights. destruct bydist; induction res as [|a q IH]; cbn [map combine]; auto; now rewrite IH. }
    exists (knn_yw bydist epsilon root Y' l). rewrite !W. split; [now apply Permutation_map|]. clear - F HR He1 HY. induction F as [|a a' q l (E1 & E2 & Hn) F IH]; cbn [map]; constructor; [|exact IH].
    split; cbn [fst snd]; [rewrite E1; now apply HY|]. destruct bydist; [|reflexivity]. assert (root (fst a') == root (fst a)) as -> by (apply HR; rewrite E2, (He1 eq_refl); ring). ring.
  Qed.
End Two.

(* --------------------------------------------------------------- predictions *)
Lemma wmean_conv c d l l' : ~ qsum (map snd l) == 0 -> bag_conv c d 1 l l' -> KnnModel.wmean l' == c * KnnModel.wmean l + d.
Proof.
  intros Hw H. assert (E : forall l, KnnModel.wmean l == NBProofs.wmean l).
  { intros l0. unfold KnnModel.wmean, NBProofs.wmean, NBProofs.wsum. rewrite (qsum_map_ext (fun e : Q * Q => snd e * fst e) (fun s => fst s * snd s)) by (intros; ring). reflexivity. }
  rewrite !E. apply (conv_wmean c d 1); auto. lra.
Qed.
Lemma total_conv l l' c : bag_conv 1 0 1 l l' -> total l' c == total l c.
Proof.
  intros H. unfold total. rewrite (conv_sum 1 0 1 (fun e => if Qeq_bool (fst e) c then snd e else 0) (fun e => if Qeq_bool (fst e) c then snd e else 0) 1 l l'); [ring| |exact H].
  intros s s' (C1 & C2). rewrite (qeqb_compat (fst s') (fst s) c) by (rewrite C1; ring). destruct (Qeq_bool (fst s) c); [rewrite C2; ring|ring].
Qed.
Lemma conv_pos a b k l l' : 0 < k -> bag_conv a b k l l' -> (forall e, In e l -> 0 < snd e) -> forall e, In e l' -> 0 < snd e.
Proof.
  intros Hk (m & P & F) H e He. apply (Permutation_in _ P) in He. clear P. revert H e He. induction F as [|s s' l m (_ & C) F IH]; intros H e He; [contradiction|]. destruct He as [<-|He]; [|apply IH; auto; intros x Hx; apply H; now right].
  rewrite C. pose proof (H s (or_introl eq_refl)). nra.
Qed.
Lemma conv_nil a b k l l' : bag_conv a b k l l' -> l <> [] -> l' <> [].
Proof. intros (m & P & F) N E. subst. apply Permutation_nil in P. subst. inversion F. congruence. Qed.
(* the class of largest weight *)
Definition winner (l : list (Q * Q)) (c : Q) : Prop := forall c', ~ c' == c -> total l c' < total l c.
Lemma vote_winner ord l c : (forall m, Permutation (ord m) m) -> l <> [] -> (forall e, In e l -> 0 < snd e) -> winner l c -> vote ord l == c.
Proof.
  intros HO N P W. destruct (vote_spec ord l HO N P) as [_ M]. destruct (Qeq_dec (vote ord l) c) as [|Ne]; [assumption|]. pose proof (W _ Ne). pose proof (M c). lra.
Qed.
Lemma vote_conv ord ord' l l' c : (forall m, Permutation (ord m) m) -> (forall m, Permutation (ord' m) m) -> l <> [] -> (forall e, In e l -> 0 < snd e) -> winner l c -> bag_conv 1 0 1 l l' -> vote ord' l' == vote ord l.
Proof.
  intros HO HO' N P W B. rewrite (vote_winner ord l c); auto. apply vote_winner; auto.
  - exact (conv_nil _ _ _ _ _ B N).
  - exact (conv_pos 1 0 1 l l' ltac:(lra) B P).
  - intros c' Hc'. rewrite !(total_conv _ _ _ B). now apply W.
Qed.
Lemma proba_conv classes l l' : l <> [] -> (forall e, In e l -> 0 < snd e) -> bag_conv 1 0 1 l l' ->
  forall i, (i < length classes)%nat -> nth i (proba_row classes l' (repeat 0 (length classes))) 0 == nth i (proba_row classes l (repeat 0 (length classes))) 0.
Proof.
  intros N P B i Hi. rewrite !proba_spec; auto.
  - rewrite (total_conv _ _ _ B). pose proof (conv_wsum _ _ _ _ _ B) as W. unfold NBProofs.wsum in W. rewrite W. now rewrite Qmult_1_l.
  - exact (conv_nil _ _ _ _ _ B N).
  - exact (conv_pos 1 0 1 l l' ltac:(lra) B P).
Qed.
Lemma yw_pos bydist epsilon root Y res : 0 < epsilon -> (forall e, In e res -> 0 <= root (fst e)) -> forall e, In e (knn_yw bydist epsilon root Y res) -> 0 < snd e.
Proof.
  intros He HR e Hin. unfold knn_yw in Hin. destruct e as [a b]. apply in_combine_r in Hin. cbn [snd]. unfold knn_weights in Hin. destruct bydist; apply in_map_iff in Hin; destruct Hin as (v & <- & Hv); [|reflexivity].
  apply in_map_iff in Hv. destruct Hv as (s & <- & Hs). specialize (HR s Hs). apply Qlt_shift_div_l; lra.
Qed.
Lemma yw_nil bydist epsilon root Y res : res <> [] -> knn_yw bydist epsilon root Y res <> [].
Proof. intros N. destruct res; [congruence|]. unfold knn_yw, knn_weights. destruct bydist; discriminate. Qed.

(* ------------------------------------------------------------------ distances *)
(* another origin and the unit a; p-th powers are multiplied by pw |a| (by |a| for the maximum metric, and with one feature) *)
Definition moved (n : nat) (a : Q) (b : nat -> Q) (row row' : list Q) : Prop := length row = n /\ length row' = n /\ forall j, (j < n)%nat -> nth j row' 0 == a * nth j row 0 + b j.
Lemma moved_tail n a b x row y row' : moved (S n) a b (x :: row) (y :: row') -> y == a * x + b 0%nat /\ moved n a (fun j => b (S j)) row row'.
Proof. intros (L & L' & H). split; [exact (H 0%nat ltac:(lia))|]. split; [cbn in L; lia|]. split; [cbn in L'; lia|]. intros j Hj. exact (H (S j) ltac:(lia)). Qed.
Lemma moved_abs a x y x' y' b : x' == a * x + b -> y' == a * y + b -> Qabs (y' - x') == Qabs a * Qabs (y - x).
Proof. intros -> ->. rewrite <- Qabs_Qmult. apply Qabs_wd. ring. Qed.
Lemma qmax_scale e a b : 0 <= e -> qmax (e * a) (e * b) == e * qmax a b.
Proof. intros H. unfold qmax. destruct (Qleb_spec (e * a) (e * b)), (Qleb_spec a b); try reflexivity; repeat match goal with H : ~ _ <= _ |- _ => apply Qnot_le_lt in H end.
  - assert (e * b <= e * a) by nra. lra.
  - assert (e * a <= e * b) by nra. lra.
Qed.
Lemma mink_moved n a b pinf pw x y x' y' : (forall s t, s == t -> pw s == pw t) -> (forall t, 0 <= t -> pw (Qabs a * t) == pw (Qabs a) * pw t) ->
  moved n a b x x' -> moved n a b y y' -> mink_p pinf pw x' y' == (if (pinf || Nat.eqb n 1)%bool then Qabs a else pw (Qabs a)) * mink_p pinf pw x y.
Proof.
  intros HC HM Hx Hy.
  assert (Z1 : forall n b x y x' y', moved n a b x x' -> moved n a b y y' -> qsum (zip (fun x y => pw (Qabs (y - x))) x' y') == pw (Qabs a) * qsum (zip (fun x y => pw (Qabs (y - x))) x y)).
  { clear - HC HM. induction n as [|n IH]; intros b [|u x] [|v y] [|u' x'] [|v' y'] Hx Hy; try (destruct Hx as (L1 & L2 & _); discriminate); try (destruct Hy as (L1 & L2 & _); discriminate); cbn [zip]; [rewrite !qsum_nil; ring|].
    destruct (moved_tail _ _ _ _ _ _ _ Hx) as [U Hx']. destruct (moved_tail _ _ _ _ _ _ _ Hy) as [V Hy']. rewrite !qsum_cons, (IH _ _ _ _ _ Hx' Hy').
    rewrite (HC _ _ (moved_abs a u v u' v' (b 0%nat) U V)), HM by apply Qabs_nonneg. ring. }
  assert (Z2 : forall n b x y x' y' s s', s' == Qabs a * s -> moved n a b x x' -> moved n a b y y' ->
     fold_left (fun dp d => qmax dp d) (zip (fun x y => Qabs (y - x)) x' y') s' == Qabs a * fold_left (fun dp d => qmax dp d) (zip (fun x y => Qabs (y - x)) x y) s).
  { clear. induction n as [|n IH]; intros b [|u x] [|v y] [|u' x'] [|v' y'] s s' Hs Hx Hy; try (destruct Hx as (L1 & L2 & _); discriminate); try (destruct Hy as (L1 & L2 & _); discriminate); cbn [zip fold_left]; [exact Hs|].
    destruct (moved_tail _ _ _ _ _ _ _ Hx) as [U Hx']. destruct (moved_tail _ _ _ _ _ _ _ Hy) as [V Hy']. apply (IH _ _ _ _ _ _ _) with (2 := Hx') (3 := Hy').
    rewrite <- qmax_scale by apply Qabs_nonneg. pose proof (moved_abs a u v u' v' (b 0%nat) U V) as A. unfold qmax. destruct (Qleb_spec s' (Qabs (v' - u'))), (Qleb_spec (Qabs a * s) (Qabs a * Qabs (v - u))); repeat match goal with H : ~ _ <= _ |- _ => apply Qnot_le_lt in H end; lra. }
  destruct n as [|[|n]].
  - destruct x, x', y, y'; try (destruct Hx as (L1 & L2 & _); discriminate); try (destruct Hy as (L1 & L2 & _); discriminate). unfold mink_p. destruct pinf; cbn [zip fold_left]; [ring|rewrite qsum_nil; ring].
  - destruct x as [|u [|? ?]], x' as [|u' [|? ?]], y as [|v [|? ?]], y' as [|v' [|? ?]]; try (destruct Hx as (L1 & L2 & _); discriminate); try (destruct Hy as (L1 & L2 & _); discriminate).
    destruct (moved_tail _ _ _ _ _ _ _ Hx) as [U _]. destruct (moved_tail _ _ _ _ _ _ _ Hy) as [V _]. unfold mink_p. rewrite Bool.orb_true_r. exact (moved_abs _ _ _ _ _ _ U V).
  - destruct x as [|u0 [|u1 x]], x' as [|u0' [|u1' x']]; try (destruct Hx as (L1 & L2 & _); discriminate). cbn [Nat.eqb]. rewrite Bool.orb_false_r. unfold mink_p. destruct pinf.
    + apply (Z2 _ _ _ _ _ _ 0 0) with (2 := Hx) (3 := Hy). ring.
    + exact (Z1 _ _ _ _ _ _ Hx Hy).
Qed.


Lemma Qabs_pos_ne a : ~ a == 0 -> 0 < Qabs a.
Proof. intros H. destruct (Qlt_le_dec 0 (Qabs a)) as [|L]; [assumption|]. exfalso. apply H. apply Qabs_case with (x := a) (P := fun v => v <= 0 -> a == 0) in L; auto; intros; lra. Qed.
(* -------------------------------------------------- searches that the code makes *)
Definition searched (pinf : bool) (pw : Q -> Q) (data : list (list Q)) (x : list Q) (k : nat) (f : Q) (res : list nele) : Prop :=
  (f == 1 /\ exists isrt, sorting (fun i => mink_p pinf pw x (nth i data [])) isrt /\ knn_brute pinf pw data x k isrt = Some res) \/
  (0 <= f <= 1 /\ (2 <= length x)%nat /\ exists mid fuel leafsize t qsrt nsrt fsrt, sorting qmind qsrt /\ sorting (fun e : nele => fst e) nsrt /\ sorting (fun e : nele => fst e) fsrt /\
     kd_new mid fuel data leafsize = Some t /\ kd_query data pinf pw x k f qsrt nsrt fsrt (kd_maxes data) (kd_mins data) t None = Some res).
(* t^p *)
Definition is_power (pw : Q -> Q) : Prop := (forall s t, s == t -> pw s == pw t) /\ pw 0 == 0 /\ pw 1 == 1 /\ (forall t, 0 < t -> 0 < pw t) /\
  (forall s t, 0 <= s -> 0 <= t -> pw (s * t) == pw s * pw t) /\ (forall s u, 0 <= s -> s <= u -> pw s <= pw u).
(* the p-th root *)
Definition is_root (root : Q -> Q) : Prop := (forall s t, s == t -> root s == root t) /\ forall t, 0 <= t -> 0 <= root t.
Lemma answer_feq D n k f g res : f == g -> answer D n k f res -> answer D n k g res.
Proof. intros E (A & B & C & F). repeat (split; [assumption|]). intros i Hi Hn e He. rewrite <- E. auto. Qed.
Lemma searched_answer pinf pw data x k f res : is_power pw -> (1 <= k <= length data)%nat -> (forall r, In r data -> length r = length x) -> searched pinf pw data x k f res ->
  answer (fun i => mink_p pinf pw x (nth i data [])) (length data) k f res.
Proof.
  intros (_ & P0 & _ & _ & _ & PM) Hk Hr [(Hf & isrt & S & E)|(Hf & Hx & mid & fuel & leaf & t & q1 & q2 & q3 & S1 & S2 & S3 & E1 & E2)].
  - apply (answer_feq _ _ _ 1); [lra|]. now apply brute_answer with isrt.
  - apply (tree_answer mid fuel data leaf t pinf pw x k f q1 q2 q3 res); auto.
Qed.
Lemma mink_nonneg pinf pw x y : (forall t, 0 <= t -> 0 <= pw t) -> 0 <= mink_p pinf pw x y.
Proof.
  intros HP. assert (A : forall x y, 0 <= qsum (zip (fun x y => pw (Qabs (y - x))) x y)).
  { clear - HP. induction x as [|u x IH]; intros [|v y]; cbn [zip]; rewrite ?qsum_nil; try lra. rewrite qsum_cons. pose proof (HP (Qabs (v - u)) (Qabs_nonneg _)). pose proof (IH y). lra. }
  assert (B : forall l s, 0 <= s -> 0 <= fold_left (fun dp d => qmax dp d) l s).
  { clear. induction l as [|u l IH]; intros s Hs; cbn [fold_left]; [exact Hs|]. apply IH. unfold qmax. destruct (Qleb_spec s u); lra. }
  unfold mink_p. destruct x as [|u [|? ?]]; [|destruct y|]; try apply Qabs_nonneg; destruct pinf; try apply A; apply B; lra.
Qed.

Section Moved.
  Variables (sg : nat -> nat) (n nf k : nat) (a : Q) (b : nat -> Q) (pinf : bool) (pw root : Q -> Q) (data data' : list (list Q)) (x x' : list Q) (f f' r epsilon : Q) (bydist : bool) (res res' : list nele).
  Hypothesis PW : is_power pw.
  Hypothesis RT : is_root root.
  Hypothesis Ln : length data = n.
  Hypothesis Ln' : length data' = n.
  Hypothesis Hk : (1 <= k <= n)%nat.
  Hypothesis HP : Permutation (map sg (seq 0 n)) (seq 0 n).
  Hypothesis Ha : ~ a == 0.
  Hypothesis Hb : bydist = true -> Qabs a == 1.
  Hypothesis Heps : 0 < epsilon.
  Hypothesis Hx : moved nf a b x x'.
  Hypothesis Hm : forall i, (i < n)%nat -> moved nf a b (nth i data []) (nth (sg i) data' []).
  Hypothesis HS : searched pinf pw data x k f res.
  Hypothesis HS' : searched pinf pw data' x' k f' res'.
  Hypothesis HI : isolated (fun i => mink_p pinf pw x (nth i data [])) n k f r.
  Hypothesis HI' : isolated (fun i => mink_p pinf pw x (nth i data [])) n k f' r.

  Lemma rows_length : (forall u, In u data -> length u = length x) /\ forall u, In u data' -> length u = length x'.
  Proof.
    destruct Hx as (L1 & L2 & _). rewrite L1, L2. split; intros u Hu; destruct (In_nth _ _ [] Hu) as (i & Hi & <-); rewrite ?Ln, ?Ln' in Hi.
    - now destruct (Hm i Hi).
    - assert (I : In i (map sg (seq 0 n))) by (apply (Permutation_in _ (Permutation_sym HP)), in_seq; lia). apply in_map_iff in I. destruct I as (j & <- & Hj). apply in_seq in Hj. now destruct (Hm j ltac:(lia)) as (_ & H & _).
  Qed.
  Lemma yw_moved c d Y Y' : (forall i, (i < n)%nat -> nth (sg i) Y' 0 == c * nth i Y 0 + d) -> bag_conv c d 1 (knn_yw bydist epsilon root Y res) (knn_yw bydist epsilon root Y' res').
  Proof.
    intros HY. destruct rows_length as [R1 R2]. assert (PW' := PW). destruct PW' as (PC & P0 & P1 & PP & PM & PO). pose proof (Qabs_pos_ne _ Ha) as Ap.
    apply (yw_conv sg n k f f' r (if (pinf || Nat.eqb nf 1)%bool then Qabs a else pw (Qabs a)) (fun i => mink_p pinf pw x (nth i data [])) (fun i => mink_p pinf pw x' (nth i data' []))); auto.
    - destruct (pinf || Nat.eqb nf 1)%bool; auto.
    - intros i Hi. apply (mink_moved nf a b); auto. intros t Ht. apply PM; auto. apply Qabs_nonneg.
    - rewrite <- Ln. apply searched_answer; auto. now rewrite Ln.
    - rewrite <- Ln'. apply searched_answer; auto. now rewrite Ln'.
    - apply HI'.
    - apply RT.
    - intros E. specialize (Hb E). destruct (pinf || Nat.eqb nf 1)%bool; [exact Hb|]. now rewrite (PC _ _ Hb).
  Qed.
  Lemma res_pos Y : knn_yw bydist epsilon root Y res <> [] /\ forall e, In e (knn_yw bydist epsilon root Y res) -> 0 < snd e.
  Proof.
    destruct rows_length as [R1 _]. pose proof (searched_answer pinf pw data x k f res PW ltac:(lia) R1 HS) as (L & _ & V & _). split.
    - apply yw_nil. intros ->. cbn in L. lia.
    - apply yw_pos; [exact Heps|]. intros e He. apply RT. destruct (V e He) as [-> _]. apply mink_nonneg. intros t Ht. destruct PW as (_ & P0 & _ & _ & _ & PO). rewrite <- P0. apply PO; lra.
  Qed.
End Moved.
(* the p-th root is only needed on the distances, which are squares here: 2, 1, 3 *)
Definition ex_root (q : Q) : Q := if Qeq_bool q 1 then 1 else if Qeq_bool q 4 then 2 else if Qeq_bool q 9 then 3 else 4.
