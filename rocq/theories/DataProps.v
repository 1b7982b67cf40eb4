(* Properties C162-C167: data sets *)
From Coq Require Import QArith Qabs List Arith Bool Lia Lqa.
From Verif Require Import QCommon DataModel DataProofs.
Import ListNotations.
Open Scope Q_scope.

(* C162: loadCsv puts the first columns into X and the last nOutputs columns into Y; with one output: *)
Theorem C162_csv_partial : forall A (parse : A -> option Q) cells X Y, load_csv parse cells 1 = Some (X, Y) ->
  length X = length cells /\ length Y = length cells /\ forall i row, nth_error cells i = Some row -> forall r0, nth_error cells 0 = Some r0 -> length row = length r0 ->
  exists xs y, nth_error X i = Some xs /\ nth_error Y i = Some [y] /\ map parse row = map Some (xs ++ [y]).
Proof.
  intros A parse cells X Y. unfold load_csv. destruct cells as [|c0 cells]; [discriminate|]. set (all := c0 :: cells) in *. destruct (Nat.ltb_spec (length c0) 1) as [|L0]; [discriminate|]. cbv zeta.
  destruct (apply_new (length all) (length c0 - 1) _) as [X'|] eqn:EX; [|discriminate]. destruct (apply_new (length all) 1 _) as [Y'|] eqn:EY; [|discriminate]. intros [= <- <-].
  apply apply_new_some in EX as (_ & X1 & X2 & X3 & X4). apply apply_new_some in EY as (_ & _ & Y2 & Y3 & Y4). split; [exact X2|]. split; [exact Y2|].
  intros i row Hi r0 [= <-] HL. assert (Li : (i < length all)%nat) by (apply nth_error_Some; congruence).
  destruct (nth_error X' i) as [xs|] eqn:EX; [|apply nth_error_None in EX; lia]. destruct (nth_error Y' i) as [ys|] eqn:EY; [|apply nth_error_None in EY; lia].
  assert (Lx : length xs = (length c0 - 1)%nat) by (apply X3; eapply nth_error_In; eauto). assert (Ly : length ys = 1%nat) by (apply Y3; eapply nth_error_In; eauto). destruct ys as [|y [|]]; try discriminate.
  exists xs, y. split; [reflexivity|]. split; [reflexivity|]. apply nth_ext with (d := None) (d' := None); [rewrite !map_length, app_length; cbn; lia|]. intros j Hj. rewrite map_length in Hj.
  destruct (nth_error row j) as [a|] eqn:Ea; [|apply nth_error_None in Ea; lia]. rewrite (nth_error_nth (map parse row) j None (map_nth_error parse j row Ea)).
  destruct (Nat.lt_ge_cases j (length c0 - 1)) as [LT|GE].
  - destruct (X4 i j Li LT) as (v & V1 & V2). rewrite Hi, Ea in V1. unfold cell_of in V2. rewrite EX in V2. rewrite V1. symmetry. apply nth_error_nth. rewrite map_app, nth_error_app1 by (rewrite map_length; lia). now apply map_nth_error.
  - replace j with (length c0 - 1)%nat in * by lia. destruct (Y4 i 0%nat Li ltac:(lia)) as (v & V1 & V2). rewrite Hi, Ea in V1. unfold cell_of in V2. rewrite EY in V2. injection V2 as <-. rewrite V1. symmetry. apply nth_error_nth.
    rewrite map_app, nth_error_app2 by (rewrite map_length; lia). rewrite map_length, Lx, Nat.sub_diag. reflexivity.
Qed.
Print Assumptions C162_csv_partial.
(* with more outputs every column of Y is the first one *)
Theorem C162_outputs_refuted : forall A (parse : A -> option Q) cells nout X Y, load_csv parse cells nout = Some (X, Y) ->
  forall i o, (i < length cells)%nat -> (o < nout)%nat -> cell_of Y i o = cell_of Y i 0.
Proof.
  intros A parse cells nout X Y. unfold load_csv. destruct cells as [|c0 cells]; [discriminate|]. destruct (Nat.ltb_spec (length c0) nout) as [|L0]; [discriminate|]. cbv zeta.
  destruct (apply_new _ (length c0 - nout) _) as [X'|] eqn:EX; [|discriminate]. destruct (apply_new _ nout _) as [Y'|] eqn:EY; [|discriminate]. intros [= <- <-] i o Hi Ho.
  apply apply_new_some in EY as (_ & Y1 & Y2 & Y3 & Y4). destruct (Y4 i o Hi Ho) as (v & V1 & V2). destruct (Y4 i 0%nat Hi Y1) as (w & W1 & W2). congruence.
Qed.
Print Assumptions C162_outputs_refuted.
Example C162_ex : load_csv (fun z : Z => Some (inject_Z z)) [[1; 2; 3]; [4; 5; 6]]%Z 1 = Some ([[1; 2]; [4; 5]], [[3]; [6]]) /\
  load_csv (fun z : Z => Some (inject_Z z)) [[1; 2; 3]; [4; 5; 6]]%Z 2 = Some ([[1]; [4]], [[2; 2]; [5; 5]]).
Proof. split; reflexivity. Qed.

(* C163: GetXY returns the data and the targets as matrices when there is a name for every feature *)
Theorem C163_xy_partial : forall N (data : list (list Q)) target (names : list N), (0 < length data)%nat -> (0 < length names)%nat -> length target = length data ->
  (forall row, In row data -> length row = length names) -> get_xy data target names = Some (data, map (fun y => [y]) target).
Proof.
  intros N data target names H0 H1 HT HR. unfold get_xy.
  destruct (apply_new_ex (length data) (length names) (fun i j => match nth_error data i with Some row => nth_error row j | None => None end)) as [X EX]; auto.
  { intros i j Hi Hj. destruct (nth_error data i) as [row|] eqn:E; [|apply nth_error_None in E; lia]. specialize (HR row (nth_error_In _ _ E)). destruct (nth_error row j) eqn:F; [eauto|]. apply nth_error_None in F. lia. }
  destruct (apply_new_ex (length data) 1 (fun i _ => nth_error target i)) as [Y EY]; auto.
  { intros i j Hi Hj. destruct (nth_error target i) eqn:F; [eauto|]. apply nth_error_None in F. lia. }
  rewrite EX, EY. apply apply_new_some in EX as (_ & _ & X2 & X3 & X4). apply apply_new_some in EY as (_ & _ & Y2 & Y3 & Y4). f_equal. f_equal.
  - apply nth_ext with (d := []) (d' := []); [exact X2|]. intros i Hi. rewrite X2 in Hi. destruct (nth_error X i) as [xs|] eqn:E; [|apply nth_error_None in E; lia]. destruct (nth_error data i) as [row|] eqn:F; [|apply nth_error_None in F; lia].
    rewrite (nth_error_nth _ _ _ E), (nth_error_nth _ _ _ F). assert (Lx : length xs = length names) by (apply X3; eapply nth_error_In; eauto). assert (Lr : length row = length names) by (apply HR; eapply nth_error_In; eauto).
    apply nth_ext with (d := 0) (d' := 0); [lia|]. intros j Hj. destruct (X4 i j Hi ltac:(lia)) as (v & V1 & V2). rewrite F in V1. unfold cell_of in V2. rewrite E in V2. now rewrite (nth_error_nth _ _ _ V1), (nth_error_nth _ _ _ V2).
  - apply nth_ext with (d := []) (d' := []); [rewrite map_length; lia|]. intros i Hi. rewrite Y2 in Hi. destruct (nth_error Y i) as [ys|] eqn:E; [|apply nth_error_None in E; lia]. rewrite (nth_error_nth _ _ _ E).
    assert (Ly : length ys = 1%nat) by (apply Y3; eapply nth_error_In; eauto). destruct ys as [|y [|]]; try discriminate. destruct (Y4 i 0%nat Hi ltac:(lia)) as (v & V1 & V2). unfold cell_of in V2. rewrite E in V2. injection V2 as <-.
    symmetry. apply nth_error_nth. exact (map_nth_error (fun y => [y]) i target V1).
Qed.
Print Assumptions C163_xy_partial.
(* without feature names it panics *)
Theorem C163_names_refuted : forall N data target, get_xy data target (@nil N) = None.
Proof. intros. unfold get_xy, apply_new. cbn [length]. now rewrite orb_true_r. Qed.
Print Assumptions C163_names_refuted.
Example C163_ex : get_xy [[1; 2]; [3; 4]] [5; 6] [tt; tt] = Some ([[1; 2]; [3; 4]], [[5]; [6]]) /\ get_xy [[1; 2]; [3; 4]] [5; 6] [tt] = Some ([[1]; [3]], [[5]; [6]]).
Proof. split; reflexivity. Qed.

(* C164: MakeRegression returns a linear model: every target is the product of the informative features and the returned coefficients plus the bias *)
Theorem C164_linear : forall ns nf ni nt b s X y C, make_regression ns nf ni nt b s = Some (X, y, C) ->
  length y = ns /\ forall i t, (i < ns)%nat -> (t < nt)%nat -> exists v w, cell_of y i t = Some v /\
    (match b with BNone => w = 0 | BScalar c => w = c | BRow l => nth_error l t = Some w end) /\
    v == fold_right Qplus 0 (map (fun k => X i k * C k t) (seq 0 (Nat.min ni nf))) + w.
Proof.
  intros ns nf ni nt b s X y C. unfold make_regression. destruct (_ || _ || _ || _)%bool; [discriminate|]. destruct (apply_new ns nt _) as [y'|] eqn:E; [|discriminate]. intros [= <- <- <-].
  apply apply_new_some in E as (_ & _ & E1 & _ & E2). split; [exact E1|]. intros i t Hi Ht. destruct (E2 i t Hi Ht) as (v & V1 & V2). destruct (bias_at b t) as [w|] eqn:EB; [|discriminate]. injection V1 as <-.
  eexists _, w. split; [exact V2|]. split; [destruct b; cbn in EB; congruence|]. now rewrite qsum_fr.
Qed.
Print Assumptions C164_linear.
(* it does not panic: positive sizes, a bias for every target; a scalar bias is the same as that value for every target *)
Theorem C164_total : forall ns nf ni nt b s, (0 < ns)%nat -> (0 < nf)%nat -> (0 < ni)%nat -> (0 < nt)%nat -> (forall l, b = BRow l -> (nt <= length l)%nat) ->
  exists r, make_regression ns nf ni nt b s = Some r.
Proof.
  intros ns nf ni nt b s H1 H2 H3 H4 HB. unfold make_regression. destruct (Nat.eqb_spec ns 0); [lia|]. destruct (Nat.eqb_spec nf 0); [lia|]. destruct (Nat.eqb_spec (Nat.min ni nf) 0); [lia|]. destruct (Nat.eqb_spec nt 0); [lia|]. cbn [orb].
  match goal with |- context[apply_new ns nt ?f] => destruct (apply_new_ex ns nt f H1 H4) as [M ->]; [|eauto] end.
  intros i t Hi Ht. destruct b as [|c|l]; cbn [bias_at]; eauto. destruct (nth_error l t) eqn:E; eauto. apply nth_error_None in E. specialize (HB l eq_refl). lia.
Qed.
Print Assumptions C164_total.
Theorem C164_bias : forall ns nf ni nt c s, make_regression ns nf ni nt (BScalar c) s = make_regression ns nf ni nt (BRow (repeat c nt)) s.
Proof.
  intros ns nf ni nt c s. unfold make_regression. destruct (_ || _ || _ || _)%bool; [reflexivity|]. unfold apply_new. destruct (_ || _)%bool; [reflexivity|]. f_equal.
  match goal with |- match opt_all (map ?f ?l) with _ => _ end = match opt_all (map ?g ?l) with _ => _ end => assert (E : map f l = map g l); [|now rewrite E] end.
  apply map_ext. intros i. f_equal. apply map_ext_in. intros t Ht. apply in_seq in Ht. cbn [bias_at]. now rewrite nth_error_repeat by lia.
Qed.
Print Assumptions C164_bias.
Example C164_ex : exists X C, make_regression 1 2 1 1 (BScalar 10) (fun k => inject_Z (Z.of_nat (k + 3))) = Some (X, [[15 + 10]], C) /\ X 0%nat 0%nat = 3 /\ C 0%nat 0%nat = 5.
Proof. eexists _, _. split; [reflexivity|]. split; reflexivity. Qed.

(* C165: the random centres of MakeBlobs lie in CenterBox, and they are found once the stream holds enough normal draws within one
   deviation, when the box is not empty *)
Theorem C165_box : forall fuel n lo hi s k l, blob_coords fuel n lo hi s k = Some l -> length l = n /\ forall c, In c l -> lo <= c < hi.
Proof. exact (fun fuel n lo hi s k l H => coords_in fuel lo hi s n k l H). Qed.
Print Assumptions C165_box.
Theorem C165_found_partial : forall lo hi s n k, lo < hi -> (forall k, exists m, - (1) <= s (k + m)%nat < 1) -> exists fuel l, blob_coords fuel n lo hi s k = Some l.
Proof.
  intros lo hi s n k H HS. revert k. induction n as [|n IH]; intros k; [exists 0%nat, []; reflexivity|]. destruct (HS k) as [m Hm]. destruct (coord_ends (S m) lo hi s H k m ltac:(lia) Hm) as (c & k' & E). destruct (IH k') as (f & l & E2).
  assert (mono : forall f1 f2 k c k', (f1 <= f2)%nat -> blob_coord f1 lo hi s k = Some (c, k') -> blob_coord f2 lo hi s k = Some (c, k')).
  { clear. induction f1 as [|f1 IH]; intros f2 k c k' HL; cbn [blob_coord]; [discriminate|]. destruct f2 as [|f2]; [lia|]. cbn [blob_coord]. cbv zeta. destruct (_ && _)%bool; [auto|]. apply IH. lia. }
  assert (monos : forall n f1 f2 k l, (f1 <= f2)%nat -> blob_coords f1 n lo hi s k = Some l -> blob_coords f2 n lo hi s k = Some l).
  { clear - mono. induction n as [|n IH]; intros f1 f2 k l HL; cbn [blob_coords]; [auto|]. destruct (blob_coord f1 lo hi s k) as [[c k']|] eqn:E; [|discriminate]. rewrite (mono f1 f2 k c k' HL E).
    destruct (blob_coords f1 n lo hi s k') as [l'|] eqn:E2; [|discriminate]. now rewrite (IH f1 f2 k' l' HL E2). }
  exists (Nat.max (S m) f), (c :: l). cbn [blob_coords]. rewrite (mono (S m) (Nat.max (S m) f) k c k' ltac:(lia) E). now rewrite (monos n f (Nat.max (S m) f) k' l ltac:(lia) E2).
Qed.
Print Assumptions C165_found_partial.
(* with a box given as (high, low), or of one point, MakeBlobs never returns *)
Theorem C165_box_refuted : forall fuel n lo hi s k, hi <= lo -> (0 < n)%nat -> blob_coords fuel n lo hi s k = None.
Proof. intros fuel n lo hi s k H Hn. destruct n as [|n]; [lia|]. cbn [blob_coords]. now rewrite coord_stuck. Qed.
Print Assumptions C165_box_refuted.
Example C165_ex : blob_coords 5 2 (- (10)) 10 (fun k => inject_Z (Z.of_nat k)) 0 = None /\ exists l, blob_coords 5 2 (- (10)) 10 (fun k => (2 # 1) - (Z.of_nat k # 2)) 0 = Some l /\ Forall2 Qeq l [5; 0].
Proof. split; [reflexivity|]. eexists. split; [reflexivity|]. repeat constructor. Qed.

(* C166: the samples of MakeBlobs lie around the centre that Y names *)
Theorem C166_samples : forall ns nf centers intn ord noise X Y, blobs ns nf centers intn ord noise = Some (X, Y) ->
  length X = ns /\ length Y = ns /\ forall i, (i < ns)%nat -> exists row c cl, nth_error X i = Some row /\ nth_error Y i = Some cl /\ nth_error centers cl = Some c /\ length row = nf /\
    forall j, (j < nf)%nat -> nth j row 0 - nth j c 0 == noise i j.
Proof.
  intros ns nf centers intn ord noise X Y. unfold blobs. destruct (opt_all _) as [X'|] eqn:E; [|discriminate]. intros [= <- <-]. apply opt_all_map in E as [L E]. rewrite seq_length in L. split; [exact L|]. split; [now rewrite map_length, seq_length|].
  intros i Hi. destruct (E i i) as (row & E1 & E2); [now rewrite seq_nth_error|]. destruct (nth_error centers (intn (ord i))) as [c|] eqn:EC; [|discriminate]. destruct (Nat.eqb (length c) nf); [|discriminate]. injection E2 as <-.
  eexists _, c, (intn (ord i)). split; [exact E1|]. split; [rewrite (map_nth_error (fun i => intn (ord i)) i (seq 0 ns) (d := i)); [reflexivity|now rewrite seq_nth_error]|]. split; [exact EC|]. split; [now rewrite map_length, seq_length|].
  intros j Hj. rewrite (nth_error_nth _ j 0 (map_nth_error (fun j => noise i j + nth j c 0) j (seq 0 nf) (seq_nth_error 0 nf j Hj))). cbn [Nat.add]. ring.
Qed.
Print Assumptions C166_samples.
(* a matrix of centres decides the number of features: it must agree with NFeatures (2 when not set), otherwise MakeBlobs panics *)
Theorem C166_features_refuted : forall ns nf centers intn ord noise, (0 < ns)%nat -> (forall c, In c centers -> length c <> nf) -> blobs ns nf centers intn ord noise = None.
Proof.
  intros ns nf centers intn ord noise H0 HC. unfold blobs. erewrite opt_all_none; [reflexivity|apply in_seq; split; [apply Nat.le_0_l|exact H0]|]. cbn.
  destruct (nth_error centers (intn (ord 0%nat))) as [c|] eqn:E; [|reflexivity]. specialize (HC c (nth_error_In _ _ E)). destruct (Nat.eqb_spec (length c) nf); [contradiction|reflexivity].
Qed.
Print Assumptions C166_features_refuted.
Example C166_ex : exists X, blobs 2 1 [[10]; [20]] (fun k => k) (fun i => i) (fun _ _ => 1 # 2) = Some (X, [0; 1]%nat) /\ X = [[(1 # 2) + 10]; [(1 # 2) + 20]].
Proof. eexists. split; reflexivity. Qed.

(* C167: MakeBlobs is not a function of RandomState: the noise comes from the global source whatever RandomState is, and the clusters
   depend on the order in which the goroutines draw *)
Theorem C167_noise_refuted : forall ns nf centers intn ord noise noise' X Y X' Y' i j, blobs ns nf centers intn ord noise = Some (X, Y) -> blobs ns nf centers intn ord noise' = Some (X', Y') ->
  (i < ns)%nat -> (j < nf)%nat -> ~ noise i j == noise' i j -> X <> X'.
Proof.
  intros ns nf centers intn ord noise noise' X Y X' Y' i j H H' Hi Hj HN E. subst X'. destruct (C166_samples _ _ _ _ _ _ _ _ H) as (_ & _ & S). destruct (C166_samples _ _ _ _ _ _ _ _ H') as (_ & _ & S').
  destruct (S i Hi) as (row & c & cl & A1 & A2 & A3 & A4 & A5). destruct (S' i Hi) as (row' & c' & cl' & B1 & B2 & B3 & B4 & B5).
  assert (Y = Y') by (unfold blobs in H, H'; destruct (opt_all _) in H; [|discriminate]; destruct (opt_all _) in H'; [|discriminate]; congruence). subst Y'. apply HN. rewrite <- (A5 j Hj), <- (B5 j Hj). replace row' with row by congruence. now replace c' with c by congruence.
Qed.
Print Assumptions C167_noise_refuted.
Theorem C167_schedule_refuted : exists intn ord ord' X Y X' Y', (forall k, k < 2 -> ord k < 2 /\ ord' k < 2)%nat /\ ord 0%nat <> ord 1%nat /\ ord' 0%nat <> ord' 1%nat /\
  blobs 2 1 [[0]; [20]] intn ord (fun _ _ => 0) = Some (X, Y) /\ blobs 2 1 [[0]; [20]] intn ord' (fun _ _ => 0) = Some (X', Y') /\ Y <> Y'.
Proof. exists (fun k => k), (fun k => k), (fun k => (1 - k)%nat). eexists _, _, _, _. split; [intros k Hk; lia|]. split; [lia|]. split; [lia|]. split; [reflexivity|]. split; [reflexivity|]. discriminate. Qed.
Print Assumptions C167_schedule_refuted.
