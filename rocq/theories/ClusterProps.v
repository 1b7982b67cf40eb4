(* Properties C36, C37, C38, C88. *)
From Coq Require Import Relations.
From Verif Require Import QCommon NeighModel ClusterModel DbscanProofs KMeansProofs.
Open Scope Q_scope.

(* C36: [nbh] is any neighbourhood table, symmetric between core samples.  Core
   samples share a label iff they are linked by core samples *)
Theorem C36_dbscan_components : forall isCore nbh, length isCore = length nbh ->
  (forall i v, In v (nth i nbh []) -> (v < length nbh)%nat) ->
  let core i := nth i isCore false = true in
  (forall u v, core u -> core v -> In v (nth u nbh []) -> In u (nth v nbh [])) ->
  exists L c, dbscan_inner isCore nbh (repeat (-1)%Z (length nbh)) = Some (L, c) /\ length L = length nbh /\
  let lab i := nth i L (-1)%Z in
  (forall j, lab j = (-1)%Z \/ (0 <= lab j < c)%Z) /\ (forall l, (0 <= l < c)%Z -> exists r, core r /\ lab r = l) /\
  (forall u v, core u -> core v -> (lab u = lab v <-> clos_refl_trans nat (fun a b => core a /\ core b /\ In b (nth a nbh [])) u v)) /\
  (forall j, lab j <> (-1)%Z <-> core j \/ exists u, core u /\ In j (nth u nbh [])) /\
  (forall j, lab j <> (-1)%Z -> ~ core j -> exists u, core u /\ In j (nth u nbh []) /\ lab u = lab j).
Proof.
  intros isCore nbh HL HR core HS. destruct (dbscan_spec isCore nbh HR HL HS) as (L & c & E & A & B & C & D & F & G).
  exists L, c. split; [exact E|]. split; [exact A|]. cbv zeta. split; [exact B|]. split; [exact C|]. split; [exact D|]. split; [exact F|].
  intros j Hj Hc. apply G; [exact Hj|]. destruct (isc isCore j) eqn:X; [contradiction|reflexivity].
Qed.
Print Assumptions C36_dbscan_components.
Example C36_example : dbscan_inner [true; false; true; true; false; true] [[0; 2]; [1; 2]; [0; 1; 2]; [3; 4]; [3; 4]; [5]]%nat (repeat (-1)%Z 6) = Some ([0; 0; 0; 1; 1; 2]%Z, 3%Z).
Proof. vm_compute. reflexivity. Qed.
(* with neighbourhoods given by a symmetric distance and a radius *)
Theorem C36_dbscan_distance : forall isCore nbh (D : nat -> nat -> Q) eps, length isCore = length nbh ->
  (forall i v, (i < length nbh)%nat -> (In v (nth i nbh []) <-> (v < length nbh)%nat /\ D i v <= eps)) -> (forall i j, D i j == D j i) ->
  let core i := (i < length nbh)%nat /\ nth i isCore false = true in
  exists L c, dbscan_inner isCore nbh (repeat (-1)%Z (length nbh)) = Some (L, c) /\ length L = length nbh /\
  let lab i := nth i L (-1)%Z in
  (forall u v, core u -> core v -> (lab u = lab v <-> clos_refl_trans nat (fun a b => core a /\ core b /\ D a b <= eps) u v)) /\
  (forall j, (j < length nbh)%nat -> (lab j <> (-1)%Z <-> core j \/ exists u, core u /\ D u j <= eps)) /\
  (forall j, lab j <> (-1)%Z -> ~ core j -> exists u, core u /\ D u j <= eps /\ lab u = lab j).
Proof.
  intros isCore nbh D eps HL HN HD core.
  assert (HR: forall i v, In v (nth i nbh []) -> (v < length nbh)%nat).
  { intros i v Hin. destruct (Nat.ltb_spec i (length nbh)); [now apply HN in Hin|]. rewrite nth_overflow in Hin by lia. destruct Hin. }
  assert (HC: forall i, nth i isCore false = true <-> core i).
  { intros i. unfold core. split; [|tauto]. intros H. split; [|exact H]. rewrite <- HL. destruct (Nat.ltb_spec i (length isCore)); [assumption|]. rewrite nth_overflow in H by lia. discriminate. }
  destruct (C36_dbscan_components isCore nbh HL HR) as (L & c & E & A & B & C & F & G & K).
  { intros u v Cu Cv Hin. apply HC in Cu. apply HC in Cv. apply HN; [apply Cv|]. apply HN in Hin; [|apply Cu]. split; [apply Cu|]. rewrite HD. apply Hin. }
  cbv zeta in *. exists L, c. split; [exact E|]. split; [exact A|]. split; [|split].
  - intros u v Cu Cv. rewrite F by (now apply HC).
    assert (X: forall a b, (nth a isCore false = true /\ nth b isCore false = true /\ In b (nth a nbh [])) <-> (core a /\ core b /\ D a b <= eps)).
    { intros a b. rewrite !HC. split; intros (P & Q & R); (split; [exact P|split; [exact Q|]]); [apply HN in R; [apply R|apply P]|apply HN; [apply P|split; [apply Q|exact R]]]. }
    now apply crt_ext.
  - intros j Hj. rewrite G, HC. split; (intros [X|(u & X & Y)]; [now left|right; exists u]).
    + apply HC in X. split; [exact X|]. apply HN in Y; [apply Y|apply X].
    + split; [now apply HC|]. apply HN; [apply X|]. split; [exact Hj|exact Y].
  - intros j Lj Hc. destruct (K j Lj) as (u & X & Y & W); [rewrite HC; exact Hc|]. exists u. apply HC in X. split; [exact X|]. split; [apply HN in Y; [apply Y|apply X]|exact W].
Qed.
Print Assumptions C36_dbscan_distance.

(* C37: what is proved: the labels depend on the last data only, and a sample is
   core iff it has strictly more than MinSamples neighbours *)
Theorem C37_refit_labels_partial : forall ms m wn m', dbs_fit ms m wn = Some m' ->
  exists m0, dbs_fit ms dbs_new wn = Some m0 /\ dLabels m' = dLabels m0 /\ dCore m' = dCore m ++ dCore m0.
Proof. exact fit_labels. Qed.
Print Assumptions C37_refit_labels_partial.
Theorem C37_core_partial : forall ms nbh m', dbs_fit ms dbs_new (None, nbh) = Some m' ->
  forall i, In i (dCore m') <-> (i < length nbh)%nat /\ ms < qn (length (nth i nbh [])).
Proof.
  intros ms nbh m'. unfold dbs_fit. destruct (dbscan_inner _ _ _) as [[L c]|]; [|discriminate]. intros E. injection E as <-. intros i. cbn [dCore dbs_new app].
  rewrite filter_In, in_seq. split.
  - intros ((_ & A) & B). cbn in A. split; [exact A|]. rewrite (nth_indep _ false (Qltb ms (n_neighbors None []))) in B by (now rewrite map_length). rewrite (map_nth (fun nb => Qltb ms (n_neighbors None nb))) in B.
    cbn [n_neighbors] in B. destruct (Qltb_spec ms (qn (length (nth i nbh [])))); [assumption|discriminate].
  - intros (A & B). split; [lia|]. rewrite (nth_indep _ false (Qltb ms (n_neighbors None []))) by (now rewrite map_length). rewrite (map_nth (fun nb => Qltb ms (n_neighbors None nb))).
    cbn [n_neighbors]. destruct (Qltb_spec ms (qn (length (nth i nbh [])))); [reflexivity|lra].
Qed.
Print Assumptions C37_core_partial.
Example C37_example : dbs_fit 1 dbs_new (None, [[0; 1]; [0; 1]; [2]]%nat) = Some (mkdbs [0; 0; -1]%Z [0; 1]%nat).
Proof. vm_compute. reflexivity. Qed.
(* exactly MinSamples neighbours, itself included, do not make a core sample:
   two samples at MinSamples = 2 are noise; and the core samples of earlier
   fits are kept *)
Theorem C37_threshold_refuted : exists nbh m', dbs_fit 2 dbs_new (None, nbh) = Some m' /\ length (nth 0 nbh []) = 2%nat /\ In 0%nat (nth 0 nbh []) /\ dCore m' = [] /\ dLabels m' = [-1; -1]%Z.
Proof. exists [[0; 1]; [0; 1]]%nat. eexists. split; [vm_compute; reflexivity|]. repeat split; try reflexivity. now left. Qed.
Print Assumptions C37_threshold_refuted.
Theorem C37_refit_core_refuted : exists nbh1 nbh2 m1 m2 m0, dbs_fit 1 dbs_new (None, nbh1) = Some m1 /\ dbs_fit 1 m1 (None, nbh2) = Some m2 /\ dbs_fit 1 dbs_new (None, nbh2) = Some m0 /\
  dCore m0 = [] /\ dCore m2 = [0; 1]%nat /\ length nbh2 = 1%nat.
Proof. exists [[0; 1]; [0; 1]]%nat, [[0]]%nat. do 3 eexists. repeat match goal with |- _ /\ _ => split end; vm_compute; reflexivity. Qed.
Print Assumptions C37_refit_core_refuted.

(* C38.  [dist] is any distance that depends only on the values *)
Theorem C38_predict_nearest : forall dist C x, (0 < length C)%nat -> let b := nearest dist C x in
  (b < length C)%nat /\ (forall k, (k < length C)%nat -> dist x (nth b C []) <= dist x (nth k C [])) /\ (forall k, (k < b)%nat -> dist x (nth b C []) < dist x (nth k C [])).
Proof. exact nearest_spec. Qed.
Print Assumptions C38_predict_nearest.
Theorem C38_fixed_point : forall dist K X ord fuel C y,
  (forall x c c', length c = length c' -> (forall j, nth j c 0 == nth j c' 0) -> dist x c == dist x c') ->
  (forall r, In r X -> length r = length (hd [] X)) -> (forall e, Permutation (ord e) (seq 0 (length X))) ->
  km_fit dist fuel ord K X = Some (C, y) ->
  assign dist C X = y /\ length C = K /\
  (* every non-empty cluster's centroid is the mean of its samples *)
  forall k j, (k < K)%nat -> (j < length (hd [] X))%nat ->
    nth j (nth k C []) 0 * qn (length (filter (Nat.eqb k) y)) == qsum (map (fun i => if Nat.eqb (nth i y 0%nat) k then nth j (nth i X []) 0 else 0) (seq 0 (length X))).
Proof.
  intros dist K X ord fuel C y Hd HX Ho E. destruct (fit_fixed dist K X ord fuel C y Hd HX Ho E) as (M & A). split; [exact A|]. pose proof M as ((L & _) & B). split; [exact L|].
  intros k j Hk Hj. rewrite B by assumption. unfold msum, ccount, x_. destruct (Nat.eq_dec (length (filter (Nat.eqb k) y)) 0) as [E0|E0].
  - rewrite E0. rewrite (qsum_map_ext _ (fun _ => 0)); [rewrite qsum_const; change (qn 0) with 0; ring|]. intros i Hi. apply in_seq in Hi. destruct (Nat.eqb_spec (nth i y 0%nat) k) as [Ek|]; [|reflexivity]. exfalso.
    apply length_zero_iff_nil in E0. assert (Hin: In k (filter (Nat.eqb k) y)); [|rewrite E0 in Hin; destruct Hin]. apply filter_In. split; [|apply Nat.eqb_refl]. rewrite <- Ek. apply nth_In.
    rewrite <- A. unfold assign. rewrite map_length. lia.
  - field. pose proof (qn_pos (length (filter (Nat.eqb k) y)) ltac:(lia)). lra.
Qed.
Print Assumptions C38_fixed_point.
Example C38_example : exists C, km_fit euclid2 20 (fun _ => seq 0 4) 2 [[0;0]; [10;10]; [1;0]; [9;10]] = Some (C, [0; 1; 0; 1]%nat) /\ Forall2 (Forall2 Qeq) C [[1#2; 0]; [19#2; 10]].
Proof. eexists. split; [vm_compute; reflexivity|]. repeat constructor. Qed.

(* C88: the default distance: every epoch lowers or keeps the cost, and Fit ends *)
Theorem C88_fit_terminates_partial : forall K X ord, (1 <= K <= length X)%nat -> (forall r, In r X -> length r = length (hd [] X)) ->
  (forall e, Permutation (ord e) (seq 0 (length X))) -> exists fuel res, km_fit euclid2 fuel ord K X = Some res.
Proof. exact fit_terminates. Qed.
Print Assumptions C88_fit_terminates_partial.
Theorem C88_inertia : forall K m X C y ord, (0 < K)%nat -> (forall r, In r X -> length r = m) -> length C = K -> (forall k, (k < K)%nat -> length (nth k C []) = m) ->
  length y = length X -> (forall i, In i y -> (i < K)%nat) -> Permutation ord (seq 0 (length X)) ->
  let inertia y C := qsum (map (fun i => euclid2 (nth i X []) (nth (nth i y 0%nat) C [])) (seq 0 (length X))) in
  let y' := assign euclid2 C X in inertia y' (recompute K m X y' ord) <= inertia y' C /\ inertia y' C <= inertia y C.
Proof.
  intros K m X C y ord HK HX L R LY RY P inertia y'. pose proof (assign_ok K m X HK euclid2 C (conj L R)) as OY. split.
  - apply (mean_min K m X HK HX); [exact OY|now apply recompute_mean|split; assumption].
  - apply (assign_cost K m X HK); split; assumption.
Qed.
Print Assumptions C88_inertia.
(* any other distance: MinkowskiDistance(1) and the lock orders being any *)
Theorem C88_manhattan_refuted : exists X, length X = 4%nat /\ forall ord, (forall e, Permutation (ord e) (seq 0 (length X))) -> forall fuel, km_fit manhattan fuel ord 2 X = None.
Proof. exists manX. split; [reflexivity|]. exact manX_loops. Qed.
Print Assumptions C88_manhattan_refuted.
