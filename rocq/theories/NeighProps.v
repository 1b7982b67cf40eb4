(* Properties C32-C35, C78-C87. *)
From Coq Require Import Floats.SpecFloat Qround.
From Verif Require Import QCommon NeighModel KdProofs KdQueryProofs KnnModel KnnProofs.
Open Scope Q_scope.

(* C32.  [leaves] lists the samples in the leaves, [boxed] says that samples are
   on their side of every split and inside the box of every subtree *)
Theorem C32_kdtree_partition : forall mid fuel data leafsize t, (0 < length (hd [] data))%nat -> kd_new mid fuel data leafsize = Some t ->
  Permutation (leaves t) (seq 0 (length data)) /\
  boxed data (length (hd [] data)) t (kd_maxes data) (kd_mins data) /\
  leaves_ok data (length (hd [] data)) (if Nat.ltb leafsize 1 then 1%nat else leafsize) t.
Proof. intros mid fuel data leafsize t Hm E. exact (kd_new_spec mid fuel data leafsize t Hm E). Qed.
Print Assumptions C32_kdtree_partition.
Example C32_example : kd_new exact_mid 9 [[0;0]; [10;1]; [2;9]; [9;8]] 1 = Some (Inner 0 ((10 + 0) / 2) (Inner 1 ((9 + 0) / 2) (Leaf [0%nat]) (Leaf [2%nat])) (Inner 1 ((9 + 0) / 2) (Leaf [1%nat]) (Leaf [3%nat]))).
Proof. vm_compute. reflexivity. Qed.

(* C33: refuted for every leaf size: leaf size + 1 equal values above another *)
Theorem C33_kdtree_terminates_refuted : forall L, (1 <= L)%nat -> exists data, length data = (L + 2)%nat /\ forall fuel, kd_new exact_mid fuel data L = None.
Proof.
  intros L HL. exists ([0] :: repeat [1] (S L)). split; [cbn [length]; rewrite repeat_length; lia|]. apply kd_new_loops; [exact HL|reflexivity].
Qed.
Print Assumptions C33_kdtree_terminates_refuted.
(* also for two different binary64 numbers whose midpoint rounds to the larger *)
Theorem C33_kdtree_rounding_refuted : exists a b, let v := f2q in
  v b < v a /\ forall mid, mid (v a) (v b) = v (fmid a b) -> forall fuel, kd_new mid fuel [[v b]; [v a]] 1 = None.
Proof.
  exists (S754_finite false 4503599627370498 (-52)), (S754_finite false 4503599627370497 (-52)). cbv zeta. split; [vm_compute; reflexivity|].
  intros mid Hm. apply kd_new_loops_mid; [vm_compute; reflexivity|]. rewrite Hm. vm_compute. reflexivity.
Qed.
Print Assumptions C33_kdtree_rounding_refuted.
(* terminates when no value occurs more than LeafSize times in a column *)
Theorem C33_kdtree_terminates_partial : forall mid data leafsize, let m := length (hd [] data) in let leaf := if Nat.ltb leafsize 1 then 1%nat else leafsize in
  data <> [] -> (0 < m)%nat -> (forall a b, b < a -> b <= mid a b /\ mid a b < a) ->
  (forall j v, (j < m)%nat -> (length (filter (fun i => Qeq_bool (nth j (nth i data []) 0%Q) v) (seq 0 (length data))) <= leaf)%nat) ->
  exists fuel t, (forall fuel', (fuel <= fuel')%nat -> kd_new mid fuel' data leafsize = Some t).
Proof.
  intros mid data leafsize m leaf H1 H2 H3 H4. destruct (kd_new_terminates mid data leafsize H1 H2 H3 H4) as (f & t & E). exists f, t. intros f' Hf.
  unfold kd_new in *. destruct data; [discriminate|]. eapply build_mono; eauto.
Qed.
Print Assumptions C33_kdtree_terminates_partial.

(* C34 (and the documented eps guarantee, C87).  [pw t] is t^p; distances are
   p-th powers; the sorts return any sorted permutation.  [epsfac] is 1 for
   eps = 0 and 1/(1+eps)^p otherwise *)
Theorem C34_kdtree_query : forall mid fuel data leafsize t pinf pw x k epsfac qsrt nsrt fsrt,
  kd_new mid fuel data leafsize = Some t -> (1 <= k)%nat -> 0 <= epsfac <= 1 ->
  sorting qmind qsrt -> sorting (fun e : nele => fst e) nsrt -> sorting (fun e : nele => fst e) fsrt ->
  pw 0 == 0 -> (forall s u, 0 <= s -> s <= u -> pw s <= pw u) ->
  (2 <= length x)%nat -> (forall r, In r data -> length r = length x) ->
  let D i := mink_p pinf pw x (nth i data []) in
  exists res, kd_query data pinf pw x k epsfac qsrt nsrt fsrt (kd_maxes data) (kd_mins data) t None = Some res /\
  length res = Nat.min k (length data) /\ NoDup (map snd res) /\
  (forall e, In e res -> fst e == D (snd e) /\ (snd e < length data)%nat) /\
  (forall i j, (i <= j)%nat -> (j < length res)%nat -> fst (nth i res (0, 0%nat)) <= fst (nth j res (0, 0%nat))) /\
  (forall i, (i < length data)%nat -> ~ In i (map snd res) -> forall e, In e res -> epsfac * fst e <= D i).
Proof.
  intros mid fuel data leafsize t pinf pw x k epsfac qsrt nsrt fsrt E Hk He Hq Hn Hf P0 PM Hm Hrow D.
  assert (Hd: data <> []) by (intros ->; discriminate).
  assert (Hx: length (hd [] data) = length x) by (destruct data; [congruence|]; apply Hrow; now left).
  destruct (kd_new_spec mid fuel data leafsize t ltac:(lia) E) as (P & B & _). rewrite Hx in B.
  assert (Hrow': forall i, (i < length data)%nat -> length (nth i data []) = length x) by (intros i Hi; apply Hrow, nth_In, Hi).
  destruct (query_select data pinf pw x k epsfac qsrt nsrt fsrt Hk He Hq Hn Hf (conj P0 PM) Hrow' (or_introl Hm) None _ _ t B P) as (res & E1 & A & ND & S & L & SEL & LEN).
  exists res. split; [exact E1|]. split; [now apply LEN|]. split; [exact ND|]. split; [exact A|]. split.
  - clear -S. unfold sorted_by in S. induction S as [|a l S IH F]; intros i j Hij Hj; [cbn in Hj; lia|]. destruct i as [|i], j as [|j]; cbn [nth]; try lra; try lia.
    + rewrite Forall_forall in F. apply F. apply nth_In. cbn in Hj. lia.
    + apply IH; [lia|]. cbn in Hj. lia.
  - intros i Hi Hni e Hin. destruct (SEL i Hi Hni) as [(_ & X)|(b & X & _)]; [now apply X|discriminate].
Qed.
Print Assumptions C34_kdtree_query.

(* the j-th distance is the j-th distance of the brute force search *)
Theorem C34_query_equals_brute : forall mid fuel data leafsize t pinf pw x k qsrt nsrt fsrt isrt,
  kd_new mid fuel data leafsize = Some t -> (1 <= k <= length data)%nat ->
  sorting qmind qsrt -> sorting (fun e : nele => fst e) nsrt -> sorting (fun e : nele => fst e) fsrt -> sorting (fun i => mink_p pinf pw x (nth i data [])) isrt ->
  pw 0 == 0 -> (forall s u, 0 <= s -> s <= u -> pw s <= pw u) ->
  (2 <= length x)%nat -> (forall r, In r data -> length r = length x) ->
  exists res br, kd_query data pinf pw x k 1 qsrt nsrt fsrt (kd_maxes data) (kd_mins data) t None = Some res /\ knn_brute pinf pw data x k isrt = Some br /\
  Forall2 Qeq (map fst res) (map fst br).
Proof.
  intros mid fuel data leafsize t pinf pw x k qsrt nsrt fsrt isrt E Hk Hq Hn Hf Hi P0 PM Hm Hrow.
  assert (Hd: data <> []) by (intros ->; discriminate).
  assert (Hx: length (hd [] data) = length x) by (destruct data; [congruence|]; apply Hrow; now left).
  destruct (kd_new_spec mid fuel data leafsize t ltac:(lia) E) as (P & B & _). rewrite Hx in B.
  assert (Hrow': forall i, (i < length data)%nat -> length (nth i data []) = length x) by (intros i Hj; apply Hrow, nth_In, Hj).
  destruct (query_vs_brute data pinf pw x k 1 qsrt nsrt fsrt isrt _ _ t Hk ltac:(lra) Hq Hn Hf Hi (conj P0 PM) Hrow' (or_introl Hm) B P) as (res & br & E1 & E2 & L1 & L2 & C).
  exists res, br. split; [exact E1|]. split; [exact E2|].
  assert (G: forall l1 l2 : list nele, length l1 = length l2 -> (forall j, (j < length l1)%nat -> fst (nth j l1 (0, 0%nat)) == fst (nth j l2 (0, 0%nat))) -> Forall2 Qeq (map fst l1) (map fst l2)).
  { clear. induction l1 as [|a l1 IH]; intros [|b l2] L H; cbn [length] in L; try discriminate; constructor; [apply (H 0%nat); cbn; lia|]. apply IH; [lia|]. intros j Hj. apply (H (S j)). cbn. lia. }
  apply G; [congruence|]. intros j Hj. destruct (C j ltac:(lia)). lra.
Qed.
Print Assumptions C34_query_equals_brute.
Example C34_example :
  let data := [[0;0]; [10;1]; [2;9]; [9;8]; [3;1]; [1;1]] in
  exists t, kd_new exact_mid 20 data 1 = Some t /\
  kd_query data false (fun t => t * t) [3; 2] 3 1 (qisort qmind) (qisort (fun e : nele => fst e)) (qisort (fun e : nele => fst e)) (kd_maxes data) (kd_mins data) t None
  = Some [(1, 4%nat); (5, 5%nat); (13, 0%nat)].
Proof. eexists. split; vm_compute; reflexivity. Qed.

(* C35: one feature and p = 2: pruning compares squares with plain distances *)
Theorem C35_one_feature_refuted : exists data x t res br,
  kd_new exact_mid 20 data 1 = Some t /\
  kd_query data false (fun t => t * t) x 1 1 (qisort qmind) (qisort (fun e : nele => fst e)) (qisort (fun e : nele => fst e)) (kd_maxes data) (kd_mins data) t None = Some res /\
  knn_brute false (fun t => t * t) data x 1 (qisort (fun i => mink_p false (fun t => t * t) x (nth i data []))) = Some br /\
  map snd res = [0%nat] /\ map snd br = [1%nat] /\ Qabs (nth 0 (nth 1 data []) 0 - hd 0 x) < Qabs (nth 0 (nth 0 data []) 0 - hd 0 x).
Proof.
  exists [[-6]; [5]; [14]], [0]. do 3 eexists. repeat match goal with |- _ /\ _ => split end; vm_compute; reflexivity.
Qed.
Print Assumptions C35_one_feature_refuted.
(* one feature is exact for p = 1 and p = +Inf *)
Theorem C35_one_feature_partial : forall mid fuel data leafsize t pinf pw x k qsrt nsrt fsrt isrt,
  kd_new mid fuel data leafsize = Some t -> (1 <= k <= length data)%nat ->
  sorting qmind qsrt -> sorting (fun e : nele => fst e) nsrt -> sorting (fun e : nele => fst e) fsrt -> sorting (fun i => mink_p pinf pw [x] (nth i data [])) isrt ->
  pw 0 == 0 -> (forall s u, 0 <= s -> s <= u -> pw s <= pw u) -> pinf = true \/ (forall t, 0 <= t -> pw t == t) ->
  (forall r, In r data -> length r = 1%nat) ->
  exists res br, kd_query data pinf pw [x] k 1 qsrt nsrt fsrt (kd_maxes data) (kd_mins data) t None = Some res /\ knn_brute pinf pw data [x] k isrt = Some br /\
  length res = k /\ length br = k /\ forall j, (j < k)%nat -> fst (nth j res (0, 0%nat)) == fst (nth j br (0, 0%nat)).
Proof.
  intros mid fuel data leafsize t pinf pw x k qsrt nsrt fsrt isrt E Hk Hq Hn Hf Hi P0 PM H1 Hrow.
  assert (Hd: data <> []) by (intros ->; discriminate).
  assert (Hx: length (hd [] data) = 1%nat) by (destruct data; [congruence|]; apply Hrow; now left).
  destruct (kd_new_spec mid fuel data leafsize t ltac:(lia) E) as (P & B & _). rewrite Hx in B.
  assert (Hrow': forall i, (i < length data)%nat -> length (nth i data []) = length [x]) by (intros i Hj; apply Hrow, nth_In, Hj).
  destruct (query_vs_brute data pinf pw [x] k 1 qsrt nsrt fsrt isrt _ _ t Hk ltac:(lra) Hq Hn Hf Hi (conj P0 PM) Hrow' (or_intror (conj eq_refl H1)) B P) as (res & br & E1 & E2 & L1 & L2 & C).
  exists res, br. split; [exact E1|]. split; [exact E2|]. split; [exact L1|]. split; [exact L2|]. intros j Hj. destruct (C j Hj). lra.
Qed.
Print Assumptions C35_one_feature_partial.

(* C78: refitting *)
Theorem C78_refit_partial : forall a hist X, a <> Auto \/ use_tree a X = true \/ (forall X', In X' hist -> use_tree a X' = false) ->
  nn_searched (fold_left (nn_fit a) (hist ++ [X]) nn_new) = X.
Proof. exact nn_refit. Qed.
Print Assumptions C78_refit_partial.
(* "auto" builds a tree exactly for more than 1000 cells *)
Theorem C78_auto_partial : forall X m, (forall r, In r X -> length r = m) -> (use_tree Auto X = true <-> (1000 < length X * m)%nat).
Proof.
  intros X m H. unfold use_tree. rewrite Nat.ltb_lt. destruct X as [|r X]; [cbn [length]; lia|].
  cbn [hd]. rewrite (H r) by (now left). reflexivity.
Qed.
Print Assumptions C78_auto_partial.
(* "auto": a small refit keeps searching the tree of the earlier large data set *)
Theorem C78_refit_refuted : exists X1 X2, nn_searched (nn_fit Auto (nn_fit Auto nn_new X1) X2) = X1 /\ X1 <> X2 /\ length X1 <> length X2.
Proof. exists (repeat [0; 0] 501), [[7; 7]]. split; [vm_compute; reflexivity|]. split; [discriminate|vm_compute; discriminate]. Qed.
Print Assumptions C78_refit_refuted.

(* C79 *)
Theorem C79_radius : forall mid fuel data leafsize t pinf pw x r qsrt nsrt fsrt isrt,
  kd_new mid fuel data leafsize = Some t ->
  sorting qmind qsrt -> sorting (fun e : nele => fst e) nsrt -> sorting (fun e : nele => fst e) fsrt -> sorting (fun i => mink_p pinf pw x (nth i data [])) isrt ->
  pw 0 == 0 -> (forall s u, 0 <= s -> s <= u -> pw s <= pw u) -> (2 <= length x)%nat -> (forall r, In r data -> length r = length x) ->
  exists tr br, radius_tree data pinf pw x qsrt nsrt fsrt (kd_maxes data) (kd_mins data) t r = Some tr /\ radius_brute pinf pw data x r isrt = Some br /\
  forall res, In res [tr; br] -> NoDup (map snd res) /\ (forall e, In e res -> fst e == mink_p pinf pw x (nth (snd e) data [])) /\
  (forall i, In i (map snd res) <-> (i < length data)%nat /\ mink_p pinf pw x (nth i data []) <= r).
Proof.
  intros mid fuel data leafsize t pinf pw x r qsrt nsrt fsrt isrt E Hq Hn Hf Hi P0 PM Hm Hrow.
  assert (Hd: data <> []) by (intros ->; discriminate).
  assert (Hx: length (hd [] data) = length x) by (destruct data; [congruence|]; apply Hrow; now left).
  destruct (kd_new_spec mid fuel data leafsize t ltac:(lia) E) as (P & B & _). rewrite Hx in B.
  assert (Hrow': forall i, (i < length data)%nat -> length (nth i data []) = length x) by (intros i Hj; apply Hrow, nth_In, Hj).
  assert (HL: (1 <= length data)%nat) by (destruct data; [congruence|cbn; lia]).
  destruct (radius_tree_spec data pinf pw x qsrt nsrt fsrt _ _ t r HL Hq Hn Hf (conj P0 PM) Hrow' (or_introl Hm) B P) as (tr & E1 & A1).
  destruct (radius_brute_spec pinf pw data x r isrt Hi) as (br & E2 & N2 & D2 & A2).
  exists tr, br. split; [exact E1|]. split; [exact E2|]. intros res [<-|[<-|[]]]; [exact A1|]. split; [exact N2|]. split; [|exact A2]. intros e He. now rewrite (D2 e He).
Qed.
Print Assumptions C79_radius.
Example C79_example :
  let data := [[0;0]; [10;1]; [2;9]; [9;8]; [3;1]; [1;1]] in
  exists t, kd_new exact_mid 20 data 1 = Some t /\
  radius_tree data false (fun t => t * t) [3; 2] (qisort qmind) (qisort (fun e : nele => fst e)) (qisort (fun e : nele => fst e)) (kd_maxes data) (kd_mins data) t 13
  = Some [(1, 4%nat); (5, 5%nat); (13, 0%nat)].
Proof. eexists. split; vm_compute; reflexivity. Qed.

(* C80 *)
Theorem C80_graph_connectivity_partial : forall nfit sample self row, (forall e, In e row -> (snd e < nfit)%nat) ->
  exists g, graph_row nfit sample true self row = Some g /\ length g = nfit /\
  forall j, (j < nfit)%nat -> nth j g 0 = if (existsb (fun e => Nat.eqb (snd e) j) row && (self || negb (Nat.eqb sample j)))%bool then 1 else 0.
Proof. exact graph_conn. Qed.
Print Assumptions C80_graph_connectivity_partial.
Example C80_example : graph_row 4 0 true true [(0, 0%nat); (5#2, 3%nat)] = Some [1; 0; 0; 1] /\ graph_row 4 0 true false [(0, 0%nat); (5#2, 3%nat)] = Some [0; 0; 0; 1].
Proof. split; reflexivity. Qed.
(* mode "distance": a distance is used as a column number, cells are ones, and
   distances beyond the number of samples panic *)
Theorem C80_graph_distance_refuted :
  graph_row 4 0 false true [(0, 0%nat); (5#2, 3%nat)] = Some [1; 0; 1; 0] /\
  forall nfit sample i, exists d, graph_row nfit sample false true [(d, i)] = None.
Proof.
  split; [reflexivity|]. intros nfit sample i. exists (inject_Z (Z.of_nat nfit)). unfold graph_row. cbn [fold_left fst snd]. rewrite Qfloor_Z, Nat2Z.id, Bool.andb_false_r, repeat_length.
  now rewrite Nat.ltb_irrefl.
Qed.
Print Assumptions C80_graph_distance_refuted.

(* C81: yw are the (class, weight) pairs of the neighbours *)
Theorem C81_vote : forall ord yw, (forall m, Permutation (ord m) m) -> yw <> [] -> (forall e, In e yw -> 0 < snd e) ->
  In (vote ord yw) (map fst yw) /\ forall c, total yw c <= total yw (vote ord yw).
Proof. exact vote_spec. Qed.
Print Assumptions C81_vote.
Theorem C81_weights_positive : forall bydist epsilon d, 0 < epsilon -> (forall v, In v d -> 0 <= v) -> forall w, In w (knn_weights bydist epsilon d) -> 0 < w.
Proof.
  intros b e d He Hd w Hw. unfold knn_weights in Hw. destruct b; apply in_map_iff in Hw; destruct Hw as (v & <- & Hv); [|reflexivity].
  specialize (Hd v Hv). apply Qlt_shift_div_l; lra.
Qed.
Print Assumptions C81_weights_positive.
Example C81_example : vote (fun m => m) [(3, 1); (5, 2); (3, 3#2)] = 3 /\ vote (@rev _) [(3, 1); (5, 1)] = 5 /\ total [(3, 1); (5, 2); (3, 3#2)] 3 == 5#2.
Proof. split; [|split]; vm_compute; reflexivity. Qed.

(* C82 *)
Theorem C82_proba_partial : forall classes yw, yw <> [] -> (forall e, In e yw -> 0 < snd e) ->
  (forall a b i j, nth_error classes i = Some a -> nth_error classes j = Some b -> a == b -> i = j) ->
  (forall e, In e yw -> exists c, In c classes /\ fst e == c) ->
  let row := proba_row classes yw (repeat 0 (length classes)) in
  (forall i, (i < length classes)%nat -> nth i row 0 == total yw (nth i classes 0) / qsum (map snd yw)) /\ qsum row == 1.
Proof. intros classes yw H1 H2 H3 H4 row. split; [now apply proba_spec|now apply proba_sum]. Qed.
Print Assumptions C82_proba_partial.
Example C82_example : Forall2 Qeq (proba_row [1; 3; 5] [(3, 1); (5, 2); (3, 1)] [0; 0; 0]) [0; 1#2; 1#2].
Proof. repeat constructor. Qed.
(* a destination that is not all zero keeps its old cells *)
Theorem C82_proba_reuse_refuted : exists classes yw row, ~ qsum (proba_row classes yw row) == 1 /\ nth 0 (proba_row classes yw row) 0 = nth 0 row 0.
Proof. exists [1; 3], [(3, 1)], [1; 0]. split; [vm_compute; discriminate|reflexivity]. Qed.
Print Assumptions C82_proba_reuse_refuted.

(* C83 *)
Theorem C83_regressor : forall yw, yw <> [] -> (forall e, In e yw -> 0 < snd e) ->
  wmean yw * qsum (map snd yw) == qsum (map (fun e => snd e * fst e) yw) /\
  (forall lo hi, (forall e, In e yw -> lo <= fst e <= hi) -> lo <= wmean yw <= hi) /\
  ((forall e, In e yw -> snd e = 1) -> wmean yw == qsum (map fst yw) / qn (length yw)).
Proof.
  intros yw Hne Hp. pose proof (sumw_pos yw Hne Hp) as SW. split; [unfold wmean; field; lra|]. split; [intros lo hi H; now apply wmean_bounds|].
  intros H1. assert (E: yw = map (fun y => (y, 1)) (map fst yw)); [|rewrite E at 1; rewrite wmean_uniform by (destruct yw; [congruence|discriminate]); now rewrite map_length]. rewrite map_map.
  clear -H1. induction yw as [|e yw IH]; [reflexivity|]. cbn [map]. rewrite <- IH by (intros; apply H1; now right).
  f_equal. rewrite <- (H1 e) by now left. now destruct e.
Qed.
Print Assumptions C83_regressor.
Example C83_example : wmean [(1, 1); (4, 2)] == 3.
Proof. reflexivity. Qed.

(* C84 *)
Theorem C84_classes : forall ord fsort y, (forall m, Permutation (ord m) m) -> (forall l, Permutation (fsort l) l /\ StronglySorted Qle (fsort l)) ->
  let cs := fst (get_classes ord fsort y) in
  StronglySorted Qlt cs /\ (forall c, (exists c', In c' cs /\ c' == c) <-> (exists v, In v y /\ v == c)) /\ (forall c, In c cs -> In c y).
Proof. exact get_classes_spec. Qed.
Print Assumptions C84_classes.
Example C84_example : get_classes (fun m => m) (fun l => l) [1; 1; 2] = ([1; 2], [2%nat; 1%nat]).
Proof. reflexivity. Qed.
(* the counts stay in map order *)
Theorem C84_class_count_refuted : exists ord y cs cn, Permutation (ord (fold_left cadd y [])) (fold_left cadd y []) /\
  get_classes ord (qisort (fun v => v)) y = (cs, cn) /\ nth 0 cs 0 = 1 /\ nth 0 cn 0%nat = 1%nat /\ length (filter (Qeq_bool 1) y) = 2%nat.
Proof.
  exists (@rev _), [1; 1; 2], [1; 2], [1%nat; 2%nat]. split; [symmetry; apply Permutation_rev|]. split; [vm_compute; reflexivity|]. auto.
Qed.
Print Assumptions C84_class_count_refuted.

(* C85 *)
Theorem C85_nearest_centroid_refuted :
  (forall srt C classes, (forall r, In r C -> (2 <= length r)%nat) ->
    (forall (l l' : nat -> nat -> bool) idx, (forall i j, l i j = l' i j) -> srt l idx = srt l' idx) ->
    forall x x', (2 <= length x)%nat -> (2 <= length x')%nat -> nc_predict srt C classes x = nc_predict srt C classes x') /\
  exists X Y, median_col X Y 0 0 = None.
Proof.
  split.
  - intros srt C classes HC He x x' Hx Hx'. apply nc_constant; auto.
  - exists [[2]; [1]], [0; 0]. reflexivity.
Qed.
Print Assumptions C85_nearest_centroid_refuted.
(* the centroids are the class means *)
Theorem C85_centroid_partial : forall X Y cl f, length X = length Y -> (exists y, In y Y /\ y == cl) ->
  let mem i := Qeq_bool (nth i Y 0) cl in
  centroid X Y cl f * qn (length (filter mem (seq 0 (length Y)))) == qsum (map (fun i => if mem i then nth f (nth i X []) 0 else 0) (seq 0 (length Y))).
Proof. exact centroid_mean. Qed.
Print Assumptions C85_centroid_partial.
Theorem C85_centroids_partial : forall X Y classes c f, length X = length Y -> (c < length classes)%nat -> (f < length (hd [] X))%nat ->
  (exists y, In y Y /\ y == nth c classes 0) ->
  let mem i := Qeq_bool (nth i Y 0) (nth c classes 0) in
  nth f (nth c (centroids X Y classes) []) 0 * qn (length (filter mem (seq 0 (length Y)))) == qsum (map (fun i => if mem i then nth f (nth i X []) 0 else 0) (seq 0 (length Y))).
Proof. intros X Y classes c f L Hc Hf HE mem. rewrite centroids_at by auto. now apply centroid_mean. Qed.
Print Assumptions C85_centroids_partial.
(* what Predict does instead.  With one feature the class returned belongs to a centroid closer than 1 if there is one, else to
   one at distance 1, else to any: all that is compared is whether distances are below, at or above 1.  With several features the
   class is the first whenever the sort leaves equal elements where they are *)
Theorem C85_predict_partial : forall srt C classes, slice_sorts srt -> C <> [] ->
  (forall x, (forall r, In r C -> length r = 1%nat) ->
    exists i, (i < length C)%nat /\ nc_predict srt C classes [x] = nth i classes 0 /\
    let D j := Qabs (nth 0 (nth j C []) 0 - x) in
    forall j, (j < length C)%nat -> (D j < 1 -> D i < 1) /\ (D j == 1 -> D i <= 1)) /\
  (forall x, (2 <= length x)%nat -> (forall lt l, (forall i j, lt i j = false) -> srt lt l = l) -> nc_predict srt C classes x = hd 0 classes).
Proof. intros srt C classes S HC. split; [intros x H; now apply nc_one|intros x Hx Hs; now apply nc_many]. Qed.
Print Assumptions C85_predict_partial.
Theorem C85_far_refuted : slice_sorts sort_by /\ exists C x, nc_predict sort_by C [0; 1] [x] = 0 /\ Qabs (nth 0 (nth 1 C []) 0 - x) < Qabs (nth 0 (nth 0 C []) 0 - x).
Proof. split; [exact sort_by_sorts|]. exists [[0]; [5 # 10]], (6 # 10). split; vm_compute; reflexivity. Qed.
Print Assumptions C85_far_refuted.
(* metric "manhattan": Fit panics unless the values of every feature come in increasing order within the class *)
Theorem C85_median_partial : forall X Y cl f col, length X = length Y ->
  median_col X Y cl f = Some col <->
  col = map (fun i => nth f (nth i X []) 0) (filter (fun i => Qeq_bool (nth i Y 0) cl) (seq 0 (length Y))) /\ Sorted Qle col.
Proof. exact median_spec. Qed.
Print Assumptions C85_median_partial.
Example C85_median_example : median_col [[1]; [7]; [2]] [0; 1; 0] 0 0 = Some [1; 2] /\ median_col [[2]; [7]; [1]] [0; 1; 0] 0 0 = None.
Proof. split; reflexivity. Qed.
Example C85_example : centroids [[0;0]; [2;4]; [9;9]] [0;0;1] [0;1] = [[(0 + 0 + 2) / 2; (0 + 0 + 4) / 2]; [(0 + 9) / 1; (0 + 9) / 1]].
Proof. reflexivity. Qed.

(* C86 *)
Theorem C86_rect_distances : forall r x, proper r (length x) ->
  (forall y, length y = length x -> inside r y ->
    (norm1 (min_vec r x) <= norm1 (diffv y x) <= norm1 (max_vec r x)) /\
    (normi (min_vec r x) <= normi (diffv y x) <= normi (max_vec r x)) /\
    (norm2s (min_vec r x) <= norm2s (diffv y x) <= norm2s (max_vec r x))) /\
  (exists y, length y = length x /\ inside r y /\ norm1 (diffv y x) == norm1 (min_vec r x) /\ normi (diffv y x) == normi (min_vec r x) /\ norm2s (diffv y x) == norm2s (min_vec r x)) /\
  (exists y, length y = length x /\ inside r y /\ norm1 (diffv y x) == norm1 (max_vec r x) /\ normi (diffv y x) == normi (max_vec r x) /\ norm2s (diffv y x) == norm2s (max_vec r x)).
Proof.
  intros r x HP. split.
  - intros y L I. destruct (min_point r x y L I) as (A & B & C). destruct (max_point r x y L I) as (A' & B' & C'). auto.
  - split; [now apply min_attained|now apply max_attained].
Qed.
Print Assumptions C86_rect_distances.
Example C86_example : min_vec (mkrect [2; 2] [0; 0]) [5; 1] = [5 - 2; 0] /\ norm2s (max_vec (mkrect [2; 2] [0; 0]) [5; 1]) == 26.
Proof. split; reflexivity. Qed.
(* splitting exchanges the two bounds: no half of a proper rectangle of two or
   more features with different bounds contains its points *)
Theorem C86_rect_split_refuted : forall r d s, 
  maxes (fst (rect_split r d s)) = mins r /\ mins (fst (rect_split r d s)) = upd (maxes r) d s /\
  maxes (snd (rect_split r d s)) = upd (mins r) d s /\ mins (snd (rect_split r d s)) = maxes r /\
  (forall y e, length y = length (maxes r) -> (e < length y)%nat -> e <> d -> nth e (mins r) 0 < nth e (maxes r) 0 ->
     ~ inside (fst (rect_split r d s)) y /\ ~ inside (snd (rect_split r d s)) y).
Proof.
  intros r d s. do 4 (split; [reflexivity|]). intros y e L He Hd Hlt. split; intros I; specialize (I e He); cbn [rect_split fst snd maxes mins] in I.
  - rewrite nth_upd_q in I. apply Nat.eqb_neq in Hd. rewrite Hd in I. lra.
  - rewrite nth_upd_q in I. apply Nat.eqb_neq in Hd. rewrite Hd in I. lra.
Qed.
Print Assumptions C86_rect_split_refuted.

(* C87: eps guarantee *)
Theorem C87_eps_partial : forall mid fuel data leafsize t pinf pw x k epsfac qsrt nsrt fsrt isrt,
  kd_new mid fuel data leafsize = Some t -> (1 <= k <= length data)%nat -> 0 <= epsfac <= 1 ->
  sorting qmind qsrt -> sorting (fun e : nele => fst e) nsrt -> sorting (fun e : nele => fst e) fsrt -> sorting (fun i => mink_p pinf pw x (nth i data [])) isrt ->
  pw 0 == 0 -> (forall s u, 0 <= s -> s <= u -> pw s <= pw u) ->
  (2 <= length x)%nat -> (forall r, In r data -> length r = length x) ->
  exists res br, kd_query data pinf pw x k epsfac qsrt nsrt fsrt (kd_maxes data) (kd_mins data) t None = Some res /\ knn_brute pinf pw data x k isrt = Some br /\
  length res = k /\ length br = k /\
  forall j, (j < k)%nat -> fst (nth j br (0, 0%nat)) <= fst (nth j res (0, 0%nat)) /\ epsfac * fst (nth j res (0, 0%nat)) <= fst (nth j br (0, 0%nat)).
Proof.
  intros mid fuel data leafsize t pinf pw x k epsfac qsrt nsrt fsrt isrt E Hk He Hq Hn Hf Hi P0 PM Hm Hrow.
  assert (Hd: data <> []) by (intros ->; discriminate).
  assert (Hx: length (hd [] data) = length x) by (destruct data; [congruence|]; apply Hrow; now left).
  destruct (kd_new_spec mid fuel data leafsize t ltac:(lia) E) as (P & B & _). rewrite Hx in B.
  assert (Hrow': forall i, (i < length data)%nat -> length (nth i data []) = length x) by (intros i Hj; apply Hrow, nth_In, Hj).
  exact (query_vs_brute data pinf pw x k epsfac qsrt nsrt fsrt isrt _ _ t Hk He Hq Hn Hf Hi (conj P0 PM) Hrow' (or_introl Hm) B P).
Qed.
Print Assumptions C87_eps_partial.
(* distanceUpperBound does not bound what is returned; missing neighbours are
   reported as sample 0 at distance 0 *)
Theorem C87_upper_bound_refuted :
  (exists data x t res, kd_new exact_mid 20 data 10 = Some t /\
    kd_query data false (fun t => t * t) x 2 1 (qisort qmind) (qisort (fun e : nele => fst e)) (qisort (fun e : nele => fst e)) (kd_maxes data) (kd_mins data) t (Some 1) = Some res /\
    exists e, In e res /\ 1 < fst e) /\
  (exists data x t res, kd_new exact_mid 20 data 10 = Some t /\
    kd_query data false (fun t => t * t) x 2 1 (qisort qmind) (qisort (fun e : nele => fst e)) (qisort (fun e : nele => fst e)) (kd_maxes data) (kd_mins data) t None = Some res /\
    nth 1 (kd_row 2 res) (1, 1%nat) = (0, 0%nat) /\ 0 < mink_p false (fun t => t * t) x (nth 0 data [])).
Proof.
  split.
  - exists [[0; 0]; [10; 10]], [0; 0]. do 2 eexists. split; [vm_compute; reflexivity|]. split; [vm_compute; reflexivity|]. exists (200, 1%nat). split; [right; now left|reflexivity].
  - exists [[3; 4]], [0; 0]. do 2 eexists. repeat match goal with |- _ /\ _ => split end; vm_compute; reflexivity.
Qed.
Print Assumptions C87_upper_bound_refuted.
(* every row holds k cells: what was found, then sample 0 at distance 0 *)
Theorem C87_row_partial : forall k res, (length res <= k)%nat ->
  length (kd_row k res) = k /\ forall j d, (j < k)%nat -> nth j (kd_row k res) d = if Nat.ltb j (length res) then nth j res d else (0, 0%nat).
Proof. exact kd_row_spec. Qed.
Print Assumptions C87_row_partial.
