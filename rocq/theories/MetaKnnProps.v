(* Nearest neighbour predictions of reordered samples, in another unit, with another origin, by another search: property C215 *)
From Verif Require Import QCommon NeighModel KdProofs KdQueryProofs KnnModel KnnProofs KnnPredModel MetaNBProofs MetaKnnProofs.
Open Scope Q_scope.

(* C215: training rows in any order, all features times a (times 1 or -1 for "distance" weights) and shifted by b, searched by brute force or by a k-d tree,
   no tie at rank k: targets in another unit give the converted prediction *)
Theorem C215_regressor_partial : forall sg n nf k a b pinf pw root data data' x x' f f' r epsilon bydist res res' c d Y Y',
  is_power pw -> is_root root -> length data = n -> length data' = n -> (1 <= k <= n)%nat -> Permutation (map sg (seq 0 n)) (seq 0 n) -> ~ a == 0 -> (bydist = true -> Qabs a == 1) -> 0 < epsilon ->
  moved nf a b x x' -> (forall i, (i < n)%nat -> moved nf a b (nth i data []) (nth (sg i) data' [])) ->
  searched pinf pw data x k f res -> searched pinf pw data' x' k f' res' ->
  isolated (fun i => mink_p pinf pw x (nth i data [])) n k f r -> isolated (fun i => mink_p pinf pw x (nth i data [])) n k f' r ->
  (forall i, (i < n)%nat -> nth (sg i) Y' 0 == c * nth i Y 0 + d) ->
  knn_regress bydist epsilon root Y' res' == c * knn_regress bydist epsilon root Y res + d.
Proof.
  intros sg n nf k a b pinf pw root data data' x x' f f' r epsilon bydist res res' c d Y Y' PW RT L1 L2 Hk HP Ha Hb He Hx Hm S1 S2 I1 I2 HY.
  destruct (res_pos sg n nf k a b pinf pw root data data' x x' f epsilon bydist res PW RT L1 L2 Hk HP He Hx Hm S1 Y) as [N P].
  apply wmean_conv; [|exact (yw_moved sg n nf k a b pinf pw root data data' x x' f f' r epsilon bydist res res' PW RT L1 L2 Hk HP Ha Hb Hx Hm S1 S2 I1 I2 c d Y Y' HY)].
  enough (0 < qsum (map snd (knn_yw bydist epsilon root Y res))) by lra. destruct (knn_yw bydist epsilon root Y res) as [|e l]; [congruence|]. cbn [map]. rewrite qsum_cons. pose proof (P e (or_introl eq_refl)).
  enough (0 <= qsum (map snd l)) by lra. clear - P. induction l as [|u l IH]; cbn [map]; [rewrite qsum_nil; lra|]. rewrite qsum_cons. pose proof (P u (or_intror (or_introl eq_refl))). enough (0 <= qsum (map snd l)) by lra. apply IH. intros v [Hv|Hv]; apply P; [now left|right; now right].
Qed.
Print Assumptions C215_regressor_partial.
(* the same class, if one class has the largest weight among the neighbours, and the same probability of every class *)
Theorem C215_classifier_partial : forall sg n nf k a b pinf pw root data data' x x' f f' r epsilon bydist res res' Y Y' ord ord' classes,
  is_power pw -> is_root root -> length data = n -> length data' = n -> (1 <= k <= n)%nat -> Permutation (map sg (seq 0 n)) (seq 0 n) -> ~ a == 0 -> (bydist = true -> Qabs a == 1) -> 0 < epsilon ->
  moved nf a b x x' -> (forall i, (i < n)%nat -> moved nf a b (nth i data []) (nth (sg i) data' [])) ->
  searched pinf pw data x k f res -> searched pinf pw data' x' k f' res' ->
  isolated (fun i => mink_p pinf pw x (nth i data [])) n k f r -> isolated (fun i => mink_p pinf pw x (nth i data [])) n k f' r ->
  (forall i, (i < n)%nat -> nth (sg i) Y' 0 == nth i Y 0) -> (forall m, Permutation (ord m) m) -> (forall m, Permutation (ord' m) m) ->
  ((exists c, winner (knn_yw bydist epsilon root Y res) c) -> knn_classify ord' bydist epsilon root Y' res' == knn_classify ord bydist epsilon root Y res) /\
  (forall i, (i < length classes)%nat -> nth i (knn_proba classes bydist epsilon root Y' res') 0 == nth i (knn_proba classes bydist epsilon root Y res) 0).
Proof.
  intros sg n nf k a b pinf pw root data data' x x' f f' r epsilon bydist res res' Y Y' ord ord' classes PW RT L1 L2 Hk HP Ha Hb He Hx Hm S1 S2 I1 I2 HY O O'.
  destruct (res_pos sg n nf k a b pinf pw root data data' x x' f epsilon bydist res PW RT L1 L2 Hk HP He Hx Hm S1 Y) as [N P].
  assert (B := yw_moved sg n nf k a b pinf pw root data data' x x' f f' r epsilon bydist res res' PW RT L1 L2 Hk HP Ha Hb Hx Hm S1 S2 I1 I2 1 0 Y Y' ltac:(intros i Hi; rewrite (HY i Hi); ring)).
  split; [intros (c & W); exact (vote_conv ord ord' _ _ c O O' N P W B)|exact (proba_conv classes _ _ N P B)].
Qed.
Print Assumptions C215_classifier_partial.
Example C215_ex : let data := [[0; 2]; [0; 8]; [1; 0]; [0; -3]] in let data' := [[-10; 10 - 3]; [-9; 10]; [-10; 18]; [-10; 12]] in
  let key := fun e : nele => fst e in let sq := fun t => t * t in
  is_power sq /\ is_root ex_root /\ (forall i, (i < 4)%nat -> moved 2 1 (fun j => nth j [-10; 10] 0) (nth i data []) (nth (3 - i) data' [])) /\
  isolated (fun i => mink_p false sq [0; 0] (nth i data [])) 4 3 (9 # 10) 10 /\
  exists t res res', knn_brute false sq data [0; 0] 3 (qisort (fun i => mink_p false sq [0; 0] (nth i data []))) = Some res /\
   kd_new exact_mid 20 data' 1 = Some t /\ kd_query data' false sq [-10; 10] 3 (9 # 10) (qisort qmind) (qisort key) (qisort key) (kd_maxes data') (kd_mins data') t None = Some res' /\
   knn_regress true (1 # 10) ex_root [7; 9; 5; 2] res == (6104 # 1223) /\ knn_regress true (1 # 10) ex_root [2; 5; 9; 7] res' == (6104 # 1223) /\
   knn_classify (fun m => m) true (1 # 10) ex_root [7; 7; 5; 5] res == 5 /\ knn_classify (fun m => m) true (1 # 10) ex_root [5; 5; 7; 7] res' == 5.
Proof.
  cbv zeta. split; [|split; [|split; [|split]]].
  - repeat split; intros; try lra; try nra.
  - split; [|intros t _; unfold ex_root; destruct (Qeq_bool t 1), (Qeq_bool t 4), (Qeq_bool t 9); lra]. intros s t E. unfold ex_root. rewrite (KnnProofs.qeqb_compat s t 1 E), (KnnProofs.qeqb_compat s t 4 E), (KnnProofs.qeqb_compat s t 9 E). reflexivity.
  - intros [|[|[|[|i]]]] Hi; try lia; (split; [reflexivity|split; [reflexivity|]]); intros [|[|j]] Hj; try lia; vm_compute; reflexivity.
  - split; [vm_compute; reflexivity|]. intros [|[|[|[|i]]]] Hi; try lia; vm_compute; congruence.
  - do 3 eexists. repeat match goal with |- _ /\ _ => split end; vm_compute; reflexivity.
Qed.
(* with a tie at rank k the order of the samples decides *)
Theorem C215_order_refuted : exists data x Y, let sq := fun t => t * t in let run data Y := option_map (knn_regress false (1 # 10) (fun q => q) Y) (knn_brute false sq data x 1 (qisort (fun i => mink_p false sq x (nth i data [])))) in
  exists p p', run data Y = Some p /\ run (rev data) (rev Y) = Some p' /\ p == 10 /\ p' == 20.
Proof. exists [[0; 0]; [2; 0]], [1; 0], [10; 20]. cbv zeta. do 2 eexists. repeat match goal with |- _ /\ _ => split end; vm_compute; reflexivity. Qed.
Print Assumptions C215_order_refuted.
(* "distance" weights with the constant 1e-15 in the denominator: another unit gives another prediction, for every constant *)
Theorem C215_unit_refuted : forall epsilon, 0 < epsilon -> exists (data : list (list Q)) x Y, let run data x := option_map (knn_regress true epsilon (fun q => q) Y) (knn_brute true (fun t => t) data x 2 (qisort (fun i => mink_p true (fun t => t) x (nth i data [])))) in
  exists p p', run data x = Some p /\ run (map (map (Qmult 2)) data) (map (Qmult 2) x) = Some p' /\ ~ p' == p.
Proof.
  intros epsilon He. exists [[1; 0]; [2; 0]], [0; 0], [0; 1]. cbv zeta. do 2 eexists. split; [reflexivity|]. split; [reflexivity|]. cbn [option_map].
  match goal with |- ~ knn_regress _ _ _ _ ?a == knn_regress _ _ _ _ ?b => let a' := eval vm_compute in a in let b' := eval vm_compute in b in change a with a'; change b with b' end.
  unfold knn_regress, KnnModel.wmean, knn_yw, knn_weights. cbn [map combine fst snd nth]. rewrite !qsum_cons, !qsum_nil. intros E.
  assert (E1 : (1 / (epsilon + 2) * 0 + (1 / (epsilon + 4) * 1 + 0)) / (1 / (epsilon + 2) + (1 / (epsilon + 4) + 0)) == (epsilon + 2) / (2 * epsilon + 6)) by (field; repeat split; lra).
  assert (E2 : (1 / (epsilon + 1) * 0 + (1 / (epsilon + 2) * 1 + 0)) / (1 / (epsilon + 1) + (1 / (epsilon + 2) + 0)) == (epsilon + 1) / (2 * epsilon + 3)) by (field; repeat split; lra).
  rewrite E1, E2 in E. assert (F : (epsilon + 2) * (2 * epsilon + 3) == (epsilon + 1) * (2 * epsilon + 6)). 
  { setoid_replace (epsilon + 2) with ((epsilon + 2) / (2 * epsilon + 6) * (2 * epsilon + 6)) by (field; lra). rewrite E. field. lra. }
  ring_simplify in F. lra.
Qed.
Print Assumptions C215_unit_refuted.
