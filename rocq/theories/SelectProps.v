(* Properties C03 - C09. *)
From Coq Require Import QArith Qround.
From Verif Require Import Common ParallelModel ParallelProofs SelectModel SelectProofs.
Open Scope nat_scope.

(* C03: every split produced is a partition of 0..N-1 into train and test, there
   are exactly k splits, and test sizes are N/k or N/k+1 and sum to N; for every
   random draws. *)
Theorem C03_kfold_each_split_partitions : forall NSplits shuffle N rnds sps,
  kfold_split NSplits shuffle N rnds = Some sps ->
  let k := if (NSplits <=? 0)%Z then 3 else Z.to_nat NSplits in
  length sps = k /\
  (forall i tr te, nth_error sps i = Some (tr, te) ->
     NoDup (tr ++ te) /\ (forall x, In x (tr ++ te) <-> x < N) /\
     length te = N / k + (if Nat.ltb i (N mod k) then 1 else 0)) /\
  list_sum (map (fun sp => length (snd sp)) sps) = N.
Proof. exact kfold_split_spec. Qed.
Print Assumptions C03_kfold_each_split_partitions.

(* ... and it only panics without shuffling on an empty data set (Intn(0)). *)
Theorem C03_kfold_total : forall NSplits shuffle N rnds, (shuffle = true \/ 0 < N) ->
  exists sps, kfold_split NSplits shuffle N rnds = Some sps.
Proof. exact (fun z s N r H => kfold_loop_total (kfold_nsplits z) s N (kfold_nsplits z) 0 r H). Qed.
Print Assumptions C03_kfold_total.

Example C03_example : kfold_split 3 false 10 (fun i => ([], i + 6)) =
  Some [([0; 1; 2; 3; 4; 5], [6; 7; 8; 9]); ([0; 1; 2; 3; 4; 5; 6], [7; 8; 9]);
        ([7; 1; 2; 3; 4; 5; 6], [8; 9; 0])].
Proof. vm_compute. reflexivity. Qed.
Example C03_example_shuffle : kfold_split 2 true 5 (fun i => ([(0, 3); (1, 4)], 0)) =
  Some [([3; 4], [2; 0; 1]); ([3; 4; 2], [0; 1])].
Proof. vm_compute. reflexivity. Qed.

(* C04 is false: two splits of one KFold may test the same sample while another
   sample is never tested, with and without shuffling (all draws below are
   in range for the generator). *)
Theorem C04_kfold_folds_disjoint_refuted :
  (exists N rnds sps te0 te1 tr0 tr1 x y,
     (forall i, snd (rnds i) < N) /\
     kfold_split 2 false N rnds = Some sps /\ sps = [(tr0, te0); (tr1, te1)] /\
     In x te0 /\ In x te1 /\ y < N /\ ~ In y te0 /\ ~ In y te1) /\
  (exists N rnds sps te0 te1 tr0 tr1 x y,
     (forall i a b, In (a, b) (fst (rnds i)) -> a < N /\ b < N) /\
     kfold_split 2 true N rnds = Some sps /\ sps = [(tr0, te0); (tr1, te1)] /\
     In x te0 /\ In x te1 /\ y < N /\ ~ In y te0 /\ ~ In y te1).
Proof.
  split.
  - exists 4, (fun _ => ([], 0)), [([2; 3], [0; 1]); ([2; 3], [0; 1])], [0; 1], [0; 1], [2; 3], [2; 3], 0, 2.
    repeat split; try (simpl; lia); vm_compute; auto; intuition discriminate.
  - exists 4, (fun _ => ([(0, 3)], 0)), [([3; 1], [2; 0]); ([3; 1], [2; 0])], [2; 0], [2; 0], [3; 1], [3; 1], 0, 1.
    repeat split; try (vm_compute; auto; intuition discriminate).
    + simpl in H. destruct H as [H|[]]. injection H as <- <-. lia.
    + simpl in H. destruct H as [H|[]]. injection H as <- <-. lia.
Qed.
Print Assumptions C04_kfold_folds_disjoint_refuted.

(* C05 *)
Theorem C05_train_test_split : forall (A B : Type) (X : list A) (Y : list B) testsize ind,
  length X = length Y -> Permutation ind (seq 0 (length X)) ->
  (0 < tts_testlen (length X) testsize < Z.of_nat (length X))%Z ->
  exists xtr xte ytr yte,
    train_test_split X Y testsize ind = Some (xtr, xte, ytr, yte) /\
    Z.of_nat (length xte) = tts_testlen (length X) testsize /\ length yte = length xte /\
    length ytr = length xtr /\ length xtr + length xte = length X /\
    Permutation (combine xtr ytr ++ combine xte yte) (combine X Y).
Proof. exact @tts_spec. Qed.
Print Assumptions C05_train_test_split.

(* the number of test rows: a fraction is rounded up, a count is clamped *)
Theorem C05_test_rows_fraction : forall N (t : Q), (t <= 1)%Q ->
  let n := inject_Z (Z.of_nat N) in
  (n * t <= inject_Z (tts_testlen N t))%Q /\ (inject_Z (tts_testlen N t) < n * t + 1)%Q.
Proof. exact tts_testlen_bounds. Qed.
Print Assumptions C05_test_rows_fraction.
Theorem C05_test_rows_count : forall N (c : nat), 1 < c ->
  tts_testlen N (inject_Z (Z.of_nat c)) = Z.of_nat (Nat.min N c).
Proof. exact tts_testlen_count. Qed.
Print Assumptions C05_test_rows_count.

Example C05_example :
  train_test_split [10; 11; 12; 13; 14] [20; 21; 22; 23; 24] (1 # 4) [3; 0; 4; 1; 2] =
  Some ([14; 11; 12], [13; 10], [24; 21; 22], [23; 20]).
Proof. vm_compute. reflexivity. Qed.

(* C06 *)
Theorem C06_cross_validate_any_schedule :
  forall (XRow YRow Est Score : Type) (fit : list XRow -> list YRow -> Est)
    (score : Est -> list XRow -> list YRow -> Score) buf numcpu NJobs X Y splits sched res,
  (0 < numcpu)%Z -> length X = length Y -> length (fst buf) = length X -> length (snd buf) = length X ->
  Forall (fun sp => length (fst sp) + length (snd sp) <= length X /\
                    Forall (fun j => j < length X) (fst sp ++ snd sp)) splits ->
  cross_validate fit score buf numcpu NJobs X Y splits sched = Some res ->
  length res = length splits /\
  (forall i tr te, nth_error splits i = Some (tr, te) ->
    exists xtr ytr xte yte,
      map (nth_error X) tr = map Some xtr /\ map (nth_error Y) tr = map Some ytr /\
      map (nth_error X) te = map Some xte /\ map (nth_error Y) te = map Some yte /\
      nth_error res i = Some (Some (fit xtr ytr), Some (score (fit xtr ytr) xte yte))) /\
  cross_validate fit score buf numcpu 1 X Y splits [] = Some res.
Proof. exact @cross_validate_full. Qed.
Print Assumptions C06_cross_validate_any_schedule.

(* KFold splits satisfy the hypothesis on splits *)
Theorem C06_kfold_splits_are_valid : forall NSplits shuffle N rnds sps,
  kfold_split NSplits shuffle N rnds = Some sps ->
  Forall (fun sp => length (fst sp) + length (snd sp) <= N /\
                    Forall (fun j => j < N) (fst sp ++ snd sp)) sps.
Proof. exact kfold_split_valid. Qed.
Print Assumptions C06_kfold_splits_are_valid.

(* two jobs, one split each, interleaved row copies; "fit" returns the training
   rows, "score" the test rows *)
Example C06_example :
  cross_validate (fun x y => (x, y)) (fun e x y => (fst e, x)) ([9; 9; 9], [8; 8; 8]) 4 2
    [1; 2; 3] [11; 12; 13] [([0; 1], [2]); ([2; 1], [0])]
    [Spawn; Spawn; Run 1; Run 0; Run 0; Run 1; Run 1; Run 0; Run 0; Run 1; Run 1; Run 0; Done 0; Done 1; Return]
  = Some [(Some ([1; 2], [11; 12]), Some ([1; 2], [3])); (Some ([3; 2], [13; 12]), Some ([3; 2], [1]))].
Proof. vm_compute. reflexivity. Qed.

(* C07: for scores that are not NaN *)
Theorem C07_best_candidate : forall lower numcpu njobs (scores : list Z) sched r,
  (0 < numcpu)%Z -> scores <> [] ->
  gscv_fit lower numcpu njobs (fun i => nth_error scores i) (length scores) sched = Some r ->
  let better a b := if lower then (a < b)%Z else (b < a)%Z in
  exists bi b, r = Some (bi, Some b) /\ nth_error scores bi = Some b /\
    (forall j s, nth_error scores j = Some s -> ~ better s b) /\
    (forall j s, j < bi -> nth_error scores j = Some s -> better b s).
Proof. exact gscv_best. Qed.
Print Assumptions C07_best_candidate.

Example C07_example :
  gscv_fit false 4 2 (fun i => nth_error [3; 7; 7; 1]%Z i) 4
   [Spawn; Run 0; Spawn; Run 1; Run 1; Done 1; Run 0; Done 0; Return] = Some (Some (1, Some 7%Z)).
Proof. vm_compute. reflexivity. Qed.

(* A NaN score breaks it: when the first candidate scores NaN it stays "best". *)
Theorem C07_nan_score_refuted :
  exists (scores : list (option Z)) s, In (Some s) scores /\
    best_scan false scores = Some (0, None) /\ best_scan true scores = Some (0, None).
Proof. exists [None; Some 5%Z], 5%Z. vm_compute. auto. Qed.
Print Assumptions C07_nan_score_refuted.

(* C08: [grid] is any iteration order of the map (distinct keys).  The produced
   maps are exactly the assignments of one listed value per key, without
   repetition when the value lists have none, and there are product-many. *)
Theorem C08_parameter_grid_product : forall (K Val : Type) (grid : list (K * list Val)),
  grid <> [] -> Forall (fun kv => snd kv <> []) grid ->
  (forall m, In m (parameter_grid grid) <->
     Forall2 (fun kv ent => fst kv = fst ent /\ In (snd kv) (snd ent)) m grid) /\
  length (parameter_grid grid) = fold_right (fun kv n => length (snd kv) * n) 1 grid /\
  (Forall (fun kv => NoDup (snd kv)) grid -> NoDup (parameter_grid grid)).
Proof. exact grid_product. Qed.
Print Assumptions C08_parameter_grid_product.

(* iteration order does not matter: whatever two orders Go picks, each map of one
   run has a map with the same lookups in the other run *)
Theorem C08_parameter_grid_order_irrelevant : forall (K Val : Type) (eqk : K -> K -> bool),
  (forall a b, eqk a b = true <-> a = b) ->
  forall g1 g2 : list (K * list Val), Permutation g1 g2 -> g1 <> [] ->
  NoDup (map fst g1) -> Forall (fun kv => snd kv <> []) g1 ->
  forall m1, In m1 (parameter_grid g1) ->
  exists m2, In m2 (parameter_grid g2) /\ forall k, lookup_in K Val eqk k m1 = lookup_in K Val eqk k m2.
Proof. exact @grid_order. Qed.
Print Assumptions C08_parameter_grid_order_irrelevant.

Example C08_example :
  parameter_grid [(1, [10; 11]); (2, [20; 21])] =
  [[(1, 10); (2, 20)]; [(1, 10); (2, 21)]; [(1, 11); (2, 20)]; [(1, 11); (2, 21)]].
Proof. vm_compute. reflexivity. Qed.

(* C09 is false, and depends on the iteration order *)
Theorem C09_empty_value_list_refuted :
  exists g1 g2 : list (nat * list nat), Permutation g1 g2 /\ In (2, []) g1 /\
    parameter_grid g1 = [] /\ parameter_grid g2 = [[(1, 10)]].
Proof.
  exists [(1, [10]); (2, [])], [(2, []); (1, [10])].
  repeat split; [apply perm_swap|simpl; auto].
Qed.
Print Assumptions C09_empty_value_list_refuted.

(* What does hold: if the parameter iterated last has no values the result is empty. *)
Theorem C09_empty_last : forall (K Val : Type) (grid : list (K * list Val)) k,
  parameter_grid (grid ++ [(k, [])]) = [].
Proof. exact @grid_empty_last. Qed.
Print Assumptions C09_empty_last.
