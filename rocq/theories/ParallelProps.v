(* Properties C01 and C02. *)
From Verif Require Import Common ParallelModel ParallelProofs.

(* C01: whatever the thread count (threads <= 0 means all CPUs), every index
   below N is in the range of exactly one call, no index outside is, ranges are
   inside [0,N], and worker ids are distinct and below the thread count. *)
Theorem C01_parallelize_partition : forall (numcpu threads : Z) (N : nat), (0 < numcpu)%Z ->
  let calls := parallelize_calls numcpu threads N in
  let contains i := fun '(_, s, e) => andb (Nat.leb s i) (Nat.ltb i e) in
  (forall th s e, In (th, s, e) calls -> s <= e /\ e <= N) /\
  (forall i, i < N -> length (filter (contains i) calls) = 1) /\
  (forall i, N <= i -> length (filter (contains i) calls) = 0) /\
  NoDup (map (fun '(th, _, _) => th) calls) /\
  (forall th s e, In (th, s, e) calls ->
     (0 <= Z.of_nat th < if (threads <=? 0)%Z then numcpu else threads)%Z).
Proof. exact parallelize_partition. Qed.
Print Assumptions C01_parallelize_partition.

Example C01_example :
  parallelize_calls 4 3 10 = [(0, 0, 4); (1, 4, 8); (2, 8, 10)] /\
  parallelize_calls 4 (-1) 9 = [(0, 0, 3); (1, 3, 6); (2, 6, 9)] /\
  parallelize_calls 4 1 9 = [(0, 0, 9)] /\
  parallelize_calls 4 8 3 = [(0, 0, 1); (1, 1, 2); (2, 2, 3)].
Proof. vm_compute. auto. Qed.

(* C02: [V] is the type of a cell, [L] of the goroutine-local buffers.  The
   hypothesis on [body] says that iteration i computes the new value of cell i
   from cell i (and read-only data captured by the closure), whatever an earlier
   iteration left in the local buffers ([P] is an invariant of these buffers,
   e.g. their size).  Then every complete execution leaves
   the memory of the sequential loop. *)
Theorem C02_parallel_equals_sequential :
  forall (V L : Type) (body : nat -> list (V * L -> V * L)) (l0 : L),
  forall P : L -> Prop,
  (P l0 /\
   (forall i v l, P l -> P (snd (fold_left (fun st f => f st) (body i) (v, l)))) /\
   (forall i v l, P l ->
     fst (fold_left (fun st f => f st) (body i) (v, l)) =
     fst (fold_left (fun st f => f st) (body i) (v, l0)))) ->
  forall (numcpu threads : Z) (N : nat) (sched : list choice) (mem mem' : list V),
  (0 < numcpu)%Z -> N <= length mem ->
  parallelize_run body l0 numcpu threads N sched mem = Some mem' ->
  mem' = seq_loop body l0 N mem.
Proof. exact parallelize_run_correct. Qed.
Print Assumptions C02_parallel_equals_sequential.

(* ... and the sequential loop gives cell i the result of iteration i alone and
   touches nothing else. *)
Theorem C02_sequential_cells :
  forall (V L : Type) (body : nat -> list (V * L -> V * L)) (l0 : L),
  forall P : L -> Prop,
  (P l0 /\
   (forall i v l, P l -> P (snd (fold_left (fun st f => f st) (body i) (v, l)))) /\
   (forall i v l, P l ->
     fst (fold_left (fun st f => f st) (body i) (v, l)) =
     fst (fold_left (fun st f => f st) (body i) (v, l0)))) ->
  forall (N : nat) (mem : list V) (j : nat), N <= length mem ->
  nth_error (seq_loop body l0 N mem) j =
  if Nat.ltb j N
  then option_map (fun v => fst (fold_left (fun st f => f st) (body j) (v, l0))) (nth_error mem j)
  else nth_error mem j.
Proof. exact seq_loop_cells. Qed.
Print Assumptions C02_sequential_cells.

(* ... and Parallelize cannot block: executions are bounded in length and every
   partial execution can be continued until Parallelize returns (so the only
   way to stop is to return). *)
Theorem C02_parallelize_returns :
  forall (V L : Type) (body : nat -> list (V * L -> V * L)) (l0 : L)
         (numcpu threads : Z) (N : nat) (mem : list V),
  (0 < numcpu)%Z -> Nat.eqb (Z.to_nat (eff_threads numcpu threads)) 1 = false ->
  exists bound, forall sched s,
    mexec body l0 (minit L (parallelize_calls numcpu threads N) mem) sched = Some s ->
    length sched <= bound /\
    exists sched' s', mexec body l0 s sched' = Some s' /\ returned s' = true.
Proof.
  intros V L body l0 numcpu threads N mem Hn Ht.
  exact (ex_intro _ _ (parallelize_run_terminates V L body l0 numcpu threads N mem Hn Ht)).
Qed.
Print Assumptions C02_parallelize_returns.

(* A body with a scratch register: iteration i stores i in the scratch, then
   writes cell + scratch.  Two goroutines interleaved instruction by instruction. *)
Definition ex_body (i : nat) : list (nat * nat -> nat * nat) :=
  [fun '(v, _) => (v, i); fun '(v, l) => (v + l, l)].
Example C02_example_hyp : let P := fun _ : nat => True in
   P 7 /\
   (forall i v l, P l -> P (snd (fold_left (fun st f => f st) (ex_body i) (v, l)))) /\
   (forall i v l, P l ->
     fst (fold_left (fun st f => f st) (ex_body i) (v, l)) =
     fst (fold_left (fun st f => f st) (ex_body i) (v, 7))).
Proof. repeat split. Qed.
Example C02_example_run :
  parallelize_run ex_body 7 8 2 3
    [Spawn; Run 0; Spawn; Run 1; Run 0; Run 1; Run 0; Done 1; Run 0; Done 0; Return]
    [100; 200; 300; 400] = Some [100; 201; 302; 400].
Proof. vm_compute. reflexivity. Qed.
