(* Properties C60, C95. *)
From Verif Require Import Common SourceModel SourceProofs.

(* C60: every execution of any number of goroutines is a sequential one: the critical
   sections, in some order that respects every goroutine's program, hand out the values
   the goroutines received *)
Theorem C60_linearizable : forall St V (s0 : St) (ps : list (list (cmd St V))) sched, let y := exec (init s0 ps) sched in
  let '(s, vals) := replay (log y) s0 in
  (lock y = None -> src y = s) /\
  forall t th, nth_error (ths y) t = Some th ->
    res th = got t vals /\ (exists rest, sections (nth t ps []) = ops_of t (log y) ++ rest) /\
    (cur th = None -> prog th = [] -> ops_of t (log y) = sections (nth t ps [])).
Proof. exact linearizable. Qed.
Print Assumptions C60_linearizable.
(* for goroutines calling Uint64: the k-th value of the stream goes to exactly one
   caller, and every caller gets its values in stream order *)
Theorem C60_stream : forall St V (draw : list (micro St V)) (s0 : St) ps sched,
  (forall p c, In p ps -> In c p -> c = CS (mkop draw false)) ->
  let y := exec (init s0 ps) sched in
  let owner := map fst (log y) in
  (lock y = None -> src y = after draw (length owner) s0) /\
  forall t th, nth_error (ths y) t = Some th ->
    res th = concat (map (stream draw s0) (filter (fun k => nth k owner 0 =? t) (seq 0 (length owner)))).
Proof. exact draws_stream. Qed.
Print Assumptions C60_stream.
Theorem C60_exclusive : forall St V (s0 : St) (ps : list (list (cmd St V))) sched t t' th th', let y := exec (init s0 ps) sched in
  nth_error (ths y) t = Some th -> nth_error (ths y) t' = Some th' -> cur th <> None -> cur th' <> None -> t = t'.
Proof. exact exclusive. Qed.
Print Assumptions C60_exclusive.
(* no deadlock *)
Theorem C60_progress : forall St V (s0 : St) (ps : list (list (cmd St V))) sched, let y := exec (init s0 ps) sched in
  (forall p o, In p ps -> In (CS o) p -> panics o = false) ->
  (forall t, step y t = None) -> forall t th, nth_error (ths y) t = Some th -> cur th = None /\ prog th = [].
Proof. exact progress. Qed.
Print Assumptions C60_progress.
(* clones: made while no call is running they continue the stream, and nothing changes them afterwards *)
Theorem C60_clone_partial : forall St V (s0 : St) (ps : list (list (cmd St V))) sched t th p, let y := exec (init s0 ps) sched in
  nth_error (ths y) t = Some th -> cur th = None -> prog th = Clone _ _ :: p -> lock y = None ->
  exists y', step y t = Some y' /\ clones y' = clones y ++ [(t, fst (replay (log y) s0))] /\ src y' = src y.
Proof. exact clone_ok. Qed.
Print Assumptions C60_clone_partial.
Theorem C60_clone_independent : forall St V sched (y : sys St V), exists l, clones (exec y sched) = clones y ++ l.
Proof. exact clone_fixed. Qed.
Print Assumptions C60_clone_independent.
Theorem C60_clone_stream : forall St V (draw : list (micro St V)) n s k, stream draw (after draw n s) k = stream draw s (n + k).
Proof. exact stream_after. Qed.
Print Assumptions C60_clone_stream.

(* a generator of two words, each advanced by one write *)
Definition two_words : list (micro (nat * nat) nat) :=
  [fun s => ((S (fst s), snd s), []); fun s => ((fst s, S (snd s)), [10 * fst s + S (snd s)])].
Example C60_example :
  let c := CS (mkop two_words false) in
  let y := exec (init (0, 0) [[c; c]; [c]]) [1; 0; 1; 0; 1; 1; 0; 0; 0; 0; 0; 0; 0; 0] in
  map fst (log y) = [1; 0; 0] /\ map (@res _ _) (ths y) = [[22; 33]; [11]] /\ src y = (3, 3).
Proof. vm_compute. repeat split. Qed.
(* a clone made while another goroutine is inside Uint64 is on another stream *)
Theorem C60_clone_refuted : exists (ps : list (list (cmd (nat * nat) nat))) sched t s,
  In (t, s) (clones (exec (init (0, 0) ps) sched)) /\ forall k j, stream two_words s j <> stream two_words (0, 0) k.
Proof.
  exists [[CS (mkop two_words false)]; [Clone _ _]], [0; 0; 1], 1, (1, 0). split; [now left|].
  assert (A : forall k a b, after two_words k (a, b) = (k + a, k + b)).
  { induction k as [|k IH]; intros a b; [reflexivity|]. cbn [after two_words run_body fst snd]. rewrite IH. f_equal; lia. }
  intros k j. unfold stream. rewrite !A. unfold two_words. cbn [run_body fst snd app]. intros H. injection H as H. lia.
Qed.
Print Assumptions C60_clone_refuted.

(* C95: after a panic in WithLock nobody gets a value any more *)
Theorem C95_panic_refuted : forall St V (s0 : St) (ps : list (list (cmd St V))) sched t th o acc sched', let y := exec (init s0 ps) sched in
  nth_error (ths y) t = Some th -> cur th = Some (o, [], acc) -> panics o = true ->
  log (exec y sched') = log y /\ src (exec y sched') = src y /\ lock (exec y sched') = Some t.
Proof. exact panic_locks. Qed.
Print Assumptions C95_panic_refuted.
Example C95_example : let y := exec (init (0, 0) [[CS (mkop two_words true)]; [CS (mkop two_words false)]]) [0; 0; 0; 0; 1; 1; 1; 1] in
  lock y = Some 0 /\ map (@res _ _) (ths y) = [[]; []] /\ step y 0 = None /\ step y 1 = None.
Proof. vm_compute. repeat split. Qed.
