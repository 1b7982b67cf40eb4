(* Model of BaseLibSVM.fit, /repo/svm/svm.go:260-312: base.Parallelize trains
   the outputs concurrently, all with the one m.RandomState (a LockedSource, or
   any source whose calls take effect one after the other).  Each output is a
   job; one action of a job is its visit of one sample (svm.go:80-138,
   svr.go:92-161), which draws at most one number, the next of the stream.
   Everything else a job touches is its own. *)
From Verif Require Import QCommon SvmModel.
Open Scope Q_scope.

(* a training step: the random numbers by number of draw, the state, the sample *)
Definition tstep : Type := (nat -> nat) -> smo -> nat -> option smo.
(* svm.go:75-149 and svr.go:88-171: passes, next sample, state, and the state
   returned (jend = Some None: a panic) *)
Record job : Type := mkjob { jp : nat; ji : nat; jst : smo; jend : option (option smo) }.
Definition job0 (m : nat) : job := mkjob 0 0 (smo0 m) None.

Section Jobs.
  Variable m maxp : nat.
  (* the start of a pass: the loop condition, then the two resets *)
  Definition job_open (j : job) : job :=
    if Nat.eqb (ji j) 0 then
      if Nat.leb maxp (jp j) then mkjob (jp j) 0 (jst j) (Some (Some (jst j)))
      else mkjob (jp j) 0 (mksmo (sal (jst j)) (sb (jst j)) 0 false (srk (jst j))) None
    else j.
  (* the visit of sample ji; the end of the pass after the last one *)
  Definition job_close (j : job) : job :=
    if Nat.eqb (ji j) m then
      if negb (skkt (jst j)) then mkjob (jp j) (ji j) (jst j) (Some (Some (jst j)))
      else mkjob (if Nat.eqb (snch (jst j)) 0 then S (jp j) else 0%nat) 0 (jst j) None
    else j.
  Definition job_step (step : tstep) (rnd : nat -> nat) (j : job) : job :=
    match jend j with
    | Some _ => j
    | None =>
      let j := job_open j in
      match jend j with
      | Some _ => j
      | None => match step rnd (jst j) (ji j) with
                | None => mkjob (jp j) (ji j) (jst j) (Some None)
                | Some st => job_close (mkjob (jp j) (S (ji j)) st None)
                end
      end
    end.
  (* all jobs; [pos] numbers taken from the stream so far; [steps k] trains output k *)
  Record fitst : Type := mkfit { fpos : nat; fjobs : list job }.
  Definition fit_step (steps : nat -> tstep) (stream : nat -> nat) (s : fitst) (k : nat) : fitst :=
    match nth_error (fjobs s) k with
    | None => s
    | Some j =>
      let j' := job_step (steps k) (fun _ => stream (fpos s)) j in
      mkfit (fpos s + (srk (jst j') - srk (jst j))) (firstn k (fjobs s) ++ j' :: skipn (S k) (fjobs s))
    end.
  Definition fit_exec (steps : nat -> tstep) (stream : nat -> nat) (n : nat) (sched : list nat) : fitst :=
    fold_left (fit_step steps stream) sched (mkfit 0 (repeat (job0 m) n)).
  Definition fit_result (s : fitst) (k : nat) : option (option smo) :=
    match nth_error (fjobs s) k with Some j => jend j | None => None end.
End Jobs.
(* SVC and SVR, output column Yk *)
Definition svc_step m (Yk : nat -> Q) C Epsilon Tol K : tstep := fun rnd st i => smo_step m Yk C Epsilon Tol K rnd st i.
Definition svr_tstep m (Yk : nat -> Q) C Epsilon Tol K : tstep := fun rnd st i => svr_step m Yk C Epsilon Tol K rnd st i.
