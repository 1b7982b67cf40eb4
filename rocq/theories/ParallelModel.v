(* Model of /repo/base/parallel.go (Parallelize) and of the goroutines it
   starts. *)
From Verif Require Import Common.

(* base/parallel.go:10-12.  [numcpu] is runtime.NumCPU(). *)
Definition eff_threads (numcpu threads : Z) : Z :=
  if (threads <=? 0)%Z then numcpu else threads.

(* base/parallel.go:16.  Integer division truncates; both operands are
   non-negative here. *)
Definition samp_per_th (threads N : nat) : nat := (N + threads - 1) / threads.

(* base/parallel.go:19-29.  [rem] is the number of loop iterations left
   (threads - th).  A result element is the triple (th,start,end) a goroutine is
   started with. *)
Fixpoint par_loop (rem th s N : nat) : list (nat * nat * nat) :=
  match rem with
  | 0 => []
  | S rem' =>
    let start := th * s in
    let end_ := (th + 1) * s in
    if Nat.ltb N end_ then
      let end_ := N in
      if Nat.leb end_ start then []                    (* break *)
      else (th, start, end_) :: par_loop rem' (th + 1) s N
    else (th, start, end_) :: par_loop rem' (th + 1) s N
  end.

(* base/parallel.go:9-32: the calls f(th,start,end) made, in program order. *)
Definition parallelize_calls (numcpu threads : Z) (N : nat) : list (nat * nat * nat) :=
  let t := Z.to_nat (eff_threads numcpu threads) in
  if Nat.eqb t 1 then [(0, 0, N)]
  else par_loop t 0 (samp_per_th t N) N.

(* ------------------------------------------------------------------------ *)
(* Goroutines.  The callback body of the callers in this repository is a loop
   [for i := start; i < end; i++ { ... }] whose iteration [i] works on cell [i]
   of the output (a row, a column, a score slot) and on buffers local to the
   goroutine.  An iteration is a list of atomic instructions; each instruction
   reads and writes only cell [i] and the goroutine's local state (shared
   read-only inputs are captured in the instruction itself). *)
Set Implicit Arguments.
Section Machine.
Variables (V L : Type).
Variable body : nat -> list (V * L -> V * L).   (* instructions of iteration i *)
Variable l0 : L.                                (* local state on goroutine entry *)

Definition instr : Type := nat * (V * L -> V * L).

(* the instruction list of the goroutine body for f(th,start,end) *)
Definition prog_range (start end_ : nat) : list instr :=
  flat_map (fun i => map (pair i) (body i)) (seq start (end_ - start)).

Definition exec_instr (ins : instr) (st : list V * L) : list V * L :=
  match nth_error (fst st) (fst ins) with
  | Some v => let '(v', l') := snd ins (v, snd st) in (upd (fst st) (fst ins) v', l')
  | None => st
  end.

(* run a whole instruction list, alone *)
Definition run_prog (p : list instr) (st : list V * L) : list V * L :=
  fold_left (fun st ins => exec_instr ins st) p st.

(* the sequential loop  for i := 0; i < N; i++ { ... } *)
Definition seq_loop (N : nat) (mem : list V) : list V := fst (run_prog (prog_range 0 N) (mem, l0)).

Record worker := { w_prog : list instr; w_loc : L; w_done : bool }.

(* main goroutine: [to_spawn] are the loop iterations of lines 19-29 not yet
   executed, then it blocks in wg.Wait() (line 30) and finally returns. *)
Record mstate := {
  to_spawn : list (nat * nat * nat);
  workers  : list worker;
  wgcount  : nat;
  returned : bool;
  memory   : list V }.

Inductive choice :=
| Spawn             (* lines 27-28: wg.Add(1); go func... *)
| Run (k : nat)     (* goroutine k executes its next instruction *)
| Done (k : nat)    (* goroutine k has finished f and calls wg.Done() *)
| Return.           (* wg.Wait() sees 0 and Parallelize returns *)

Definition mstep (s : mstate) (c : choice) : option mstate :=
  match c with
  | Spawn =>
    match to_spawn s with
    | [] => None
    | (_, st, en) :: rest =>
      Some {| to_spawn := rest;
              workers := workers s ++ [{| w_prog := prog_range st en; w_loc := l0; w_done := false |}];
              wgcount := wgcount s + 1; returned := returned s; memory := memory s |}
    end
  | Run k =>
    match nth_error (workers s) k with
    | Some {| w_prog := ins :: p; w_loc := l; w_done := d |} =>
      let '(m', l') := exec_instr ins (memory s, l) in
      Some {| to_spawn := to_spawn s;
              workers := upd (workers s) k {| w_prog := p; w_loc := l'; w_done := d |};
              wgcount := wgcount s; returned := returned s; memory := m' |}
    | _ => None
    end
  | Done k =>
    match nth_error (workers s) k with
    | Some {| w_prog := []; w_loc := l; w_done := false |} =>
      Some {| to_spawn := to_spawn s;
              workers := upd (workers s) k {| w_prog := []; w_loc := l; w_done := true |};
              wgcount := wgcount s - 1; returned := returned s; memory := memory s |}
    | _ => None
    end
  | Return =>
    match to_spawn s, wgcount s, returned s with
    | [], 0, false =>
      Some {| to_spawn := []; workers := workers s; wgcount := 0; returned := true; memory := memory s |}
    | _, _, _ => None
    end
  end.

Definition minit (ranges : list (nat * nat * nat)) (mem : list V) : mstate :=
  {| to_spawn := ranges; workers := []; wgcount := 0; returned := false; memory := mem |}.

Fixpoint mexec (s : mstate) (sched : list choice) : option mstate :=
  match sched with
  | [] => Some s
  | c :: cs => match mstep s c with Some s' => mexec s' cs | None => None end
  end.

(* Parallelize(threads,N,f): [threads]=1 calls f inline (line 14); otherwise
   the machine is run under the schedule [sched].  [None]: the schedule is not
   an execution, or it stops before Parallelize returned. *)
Definition parallelize_run (numcpu threads : Z) (N : nat) (sched : list choice) (mem : list V)
  : option (list V) :=
  if Nat.eqb (Z.to_nat (eff_threads numcpu threads)) 1 then
    Some (fst (run_prog (prog_range 0 N) (mem, l0)))
  else
    match mexec (minit (parallelize_calls numcpu threads N) mem) sched with
    | Some s => if returned s then Some (memory s) else None
    | None => None
    end.

End Machine.
