(* Model of /repo/base/source.go:31-68, LockedSource, as a state machine of goroutines. *)
From Verif Require Import Common.
Set Implicit Arguments.

Section Src.
  (* the state of a randomkit.RKState and the values it hands out *)
  Variables St V : Type.

  (* one write to the generator's memory and the values computed on the way.  The
     generator itself is in another repository: its methods are lists of such
     writes, of any length *)
  Definition micro : Type := St -> St * list V.
  (* what runs between s.lk.Lock() and s.lk.Unlock(): the body of Uint64 (44-49),
     Seed (52-56), or the function given to WithLock (37-41), which may panic at its end *)
  Record op : Type := mkop { body : list micro; panics : bool }.
  Inductive cmd : Type := CS (o : op) | Clone.

  (* a goroutine: the calls to come, the critical section it is in, the values received *)
  Record thread : Type := mkth { prog : list cmd; cur : option (op * list micro * list V); res : list V }.
  (* [log]: the completed critical sections in order of their Unlock, an observer only *)
  Record sys : Type := mksys { src : St; lock : option nat; ths : list thread; log : list (nat * op); clones : list (nat * St) }.

  Definition init (s0 : St) (ps : list (list cmd)) : sys :=
    mksys s0 None (map (fun p => mkth p None []) ps) [] [].

  (* the next action of goroutine t; None: it is blocked, dead, or has ended *)
  Definition step (y : sys) (t : nat) : option sys :=
    match nth_error (ths y) t with
    | None => None
    | Some th =>
      match cur th with
      | Some (o, f :: fs, acc) =>
          let '(s', vs) := f (src y) in
          Some (mksys s' (lock y) (upd (ths y) t (mkth (prog th) (Some (o, fs, acc ++ vs)) (res th))) (log y) (clones y))
      | Some (o, [], acc) =>
          if panics o then None (* source.go:39-40: no defer, so Unlock is not reached *)
          else Some (mksys (src y) None (upd (ths y) t (mkth (prog th) None (res th ++ acc))) (log y ++ [(t, o)]) (clones y))
      | None =>
          match prog th with
          | [] => None
          | CS o :: p =>
              match lock y with
              | Some _ => None
              | None => Some (mksys (src y) (Some t) (upd (ths y) t (mkth p (Some (o, body o, [])) (res th))) (log y) (clones y))
              end
          | Clone :: p => (* source.go:59-61: copies the state without taking the lock *)
              Some (mksys (src y) (lock y) (upd (ths y) t (mkth p None (res th))) (log y) (clones y ++ [(t, src y)]))
          end
      end
    end.

  (* a schedule picks a goroutine at each turn; a goroutine that cannot act is skipped *)
  Fixpoint exec (y : sys) (sched : list nat) : sys :=
    match sched with
    | [] => y
    | t :: r => exec (match step y t with Some y' => y' | None => y end) r
    end.

  (* ---------------- sequential use of the generator, for the statements *)
  Fixpoint run_body (fs : list micro) (s : St) : St * list V :=
    match fs with
    | [] => (s, [])
    | f :: r => let '(s1, v1) := f s in let '(s2, v2) := run_body r s1 in (s2, v1 ++ v2)
    end.
  Fixpoint replay (l : list (nat * op)) (s : St) : St * list (nat * list V) :=
    match l with
    | [] => (s, [])
    | (t, o) :: r => let '(s1, v1) := run_body (body o) s in let '(s2, v2) := replay r s1 in (s2, (t, v1) :: v2)
    end.
  (* the values goroutine t got *)
  Definition got (t : nat) (l : list (nat * list V)) : list V :=
    concat (map snd (filter (fun x => Nat.eqb (fst x) t) l)).
  (* the critical sections of a program *)
  Fixpoint sections (p : list cmd) : list op :=
    match p with [] => [] | CS o :: r => o :: sections r | Clone :: r => sections r end.
  Definition ops_of (t : nat) (l : list (nat * op)) : list op :=
    map snd (filter (fun x => Nat.eqb (fst x) t) l).
  (* the k-th value of the stream of a draw *)
  Variable draw : list micro.
  Fixpoint after (k : nat) (s : St) : St := match k with O => s | S k' => after k' (fst (run_body draw s)) end.
  Definition stream (s : St) (k : nat) : list V := snd (run_body draw (after k s)).
End Src.
