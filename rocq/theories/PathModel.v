(* linear_model/coordinatedescent.go: EnetPath, LassoPath; linear_model/Base.go: LinFitGOM.  Exact rational arithmetic;
   the goroutines are state machines. *)
From Verif Require Import QCommon LinModel ParallelModel.
Open Scope Q_scope.

(* ------------------------------------------------------------------ EnetPath *)
(* coordinatedescent.go:140-145; [grid n] are the n values alphaGrid fills in; copy leaves zeros or drops values *)
Definition path_alphas (grid : nat -> list Q) (nAlphas : nat) (given : option (list Q)) : list Q :=
  match given with None => grid nAlphas | Some l => firstn nAlphas l ++ repeat 0 (nAlphas - length l) end.
(* entry i of coefs, dualGaps and nIters (147-149) *)
Record slot : Type := mkslot { s_coef : option mtx; s_gap : Q; s_iter : nat }.
Section Path.
  (* what Fit leaves in Coef, CDResult.Gap and CDResult.NIter for the given Alpha *)
  Variable fit : Q -> option (mtx * Q * nat).
  Variable alphas : list Q.
  (* coordinatedescent.go:153-165: the goroutine of entry i; the estimator is local to it *)
  Definition path_body (i : nat) : list (slot * option (mtx * Q * nat) -> slot * option (mtx * Q * nat)) :=
    [ (fun vl => (fst vl, fit (nth i alphas 0)));
      (fun vl => match snd vl with Some (c, _, _) => (mkslot (Some c) (s_gap (fst vl)) (s_iter (fst vl)), snd vl) | None => vl end);
      (fun vl => match snd vl with Some (_, g, _) => (mkslot (s_coef (fst vl)) g (s_iter (fst vl)), snd vl) | None => vl end);
      (fun vl => match snd vl with Some (_, _, k) => (mkslot (s_coef (fst vl)) (s_gap (fst vl)) k, snd vl) | None => vl end) ].
  (* coordinatedescent.go:151-166: one goroutine for each alpha *)
  Definition path_ranges : list (nat * nat * nat) := map (fun i => (i, i, S i)) (seq 0 (length alphas)).
  Definition path_start : mstate slot (option (mtx * Q * nat)) := minit _ path_ranges (repeat (mkslot None 0 0) (length alphas)).
  (* the slices EnetPath returns under a schedule; None: the schedule is no complete execution *)
  Definition path_run (sched : list choice) : option (list slot) :=
    match mexec path_body None path_start sched with
    | Some s => if returned s then Some (memory s) else None
    | None => None
    end.
End Path.
(* coordinatedescent.go:154-161: NewElasticNet (83-97) with FitIntercept and Normalize off, Tol = eps; one output *)
Definition path_par (l1 eps : Q) (positive : bool) (alpha : Q) : enet_par := mkep false false alpha l1 eps 1000 false positive.
Definition path_fit (nrm : list Q -> Q) (l1 eps : Q) (positive : bool) (X Y : mtx) (alpha : Q) : option (mtx * Q * nat) :=
  match enet_fit nrm (cyclic (ncols X)) (path_par l1 eps positive alpha) X Y None None with
  | Some (C, _, gap, _, it) => Some (C, gap, it)
  | None => None
  end.
(* coordinatedescent.go:139-170; the alphas are returned as well *)
Definition enet_path (nrm : list Q -> Q) (grid : nat -> list Q) (X Y : mtx) (l1 eps : Q) (nAlphas : nat) (given : option (list Q)) (positive : bool)
  (sched : list choice) : option (list Q * list slot) :=
  let alphas := path_alphas grid nAlphas given in
  match path_run (path_fit nrm l1 eps positive X Y) alphas sched with Some m => Some (alphas, m) | None => None end.
(* coordinatedescent.go:173-176 *)
Definition lasso_path nrm grid X Y eps nAlphas given positive sched := enet_path nrm grid X Y 1 eps nAlphas given positive sched.

(* ------------------------------------------------------------------ LinFitGOM *)
(* Base.go:485-489: the message of the goroutine for output o: X, F, FuncEvaluations and whether Status is Failure *)
Record gres : Type := mkgres { r_X : list Q; r_F : Q; r_evals : nat; r_fail : bool }.
Inductive gst : Type := GRun | GRead (c : list Q) | GSent.
Record gom : Type := mkgom { g_theta : mtx; g_spawned : list gst; g_chan : list (nat * gres); g_recv : nat; g_F : Q; g_epoch : nat; g_conv : bool }.
Inductive gev : Type := EvSpawn | EvRead (o : nat) | EvSend (o : nat) | EvRecv.
Section Gom.
  (* optimize.Minimize for output o from a starting point; it terminates, and a point of another size than thetaM's columns panics in
     SetCol (524) *)
  Variable minimize : nat -> list Q -> gres.
  Variables (p q : nat).
  Definition colq (M : mtx) (o : nat) : list Q := tab p (fun j => at2 M j o).
  Definition set_col (M : mtx) (o : nat) (v : list Q) : mtx := tab2 p q (fun j k => if Nat.eqb k o then nth j v 0 else at2 M j k).
  (* Base.go:474-530 with PerOutputFit: EvSpawn 517-519, EvRead 512 (mat.Col), EvSend 513-515 (the channel has room for all), EvRecv 521-528 *)
  Definition gstep (s : gom) (e : gev) : option gom :=
    match e with
    | EvSpawn => if Nat.ltb (length (g_spawned s)) q then Some (mkgom (g_theta s) (g_spawned s ++ [GRun]) (g_chan s) (g_recv s) (g_F s) (g_epoch s) (g_conv s)) else None
    | EvRead o => match nth_error (g_spawned s) o with
        | Some GRun => Some (mkgom (g_theta s) (upd (g_spawned s) o (GRead (colq (g_theta s) o))) (g_chan s) (g_recv s) (g_F s) (g_epoch s) (g_conv s))
        | _ => None end
    | EvSend o => match nth_error (g_spawned s) o with
        | Some (GRead c) => Some (mkgom (g_theta s) (upd (g_spawned s) o GSent) (g_chan s ++ [(o, minimize o c)]) (g_recv s) (g_F s) (g_epoch s) (g_conv s))
        | _ => None end
    | EvRecv =>
        if (Nat.eqb (length (g_spawned s)) q && Nat.ltb (g_recv s) q)%bool then
          match g_chan s with
          | [] => None
          | (o, r) :: rest =>
              if Nat.eqb (length (r_X r)) p then
                Some (mkgom (set_col (g_theta s) o (r_X r)) (g_spawned s) rest (S (g_recv s)) (g_F s + r_F r) (g_epoch s + r_evals r) (g_conv s && negb (r_fail r)))
              else None
          end
        else None
    end.
  Fixpoint gexec (s : gom) (l : list gev) : option gom :=
    match l with [] => Some s | e :: l' => match gstep s e with Some s' => gexec s' l' | None => None end end.
  Definition ginit (theta0 : mtx) : gom := mkgom theta0 [] [] 0 0 0 true.
  (* Base.go:555-556: Converged, the argument of the root in RMSE (529), J, Epoch, Theta.  err is the variable of line 480, which the
     closures shadow (513), and J is not set *)
  Record gresult : Type := mkgr { gr_conv : bool; gr_F : Q; gr_J : Q; gr_epoch : nat; gr_theta : mtx }.
  Definition gom_run (theta0 : mtx) (l : list gev) : option gresult :=
    match gexec (ginit theta0) l with
    | Some s => if Nat.eqb (g_recv s) q then Some (mkgr true (g_F s) 0 (g_epoch s) (g_theta s)) else None
    | None => None
    end.
End Gom.

(* Base.go:399-440: the loop of LinFit.  [conv e] says whether epoch e ends with converged; the result is the list of epochs run, the
   value of Epoch and Converged *)
Fixpoint lf_loop (conv : nat -> bool) (left epoch : nat) (converged : bool) : list nat * nat * bool :=
  match left with
  | O => ([], epoch, converged)
  | S left' => if converged then ([], epoch, converged) else
      let '(l, e, c) := lf_loop conv left' (S epoch) (conv epoch) in (epoch :: l, e, c)
  end.
Definition lf_epochs (conv : nat -> bool) (epochs : nat) : list nat * nat * bool := lf_loop conv epochs 1 false.

(* ------------------------------------------------------- concurrent objective *)
(* Base.go:497-500 and loss.go:35-44: evaluations of the objective of one output share the buffers Ypred and Ydiff of the
   goroutine (493-494), and Settings.Concurrent (469) lets the optimizer run several at once.  Identity activation, no penalty;
   a loop over a buffer is one step here *)
Inductive epc : Type := PMul | PSub | PSum | PDone (J : Q).
Record cstate : Type := mkcs { cs_pred : list Q; cs_diff : list Q; cs_pc : list epc }.
Section Conc.
  Variables (X : mtx) (y : list Q) (thetas : list (list Q)).
  Let n := length X.
  Definition pred_of (theta : list Q) : list Q := tab n (fun i => sumn (length theta) (fun j => at2 X i j * nth j theta 0)).
  Definition cstep (s : cstate) (t : nat) : option cstate :=
    match nth_error (cs_pc s) t with
    | Some PMul => Some (mkcs (pred_of (nth t thetas [])) (cs_diff s) (upd (cs_pc s) t PSub))
    | Some PSub => Some (mkcs (cs_pred s) (tab n (fun i => nth i (cs_pred s) 0 - nth i y 0)) (upd (cs_pc s) t PSum))
    | Some PSum => Some (mkcs (cs_pred s) (cs_diff s) (upd (cs_pc s) t (PDone (sumn n (fun i => nth i (cs_diff s) 0 * nth i (cs_diff s) 0) / (2 * qn n)))))
    | _ => None
    end.
  Fixpoint cexec (s : cstate) (l : list nat) : option cstate :=
    match l with [] => Some s | t :: l' => match cstep s t with Some s' => cexec s' l' | None => None end end.
  Definition cinit : cstate := mkcs [] [] (repeat PMul (length thetas)).
End Conc.
