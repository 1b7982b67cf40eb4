(* Model of /repo/model_selection/search.go:87-181 (GridSearchCV.Fit from the clones on, Score, Predict), split.go:36-45 (SplitterClone)
   and validation.go:19-31 (sorting a CrossValidateResult). *)
From Verif Require Import QCommon SelectModel.
Open Scope nat_scope.

(* --------------------------------------------------------- random sources and splitters *)
Section Sources.
  (* the state of a source, and what one iteration of KFold.Split draws from it (shuffle, number of samples): the swaps of rndShuffle
     or the value of rndIntn, split.go:88-95 *)
  Variable St : Type.
  Variable draw : bool -> nat -> St -> (list (nat * nat) * nat) * St.

  (* split.go:16-20.  [k_src] is the source RandomState points to, [k_clones] whether it implements base.SourceCloner (base.NewSource and
     LockedSource do; a source of golang.org/x/exp/rand and a nil RandomState, which means the global source, do not) *)
  Record kfold : Type := mkkf { k_n : Z; k_shuffle : bool; k_src : nat; k_clones : bool }.
  (* split.go:36-45; the memory is the list of all sources *)
  Definition splitter_clone (m : list St) (k : kfold) : list St * kfold :=
    match nth_error m (k_src k) with
    | Some s => if k_clones k then (m ++ [s], mkkf (k_n k) (k_shuffle k) (length m) true) else (m, k)
    | None => (m, k)
    end.
  (* search.go:139-142: one clone for every candidate *)
  Fixpoint clones (ncand : nat) (m : list St) (k : kfold) : list St * list kfold :=
    match ncand with
    | O => (m, [])
    | S c => let '(m1, k1) := splitter_clone m k in let '(m2, ks) := clones c m1 k in (m2, k1 :: ks)
    end.

  (* a candidate in progress: its splitter and the splits received so far *)
  Notation cand := (kfold * list (list nat * list nat))%type.
  (* one iteration of the goroutine split.go:75-104 of candidate i; the candidates run concurrently (search.go:146-155), whoever is scheduled
     draws next.  Nothing happens when the candidate has all its splits *)
  Definition turn (N : nat) (i : nat) (w : list St * list cand) : list St * list cand :=
    let '(m, cs) := w in
    match nth_error cs i with
    | None => w
    | Some (k, done) =>
      if length done <? kfold_nsplits (k_n k) then
        match nth_error m (k_src k) with
        | None => w
        | Some s => let '(r, s') := draw (k_shuffle k) N s in
          match kfold_one (k_shuffle k) N (kfold_nsplits (k_n k)) (length done) r with
          | None => w
          | Some sp => (upd m (k_src k) s', upd cs i (k, done ++ [sp]))
          end
        end
      else w
    end.
  Definition turns (N : nat) (sched : list nat) (w : list St * list cand) : list St * list cand := fold_left (fun w i => turn N i w) sched w.
  (* all candidates of a call to Fit *)
  Definition all_splits (N ncand : nat) (sched : list nat) (m : list St) (k : kfold) : list St * list cand :=
    let '(m', ks) := clones ncand m k in turns N sched (m', map (fun k => (k, [])) ks).
End Sources.

(* ------------------------------------------------------------------ choosing *)
Section Choose.
  Variables (Row Param Est : Type).
  (* setParam on a clone of the estimator, then Fit; Predict and the scorer.  Scores are numbers, not NaN *)
  Variable fit : Param -> list Row -> Est.
  Variable score : Est -> list Row -> Q.
  Variable lower : bool.

  (* search.go:91-96 *)
  Definition better (a b : Q) : bool := if lower then Qltb a b else Qltb b a.
  (* search.go:97-105, from the current best on *)
  Fixpoint best_from (i best : nat) (bs : Q) (l : list Q) : nat :=
    match l with
    | [] => best
    | s :: r => if better s bs then best_from (S i) i s r else best_from (S i) best bs r
    end.
  (* -1 (None) for no scores *)
  Definition best_idx (l : list Q) : option nat := match l with [] => None | s :: r => Some (best_from 1 0 s r) end.

  Definition rows_at (data : list Row) (idx : list nat) : option (list Row) := gather idx data.
  (* validation.go:63-92 for every split: estimators and test scores (C06) *)
  Fixpoint cv_folds (data : list Row) (p : Param) (sps : list (list nat * list nat)) : option (list (Est * Q)) :=
    match sps with
    | [] => Some []
    | (tr, te) :: r =>
      match rows_at data tr, rows_at data te, cv_folds data p r with
      | Some a, Some b, Some l => Some ((fit p a, score (fit p a) b) :: l)
      | _, _, _ => None
      end
    end.
  (* search.go:131-136: mean score, and the estimator of the best fold; None: index -1 *)
  Definition dowork (data : list Row) (p : Param) (sps : list (list nat * list nat)) : option (Q * Est) :=
    match cv_folds data p sps with
    | None => None
    | Some fs =>
      let scores := map snd fs in
      match best_idx scores with
      | None => None
      | Some b => match nth_error fs b with Some f => Some ((qsum scores / qn (length scores))%Q, fst f) | None => None end
      end
    end.
  (* search.go:60-64: BestIndex (None for -1), BestEstimator (None for nil), BestParams, BestScore; and CVResults["score"] *)
  Record found : Type := mkfound { b_index : option nat; b_est : option Est; b_params : option Param; b_score : option Q; b_all : list Q }.
  Fixpoint works (data : list Row) (ps : list Param) (splits : list (list (list nat * list nat))) : option (list (Q * Est)) :=
    match ps, splits with
    | [], _ => Some []
    | p :: r, sp :: q => match dowork data p sp, works data r q with Some w, Some l => Some (w :: l) | _, _ => None end
    | _ :: _, [] => None
    end.
  (* search.go:137, 156-163 *)
  Definition gs_choose (data : list Row) (ps : list Param) (splits : list (list (list nat * list nat))) : option found :=
    match works data ps splits with
    | None => None
    | Some ws =>
      let i := best_idx (map fst ws) in
      let at_best {A} (l : list A) := match i with Some b => nth_error l b | None => None end in
      Some (mkfound i (at_best (map snd ws)) (at_best ps) (at_best (map fst ws)) (map fst ws))
    end.
  (* search.go:169-181; None: a method call on a nil interface *)
  Definition gs_predict {Out} (predict : Est -> list Row -> Out) (g : found) (X : list Row) : option Out := option_map (fun e => predict e X) (b_est g).
End Choose.

(* ------------------------------------------------------------------ CrossValidateResult *)
(* validation.go:12-16, the durations abstract *)
Record cvres (E D : Type) : Type := mkcv { r_score : list Q; r_fit : list D; r_time : list D; r_est : list E }.
Arguments mkcv {E D}. Arguments r_score {E D}. Arguments r_fit {E D}. Arguments r_time {E D}. Arguments r_est {E D}.
(* validation.go:23 *)
Definition cv_less {E D} (r : cvres E D) (i j : nat) : bool := Qltb (nth j (r_score r) 0%Q) (nth i (r_score r) 0%Q).
(* validation.go:26-31 *)
Definition cv_swap {E D} (r : cvres E D) (ij : nat * nat) : cvres E D :=
  mkcv (swap (r_score r) (fst ij) (snd ij)) (swap (r_fit r) (fst ij) (snd ij)) (swap (r_time r) (fst ij) (snd ij)) (swap (r_est r) (fst ij) (snd ij)).
