(* Lemmas about PipeNestModel *)
From Coq Require Import List Arith Bool Lia.
From Verif Require Import PipeModel PipeProofs PipeNestModel.
Import ListNotations.

Section Outer.
  Variables (X Y St : Type) (isT isP isI : St -> bool) (fit : St -> X -> Y -> option St) (trans : St -> X -> Y -> option (X * Y))
    (nout : St -> nat) (pred : St -> X -> option Y) (inv : St -> Y -> option Y) (blank : X -> nat -> Y) (into : Y -> Y -> option Y).
  Notation tstep := (tstep X Y St isT isP trans nout pred).
  Notation tsteps := (tsteps X Y St isT isP trans nout pred).
  Notation pfit := (pfit X Y St isT isP fit trans nout pred).
  Notation ppredict := (ppredict X Y St isT isP isI trans nout pred inv).
  Notation invs := (invs Y St isI inv).
  Notation N_isT := (n_isT St isT).
  Notation N_isP := (n_isP St isP).
  Notation N_isI := (n_isI St isI).
  Notation N_fit := (n_fit X Y St isT isP fit trans nout pred).
  Notation N_trans := (n_trans X Y St trans).
  Notation N_nout := (n_nout St isP nout).
  Notation N_pred := (n_pred X Y St isT isP isI trans nout pred inv blank into).
  Notation N_inv := (n_inv Y St inv).
  Notation Ntstep := (PipeModel.tstep X Y (nst St) N_isT N_isP N_trans N_nout N_pred).
  Notation Ntsteps := (PipeModel.tsteps X Y (nst St) N_isT N_isP N_trans N_nout N_pred).
  Notation Npfit := (PipeModel.pfit X Y (nst St) N_isT N_isP N_fit N_trans N_nout N_pred).
  Notation Nppredict := (PipeModel.ppredict X Y (nst St) N_isT N_isP N_isI N_trans N_nout N_pred N_inv).
  Notation Ninvs := (PipeModel.invs Y (nst St) N_isI N_inv).

  Lemma Ntstep_inl s x y : Ntstep (inl s) x y = tstep s x y.
  Proof. reflexivity. Qed.
  Lemma Ntsteps_inl ss : forall x y, Ntsteps (map inl ss) x y = tsteps ss x y.
  Proof. induction ss as [|s ss IH]; intros x y; [reflexivity|]. cbn [map PipeModel.tsteps]. rewrite Ntstep_inl. destruct (tstep s x y) as [[x' y']|]; [apply IH|reflexivity]. Qed.
  Lemma Ninvs_inl ss : forall y, Ninvs (map inl ss) y = invs ss y.
  Proof. induction ss as [|s ss IH]; intros y; [reflexivity|]. cbn. destruct (isI s); [|reflexivity]. destruct (inv s y); [apply IH|reflexivity]. Qed.

  Lemma Npfit_flat ss : ss <> [] -> forall pre x y,
    Npfit (map inl pre ++ [inr ss]) x y = option_map (fun l => map inl (firstn (length pre) l) ++ [inr (skipn (length pre) l)]) (pfit (pre ++ ss) x y).
  Proof.
    intros HN. induction pre as [|s pre IH]; intros x y.
    - cbn. destruct (pfit ss x y); reflexivity.
    - cbn [map app PipeModel.pfit length]. cbn [n_fit]. destruct (fit s x y) as [s'|]; [|reflexivity]. cbn [option_map].
      destruct (map inl pre ++ [inr ss]) as [|a q] eqn:E1; [destruct pre; discriminate|]. destruct (pre ++ ss) as [|b r] eqn:E2; [destruct pre; cbn in E2; congruence|].
      rewrite Ntstep_inl. destruct (tstep s' x y) as [[x' y']|]; [|reflexivity]. rewrite IH. destruct (pfit (b :: r) x' y') as [l|]; reflexivity.
  Qed.

  (* what comes out after a predicter does not depend on the Y that goes in *)
  Hypothesis HX : forall s x y y', isT s = true -> option_map fst (trans s x y) = option_map fst (trans s x y').
  Lemma tstep_x s x y y' : option_map fst (tstep s x y) = option_map fst (tstep s x y').
  Proof.
    unfold PipeModel.tstep. destruct (isT s) eqn:E; [now apply HX|]. destruct (isP s); [|reflexivity]. destruct (Nat.eqb (nout s) 0); reflexivity.
  Qed.
  Lemma tsteps_x' ss : forall x y y', option_map fst (tsteps ss x y) = option_map fst (tsteps ss x y').
  Proof.
    induction ss as [|s ss IH]; intros x y y'; [reflexivity|]. cbn. pose proof (tstep_x s x y y') as H.
    destruct (tstep s x y) as [[x1 y1]|], (tstep s x y') as [[x2 y2]|]; cbn in H; try discriminate; [|reflexivity]. injection H as <-. apply IH.
  Qed.
  Lemma tsteps_last pre l x y y' : isT l = false -> tsteps (pre ++ [l]) x y = tsteps (pre ++ [l]) x y'.
  Proof.
    intros E. rewrite !tsteps_app. pose proof (tsteps_x' pre x y y') as H. destruct (tsteps pre x y) as [[x1 y1]|], (tsteps pre x y') as [[x2 y2]|]; cbn in H; try discriminate; [|reflexivity].
    injection H as <-. cbn. unfold PipeModel.tstep. rewrite E. reflexivity.
  Qed.

  Lemma Nppredict_flat pre ss l x y : isT l = false -> isP l = true -> nout l <> 0 ->
    (forall x p, ppredict (ss ++ [l]) x (blank x (nout l)) = Some p -> into (blank x (nout l)) p = Some p) ->
    Nppredict (map inl pre ++ [inr (ss ++ [l])]) x y = ppredict (pre ++ ss ++ [l]) x y.
  Proof.
    intros HT HP HN HI. unfold PipeModel.ppredict at 1 2. rewrite tsteps_app, Ntsteps_inl, tsteps_app. destruct (tsteps pre x y) as [[x' y']|]; [|reflexivity].
    rewrite removelast_last, app_assoc, removelast_last.
    cbn [PipeModel.tsteps]. unfold PipeModel.tstep at 1. cbn [n_isT n_isP n_nout n_pred]. unfold pnout. rewrite rev_app_distr. cbn [rev app]. rewrite HP.
    destruct (Nat.eqb_spec (nout l) 0) as [|_]; [contradiction|].
    specialize (HI x'). unfold PipeModel.ppredict in HI |- *. rewrite (tsteps_last ss l x' (blank x' (nout l)) y') in * by exact HT.
    destruct (tsteps (ss ++ [l]) x' y') as [[x2 y2]|]; [|reflexivity]. rewrite removelast_last in *.
    rewrite (rev_app_distr pre ss), invs_app, <- map_rev.
    destruct (invs (rev ss) y2) as [p|]; [|reflexivity]. rewrite (HI p eq_refl). cbn [option_map]. apply Ninvs_inl.
  Qed.
End Outer.
