(* Lemmas about PipeModel *)
From Coq Require Import List Arith Bool Lia.
From Verif Require Import PipeModel.
Import ListNotations.

Section Pipe.
  Variables (X Y St S : Type) (isT isP isI : St -> bool) (fit : St -> X -> Y -> option St) (trans : St -> X -> Y -> option (X * Y)) (nout : St -> nat)
    (pred : St -> X -> option Y) (inv : St -> Y -> option Y) (score : St -> X -> Y -> option S).
  Notation tstep := (tstep X Y St isT isP trans nout pred).
  Notation tsteps := (tsteps X Y St isT isP trans nout pred).
  Notation pfit := (pfit X Y St isT isP fit trans nout pred).
  Notation invs := (invs Y St isI inv).

  Lemma tsteps_app a b : forall x y, tsteps (a ++ b) x y = match tsteps a x y with Some (x', y') => tsteps b x' y' | None => None end.
  Proof. induction a as [|s a IH]; intros x y; [reflexivity|]. cbn. destruct (tstep s x y) as [[x' y']|]; [apply IH|reflexivity]. Qed.
  Lemma invs_app a b : forall y, invs (a ++ b) y = match invs a y with Some y' => invs b y' | None => None end.
  Proof. induction a as [|s a IH]; intros y; [reflexivity|]. cbn. destruct (isI s); [|reflexivity]. destruct (inv s y); [apply IH|reflexivity]. Qed.
  Lemma pfit_each ss : forall x y ss', pfit ss x y = Some ss' -> length ss' = length ss /\
    forall i s, nth_error ss i = Some s -> exists x' y' s', tsteps (firstn i ss') x y = Some (x', y') /\ nth_error ss' i = Some s' /\ fit s x' y' = Some s'.
  Proof.
    induction ss as [|s r IH]; intros x y ss' H; cbn in H.
    - injection H as <-. split; [reflexivity|]. intros [|i] s E; discriminate.
    - destruct (fit s x y) as [s'|] eqn:F; [|discriminate]. destruct r as [|s2 r].
      + injection H as <-. split; [reflexivity|]. intros [|[|i]] t E; try discriminate. injection E as <-. exists x, y, s'. auto.
      + destruct (tstep s' x y) as [[x1 y1]|] eqn:T; [|discriminate]. set (q := s2 :: r) in *. destruct (pfit q x1 y1) as [l|] eqn:P; [|discriminate]. injection H as <-.
        destruct (IH _ _ _ P) as [L G]. split; [cbn; now rewrite L|]. intros [|i] t E.
        * injection E as <-. exists x, y, s'. auto.
        * cbn [nth_error] in E. destruct (G i t E) as (x' & y' & t' & A & B & C). exists x', y', t'. cbn [firstn PipeModel.tsteps nth_error]. rewrite T. auto.
  Qed.
  (* the X that comes out does not depend on the Y that goes in *)
  Lemma tsteps_x ss : (forall s, In s ss -> forall x y y' r r', tstep s x y = Some r -> tstep s x y' = Some r' -> fst r = fst r') ->
    forall x y y' r r', tsteps ss x y = Some r -> tsteps ss x y' = Some r' -> fst r = fst r'.
  Proof.
    induction ss as [|s ss IH]; intros H x y y' r r' A B; cbn in *; [injection A as <-; now injection B as <-|].
    destruct (tstep s x y) as [[x1 y1]|] eqn:E1; [|discriminate]. destruct (tstep s x y') as [[x2 y2]|] eqn:E2; [|discriminate].
    pose proof (H s (or_introl eq_refl) _ _ _ _ _ E1 E2) as E. cbn in E. subst x2. eapply IH; eauto.
  Qed.
  Lemma invs_none ss : (exists s, In s ss /\ (isI s = false \/ forall y, inv s y = None)) -> forall y, invs ss y = None.
  Proof.
    induction ss as [|t ss IH]; intros (s & I & H) y; [destruct I|]. cbn. destruct (isI t) eqn:E; [|reflexivity]. destruct (inv t y) as [y'|] eqn:F; [|reflexivity].
    destruct I as [->|I]; [|apply IH; eauto]. destruct H as [H|H]; [congruence|]. rewrite H in F. discriminate.
  Qed.
  Lemma invs_undo (code : St -> Y -> Y) ss : (forall s, In s ss -> isI s = true /\ forall y, inv s (code s y) = Some y) ->
    forall y, invs (rev ss) (fold_left (fun y s => code s y) ss y) = Some y.
  Proof.
    induction ss as [|s ss IH]; intros H y; [reflexivity|]. cbn [rev fold_left]. rewrite invs_app, IH by (intros; apply H; now right).
    destruct (H s (or_introl eq_refl)) as [A B]. cbn. now rewrite A, B.
  Qed.
End Pipe.
