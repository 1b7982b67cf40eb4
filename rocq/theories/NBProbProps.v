(* Properties of the predictions of a fitted GaussianNB: C102. *)
From Coq Require Import Reals List Lra ZArith.
From Verif Require Import NBProbModel NBProbProofs.
Import ListNotations.
Local Open Scope R_scope.

(* C102.  Class probabilities follow from Bayes' rule with normal densities and add up to one *)
Theorem C102_probas : forall m x, m <> [] -> (forall c, In c m -> cls_ok c) ->
  probas m x = map (fun c => posterior c x / rsum (map (fun k => posterior k x) m)) m /\ rsum (probas m x) = 1.
Proof. exact probas_bayes. Qed.
Print Assumptions C102_probas.
(* the predicted class is the first one of largest posterior *)
Theorem C102_predict : forall m x, m <> [] -> (forall c, In c m -> cls_ok c) ->
  exists i c, nth_error m i = Some c /\ predict m x = c_label c /\ (forall k, In k m -> posterior k x <= posterior c x) /\
    forall j k, nth_error m j = Some k -> (j < i)%nat -> posterior k x < posterior c x.
Proof. exact predict_bayes. Qed.
Print Assumptions C102_predict.
Example C102_example : let m := [mkcls 5 (1 / 2) [0] [1]; mkcls 7 (1 / 2) [2] [1]] in
  (forall c, In c m -> cls_ok c) /\ predict m [0] = 5%Z /\ predict m [3] = 7%Z.
Proof.
  cbv zeta. split; [|split].
  - intros c [<-|[<-|[]]]; split; cbn; try lra; intros s [<-|[]]; lra.
  - unfold predict, jll, jll1, nij, max_idx. cbn. destruct (Rlt_dec _ _) as [H|H]; [exfalso; lra|reflexivity].
  - unfold predict, jll, jll1, nij, max_idx. cbn. destruct (Rlt_dec _ _) as [H|H]; [reflexivity|exfalso; apply H; lra].
Qed.
