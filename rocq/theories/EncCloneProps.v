(* Property C259: clones of LabelEncoder *)
From Coq Require Import ZArith List Arith Bool Lia.
From Verif Require Import Common LabelModel EncCloneModel EncCloneProofs.
Import ListNotations.
Local Open Scope nat_scope.

(* whatever clones are made and however the other encoders are fitted, an encoder holds what it held; a clone starts with what its original
   holds; a PartialFit that does not find a table of the right number of columns is a Fit *)
Theorem C259_fit_partial : forall l w w' i, evalid w -> erun w l = Some w' -> i < length (snd w) ->
  (forall o, In o l -> match o with EClone _ => True | EFit j _ _ => j <> i | EPartial _ _ _ => False end) ->
  evalid w' /\ eholds w' i = eholds w i.
Proof.
  induction l as [|o l IH]; intros w w' i V R L H; cbn [erun] in R; [injection R as <-; auto|]. destruct (estep w o) as [w1|] eqn:S; [|discriminate R]. pose proof (estep_valid _ _ _ V S) as V1. pose proof (H o (or_introl eq_refl)) as Ho.
  assert (X : i < length (snd w1) /\ eholds w1 i = eholds w i).
  { destruct w as [tabs encs]. destruct o as [j|j c rows|j c rows]; cbn [estep] in S; [| |destruct Ho]; destruct (nth_error encs j) as [e|] eqn:E; try discriminate S; injection S as <-.
    - cbn [snd] in *. split; [rewrite app_length; lia|]. unfold eholds. cbn [fst snd]. now rewrite nth_error_app1.
    - cbn [snd] in *. split; [now rewrite upd_length|]. apply new_table; [exact V|apply nth_error_Some; congruence|auto]. }
  destruct X as [L1 E1]. destruct (IH w1 w' i V1 R L1 (fun o I => H o (or_intror I))) as [A B]. split; [exact A|congruence].
Qed.
Print Assumptions C259_fit_partial.
Theorem C259_clone : forall w i w', estep w (EClone i) = Some w' -> eholds w' (length (snd w)) = eholds w i /\ forall j, j < length (snd w) -> eholds w' j = eholds w j.
Proof.
  intros [tabs encs] i w' S. cbn [estep] in S. destruct (nth_error encs i) as [e|] eqn:E; [|discriminate S]. injection S as <-. cbn [snd]. unfold eholds. cbn [fst snd]. split; [rewrite nth_error_app2, Nat.sub_diag, E by lia; reflexivity|]. intros j H. now rewrite nth_error_app1.
Qed.
Print Assumptions C259_clone.
Theorem C259_partial_new_partial : forall w i j c rows w', evalid w -> (forall t, eholds w j = Some t -> length t <> c) -> estep w (EPartial j c rows) = Some w' ->
  eholds w' j = Some (le_fit c rows) /\ (i <> j -> eholds w' i = eholds w i).
Proof.
  intros [tabs encs] i j c rows w' V H S. cbn [estep] in S. unfold eholds in H. cbn [fst snd] in H. destruct (nth_error encs j) as [e|] eqn:E; [|discriminate S]. assert (L : j < length encs) by (apply nth_error_Some; congruence).
  assert (G : w' = (tabs ++ [le_fit c rows], upd encs j (Some (length tabs)))).
  { destruct e as [t|]; [|congruence]. destruct (nth_error tabs t) as [tab|] eqn:T; [|congruence]. destruct (Nat.eqb_spec (length tab) c) as [X|X]; [exfalso; exact (H tab eq_refl X)|congruence]. }
  subst w'. destruct (new_table tabs encs j (le_fit c rows) i V L) as (_ & A & B). auto.
Qed.
Print Assumptions C259_partial_new_partial.

(* PartialFit of a clone of a fitted encoder trains the original too, for all encoders and data *)
Theorem C259_partialfit_refuted : forall w i w1 tab rows w2, estep w (EClone i) = Some w1 -> eholds w i = Some tab -> estep w1 (EPartial (length (snd w)) (length tab) rows) = Some w2 ->
  eholds w2 (length (snd w)) = Some (le_partial_fit tab (length tab) rows) /\ eholds w2 i = Some (le_partial_fit tab (length tab) rows).
Proof.
  intros [tabs encs] i w1 tab rows w2 S H P. cbn [estep] in S. unfold eholds in H. cbn [fst snd] in *. destruct (nth_error encs i) as [[t|]|] eqn:E; try discriminate H. injection S as <-. assert (L : i < length encs) by (apply nth_error_Some; congruence). assert (T : t < length tabs) by (apply nth_error_Some; congruence).
  cbn [estep] in P. assert (N : nth_error (encs ++ [Some t]) (length encs) = Some (Some t)) by (rewrite nth_error_app2, Nat.sub_diag by lia; reflexivity). rewrite N, H, Nat.eqb_refl in P. injection P as <-.
  unfold eholds. cbn [fst snd]. rewrite N, nth_error_app1, E, nth_error_upd_same by assumption. split; reflexivity.
Qed.
Print Assumptions C259_partialfit_refuted.
(* the label 5 was encoded as 1 by the original; after its clone has seen the label 3 it is 2 *)
Example C259_example : exists w w', erun ([], [None]) [EFit 0 1 [[1]; [5]]%Z; EClone 0] = Some w /\ erun w [EPartial 1 1 [[3]]%Z] = Some w' /\
  option_map (fun st => le_transform_row st [5]%Z) (eholds w 0) = Some (Some [1]%Z) /\ option_map (fun st => le_transform_row st [5]%Z) (eholds w' 0) = Some (Some [2]%Z) /\
  option_map (option_map snd) (option_map (fun st => nth_error st 0) (eholds w' 0)) <> option_map (option_map snd) (option_map (fun st => nth_error st 0) (eholds w 0)).
Proof. eexists; eexists. split; [vm_compute; reflexivity|]. split; [vm_compute; reflexivity|]. split; [vm_compute; reflexivity|]. split; [vm_compute; reflexivity|]. vm_compute. discriminate. Qed.
