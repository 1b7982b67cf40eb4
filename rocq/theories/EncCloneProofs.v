(* Lemmas about EncCloneModel *)
From Coq Require Import ZArith List Arith Bool Lia.
From Verif Require Import Common LabelModel EncCloneModel.
Import ListNotations.
Local Open Scope nat_scope.

(* every reference of an encoder is to a table that exists *)
Definition evalid (w : eworld) : Prop := forall i t, nth_error (snd w) i = Some (Some t) -> t < length (fst w).

Lemma new_table tabs encs j tab i : evalid (tabs, encs) -> j < length encs ->
  evalid (tabs ++ [tab], upd encs j (Some (length tabs))) /\ eholds (tabs ++ [tab], upd encs j (Some (length tabs))) j = Some tab /\
  (i <> j -> eholds (tabs ++ [tab], upd encs j (Some (length tabs))) i = eholds (tabs, encs) i).
Proof.
  intros V L. split; [|split].
  - intros k t H. cbn [fst snd] in *. rewrite app_length. cbn [length]. destruct (Nat.eq_dec j k) as [<-|N].
    + rewrite nth_error_upd_same in H by exact L. injection H as <-. lia.
    + rewrite nth_error_upd_other in H by exact N. pose proof (V k t H) as W. cbn [fst] in W. lia.
  - unfold eholds. cbn [fst snd]. rewrite nth_error_upd_same by exact L. rewrite nth_error_app2, Nat.sub_diag by lia. reflexivity.
  - intros N. unfold eholds. cbn [fst snd]. rewrite nth_error_upd_other by lia. destruct (nth_error encs i) as [[t|]|] eqn:E; [|reflexivity|reflexivity]. pose proof (V i t E) as W. cbn [fst] in W. now rewrite nth_error_app1.
Qed.
Lemma estep_valid w o w' : evalid w -> estep w o = Some w' -> evalid w'.
Proof.
  destruct w as [tabs encs]. intros V S. destruct o as [j|j c rows|j c rows]; cbn [estep] in S; destruct (nth_error encs j) as [e|] eqn:E; try discriminate S.
  - injection S as <-. intros k t H. cbn [fst snd] in *. destruct (Nat.lt_ge_cases k (length encs)) as [L|L]; [rewrite nth_error_app1 in H by exact L; exact (V k t H)|]. rewrite nth_error_app2 in H by exact L. destruct (k - length encs) as [|[|n]]; cbn in H; try discriminate H. injection H as ->. exact (V j t E).
  - injection S as <-. apply new_table; [exact 0|exact V|apply nth_error_Some; congruence].
  - assert (L : j < length encs) by (apply nth_error_Some; congruence). destruct e as [t|]; [|injection S as <-; apply new_table; [exact 0|exact V|exact L]].
    destruct (nth_error tabs t) as [tab|]; [|injection S as <-; apply new_table; [exact 0|exact V|exact L]]. destruct (Nat.eqb _ _); injection S as <-; [|apply new_table; [exact 0|exact V|exact L]].
    intros k u H. cbn [fst snd] in *. rewrite upd_length. exact (V k u H).
Qed.
