(* Lemmas about HyperModel *)
From Coq Require Import Reals ZArith List Bool String Lia Lra.
From Flocq Require Import Core.Core IEEE754.BinarySingleNaN.
From Verif Require Import FloatModel FloatProofs FloatDistProofs FloatScoreModel FloatScoreProofs FloatRegProofs HyperModel.
Import ListNotations.
Open Scope R_scope.

Lemma smem_In x l : smem x l = true <-> In x l.
Proof. unfold smem. rewrite existsb_exists. split; [intros (y & I & E); apply String.eqb_eq in E; now subst|intros I; exists x; split; [exact I|apply String.eqb_refl]]. Qed.
Lemma lt0 x : finite x = true -> flt x f0 = false <-> 0 <= val x.
Proof. intros F. pose proof (flt_val x f0 F eq_refl) as H. change (val f0) with 0 in H. destruct (flt x f0); split; intros G; try congruence; [exfalso; assert (val x < 0) by (now apply H); lra|apply Rnot_lt_le; intros C; apply H in C; discriminate C]. Qed.
Lemma le0 x : finite x = true -> fle x f0 = false <-> 0 < val x.
Proof. intros F. pose proof (fle_val x f0 F eq_refl) as H. change (val f0) with 0 in H. destruct (fle x f0); split; intros G; try congruence; [exfalso; assert (val x <= 0) by (now apply H); lra|apply Rnot_le_lt; intros C; apply H in C; discriminate C]. Qed.
Lemma ge1 x : finite x = true -> fle f1 x = false <-> val x < 1.
Proof. intros F. destruct f1_val as [V F1]. pose proof (fle_val f1 x F1 F) as H. rewrite V in H. destruct (fle f1 x); split; intros G; try congruence; [exfalso; assert (1 <= val x) by (now apply H); lra|apply Rnot_le_lt; intros C; apply H in C; discriminate C]. Qed.
Lemma gt1 x : finite x = true -> flt f1 x = false <-> val x <= 1.
Proof. intros F. destruct f1_val as [V F1]. pose proof (flt_val f1 x F1 F) as H. rewrite V in H. destruct (flt f1 x); split; intros G; try congruence; [exfalso; assert (1 < val x) by (now apply H); lra|apply Rnot_lt_le; intros C; apply H in C; discriminate C]. Qed.
Lemma step (b : bool) (w : string) r : (if b then Some w else r) = None <-> b = false /\ r = None.
Proof. destruct b; split; [discriminate|intros [H _]; discriminate H|auto|tauto]. Qed.
(* the checks, one by one *)
Lemma validate_None s : validate s = None <->
  (0 < s_max_iter s)%Z /\ flt (s_alpha s) f0 = false /\ fle (s_lr_init s) f0 = false /\ (flt f1 (s_momentum s) = false /\ flt (s_momentum s) f0 = false) /\
  (flt (s_vfrac s) f0 = false /\ fle f1 (s_vfrac s) = false) /\ (flt (s_beta1 s) f0 = false /\ fle f1 (s_beta1 s) = false) /\ (flt (s_beta2 s) f0 = false /\ fle f1 (s_beta2 s) = false) /\
  fle (s_eps s) f0 = false /\ (0 < s_nnc s)%Z /\ In (s_act s) activations /\ In (s_lr s) ["constant"; "invscaling"; "adaptive"]%string /\ In (s_solver s) ["sgd"; "adam"; "lbfgs"]%string.
Proof. unfold validate. rewrite !step, !orb_false_iff, !negb_false_iff, !smem_In, !Z.leb_gt. tauto. Qed.
