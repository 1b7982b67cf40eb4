(* Lemmas about PcaModel *)
From Coq Require Import Reals Lra Lia List Arith.
From Verif Require Import MtModel MtProofs PcaModel.
Import ListNotations.
Open Scope R_scope.

Definition delta (i j : nat) : R := if Nat.eqb i j then 1 else 0.
Lemma rs_delta n f j : (j < n)%nat -> rs n (fun i => f i * delta i j) = f j.
Proof.
  intros H. rewrite (rs_split n _ j H). unfold delta. rewrite Nat.eqb_refl. transitivity (f j * 1 + rs n (fun _ => 0)); [|rewrite rs_zero; ring]. f_equal.
  apply rs_ext. intros i Hi. destruct (Nat.eqb i j); ring.
Qed.
Lemma rs_delta' n f j : (j < n)%nat -> rs n (fun i => f i * delta j i) = f j.
Proof. intros H. rewrite <- (rs_delta n f j H). apply rs_ext. intros i Hi. unfold delta. now rewrite Nat.eqb_sym. Qed.
Lemma rs_scale_r n c f : rs n (fun i => f i * c) = rs n f * c.
Proof. rewrite Rmult_comm, <- rs_scale. apply rs_ext. intros; ring. Qed.

(* a decomposition of an r by c matrix with r >= c *)
Record svd_of (r c : nat) (X U V : rmtx) (s : nat -> R) : Prop := {
  sv_eq : forall i j, (i < r)%nat -> (j < c)%nat -> X i j = rs c (fun k => U i k * s k * V j k);
  sv_U : forall a b, (a < c)%nat -> (b < c)%nat -> rs r (fun i => U i a * U i b) = delta a b;
  sv_V : forall a b, (a < c)%nat -> (b < c)%nat -> rs c (fun j => V j a * V j b) = delta a b;
  sv_V' : forall a b, (a < c)%nat -> (b < c)%nat -> rs c (fun k => V a k * V b k) = delta a b }.

Lemma proj_val r c X U V s : svd_of r c X U V s -> forall i a, (i < r)%nat -> (a < c)%nat -> rs c (fun j => X i j * V j a) = U i a * s a.
Proof.
  intros H i a Hi Ha. transitivity (rs c (fun j => rs c (fun k => U i k * s k * (V j k * V j a)))).
  { apply rs_ext. intros j Hj. rewrite (sv_eq _ _ _ _ _ _ H i j Hi Hj), <- rs_scale_r. apply rs_ext. intros; ring. }
  rewrite rs_swap. transitivity (rs c (fun k => U i k * s k * delta k a)).
  { apply rs_ext. intros k Hk. rewrite rs_scale. f_equal. now apply (sv_V _ _ _ _ _ _ H). }
  exact (rs_delta c (fun k => U i k * s k) a Ha).
Qed.
Lemma proj_gram r c X U V s : svd_of r c X U V s -> forall a b, (a < c)%nat -> (b < c)%nat ->
  rs r (fun i => rs c (fun j => X i j * V j a) * rs c (fun j => X i j * V j b)) = s a * s b * delta a b.
Proof.
  intros H a b Ha Hb. rewrite <- (sv_U _ _ _ _ _ _ H a b Ha Hb), <- rs_scale. apply rs_ext. intros i Hi. rewrite !(proj_val r c X U V s H) by assumption. ring.
Qed.
Lemma frob r c X U V s : svd_of r c X U V s -> rs r (fun i => rs c (fun j => X i j * X i j)) = rs c (fun k => s k * s k).
Proof.
  intros H. transitivity (rs r (fun i => rs c (fun k => (U i k * s k) * (U i k * s k)))).
  - apply rs_ext. intros i Hi. transitivity (rs c (fun j => rs c (fun k => X i j * (U i k * s k * V j k)))).
    + apply rs_ext. intros j Hj. rewrite rs_scale. now rewrite <- (sv_eq _ _ _ _ _ _ H i j Hi Hj).
    + rewrite rs_swap. apply rs_ext. intros k Hk. rewrite <- (proj_val r c X U V s H i k Hi Hk) at 2. rewrite <- rs_scale. apply rs_ext. intros; ring.
  - rewrite rs_swap. apply rs_ext. intros k Hk. transitivity (s k * s k * rs r (fun i => U i k * U i k)).
    + rewrite <- rs_scale. apply rs_ext. intros; ring.
    + rewrite (sv_U _ _ _ _ _ _ H k k Hk Hk). unfold delta. rewrite Nat.eqb_refl. ring.
Qed.

Lemma ncomp_spec f thres : forall fuel k, let m := ncomp f thres (rs k f) k fuel in
  (k <= m <= k + fuel)%nat /\ (forall j, (k <= j < m)%nat -> rs j f < thres) /\ (m = (k + fuel)%nat \/ thres <= rs m f).
Proof.
  induction fuel as [|fu IH]; intros k; cbn [ncomp].
  - split; [lia|]. split; [intros; lia|]. left. lia.
  - destruct (rltb_spec (rs k f) thres) as [H|H].
    + specialize (IH (S k)). cbn [rs] in IH. destruct IH as (A & B & C). split; [lia|]. split.
      * intros j Hj. destruct (Nat.eq_dec j k) as [->|N]; [exact H|apply B; lia].
      * destruct C as [C|C]; [left; lia|now right].
    + split; [lia|]. split; [intros; lia|]. right. lra.
Qed.
