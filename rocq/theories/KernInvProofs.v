(* Proofs about KernModel and KernInvModel: translations, rotations and units. *)
From Coq Require Import Reals Lra Lia List Arith Bool.
From Verif Require Import MtModel MtProofs KernModel KernProofs KernInvModel.
Import ListNotations.
Open Scope R_scope.

(* a kernel expression that contains a WhiteKernel *)
Fixpoint has_white {A} (k : kern A) : bool :=
  match k with
  | KWhite _ _ => true
  | KConst _ _ | KRBF _ _ | KDot _ _ => false
  | KSum k1 k2 | KProd k1 k2 => has_white k1 || has_white k2
  | KExp k _ => has_white k
  end.
(* a kernel expression that contains a DotProduct *)
Fixpoint has_dot {A} (k : kern A) : bool :=
  match k with
  | KDot _ _ => true
  | KConst _ _ | KRBF _ _ | KWhite _ _ => false
  | KSum k1 k2 | KProd k1 k2 => has_dot k1 || has_dot k2
  | KExp k _ => has_dot k
  end.
(* every RBF has one length scale *)
Fixpoint isotropic {A} (k : kern A) : bool :=
  match k with
  | KRBF ls _ => Nat.eqb (length ls) 1
  | KConst _ _ | KWhite _ _ | KDot _ _ => true
  | KSum k1 k2 | KProd k1 k2 => isotropic k1 && isotropic k2
  | KExp k _ => isotropic k
  end.
(* no length scale is 0 *)
Fixpoint scales_ok (k : kern R) : Prop :=
  match k with
  | KRBF ls _ => Forall (fun l => l <> 0) ls
  | KConst _ _ | KWhite _ _ | KDot _ _ => True
  | KSum k1 k2 | KProd k1 k2 => scales_ok k1 /\ scales_ok k2
  | KExp k _ => scales_ok k
  end.
(* the kernel with every length scale multiplied *)
Fixpoint stretch (c : R) (k : kern R) : kern R :=
  match k with
  | KRBF ls bs => KRBF (map (fun l => c * l) ls) bs
  | KSum k1 k2 => KSum (stretch c k1) (stretch c k2)
  | KProd k1 k2 => KProd (stretch c k1) (stretch c k2)
  | KExp k e => KExp (stretch c k) e
  | k => k
  end.
(* both evaluations panic, or both give the same matrix *)
Definition agree (a b : option rmtx) : Prop :=
  match a, b with Some A, Some B => forall i j, A i j = B i j | None, None => True | _, _ => False end.

Section Move.
  Variables (pw : R -> R -> R) (p : nat) (X Y X' Y' : rmtx).
  (* composed kernels follow their parts *)
  Lemma agree_ops (g : kern R -> kern R) k :
    (forall k1 k2, g (KSum k1 k2) = KSum (g k1) (g k2)) -> (forall k1 k2, g (KProd k1 k2) = KProd (g k1) (g k2)) -> (forall k e, g (KExp k e) = KExp (g k) e) ->
    forall P : kern R -> Prop,
    (forall k1 k2, P (KSum k1 k2) -> P k1 /\ P k2) -> (forall k1 k2, P (KProd k1 k2) -> P k1 /\ P k2) -> (forall k e, P (KExp k e) -> P k) ->
    (forall c b, P (KConst c b) -> agree (eval pw p (g (KConst c b)) X' Y') (eval pw p (KConst c b) X Y)) ->
    (forall c b, P (KWhite c b) -> agree (eval pw p (g (KWhite c b)) X' Y') (eval pw p (KWhite c b) X Y)) ->
    (forall c b, P (KDot c b) -> agree (eval pw p (g (KDot c b)) X' Y') (eval pw p (KDot c b) X Y)) ->
    (forall c b, P (KRBF c b) -> agree (eval pw p (g (KRBF c b)) X' Y') (eval pw p (KRBF c b) X Y)) ->
    P k -> agree (eval pw p (g k) X' Y') (eval pw p k X Y).
  Proof.
    intros GS GP GE P PS PP PE HC HW HD HR. induction k as [c b|c b|ls bs|c b|k1 IH1 k2 IH2|k1 IH1 k2 IH2|k IH e]; intros HP; auto.
    - apply PS in HP as [H1 H2]. rewrite GS. cbn [eval]. specialize (IH1 H1). specialize (IH2 H2). unfold agree in *.
      destruct (eval pw p (g k1) X' Y'), (eval pw p k1 X Y), (eval pw p (g k2) X' Y'), (eval pw p k2 X Y); try tauto. intros i j. now rewrite IH1, IH2.
    - apply PP in HP as [H1 H2]. rewrite GP. cbn [eval]. specialize (IH1 H1). specialize (IH2 H2). unfold agree in *.
      destruct (eval pw p (g k1) X' Y'), (eval pw p k1 X Y), (eval pw p (g k2) X' Y'), (eval pw p k2 X Y); try tauto. intros i j. now rewrite IH1, IH2.
    - apply PE in HP. rewrite GE. cbn [eval]. specialize (IH HP). unfold agree in *.
      destruct (eval pw p (g k) X' Y'), (eval pw p k X Y); try tauto. intros i j. now rewrite IH.
  Qed.
End Move.

Lemma rbf_scale_some p ls x y : rbf_scale p ls x = None <-> rbf_scale p ls y = None.
Proof. unfold rbf_scale. destruct ls as [|l [|l2 ls]]; [destruct (Nat.eqb _ _)| |destruct (Nat.eqb _ _)]; split; intros; try discriminate; auto. Qed.
(* the scaled difference *)
Lemma rbf_scale_at p ls x s : rbf_scale p ls x = Some s -> forall f, s f = x f / (match ls with [l] => l | _ => nth f ls 0 end).
Proof.
  unfold rbf_scale. destruct ls as [|l [|l2 ls]].
  - destruct (Nat.eqb _ _); [|discriminate]. intros E f. injection E as <-. reflexivity.
  - intros E f. injection E as <-. reflexivity.
  - destruct (Nat.eqb _ _); [|discriminate]. intros E f. injection E as <-. reflexivity.
Qed.
Lemma eval_rbf pw p ls bs X Y : eval pw p (KRBF ls bs) X Y = None /\ (length ls <> 1%nat /\ length ls <> p) \/
  exists K, eval pw p (KRBF ls bs) X Y = Some K /\ (length ls = 1%nat \/ length ls = p) /\ forall i j, K i j = exp (- (1 / 2) * rs p (fun f => (X i f / (match ls with [l] => l | _ => nth f ls 0 end) - Y j f / (match ls with [l] => l | _ => nth f ls 0 end)) ^ 2)).
Proof.
  cbn [eval]. destruct (rbf_scale p ls (fun _ => 0)) as [s|] eqn:E.
  - right. eexists. split; [reflexivity|]. split.
    { unfold rbf_scale in E. destruct ls as [|l [|l2 ls]]; [|now left|]; destruct (Nat.eqb _ _) eqn:E2; try discriminate; right; now apply Nat.eqb_eq in E2. }
    intros i j.
    destruct (rbf_scale p ls (X i)) as [x|] eqn:EX; [|exfalso; apply (rbf_scale_some p ls (X i) (fun _ => 0)) in EX; congruence].
    destruct (rbf_scale p ls (Y j)) as [y|] eqn:EY; [|exfalso; apply (rbf_scale_some p ls (Y j) (fun _ => 0)) in EY; congruence].
    f_equal. f_equal. apply rs_ext. intros f _. rewrite (rbf_scale_at _ _ _ _ EX f), (rbf_scale_at _ _ _ _ EY f). ring.
  - left. split; [reflexivity|]. unfold rbf_scale in E. destruct ls as [|l [|l2 ls]]; [|discriminate|]; destruct (Nat.eqb _ _) eqn:E2; try discriminate;
      apply Nat.eqb_neq in E2; split; auto; cbn [length]; lia.
Qed.
Lemma agree_rbf pw p ls ls' bs X Y X' Y' : length ls' = length ls ->
  ((length ls = 1%nat \/ length ls = p) -> forall i j, rs p (fun f => (X' i f / (match ls' with [l] => l | _ => nth f ls' 0 end) - Y' j f / (match ls' with [l] => l | _ => nth f ls' 0 end)) ^ 2) =
               rs p (fun f => (X i f / (match ls with [l] => l | _ => nth f ls 0 end) - Y j f / (match ls with [l] => l | _ => nth f ls 0 end)) ^ 2)) ->
  agree (eval pw p (KRBF ls' bs) X' Y') (eval pw p (KRBF ls bs) X Y).
Proof.
  intros HL H. destruct (eval_rbf pw p ls' bs X' Y') as [[E1 N1]|(K1 & E1 & N1 & H1)], (eval_rbf pw p ls bs X Y) as [[E2 N2]|(K2 & E2 & N2 & H2)]; rewrite E1, E2; cbn [agree]; auto.
  - rewrite HL in N1. tauto.
  - rewrite HL in N1. tauto.
  - intros i j. rewrite H1, H2, H; auto.
Qed.

(* ------------------------------------------------------------------ translations *)
Lemma shift_agree pw p k X Y t : stationary k = true -> has_white k = false ->
  agree (eval pw p k (fun i f => X i f + t f) (fun j f => Y j f + t f)) (eval pw p k X Y).
Proof.
  intros HS HW. apply (agree_ops pw p X Y _ _ (fun k => k) k) with (P := fun k => stationary k = true /\ has_white k = false); auto; cbn [stationary has_white].
  - intros k1 k2 [A B]. apply andb_prop in A as [? ?]. apply orb_false_elim in B as [? ?]. auto.
  - intros k1 k2 [A B]. apply andb_prop in A as [? ?]. apply orb_false_elim in B as [? ?]. auto.
  - intros c b _. now intros i j.
  - intros c b [_ A]. discriminate.
  - intros c b [A _]. discriminate.
  - intros ls b _. apply agree_rbf; [reflexivity|]. intros _ i j. apply rs_ext. intros f _. unfold Rdiv. ring.
Qed.

(* ------------------------------------------------------------------ rotations *)
(* row i of X, turned by the p x p matrix U *)
Definition turn (p : nat) (U X : rmtx) : rmtx := fun i a => rs p (fun f => X i f * U f a).
Definition orthogonal (p : nat) (U : rmtx) : Prop := forall f g, (f < p)%nat -> (g < p)%nat -> rs p (fun a => U f a * U g a) = if Nat.eqb f g then 1 else 0.
Lemma rs_pick n f j : (j < n)%nat -> rs n (fun i => f i * (if Nat.eqb j i then 1 else 0)) = f j.
Proof.
  intros Hj. rewrite (rs_split n _ j Hj). rewrite Nat.eqb_refl. rewrite (rs_ext n _ (fun _ => 0)); [rewrite rs_zero; ring|].
  intros i _. rewrite (Nat.eqb_sym j i). destruct (Nat.eqb i j); ring.
Qed.
Lemma rs_prod n m f g : rs n f * rs m g = rs n (fun i => rs m (fun j => f i * g j)).
Proof.
  rewrite Rmult_comm, <- rs_scale. apply rs_ext. intros i _. now rewrite rs_scale, Rmult_comm.
Qed.
Lemma turn_dot p U x y : orthogonal p U -> rs p (fun a => rs p (fun f => x f * U f a) * rs p (fun g => y g * U g a)) = rs p (fun f => x f * y f).
Proof.
  intros HU. rewrite (rs_ext p _ (fun a => rs p (fun f => rs p (fun g => x f * U f a * (y g * U g a))))) by (intros; apply rs_prod).
  rewrite rs_swap. apply rs_ext. intros f Hf. rewrite rs_swap.
  rewrite (rs_ext p _ (fun g => x f * y g * (if Nat.eqb f g then 1 else 0))).
  { rewrite (rs_pick p (fun g => x f * y g) f Hf). reflexivity. }
  intros g Hg. rewrite (rs_ext p _ (fun a => x f * y g * (U f a * U g a))) by (intros; ring). rewrite rs_scale, HU; auto.
Qed.
Lemma turn_sq p U x y : orthogonal p U -> rs p (fun a => (rs p (fun f => x f * U f a) - rs p (fun f => y f * U f a)) ^ 2) = rs p (fun f => (x f - y f) ^ 2).
Proof.
  intros HU. rewrite (rs_ext p (fun f => (x f - y f) ^ 2) (fun f => (x f - y f) * (x f - y f))) by (intros; ring).
  rewrite <- (turn_dot p U (fun f => x f - y f) (fun f => x f - y f) HU). apply rs_ext. intros a _.
  rewrite (rs_ext p (fun f => (x f - y f) * U f a) (fun f => x f * U f a - y f * U f a)) by (intros; ring). rewrite rs_minus. ring.
Qed.
Lemma turn_agree pw p k X Y U : orthogonal p U -> isotropic k = true -> has_white k = false ->
  agree (eval pw p k (turn p U X) (turn p U Y)) (eval pw p k X Y).
Proof.
  intros HU HI HW. apply (agree_ops pw p X Y _ _ (fun k => k) k) with (P := fun k => isotropic k = true /\ has_white k = false); auto; cbn [isotropic has_white].
  - intros k1 k2 [A B]. apply andb_prop in A as [? ?]. apply orb_false_elim in B as [? ?]. auto.
  - intros k1 k2 [A B]. apply andb_prop in A as [? ?]. apply orb_false_elim in B as [? ?]. auto.
  - intros c b _. now intros i j.
  - intros c b [_ A]. discriminate.
  - intros c b _. cbn [eval agree]. intros i j. unfold turn. now rewrite turn_dot.
  - intros ls b [A _]. apply Nat.eqb_eq in A. destruct ls as [|l [|]]; try discriminate. apply agree_rbf; [reflexivity|]. intros _ i j.
    unfold turn. rewrite (rs_ext p _ (fun f => / l ^ 2 * (rs p (fun g => X i g * U g f) - rs p (fun g => Y j g * U g f)) ^ 2)).
    2:{ intros f _. unfold Rdiv. rewrite <- (pow_inv l 2). ring. }
    rewrite rs_scale, turn_sq by exact HU. rewrite <- rs_scale. apply rs_ext. intros f _. unfold Rdiv. rewrite <- (pow_inv l 2). ring.
Qed.

(* ------------------------------------------------------------------ units *)
Lemma stretch_agree pw p k X Y c : c <> 0 -> scales_ok k -> has_dot k = false -> has_white k = false ->
  agree (eval pw p (stretch c k) (fun i f => c * X i f) (fun j f => c * Y j f)) (eval pw p k X Y).
Proof.
  intros Hc HK HD HW. apply (agree_ops pw p X Y _ _ (stretch c) k) with (P := fun k => has_dot k = false /\ has_white k = false /\ scales_ok k); auto; cbn [has_dot has_white stretch scales_ok].
  - intros k1 k2 [A [B C]]. apply orb_false_elim in A as [? ?]. apply orb_false_elim in B as [? ?]. destruct C. auto.
  - intros k1 k2 [A [B C]]. apply orb_false_elim in A as [? ?]. apply orb_false_elim in B as [? ?]. destruct C. auto.
  - intros a b _. now intros i j.
  - intros a b [_ [A _]]. discriminate.
  - intros a b [A _]. discriminate.
  - intros ls b [_ [_ HN]]. apply agree_rbf; [apply map_length|]. intros HL i j. apply rs_ext. intros f Hf.
    assert (E : forall l x, l <> 0 -> c * x / (c * l) = x / l) by (intros l x N; field; auto).
    destruct ls as [|l [|l2 ls]]; cbn [map].
    + destruct HL as [HL|HL]; cbn in HL; lia.
    + inversion HN; subst. now rewrite !E.
    + destruct HL as [HL|HL]; [discriminate HL|].
      assert (Nf : nth f (l :: l2 :: ls) 0 <> 0) by (rewrite Forall_forall in HN; apply HN, nth_In; lia). cbn [length] in HL.
      replace (nth f (c * l :: c * l2 :: map (fun l0 => c * l0) ls) 0) with (c * nth f (l :: l2 :: ls) 0); [now rewrite !E|].
      change (c * l :: c * l2 :: map (fun l0 => c * l0) ls) with (map (fun l0 => c * l0) (l :: l2 :: ls)).
      rewrite (nth_indep (map (fun l0 => c * l0) (l :: l2 :: ls)) 0 (c * 0)) by (rewrite map_length; cbn [length]; lia). now rewrite map_nth.
Qed.
