(* Properties of Pipeline *)
From Coq Require Import List Arith Bool Lia ZArith.
From Verif Require Import Common LabelModel PipeModel PipeProofs.
Import ListNotations.
Open Scope nat_scope.

(* C140: step i is fitted on the training data as the earlier fitted steps transform them *)
Theorem C140_fit_order : forall X Y St isT isP fit trans nout pred ss (x : X) (y : Y) ss', pfit X Y St isT isP fit trans nout pred ss x y = Some ss' ->
  length ss' = length ss /\ forall i s, nth_error ss i = Some s ->
  exists x' y' s', tsteps X Y St isT isP trans nout pred (firstn i ss') x y = Some (x', y') /\ nth_error ss' i = Some s' /\ fit s x' y' = Some s'.
Proof. exact pfit_each. Qed.
Print Assumptions C140_fit_order.
(* when the steps do not use Y to make X, Predict on the training X hands the last step the matrix that it was fitted on *)
Theorem C140_same_features : forall X Y St isT isP isI fit trans nout pred inv pre l (x : X) (y : Y) ss',
  (forall s x y y' r r', isT s = true -> trans s x y = Some r -> trans s x y' = Some r' -> fst r = fst r') ->
  pfit X Y St isT isP fit trans nout pred (pre ++ [l]) x y = Some ss' ->
  exists pre' l' x' y', ss' = pre' ++ [l'] /\ fit l x' y' = Some l' /\
  forall y0 p, isT l' = false -> ppredict X Y St isT isP isI trans nout pred inv ss' x y0 = Some p ->
    exists q, pred l' x' = Some q /\ invs Y St isI inv (rev pre') q = Some p.
Proof.
  intros X Y St isT isP isI fit trans nout pred inv pre l x y ss' HX HF. destruct (pfit_each _ _ _ _ _ _ _ _ _ _ _ _ _ HF) as [L G].
  destruct (G (length pre) l) as (x' & y' & l' & A & B & C). { rewrite nth_error_app2 by lia. now rewrite Nat.sub_diag. }
  rewrite app_length in L. cbn in L. assert (E : ss' = firstn (length pre) ss' ++ [l']).
  { rewrite <- (firstn_skipn (length pre) ss') at 1. f_equal. rewrite <- (firstn_skipn (length pre) ss'), nth_error_app2 in B by (rewrite firstn_length; lia).
    rewrite firstn_length, Nat.min_l, Nat.sub_diag in B by lia. destruct (skipn (length pre) ss') as [|a [|b q]] eqn:K; cbn in B; [discriminate|congruence|].
    assert (length (skipn (length pre) ss') = 1) by (rewrite skipn_length; lia). rewrite K in H. discriminate. }
  exists (firstn (length pre) ss'), l', x', y'. split; [exact E|]. split; [exact C|]. intros y0 p HL' HP. rewrite E in HP. unfold ppredict in HP.
  rewrite tsteps_app in HP. rewrite removelast_last in HP. destruct (tsteps X Y St isT isP trans nout pred (firstn (length pre) ss') x y0) as [[x2 y2]|] eqn:T; [|discriminate].
  assert (EX : x2 = x').
  { change x2 with (fst (x2, y2)). change x' with (fst (x', y')). refine (tsteps_x _ _ _ _ _ _ _ _ _ _ x y0 y (x2, y2) (x', y') T A). intros s _ a b b' r r' P Q. unfold tstep in P, Q.
    destruct (isT s) eqn:ET; [eauto|]. destruct (isP s); [|discriminate]. destruct (Nat.eqb (nout s) 0); [discriminate|]. destruct (pred s a); [|discriminate]. cbn in *. congruence. }
  subst x2. cbn [tsteps] in HP. unfold tstep in HP. rewrite HL' in HP. destruct (isP l'); [|discriminate]. destruct (Nat.eqb (nout l') 0); [discriminate|].
  destruct (pred l' x') as [q|]; [|discriminate]. cbn in HP. eauto.
Qed.
Print Assumptions C140_same_features.

(* C141: predictions are returned in the caller's terms: if the transformers encode Y invertibly and the last step predicts the encoded Y, Predict gives Y *)
Theorem C141_original_labels_partial : forall X Y St isT isP isI trans nout pred inv (code : St -> Y -> Y) pre l (x : X) (y y0 : Y) x',
  (forall s, In s pre -> isT s = true /\ isI s = true /\ forall z, inv s (code s z) = Some z) ->
  isT l = false -> isP l = true -> nout l <> 0 ->
  (exists z, tsteps X Y St isT isP trans nout pred pre x y0 = Some (x', z)) -> pred l x' = Some (fold_left (fun z s => code s z) pre y) ->
  ppredict X Y St isT isP isI trans nout pred inv (pre ++ [l]) x y0 = Some y.
Proof.
  intros X Y St isT isP isI trans nout pred inv code pre l x y y0 x' H HT HP HN [z T] HQ. unfold ppredict. rewrite tsteps_app, T, removelast_last. cbn [tsteps]. unfold tstep.
  rewrite HT, HP, HQ. destruct (Nat.eqb_spec (nout l) 0); [contradiction|]. cbn [option_map]. apply (invs_undo Y St isI inv code). intros s I. destruct (H s I) as (_ & A & B). auto.
Qed.
Print Assumptions C141_original_labels_partial.
(* one step before the last without an InverseTransform that stands a nil X, and Predict panics for every input *)
Theorem C141_inverse_refuted : forall X Y St isT isP isI trans nout pred inv pre l s, In s pre -> isI s = false \/ (forall y, inv s y = None) ->
  forall (x : X) (y : Y), ppredict X Y St isT isP isI trans nout pred inv (pre ++ [l]) x y = None.
Proof.
  intros X Y St isT isP isI trans nout pred inv pre l s I H x y. unfold ppredict. destruct (tsteps X Y St isT isP trans nout pred (pre ++ [l]) x y) as [[x' y']|]; [|reflexivity].
  rewrite removelast_last. apply invs_none. exists s. split; [now apply -> in_rev|exact H].
Qed.
Print Assumptions C141_inverse_refuted.
(* of the transformers of the library, exactly these six can stand before a predicter *)
Theorem C141_library_partial : forall X Y isP nout trans pred (pre : list lib) l (x : X) (y : Y) r,
  let isT := fun s : lib + nat => if s then true else false in
  let isI := fun s : lib + nat => match s with inl k => lib_isI k | inr _ => false end in
  let inv := fun (s : lib + nat) (z : Y) => match s with inl k => lib_inv k z | inr _ => None end in
  let ss := map inl pre ++ [inr l] in
  tsteps X Y _ isT isP trans nout pred ss x y = Some r ->
  ppredict X Y _ isT isP isI trans nout pred inv ss x y =
    if forallb (fun k => match k with LMinMax | LStandard | LRobust | LPoly | LPca | LImputer => true | _ => false end) pre then Some (snd r) else None.
Proof.
  intros X Y isP nout trans pred pre l x y [x' y'] isT isI inv ss H. unfold ppredict. rewrite H. unfold ss. rewrite removelast_last. cbn [snd].
  rewrite <- map_rev. replace (forallb _ pre) with (forallb (fun k => match k with LMinMax | LStandard | LRobust | LPoly | LPca | LImputer => true | _ => false end) (rev pre)).
  - generalize (rev pre). clear. induction l as [|k r IH]; [reflexivity|]. cbn [map invs forallb]. destruct k; cbn; auto.
  - clear. induction pre as [|k r IH]; [reflexivity|]. cbn [rev forallb]. rewrite forallb_app, IH. cbn. rewrite andb_true_r. apply andb_comm.
Qed.
Print Assumptions C141_library_partial.

(* C142: Score is the last step's measure of what Predict gives, when the earlier steps leave Y alone *)
Theorem C142_score_partial : forall X Y St S isT isP isI trans nout pred inv score (measure : Y -> Y -> S) pre l (x : X) (y y0 : Y) s p,
  (forall t x y r, In t pre -> isT t = true /\ (trans t x y = Some r -> snd r = y /\ forall y', trans t x y' = Some (fst r, y'))) ->
  (forall t y, In t pre -> inv t y = Some y) -> isT l = false -> (forall x y, score l x y = option_map (measure y) (pred l x)) ->
  pscore X Y St S isT isP trans nout pred score (pre ++ [l]) x y = Some s -> ppredict X Y St isT isP isI trans nout pred inv (pre ++ [l]) x y0 = Some p -> s = measure y p.
Proof.
  intros X Y St S isT isP isI trans nout pred inv score measure pre l x y y0 s p HT HI HL HS H1 H2. unfold pscore in H1. rewrite rev_unit, removelast_last in H1.
  destruct (tsteps X Y St isT isP trans nout pred pre x y) as [[x1 y1]|] eqn:T; [|discriminate]. destruct (isP l) eqn:P; [|discriminate].
  assert (G : forall y, tsteps X Y St isT isP trans nout pred pre x y = Some (x1, y)).
  { intros y'. clear H1 H2. revert x y y1 T y'. induction pre as [|t pre IH]; intros x y y1 T y'; cbn in *; [congruence|]. unfold tstep in *.
    destruct (HT t x y (x, y) (or_introl eq_refl)) as [ET _]. rewrite ET in *. destruct (trans t x y) as [[a b]|] eqn:E; [|discriminate].
    destruct (HT t x y (a, b) (or_introl eq_refl)) as [_ Q]. destruct (Q E) as [_ Q2]. rewrite (Q2 y'). cbn [fst].
    eapply IH; [intros u q w r I; apply HT; now right|intros; apply HI; now right|exact T]. }
  unfold ppredict in H2. rewrite tsteps_app, G, removelast_last in H2. cbn [tsteps] in H2. unfold tstep in H2. rewrite HL, P in H2. destruct (Nat.eqb (nout l) 0); [discriminate|].
  rewrite HS in H1. destruct (pred l x1) as [q|]; [|discriminate]. cbn in H1, H2. injection H1 as <-. f_equal.
  assert (K : forall ts q p, (forall t, In t ts -> In t pre) -> invs Y St isI inv ts q = Some p -> q = p).
  { clear -HI. induction ts as [|t ts IH]; intros q p I H; cbn in H; [congruence|]. destruct (isI t); [|discriminate]. rewrite HI in H by (apply I; now left). eapply IH; [intros; apply I; now right|exact H]. }
  eapply K; [|exact H2]. intros t. apply in_rev.
Qed.
Print Assumptions C142_score_partial.

(* A pipeline of a LabelEncoder and a classifier; X is the matrix of labels that the classifier knows, so that it is never wrong.
   The accuracy is counted in right answers. *)
Definition le_steps : list (list le_col + nat) := [inl (le_fit 1 [[10%Z]; [20%Z]]); inr 1].
Definition le_trans (s : list le_col + nat) (x y : list (list Z)) : option (list (list Z) * list (list Z)) :=
  match s with inl st => option_map (fun y' => (x, y')) (omap (le_transform_row st) y) | inr _ => None end.
Definition le_inv (s : list le_col + nat) (y : list (list Z)) : option (list (list Z)) :=
  match s with inl st => omap (fun r => match le_inverse_row st r with Some l => omap (fun o => o) l | None => None end) y | inr _ => None end.
Definition hits (y p : list (list Z)) : nat := length (filter (fun q => if list_eq_dec Z.eq_dec (fst q) (snd q) then true else false) (combine y p)).
(* all predictions are right, and the score is 0 *)
Theorem C142_labels_refuted :
  let isT := fun s : list le_col + nat => if s then true else false in let isP := fun s : list le_col + nat => if s then false else true in
  let nout := fun s : list le_col + nat => if s then 0 else 1 in let pred := fun (_ : list le_col + nat) (x : list (list Z)) => Some x in
  let y := [[10%Z]; [20%Z]; [10%Z]] in exists x,
  ppredict _ _ _ isT isP isT le_trans nout pred le_inv le_steps x y = Some y /\
  pscore _ _ _ nat isT isP le_trans nout pred (fun s x y => option_map (hits y) (pred s x)) le_steps x y = Some 0.
Proof. exists [[0%Z]; [1%Z]; [0%Z]]. split; reflexivity. Qed.
Print Assumptions C142_labels_refuted.

(* C143: a clone has as many steps, in the same order, and predicts the same as long as the clones of the steps do *)
Theorem C143_clone : forall X Y St isT isP isI trans nout pred inv cloneT cloneP ss ss',
  (forall s c, c = cloneT s \/ c = cloneP s -> isT c = isT s /\ isP c = isP s /\ isI c = isI s /\ nout c = nout s /\
    (forall (x : X) (y : Y), trans c x y = trans s x y) /\ (forall x, pred c x = pred s x) /\ (forall y, inv c y = inv s y)) ->
  pclone St isT isP cloneT cloneP ss = Some ss' ->
  length ss' = length ss /\ (forall i s, nth_error ss i = Some s -> nth_error ss' i = Some (if isT s then cloneT s else cloneP s)) /\
  forall x y, ppredict X Y St isT isP isI trans nout pred inv ss' x y = ppredict X Y St isT isP isI trans nout pred inv ss x y.
Proof.
  intros X Y St isT isP isI trans nout pred inv cloneT cloneP ss ss' H C.
  assert (E : ss' = map (fun s => if isT s then cloneT s else cloneP s) ss).
  { revert ss' C. induction ss as [|s r IH]; intros ss' C; cbn in *; [congruence|]. destruct (isT s); [|destruct (isP s); [|discriminate]]; destruct (pclone St isT isP cloneT cloneP r); try discriminate; injection C as <-; f_equal; now apply IH. }
  subst ss'. clear C. set (f := fun s => if isT s then cloneT s else cloneP s).
  assert (F : forall s, isT (f s) = isT s /\ isP (f s) = isP s /\ isI (f s) = isI s /\ nout (f s) = nout s /\ (forall x y, trans (f s) x y = trans s x y) /\ (forall x, pred (f s) x = pred s x) /\ (forall y, inv (f s) y = inv s y)).
  { intros s. apply H. unfold f. destruct (isT s); auto. }
  split; [apply map_length|]. split; [intros i s E; rewrite nth_error_map, E; reflexivity|]. intros x y. unfold ppredict.
  assert (T : tsteps X Y St isT isP trans nout pred (map f ss) x y = tsteps X Y St isT isP trans nout pred ss x y).
  { clear -F. revert x y. induction ss as [|s r IH]; intros x y; [reflexivity|]. cbn [map tsteps]. unfold tstep. destruct (F s) as (-> & -> & _ & -> & -> & -> & _).
    destruct (if isT s then _ else _) as [[a b]|]; [apply IH|reflexivity]. }
  rewrite T. destruct (tsteps X Y St isT isP trans nout pred ss x y) as [[x' y']|]; [|reflexivity].
  replace (removelast (map f ss)) with (map f (removelast ss)).
  - rewrite <- map_rev. generalize (rev (removelast ss)). intros l. clear T x'. revert y'. clear -F. induction l as [|s r IH]; intros y; [reflexivity|]. cbn [map invs]. destruct (F s) as (_ & _ & -> & _ & _ & _ & ->).
    destruct (isI s); [|reflexivity]. destruct (inv s y); [apply IH|reflexivity].
  - clear. induction ss as [|a [|b r] IH]; [reflexivity|reflexivity|]. change (f a :: map f (removelast (b :: r)) = f a :: removelast (map f (b :: r))). now rewrite IH.
Qed.
Print Assumptions C143_clone.
(* it panics exactly when a step is neither a Transformer nor a Predicter *)
Theorem C143_clone_total : forall St isT isP cloneT cloneP ss, pclone St isT isP cloneT cloneP ss = None <-> exists s, In s ss /\ isT s = false /\ isP s = false.
Proof.
  intros St isT isP cloneT cloneP ss. induction ss as [|s r IH]; cbn; [split; [discriminate|intros (s & [] & _)]|]. destruct (isT s) eqn:ET; [|destruct (isP s) eqn:EP].
  1,2: destruct (pclone St isT isP cloneT cloneP r); cbn; (split; [try discriminate; intros _; destruct (proj1 IH eq_refl) as (t & A & B); exists t; auto|]).
  1,2,3,4: intros (t & [<-|I] & A & B); try congruence; exfalso || idtac; try (assert (Some l = None) by (apply IH; eauto); discriminate); try reflexivity.
  split; [intros _; exists s; auto|reflexivity].
Qed.
Print Assumptions C143_clone_total.

(* a fitted pipeline of a LabelEncoder and a classifier that answers with the Y it was fitted on *)
Example C140_ex :
  let fit := fun (s : list le_col + nat) (x y : list (list Z)) => match s with inl _ => Some (inl (le_fit 1 y)) | inr _ => Some (inr 7) end in
  let isT := fun s : list le_col + nat => if s then true else false in let isP := fun s : list le_col + nat => if s then false else true in
  pfit _ _ _ isT isP fit le_trans (fun _ => 1) (fun _ x => Some x) [inl []; inr 0] [[5%Z]] [[20%Z]; [10%Z]; [20%Z]] = Some [inl [([10%Z; 20%Z], [2%Z; 2%Z])]; inr 7].
Proof. reflexivity. Qed.
Example C141_ex :
  let isT := fun s : list le_col + nat => if s then true else false in
  ppredict _ _ _ isT (fun s => negb (isT s)) isT le_trans (fun _ => 1) (fun _ x => Some x) le_inv le_steps [[1%Z]; [0%Z]] [[0%Z]; [0%Z]] = Some [[20%Z]; [10%Z]].
Proof. reflexivity. Qed.
