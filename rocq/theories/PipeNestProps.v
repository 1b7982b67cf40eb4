(* Properties C238, C239: a Pipeline seen from outside and as a step of another *)
From Coq Require Import List Arith Bool Lia ZArith.
From Verif Require Import PipeModel PipeProofs PipeNestModel PipeNestProofs.
Import ListNotations.
Open Scope nat_scope.

(* C238: IsClassifier and GetNOutputs are those of the last step; GetNOutputs panics when it is a mere transformer *)
Theorem C238_last_step : forall St isP clf nout pre (l : St),
  pclf St isP clf (pre ++ [l]) = (isP l && clf l)%bool /\
  (isP l = true -> pnout St isP nout (pre ++ [l]) = Some (nout l)) /\ (isP l = false -> pnout St isP nout (pre ++ [l]) = None) /\
  pclf St isP clf [] = false /\ pnout St isP nout [] = Some 0.
Proof.
  intros St isP clf nout pre l. unfold pclf, pnout. rewrite rev_app_distr. cbn. split; [now destruct (isP l)|]. split; [intros ->; reflexivity|]. split; [intros ->; reflexivity|]. auto.
Qed.
Print Assumptions C238_last_step.
(* Transform hands back the X it is given, whatever the steps do, and as Y the prediction *)
Theorem C238_transform_refuted : forall X Y St isT isP isI trans nout pred inv blank into n ss (x xo : X) (yo : Y),
  ptransform X Y St isT isP isI trans nout pred inv blank into n ss x = Some (xo, yo) ->
  xo = x /\ exists p, ppredict X Y St isT isP isI trans nout pred inv ss x (blank x n) = Some p /\ into (blank x n) p = Some yo.
Proof.
  intros X Y St isT isP isI trans nout pred inv blank into n ss x xo yo. unfold ptransform. destruct (Nat.eqb n 0); [discriminate|].
  destruct (ppredict X Y St isT isP isI trans nout pred inv ss x (blank x n)) as [p|]; [|discriminate]. destruct (into (blank x n) p) as [q|] eqn:E; [|discriminate].
  intros [= <- <-]. split; [reflexivity|]. exists p. auto.
Qed.
Print Assumptions C238_transform_refuted.
(* FitTransform is Fit followed by Transform with the number of columns of Y; before Fit, NOutputs is 0 and Transform panics *)
Theorem C238_fit_transform : forall X Y St isT isP isI fit trans nout pred inv blank into cols ss (x : X) (y : Y),
  (forall r, pfit_transform X Y St isT isP isI fit trans nout pred inv blank into cols ss x y = Some r <->
    exists ss', pfit X Y St isT isP fit trans nout pred ss x y = Some ss' /\ ptransform X Y St isT isP isI trans nout pred inv blank into (cols y) ss' x = Some r) /\
  ptransform X Y St isT isP isI trans nout pred inv blank into 0 ss x = None.
Proof.
  intros X Y St isT isP isI fit trans nout pred inv blank into cols ss x y. split; [|reflexivity]. intros r. unfold pfit_transform.
  destruct (pfit X Y St isT isP fit trans nout pred ss x y) as [l|]; split; [eauto|intros (s & E & H); congruence|discriminate|intros (s & E & _); discriminate].
Qed.
Print Assumptions C238_fit_transform.
(* a pipeline of transformers alone cannot transform: without steps that undo Y, Transform panics, and as a step of another pipeline it always does *)
Theorem C238_transformers_refuted : forall X Y St isT isP isI trans nout pred inv blank into pre (l : St), isP l = false ->
  forall (x : X) (y : Y), tstep X Y (nst St) (n_isT St isT) (n_isP St isP) (n_trans X Y St trans) (n_nout St isP nout)
    (n_pred X Y St isT isP isI trans nout pred inv blank into) (inr (pre ++ [l])) x y = None.
Proof. intros X Y St isT isP isI trans nout pred inv blank into pre l H x y. unfold tstep. cbn. unfold pnout. rewrite rev_app_distr. cbn. now rewrite H. Qed.
Print Assumptions C238_transformers_refuted.
Example C238_example :
  let isT := fun s : nat + nat => if s then true else false in let isP := fun s => negb (isT s) in
  let trans := fun (s : nat + nat) (x y : list nat) => Some (map (plus 10) x, y) in
  ptransform _ _ _ isT isP isT trans (fun _ => 1) (fun _ x => Some (map (mult 2) x)) (fun _ y => Some y) (fun x n => map (fun _ => 0) x) (fun _ p => Some p) 1 [inl 0; inr 0] [1; 2] = Some ([1; 2], [22; 24]).
Proof. reflexivity. Qed.

(* C239: a pipeline as the last step of a pipeline is fitted as if its steps stood there themselves *)
Theorem C239_fit : forall X Y St isT isP isI fit trans nout pred inv blank into pre ss (x : X) (y : Y), ss <> [] ->
  pfit X Y (nst St) (n_isT St isT) (n_isP St isP) (n_fit X Y St isT isP fit trans nout pred) (n_trans X Y St trans) (n_nout St isP nout)
      (n_pred X Y St isT isP isI trans nout pred inv blank into) (map inl pre ++ [inr ss]) x y =
  option_map (fun l => map inl (firstn (length pre) l) ++ [inr (skipn (length pre) l)]) (pfit X Y St isT isP fit trans nout pred (pre ++ ss) x y).
Proof. intros. now apply Npfit_flat. Qed.
Print Assumptions C239_fit.
(* and predicts the same, when transformers do not use Y to make X and the prediction fits the matrix made for it *)
Theorem C239_predict_partial : forall X Y St isT isP isI trans nout pred inv blank into pre ss (l : St) (x : X) (y : Y),
  (forall s x y y', isT s = true -> option_map fst (trans s x y) = option_map fst (trans s x y')) ->
  isT l = false -> isP l = true -> nout l <> 0 ->
  (forall x p, ppredict X Y St isT isP isI trans nout pred inv (ss ++ [l]) x (blank x (nout l)) = Some p -> into (blank x (nout l)) p = Some p) ->
  ppredict X Y (nst St) (n_isT St isT) (n_isP St isP) (n_isI St isI) (n_trans X Y St trans) (n_nout St isP nout) (n_pred X Y St isT isP isI trans nout pred inv blank into)
    (n_inv Y St inv) (map inl pre ++ [inr (ss ++ [l])]) x y =
  ppredict X Y St isT isP isI trans nout pred inv (pre ++ ss ++ [l]) x y.
Proof. intros. now apply Nppredict_flat. Qed.
Print Assumptions C239_predict_partial.
(* anywhere but last it makes Predict panic *)
Theorem C239_middle_refuted : forall X Y St isT isP isI trans nout pred inv blank into pre ss post (l : nst St) (x : X) (y : Y),
  ppredict X Y (nst St) (n_isT St isT) (n_isP St isP) (n_isI St isI) (n_trans X Y St trans) (n_nout St isP nout) (n_pred X Y St isT isP isI trans nout pred inv blank into)
    (n_inv Y St inv) ((pre ++ inr ss :: post) ++ [l]) x y = None.
Proof.
  intros. unfold ppredict. destruct (tsteps _ _ _ _ _ _ _ _ _ x y) as [[x' y']|]; [|reflexivity]. rewrite removelast_last. apply invs_none. exists (inr ss).
  split; [apply -> in_rev; apply in_or_app; right; now left|now left].
Qed.
Print Assumptions C239_middle_refuted.
(* a decoder whose output is wider than the inner prediction: it does not fit the matrix made for it
   (into is FromDense on a matrix with room for just its rows; only a transformer written by the user can do this) *)
Theorem C239_width_refuted : exists (blank : list Z -> nat -> list (list Z)) (into : list (list Z) -> list (list Z) -> option (list (list Z))) (isT : nat -> bool)
  (trans : nat -> list Z -> list (list Z) -> option (list Z * list (list Z))) (pred : nat -> list Z -> option (list (list Z))) (inv : nat -> list (list Z) -> option (list (list Z))) (x : list Z) (y : list (list Z)),
  (forall x n, blank x n = map (fun _ => repeat 0%Z n) x) /\ (forall d p, into d p = if forallb (fun dp => length (snd dp) <=? length (fst dp)) (combine d p) then Some (map (fun dp => snd dp ++ skipn (length (snd dp)) (fst dp)) (combine d p)) else None) /\
  ppredict _ _ _ isT (fun s => negb (isT s)) isT trans (fun _ => 1) pred inv [0; 1] x y <> None /\
  ppredict _ _ (nst nat) (n_isT nat isT) (n_isP nat (fun s => negb (isT s))) (n_isI nat isT) (n_trans _ _ nat trans) (n_nout nat (fun s => negb (isT s)) (fun _ => 1))
    (n_pred _ _ nat isT (fun s => negb (isT s)) isT trans (fun _ => 1) pred inv blank into) (n_inv _ nat inv) [inr [0; 1]] x y = None.
Proof.
  exists (fun x n => map (fun _ => repeat 0%Z n) x), (fun d p => if forallb (fun dp => length (snd dp) <=? length (fst dp)) (combine d p) then Some (map (fun dp => snd dp ++ skipn (length (snd dp)) (fst dp)) (combine d p)) else None), (fun s => s =? 0),
    (fun s x y => Some (x, y)), (fun s x => Some (map (fun v => [v]) x)), (fun s y => Some (map (fun r => r ++ r) y)), [5%Z], [[0%Z; 0%Z]]. repeat split; vm_compute; try reflexivity. discriminate.
Qed.
Print Assumptions C239_width_refuted.
Example C239_example :
  let isT := fun s => s =? 0 in let isP := fun s => negb (isT s) in let trans := fun (s : nat) (x y : list nat) => Some (map (plus 10) x, map (plus 1) y) in
  let inv := fun (s : nat) (y : list nat) => Some (map pred y) in let bl := fun (x : list nat) (n : nat) => map (fun _ => 0) x in
  ppredict _ _ (nst nat) (n_isT nat isT) (n_isP nat isP) (n_isI nat isT) (n_trans _ _ nat trans) (n_nout nat isP (fun _ => 1)) (n_pred _ _ nat isT isP isT trans (fun _ => 1) (fun _ x => Some x) inv bl (fun _ p => Some p))
    (n_inv _ nat inv) [inl 0; inl 0; inr [0; 1]] [1; 2] [0; 0] = Some [28; 29].
Proof. reflexivity. Qed.
