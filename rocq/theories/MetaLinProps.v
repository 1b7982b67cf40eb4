(* Linear models in other units and of reordered samples: properties C212-C213 *)
From Verif Require Import QCommon LinModel LinProofs LinProps MetaLinProofs.
Open Scope Q_scope.

(* C212: LinearRegression on the same samples in another order, features and targets in other units, with or without Normalize, predicts the same
   in the new units, for every row in the span of the training rows.  Solve is only assumed to solve the normal equations *)
Theorem C212_units : forall sg a b c d fit nrm nrm' solve solve' norm norm' X Y X' Y' p q old old' C b0 C' b0',
  rect X p -> rect Y q -> length Y = length X -> rect X' p -> rect Y' q -> length Y' = length X' -> converted sg p q a b c d X Y X' Y' ->
  (forall j, (j < p)%nat -> ~ a j == 0) -> (forall o, (o < q)%nat -> ~ c o == 0) ->
  (fit = false -> (forall j, (j < p)%nat -> b j == 0) /\ (forall o, (o < q)%nat -> d o == 0)) ->
  (fit = true \/ old = None /\ old' = None) ->
  solves nrm solve fit norm X Y p q -> solves nrm' solve' fit norm' X' Y' p q ->
  linreg_fit nrm solve fit norm X Y old = Some (C, b0) -> linreg_fit nrm' solve' fit norm' X' Y' old' = Some (C', b0') ->
  forall lam row row' o, (o < q)%nat -> (fit = true -> sumn (length X) lam == 1) ->
  (forall j, (j < p)%nat -> nth j row 0 == sumn (length X) (fun i => lam i * at2 X i j)) -> (forall j, (j < p)%nat -> nth j row' 0 == a j * nth j row 0 + b j) ->
  decision C' b0' row' o == c o * decision C b0 row o + d o.
Proof.
  intros sg a b c d fit nrm nrm' solve solve' norm norm' X Y X' Y' p q old old' C b0 C' b0' HX HY HL HX' HY' HL' HC Ha Hc Hf Hold S S' E E' lam row row' o Ho Hlam Hr Hr'.
  assert (Hold1: fit = true \/ old = None) by tauto. assert (Hold2: fit = true \/ old' = None) by tauto.
  destruct (linreg_shape _ _ _ _ _ _ _ _ _ _ _ HY Hold1 S E) as (LC & Z). destruct (linreg_shape _ _ _ _ _ _ _ _ _ _ _ HY' Hold2 S' E') as (LC' & Z').
  pose proof (linreg_convert sg a b c d fit nrm nrm' solve solve' norm norm' X Y X' Y' p q old old' C b0 C' b0' HX HY HL HX' HY' HL' HC Ha Hc Hf Hold S S' E E') as T.
  rewrite (decision_span C b0 X lam row o p LC Hr) by (destruct fit; [right; now apply Hlam|left; now apply Z]).
  assert (G: decision C' b0' row' o == sumn (length X) (fun i => lam i * decision C' b0' (nth (sg i) X' []) o)).
  { destruct HC as (Ln & P & EX & EY).
    rewrite (decision_span C' b0' (map (fun i => nth (sg i) X' []) (seq 0 (length X))) lam row' o p LC').
    - rewrite map_length, seq_length. apply sumn_ext. intros i Hi. rewrite (nth_indep _ [] (nth (sg 0%nat) X' [])) by (rewrite map_length, seq_length; exact Hi). rewrite (map_nth (fun i => nth (sg i) X' [])), seq_nth by exact Hi. reflexivity.
    - intros j Hj. rewrite map_length, seq_length. rewrite (Hr' j Hj), (Hr j Hj).
      rewrite (sumn_ext (length X) (fun i => lam i * at2 (map (fun i => nth (sg i) X' []) (seq 0 (length X))) i j) (fun i => a j * (lam i * at2 X i j) + b j * lam i)).
      + rewrite sumn_plus, !sumn_scale. destruct fit; [rewrite (Hlam eq_refl); ring|]. destruct (Hf eq_refl) as (B0 & _). rewrite (B0 j Hj). ring.
      + intros i Hi. unfold at2 at 1. rewrite (nth_indep (map _ _) [] (nth (sg 0%nat) X' [])) by (rewrite map_length, seq_length; exact Hi). rewrite (map_nth (fun i => nth (sg i) X' [])), seq_nth by exact Hi. cbn [plus].
        fold (at2 X' (sg i) j). rewrite (EX i j Hi Hj). ring.
    - rewrite map_length, seq_length. destruct fit; [right; now apply Hlam|left; now apply Z']. }
  rewrite G. rewrite (sumn_ext (length X) (fun i => lam i * decision C' b0' (nth (sg i) X' []) o) (fun i => c o * (lam i * decision C b0 (nth i X []) o) + d o * lam i)) by (intros i Hi; rewrite (T i o Hi Ho); ring).
  rewrite sumn_plus, !sumn_scale. destruct fit; [rewrite (Hlam eq_refl); ring|]. destruct (Hf eq_refl) as (_ & D0). rewrite (D0 o Ho). ring.
Qed.
Print Assumptions C212_units.
(* in particular for the training rows *)
Theorem C212_fitted : forall sg a b c d fit nrm nrm' solve solve' norm norm' X Y X' Y' p q old old' C b0 C' b0',
  rect X p -> rect Y q -> length Y = length X -> rect X' p -> rect Y' q -> length Y' = length X' -> converted sg p q a b c d X Y X' Y' ->
  (forall j, (j < p)%nat -> ~ a j == 0) -> (forall o, (o < q)%nat -> ~ c o == 0) ->
  (fit = false -> (forall j, (j < p)%nat -> b j == 0) /\ (forall o, (o < q)%nat -> d o == 0)) ->
  (fit = true \/ old = None /\ old' = None) ->
  solves nrm solve fit norm X Y p q -> solves nrm' solve' fit norm' X' Y' p q ->
  linreg_fit nrm solve fit norm X Y old = Some (C, b0) -> linreg_fit nrm' solve' fit norm' X' Y' old' = Some (C', b0') ->
  forall i o, (i < length X)%nat -> (o < q)%nat -> decision C' b0' (nth (sg i) X' []) o == c o * decision C b0 (nth i X []) o + d o.
Proof. exact linreg_convert. Qed.
Print Assumptions C212_fitted.
(* the samples backwards, in feature units 2x + 1 and target units 3y - 1 *)
Example C212_ex : let X := [[1]; [2]; [4]] in let Y := [[1]; [1]; [5]] in let X' := [[9]; [5]; [3]] in let Y' := [[14]; [2]; [2]] in
  converted (fun i => (2 - i)%nat) 1 1 (fun _ => 2) (fun _ => 1) (fun _ => 3) (fun _ => -(1)) X Y X' Y' /\
  solves nrm1 (fun _ _ => [[10 # 7]]) true false X Y 1 1 /\ solves nrm1 (fun _ _ => [[15 # 7]]) true false X' Y' 1 1 /\
  exists C b C' b', linreg_fit nrm1 (fun _ _ => [[10 # 7]]) true false X Y None = Some (C, b) /\ linreg_fit nrm1 (fun _ _ => [[15 # 7]]) true false X' Y' None = Some (C', b') /\
  decision C b [3] 0 == 23 # 7 /\ decision C' b' [7] 0 == 3 * (23 # 7) - 1.
Proof.
  cbv zeta. split; [|split; [|split]].
  - split; [reflexivity|]. split; [change (map (fun i => (2 - i)%nat) (seq 0 3)) with (rev (seq 0 3)); symmetry; apply Permutation_rev|].
    split; intros [|[|[|i]]] [|j] Hi Hj; cbn [length] in *; try lia; vm_compute; reflexivity.
  - split; [reflexivity|]. intros [|j] [|o] Hj Ho; try lia. vm_compute. reflexivity.
  - split; [reflexivity|]. intros [|j] [|o] Hj Ho; try lia. vm_compute. reflexivity.
  - do 4 eexists. split; [reflexivity|]. split; [reflexivity|]. split; vm_compute; reflexivity.
Qed.

(* C213: ElasticNet (and Lasso, and Ridge by coordinate descent) on reordered samples and with targets in another unit, the l1 penalty following it: every pass gives the converted coefficients,
   the same number of passes is made, and Gap and Eps are in squared target units *)
Theorem C213_units : forall nrm order e e' sg c d X X' Y Y' p coef coef' old, symmetric nrm -> ~ c == 0 -> (e_pos e = true -> 0 < c) -> rect X p -> rect X' p -> rect Y 1 -> rect Y' 1 ->
  length X' = length X -> length Y = length X -> length Y' = length X -> Permutation (map sg (seq 0 (length X))) (seq 0 (length X)) ->
  (forall i j, (i < length X)%nat -> (j < p)%nat -> at2 X' (sg i) j == at2 X i j) -> (forall i, (i < length X)%nat -> at2 Y' (sg i) 0 == c * at2 Y i 0 + d) ->
  penalties c e e' -> (e_fit e = true \/ d == 0 /\ old = None) -> (forall k j, In j (order k) -> (j < p)%nat) ->
  match coef, coef' with Some w0, Some w0' => length w0 = p /\ scaled c w0 w0' | None, None => True | _, _ => False end ->
  match enet_fit nrm order e X Y coef old, enet_fit nrm order e' X' Y' coef' old with
  | Some (C, b, gap, eps, it), Some (C', b', gap', eps', it') =>
      length C' = length C /\ (forall j, at2 C' j 0 == c * at2 C j 0) /\ nth 0 b' 0 == c * nth 0 b 0 + d /\ it' = it /\ eps' == c * c * eps /\ (e_iter e <> 0%nat -> gap' == c * c * gap)
  | None, None => True
  | _, _ => False
  end.
Proof. exact enet_units. Qed.
Print Assumptions C213_units.
(* Lasso: alpha in the unit of the target *)
Theorem C213_lasso : forall nrm order alpha fit tol it X Y Y' p c d pos norm, symmetric nrm -> 0 < c -> rect X p -> rect Y 1 -> rect Y' 1 -> length Y = length X -> length Y' = length X ->
  (forall i, (i < length X)%nat -> at2 Y' i 0 == c * at2 Y i 0 + d) -> (fit = true \/ d == 0) -> (forall k j, In j (order k) -> (j < p)%nat) ->
  match enet_fit nrm order (mkep fit norm alpha 1 tol it false pos) X Y None None, enet_fit nrm order (mkep fit norm (c * alpha) 1 tol it false pos) X Y' None None with
  | Some (C, b, _, _, n), Some (C', b', _, _, n') => n' = n /\ forall row, decision C' b' row 0 == c * decision C b row 0 + d
  | None, None => True
  | _, _ => False
  end.
Proof.
  intros nrm order alpha fit tol it X Y Y' p c d pos norm HN Hc HX HY HY' HL HL' EY Hd Ho.
  pose proof (enet_units nrm order (mkep fit norm alpha 1 tol it false pos) (mkep fit norm (c * alpha) 1 tol it false pos) (fun i => i) c d X X Y Y' p None None None HN ltac:(lra) ltac:(auto) HX HX HY HY' eq_refl HL HL') as T.
  specialize (T ltac:(rewrite map_id; reflexivity) ltac:(reflexivity) EY). specialize (T ltac:(repeat split; cbn [e_alpha e_l1]; [rewrite (Qabs_pos c) by lra; ring|ring]) ltac:(cbn [e_fit]; tauto) Ho I).
  destruct (enet_fit nrm order (mkep fit norm alpha 1 tol it false pos) X Y None None) as [[[[[C b] g] ep] n]|]; destruct (enet_fit nrm order (mkep fit norm (c * alpha) 1 tol it false pos) X Y' None None) as [[[[[C' b'] g'] ep'] n']|]; try exact T.
  destruct T as (L & A & B & N & _). split; [exact N|]. intros row. unfold decision. rewrite L, B. rewrite (sumn_ext (length C) (fun j => nth j row 0 * at2 C' j 0) (fun j => c * (nth j row 0 * at2 C j 0))) by (intros j _; rewrite (A j); ring). rewrite sumn_scale. ring.
Qed.
Print Assumptions C213_lasso.
Example C213_ex : exists C b g ep C' b' g' ep', enet_fit nrm1 (cyclic 1) (mkep true false (1 # 3) 1 (1 # 100) 5 false false) [[1]; [2]; [4]] [[1]; [1]; [5]] None None = Some (C, b, g, ep, 2%nat) /\
  enet_fit nrm1 (cyclic 1) (mkep true false 1 1 (1 # 100) 5 false false) [[4]; [2]; [1]] [[22]; [10]; [10]] None None = Some (C', b', g', ep', 2%nat) /\
  at2 C 0 0 == 17 # 14 /\ at2 C' 0 0 == 51 # 14 /\ nth 0 b' 0 == 3 * nth 0 b 0 + 7 /\ g' == 9 * g.
Proof. do 8 eexists. split; [vm_compute; reflexivity|]. split; [vm_compute; reflexivity|]. repeat split; vm_compute; reflexivity. Qed.
