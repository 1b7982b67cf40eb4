(* Properties: the vote of the nearest neighbours in float64 *)
From Coq Require Import ZArith Reals List Bool Lia Lra Permutation.
From Flocq Require Import Core IEEE754.BinarySingleNaN.
From Verif Require Import FloatModel FloatProofs FloatRegProofs FloatScoreProofs FloatAffineProofs FloatNetProofs FloatKnnModel FloatKnnProofs.
Import ListNotations.

(* C262: with Weight "distance" a neighbour at any finite distance, however small or large, has a finite weight above 0; the weight never grows with the distance *)
Theorem C262_weight : forall d : f64, fle f0 d = true ->
  finite (kweight d) = true /\ fle f0 (kweight d) = true /\ (finite d = true -> flt f0 (kweight d) = true) /\ (forall d' : f64, fle d d' = true -> fle (kweight d') (kweight d) = true).
Proof.
  intros d P. apply fle0_nn in P. assert (Z : nn (kweight d)) by (apply kweight_nn; exact P). assert (K : finite (kweight d) = true).
  { destruct (finite d) eqn:F; [exact (proj1 (kweight_fin d F (nn_val _ P)))|]. destruct d as [s|s| |s m e B]; try discriminate F; [cbn in P; subst s; rewrite kweight_inf; reflexivity|destruct P]. }
  split; [exact K|]. split; [apply fle_val; [reflexivity|exact K|apply nn_val; exact Z]|]. split.
  - intros F. apply flt_val; [reflexivity|exact K|]. destruct (kweight_fin d F (nn_val _ P)) as (_ & _ & L). exact L.
  - intros d' L. apply kweight_anti; assumption.
Qed.
Print Assumptions C262_weight.

(* C262: the label that Predict writes belongs to a neighbour, and no other label has a larger total; the total of a label is the sum of the weights of its neighbours, added in float64 from the nearest on.  This holds for every order in which the runtime ranges over the map.
   Partial: the weights must not be negative or NaN and one of them must be above 0 (all of them are with C262_weight as soon as one distance is finite); which of several labels with the same total is chosen is left to the runtime *)
Theorem C262_vote_partial : forall (ord : list (Z * f64) -> list (Z * f64)) (yw : list (Z * f64)), (forall m, Permutation m (ord m)) ->
  (forall e, In e yw -> fle f0 (snd e) = true) -> (exists e, In e yw /\ flt f0 (snd e) = true) ->
  let ws c := map snd (filter (fun e => Z.eqb (fst e) c) yw) in
  exists (w : f64) (r : list f64), ws (kvote ord yw) = w :: r /\ forall c (w' : f64) (r' : list f64), ws c = w' :: r' -> fle (fold_left fadd r' w') (fold_left fadd r w) = true.
Proof.
  intros ord yw Po H E ws. destruct (vote_spec ord yw Po (fun e I => fle0_nn _ (H e I)) E) as (t & T & N & M). unfold total in T, M. fold (ws (kvote ord yw)) in T. destruct (ws (kvote ord yw)) as [|w r] eqn:Q; [discriminate|]. injection T as <-. exists w, r. split; [reflexivity|].
  intros c w' r' Q'. specialize (M c (fold_left fadd r' w')). fold (ws c) in M. rewrite Q' in M. destruct (M eq_refl) as [N' L]. now apply fle_nn.
Qed.
Print Assumptions C262_vote_partial.

(* C262: with uniform weights (1 per neighbour) and at most 2^53 neighbours the label is one that most neighbours have: no count is rounded *)
Theorem C262_majority : forall (ord : list (Z * f64) -> list (Z * f64)) (ys : list Z), (forall m, Permutation m (ord m)) -> ys <> [] -> (Z.of_nat (length ys) <= 2 ^ 53)%Z ->
  let v := kvote ord (map (fun y => (y, f1)) ys) in In v ys /\ forall c, (count_occ Z.eq_dec ys c <= count_occ Z.eq_dec ys v)%nat.
Proof.
  intros ord ys Po E H v. destruct f1_val as [V1 F1]. destruct (vote_spec ord (map (fun y => (y, f1)) ys) Po) as (t & T & N & M).
  - intros e I. apply in_map_iff in I as (y & <- & _). cbn [snd]. apply nn_fin; [exact F1|lra].
  - destruct ys as [|y ys]; [congruence|]. exists (y, f1). split; [now left|reflexivity].
  - fold v in T. pose proof (ones_total ys v H) as O. rewrite T in O. assert (G : forall c, (count_occ Z.eq_dec ys c <= count_occ Z.eq_dec ys v)%nat).
    { intros c. pose proof (ones_total ys c H) as Oc. destruct (total (map (fun y => (y, f1)) ys) c) as [t'|] eqn:Tc; [|lia]. destruct (M c t' Tc) as [N' L]. destruct O as [Ft Vt], Oc as [Ft' Vt']. rewrite (ev_fin _ Ft), (ev_fin _ Ft'), Vt, Vt' in L. apply le_IZR in L. lia. }
    split; [|exact G]. destruct ys as [|y ys]; [congruence|]. apply (count_occ_In Z.eq_dec). specialize (G y). rewrite (count_occ_cons_eq Z.eq_dec ys eq_refl) in G. lia.
Qed.
Print Assumptions C262_majority.

(* C262 fails at infinite distances (finite coordinates whose squared difference overflows): every weight is 0, the label written is 0 whatever the labels of the neighbours are, and the probabilities are NaN *)
Theorem C262_far_refuted : forall (ord : list (Z * f64) -> list (Z * f64)) (ys : list Z), (forall m, Permutation m (ord m)) ->
  let yw := map (fun y => (y, kweight (B754_infinity false))) ys in
  kvote ord yw = 0%Z /\ forall c (w : f64) (r : list f64), map snd (filter (fun e => Z.eqb (fst e) c) yw) = w :: r -> is_nan (kproba (fold_left fadd r w) yw) = true.
Proof.
  intros ord ys Po yw. unfold yw. rewrite kweight_inf. split; [now apply zero_vote|]. intros c w r E.
  assert (Z : forall x, In x (w :: r) -> x = B754_zero false) by (intros x I; rewrite <- E in I; apply in_map_iff in I as (e & <- & I); apply filter_In in I as [I _]; apply in_map_iff in I as (y & <- & _); reflexivity).
  assert (W : fold_left fadd r w = B754_zero false). { rewrite (Z w (or_introl eq_refl)). assert (Zr : forall x, In x r -> x = B754_zero false) by (intros x I; apply Z; now right). clear -Zr. induction r as [|x r IH]; [reflexivity|]. cbn [fold_left]. rewrite (Zr x (or_introl eq_refl)). apply IH. intros v I. apply Zr. now right. }
  rewrite W. unfold kproba. rewrite map_map. cbn [snd]. rewrite zero_sum. reflexivity.
Qed.
Print Assumptions C262_far_refuted.

(* four neighbours at distances 1, 2, 2 and 4: label 7 (1 + 1/4) beats label 3 (1/2 + 1/2) with distance weights in both orders of the map; at infinite distances the answer is 0 *)
Example C262_example : let ds := [(7%Z, fint 1); (3%Z, fint 2); (3%Z, fint 2); (7%Z, fint 4)] in let yw := map (fun e => (fst e, kweight (snd e))) ds in
  kvote (fun m => m) yw = 7%Z /\ kvote (@rev _) yw = 7%Z /\ kvote (fun m => m) (map (fun e => (fst e, f1)) (tl ds)) = 3%Z /\
  finite (kweight f0) = true /\ kvote (@rev _) [(5%Z, kweight (B754_infinity false)); (6%Z, kweight (B754_infinity false))] = 0%Z.
Proof. vm_compute. repeat split; reflexivity. Qed.
