(* Units, sample order and repeated application: properties C201-C206 *)
From Coq Require Import Qround Factorial.
From Verif Require Import QCommon ScaleModel ScaleProofs ScaleMore ImputeModel ImputeProofs PolyModel PolyProofs MetaPrepProofs.
Open Scope Q_scope.

(* C201: the unit of a feature does not change what the scalers return *)
Theorem C201_minmax : forall st n a b rows rows', rescaled_set n a b rows rows' -> rows <> [] -> (forall j, (j < n)%nat -> 0 < a j) ->
  forall row row' j, rescaled n a b row row' -> (j < n)%nat ->
    (a j == 1 \/ In row rows \/ exists r1 r2, In r1 rows /\ In r2 rows /\ ~ nth j r1 0 == nth j r2 0) ->
    nth j (mm_transform (mm_fit st rows') row') 0 == nth j (mm_transform (mm_fit st rows) row) 0.
Proof. intros st n a b rows rows' S Hne Ha. exact (mm_units st n a b rows rows' S Hne Ha). Qed.
Print Assumptions C201_minmax.
Theorem C201_maxabs : forall n st a rows rows', rescaled_set n a (fun _ => 0) rows rows' -> (forall j, (j < n)%nat -> 0 < a j) ->
  exists fin fin', ma_fit st n rows = Some fin /\ ma_fit st n rows' = Some fin' /\
  forall X X', raw_wf X -> raw_wf X' -> rcols X = n -> rcols X' = n -> rrows X' = rrows X ->
    (forall i j, (i < rrows X)%nat -> (j < n)%nat -> cell X' i j == a j * cell X i j) ->
    exists Y Y', ma_transform fin X = Some Y /\ ma_transform fin' X' = Some Y' /\
    forall i j, (i < rrows X)%nat -> (j < n)%nat -> (a j == 1 \/ exists r, In r rows /\ (cell X i j == nth j r 0 \/ ~ nth j r 0 == 0)) -> cell Y' i j == cell Y i j.
Proof. exact ma_units. Qed.
Print Assumptions C201_maxabs.
Theorem C201_standard : forall sq n st a b rows rows', rescaled_bag n a b rows rows' -> rows <> [] -> (forall j, (j < n)%nat -> 0 < a j) ->
  exists fin fin', sd_fit sq n st rows = Some fin /\ sd_fit sq n st rows' = Some fin' /\
  ((forall v, In v (sd_var fin) \/ In v (sd_var fin') -> root_at sq (if Qeq_bool v 0 then 1 else v)) ->
   forall X X', raw_wf X -> raw_wf X' -> rcols X = n -> rcols X' = n -> rrows X' = rrows X ->
    (forall i j, (i < rrows X)%nat -> (j < n)%nat -> cell X' i j == a j * cell X i j + b j) ->
    exists Y Y', sd_transform true true (sd_mean fin) (sd_scale fin) X = Some Y /\ sd_transform true true (sd_mean fin') (sd_scale fin') X' = Some Y' /\
    forall i j, (i < rrows X)%nat -> (j < n)%nat -> (a j == 1 \/ ~ nth j (sd_var fin) 0 == 0 \/ cell X i j == nth j (sd_mean fin) 0) -> cell Y' i j == cell Y i j).
Proof. exact sd_units. Qed.
Print Assumptions C201_standard.
Theorem C201_robust : forall ql qr cols cols' n a b, (0 < n)%nat -> cols <> [] -> Forall (fun c => length c = n) cols -> length cols' = length cols -> ql <= 1 -> qr <= 1 ->
  (forall j, (j < length cols)%nat -> 0 < a j /\ col_units (a j) (b j) (nth j cols []) (nth j cols' [])) ->
  exists st st', rb_fit ql qr rb_new cols = Some st /\ rb_fit ql qr rb_new cols' = Some st' /\
  forall row row', rescaled (length cols) a b row row' -> forall j, (j < length cols)%nat ->
   a j == 1 \/ (exists q1 q2, is_quantile ql (nth j cols []) q1 /\ is_quantile qr (nth j cols []) q2 /\ ~ q1 == q2) \/ nth j row 0 == nth j (rb_median st) 0 ->
   nth j (rb_transform true true (rb_median st') (rb_div st') row') 0 == nth j (rb_transform true true (rb_median st) (rb_div st) row) 0.
Proof. exact rb_units. Qed.
Print Assumptions C201_robust.
(* a shift of the data does change the output of MaxAbsScaler, which never centres *)
Theorem C201_maxabs_not_shift : exists rows rows' fin fin' X X' Y Y', rescaled_bag 1 (fun _ => 1) (fun _ => 1) rows rows' /\
  ma_fit (mkma [] [] 0) 1 rows = Some fin /\ ma_fit (mkma [] [] 0) 1 rows' = Some fin' /\ (forall i, (i < 2)%nat -> cell X' i 0 == cell X i 0 + 1) /\
  ma_transform fin X = Some Y /\ ma_transform fin' X' = Some Y' /\ ~ cell Y 0 0 == cell Y' 0 0.
Proof.
  exists [[1]; [2]], [[2]; [3]]. eexists. eexists. exists (mkraw 2 1 1 [1; 2]), (mkraw 2 1 1 [2; 3]). eexists. eexists.
  split; [|split; [vm_compute; reflexivity|split; [vm_compute; reflexivity|split; [|split; [vm_compute; reflexivity|split; [vm_compute; reflexivity|vm_compute; discriminate]]]]]].
  - exists [[1]; [2]]. split; [apply Permutation_refl|]. repeat constructor; intros [|j] Hj; try lia; vm_compute; reflexivity.
  - intros [|[|i]] Hi; try lia; vm_compute; reflexivity.
Qed.
Print Assumptions C201_maxabs_not_shift.
Example C201_ex : rescaled_bag 2 (fun _ => 9 # 5) (fun j => if Nat.eqb j 0 then 32 else 0) [[10; 1]; [30; 5]; [20; 1]] [[86; 9]; [50; 9 # 5]; [68; 9 # 5]].
Proof.
  exists [[30; 5]; [10; 1]; [20; 1]]. split; [apply perm_swap|].
  repeat constructor; intros [|[|j]] Hj; try lia; vm_compute; reflexivity.
Qed.

(* C202: the order of the samples does not change what is fitted *)
Theorem C202_minmax : forall st n rows rows', rows_ok n rows -> rows <> [] -> (forall r, In r rows <-> In r rows') ->
  forall row j, length row = n -> (j < n)%nat -> nth j (mm_transform (mm_fit st rows') row) 0 == nth j (mm_transform (mm_fit st rows) row) 0.
Proof.
  intros st n rows rows' O Hne HI row j HL Hj. unfold rows_ok in O. rewrite Forall_forall in O.
  assert (R: forall r, length r = n -> rescaled n (fun _ => 1) (fun _ => 0) r r) by (intros r Hr; split; [auto|split; [auto|intros; ring]]).
  apply (mm_units st n (fun _ => 1) (fun _ => 0) rows rows'); auto; [|intros; lra|left; reflexivity].
  split; intros r Hr; exists r; split; [apply HI; auto|apply R, O; auto|apply HI; auto|apply R, O, HI; auto].
Qed.
Print Assumptions C202_minmax.
Theorem C202_standard : forall sq n st rows rows', rows_ok n rows -> rows <> [] -> Permutation rows rows' ->
  exists fin fin', sd_fit sq n st rows = Some fin /\ sd_fit sq n st rows' = Some fin' /\ sd_seen fin' = sd_seen fin /\
  forall j, (j < n)%nat -> nth j (sd_mean fin') 0 == nth j (sd_mean fin) 0 /\ nth j (sd_var fin') 0 == nth j (sd_var fin) 0.
Proof.
  intros sq n st rows rows' O Hne P. unfold rows_ok in O.
  assert (B: rescaled_bag n (fun _ => 1) (fun _ => 0) rows rows').
  { exists rows'. split; auto. apply (Permutation_Forall P) in O. clear -O. induction O as [|r l H O IH]; constructor; auto. split; [auto|split; [auto|intros; ring]]. }
  destruct (sd_moments_units sq n st _ _ rows rows' B Hne) as (fin & fin' & E & E' & S & _ & _ & _ & _ & _ & _ & M).
  exists fin, fin'. split; [exact E|]. split; [exact E'|]. split; [exact S|]. intros j Hj. destruct (M j Hj) as (M1 & M2). split; [rewrite M1|rewrite M2]; ring.
Qed.
Print Assumptions C202_standard.
Theorem C202_robust : forall ql qr cols cols' n, (0 < n)%nat -> cols <> [] -> Forall (fun c => length c = n) cols -> ql <= 1 -> qr <= 1 ->
  Forall2 (@Permutation Q) cols cols' ->
  exists st st', rb_fit ql qr rb_new cols = Some st /\ rb_fit ql qr rb_new cols' = Some st' /\
  forall row j, length row = length cols -> (j < length cols)%nat ->
   nth j (rb_transform true true (rb_median st') (rb_div st') row) 0 == nth j (rb_transform true true (rb_median st) (rb_div st) row) 0.
Proof.
  intros ql qr cols cols' n Hn Hne HF H1 H2 P.
  destruct (rb_units ql qr cols cols' n (fun _ => 1) (fun _ => 0) Hn Hne HF) as (st & st' & E & E' & H); auto.
  - symmetry. eapply Forall2_length; eauto.
  - intros j Hj. split; [lra|]. exists (nth j cols' []). split.
    + clear -P Hj. revert j Hj. induction P as [|c c' l l' Hc P IH]; intros j Hj; cbn [length] in Hj; [lia|]. destruct j; cbn [nth]; auto. apply IH. lia.
    + generalize (nth j cols' []). intros l. induction l; constructor; auto. ring.
  - exists st, st'. split; [exact E|]. split; [exact E'|]. intros row j HL Hj. apply H; auto; [|left; reflexivity]. split; [auto|split; [auto|intros; ring]].
Qed.
Print Assumptions C202_robust.
Theorem C202_imputer : forall s o o' l l' v v', s <> SMostFrequent -> l <> [] -> Permutation l l' ->
  imp_stat s o l = Some (Some v) -> imp_stat s o' l' = Some (Some v') -> v' == v.
Proof.
  intros s o o' l l' v v' Hs Hne P E E'. rewrite (imp_stat_units s 1 0 l l' v v' o o' Hs ltac:(lra) Hne); auto; [ring|].
  exists l'. split; auto. clear. induction l'; constructor; auto. ring.
Qed.
Print Assumptions C202_imputer.
Example C202_ex : (forall r, In r [[1; 2]; [3; 4]; [1; 2]] <-> In r [[3; 4]; [1; 2]]) /\
  map Qred (mm_transform (mm_fit (mm_new 0 1) [[3; 4]; [1; 2]]) [2; 4]) = [1 # 2; 1] /\ map Qred (mm_transform (mm_fit (mm_new 0 1) [[1; 2]; [3; 4]; [1; 2]]) [2; 4]) = [1 # 2; 1].
Proof. split; [intros r; cbn [In]; tauto|]. vm_compute. auto. Qed.

(* C203: codes of KBinsDiscretizer grow with the value, whatever the edges *)
Theorem C203_monotone : forall nb edges x y, x <= y -> (kb_code nb edges x <= kb_code nb edges y)%nat.
Proof. exact kb_code_mono. Qed.
Print Assumptions C203_monotone.
(* with strategy uniform they depend neither on the unit nor on the order or multiplicity of the training values *)
Theorem C203_uniform_units : forall nb c d col col', (1 <= nb)%nat -> 0 < c -> col <> [] ->
  (forall x, In x col -> exists y, In y col' /\ y == c * x + d) -> (forall y, In y col' -> exists x, In x col /\ y == c * x + d) ->
  exists edges edges', kb_edges_uniform nb col = Some edges /\ kb_edges_uniform nb col' = Some edges' /\
  (forall b, (b <= nb)%nat -> nth b edges' 0 == c * nth b edges 0 + d) /\
  forall x x', x' == c * x + d -> kb_code nb edges' x' = kb_code nb edges x.
Proof. exact kb_uniform_units. Qed.
Print Assumptions C203_uniform_units.
(* with strategy quantile the order decides between an answer and a panic *)
Theorem C203_quantile_order_refuted : forall nb col col', (1 <= nb)%nat -> col <> [] -> Sorted Qle col -> Permutation col col' -> ~ Sorted Qle col' ->
  (exists edges, kb_edges_quantile nb col = Some edges) /\ kb_edges_quantile nb col' = None.
Proof.
  intros nb col col' Hn Hne HS P HU. split; [|now apply kb_quantile_unsorted].
  destruct (kb_quantile_sorted nb col Hn Hne HS) as (e & E & _). eauto.
Qed.
Print Assumptions C203_quantile_order_refuted.
Example C203_ex : map (kb_code 3 [0; 1; 2; 3]) [-(1); 1 # 2; 1; 3 # 2; 9] = [0; 0; 1; 1; 2]%nat /\
  kb_edges_quantile 2 [1; 2; 3] <> None /\ kb_edges_quantile 2 [2; 1; 3] = None.
Proof. repeat split; vm_compute; congruence. Qed.

(* C204: imputing a second time changes nothing *)
Theorem C204_twice : forall missing X X1, raw_wf X -> imp_transform missing X = Some X1 ->
  exists X2, imp_transform missing X1 = Some X2 /\ rrows X2 = rrows X1 /\ rcols X2 = rcols X1 /\
    forall i j, (i < rrows X1)%nat -> (j < rcols X1)%nat -> nth (i * rstride X2 + j) (rdata X2) None = nth (i * rstride X1 + j) (rdata X1) None.
Proof. exact imp_twice. Qed.
Print Assumptions C204_twice.
(* and the imputed mean and median are in the unit of the data *)
Theorem C204_units : forall s c d l l' v v' o o', s <> SMostFrequent -> 0 < c -> l <> [] -> col_units c d l l' ->
  imp_stat s o l = Some (Some v) -> imp_stat s o' l' = Some (Some v') -> v' == c * v + d.
Proof. exact imp_stat_units. Qed.
Print Assumptions C204_units.
Example C204_ex : exists v v', imp_stat SMedian [] [3; 1; 2] = Some (Some v) /\ imp_stat SMedian [] [7; 5; 3] = Some (Some v') /\ v' == 2 * v + 1 /\ v == 2.
Proof. eexists. eexists. repeat split; vm_compute; reflexivity. Qed.

(* C205: the number of columns of PolynomialFeatures *)
Open Scope nat_scope.
Theorem C205_full : forall d n, exists f0 p1 p0, (forall fuel, f0 <= fuel -> poly_fit fuel (Z.of_nat d) false true n = Some p1 /\ poly_fit fuel (Z.of_nat d) false false n = Some p0) /\
  length p1 * (fact n * fact d) = fact (n + d) /\ length p1 = S (length p0).
Proof.
  intros d n. destruct (poly_count d false n) as (f0 & p1 & p0 & H & HL & HC). exists f0, p1, p0. split; [exact H|]. split; [|exact HL]. rewrite HC. apply binom_fact.
Qed.
Print Assumptions C205_full.
Theorem C205_interaction : forall d n, exists f0 p1 p0, (forall fuel, f0 <= fuel -> poly_fit fuel (Z.of_nat d) true true n = Some p1 /\ poly_fit fuel (Z.of_nat d) true false n = Some p0) /\
  length p1 = list_sum (map (fun k => fact n / (fact k * fact (n - k))) (seq 0 (S (Nat.min d n)))) /\ length p1 = S (length p0).
Proof.
  intros d n. destruct (poly_count d true n) as (f0 & p1 & p0 & H & HL & HC). exists f0, p1, p0. split; [exact H|]. split; [|exact HL]. rewrite HC. apply binom_sum_fact.
Qed.
Print Assumptions C205_interaction.
Example C205_ex : option_map (@length _) (poly_fit 1000 2 false true 3) = Some 10 /\ option_map (@length _) (poly_fit 1000 3 true false 3) = Some 7.
Proof. vm_compute. auto. Qed.
