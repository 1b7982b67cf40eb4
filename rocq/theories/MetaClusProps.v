(* Clusterings in other units and of reordered samples: properties C210-C211 *)
From Verif Require Import QCommon NeighModel ClusterModel KMeansProofs MetaPrepProofs MetaClusProofs.
Open Scope Q_scope.

(* C210: data multiplied by a common factor other than 0 (mirrored, if negative) give the same labels, and centroids multiplied likewise, whatever the goroutines do *)
Theorem C210_scale : forall K X X' ord ord' fuel a, let m := length (hd [] X) in (0 < K)%nat -> ~ a == 0 ->
  Forall2 (rescaled m (fun _ => a) (fun _ => 0)) X X' ->
  (forall e, Permutation (ord e) (seq 0 (length X))) -> (forall e, Permutation (ord' e) (seq 0 (length X))) ->
  forall dist, dist = euclid2 \/ dist = manhattan ->
  match km_fit dist fuel ord K X, km_fit dist fuel ord' K X' with
  | Some (C, y), Some (C', y') => y' = y /\ Forall2 (rescaled m (fun _ => a) (fun _ => 0)) C C'
  | None, None => True
  | _, _ => False
  end.
Proof.
  intros K X X' ord ord' fuel a m HK Ha HX Ho Ho' dist Hd.
  assert (P2: 0 < a * a) by (destruct (Qlt_le_dec a 0); nra). assert (P1: 0 < Qabs a) by (pose proof (Qabs_nonneg a); destruct (Qlt_le_dec 0 (Qabs a)) as [|G]; [assumption|]; exfalso; apply Ha; apply Qabs_Qle_condition in G; lra).
  destruct Hd as [->| ->].
  - exact (fit_rel euclid2 K m a (a * a) _ X X' ord ord' HK P2 (euclid2_homothetic m a _) HX Ho Ho' (fun e k Hk => or_intror (fun j Hj => Qeq_refl 0)) fuel eq_refl).
  - exact (fit_rel manhattan K m a (Qabs a) _ X X' ord ord' HK P1 (manhattan_homothetic m a _) HX Ho Ho' (fun e k Hk => or_intror (fun j Hj => Qeq_refl 0)) fuel eq_refl).
Qed.
Print Assumptions C210_scale.
(* another origin: the same, as long as no cluster loses all its samples *)
Theorem C210_shift_partial : forall K X X' ord ord' fuel a b, let m := length (hd [] X) in (0 < K)%nat -> ~ a == 0 ->
  Forall2 (rescaled m (fun _ => a) b) X X' ->
  (forall e, Permutation (ord e) (seq 0 (length X))) -> (forall e, Permutation (ord' e) (seq 0 (length X))) ->
  (forall e k, (k < K)%nat -> In k (assign euclid2 (centroids euclid2 ord K m X e) X)) ->
  match km_fit euclid2 fuel ord K X, km_fit euclid2 fuel ord' K X' with
  | Some (C, y), Some (C', y') => y' = y /\ Forall2 (rescaled m (fun _ => a) b) C C' /\
      forall x x', rescaled m (fun _ => a) b x x' -> nearest euclid2 C' x' = nearest euclid2 C x
  | None, None => True
  | _, _ => False
  end.
Proof.
  intros K X X' ord ord' fuel a b m HK Ha HX Ho Ho' Hn. assert (P2: 0 < a * a) by (destruct (Qlt_le_dec a 0); nra).
  pose proof (fit_rel euclid2 K m a (a * a) b X X' ord ord' HK P2 (euclid2_homothetic m a _) HX Ho Ho' (fun e k Hk => or_introl (Hn e k Hk)) fuel eq_refl) as R. unfold same_fit in R.
  destruct (km_fit euclid2 fuel ord K X) as [[C y]|] eqn:E; destruct (km_fit euclid2 fuel ord' K X') as [[C' y']|]; try exact R. destruct R as (A & B). split; [exact A|]. split; [exact B|].
  intros x x' Hx. apply (nearest_rel euclid2 K m a (a * a) b HK P2 (euclid2_homothetic m a _)); [|exact Hx]. split; [|exact B].
  assert (HR: forall r, In r X -> length r = length (hd [] X)) by (intros r Hr; destruct (Forall2_In_l _ _ _ _ HX Hr) as (r' & _ & (G & _)); exact G).
  destruct (fit_fixed euclid2 K X ord fuel C y (euclid2_compat K X HK) HR Ho E) as (((L & _) & _) & _). exact L.
Qed.
Print Assumptions C210_shift_partial.
Example C210_ex : exists C C', km_fit euclid2 20 (fun _ => [3; 1; 0; 2]%nat) 2 [[0;0]; [10;10]; [1;0]; [9;10]] = Some (C, [0; 1; 0; 1]%nat) /\
  km_fit euclid2 20 (fun _ => seq 0 4) 2 [[5;7]; [-15;-13]; [3;7]; [-13;-13]] = Some (C', [0; 1; 0; 1]%nat) /\
  Forall2 (rescaled 2 (fun _ => -(2)) (fun j => nth j [5; 7] 0)) C C' /\
  forall e k, (k < 2)%nat -> (e < 3)%nat -> In k (assign euclid2 (centroids euclid2 (fun _ => [3; 1; 0; 2]%nat) 2 2 [[0;0]; [10;10]; [1;0]; [9;10]] e) [[0;0]; [10;10]; [1;0]; [9;10]]).
Proof.
  do 2 eexists. split; [vm_compute; reflexivity|]. split; [vm_compute; reflexivity|]. split.
  - repeat constructor; intros [|[|j]] Hj; try lia; vm_compute; reflexivity.
  - intros [|[|[|e]]] [|[|k]] Hk He; try lia; vm_compute; tauto.
Qed.
(* an emptied cluster gets the origin as centroid, so the choice of the origin matters: these samples form two clusters, shifted by 10 they form one *)
Theorem C210_shift_refuted : exists X X', Forall2 (rescaled 1 (fun _ => 1) (fun _ => 10)) X X' /\
  forall ord ord', (forall e, Permutation (ord e) (seq 0 (length X))) -> (forall e, Permutation (ord' e) (seq 0 (length X))) ->
  exists C C', km_fit euclid2 20 ord 2 X = Some (C, [1; 1; 0]%nat) /\ km_fit euclid2 20 ord' 2 X' = Some (C', [0; 0; 0]%nat).
Proof.
  exists [[1]; [1]; [5]], [[11]; [11]; [15]]. split; [repeat constructor; intros [|j] Hj; try lia; vm_compute; reflexivity|]. intros ord ord' Ho Ho'.
  assert (G: forall (X : list (list Q)), Forall2 (rescaled (length (hd [] X)) (fun _ => 1) (fun _ => 0)) X X -> length X = 3%nat -> forall o, (forall e, Permutation (o e) (seq 0 3)) ->
    forall C y, km_fit euclid2 20 (fun _ => seq 0 3) 2 X = Some (C, y) -> exists C', km_fit euclid2 20 o 2 X = Some (C', y)).
  { intros X HX L o Hp C y E. pose proof (C210_scale 2 X X (fun _ => seq 0 3) o 20 1 ltac:(lia) ltac:(intros ?; lra) HX) as S. rewrite L in S.
    specialize (S ltac:(auto) Hp euclid2 (or_introl eq_refl)). rewrite E in S. destruct (km_fit euclid2 20 o 2 X) as [[C' y']|]; [|destruct S]. destruct S as (-> & _). eauto. }
  assert (R: forall l : list (list Q), (forall r, In r l -> length r = 1%nat) -> Forall2 (rescaled 1 (fun _ => 1) (fun _ => 0)) l l).
  { induction l as [|r l IH]; intros H; constructor; [|apply IH; intros; apply H; now right]. pose proof (H r (or_introl eq_refl)). split; [assumption|]. split; [assumption|]. intros; ring. }
  destruct (G [[1]; [1]; [5]] ltac:(apply R; cbn; intros r [<-|[<-|[<-|[]]]]; reflexivity) eq_refl ord Ho _ [1; 1; 0]%nat ltac:(vm_compute; reflexivity)) as (C & E).
  destruct (G [[11]; [11]; [15]] ltac:(apply R; cbn; intros r [<-|[<-|[<-|[]]]]; reflexivity) eq_refl ord' Ho' _ [0; 0; 0]%nat ltac:(vm_compute; reflexivity)) as (C' & E').
  exists C, C'. auto.
Qed.
Print Assumptions C210_shift_refuted.

(* C211: DBSCAN of reordered samples: the same core samples, the same noise, the same number of clusters, and core samples are together iff they were *)
Theorem C211_reordered_partial : forall ms sg w w' nbh nbh', reordered sg (w, nbh) (w', nbh') -> mutual nbh -> let n := length nbh in
  exists m m' c, dbs_fit ms dbs_new (w, nbh) = Some m /\ dbs_fit ms dbs_new (w', nbh') = Some m' /\
  let lab i := nth i (dLabels m) (-1)%Z in let lab' i := nth i (dLabels m') (-1)%Z in
  (forall i, (i < n)%nat -> (In i (dCore m) <-> In (sg i) (dCore m'))) /\
  (forall i, (i < n)%nat -> (lab i = (-1)%Z <-> lab' (sg i) = (-1)%Z)) /\
  (forall u v, In u (dCore m) -> In v (dCore m) -> (lab u = lab v <-> lab' (sg u) = lab' (sg v))) /\
  (forall l, (0 <= l < c)%Z <-> l <> (-1)%Z /\ exists i, (i < n)%nat /\ lab i = l) /\
  (forall l, (0 <= l < c)%Z <-> l <> (-1)%Z /\ exists i, (i < n)%nat /\ lab' i = l).
Proof. intros ms sg w w' nbh nbh' HR HM. exact (reorder_main ms sg w w' nbh nbh' HR HM). Qed.
Print Assumptions C211_reordered_partial.
(* a sample between two clusters goes to the one that is visited first: neighbours within 1 of -9/10, -8/10, -7/10, 0, 1, 2, 27/10, 28/10, 29/10, and the same backwards *)
Theorem C211_border_refuted : exists sg nbh m, reordered sg (None, nbh) (None, nbh) /\ mutual nbh /\
  dbs_fit 3 dbs_new (None, nbh) = Some m /\ (forall i, (i < 9)%nat -> i <> 4%nat -> In i (dCore m)) /\
  sg 4%nat = 4%nat /\ sg 3%nat = 5%nat /\
  nth 4 (dLabels m) (-1)%Z = nth 3 (dLabels m) (-1)%Z /\ nth (sg 4%nat) (dLabels m) (-1)%Z <> nth (sg 3%nat) (dLabels m) (-1)%Z.
Proof.
  exists (fun i => (8 - i)%nat), [[0;1;2;3]; [0;1;2;3]; [0;1;2;3]; [0;1;2;3;4]; [3;4;5]; [4;5;6;7;8]; [5;6;7;8]; [5;6;7;8]; [5;6;7;8]]%nat. eexists.
  split; [split; [reflexivity|split; [|split; [|exact I]]]|].
  - change (map (fun i => (8 - i)%nat) (seq 0 9)) with (rev (seq 0 9)). symmetry. apply Permutation_rev.
  - intros i Hi. cbn [snd length] in Hi. do 9 (destruct i as [|i]; [cbn; match goal with |- Permutation ?a ?b => change a with (rev b); symmetry; apply Permutation_rev end|]). lia.
  - split.
    + intros i v Hi Hv. cbn [length] in Hi. do 9 (destruct i as [|i]; [cbn in Hv; repeat (destruct Hv as [<-|Hv]; [cbn; split; [lia|tauto]|]); destruct Hv|]). lia.
    + split; [vm_compute; reflexivity|]. split; [intros i Hi H4; cbn; lia|]. repeat split; vm_compute; congruence.
Qed.
Print Assumptions C211_border_refuted.
Example C211_ex : reordered (fun i => nth i [2; 0; 1]%nat 0%nat) (None, [[0; 1]; [0; 1]; [2]]%nat) (None, [[0; 2]; [1]; [0; 2]]%nat) /\ mutual [[0; 1]; [0; 1]; [2]]%nat /\
  dbs_fit 1 dbs_new (None, [[0; 1]; [0; 1]; [2]]%nat) = Some (mkdbs [0; 0; -1]%Z [0; 1]%nat) /\ dbs_fit 1 dbs_new (None, [[0; 2]; [1]; [0; 2]]%nat) = Some (mkdbs [0; -1; 0]%Z [0; 2]%nat).
Proof.
  split; [split; [reflexivity|split; [|split; [|exact I]]]|split].
  - cbn. change [2; 0; 1]%nat with ([2] ++ [0; 1])%nat. apply (Permutation_app_comm [2]%nat [0; 1]%nat).
  - intros [|[|[|i]]] Hi; cbn in *; try lia; try reflexivity; apply perm_swap.
  - intros [|[|[|i]]] v Hi Hv; cbn in *; try lia; repeat (destruct Hv as [<-|Hv]; [split; [lia|cbn; tauto]|]); destruct Hv.
  - split; vm_compute; reflexivity.
Qed.
