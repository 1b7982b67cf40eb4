(* Properties C172-C176. *)
From Verif Require Import QCommon LabelModel MetricsModel MetricsProofs RankProofs KnnModel KnnProofs MetLawModel MetLawProofs.
Open Scope Q_scope.

(* C172: the vectors whose norm is returned bound the distances of all pairs of points, and are attained; norms 1, +Inf and
   the square of norm 2 *)
Theorem C172_rect_rect_partial : forall r o, let n := length (maxes o) in proper r n -> proper o n ->
  (forall x y, length x = n -> length y = n -> inside r x -> inside o y ->
    (norm1 (rr_min_vec r o) <= norm1 (diffv x y) <= norm1 (rr_max_vec r o)) /\
    (normi (rr_min_vec r o) <= normi (diffv x y) <= normi (rr_max_vec r o)) /\
    (norm2s (rr_min_vec r o) <= norm2s (diffv x y) <= norm2s (rr_max_vec r o))) /\
  (exists x y, length x = n /\ length y = n /\ inside r x /\ inside o y /\
    norm1 (diffv x y) == norm1 (rr_min_vec r o) /\ normi (diffv x y) == normi (rr_min_vec r o) /\ norm2s (diffv x y) == norm2s (rr_min_vec r o)) /\
  (exists x y, length x = n /\ length y = n /\ inside r x /\ inside o y /\
    norm1 (diffv x y) == norm1 (rr_max_vec r o) /\ normi (diffv x y) == normi (rr_max_vec r o) /\ norm2s (diffv x y) == norm2s (rr_max_vec r o)).
Proof.
  intros r o n Hr Ho. split; [|split; [now apply rr_min_attained|now apply rr_max_attained]].
  intros x y Lx Ly Ix Iy. destruct (rr_bounds r o x y Lx Ly Ix Iy) as ((A1 & A2 & A3) & (B1 & B2 & B3)). auto.
Qed.
Print Assumptions C172_rect_rect_partial.
Example C172_example : let r := mkrect [2; 2] [0; 0] in let o := mkrect [7; 3] [5; 1] in
  norm2s (rr_min_vec r o) == 9 /\ norm2s (rr_max_vec r o) == 58 /\ volume r == 4.
Proof. repeat split; reflexivity. Qed.
(* the volumes of the two halves of a split add up to the volume in even dimension, to minus the volume in odd dimension *)
Theorem C172_volume_refuted : forall r d s, length (mins r) = length (maxes r) -> (d < length (maxes r))%nat ->
  volume (fst (rect_split r d s)) + volume (snd (rect_split r d s)) == if Nat.even (length (maxes r)) then volume r else - volume r.
Proof.
  intros r d s L H. rewrite (split_volumes r d s L H). unfold sgn. destruct (Nat.even (length (maxes r))); ring.
Qed.
Print Assumptions C172_volume_refuted.
Example C172_volume_example : volume (mkrect [2] [0]) == 2 /\ volume (fst (rect_split (mkrect [2] [0]) 0 1)) == -1.
Proof. split; reflexivity. Qed.

(* C173: without weights, output j *)
Theorem C173_errors : forall yt yp j, length yt = length yp -> yt <> [] ->
  (exists e a, mse None yt yp j = Some e /\ mae None yt yp j = Some a /\ 0 <= a /\ a * a <= e /\
     (a == 0 <-> forall i, (i < length yt)%nat -> nth j (nth i yp []) 0 == nth j (nth i yt []) 0) /\
     (e == 0 <-> forall i, (i < length yt)%nat -> nth j (nth i yp []) 0 == nth j (nth i yt []) 0)) /\
  (exists e e', mse None yt yp j = Some e /\ mse None yp yt j = Some e' /\ e' == e) /\
  (exists a a', mae None yt yp j = Some a /\ mae None yp yt j = Some a' /\ a' == a) /\
  (forall yz, length yt = length yz ->
     exists a b c, mae None yt yp j = Some a /\ mae None yp yz j = Some b /\ mae None yt yz j = Some c /\ c <= a + b).
Proof.
  intros yt yp j L N. split; [now apply reg_laws|]. split; [apply reg_sym; auto; [intros d d' E; now rewrite E|intros; ring]|].
  split; [apply reg_sym; auto; [intros d d' E; now rewrite E|intros; apply Qabs_opp]|]. intros yz Lz. now apply mae_triangle.
Qed.
Print Assumptions C173_errors.
Example C173_example : exists e a, mse None [[3]; [-(1#2)]; [2]; [7]] [[5#2]; [0]; [2]; [8]] 0 = Some e /\ mae None [[3]; [-(1#2)]; [2]; [7]] [[5#2]; [0]; [2]; [8]] 0 = Some a /\
  e == 3 # 8 /\ a == 1 # 2.
Proof. do 2 eexists. split; [vm_compute; reflexivity|]. split; [vm_compute; reflexivity|]. split; reflexivity. Qed.

(* C174: samples are ((true, predicted), weight) *)
Theorem C174_units_partial : forall a b s, ~ a == 0 -> ~ qsum (map snd s) == 0 ->
  let s' := map (fun x => ((a * fst (fst x) + b, a * snd (fst x) + b), snd x)) s in
  let avg := (1 / qsum (map snd s)) * qsum (map (fun x => snd x * fst (fst x)) s) in
  let den := qsum (map (fun x => snd x * ((fst (fst x) - avg) * (fst (fst x) - avg))) s) in
  (1 # 100000000000000000000) <= den -> (1 # 100000000000000000000) <= a * a * den -> r2_raw s' == r2_raw s.
Proof. intros a b s Ha Hs s' avg den H1 H2. now apply r2_affine. Qed.
Print Assumptions C174_units_partial.
Example C174_example : r2_raw [(0, 1, 1); (1, 0, 1); (5, 4, 1)] == r2_raw [(32, 338#10, 1); (338#10, 32, 1); (41, 392#10, 1)].
Proof. vm_compute. reflexivity. Qed.
(* predictions that score -3 score 49/50 in units 10^11 times larger *)
Theorem C174_units_refuted : exists a s, 0 < a /\ r2_raw s == -3 /\ r2_raw (map (fun x => ((a * fst (fst x), a * snd (fst x)), snd x)) s) == 49 # 50.
Proof. exists (1 # 100000000000), [(0, 1, 1); (1, 0, 1)]. vm_compute. repeat split; reflexivity. Qed.
Print Assumptions C174_units_refuted.

(* C175: samples are ((true, predicted), weight); exchanging truth and prediction transposes the confusion matrix and exchanges
   precision and recall of every class *)
Theorem C175_exchange : forall s : list (Z * Z * Q), s <> [] ->
  (forall v, In v (map (fun x => fst (fst x)) s) <-> In v (map (fun x => snd (fst x)) s)) ->
  let s' := map (fun x => ((snd (fst x), fst (fst x)), snd x)) s in
  exists (c : list Z) cm cm', confusion (Some (map snd s)) 1 (map (fun x => ([fst (fst x)], [snd (fst x)])) s) = Some (length c, cm) /\
    confusion (Some (map snd s')) 1 (map (fun x => ([fst (fst x)], [snd (fst x)])) s') = Some (length c, cm') /\
    (forall i j, (i < length c)%nat -> (j < length c)%nat -> nth (i * length c + j) cm' 0 == nth (j * length c + i) cm 0) /\
    (forall k, (k < length c)%nat -> let '(p, r, f) := prf_class 1 (length c) cm k in let '(p', r', f') := prf_class 1 (length c) cm' k in
       p' == r /\ r' == p /\ f' == f).
Proof. exact swap_confusion. Qed.
Print Assumptions C175_exchange.
Theorem C175_between : forall beta K cm k, (forall i j, (i < K)%nat -> (j < K)%nat -> 0 <= nth (i * K + j) cm 0) -> (k < K)%nat ->
  let '(p, r, f) := prf_class beta K cm k in (p <= r -> p <= f <= r) /\ (r <= p -> r <= f <= p).
Proof.
  intros beta K cm k H Hk. pose proof (class_between beta K cm k H Hk) as B. destruct (prf_class beta K cm k) as [[p r] f]. split; intros; qm; lra.
Qed.
Print Assumptions C175_between.
Example C175_example : exists cm cm', confusion None 1 [([5],[5]); ([5],[7]); ([7],[7]); ([7],[7]); ([7],[5])]%Z = Some (2%nat, cm) /\
  confusion None 1 [([5],[5]); ([7],[5]); ([7],[7]); ([7],[7]); ([5],[7])]%Z = Some (2%nat, cm') /\
  (let '(p, r, f) := prf_class 1 2 cm 0 in p == 1 # 2 /\ r == 1 # 2 /\ f == 1 # 2) /\
  exists cm3, confusion None 1 [([5],[5]); ([5],[7]); ([7],[7]); ([7],[7])]%Z = Some (2%nat, cm3) /\ (let '(p, r, f) := prf_class 1 2 cm3 1 in p == 2 # 3 /\ r == 1 /\ f == 4 # 5).
Proof. do 2 eexists. split; [vm_compute; reflexivity|]. split; [vm_compute; reflexivity|]. split; [vm_compute; repeat split; reflexivity|]. eexists. split; [vm_compute; reflexivity|]. vm_compute. repeat split; reflexivity. Qed.

(* C176 *)
Theorem C176_auc : forall labels wt sc idx,
  let n := length labels in let pos i := Z.eqb (nth i labels 0%Z) 1 in
  length sc = n -> Permutation idx (seq 0 n) -> StronglySorted (fun i j => nth j sc 0 <= nth i sc 0) idx ->
  (forall i, (i < n)%nat -> 0 < weight wt i) -> (exists i, (i < n)%nat /\ pos i = true) -> (exists i, (i < n)%nat /\ pos i = false) ->
  exists a, roc_auc_binary labels wt sc idx = Some a /\
    (a == 1 <-> forall i j, (i < n)%nat -> (j < n)%nat -> pos i = false -> pos j = true -> nth i sc 0 < nth j sc 0) /\
    (forall idx', Permutation idx' (seq 0 n) -> StronglySorted (fun i j => nth j (map Qopp sc) 0 <= nth i (map Qopp sc) 0) idx' ->
       exists a', roc_auc_binary labels wt (map Qopp sc) idx' = Some a' /\ a' == 1 - a).
Proof.
  intros labels wt sc idx n pos H1 H2 H3 H4 (i1 & I1 & P1) (i0 & I0 & P0).
  assert (W: forall i, (i < n)%nat -> 0 <= weight wt i) by (intros i Hi; specialize (H4 i Hi); lra).
  assert (HT: 0 < Ts (ispos labels 1) (weight wt) (seq 0 n)).
  { apply Qlt_le_trans with (weight wt i1); [now apply H4|]. pose proof (qsum_member (fun i => if ispos labels 1 i then weight wt i else 0) (seq 0 n) i1) as M. cbv beta in M. change (ispos labels 1 i1) with (pos i1) in M. rewrite P1 in M.
    apply M; [|apply in_seq; lia]. intros x Hx. apply in_seq in Hx. destruct (ispos labels 1 x); [apply W; lia|lra]. }
  assert (HF: 0 < Fs (ispos labels 1) (weight wt) (seq 0 n)).
  { apply Qlt_le_trans with (weight wt i0); [now apply H4|]. pose proof (qsum_member (fun i => if ispos labels 1 i then 0 else weight wt i) (seq 0 n) i0) as M. cbv beta in M. change (ispos labels 1 i0) with (pos i0) in M. rewrite P0 in M.
    apply M; [|apply in_seq; lia]. intros x Hx. apply in_seq in Hx. destruct (ispos labels 1 x); [lra|apply W; lia]. }
  destruct (auc_formula labels wt sc idx H1 H2 H3 W HT HF) as (a & E & V). exists a. split; [exact E|].
  set (F := Fs _ _ _) in *. set (T := Ts _ _ _) in *. assert (FT: 0 < F * T) by (apply Qmult_lt_0_compat; assumption). split.
  - change pos with (ispos labels 1). rewrite <- (mwx_full sc (ispos labels 1) (weight wt) n H4). fold F T. rewrite V. split; intros X.
    + assert (Y: mwx sc (ispos labels 1) (weight wt) (seq 0 n) (seq 0 n) == mwx sc (ispos labels 1) (weight wt) (seq 0 n) (seq 0 n) / (F * T) * (F * T)) by (field; lra). apply (Qeq_trans _ _ _ Y). apply (Qeq_trans _ (1 * (F * T))); [apply Qmult_comp; [exact X|reflexivity]|ring].
    + fold n. rewrite X. field. lra.
  - intros idx' P S'. destruct (auc_formula labels wt (map Qopp sc) idx') as (a' & E' & V'); auto; [now rewrite map_length|]. exists a'. split; [exact E'|].
    rewrite V, V'. fold n. rewrite (mwx_neg sc (ispos labels 1) (weight wt) n H1). fold F T. field. lra.
Qed.
Print Assumptions C176_auc.
Example C176_example : (exists a, roc_auc_binary [0;0;1;1]%Z None [1#10; 4#10; 35#100; 8#10] [3;1;2;0]%nat = Some a /\ a == 3 # 4) /\
  (exists a, roc_auc_binary [0;0;1;1]%Z None [-(1#10); -(4#10); -(35#100); -(8#10)] [0;2;1;3]%nat = Some a /\ a == 1 # 4).
Proof. split; eexists; split; vm_compute; reflexivity. Qed.
