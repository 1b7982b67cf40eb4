(* Properties C22, C23, C73. *)
From Coq Require Import Qround.
From Verif Require Import QCommon ScaleModel ImputeModel ImputeProofs.
Open Scope Q_scope.

(* C22: any strides, any pattern of missing cells with at least one present
   cell per training column; [orders] are the map iteration orders used by
   stat.Mode *)
Theorem C22_imputer : forall s orders X, raw_wf X -> length orders = rcols X ->
  let col j := flat_map (fun i => match nth (i * rstride X + j) (rdata X) None with Some v => [v] | None => [] end) (seq 0 (rrows X)) in
  (forall j, (j < rcols X)%nat -> col j <> [] /\
     (s = SMostFrequent -> (forall v, In v (nth j orders []) -> In v (col j)) /\
                           (forall v, In v (col j) -> exists w, In w (nth j orders []) /\ w == v))) ->
  exists ms, imp_fit s orders (raw_cols None X) = Some ms /\ length ms = rcols X /\
    (forall j, (j < rcols X)%nat -> exists v, nth j ms None = Some v /\
       match s with
       | SMean => v * qn (length (col j)) == qsum (col j)
       | SMedian => In v (col j) /\ (1 # 2) * qn (length (col j)) <= qn (length (filter (fun x => Qle_bool x v) (col j))) /\
           (qn (length (filter (fun x => Qltb x v) (col j))) < (1 # 2) * qn (length (col j)) \/ forall x, In x (col j) -> v <= x)
       | SMostFrequent => In v (col j) /\ forall w, In w (col j) ->
           (length (filter (Qeq_bool w) (col j)) <= length (filter (Qeq_bool v) (col j)))%nat
       end) /\
    (forall Z, raw_wf Z -> rcols Z = rcols X -> exists Z', imp_transform ms Z = Some Z' /\ rrows Z' = rrows Z /\ rcols Z' = rcols Z /\
       forall i j, (i < rrows Z)%nat -> (j < rcols Z)%nat ->
         let old := nth (i * rstride Z + j) (rdata Z) None in let new := nth (i * rstride Z' + j) (rdata Z') None in
         (old <> None -> new = old) /\ (old = None -> new = nth j ms None) /\ new <> None).
Proof.
  intros s orders X W HO col H.
  assert (EC: forall j, present (map (fun i => nth (i * rstride X + j) (rdata X) None) (seq 0 (rrows X))) = col j).
  { intros j. unfold present, col. rewrite !flat_map_concat_map, map_map. reflexivity. }
  destruct (imputer_main s orders X W HO) as (ms & E & L & V & T).
  - intros j Hj. destruct (H j Hj) as (H1 & H2). split.
    + destruct (col j) as [|v l] eqn:E; [congruence|]. assert (HI: In v (col j)) by (rewrite E; now left).
      unfold col in HI. apply in_flat_map in HI. destruct HI as (i & Hi & HI). apply in_seq in Hi. 
      destruct (nth (i * rstride X + j) (rdata X) None) as [u|] eqn:E'; [|destruct HI]. exists i, u. split; [lia|exact E'].
    + intros Hs. rewrite EC. exact (H2 Hs).
  - exists ms. split; [exact E|]. split; [exact L|]. split; [|exact T].
    intros j Hj. destruct (V j Hj) as (v & Ev & Hv). rewrite EC in Hv. exists v. split; [exact Ev|]. destruct s; exact Hv.
Qed.
Print Assumptions C22_imputer.

Example C22_example :
  (* 3x2 view with stride 3; missing cells at (1,0) and (0,1) *)
  let X := mkraw 3 2 3 [Some 1; None; Some 9; None; Some 4; Some 9; Some 4; Some 6] in
  match imp_fit SMean [[]; []] (raw_cols None X) with
  | Some ms => map (option_map Qred) ms = [Some (5 # 2); Some 5] /\
      match imp_transform ms X with
      | Some X' => map (map (option_map Qred)) (raw_rows None X') = [[Some 1; Some 5]; [Some (5 # 2); Some 4]; [Some 4; Some 6]]
      | None => False end
  | None => False end.
Proof. vm_compute. split; reflexivity. Qed.

(* C23: uniform strategy *)
Theorem C23_kbins_uniform : forall nb col, (1 <= nb)%nat -> col <> [] ->
  exists edges mn mx, kb_edges_uniform nb col = Some edges /\ length edges = S nb /\
    (forall y, In y col -> mn <= y <= mx) /\ In mn col /\ In mx col /\
    nth 0 edges 0 == mn /\ nth nb edges 0 == mx /\
    (forall b, (b < nb)%nat -> nth (S b) edges 0 - nth b edges 0 == (mx - mn) / qn nb) /\
    (* the code is the only bin containing x; first and last bins are open-ended *)
    (forall x, let bin k := (k < nb)%nat /\ (k = 0%nat \/ nth k edges 0 <= x) /\ (k = (nb - 1)%nat \/ x < nth (S k) edges 0) in
       bin (kb_code nb edges x) /\ forall k, bin k -> k = kb_code nb edges x) /\
    (* re-encoding the middle of a bin gives that bin *)
    (mn < mx -> forall k, (k < nb)%nat -> kb_code nb edges ((1 # 2) * (nth k edges 0 + nth (S k) edges 0)) = k).
Proof.
  intros nb col Hn Hc. destruct (kb_uniform_main nb col Hn Hc) as (e & mn & mx & E & L & A & B & C & D & F & G & M & S).
  exists e, mn, mx. repeat (split; [assumption|]). split.
  - intros x. exact (kb_code_spec nb e x Hn L M).
  - intros Hlt k Hk. exact (kb_mid_code nb e k Hn L (S Hlt) Hk).
Qed.
Print Assumptions C23_kbins_uniform.

(* C23: rows, both encodings: InverseTransform of the encoded row is the row of
   bin middles *)
Theorem C23_kbins_rows : forall nb edges row, (1 <= nb)%nat -> length edges = length row ->
  let mids := zip (fun e x => (1 # 2) * (nth (kb_code nb e x) e 0 + nth (S (kb_code nb e x)) e 0)) edges row in
  kb_inverse_ordinal nb edges (map qn (kb_ordinal_row nb edges row)) = mids /\
  length (kb_onehot_row nb edges row) = (length row * nb)%nat /\
  (forall f b, (f < length row)%nat -> (b < nb)%nat ->
     nth (f * nb + b) (kb_onehot_row nb edges row) 0 =
     if Nat.eqb b (kb_code nb (nth f edges []) (nth f row 0)) then 1 else 0) /\
  kb_inverse_onehot nb edges (kb_onehot_row nb edges row) = mids.
Proof.
  intros nb edges row Hn HL. split; [exact (kb_ordinal_inverse nb edges row Hn HL)|]. exact (kb_onehot_main nb edges row Hn HL).
Qed.
Print Assumptions C23_kbins_rows.

(* any values given to the ordinal inverse: the bin is the floor, clamped to
   the valid bins *)
Theorem C23_kbins_inverse_any : forall nb edges row, (1 <= nb)%nat -> length edges = length row ->
  forall f, (f < length row)%nat -> exists k, (k < nb)%nat /\
    nth f (kb_inverse_ordinal nb edges row) 0 = (1 # 2) * (nth k (nth f edges []) 0 + nth (S k) (nth f edges []) 0) /\
    let x := nth f row 0 in
    (x < 0 -> k = 0%nat) /\ (qn nb <= x -> k = (nb - 1)%nat) /\ (0 <= x < qn nb -> qn k <= x < qn k + 1).
Proof. exact kb_inverse_any. Qed.
Print Assumptions C23_kbins_inverse_any.

Example C23_example :
  match kb_edges_uniform 4 [3; 1; 5] with
  | Some e => map Qred e = [1; 2; 3; 4; 5] /\ map (kb_code 4 e) [0; 1; 2; 7 # 2; 5; 9] = [0; 0; 1; 2; 3; 3]%nat /\
              kb_onehot_row 4 [e; e] [2; 9] = [0; 1; 0; 0; 0; 0; 0; 1]
  | None => False end.
Proof. vm_compute. repeat split. Qed.

(* C73: default strategy.  False: every unsorted column panics. *)
Theorem C73_kbins_quantile_unsorted_refuted : forall nb col, ~ Sorted Qle col -> kb_edges_quantile nb col = None.
Proof. exact kb_quantile_unsorted. Qed.
Print Assumptions C73_kbins_quantile_unsorted_refuted.
Theorem C73_kbins_quantile_sorted : forall nb col, (1 <= nb)%nat -> col <> [] -> Sorted Qle col ->
  exists edges, kb_edges_quantile nb col = Some edges /\ length edges = S nb /\
    forall b, (b <= nb)%nat -> let v := nth b edges 0 in let p := qn b / qn nb in
      In v col /\ p * qn (length col) <= qn (length (filter (fun x => Qle_bool x v) col)) /\
      (qn (length (filter (fun x => Qltb x v) col)) < p * qn (length col) \/ (forall x, In x col -> v <= x)).
Proof. exact kb_quantile_sorted. Qed.
Print Assumptions C73_kbins_quantile_sorted.
Example C73_example : kb_edges_quantile 2 [1; 2; 3; 4] = Some [1; 2; 4] /\ kb_edges_quantile 2 [2; 1] = None.
Proof. vm_compute. split; reflexivity. Qed.
