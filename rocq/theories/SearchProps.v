(* Properties C216-C218: GridSearchCV and CrossValidateResult. *)
From Verif Require Import QCommon SelectModel SelectProofs SearchModel SearchProofs.
Open Scope nat_scope.

(* C216: with a source that can be cloned, every candidate is evaluated on the same splits, however many there are, however they are scheduled
   and however often Fit is called (the source of the splitter is not advanced) *)
Theorem C216_same_splits_partial : forall (St : Type) draw N (m : list St) k s, (k_shuffle k = true \/ 0 < N) -> k_clones k = true -> nth_error m (k_src k) = Some s ->
  exists rnds sps, kfold_split (k_n k) (k_shuffle k) N rnds = Some sps /\
  forall more c sched, (forall i, i < c -> kfold_nsplits (k_n k) <= count_occ Nat.eq_dec sched i) ->
    let w := all_splits St draw N c sched (m ++ more) k in firstn (length m) (fst w) = m /\ map snd (snd w) = repeat sps c.
Proof.
  intros St draw N m k s HN Hc Hs. exists (draws St draw (k_shuffle k) N s). unfold kfold_split.
  destruct (kfold_loop_total (kfold_nsplits (k_n k)) (k_shuffle k) N (kfold_nsplits (k_n k)) 0 (draws St draw (k_shuffle k) N s) HN) as (sps & ES). exists sps. split; [exact ES|]. intros more c sched HC. set (w := all_splits St draw N c sched (m ++ more) k).
  assert (Hs' : nth_error (m ++ more) (k_src k) = Some s) by (rewrite nth_error_app1; [exact Hs|apply nth_error_Some; congruence]).
  destruct (own_splits St draw N c (m ++ more) k s sched HN Hc Hs') as (A & L & H). fold w in A, L, H. split.
  - rewrite <- (firstn_all m) at 2. transitivity (firstn (length m) (firstn (length (m ++ more)) (fst w))); [rewrite firstn_firstn, Nat.min_l; [reflexivity|rewrite app_length; lia]|]. rewrite A, firstn_app, Nat.sub_diag. cbn [firstn]. apply app_nil_r.
  - apply nth_error_ext_len; [now rewrite map_length, repeat_length|]. intros i Hi. rewrite map_length, L in Hi. destruct (H i Hi) as (l & E1 & E2 & E3). specialize (HC i Hi). rewrite nth_error_map, E1. cbn [option_map snd].
    rewrite nth_error_repeat by assumption. rewrite E2, Nat.min_l in E3 by assumption. congruence.
Qed.
Print Assumptions C216_same_splits_partial.
Example C216_ex : let draw := fun (_ : bool) N s => (([(s mod N, N - 1)], s mod N), S s) in let k := mkkf 2 true 0 true in
  map snd (snd (all_splits nat draw 4 2 [0; 0; 1; 1] [0] k)) = repeat [([3; 1], [2; 0]); ([0; 3], [2; 1])] 2 /\
  map snd (snd (all_splits nat draw 4 2 [1; 0; 0; 1] [0] k)) = repeat [([3; 1], [2; 0]); ([0; 3], [2; 1])] 2 /\ fst (all_splits nat draw 4 2 [1; 0; 0; 1] [0] k) = [0; 2; 2].
Proof. vm_compute. auto. Qed.
(* a source without SourceClone is shared: two equal candidates get different splits and different scores, and which one is better
   depends on the schedule *)
Theorem C216_shared_source_refuted : exists (draw : bool -> nat -> nat -> (list (nat * nat) * nat) * nat) k (data : list Q) (ps : list Q), k_clones k = false /\ ps = [2; 2]%Q /\
  let splits := fun sched => map snd (snd (all_splits nat draw 4 2 sched [0] k)) in
  let run := fun sched => gs_choose Q Q Q (fun p _ => p) (fun p te => - (qsum (map (fun y => Qabs (y - p)) te))) false data ps (splits sched) in
  nth 0 (splits [0; 0; 1; 1]) [] <> nth 1 (splits [0; 0; 1; 1]) [] /\
  (exists g, run [0; 0; 1; 1] = Some g /\ b_index _ _ g = Some 1) /\ (exists g, run [1; 1; 0; 0] = Some g /\ b_index _ _ g = Some 0).
Proof.
  exists (fun _ N s => (([(s mod N, N - 1)], s mod N), S s)), (mkkf 2 true 0 false), [10; 9; 2; 2]%Q, [2; 2]%Q. split; [reflexivity|]. split; [reflexivity|]. cbv zeta. split; [vm_compute; discriminate|].
  split; eexists; (split; [vm_compute; reflexivity|reflexivity]).
Qed.
Print Assumptions C216_shared_source_refuted.

(* C217: what Fit reports about the candidates ps evaluated on their splits *)
Theorem C217_best_partial : forall Row Param Est fit score lower (data : list Row) (ps : list Param) splits,
  ps <> [] -> length ps = length splits -> Forall (fun sps => sps <> [] /\ Forall (fun sp => Forall (fun j => j < length data) (fst sp ++ snd sp)) sps) splits ->
  exists g b p sps fs f e s, gs_choose Row Param Est fit score lower data ps splits = Some g /\
    b_index _ _ g = Some b /\ nth_error ps b = Some p /\ nth_error splits b = Some sps /\ b_params _ _ g = Some p /\
    (* estimators and scores of its folds; BestScore is their mean, BestEstimator the estimator of the best fold *)
    Forall2 (fold_result Row Param Est fit score data p) sps fs /\ b_score _ _ g = Some (qsum (map snd fs) / qn (length fs))%Q /\
    nth_error fs f = Some (e, s) /\ b_est _ _ g = Some e /\ is_best lower (map snd fs) f s /\
    (* no candidate has a better mean, and the first of equals is taken *)
    length (b_all _ _ g) = length ps /\ (forall i p, nth_error ps i = Some p -> exists sps fs, nth_error splits i = Some sps /\ Forall2 (fold_result Row Param Est fit score data p) sps fs /\ nth_error (b_all _ _ g) i = Some (qsum (map snd fs) / qn (length fs))%Q) /\
    is_best lower (b_all _ _ g) b (qsum (map snd fs) / qn (length fs))%Q /\
    (forall Out (predict : Est -> list Row -> Out) X, gs_predict Row Param Est predict g X = Some (predict e X)).
Proof.
  intros Row Param Est fit score lower data ps splits N L H. destruct (works_total Row Param Est fit score lower data ps splits ltac:(lia) H) as (ws & E). destruct (works_spec _ _ _ _ _ _ _ _ _ _ E) as [LW HW].
  assert (NW : map fst ws <> []) by (destruct ws; [destruct ps; [congruence|discriminate]|discriminate]). destruct (best_idx_total lower _ NW) as (b & B). destruct (best_idx_spec lower _ _ B) as (s & I).
  assert (I' := I). destruct I' as (I1 & _). rewrite nth_error_map in I1. destruct (nth_error ws b) as [w|] eqn:EW; [|discriminate]. injection I1 as <-.
  assert (Hb : b < length ps) by (rewrite <- LW; apply nth_error_Some; congruence). destruct (nth_error ps b) as [p|] eqn:EP; [|apply nth_error_None in EP; lia].
  destruct (HW b p w EP EW) as (sps & ES & fs & f & t & F2 & M & NF & BF).
  assert (G : gs_choose Row Param Est fit score lower data ps splits = Some (mkfound Param Est (Some b) (Some (snd w)) (Some p) (Some (fst w)) (map fst ws))).
  { unfold gs_choose. rewrite E, B. cbv zeta. now rewrite !nth_error_map, EW, EP. }
  eexists. exists b, p, sps, fs, f, (snd w), t. split; [exact G|]. cbn [b_index b_est b_params b_score b_all]. rewrite M in *. repeat (split; [first [reflexivity|assumption]|]). split; [now rewrite map_length|]. split; [|split; [exact I|reflexivity]].
  intros i q EQ. assert (Hi : i < length ws) by (rewrite LW; apply nth_error_Some; congruence). destruct (nth_error ws i) as [v|] eqn:EV; [|apply nth_error_None in EV; lia].
  destruct (HW i q v EQ EV) as (sps' & ES' & fs' & f' & t' & F2' & M' & _ & _). exists sps', fs'. split; [exact ES'|]. split; [exact F2'|]. now rewrite nth_error_map, EV, <- M'.
Qed.
Print Assumptions C217_best_partial.
Example C217_ex : exists g, gs_choose Q Q (Q * list Q) (fun p tr => (p, tr)) (fun e te => - (qsum (map (fun y => Qabs (y - fst e)) te))) false [10; 9; 2; 2]%Q [0; 7]%Q (repeat [([3; 1], [2; 0]); ([0; 3], [2; 1])] 2) = Some g /\
  b_index _ _ g = Some 1 /\ b_est _ _ g = Some (7, [10; 2])%Q /\ b_params _ _ g = Some 7%Q.
Proof. eexists. split; [vm_compute; reflexivity|]. vm_compute. auto. Qed.
(* but it is never the estimator trained on all rows *)
Theorem C217_refit_refuted : forall Row Param Est fit score lower (data : list Row) (ps : list Param) splits n sh g,
  (forall sps, In sps splits -> exists rnds, kfold_split n sh (length data) rnds = Some sps) -> kfold_nsplits n <= length data ->
  gs_choose Row Param Est fit score lower data ps splits = Some g -> forall e, b_est _ _ g = Some e -> exists p rows, e = fit p rows /\ length rows < length data.
Proof.
  intros Row Param Est fit score lower data ps splits n sh g HK HN E e Ee. unfold gs_choose in E. destruct (works Row Param Est fit score lower data ps splits) as [ws|] eqn:W; [|discriminate]. destruct (works_spec _ _ _ _ _ _ _ _ _ _ W) as [LW HW]. injection E as <-. cbn [b_est] in Ee.
  destruct (best_idx lower (map fst ws)) as [b|]; [|discriminate]. rewrite nth_error_map in Ee. destruct (nth_error ws b) as [w|] eqn:EW; [|discriminate]. injection Ee as <-.
  assert (Hb : b < length ps) by (rewrite <- LW; apply nth_error_Some; congruence). destruct (nth_error ps b) as [p|] eqn:EP; [|apply nth_error_None in EP; lia].
  destruct (HW b p w EP EW) as (sps & ES & fs & f & t & F2 & M & NF & BF). destruct (HK sps (nth_error_In _ _ ES)) as (rnds & KS).
  assert (Hf : f < length sps) by (rewrite (Forall2_length F2); apply nth_error_Some; congruence). destruct (nth_error sps f) as [[tr te]|] eqn:EF; [|apply nth_error_None in EF; lia].
  destruct (Forall2_nth_error f F2 EF) as (r & Er & (a & c & A & C & R)). rewrite NF in Er. injection Er as <-. injection R as R1 R2. exists p, a. split; [exact R1|].
  destruct (kfold_split_spec _ _ _ _ _ KS) as (KL & KP & _). destruct (KP f tr te EF) as (ND & IN & LT). change (if (n <=? 0)%Z then 3 else Z.to_nat n) with (kfold_nsplits n) in *.
  assert (LA : length a = length tr) by (apply (f_equal (@length _)) in A; cbn [fst] in A; now rewrite !map_length in A).
  assert (LL : length (tr ++ te) = length data). { transitivity (length (seq 0 (length data))); [|apply seq_length]. apply Permutation_length, NoDup_Permutation; [exact ND|apply seq_NoDup|]. intros x. rewrite IN, in_seq. lia. }
  rewrite app_length in LL. pose proof (kfold_nsplits_pos n). assert (1 <= length data / kfold_nsplits n) by (apply Nat.div_le_lower_bound; lia). lia.
Qed.
Print Assumptions C217_refit_refuted.
(* and with an empty grid there is none: Predict panics *)
Theorem C217_empty_grid_refuted : forall Row Param Est fit score lower (data : list Row) splits, exists g, gs_choose Row Param Est fit score lower data [] splits = Some g /\ b_est _ _ g = None /\
  forall Out (predict : Est -> list Row -> Out) X, gs_predict Row Param Est predict g X = None.
Proof. intros. eexists. split; [reflexivity|]. split; reflexivity. Qed.
Print Assumptions C217_empty_grid_refuted.

(* C218: whatever swaps a sort makes, every score keeps its estimator and times; when Less holds for no later element against an earlier one,
   the scores descend *)
Theorem C218_sorting_results : forall (E D : Type) n (r : cvres E D) l, cv_wf n r -> (forall ij, In ij l -> fst ij < n /\ snd ij < n) -> let r' := fold_left cv_swap l r in
  cv_wf n r' /\ Permutation (quads r') (quads r) /\
  ((forall i j, i < j -> j < n -> cv_less r' j i = false) -> forall i j, i < j -> j < n -> (nth j (r_score r') 0 <= nth i (r_score r') 0)%Q).
Proof.
  intros E D n r l W H r'. destruct (swaps_perm n l r W H) as [A B]. split; [exact A|]. split; [exact B|]. intros S i j Hij Hj. specialize (S i j Hij Hj). unfold cv_less in S. destruct (Qltb_spec (nth i (r_score r') 0%Q) (nth j (r_score r') 0%Q)); [discriminate|assumption].
Qed.
Print Assumptions C218_sorting_results.
Example C218_ex : let r := mkcv [1; 3; 2]%Q [10; 30; 20] [11; 31; 21] [100; 300; 200] in let r' := fold_left cv_swap [(0, 1); (1, 2)] r in
  r_score r' = [3; 2; 1]%Q /\ r_est r' = [300; 200; 100] /\ r_time r' = [31; 21; 11] /\ (forall i j, i < j -> j < 3 -> cv_less r' j i = false).
Proof. cbv zeta. repeat split. intros [|[|[|i]]] [|[|[|j]]] H1 H2; try lia; vm_compute; reflexivity. Qed.
