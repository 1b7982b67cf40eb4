(* Proofs about SearchModel *)
From Verif Require Import QCommon SelectModel SelectProofs SearchModel.
Open Scope nat_scope.

(* ------------------------------------------------------------------ splits *)
Lemma nth_error_map_seq {A c} (f : nat -> A) i : i < c -> nth_error (map f (seq 0 c)) i = Some (f i).
Proof. intros H. rewrite nth_error_map, nth_error_seq. destruct (Nat.ltb_spec i c); [reflexivity|lia]. Qed.
Lemma upd_map_seq {A c} (f g : nat -> A) i : i < c -> (forall j, j < c -> j <> i -> g j = f j) -> upd (map f (seq 0 c)) i (g i) = map g (seq 0 c).
Proof.
  intros Hi H. apply nth_error_ext_len; [now rewrite upd_length, !map_length|]. intros j Hj. rewrite upd_length, map_length, seq_length in Hj.
  rewrite (nth_error_map_seq g j) by assumption. destruct (Nat.eq_dec i j) as [<-|D]; [rewrite nth_error_upd_same; [reflexivity|now rewrite map_length, seq_length]|].
  rewrite nth_error_upd_other by assumption. rewrite nth_error_map_seq by assumption. f_equal. symmetry. apply H; auto.
Qed.
Lemma nth_upd {A} (l : list A) i j v d : i < length l -> nth j (upd l i v) d = if Nat.eqb j i then v else nth j l d.
Proof.
  intros Hi. destruct (Nat.eqb_spec j i) as [->|D]; [apply nth_error_nth; now apply nth_error_upd_same|]. destruct (Nat.lt_ge_cases j (length l)) as [L|L]; [|rewrite !nth_overflow; auto; now rewrite upd_length].
  apply nth_error_nth. rewrite nth_error_upd_other by auto. now apply nth_error_nth'.
Qed.
Section Sources.
  Variable St : Type.
  Variable draw : bool -> nat -> St -> (list (nat * nat) * nat) * St.
  (* a source read by one splitter only *)
  Fixpoint state_at (sh : bool) (N j : nat) (s : St) : St := match j with O => s | S i => snd (draw sh N (state_at sh N i s)) end.
  Definition draws (sh : bool) (N : nat) (s : St) (j : nat) : list (nat * nat) * nat := fst (draw sh N (state_at sh N j s)).

  Lemma clones_spec s : forall c m k, k_clones k = true -> nth_error m (k_src k) = Some s ->
    clones St c m k = (m ++ repeat s c, map (fun i => mkkf (k_n k) (k_shuffle k) (length m + i) true) (seq 0 c)).
  Proof.
    induction c as [|c IH]; intros m k Hc Hs; cbn [clones repeat seq map]; [now rewrite app_nil_r|]. unfold splitter_clone. rewrite Hs, Hc.
    assert (Hl : k_src k < length m) by (apply nth_error_Some; congruence).
    rewrite IH; [|exact Hc|now rewrite nth_error_app1]. f_equal; [now rewrite <- app_assoc|]. rewrite Nat.add_0_r. f_equal. rewrite <- seq_shift, map_map. apply map_ext. intros i. f_equal. rewrite app_length. cbn. lia.
  Qed.
  Lemma kfold_loop_snoc sh N k rnds : forall c i0 l sp, kfold_loop c sh N k i0 rnds = Some l -> kfold_one sh N k (i0 + c) (rnds (i0 + c)) = Some sp -> kfold_loop (S c) sh N k i0 rnds = Some (l ++ [sp]).
  Proof.
    induction c as [|c IH]; intros i0 l sp H1 H2.
    - cbn [kfold_loop] in *. injection H1 as <-. rewrite Nat.add_0_r in H2. now rewrite H2.
    - cbn [kfold_loop] in H1. destruct (kfold_one sh N k i0 (rnds i0)) as [a|] eqn:E0; [|discriminate]. destruct (kfold_loop c sh N k (i0 + 1) rnds) as [r|] eqn:E1; [|discriminate]. injection H1 as <-.
      change (kfold_loop (S (S c)) sh N k i0 rnds) with (match kfold_one sh N k i0 (rnds i0) with Some sp => match kfold_loop (S c) sh N k (i0 + 1) rnds with Some rest => Some (sp :: rest) | None => None end | None => None end).
      rewrite E0, (IH (i0 + 1) r sp E1); [reflexivity|]. now replace (i0 + 1 + c) with (i0 + S c) by lia.
  Qed.

  Section Run.
    Variables (N c : nat) (m0 : list St) (k : kfold) (s : St).
    Hypothesis HN : k_shuffle k = true \/ 0 < N.
    Let n := kfold_nsplits (k_n k).
    Definition own (i : nat) : kfold := mkkf (k_n k) (k_shuffle k) (length m0 + i) true.
    (* every candidate reads its own copy of the source *)
    Definition inv (cnt : nat -> nat) (w : list St * list (kfold * list (list nat * list nat))) : Prop :=
      exists dones, length dones = c /\ snd w = map (fun i => (own i, nth i dones [])) (seq 0 c) /\
        fst w = m0 ++ map (fun i => state_at (k_shuffle k) N (length (nth i dones [])) s) (seq 0 c) /\
        forall i, i < c -> length (nth i dones []) = Nat.min n (cnt i) /\ kfold_loop (length (nth i dones [])) (k_shuffle k) N n 0 (draws (k_shuffle k) N s) = Some (nth i dones []).
    Lemma turn_inv i cnt w : inv cnt w -> inv (fun j => if Nat.eqb j i then S (cnt j) else cnt j) (turn St draw N i w).
    Proof.
      intros (dones & L & E2 & E1 & H). destruct w as [m cs]. cbn [fst snd] in *. unfold turn. destruct (Nat.lt_ge_cases i c) as [Hi|Hi].
      2:{ assert (nth_error cs i = None) as -> by (apply nth_error_None; rewrite E2, map_length, seq_length; lia).
          exists dones. cbn [fst snd]. split; [exact L|]. split; [exact E2|]. split; [exact E1|]. intros j Hj. destruct (Nat.eqb_spec j i); [lia|now apply H]. }
      assert (nth_error cs i = Some (own i, nth i dones [])) as -> by (rewrite E2; now rewrite nth_error_map_seq). cbv beta iota. cbn [k_n k_src k_shuffle own]. fold n. destruct (H i Hi) as [H1 H2]. destruct (Nat.ltb_spec (length (nth i dones [])) n) as [Lt|Ge].
      2:{ exists dones. cbn [fst snd]. split; [exact L|]. split; [exact E2|]. split; [exact E1|]. intros j Hj. destruct (Nat.eqb_spec j i) as [->|]; [|now apply H]. split; [lia|exact H2]. }
      rewrite E1, nth_error_app2 by lia. replace (length m0 + i - length m0) with i by lia. rewrite nth_error_map_seq by assumption. cbv beta iota.
      destruct (draw (k_shuffle k) N (state_at (k_shuffle k) N (length (nth i dones [])) s)) as [r s'] eqn:ED.
      assert (T : exists sp, kfold_one (k_shuffle k) N n (length (nth i dones [])) r = Some sp).
      { unfold kfold_one. destruct (k_shuffle k); [eauto|]. destruct HN as [F|F]; [discriminate|]. destruct N; [lia|eauto]. }
      destruct T as (sp & TE). rewrite TE. exists (upd dones i (nth i dones [] ++ [sp])). cbn [fst snd].
      split; [now rewrite upd_length|]. rewrite E2. assert (Li : i < length dones) by lia. split; [|split].
      - pose proof (upd_map_seq (fun i => (own i, nth i dones [])) (fun j => (own j, nth j (upd dones i (nth i dones [] ++ [sp])) [])) i Hi) as U. cbv beta in U.
        rewrite <- U; [|intros j Hj D; rewrite nth_upd by assumption; destruct (Nat.eqb_spec j i); [contradiction|reflexivity]]. f_equal. rewrite nth_upd by assumption. now rewrite Nat.eqb_refl.
      - rewrite upd_app_r. f_equal.
        pose proof (upd_map_seq (fun i => state_at (k_shuffle k) N (length (nth i dones [])) s) (fun j => state_at (k_shuffle k) N (length (nth j (upd dones i (nth i dones [] ++ [sp])) [])) s) i Hi) as U. cbv beta in U.
        rewrite <- U; [|intros j Hj D; rewrite nth_upd by assumption; destruct (Nat.eqb_spec j i); [contradiction|reflexivity]]. f_equal. rewrite nth_upd, Nat.eqb_refl, app_length by assumption. cbn [length]. rewrite Nat.add_1_r. cbn [state_at]. now rewrite ED.
      - intros j Hj. rewrite nth_upd by assumption. destruct (Nat.eqb_spec j i) as [->|D]; [|now apply H]. rewrite app_length. cbn [length]. split; [lia|].
        rewrite Nat.add_1_r. apply kfold_loop_snoc; [exact H2|]. cbn [Nat.add]. unfold draws. rewrite ED. cbn [fst]. exact TE.
    Qed.
    Lemma turns_inv sched : forall cnt w, inv cnt w -> inv (fun j => cnt j + count_occ Nat.eq_dec sched j) (turns St draw N sched w).
    Proof.
      induction sched as [|i l IH]; intros cnt w H; cbn [turns fold_left count_occ].
      - destruct H as (d & A & B & C & D). exists d. repeat (split; [assumption|]). intros j Hj. rewrite Nat.add_0_r. now apply D.
      - destruct (IH _ _ (turn_inv i cnt w H)) as (d & A & B & C & D). exists d. repeat (split; [assumption|]). intros j Hj. destruct (D j Hj) as [D1 D2]. split; [|exact D2]. rewrite D1. f_equal.
        destruct (Nat.eqb_spec j i) as [E|Ne]; destruct (Nat.eq_dec i j) as [E'|Ne']; try congruence; lia.
    Qed.
  End Run.
  Lemma own_splits N c m0 k s sched : (k_shuffle k = true \/ 0 < N) -> k_clones k = true -> nth_error m0 (k_src k) = Some s ->
    let w := all_splits St draw N c sched m0 k in
    firstn (length m0) (fst w) = m0 /\ length (snd w) = c /\
    forall i, i < c -> exists sps, nth_error (snd w) i = Some (own m0 k i, sps) /\ length sps = Nat.min (kfold_nsplits (k_n k)) (count_occ Nat.eq_dec sched i) /\
      kfold_loop (length sps) (k_shuffle k) N (kfold_nsplits (k_n k)) 0 (draws (k_shuffle k) N s) = Some sps.
  Proof.
    intros HN Hc Hs. cbv zeta. unfold all_splits. rewrite (clones_spec s c m0 k Hc Hs).
    assert (I : inv N c m0 k s (fun _ => 0) (m0 ++ repeat s c, map (fun k => (k, [])) (map (fun i => mkkf (k_n k) (k_shuffle k) (length m0 + i) true) (seq 0 c)))).
    { exists (repeat [] c). assert (Z : forall i, nth i (repeat (@nil (list nat * list nat)) c) [] = []) by (intros i; destruct (Nat.lt_ge_cases i c); [now apply nth_repeat|now rewrite nth_overflow by now rewrite repeat_length]).
      cbn [fst snd]. split; [apply repeat_length|]. split; [|split].
      - rewrite map_map. apply map_ext. intros i. now rewrite Z.
      - f_equal. clear - Z. transitivity (map (fun _ => s) (seq 0 c)); [|apply map_ext; intros i; now rewrite Z]. rewrite <- (seq_length c 0) at 1. generalize (seq 0 c). induction l; cbn; congruence.
      - intros i Hi. rewrite Z. cbn. split; [now rewrite Nat.min_0_r|reflexivity]. }
    destruct (turns_inv N c m0 k s HN sched _ _ I) as (d & L & B & C & D). rewrite B, C. split; [|split].
    - rewrite firstn_app, Nat.sub_diag, firstn_all. cbn. apply app_nil_r.
    - now rewrite map_length, seq_length.
    - intros i Hi. exists (nth i d []). rewrite nth_error_map_seq by assumption. split; [reflexivity|]. exact (D i Hi).
  Qed.
End Sources.

(* ------------------------------------------------------------------ best index *)
Section Choose.
  Variables (Row Param Est : Type) (fit : Param -> list Row -> Est) (score : Est -> list Row -> Q) (lower : bool).
  Definition beats (a b : Q) : Prop := if lower then (a < b)%Q else (b < a)%Q.
  Lemma better_spec a b : better lower a b = true <-> beats a b.
  Proof. unfold better, beats. destruct lower; [destruct (Qltb_spec a b)|destruct (Qltb_spec b a)]; split; intros; auto; try discriminate; lra. Qed.
  Definition is_best (l : list Q) (b : nat) (s : Q) : Prop := nth_error l b = Some s /\ (forall j t, nth_error l j = Some t -> ~ beats t s) /\ (forall j t, j < b -> nth_error l j = Some t -> beats s t).
  Lemma best_from_spec : forall l pre b s, is_best pre b s -> exists s', is_best (pre ++ l) (best_from lower (length pre) b s l) s'.
  Proof.
    induction l as [|x l IH]; intros pre b s H; cbn [best_from]; [rewrite app_nil_r; eauto|].
    replace (S (length pre)) with (length (pre ++ [x])) by (rewrite app_length; cbn; lia). replace (pre ++ x :: l) with ((pre ++ [x]) ++ l) by now rewrite <- app_assoc.
    destruct H as (H1 & H2 & H3). assert (Hb : b < length pre) by (apply nth_error_Some; congruence).
    assert (T : forall j t, nth_error (pre ++ [x]) j = Some t -> (j < length pre /\ nth_error pre j = Some t) \/ (j = length pre /\ t = x)).
    { intros j t E. destruct (Nat.lt_ge_cases j (length pre)) as [L|L]; [left; split; [exact L|]; now rewrite nth_error_app1 in E|]. right. rewrite nth_error_app2 in E by assumption. destruct (j - length pre) as [|q] eqn:Q; [injection E as <-; split; [lia|reflexivity]|]. destruct q; discriminate. }
    destruct (better lower x s) eqn:B.
    - apply better_spec in B. apply IH. split; [now rewrite nth_error_app2, Nat.sub_diag|]. split.
      + intros j t E. destruct (T j t E) as [(L & E')|(_ & ->)]; [|unfold beats; destruct lower; lra]. intros C. apply (H2 j t E'). unfold beats in *. destruct lower; lra.
      + intros j t L E. destruct (T j t E) as [(_ & E')|(-> & _)]; [|lia]. pose proof (H2 j t E') as C. unfold beats in *. destruct lower; lra.
    - assert (N : ~ beats x s) by (intros C; apply better_spec in C; congruence). apply IH. split; [now rewrite nth_error_app1|]. split.
      + intros j t E. destruct (T j t E) as [(L & E')|(_ & ->)]; [now apply (H2 j)|exact N].
      + intros j t L E. destruct (T j t E) as [(_ & E')|(-> & _)]; [now apply (H3 j)|lia].
  Qed.
  Lemma best_idx_spec l b : best_idx lower l = Some b -> exists s, is_best l b s.
  Proof.
    destruct l as [|x l]; [discriminate|]. cbn [best_idx]. intros E. injection E as <-. apply (best_from_spec l [x] 0 x). split; [reflexivity|]. split.
    - intros [|[|j]] t E; try discriminate. injection E as <-. unfold beats. destruct lower; lra.
    - intros j t L. lia.
  Qed.
  Lemma best_idx_total l : l <> [] -> exists b, best_idx lower l = Some b.
  Proof. destruct l; [congruence|]. cbn. eauto. Qed.

  (* what CrossValidate reports for one split *)
  Definition fold_result (data : list Row) (p : Param) (sp : list nat * list nat) (r : Est * Q) : Prop :=
    exists a b, map (nth_error data) (fst sp) = map Some a /\ map (nth_error data) (snd sp) = map Some b /\ r = (fit p a, score (fit p a) b).
  Lemma cv_folds_spec data p : forall sps fs, cv_folds Row Param Est fit score data p sps = Some fs -> Forall2 (fold_result data p) sps fs.
  Proof.
    induction sps as [|[tr te] l IH]; intros fs E; cbn [cv_folds] in E; [injection E as <-; constructor|]. unfold rows_at in E.
    destruct (gather tr data) as [a|] eqn:E1; [|discriminate]. destruct (gather te data) as [b|] eqn:E2; [|discriminate]. destruct (cv_folds Row Param Est fit score data p l) as [q|]; [|discriminate]. injection E as <-.
    constructor; [|now apply IH]. exists a, b. cbn [fst snd]. split; [now apply gather_map|]. split; [now apply gather_map|reflexivity].
  Qed.
  Lemma cv_folds_total data p : forall sps, Forall (fun sp => Forall (fun j => j < length data) (fst sp ++ snd sp)) sps -> exists fs, cv_folds Row Param Est fit score data p sps = Some fs.
  Proof.
    induction 1 as [|[tr te] l H F [fs IH]]; cbn [cv_folds]; [eauto|]. cbn [fst snd] in H. apply Forall_app in H. destruct H as [H1 H2]. unfold rows_at.
    destruct (gather_total tr data H1) as [a ->], (gather_total te data H2) as [b ->]. rewrite IH. eauto.
  Qed.
  (* mean score and estimator of the best fold *)
  Definition cand_result (data : list Row) (p : Param) (sps : list (list nat * list nat)) (w : Q * Est) : Prop :=
    exists fs f s, Forall2 (fold_result data p) sps fs /\ fst w = (qsum (map snd fs) / qn (length fs))%Q /\ nth_error fs f = Some (snd w, s) /\ is_best (map snd fs) f s.
  Lemma dowork_spec data p sps w : dowork Row Param Est fit score lower data p sps = Some w -> cand_result data p sps w.
  Proof.
    unfold dowork. destruct (cv_folds Row Param Est fit score data p sps) as [fs|] eqn:E; [|discriminate]. destruct (best_idx lower (map snd fs)) as [b|] eqn:B; [|discriminate]. destruct (nth_error fs b) as [f|] eqn:F; [|discriminate].
    intros H. injection H as <-. destruct (best_idx_spec _ _ B) as (s & I). exists fs, b, s. split; [now apply cv_folds_spec|]. cbn [fst snd]. rewrite map_length. split; [reflexivity|]. split; [|exact I].
    destruct I as (I & _). rewrite nth_error_map, F in I. cbn in I. injection I as <-. now destruct f.
  Qed.
  Lemma dowork_total data p sps : sps <> [] -> Forall (fun sp => Forall (fun j => j < length data) (fst sp ++ snd sp)) sps -> exists w, dowork Row Param Est fit score lower data p sps = Some w.
  Proof.
    intros N H. unfold dowork. destruct (cv_folds_total data p sps H) as (fs & E). rewrite E. assert (NF : map snd fs <> []) by (apply cv_folds_spec in E; destruct E; [congruence|discriminate]).
    destruct (best_idx_total _ NF) as (b & B). rewrite B. destruct (best_idx_spec _ _ B) as (s & I & _). rewrite nth_error_map in I. destruct (nth_error fs b); [eauto|discriminate].
  Qed.
  Lemma works_spec data : forall ps splits ws, works Row Param Est fit score lower data ps splits = Some ws ->
    length ws = length ps /\ forall i p w, nth_error ps i = Some p -> nth_error ws i = Some w -> exists sps, nth_error splits i = Some sps /\ cand_result data p sps w.
  Proof.
    induction ps as [|p ps IH]; intros splits ws E; cbn [works] in E; [injection E as <-; split; [reflexivity|intros [|i]; discriminate]|]. destruct splits as [|sp q]; [discriminate|].
    destruct (dowork Row Param Est fit score lower data p sp) as [w|] eqn:W; [|discriminate]. destruct (works Row Param Est fit score lower data ps q) as [l|] eqn:EL; [|discriminate]. injection E as <-.
    destruct (IH q l EL) as [L H]. split; [cbn; lia|]. intros [|i] p' w' E1 E2; cbn [nth_error] in *; [injection E1 as <-; injection E2 as <-; exists sp; split; [reflexivity|now apply dowork_spec]|now apply H].
  Qed.
  Lemma works_total data : forall ps splits, length ps <= length splits -> Forall (fun sps => sps <> [] /\ Forall (fun sp => Forall (fun j => j < length data) (fst sp ++ snd sp)) sps) splits ->
    exists ws, works Row Param Est fit score lower data ps splits = Some ws.
  Proof.
    induction ps as [|p ps IH]; intros splits L H; cbn [works]; [eauto|]. destruct splits as [|sp q]; [cbn in L; lia|]. inversion H as [|? ? [H1 H2] H3]; subst. destruct (dowork_total data p sp H1 H2) as (w & ->). destruct (IH q ltac:(cbn in L; lia) H3) as (l & ->). eauto.
  Qed.
End Choose.

(* ------------------------------------------------------------------ CrossValidateResult *)
Definition quads {E D} (r : cvres E D) : list ((Q * D) * (D * E)) := combine (combine (r_score r) (r_fit r)) (combine (r_time r) (r_est r)).
Definition cv_wf {E D} (n : nat) (r : cvres E D) : Prop := length (r_score r) = n /\ length (r_fit r) = n /\ length (r_time r) = n /\ length (r_est r) = n.
Lemma combine_swap {A B} (a : list A) (b : list B) i j : length a = length b -> i < length a -> j < length a -> combine (swap a i j) (swap b i j) = swap (combine a b) i j.
Proof.
  intros L Hi Hj. apply nth_error_ext_len; [rewrite combine_length, !swap_length, combine_length; reflexivity|]. intros k Hk.
  rewrite nth_error_combine, !nth_error_swap by (rewrite ?combine_length; lia). destruct (Nat.eqb k i), (Nat.eqb k j); now rewrite nth_error_combine.
Qed.
Lemma swap_wf {E D} n (r : cvres E D) ij : cv_wf n r -> cv_wf n (cv_swap r ij).
Proof. intros (A & B & C & F). unfold cv_wf, cv_swap. cbn. now rewrite !swap_length. Qed.
Lemma quads_swap {E D} n (r : cvres E D) ij : cv_wf n r -> fst ij < n -> snd ij < n -> quads (cv_swap r ij) = swap (quads r) (fst ij) (snd ij).
Proof.
  intros (A & B & C & F) Hi Hj. unfold quads, cv_swap. cbn [r_score r_fit r_time r_est]. rewrite (combine_swap (r_score r)), (combine_swap (r_time r)), combine_swap; try reflexivity; rewrite ?combine_length; lia.
Qed.
Lemma swaps_perm {E D} n l : forall (r : cvres E D), cv_wf n r -> (forall ij, In ij l -> fst ij < n /\ snd ij < n) -> cv_wf n (fold_left cv_swap l r) /\ Permutation (quads (fold_left cv_swap l r)) (quads r).
Proof.
  induction l as [|ij l IH]; intros r W H; cbn [fold_left]; [auto|]. destruct (H ij (or_introl eq_refl)) as [H1 H2].
  destruct (IH (cv_swap r ij) (swap_wf n r ij W) (fun x Hx => H x (or_intror Hx))) as [A B]. split; [exact A|]. eapply Permutation_trans; [exact B|]. rewrite (quads_swap n) by assumption. apply swap_perm.
Qed.
