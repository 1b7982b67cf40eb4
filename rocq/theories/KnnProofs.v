From Verif Require Import QCommon NeighModel KdProofs KdQueryProofs KnnModel.
From Coq Require Import Qround.
Open Scope Q_scope.

(* --------------------------------------------------------------- fitting *)
Lemma nn_refit a hist X : a <> Auto \/ use_tree a X = true \/ (forall X', In X' hist -> use_tree a X' = false) ->
  nn_searched (fold_left (nn_fit a) (hist ++ [X]) nn_new) = X.
Proof.
  intros H. rewrite fold_left_app. cbn [fold_left]. unfold nn_searched, nn_fit. cbn [nnTree nnX].
  destruct (use_tree a X) eqn:EX; [reflexivity|]. destruct a; [|discriminate|].
  - assert (G: forall h m, nnTree m = None -> nnTree (fold_left (nn_fit Brute) h m) = None) by (induction h as [|x h IH]; intros m E; cbn [fold_left]; auto).
    now rewrite G.
  - destruct H as [H|[H|H]]; [congruence|discriminate|].
    assert (G: forall h m, (forall X', In X' h -> use_tree Auto X' = false) -> nnTree m = None -> nnTree (fold_left (nn_fit Auto) h m) = None).
    { induction h as [|x h IH]; intros m HH E; cbn [fold_left]; auto. apply IH; [intros; apply HH; now right|]. unfold nn_fit. cbn [nnTree]. rewrite (HH x) by now left. exact E. }
    now rewrite G.
Qed.

(* ----------------------------------------------------------------- graph *)
Lemma nth_upd_q (l : list Q) d v j : nth j (upd l d v) 0 = if Nat.eqb j d then (if Nat.ltb d (length l) then v else nth j l 0) else nth j l 0.
Proof.
  destruct (Nat.ltb_spec d (length l)) as [H|H]; [now apply nth_upd|]. rewrite upd_oob by lia. now destruct (Nat.eqb j d).
Qed.
Lemma graph_conn nfit sample self row : (forall e, In e row -> (snd e < nfit)%nat) ->
  exists g, graph_row nfit sample true self row = Some g /\ length g = nfit /\
  forall j, (j < nfit)%nat -> nth j g 0 = if (existsb (fun e => Nat.eqb (snd e) j) row && (self || negb (Nat.eqb sample j)))%bool then 1 else 0.
Proof.
  intros H. unfold graph_row.
  assert (G: forall row g0, (forall e, In e row -> (snd e < nfit)%nat) -> length g0 = nfit ->
    exists g, fold_left (fun acc e =>
      match acc with
      | None => None
      | Some g =>
        let index := if true then snd e else Z.to_nat (Qfloor (fst e)) in
        if (Nat.eqb sample index && negb self)%bool then Some g
        else if Nat.ltb index (length g) then Some (upd g index 1) else None
      end) row (Some g0) = Some g /\ length g = nfit /\
    forall j, (j < nfit)%nat -> nth j g 0 = if (existsb (fun e => Nat.eqb (snd e) j) row && (self || negb (Nat.eqb sample j)))%bool then 1 else nth j g0 0).
  { clear row H. induction row as [|e row IH]; intros g0 H L; cbn [fold_left existsb].
    - exists g0. auto.
    - assert (He: (snd e < nfit)%nat) by (apply H; now left). assert (Hr: forall e, In e row -> (snd e < nfit)%nat) by (intros; apply H; now right).
      destruct (Nat.eqb sample (snd e) && negb self)%bool eqn:ES.
      + destruct (IH g0 Hr L) as (g & E & LG & N). exists g. split; [exact E|]. split; [exact LG|]. intros j Hj. rewrite (N j Hj).
        apply andb_true_iff in ES. destruct ES as (ES1 & ES2). apply Nat.eqb_eq in ES1. apply negb_true_iff in ES2. rewrite ES2. cbn [orb].
        destruct (Nat.eqb_spec (snd e) j) as [<-|NE]; [|reflexivity]. rewrite ES1, Nat.eqb_refl. cbn [negb]. now rewrite !andb_false_r.
      + rewrite L. destruct (Nat.ltb_spec (snd e) nfit) as [_|]; [|lia].
        destruct (IH (upd g0 (snd e) 1) Hr ltac:(now rewrite upd_length)) as (g & E & LG & N). exists g. split; [exact E|]. split; [exact LG|]. intros j Hj. rewrite (N j Hj).
        rewrite nth_upd by lia. rewrite (Nat.eqb_sym (snd e) j). destruct (Nat.eqb_spec j (snd e)) as [->|NE]; [|reflexivity].
        cbn [orb andb]. assert (X: (self || negb (Nat.eqb sample (snd e)))%bool = true) by (destruct self, (Nat.eqb sample (snd e)); auto). rewrite X. cbn. now destruct (existsb _ row). }
  destruct (G row (repeat 0 nfit) H (repeat_length _ _)) as (g & E & L & N). exists g. split; [exact E|]. split; [exact L|]. intros j Hj. rewrite (N j Hj).
  rewrite (nth_repeat 0). reflexivity.
Qed.

(* ------------------------------------------------------------------ votes *)
(* total weight of a class *)
Definition total (yw : list (Q * Q)) (c : Q) : Q := qsum (map (fun e => if Qeq_bool (fst e) c then snd e else 0) yw).

Lemma total_cons e yw c : total (e :: yw) c == (if Qeq_bool (fst e) c then snd e else 0) + total yw c.
Proof. unfold total. cbn [map]. apply qsum_cons. Qed.
Lemma qeqb_compat a b c : a == b -> Qeq_bool a c = Qeq_bool b c.
Proof. intros H. destruct (Qeqb_spec a c) as [E|E], (Qeqb_spec b c) as [E'|E']; auto; exfalso; [apply E'; rewrite <- H; exact E|apply E; rewrite H; exact E']. Qed.

Definition wf_map (m : list (Q * Q)) : Prop := NoDup (map fst m) /\ forall a b, In a (map fst m) -> In b (map fst m) -> a == b -> a = b.

Lemma vadd_total m cl w c : total (vadd m cl w) c == total m c + (if Qeq_bool cl c then w else 0).
Proof.
  induction m as [|[c' v] m IH]; cbn [vadd].
  - rewrite total_cons. unfold total. cbn [map fst snd]. rewrite qsum_nil. lra.
  - destruct (Qeqb_spec c' cl) as [E|E]; rewrite !total_cons; cbn [fst snd].
    + rewrite (qeqb_compat cl c' c) by (symmetry; exact E). destruct (Qeq_bool c' c); lra.
    + rewrite IH. lra.
Qed.
Lemma vadd_keys m cl w : wf_map m -> wf_map (vadd m cl w) /\ (forall c, In c (map fst (vadd m cl w)) -> In c (map fst m) \/ c = cl).
Proof.
  intros (ND & U). assert (G: (map fst (vadd m cl w) = map fst m) \/ (map fst (vadd m cl w) = map fst m ++ [cl] /\ forall a, In a (map fst m) -> ~ a == cl)).
  { clear. induction m as [|[c v] m IH]; cbn [vadd map fst].
    - right. split; [reflexivity|intros ? []].
    - destruct (Qeqb_spec c cl) as [E|E]; cbn [map fst]; [now left|]. destruct IH as [->|(-> & H)]; [now left|]. right. split; [reflexivity|]. intros a [<-|Ha]; auto. }
  unfold wf_map. destruct G as [->|(-> & H)].
  - split; [split; auto|]. auto.
  - split; [split|].
    + apply NoDup_app_iff. split; [exact ND|]. split; [repeat constructor; intros []|]. intros y Hy [<-|[]]. apply (H cl Hy). reflexivity.
    + intros a b Ha Hb E. apply in_app_iff in Ha, Hb. destruct Ha as [Ha|[<-|[]]], Hb as [Hb|[<-|[]]]; auto.
      * exfalso. apply (H a Ha E).
      * exfalso. apply (H b Hb). symmetry. exact E.
    + intros c Hc. apply in_app_iff in Hc. destruct Hc as [Hc|[<-|[]]]; auto.
Qed.

Lemma classw_acc yw : forall m, wf_map m -> let m' := fold_left (fun m e => vadd m (fst e) (snd e)) yw m in
  wf_map m' /\ (forall c, total m' c == total m c + total yw c) /\ (forall c, In c (map fst m') -> In c (map fst m) \/ In c (map fst yw)).
Proof.
  induction yw as [|e yw IH]; intros m W; cbn [fold_left].
  - split; [exact W|]. split; [intros c; unfold total at 3; cbn; lra|auto].
  - destruct (vadd_keys m (fst e) (snd e) W) as (W' & K). destruct (IH _ W') as (A & B & C). cbv zeta in *. split; [exact A|]. split.
    + intros c. rewrite B, vadd_total, total_cons. lra.
    + intros c Hc. destruct (C c Hc) as [X|X]; [|right; now right]. destruct (K c X) as [Y| ->]; auto. right. now left.
Qed.
Lemma total_entry m c v : wf_map m -> In (c, v) m -> total m c == v.
Proof.
  intros (ND & U). induction m as [|[c' v'] m IH]; intros Hin; [destruct Hin|]. rewrite total_cons. cbn [fst snd map] in *. apply NoDup_cons_iff in ND. destruct ND as (N1 & N2).
  destruct Hin as [E|Hin].
  - injection E as -> ->. destruct (Qeqb_spec c c) as [_|n]; [|exfalso; apply n; reflexivity].
    assert (Z: total m c == 0).
    { unfold total. rewrite (qsum_map_ext _ (fun _ => 0)); [rewrite qsum_const; ring|]. intros e He. destruct (Qeqb_spec (fst e) c) as [E|]; [|reflexivity].
      exfalso. apply N1. rewrite (U c (fst e)); [now apply in_map|now left|right; now apply in_map|symmetry; exact E]. }
    rewrite Z. lra.
  - destruct (Qeqb_spec c' c) as [E|E].
    + exfalso. apply N1. rewrite (U c' c); [exact (in_map fst _ _ Hin)|now left|right; exact (in_map fst _ _ Hin)|exact E].
    + rewrite IH; auto; [lra|]. intros a b Ha Hb. apply U; now right.
Qed.

Lemma vote_fold l : forall acc, let r := fold_left (fun acc (cw : Q * Q) => if Qltb (fst acc) (snd cw) then (snd cw, fst cw) else acc) l acc in
  (r = acc \/ In (snd r, fst r) l) /\ fst acc <= fst r /\ forall e, In e l -> snd e <= fst r.
Proof.
  induction l as [|e l IH]; intros acc; cbn [fold_left].
  - split; [now left|]. split; [lra|intros ? []].
  - destruct (IH (if Qltb (fst acc) (snd e) then (snd e, fst e) else acc)) as (A & B & C). cbv zeta in *. set (r := fold_left _ l _) in *.
    destruct (Qltb_spec (fst acc) (snd e)) as [H|H].
    + cbn [fst] in B. split; [|split; [lra|intros e' [<-|He']; auto; lra]]. destruct A as [A|A]; [right; left; rewrite A; cbn; now destruct e|right; now right].
    + split; [|split; [lra|intros e' [<-|He']; auto; lra]]. destruct A as [A|A]; [now left|right; now right].
Qed.

Lemma total_nonneg yw c : (forall e, In e yw -> 0 < snd e) -> 0 <= total yw c.
Proof. intros H. apply qsum_nonneg. intros v Hv. apply in_map_iff in Hv. destruct Hv as (e & <- & He). specialize (H e He). destruct (Qeq_bool (fst e) c); lra. Qed.
Lemma total_pos yw e : (forall e, In e yw -> 0 < snd e) -> In e yw -> 0 < total yw (fst e).
Proof.
  intros H Hin. induction yw as [|e' yw IH]; [destruct Hin|]. rewrite total_cons. assert (Hp: forall e, In e yw -> 0 < snd e) by (intros; apply H; now right). pose proof (total_nonneg yw (fst e) Hp).
  assert (0 < snd e') by (apply H; now left). destruct Hin as [<-|Hin].
  - destruct (Qeqb_spec (fst e') (fst e')) as [_|n]; [lra|exfalso; apply n; reflexivity].
  - specialize (IH Hp Hin). destruct (Qeq_bool (fst e') (fst e)); lra.
Qed.
Lemma total_outside yw c : (forall e, In e yw -> ~ fst e == c) -> total yw c == 0.
Proof. intros H. unfold total. rewrite (qsum_map_ext _ (fun _ => 0)); [rewrite qsum_const; ring|]. intros e He. destruct (Qeqb_spec (fst e) c); [exfalso; now apply (H e)|reflexivity]. Qed.
Lemma total_compat yw c c' : c == c' -> total yw c == total yw c'.
Proof. intros E. unfold total. apply qsum_map_ext. intros e _. destruct (Qeqb_spec (fst e) c) as [q|q], (Qeqb_spec (fst e) c') as [q'|q']; try reflexivity; exfalso; [apply q'; rewrite q; exact E|apply q; rewrite q'; symmetry; exact E]. Qed.

Lemma wf_nil : wf_map []. Proof. split; [constructor|intros ? ? []]. Qed.

Lemma vote_spec ord yw : (forall m, Permutation (ord m) m) -> yw <> [] -> (forall e, In e yw -> 0 < snd e) ->
  In (vote ord yw) (map fst yw) /\ forall c, total yw c <= total yw (vote ord yw).
Proof.
  intros Hord Hne Hp. unfold vote. destruct (classw_acc yw [] wf_nil) as (W & T & K). cbv zeta in *. fold (classw yw) in *.
  pose proof (Hord (classw yw)) as P. destruct (vote_fold (ord (classw yw)) (0, 0)) as (A & B & C). cbv zeta in *. set (r := fold_left _ (ord (classw yw)) (0, 0)) in *.
  assert (T': forall c, total (classw yw) c == total yw c) by (intros c; rewrite T; unfold total at 1; cbn; lra).
  assert (HC: forall c v, In (c, v) (classw yw) -> v <= fst r).
  { intros c v Hin. apply (C (c, v)). eapply Permutation_in; [symmetry; exact P|exact Hin]. }
  assert (ALL: forall c, total yw c <= fst r).
  { intros c. rewrite <- T'. destruct (existsb (fun e => Qeq_bool (fst e) c) (classw yw)) eqn:E.
    - apply existsb_exists in E. destruct E as ((c', v) & Hin & E). cbn [fst] in E. apply Qeq_bool_iff in E. rewrite (total_compat _ c c') by (symmetry; exact E).
      rewrite (total_entry _ c' v W Hin). now apply (HC c').
    - rewrite total_outside; [exact B|]. intros e He E'. assert (X: existsb (fun e => Qeq_bool (fst e) c) (classw yw) = true) by (apply existsb_exists; exists e; split; [exact He|now apply Qeq_bool_iff]). congruence. }
  assert (POS: 0 < fst r).
  { destruct yw as [|e yw]; [congruence|]. pose proof (total_pos (e :: yw) e Hp (or_introl eq_refl)). specialize (ALL (fst e)). lra. }
  destruct A as [A|A]; [rewrite A in POS; cbn in POS; lra|]. apply (Permutation_in _ P) in A. split.
  - destruct (K (snd r)) as [[]|X]; [exact (in_map fst _ _ A)|exact X].
  - intros c. rewrite <- (T' (snd r)), (total_entry _ _ _ W A). apply ALL.
Qed.

(* -------------------------------------------------------------- probabilities *)
Lemma vfind_spec yw cl : match vfind (classw yw) cl with Some w => w == total yw cl | None => forall e, In e yw -> ~ fst e == cl end.
Proof.
  unfold vfind. destruct (classw_acc yw [] wf_nil) as (W & T & K). cbv zeta in *. fold (classw yw) in *.
  destruct (find _ (classw yw)) as [[c v]|] eqn:E; cbn [option_map snd].
  - apply find_some in E. destruct E as (E1 & E2). cbn [fst] in E2. apply Qeq_bool_iff in E2. rewrite <- (total_entry _ c v W E1), T. rewrite (total_compat _ c cl E2), (total_compat yw c cl E2). unfold total at 1. cbn. lra.
  - intros e He E'. assert (X: forall yw m, (exists e, In e yw /\ fst e == cl) \/ (exists e, In e m /\ fst e == cl) -> exists e', In e' (fold_left (fun m e => vadd m (fst e) (snd e)) yw m) /\ fst e' == cl).
    { clear. induction yw as [|a yw IH]; intros m H; cbn [fold_left].
      - destruct H as [(e & [] & _)|H]; exact H.
      - apply IH. destruct H as [(e & [->|He] & E)|(e & He & E)].
        + right. clear IH. induction m as [|[c v] m IHm]; cbn [vadd].
          * exists (fst e, snd e). split; [now left|exact E].
          * destruct (Qeqb_spec c (fst e)) as [E'|E']; [eexists; split; [now left|]; cbn; rewrite E'; exact E|]. destruct IHm as (e' & I & E''). exists e'. split; [now right|exact E''].
        + left. eauto.
        + right. clear IH. induction m as [|[c v] m IHm]; [destruct He|]. cbn [vadd]. destruct (Qeqb_spec c (fst a)) as [E'|E'].
          * destruct He as [<-|He]; [eexists; split; [now left|]; exact E|exists e; split; [now right|exact E]].
          * destruct He as [<-|He]; [eexists; split; [now left|]; exact E|]. destruct (IHm He) as (e' & I & E''). exists e'. split; [now right|exact E'']. }
    destruct (X yw [] (or_introl (ex_intro _ e (conj He E')))) as (e' & I & E''). fold (classw yw) in I. pose proof (find_none _ _ E e' I) as F. cbn beta in F. apply Qeq_bool_iff in E''. congruence.
Qed.

Lemma proba_zero classes yw : proba_row classes yw (repeat 0 (length classes)) = map (fun cl => match vfind (classw yw) cl with Some w => w / qsum (map snd yw) | None => 0 end) classes.
Proof. unfold proba_row. induction classes as [|c cs IH]; cbn [length repeat zip map]; [reflexivity|]. now rewrite IH. Qed.

Lemma proba_spec classes yw : yw <> [] -> (forall e, In e yw -> 0 < snd e) ->
  (forall i, (i < length classes)%nat -> nth i (proba_row classes yw (repeat 0 (length classes))) 0 == total yw (nth i classes 0) / qsum (map snd yw)).
Proof.
  intros Hne Hp i Hi. rewrite proba_zero. set (f := fun cl => _). rewrite (nth_indep _ 0 (f 0)) by (now rewrite map_length). rewrite map_nth. unfold f. clear f.
  pose proof (vfind_spec yw (nth i classes 0)) as S. destruct (vfind (classw yw) (nth i classes 0)); [now rewrite S|]. rewrite total_outside by exact S. unfold Qdiv. ring.
Qed.

Lemma sumw_pos yw : yw <> [] -> (forall e, In e yw -> 0 < snd e) -> 0 < qsum (map (@snd Q Q) yw).
Proof.
  intros H Hp. destruct yw as [|e yw]; [congruence|]. cbn [map]. rewrite qsum_cons. assert (0 < snd e) by (apply Hp; now left).
  assert (0 <= qsum (map snd yw)) by (apply qsum_nonneg; intros x Hx; apply in_map_iff in Hx; destruct Hx as (e' & <- & He'); apply Qlt_le_weak, Hp; now right). lra.
Qed.

Lemma total_sum classes yw : (forall a b i j, nth_error classes i = Some a -> nth_error classes j = Some b -> a == b -> i = j) ->
  (forall e, In e yw -> exists c, In c classes /\ fst e == c) -> qsum (map (total yw) classes) == qsum (map snd yw).
Proof.
  intros U H. induction yw as [|e yw IH].
  - rewrite (qsum_map_ext (total []) (fun _ => 0)) by (intros; reflexivity). rewrite qsum_const. cbn [map]. rewrite qsum_nil. ring.
  - rewrite (qsum_map_ext (total (e :: yw)) (fun c => (if Qeq_bool (fst e) c then snd e else 0) + total yw c)) by (intros; apply total_cons).
    rewrite (qsum_map_plus (fun c => if Qeq_bool (fst e) c then snd e else 0) (total yw)). rewrite IH by (intros; apply H; now right). cbn [map]. rewrite qsum_cons.
    assert (X: qsum (map (fun c => if Qeq_bool (fst e) c then snd e else 0) classes) == snd e); [|lra].
    destruct (H e (or_introl eq_refl)) as (c & Hc & E). clear -U Hc E. induction classes as [|c' cs IHc]; [destruct Hc|]. cbn [map]. rewrite qsum_cons.
    assert (U': forall a b i j, nth_error cs i = Some a -> nth_error cs j = Some b -> a == b -> i = j) by (intros a b i j Ha Hb Eab; specialize (U a b (S i) (S j) Ha Hb Eab); lia).
    destruct (Qeqb_spec (fst e) c') as [E'|E'].
    + assert (Z: qsum (map (fun c => if Qeq_bool (fst e) c then snd e else 0) cs) == 0); [|lra].
      rewrite (qsum_map_ext _ (fun _ => 0)); [rewrite qsum_const; ring|]. intros c'' Hc''. destruct (Qeqb_spec (fst e) c'') as [q|q]; [|reflexivity]. exfalso.
      destruct (In_nth_error _ _ Hc'') as (j & Hj). specialize (U c' c'' 0%nat (S j) eq_refl Hj). assert (c' == c'') by (rewrite <- E', <- q; reflexivity). specialize (U H). discriminate.
    + destruct Hc as [->|Hc]; [contradiction|]. rewrite IHc; auto. lra.
Qed.

Lemma proba_sum classes yw : yw <> [] -> (forall e, In e yw -> 0 < snd e) ->
  (forall a b i j, nth_error classes i = Some a -> nth_error classes j = Some b -> a == b -> i = j) ->
  (forall e, In e yw -> exists c, In c classes /\ fst e == c) ->
  qsum (proba_row classes yw (repeat 0 (length classes))) == 1.
Proof.
  intros Hne Hp U H. rewrite proba_zero. pose proof (sumw_pos yw Hne Hp) as SW.
  rewrite (qsum_map_ext _ (fun cl => / qsum (map snd yw) * total yw cl)).
  - rewrite (qsum_map_scale (total yw)), total_sum by auto. field. lra.
  - intros cl _. pose proof (vfind_spec yw cl) as S. destruct (vfind (classw yw) cl); [rewrite S; unfold Qdiv; ring|]. rewrite total_outside by exact S. ring.
Qed.

(* ---------------------------------------------------------------- regressor *)
Lemma wmean_bounds yw lo hi : yw <> [] -> (forall e, In e yw -> 0 < snd e) -> (forall e, In e yw -> lo <= fst e <= hi) -> lo <= wmean yw <= hi.
Proof.
  intros Hne Hp HB. pose proof (sumw_pos yw Hne Hp) as SW. unfold wmean.
  assert (A: forall v, qsum (map (fun e : Q * Q => snd e * v) yw) == qsum (map snd yw) * v).
  { intros v. rewrite (qsum_map_ext _ (fun e : Q * Q => v * snd e)) by (intros; ring). rewrite (qsum_map_scale (@snd Q Q)). ring. }
  split.
  - apply Qle_shift_div_l; [exact SW|]. rewrite Qmult_comm, <- A. apply qsum_le. intros e He. specialize (Hp e He). specialize (HB e He). nra.
  - apply Qle_shift_div_r; [exact SW|]. rewrite Qmult_comm, <- A. apply qsum_le. intros e He. specialize (Hp e He). specialize (HB e He). nra.
Qed.
Lemma wmean_uniform ys : ys <> [] -> wmean (map (fun y => (y, 1)) ys) == qsum ys / qn (length ys).
Proof.
  intros H. unfold wmean. rewrite !map_map. cbn [fst snd]. rewrite (qsum_const 1 ys). rewrite (qsum_map_ext (fun y => 1 * y) (fun y => y)) by (intros; ring). rewrite map_id.
  apply Qmult_comp; [reflexivity|]. apply Qinv_comp. ring.
Qed.

(* -------------------------------------------------------------- get_classes *)
Lemma cadd_keys m cl : (forall a b i j, nth_error (map fst m) i = Some a -> nth_error (map fst m) j = Some b -> a == b -> i = j) ->
  (forall a b i j, nth_error (map fst (cadd m cl)) i = Some a -> nth_error (map fst (cadd m cl)) j = Some b -> a == b -> i = j) /\
  (forall c, (exists c', In c' (map fst (cadd m cl)) /\ c' == c) <-> (exists c', In c' (map fst m) /\ c' == c) \/ cl == c) /\
  (forall c', In c' (map fst (cadd m cl)) -> In c' (map fst m) \/ c' = cl).
Proof.
  intros U. assert (G: (map fst (cadd m cl) = map fst m /\ exists c', In c' (map fst m) /\ c' == cl) \/ (map fst (cadd m cl) = map fst m ++ [cl] /\ forall a, In a (map fst m) -> ~ a == cl)).
  { clear. induction m as [|[c v] m IH]; cbn [cadd map fst].
    - right. split; [reflexivity|intros ? []].
    - destruct (Qeqb_spec c cl) as [E|E]; cbn [map fst]; [left; split; [reflexivity|]; exists c; split; [now left|exact E]|]. destruct IH as [(-> & c' & A & B)|(-> & H)].
      + left. split; [reflexivity|]. exists c'. split; [now right|exact B].
      + right. split; [reflexivity|]. intros a [<-|Ha]; auto. }
  destruct G as [(-> & c' & A & B)|(-> & H)].
  - split; [exact U|]. split; [|auto]. intros c. split; [auto|]. intros [X|X]; [exact X|]. exists c'. split; [exact A|]. rewrite B. exact X.
  - split; [|split].
    + intros a b i j Ha Hb E. destruct (Nat.lt_ge_cases i (length (map fst m))) as [Hi|Hi], (Nat.lt_ge_cases j (length (map fst m))) as [Hj|Hj].
      * rewrite nth_error_app1 in Ha, Hb by lia. eapply U; eauto.
      * rewrite nth_error_app1 in Ha by lia. rewrite nth_error_app2 in Hb by lia. destruct (j - length (map fst m))%nat as [|n]; [|destruct n; discriminate]. injection Hb as <-.
        exfalso. apply (H a); [eapply nth_error_In; eauto|exact E].
      * rewrite nth_error_app1 in Hb by lia. rewrite nth_error_app2 in Ha by lia. destruct (i - length (map fst m))%nat as [|n]; [|destruct n; discriminate]. injection Ha as <-.
        exfalso. apply (H b); [eapply nth_error_In; eauto|symmetry; exact E].
      * assert (Li: (i < length (map fst m ++ [cl]))%nat) by (apply nth_error_Some; congruence). assert (Lj: (j < length (map fst m ++ [cl]))%nat) by (apply nth_error_Some; congruence).
        rewrite app_length in Li, Lj. cbn [length] in Li, Lj. lia.
    + intros c. split.
      * intros (c' & A & B). apply in_app_iff in A. destruct A as [A|[<-|[]]]; [left; eauto|now right].
      * intros [(c' & A & B)|E]; [exists c'; split; [apply in_app_iff; now left|exact B]|exists cl; split; [apply in_app_iff; right; now left|exact E]].
    + intros c' A. apply in_app_iff in A. destruct A as [A|[<-|[]]]; auto.
Qed.

Lemma Permutation_distinct (l l' : list Q) : Permutation l l' ->
  (forall a b i j, nth_error l i = Some a -> nth_error l j = Some b -> a == b -> i = j) ->
  (forall a b i j, nth_error l' i = Some a -> nth_error l' j = Some b -> a == b -> i = j).
Proof.
  intros P U. assert (ND: forall l : list Q, (forall a b i j, nth_error l i = Some a -> nth_error l j = Some b -> a == b -> i = j) <-> ForallOrdPairs (fun a b => ~ a == b) l).
  { clear. intros l. split.
    - induction l as [|x l IH]; intros U; constructor.
      + apply Forall_forall. intros y Hy E. destruct (In_nth_error _ _ Hy) as (n & Hn). specialize (U x y 0%nat (S n) eq_refl Hn E). discriminate.
      + apply IH. intros a b i j Ha Hb E. specialize (U a b (S i) (S j) Ha Hb E). lia.
    - induction 1 as [|x l F O IH]; intros a b i j Ha Hb E; [destruct i; discriminate|]. rewrite Forall_forall in F. destruct i as [|i], j as [|j]; cbn in Ha, Hb; auto.
      + injection Ha as <-. exfalso. apply (F b (nth_error_In _ _ Hb) E).
      + injection Hb as <-. exfalso. apply (F a (nth_error_In _ _ Ha)). symmetry. exact E.
      + f_equal. eapply IH; eauto. }
  apply ND. apply ND in U. clear ND. induction P.
  - constructor.
  - inversion U; subst. constructor; auto. rewrite Forall_forall in *. intros y Hy. apply H1. eapply Permutation_in; [symmetry; exact P|exact Hy].
  - inversion U as [|? ? F1 U1]; subst. inversion U1 as [|? ? F2 U2]; subst. rewrite Forall_forall in F1, F2. constructor; [|constructor; auto].
    + apply Forall_forall. intros z [<-|Hz]; [|auto]. intros E. apply (F1 x (or_introl eq_refl)). symmetry. exact E.
    + apply Forall_forall. intros z Hz. apply F1. now right.
  - auto.
Qed.

Lemma sorted_distinct_strict (l : list Q) : StronglySorted Qle l -> (forall a b i j, nth_error l i = Some a -> nth_error l j = Some b -> a == b -> i = j) -> StronglySorted Qlt l.
Proof.
  induction 1 as [|x l SS0 IH F]; intros U; constructor.
  - apply IH. intros a b i j Ha Hb E. specialize (U a b (S i) (S j) Ha Hb E). lia.
  - rewrite Forall_forall in *. intros y Hy. specialize (F y Hy). destruct (Qlt_le_dec x y); [assumption|]. exfalso. assert (E: x == y) by lra.
    destruct (In_nth_error _ _ Hy) as (n & Hn). specialize (U x y 0%nat (S n) eq_refl Hn E). discriminate.
Qed.

Lemma get_classes_spec ord fsort y : (forall m, Permutation (ord m) m) -> (forall l, Permutation (fsort l) l /\ StronglySorted Qle (fsort l)) ->
  let cs := fst (get_classes ord fsort y) in
  StronglySorted Qlt cs /\ (forall c, (exists c', In c' cs /\ c' == c) <-> (exists v, In v y /\ v == c)) /\ (forall c, In c cs -> In c y).
Proof.
  intros Ho Hs. unfold get_classes. cbn [fst]. set (m := fold_left cadd y []).
  assert (G: forall y m0, (forall a b i j, nth_error (map fst m0) i = Some a -> nth_error (map fst m0) j = Some b -> a == b -> i = j) ->
    let m := fold_left cadd y m0 in
    (forall a b i j, nth_error (map fst m) i = Some a -> nth_error (map fst m) j = Some b -> a == b -> i = j) /\
    (forall c, (exists c', In c' (map fst m) /\ c' == c) <-> (exists c', In c' (map fst m0) /\ c' == c) \/ (exists v, In v y /\ v == c)) /\
    (forall c', In c' (map fst m) -> In c' (map fst m0) \/ In c' y)).
  { clear. induction y as [|v y IH]; intros m0 U; cbn [fold_left].
    - split; [exact U|]. split; [intros c; split; [auto|intros [X|(v & [] & _)]; exact X]|auto].
    - destruct (cadd_keys m0 v U) as (U1 & K1 & K2). destruct (IH (cadd m0 v) U1) as (A & B & C). cbv zeta in *. split; [exact A|]. split.
      + intros c. rewrite B, K1. split.
        * intros [[X|X]|(w & X & Y)]; [now left|right; exists v; split; [now left|exact X]|right; exists w; split; [now right|exact Y]].
        * intros [X|(w & [<-|X] & Y)]; [left; now left|left; now right|right; eauto].
      + intros c' H. destruct (C c' H) as [X|X]; [|right; now right]. destruct (K2 c' X) as [Y| ->]; [now left|right; now left]. }
  destruct (G y []) as (A & B & C); [intros a b [|i] j Ha; discriminate|]. cbv zeta in *. fold m in A, B, C.
  assert (P1: Permutation (map fst (ord m)) (map fst m)) by (apply Permutation_map, Ho). destruct (Hs (map fst (ord m))) as (P2 & S2).
  assert (P: Permutation (fsort (map fst (ord m))) (map fst m)) by (now rewrite P2). split; [|split].
  - apply sorted_distinct_strict; [exact S2|]. eapply Permutation_distinct; [symmetry; exact P|exact A].
  - intros c. split.
    + intros (c' & I & E). apply (Permutation_in _ P) in I. destruct (proj1 (B c) (ex_intro _ c' (conj I E))) as [(? & [] & _)|X]; exact X.
    + intros X. destruct (proj2 (B c) (or_intror X)) as (c' & I & E). exists c'. split; [|exact E]. eapply Permutation_in; [symmetry; exact P|exact I].
  - intros c I. apply (Permutation_in _ P) in I. destruct (C c I) as [[]|X]. exact X.
Qed.

(* ---------------------------------------------------------- NearestCentroid *)
Lemma nc_constant srt C classes : (forall r, In r C -> (2 <= length r)%nat) -> forall x x', (2 <= length x)%nat -> (2 <= length x')%nat ->
  (forall (l l' : nat -> nat -> bool) idx, (forall i j, l i j = l' i j) -> srt l idx = srt l' idx) -> nc_predict srt C classes x = nc_predict srt C classes x'.
Proof.
  intros HC x x' Hx Hx' Hext. unfold nc_predict. f_equal. f_equal. apply Hext. intros i j.
  assert (P: forall x, (2 <= length x)%nat -> forall b, p0_distance x b = None).
  { intros z Hz b. destruct z as [|z0 [|z1 z]]; cbn [length] in Hz; try lia. reflexivity. }
  now rewrite !P.
Qed.

Lemma centroid_mean X Y cl f : length X = length Y -> (exists y, In y Y /\ y == cl) ->
  let mem i := Qeq_bool (nth i Y 0) cl in
  centroid X Y cl f * qn (length (filter mem (seq 0 (length Y)))) == qsum (map (fun i => if mem i then nth f (nth i X []) 0 else 0) (seq 0 (length Y))).
Proof.
  intros L HE mem. unfold centroid. cbv zeta. set (ft := filter (fun xy => Qeq_bool (snd xy) cl) (combine X Y)).
  assert (A: length ft = length (filter mem (seq 0 (length Y))) /\ qsum (map (fun xy => nth f (fst xy) 0) ft) == qsum (map (fun i => if mem i then nth f (nth i X []) 0 else 0) (seq 0 (length Y)))).
  { unfold ft, mem. clear -L. revert X L. induction Y as [|y Y IH]; intros [|r X] L; cbn [length] in L; try discriminate; [split; [reflexivity|reflexivity]|].
    injection L as L. destruct (IH X L) as (A & B). cbn [combine length seq map filter nth snd fst]. rewrite <- seq_shift, map_map, qsum_cons.
    assert (FL: forall (P : nat -> bool) l, length (filter P (map S l)) = length (filter (fun i => P (S i)) l)).
    { clear. induction l as [|a l IH]; [reflexivity|]. cbn [map filter]. destruct (P (S a)); cbn [length]; now rewrite IH. }
    destruct (Qeq_bool y cl); cbn [length map fst]; rewrite FL; cbn [nth].
    - split; [now rewrite A|]. rewrite qsum_cons. now rewrite B.
    - split; [exact A|]. rewrite B. ring. }
  destruct A as (A & B). rewrite B. rewrite map_length, A.
  assert (NZ: (0 < length (filter mem (seq 0 (length Y))))%nat).
  { destruct HE as (y & Hy & Ey). destruct (In_nth _ _ 0 Hy) as (n & Hn & En). destruct (filter mem (seq 0 (length Y))) as [|a l] eqn:EF; [|cbn; lia].
    exfalso. assert (Hin: In n (filter mem (seq 0 (length Y)))); [|rewrite EF in Hin; destruct Hin]. apply filter_In. split; [apply in_seq; lia|]. unfold mem. rewrite En. now apply Qeq_bool_iff. }
  field. unfold qn. unfold Qeq. cbn. lia.
Qed.

(* --------------------------------------------------------------- rectangles *)
Definition inside (r : rect) (y : list Q) : Prop := forall d, (d < length y)%nat -> nth d (mins r) 0 <= nth d y 0 <= nth d (maxes r) 0.

Lemma rect_split_swapped r d s : maxes (fst (rect_split r d s)) = mins r /\ mins (fst (rect_split r d s)) = upd (maxes r) d s /\
  maxes (snd (rect_split r d s)) = upd (mins r) d s /\ mins (snd (rect_split r d s)) = maxes r.
Proof. cbn. auto. Qed.

Lemma min_coord lo hi x y : lo <= y <= hi -> 0 <= qmax 0 (qmax (lo - x) (x - hi)) <= Qabs (y - x).
Proof.
  intros H. pose proof (Qabs_nonneg (y - x)). pose proof (Qle_Qabs (y - x)). pose proof (Qle_Qabs (- (y - x))) as H2. rewrite Qabs_opp in H2.
  unfold qmax. repeat match goal with |- context [Qle_bool ?a ?b] => destruct (Qleb_spec a b) end; lra.
Qed.
Lemma max_coord lo hi x y : lo <= y <= hi -> Qabs (y - x) <= qmax (hi - x) (x - lo).
Proof. intros H. apply Qabs_case; intros; unfold qmax; destruct (Qleb_spec (hi - x) (x - lo)); lra. Qed.

(* the point of the box nearest to x / farthest from x *)
Definition clamp_pt (r : rect) (x : list Q) : list Q :=
  map (fun d => qmax (nth d (mins r) 0) (qmin (nth d (maxes r) 0) (nth d x 0))) (seq 0 (length x)).
Definition far_pt (r : rect) (x : list Q) : list Q :=
  map (fun d => if Qle_bool (nth d (maxes r) 0 - nth d x 0) (nth d x 0 - nth d (mins r) 0) then nth d (mins r) 0 else nth d (maxes r) 0) (seq 0 (length x)).
Definition proper (r : rect) (n : nat) : Prop := forall d, (d < n)%nat -> nth d (mins r) 0 <= nth d (maxes r) 0.

Lemma nth_map_seq (f : nat -> Q) n d : (d < n)%nat -> nth d (map f (seq 0 n)) 0 = f d.
Proof. intros H. rewrite (nth_indep _ 0 (f 0%nat)) by (rewrite map_length, seq_length; exact H). rewrite map_nth, seq_nth by exact H. reflexivity. Qed.

Lemma clamp_inside r x : proper r (length x) -> inside r (clamp_pt r x) /\ length (clamp_pt r x) = length x /\
  forall d, (d < length x)%nat -> Qabs (nth d (clamp_pt r x) 0 - nth d x 0) == nth d (min_vec r x) 0.
Proof.
  intros H. unfold clamp_pt, min_vec. split; [|split].
  - intros d Hd. rewrite map_length, seq_length in Hd. rewrite nth_map_seq by exact Hd. specialize (H d Hd). unfold qmax, qmin.
    repeat match goal with |- context [Qle_bool ?a ?b] => destruct (Qleb_spec a b) end; lra.
  - now rewrite map_length, seq_length.
  - intros d Hd. rewrite !nth_map_seq by exact Hd. specialize (H d Hd). set (lo := nth d (mins r) 0) in *. set (hi := nth d (maxes r) 0) in *. set (v := nth d x 0) in *. clearbody lo hi v.
    apply Qabs_case; intros; unfold qmax, qmin in *; repeat match goal with |- context [Qle_bool ?a ?b] => destruct (Qleb_spec a b) | H : context [Qle_bool ?a ?b] |- _ => destruct (Qleb_spec a b) end; lra.
Qed.
Lemma far_inside r x : proper r (length x) -> inside r (far_pt r x) /\ length (far_pt r x) = length x /\
  forall d, (d < length x)%nat -> Qabs (nth d (far_pt r x) 0 - nth d x 0) == nth d (max_vec r x) 0.
Proof.
  intros H. unfold far_pt, max_vec. split; [|split].
  - intros d Hd. rewrite map_length, seq_length in Hd. rewrite nth_map_seq by exact Hd. specialize (H d Hd).
    repeat match goal with |- context [Qle_bool ?a ?b] => destruct (Qleb_spec a b) end; lra.
  - now rewrite map_length, seq_length.
  - intros d Hd. rewrite !nth_map_seq by exact Hd. specialize (H d Hd). set (lo := nth d (mins r) 0) in *. set (hi := nth d (maxes r) 0) in *. set (v := nth d x 0) in *. clearbody lo hi v.
    apply Qabs_case; intros; unfold qmax in *; repeat match goal with |- context [Qle_bool ?a ?b] => destruct (Qleb_spec a b) | H : context [Qle_bool ?a ?b] |- _ => destruct (Qleb_spec a b) end; lra.
Qed.

(* |u| <= |v| coordinatewise gives the same for the three norms *)
Lemma fold_qmax_map (l : list Q) : normi l = fold_left (fun dp d => qmax dp d) (map Qabs l) 0.
Proof. reflexivity. Qed.
Lemma norms_mono u v : length u = length v -> (forall d, (d < length u)%nat -> Qabs (nth d u 0) <= Qabs (nth d v 0)) ->
  norm1 u <= norm1 v /\ normi u <= normi v /\ norm2s u <= norm2s v.
Proof.
  intros L H. split; [|split].
  - unfold norm1. rewrite (list_seq u), (list_seq v), !map_map, <- L. apply qsum_le. intros j Hj. apply in_seq in Hj. apply H. lia.
  - unfold normi. apply (proj2 (proj2 (fold_qmax_spec (map Qabs u) 0))); [exact (proj1 (fold_qmax_spec (map Qabs v) 0))|].
    intros e He. apply in_map_iff in He. destruct He as (z & <- & Hz). destruct (In_nth _ _ 0 Hz) as (n & Hn & <-). eapply Qle_trans; [apply H; exact Hn|].
    apply (proj1 (proj2 (fold_qmax_spec (map Qabs v) 0))). apply in_map. apply nth_In. lia.
  - unfold norm2s. rewrite (list_seq u), (list_seq v), !map_map, <- L. apply qsum_le. intros j Hj. apply in_seq in Hj. specialize (H j ltac:(lia)).
    assert (X: forall t, t * t == Qabs t * Qabs t) by (intros t; apply (Qabs_case t (fun s => t * t == s * s)); intros; ring).
    rewrite (X (nth j u 0)), (X (nth j v 0)). pose proof (Qabs_nonneg (nth j u 0)). nra.
Qed.

Definition diffv (y x : list Q) : list Q := map (fun d => nth d y 0 - nth d x 0) (seq 0 (length x)).
Lemma min_point r x y : length y = length x -> inside r y ->
  norm1 (min_vec r x) <= norm1 (diffv y x) /\ normi (min_vec r x) <= normi (diffv y x) /\ norm2s (min_vec r x) <= norm2s (diffv y x).
Proof.
  intros L H. apply norms_mono; [unfold min_vec, diffv; now rewrite !map_length|]. intros d Hd. unfold min_vec, diffv in *. rewrite map_length, seq_length in Hd. rewrite !nth_map_seq by exact Hd.
  destruct (min_coord _ _ (nth d x 0) _ (H d ltac:(lia))) as (A & B). rewrite Qabs_pos by exact A. exact B.
Qed.
Lemma max_point r x y : length y = length x -> inside r y ->
  norm1 (diffv y x) <= norm1 (max_vec r x) /\ normi (diffv y x) <= normi (max_vec r x) /\ norm2s (diffv y x) <= norm2s (max_vec r x).
Proof.
  intros L H. apply norms_mono; [unfold max_vec, diffv; now rewrite !map_length|]. intros d Hd. unfold max_vec, diffv in *. rewrite map_length, seq_length in Hd. rewrite !nth_map_seq by exact Hd.
  pose proof (max_coord _ _ (nth d x 0) _ (H d ltac:(lia))) as A. eapply Qle_trans; [exact A|]. apply Qle_Qabs.
Qed.
Lemma norms_eq u v : length u = length v -> (forall d, (d < length u)%nat -> Qabs (nth d u 0) == Qabs (nth d v 0)) ->
  norm1 u == norm1 v /\ normi u == normi v /\ norm2s u == norm2s v.
Proof.
  intros L H. destruct (norms_mono u v L) as (A1 & A2 & A3); [intros d Hd; rewrite (H d Hd); lra|].
  destruct (norms_mono v u (eq_sym L)) as (B1 & B2 & B3); [intros d Hd; rewrite (H d) by lia; lra|]. repeat split; lra.
Qed.
Lemma min_attained r x : proper r (length x) -> exists y, length y = length x /\ inside r y /\
  norm1 (diffv y x) == norm1 (min_vec r x) /\ normi (diffv y x) == normi (min_vec r x) /\ norm2s (diffv y x) == norm2s (min_vec r x).
Proof.
  intros H. destruct (clamp_inside r x H) as (A & B & C). exists (clamp_pt r x). split; [exact B|]. split; [exact A|].
  apply norms_eq; [unfold min_vec, diffv; now rewrite !map_length|]. intros d Hd. assert (Hd': (d < length x)%nat) by (unfold diffv in Hd; now rewrite map_length, seq_length in Hd).
  assert (E: nth d (diffv (clamp_pt r x) x) 0 = nth d (clamp_pt r x) 0 - nth d x 0) by (unfold diffv; now rewrite nth_map_seq). rewrite E, (C d Hd').
  symmetry. apply Qabs_pos. rewrite <- (C d Hd'). apply Qabs_nonneg.
Qed.
Lemma max_attained r x : proper r (length x) -> exists y, length y = length x /\ inside r y /\
  norm1 (diffv y x) == norm1 (max_vec r x) /\ normi (diffv y x) == normi (max_vec r x) /\ norm2s (diffv y x) == norm2s (max_vec r x).
Proof.
  intros H. destruct (far_inside r x H) as (A & B & C). exists (far_pt r x). split; [exact B|]. split; [exact A|].
  apply norms_eq; [unfold max_vec, diffv; now rewrite !map_length|]. intros d Hd. assert (Hd': (d < length x)%nat) by (unfold diffv in Hd; now rewrite map_length, seq_length in Hd).
  assert (E: nth d (diffv (far_pt r x) x) 0 = nth d (far_pt r x) 0 - nth d x 0) by (unfold diffv; now rewrite nth_map_seq). rewrite E, (C d Hd').
  symmetry. apply Qabs_pos. rewrite <- (C d Hd'). apply Qabs_nonneg.
Qed.

(* ---------------------------------------------------------- NearestCentroid *)
(* a comparison sort.Slice accepts: a strict weak order *)
Definition strict_weak (lt : nat -> nat -> bool) : Prop :=
  (forall i, lt i i = false) /\ (forall i j k, lt i j = true -> lt j k = true -> lt i k = true) /\
  (forall i j k, lt i j = false -> lt j k = false -> lt i k = false).
(* what sort.Slice promises for such a comparison *)
Definition slice_sorts (srt : (nat -> nat -> bool) -> list nat -> list nat) : Prop :=
  forall lt l, strict_weak lt -> Permutation (srt lt l) l /\
  forall a b, (a < b < length (srt lt l))%nat -> lt (nth b (srt lt l) 0%nat) (nth a (srt lt l) 0%nat) = false.
(* an insertion sort *)
Fixpoint ins_by (lt : nat -> nat -> bool) (x : nat) (l : list nat) : list nat :=
  match l with [] => [x] | y :: l => if lt y x then y :: ins_by lt x l else x :: y :: l end.
Definition sort_by (lt : nat -> nat -> bool) (l : list nat) : list nat := fold_right (ins_by lt) [] l.
Lemma ins_by_perm lt x l : Permutation (ins_by lt x l) (x :: l).
Proof.
  induction l as [|y l IH]; [reflexivity|]. cbn [ins_by]. destruct (lt y x); [|reflexivity].
  rewrite IH. apply perm_swap.
Qed.
Lemma sort_by_perm lt l : Permutation (sort_by lt l) l.
Proof. induction l as [|y l IH]; [reflexivity|]. cbn [sort_by fold_right]. fold (sort_by lt l). rewrite ins_by_perm. now rewrite IH. Qed.
Definition asc (lt : nat -> nat -> bool) (l : list nat) : Prop := forall a b, (a < b < length l)%nat -> lt (nth b l 0%nat) (nth a l 0%nat) = false.
Lemma asc_cons lt y l : asc lt (y :: l) <-> (forall x, In x l -> lt x y = false) /\ asc lt l.
Proof.
  split.
  - intros H. split.
    + intros x Hx. apply In_nth with (d := 0%nat) in Hx. destruct Hx as (i & Hi & <-). exact (H 0%nat (S i) ltac:(cbn [length]; lia)).
    + intros a b Hab. exact (H (S a) (S b) ltac:(cbn [length]; lia)).
  - intros (H & A) a b Hab. cbn [length] in Hab. destruct b as [|b]; [lia|]. destruct a as [|a]; cbn [nth].
    + apply H. apply nth_In. lia.
    + apply A. lia.
Qed.
Lemma sort_by_sorts : slice_sorts sort_by.
Proof.
  intros lt l (I & T & N). split; [apply sort_by_perm|]. fold (asc lt (sort_by lt l)).
  induction l as [|x l IH]; [intros a b Hab; cbn [length sort_by fold_right] in Hab; lia|]. cbn [sort_by fold_right]. fold (sort_by lt l).
  revert IH. generalize (sort_by lt l) as s. clear l. induction s as [|y s IHs]; intros A.
  - intros a b Hab. cbn [ins_by length] in Hab. lia.
  - apply asc_cons in A. destruct A as (A1 & A2). cbn [ins_by]. destruct (lt y x) eqn:E.
    + apply asc_cons. split; [|auto]. intros z Hz. apply (Permutation_in _ (ins_by_perm lt x s)) in Hz.
      destruct Hz as [ <- |Hz]; [|auto]. destruct (lt x y) eqn:F; [|reflexivity]. pose proof (T _ _ _ E F) as K. now rewrite I in K.
    + apply asc_cons. split; [|apply asc_cons; auto]. intros z [ <- |Hz]; [exact E|]. apply (N _ y _); auto.
Qed.
Lemma slice_head srt lt l : slice_sorts srt -> strict_weak lt -> l <> [] ->
  In (hd 0%nat (srt lt l)) l /\ forall x, In x l -> lt x (hd 0%nat (srt lt l)) = false.
Proof.
  intros S W Hl. destruct (S lt l W) as (P & A). destruct (srt lt l) as [|h t] eqn:E.
  { apply Permutation_nil in P. contradiction. }
  cbn [hd]. split; [apply (Permutation_in _ P); now left|]. intros x Hx. apply (Permutation_in _ (Permutation_sym P)) in Hx.
  destruct Hx as [ <- |Hx]; [apply W|]. apply In_nth with (d := 0%nat) in Hx. destruct Hx as (i & Hi & <-).
  exact (A 0%nat (Datatypes.S i) ltac:(cbn [length]; lia)).
Qed.
Lemma oltb_weak (d : nat -> option Q) : strict_weak (fun i j => oltb (d i) (d j)).
Proof.
  split; [|split]; unfold oltb.
  - intros i. destruct (d i); [|reflexivity]. destruct (Qltb_spec q q); [lra|reflexivity].
  - intros i j k. destruct (d i), (d j), (d k); try discriminate; auto. destruct (Qltb_spec q q0), (Qltb_spec q0 q1), (Qltb_spec q q1); try discriminate; auto; lra.
  - intros i j k. destruct (d i), (d j), (d k); try discriminate; auto. destruct (Qltb_spec q q0), (Qltb_spec q0 q1), (Qltb_spec q q1); try discriminate; auto; lra.
Qed.
Lemma nc_one srt C classes x : slice_sorts srt -> C <> [] -> (forall r, In r C -> length r = 1%nat) ->
  exists i, (i < length C)%nat /\ nc_predict srt C classes [x] = nth i classes 0 /\
  let D j := Qabs (nth 0 (nth j C []) 0 - x) in
  forall j, (j < length C)%nat -> (D j < 1 -> D i < 1) /\ (D j == 1 -> D i <= 1).
Proof.
  intros S HC H1. set (dist := fun i => p0_distance [x] (nth i C [])).
  destruct (slice_head srt (fun i j => oltb (dist i) (dist j)) (seq 0 (length C)) S (oltb_weak dist)) as (A & B).
  { destruct C; [contradiction|discriminate]. }
  exists (hd 0%nat (srt (fun i j => oltb (dist i) (dist j)) (seq 0 (length C)))). split; [apply in_seq in A; lia|]. split; [reflexivity|].
  set (i := hd 0%nat _) in *. intros D j Hj. specialize (B j ltac:(apply in_seq; lia)). apply in_seq in A.
  assert (P : forall k, (k < length C)%nat -> dist k = if Qltb (D k) 1 then Some 0 else if Qeq_bool (D k) 1 then Some 1 else None).
  { intros k Hk. unfold dist, D. pose proof (H1 (nth k C []) (nth_In C [] Hk)) as L. destruct (nth k C []) as [|y [|z r]]; try discriminate L. reflexivity. }
  rewrite (P i) in B by lia. rewrite (P j) in B by lia. unfold oltb in B.
  destruct (Qltb_spec (D j) 1), (Qltb_spec (D i) 1); try (split; intros; lra).
  - exfalso. destruct (Qeq_bool (D i) 1); [|discriminate]. vm_compute in B. discriminate.
  - split; [lra|]. intros E. apply Qeq_bool_iff in E. rewrite E in B. destruct (Qeq_bool (D i) 1) eqn:F; [|discriminate].
    apply Qeq_bool_iff in F. lra.
Qed.
Lemma nc_many srt C classes x : slice_sorts srt -> (2 <= length x)%nat ->
  forall (Hs : forall lt l, (forall i j, lt i j = false) -> srt lt l = l), C <> [] -> nc_predict srt C classes x = hd 0 classes.
Proof.
  intros S Hx Hs HC. unfold nc_predict. cbv zeta. rewrite Hs.
  - destruct C; [contradiction|]. cbn [length seq hd]. destruct classes; reflexivity.
  - intros i j. destruct x as [|a [|b x]]; cbn [length] in Hx; try lia. reflexivity.
Qed.
Lemma sortedb_spec l : sortedb l = true <-> Sorted Qle l.
Proof.
  unfold sortedb. split.
  - induction l as [|a l IH]; intros H; [constructor|]. rewrite forallb_forall in H. constructor.
    + apply IH. apply forallb_forall. intros i Hi. apply in_seq in Hi. apply (H (S i)). apply in_seq. cbn [length]. lia.
    + destruct l as [|b l]; constructor. specialize (H 0%nat ltac:(apply in_seq; cbn [length]; lia)). now apply Qle_bool_iff.
  - intros H. apply forallb_forall. intros i Hi. apply in_seq in Hi. apply Qle_bool_iff. clear - H Hi. revert i Hi.
    induction H as [|a l H IH Hd]; intros i Hi; [cbn [length] in Hi; lia|]. cbn [length] in Hi. destruct i as [|i].
    + destruct Hd; [cbn [length] in Hi; lia|]. exact H0.
    + cbn [nth] in *. apply IH. lia.
Qed.
Lemma class_column (X : list (list Q)) Y cl f : length X = length Y ->
  map (fun xy : list Q * Q => nth f (fst xy) 0) (filter (fun xy => Qeq_bool (snd xy) cl) (combine X Y)) =
  map (fun i => nth f (nth i X []) 0) (filter (fun i => Qeq_bool (nth i Y 0) cl) (seq 0 (length Y))).
Proof.
  revert X. induction Y as [|y Y IH]; intros [|r X] L; try discriminate L; [reflexivity|]. injection L as L.
  cbn [combine length seq map filter nth snd fst].
  assert (FS : forall (P : nat -> bool) l, filter P (map S l) = map S (filter (fun i => P (S i)) l)).
  { clear. induction l as [|a l IH]; [reflexivity|]. cbn [map filter]. destruct (P (S a)); cbn [map]; now rewrite IH. }
  rewrite <- seq_shift, FS. cbn [nth]. destruct (Qeq_bool y cl); cbn [map fst nth]; rewrite map_map, IH by auto; reflexivity.
Qed.
Lemma median_spec X Y cl f col : length X = length Y ->
  median_col X Y cl f = Some col <->
  col = map (fun i => nth f (nth i X []) 0) (filter (fun i => Qeq_bool (nth i Y 0) cl) (seq 0 (length Y))) /\ Sorted Qle col.
Proof.
  intros L. unfold median_col. cbv zeta. rewrite class_column by auto. set (c := map _ _). rewrite <- sortedb_spec. destruct (sortedb c) eqn:E.
  - split; [intros [= <-]; auto|]. intros (-> & _). reflexivity.
  - split; [discriminate|]. intros (-> & K). congruence.
Qed.
Lemma centroids_at X Y classes c f : (c < length classes)%nat -> (f < length (hd [] X))%nat ->
  nth f (nth c (centroids X Y classes) []) 0 = centroid X Y (nth c classes 0) f.
Proof.
  intros Hc Hf. unfold centroids.
  rewrite (nth_indep _ [] ((fun cl => map (centroid X Y cl) (seq 0 (length (hd [] X)))) 0)) by (rewrite map_length; exact Hc).
  rewrite (map_nth (fun cl => map (centroid X Y cl) (seq 0 (length (hd [] X))))).
  rewrite (nth_indep _ 0 (centroid X Y (nth c classes 0) 0%nat)) by (rewrite map_length, seq_length; exact Hf).
  rewrite map_nth, seq_nth by exact Hf. reflexivity.
Qed.
Lemma kd_row_spec k res : (length res <= k)%nat ->
  length (kd_row k res) = k /\ forall j d, (j < k)%nat -> nth j (kd_row k res) d = if Nat.ltb j (length res) then nth j res d else (0, 0%nat).
Proof.
  intros H. unfold kd_row. split; [rewrite app_length, repeat_length; lia|]. intros j d Hj. destruct (Nat.ltb_spec j (length res)).
  - now apply app_nth1.
  - rewrite app_nth2 by lia. rewrite (nth_indep _ d (0, 0%nat)) by (rewrite repeat_length; lia). apply nth_repeat.
Qed.
