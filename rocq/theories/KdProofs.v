From Verif Require Import QCommon NeighModel.
From Coq Require Import Floats.SpecFloat.
Open Scope Q_scope.

Fixpoint leaves (t : kd) : list nat := match t with Leaf idx => idx | Inner _ _ l g => leaves l ++ leaves g end.
(* every sample of a subtree is inside the box that comes with it, and the
   samples left / right of a split are on that side *)
Fixpoint boxed (data : list (list Q)) (m : nat) (t : kd) (maxes mins : list Q) : Prop :=
  (forall i j, In i (leaves t) -> (j < m)%nat -> nth j mins 0 <= dat data i j <= nth j maxes 0) /\
  match t with
  | Leaf _ => True
  | Inner d s l g =>
    (d < m)%nat /\ (forall i, In i (leaves l) -> dat data i d <= s) /\ (forall i, In i (leaves g) -> s < dat data i d) /\
    boxed data m l (upd maxes d s) mins /\ boxed data m g maxes (upd mins d s)
  end.
(* a leaf is small, or all its samples coincide *)
Fixpoint leaves_ok (data : list (list Q)) (m leaf : nat) (t : kd) : Prop :=
  match t with
  | Leaf idx => (length idx <= leaf)%nat \/ (forall i i' j, In i idx -> In i' idx -> (j < m)%nat -> dat data i j == dat data i' j)
  | Inner _ _ l g => leaves_ok data m leaf l /\ leaves_ok data m leaf g
  end.

Lemma nth_upd (l : list Q) d v j : (d < length l)%nat -> nth j (upd l d v) 0 = if Nat.eqb j d then v else nth j l 0.
Proof.
  intros H. destruct (Nat.eqb_spec j d) as [->|N].
  - apply nth_error_nth. now apply nth_error_upd_same.
  - pose proof (nth_error_upd_other l (i := d) (j := j) v (not_eq_sym N)) as E.
    destruct (nth_error l j) as [y|] eqn:EJ.
    + rewrite (nth_error_nth _ _ _ E), (nth_error_nth _ _ _ EJ). reflexivity.
    + apply nth_error_None in E, EJ. now rewrite !nth_overflow by lia.
Qed.

(* --------------------------------------------------------------- widest *)
Lemma widest_inv (l : list (nat * Q)) : forall acc,
  let r := fold_left (fun acc id => let diff := snd id in
         match snd acc with
         | Some M => if Qltb M diff then (fst id, Some diff) else acc
         | None => (fst id, Some diff)
         end) l acc in
  (r = acc \/ exists id, In id l /\ r = (fst id, Some (snd id))) /\
  (forall id, In id l -> exists M, snd r = Some M /\ snd id <= M) /\
  (forall M0, snd acc = Some M0 -> exists M, snd r = Some M /\ M0 <= M).
Proof.
  induction l as [|id l IH]; intros acc; cbn [fold_left].
  - split; [now left|]. split; [intros ? []|]. intros M0 E. exists M0. split; [exact E|lra].
  - set (acc' := match snd acc with Some M => if Qltb M (snd id) then (fst id, Some (snd id)) else acc | None => (fst id, Some (snd id)) end).
    destruct (IH acc') as (A & B & C). cbv zeta in *. fold acc'. set (r := fold_left _ l acc') in *.
    assert (HA: acc' = acc \/ acc' = (fst id, Some (snd id))).
    { unfold acc'. destruct (snd acc) as [M|]; [destruct (Qltb M (snd id)); auto|auto]. }
    assert (HM: exists M, snd acc' = Some M /\ snd id <= M /\ forall M0, snd acc = Some M0 -> M0 <= M).
    { unfold acc'. destruct (snd acc) as [M|] eqn:E.
      - destruct (Qltb_spec M (snd id)).
        + exists (snd id). split; [reflexivity|]. split; [lra|]. intros M0 [= <-]. lra.
        + exists M. split; [exact E|]. split; [lra|]. intros M0 [= <-]. lra.
      - exists (snd id). split; [reflexivity|]. split; [lra|]. intros M0 [=]. }
    destruct HM as (M & EM & HM1 & HM2). destruct (C M EM) as (M' & EM' & HM'). split; [|split].
    + destruct A as [A|(id' & I & E)]; [|right; exists id'; split; [now right|exact E]].
      rewrite A. destruct HA as [-> | ->]; [now left|]. right. exists id. split; [now left|reflexivity].
    + intros id' [<-|I]; [|now apply B]. exists M'. split; [exact EM'|lra].
    + intros M0 E0. exists M'. split; [exact EM'|]. specialize (HM2 M0 E0). lra.
Qed.

Lemma widest_spec maxes mins : length maxes = length mins -> (0 < length maxes)%nat ->
  (widest maxes mins < length maxes)%nat /\
  forall j, (j < length maxes)%nat -> nth j maxes 0 - nth j mins 0 <= nth (widest maxes mins) maxes 0 - nth (widest maxes mins) mins 0.
Proof.
  intros HL HP. unfold widest. set (l := combine (seq 0 (length maxes)) (zip Qminus maxes mins)).
  assert (HZ: length (zip Qminus maxes mins) = length maxes) by (now rewrite zip_length).
  assert (HI: forall j, (j < length maxes)%nat -> In (j, nth j maxes 0 - nth j mins 0) l).
  { intros j Hj. assert (Hl: (j < length l)%nat) by (unfold l; rewrite combine_length, seq_length, HZ; lia).
    assert (E: nth j l (0%nat, 0) = (j, nth j maxes 0 - nth j mins 0)).
    { unfold l. rewrite combine_nth by (rewrite seq_length, HZ; reflexivity). rewrite seq_nth by lia. rewrite (nth_zip Qminus maxes mins j 0 0 0) by lia. reflexivity. }
    rewrite <- E. now apply nth_In. }
  assert (HB: forall id, In id l -> (fst id < length maxes)%nat /\ snd id = nth (fst id) maxes 0 - nth (fst id) mins 0).
  { intros (j, v) I. destruct (In_nth _ _ (0%nat, 0) I) as (n & Hn & E). unfold l in Hn. rewrite combine_length, seq_length, HZ in Hn.
    unfold l in E. rewrite combine_nth in E by (rewrite seq_length, HZ; reflexivity). rewrite seq_nth in E by lia. rewrite (nth_zip Qminus maxes mins n 0 0 0) in E by lia.
    injection E as <- <-. cbn [fst snd]. split; [lia|reflexivity]. }
  destruct (widest_inv l (0%nat, None)) as (A & B & _). cbv zeta in *. set (r := fold_left _ l (0%nat, None)) in *.
  destruct A as [A|(id & I & E)].
  - exfalso. destruct (B _ (HI 0%nat HP)) as (M & EM & _). rewrite A in EM. discriminate.
  - destruct (HB id I) as (H1 & H2). rewrite E. cbn [fst]. split; [exact H1|]. intros j Hj.
    destruct (B _ (HI j Hj)) as (M & EM & HM). rewrite E in EM. cbn [snd] in EM, HM. injection EM as <-. rewrite H2 in HM. exact HM.
Qed.

(* ------------------------------------------------------------- kd_split *)
Lemma dmin_spec data d idx : idx <> [] -> (forall i, In i idx -> dmin data d idx <= dat data i d) /\ exists i, In i idx /\ dat data i d = dmin data d idx.
Proof.
  intros H. destruct idx as [|i0 r]; [congruence|]. clear H. unfold dmin.
  assert (G: forall r M, let v := fold_left (fun M i => if Qltb (dat data i d) M then dat data i d else M) r M in
     v <= M /\ (forall i, In i r -> v <= dat data i d) /\ (v = M \/ exists i, In i r /\ dat data i d = v)).
  { clear. induction r as [|i r IH]; intros M; cbn [fold_left].
    - split; [lra|]. split; [intros ? []|now left].
    - destruct (IH (if Qltb (dat data i d) M then dat data i d else M)) as (A & B & C). cbv zeta in *. set (v := fold_left _ r _) in *.
      destruct (Qltb_spec (dat data i d) M).
      + split; [lra|]. split; [intros j [<-|Hj]; auto; lra|]. right. destruct C as [C|(j & Hj & E)]; [exists i; split; [now left|now rewrite C]|exists j; split; [now right|exact E]].
      + split; [lra|]. split; [intros j [<-|Hj]; auto; lra|]. destruct C as [C|(j & Hj & E)]; [now left|right; exists j; split; [now right|exact E]]. }
  destruct (G r (dat data i0 d)) as (A & B & C). cbv zeta in *. set (v := fold_left _ r _) in *. split.
  - intros i [<-|Hi]; auto.
  - destruct C as [C|(j & Hj & E)]; [exists i0; split; [now left|now rewrite C]|exists j; split; [now right|exact E]].
Qed.
Lemma dmax_spec data d idx : idx <> [] -> (forall i, In i idx -> dat data i d <= dmax data d idx) /\ exists i, In i idx /\ dat data i d = dmax data d idx.
Proof.
  intros H. destruct idx as [|i0 r]; [congruence|]. clear H. unfold dmax.
  assert (G: forall r M, let v := fold_left (fun M i => if Qltb M (dat data i d) then dat data i d else M) r M in
     M <= v /\ (forall i, In i r -> dat data i d <= v) /\ (v = M \/ exists i, In i r /\ dat data i d = v)).
  { clear. induction r as [|i r IH]; intros M; cbn [fold_left].
    - split; [lra|]. split; [intros ? []|now left].
    - destruct (IH (if Qltb M (dat data i d) then dat data i d else M)) as (A & B & C). cbv zeta in *. set (v := fold_left _ r _) in *.
      destruct (Qltb_spec M (dat data i d)).
      + split; [lra|]. split; [intros j [<-|Hj]; auto; lra|]. right. destruct C as [C|(j & Hj & E)]; [exists i; split; [now left|now rewrite C]|exists j; split; [now right|exact E]].
      + split; [lra|]. split; [intros j [<-|Hj]; auto; lra|]. destruct C as [C|(j & Hj & E)]; [now left|right; exists j; split; [now right|exact E]]. }
  destruct (G r (dat data i0 d)) as (A & B & C). cbv zeta in *. set (v := fold_left _ r _) in *. split.
  - intros i [<-|Hi]; auto.
  - destruct C as [C|(j & Hj & E)]; [exists i0; split; [now left|now rewrite C]|exists j; split; [now right|exact E]].
Qed.

Lemma filter_nil {A} (f : A -> bool) l : filter f l = [] <-> forall x, In x l -> f x = false.
Proof.
  split.
  - intros H x Hx. destruct (f x) eqn:E; auto. assert (I: In x (filter f l)) by (apply filter_In; auto). rewrite H in I. destruct I.
  - induction l as [|x l IH]; intros H; cbn; auto. rewrite (H x) by now left. apply IH. intros; apply H; now right.
Qed.
Lemma filter_all {A} (f : A -> bool) l : (forall x, In x l -> f x = true) -> filter f l = l.
Proof. induction l as [|x l IH]; intros H; cbn; auto. rewrite (H x) by now left. f_equal. apply IH. intros; apply H; now right. Qed.

Lemma filter_length_le {A} (f : A -> bool) l : (length (filter f l) <= length l)%nat.
Proof. induction l as [|x l IH]; cbn; [lia|]. destruct (f x); cbn; lia. Qed.

Lemma Qltb_true x y : Qltb x y = true <-> x < y.
Proof. destruct (Qltb_spec x y); split; intros; auto; try discriminate; lra. Qed.
Lemma Qltb_false x y : Qltb x y = false <-> y <= x.
Proof. destruct (Qltb_spec x y); split; intros; auto; try discriminate; lra. Qed.
Lemma Qleb_false x y : Qle_bool x y = false <-> y < x.
Proof. destruct (Qleb_spec x y); split; intros; auto; try discriminate; lra. Qed.

Lemma lg_perm data d idx s : Permutation (fst (lgfill data d idx s) ++ snd (lgfill data d idx s)) idx.
Proof.
  unfold lgfill; cbn [fst snd]. induction idx as [|i idx IH]; cbn [filter app]; [constructor|].
  destruct (Qleb_spec (dat data i d) s), (Qltb_spec s (dat data i d)); try lra.
  - cbn [app]. now constructor.
  - symmetry. apply Permutation_cons_app. symmetry. exact IH.
Qed.

(* the three cases of the sliding midpoint *)
Lemma kd_split_cases data d idx s0 : idx <> [] ->
  let '(s, l, g) := kd_split data d idx s0 in
  l <> [] /\ (l, g) = lgfill data d idx s /\
  ((s = s0 /\ g <> []) \/
   (s = dmin data d idx /\ g <> [] /\ forall i, In i idx -> s0 < dat data i d) \/
   (s = dmax data d idx /\ g = [] /\ l = idx /\
     ((forall i, In i idx -> dat data i d <= s0) \/ (forall i, In i idx -> s0 < dat data i d /\ dat data i d == dmin data d idx)))).
Proof.
  intros Hne. unfold kd_split.
  assert (MAX: lgfill data d idx (dmax data d idx) = (idx, [])).
  { unfold lgfill. rewrite filter_all, (proj2 (filter_nil _ _)); auto.
    - intros i Hi. apply Qltb_false. now apply dmax_spec.
    - intros i Hi. apply Qle_bool_iff. now apply dmax_spec. }
  destruct (lgfill data d idx s0) as [l0 g0] eqn:E0.
  destruct l0 as [|a l0].
  - assert (Hall: forall i, In i idx -> s0 < dat data i d).
    { unfold lgfill in E0. injection E0 as E1 _. rewrite filter_nil in E1. intros i Hi. apply Qleb_false. auto. }
    destruct (lgfill data d idx (dmin data d idx)) as [l1 g1] eqn:E1.
    assert (Hl1: l1 <> []).
    { destruct (proj2 (dmin_spec data d idx Hne)) as (i & Hi & Ei). intros H. unfold lgfill in E1. injection E1 as E1 _. rewrite H, filter_nil in E1.
      specialize (E1 i Hi). apply Qleb_false in E1. rewrite Ei in E1. lra. }
    destruct g1 as [|b g1].
    + rewrite MAX.
      assert (HA: forall i, In i idx -> s0 < dat data i d /\ dat data i d == dmin data d idx).
      { intros i Hi. split; [auto|]. unfold lgfill in E1. injection E1 as _ E2. rewrite filter_nil in E2. specialize (E2 i Hi). apply Qltb_false in E2.
        pose proof (proj1 (dmin_spec data d idx Hne) i Hi). lra. }
      destruct idx as [|i1 r']; [congruence|].
      split; [discriminate|]. split; [now rewrite MAX|]. right; right. split; [reflexivity|]. split; [reflexivity|]. split; [reflexivity|]. right. exact HA.
    + destruct l1 as [|c l1]; [congruence|]. split; [discriminate|]. split; [now rewrite E1|]. right; left. split; [reflexivity|]. split; [discriminate|exact Hall].
  - destruct g0 as [|b g0].
    + rewrite MAX. assert (Hall: forall i, In i idx -> dat data i d <= s0).
      { unfold lgfill in E0. injection E0 as _ E1. rewrite filter_nil in E1. intros i Hi. apply Qltb_false. auto. }
      destruct idx as [|i1 r']; [congruence|]. split; [discriminate|]. split; [now rewrite MAX|]. right; right. repeat split; auto.
    + split; [discriminate|]. split; [now rewrite E0|]. left. split; [reflexivity|discriminate].
Qed.

Lemma kd_split_perm data d idx s0 : idx <> [] ->
  let '(s, l, g) := kd_split data d idx s0 in
  Permutation (l ++ g) idx /\ (forall i, In i l -> dat data i d <= s) /\ (forall i, In i g -> s < dat data i d).
Proof.
  intros H. pose proof (kd_split_cases data d idx s0 H) as C. destruct (kd_split data d idx s0) as [[s l] g]. destruct C as (_ & E & _).
  pose proof (lg_perm data d idx s) as P. rewrite <- E in P. cbn [fst snd] in P. split; [exact P|].
  unfold lgfill in E. injection E as -> ->. split; intros i Hi; apply filter_In in Hi; destruct Hi as (_ & Hi).
  - now apply Qle_bool_iff.
  - now apply Qltb_true.
Qed.

(* ---------------------------------------------------------- C32: structure *)
Lemma build_spec mid data leaf m : (1 <= leaf)%nat -> (0 < m)%nat -> forall fuel idx maxes mins t,
  length maxes = m -> length mins = m -> kd_build mid fuel data leaf idx maxes mins = Some t ->
  (forall i j, In i idx -> (j < m)%nat -> nth j mins 0 <= dat data i j <= nth j maxes 0) ->
  Permutation (leaves t) idx /\ boxed data m t maxes mins /\ leaves_ok data m leaf t.
Proof.
  intros Hleaf Hm. induction fuel as [|f IH]; intros idx maxes mins t L1 L2 E HB; cbn [kd_build] in E; [discriminate|].
  destruct (Nat.leb_spec (length idx) leaf) as [HL|HL].
  { injection E as <-. cbn. repeat split; auto; try (now apply HB). }
  destruct (widest_spec maxes mins) as (W1 & W2); [congruence|lia|]. set (d := widest maxes mins) in *.
  destruct (Qeqb_spec (nth d maxes 0) (nth d mins 0)) as [EQ|NE].
  { injection E as <-. cbn. repeat split; auto; try (now apply HB). right. intros i i' j Hi Hi' Hj.
    specialize (W2 j ltac:(lia)). pose proof (HB i j Hi Hj). pose proof (HB i' j Hi' Hj). lra. }
  assert (Hne: idx <> []) by (destruct idx; [cbn in HL; lia|discriminate]).
  pose proof (kd_split_perm data d idx (mid (nth d maxes 0) (nth d mins 0)) Hne) as P.
  destruct (kd_split data d idx (mid (nth d maxes 0) (nth d mins 0))) as [[s l] g]. destruct P as (P & PL & PG).
  destruct (kd_build mid f data leaf l (upd maxes d s) mins) as [tl|] eqn:EL; [|discriminate].
  destruct (kd_build mid f data leaf g maxes (upd mins d s)) as [tg|] eqn:EG; [|discriminate]. injection E as <-.
  assert (IL: forall i, In i l -> In i idx) by (intros i Hi; apply (Permutation_in _ P), in_app_iff; auto).
  assert (IG: forall i, In i g -> In i idx) by (intros i Hi; apply (Permutation_in _ P), in_app_iff; auto).
  destruct (IH l (upd maxes d s) mins tl) as (A1 & A2 & A3); [now rewrite upd_length|exact L2|exact EL| |].
  { intros i j Hi Hj. rewrite nth_upd by lia. pose proof (HB i j (IL i Hi) Hj). destruct (Nat.eqb_spec j d) as [->|]; [|auto]. specialize (PL i Hi). split; [apply H|exact PL]. }
  destruct (IH g maxes (upd mins d s) tg) as (B1 & B2 & B3); [exact L1|now rewrite upd_length|exact EG| |].
  { intros i j Hi Hj. rewrite nth_upd by lia. pose proof (HB i j (IG i Hi) Hj). destruct (Nat.eqb_spec j d) as [->|]; [|auto]. specialize (PG i Hi). split; [lra|apply H]. }
  cbn [leaves boxed leaves_ok]. assert (PP: Permutation (leaves tl ++ leaves tg) idx) by (rewrite A1, B1; exact P).
  split; [exact PP|]. split; [|split; auto]. split.
  - intros i j Hi Hj. apply HB; auto. exact (Permutation_in _ PP Hi).
  - split; [lia|]. split; [intros i Hi; apply PL; exact (Permutation_in _ A1 Hi)|]. split; [intros i Hi; apply PG; exact (Permutation_in _ B1 Hi)|]. auto.
Qed.

Lemma col_max_spec data j : forall i, (i < length data)%nat -> dat data i j <= col_max data j.
Proof.
  unfold col_max, dat. destruct data as [|r0 r]; cbn [tl hd length]; [lia|].
  assert (G: forall r M, let v := fold_left (fun M r => if Qltb M (nth j r 0) then nth j r 0 else M) r M in
     M <= v /\ forall x, In x r -> nth j x 0 <= v).
  { clear. induction r as [|x r IH]; intros M; cbn [fold_left]; [split; [lra|intros ? []]|].
    destruct (IH (if Qltb M (nth j x 0) then nth j x 0 else M)) as (A & B). cbv zeta in *. set (v := fold_left _ r _) in *.
    destruct (Qltb_spec M (nth j x 0)); (split; [lra|intros y [<-|Hy]; auto; lra]). }
  destruct (G r (nth j r0 0)) as (A & B). cbv zeta in *. intros [|i] Hi; cbn [nth]; [exact A|]. apply B. apply nth_In. lia.
Qed.
Lemma col_min_spec data j : forall i, (i < length data)%nat -> col_min data j <= dat data i j.
Proof.
  unfold col_min, dat. destruct data as [|r0 r]; cbn [tl hd length]; [lia|].
  assert (G: forall r M, let v := fold_left (fun M r => if Qltb (nth j r 0) M then nth j r 0 else M) r M in
     v <= M /\ forall x, In x r -> v <= nth j x 0).
  { clear. induction r as [|x r IH]; intros M; cbn [fold_left]; [split; [lra|intros ? []]|].
    destruct (IH (if Qltb (nth j x 0) M then nth j x 0 else M)) as (A & B). cbv zeta in *. set (v := fold_left _ r _) in *.
    destruct (Qltb_spec (nth j x 0) M); (split; [lra|intros y [<-|Hy]; auto; lra]). }
  destruct (G r (nth j r0 0)) as (A & B). cbv zeta in *. intros [|i] Hi; cbn [nth]; [exact A|]. apply B. apply nth_In. lia.
Qed.

Lemma kd_box0 data : let m := length (hd [] data) in
  length (kd_maxes data) = m /\ length (kd_mins data) = m /\
  forall i j, (i < length data)%nat -> (j < m)%nat -> nth j (kd_mins data) 0 <= dat data i j <= nth j (kd_maxes data) 0.
Proof.
  cbv zeta. unfold kd_maxes, kd_mins. rewrite !map_length, seq_length. split; [reflexivity|]. split; [reflexivity|]. intros i j Hi Hj.
  assert (N: forall f : nat -> Q, nth j (map f (seq 0 (length (hd [] data)))) 0 = f j).
  { intros f. rewrite (nth_indep _ 0 (f 0%nat)) by (rewrite map_length, seq_length; exact Hj). rewrite map_nth, seq_nth by exact Hj. reflexivity. }
  rewrite !N. split; [now apply col_min_spec|now apply col_max_spec].
Qed.

Lemma kd_new_spec mid fuel data leafsize t : (0 < length (hd [] data))%nat -> kd_new mid fuel data leafsize = Some t ->
  let leaf := if Nat.ltb leafsize 1 then 1%nat else leafsize in
  Permutation (leaves t) (seq 0 (length data)) /\ boxed data (length (hd [] data)) t (kd_maxes data) (kd_mins data) /\
  leaves_ok data (length (hd [] data)) leaf t.
Proof.
  intros Hm E leaf. unfold kd_new in E. destruct (kd_box0 data) as (L1 & L2 & HB).
  assert (Hl: (1 <= leaf)%nat) by (unfold leaf; destruct (Nat.ltb_spec leafsize 1); lia).
  destruct data as [|r0 r] eqn:ED; [discriminate|]. rewrite <- ED in *.
  apply (build_spec mid data leaf (length (hd [] data)) Hl Hm fuel (seq 0 (length data)) (kd_maxes data) (kd_mins data) t L1 L2 E).
  intros i j Hi Hj. apply in_seq in Hi. apply HB; [lia|exact Hj].
Qed.

(* -------------------------------------------------------- C33: termination *)
Lemma build_mono mid data leaf : forall f idx maxes mins t, kd_build mid f data leaf idx maxes mins = Some t ->
  forall f', (f <= f')%nat -> kd_build mid f' data leaf idx maxes mins = Some t.
Proof.
  induction f as [|f IH]; intros idx maxes mins t E f' Hf; [discriminate|]. destruct f' as [|f']; [lia|]. cbn [kd_build] in *.
  destruct (Nat.leb (length idx) leaf); [exact E|]. destruct (Qeq_bool _ _); [exact E|]. destruct (kd_split _ _ _ _) as [[s l] g].
  destruct (kd_build mid f data leaf l _ _) as [tl|] eqn:EL; [|discriminate]. destruct (kd_build mid f data leaf g _ _) as [tg|] eqn:EG; [|discriminate].
  rewrite (IH _ _ _ _ EL f') by lia. rewrite (IH _ _ _ _ EG f') by lia. exact E.
Qed.

Definition tight (data : list (list Q)) (idx : list nat) (maxes : list Q) (j : nat) : bool :=
  existsb (fun i => Qeq_bool (dat data i j) (nth j maxes 0)) idx.
Definition loose (data : list (list Q)) (m : nat) (idx : list nat) (maxes : list Q) : nat :=
  length (filter (fun j => negb (tight data idx maxes j)) (seq 0 m)).

Lemma filter_len_lt {A} (f g : A -> bool) l x : (forall y, In y l -> f y = true -> g y = true) -> In x l -> f x = false -> g x = true ->
  (length (filter f l) < length (filter g l))%nat.
Proof.
  intros H Hx F G. induction l as [|y l IH]; [destruct Hx|]. cbn [filter].
  assert (LE: (length (filter f l) <= length (filter g l))%nat).
  { clear -H. assert (H': forall z, In z l -> f z = true -> g z = true) by (intros; apply H; auto; now right). clear H.
    induction l as [|z l IH]; cbn; auto. assert (IHH: (length (filter f l) <= length (filter g l))%nat) by (apply IH; intros; apply H'; auto; now right).
    destruct (f z) eqn:E; [rewrite (H' z (or_introl eq_refl) E); cbn; lia|destruct (g z); cbn; lia]. }
  destruct Hx as [->|Hx].
  - rewrite F, G. cbn. lia.
  - specialize (IH (fun z Hz => H z (or_intror Hz)) Hx). destruct (f y) eqn:E; [rewrite (H y (or_introl eq_refl) E); cbn; lia|destruct (g y); cbn; lia].
Qed.

Lemma build_terminates mid data leaf m : (1 <= leaf)%nat -> (0 < m)%nat ->
  (forall a b, b < a -> b <= mid a b /\ mid a b < a) ->
  (forall j v, (j < m)%nat -> (length (filter (fun i => Qeq_bool (dat data i j) v) (seq 0 (length data))) <= leaf)%nat) ->
  forall n k idx maxes mins, length maxes = m -> length mins = m -> NoDup idx -> (forall i, In i idx -> (i < length data)%nat) ->
  (forall i j, In i idx -> (j < m)%nat -> nth j mins 0 <= dat data i j <= nth j maxes 0) ->
  (length idx <= n)%nat -> (loose data m idx maxes <= k)%nat ->
  exists fuel t, kd_build mid fuel data leaf idx maxes mins = Some t.
Proof.
  intros Hleaf Hm Hmid Hdup.
  assert (DUP: forall idx j, (j < m)%nat -> NoDup idx -> (forall i, In i idx -> (i < length data)%nat) -> (leaf < length idx)%nat ->
     forall v, exists i, In i idx /\ ~ dat data i j == v).
  { intros idx j Hj ND HI HL v. destruct (existsb (fun i => negb (Qeq_bool (dat data i j) v)) idx) eqn:E.
    - apply existsb_exists in E. destruct E as (i & Hi & E). exists i. split; [exact Hi|]. destruct (Qeqb_spec (dat data i j) v); [discriminate|auto].
    - exfalso. assert (A: forall i, In i idx -> Qeq_bool (dat data i j) v = true).
      { intros i Hi. destruct (Qeq_bool (dat data i j) v) eqn:EQ; auto. assert (T: existsb (fun i => negb (Qeq_bool (dat data i j) v)) idx = true) by (apply existsb_exists; exists i; now rewrite EQ). congruence. }
      specialize (Hdup j v Hj). assert (length idx <= length (filter (fun i => Qeq_bool (dat data i j) v) (seq 0 (length data))))%nat; [|lia].
      apply NoDup_incl_length; [exact ND|]. intros i Hi. apply filter_In. split; [apply in_seq; specialize (HI i Hi); lia|auto]. }
  induction n as [n IHn] using lt_wf_ind. induction k as [k IHk] using lt_wf_ind.
  intros idx maxes mins L1 L2 ND HI HB Hn Hk.
  destruct (Nat.leb_spec (length idx) leaf) as [HL|HL].
  { exists 1%nat, (Leaf idx). cbn [kd_build]. destruct (Nat.leb_spec (length idx) leaf); [reflexivity|lia]. }
  destruct (widest_spec maxes mins) as (W1 & W2); [congruence|lia|].
  destruct (Qeqb_spec (nth (widest maxes mins) maxes 0) (nth (widest maxes mins) mins 0)) as [EQ|NE].
  { exists 1%nat, (Leaf idx). cbn [kd_build]. destruct (Nat.leb_spec (length idx) leaf); [lia|].
    destruct (Qeqb_spec (nth (widest maxes mins) maxes 0) (nth (widest maxes mins) mins 0)); [reflexivity|contradiction]. }
  assert (Hne: idx <> []) by (destruct idx; [cbn in HL; lia|discriminate]).
  set (d := widest maxes mins) in *. set (mx := nth d maxes 0) in *. set (mn := nth d mins 0) in *.
  assert (Hlt: mn < mx). { destruct idx as [|i r]; [congruence|]. pose proof (HB i d (or_introl eq_refl) ltac:(lia)). fold mx mn in H. lra. }
  destruct (Hmid mx mn Hlt) as (M1 & M2).
  pose proof (kd_split_cases data d idx (mid mx mn) Hne) as C. pose proof (kd_split_perm data d idx (mid mx mn) Hne) as P.
  destruct (kd_split data d idx (mid mx mn)) as [[s l] g] eqn:ES. destruct C as (Hl & Elg & C). destruct P as (P & PL & PG).
  assert (IL: forall i, In i l -> In i idx) by (intros i Hi; apply (Permutation_in _ P), in_app_iff; auto).
  assert (IG: forall i, In i g -> In i idx) by (intros i Hi; apply (Permutation_in _ P), in_app_iff; auto).
  assert (NDA: NoDup (l ++ g)) by (apply (Permutation_NoDup (Permutation_sym P)); exact ND).
  assert (NDl: NoDup l). { clear -NDA. induction l as [|y l IH]; [constructor|]. inversion NDA; subst. constructor; [intros Hy; apply H1, in_app_iff; auto|auto]. }
  assert (NDg: NoDup g). { clear -NDA. induction l as [|y l IH]; [exact NDA|]. inversion NDA; subst. auto. }
  assert (LEN: (length l + length g = length idx)%nat) by (rewrite <- app_length; now apply Permutation_length).
  assert (BL: forall i j, In i l -> (j < m)%nat -> nth j mins 0 <= dat data i j <= nth j (upd maxes d s) 0).
  { intros i j Hi Hj. rewrite nth_upd by lia. pose proof (HB i j (IL i Hi) Hj). destruct (Nat.eqb_spec j d) as [->|]; [|auto]. specialize (PL i Hi). split; [apply H|exact PL]. }
  assert (BG: forall i j, In i g -> (j < m)%nat -> nth j (upd mins d s) 0 <= dat data i j <= nth j maxes 0).
  { intros i j Hi Hj. rewrite nth_upd by lia. pose proof (HB i j (IG i Hi) Hj). destruct (Nat.eqb_spec j d) as [->|]; [|auto]. specialize (PG i Hi). split; [lra|apply H]. }
  assert (FIN: (exists f t, kd_build mid f data leaf l (upd maxes d s) mins = Some t) -> (exists f t, kd_build mid f data leaf g maxes (upd mins d s) = Some t) ->
     exists fuel t, kd_build mid fuel data leaf idx maxes mins = Some t).
  { intros (f1 & t1 & E1) (f2 & t2 & E2). exists (S (Nat.max f1 f2)), (Inner d s t1 t2). cbn [kd_build].
    destruct (Nat.leb_spec (length idx) leaf); [lia|]. fold d. fold mx mn. destruct (Qeqb_spec mx mn); [contradiction|]. rewrite ES.
    rewrite (build_mono _ _ _ _ _ _ _ _ E1) by lia. rewrite (build_mono _ _ _ _ _ _ _ _ E2) by lia. reflexivity. }
  assert (LOOSE: forall idx' mx', (loose data m idx' mx' <= m)%nat) by (intros; unfold loose; etransitivity; [apply filter_length_le|rewrite seq_length; lia]).
  destruct C as [(_ & Hg)|[(_ & Hg & _)|(Es & Eg & El & CC)]].
  1, 2: (assert (length g <> 0)%nat by (intros H0; apply length_zero_iff_nil in H0; congruence); assert (length l <> 0)%nat by (intros H0; apply length_zero_iff_nil in H0; congruence);
    apply FIN; [apply (IHn (length l)) with (k := m)|apply (IHn (length g)) with (k := m)]; auto; try lia; rewrite ?upd_length; auto).
  apply FIN.
  - destruct CC as [CC|CC].
    + subst l. apply (IHk (loose data m idx (upd maxes d s))) with (idx := idx); auto; [|now rewrite upd_length].
      eapply Nat.lt_le_trans; [|exact Hk]. unfold loose. apply filter_len_lt with (x := d).
      * intros j Hj. unfold tight. rewrite nth_upd by lia. destruct (Nat.eqb_spec j d) as [->|]; [|auto]. intros T. exfalso.
        apply negb_true_iff in T. destruct (proj2 (dmax_spec data d idx Hne)) as (i & Hi & Ei).
        assert (X: existsb (fun i => Qeq_bool (dat data i d) s) idx = true) by (apply existsb_exists; exists i; split; auto; apply Qeq_bool_iff; rewrite Ei, Es; reflexivity). congruence.
      * apply in_seq. lia.
      * apply negb_false_iff. unfold tight. rewrite nth_upd by lia. rewrite Nat.eqb_refl. apply existsb_exists.
        destruct (proj2 (dmax_spec data d idx Hne)) as (i & Hi & Ei). exists i. split; auto. apply Qeq_bool_iff. rewrite Ei, Es. reflexivity.
      * apply negb_true_iff. unfold tight. destruct (existsb _ idx) eqn:X; auto. exfalso. apply existsb_exists in X. destruct X as (i & Hi & X). apply Qeq_bool_iff in X.
        specialize (CC i Hi). fold mx in X. lra.
    + exfalso. destruct (DUP idx d ltac:(lia) ND HI HL (dmin data d idx)) as (i & Hi & N). apply N. now apply CC.
  - subst g. exists 1%nat, (Leaf []). reflexivity.
Qed.

Lemma kd_new_terminates mid data leafsize : let m := length (hd [] data) in let leaf := if Nat.ltb leafsize 1 then 1%nat else leafsize in
  data <> [] -> (0 < m)%nat -> (forall a b, b < a -> b <= mid a b /\ mid a b < a) ->
  (forall j v, (j < m)%nat -> (length (filter (fun i => Qeq_bool (nth j (nth i data []) 0%Q) v) (seq 0 (length data))) <= leaf)%nat) ->
  exists fuel t, kd_new mid fuel data leafsize = Some t.
Proof.
  intros m leaf Hd Hm Hmid Hdup. assert (Hl: (1 <= leaf)%nat) by (unfold leaf; destruct (Nat.ltb_spec leafsize 1); lia).
  destruct (kd_box0 data) as (L1 & L2 & HB).
  destruct (build_terminates mid data leaf m Hl Hm Hmid Hdup (length data) m (seq 0 (length data)) (kd_maxes data) (kd_mins data)) as (f & t & E); auto.
  - apply seq_NoDup.
  - intros i Hi. apply in_seq in Hi. lia.
  - intros i j Hi Hj. apply in_seq in Hi. apply HB; [lia|exact Hj].
  - now rewrite seq_length.
  - unfold loose. etransitivity; [apply filter_length_le|rewrite seq_length; lia].
  - exists f, t. unfold kd_new. destruct data; [congruence|]. exact E.
Qed.

(* never terminates: more than [leaf] copies of the top value of one column *)
Lemma build_loops data leaf idx v mn : (leaf < length idx)%nat -> mn < v -> (forall i, In i idx -> dat data i 0 = v) ->
  forall fuel, kd_build exact_mid fuel data leaf idx [v] [mn] = None.
Proof.
  intros HL Hlt Hv. assert (Hne: idx <> []) by (destruct idx; [cbn in HL; lia|discriminate]).
  assert (ES: kd_split data 0 idx (exact_mid v mn) = (v, idx, [])).
  { pose proof (kd_split_cases data 0 idx (exact_mid v mn) Hne) as C. destruct (kd_split data 0 idx (exact_mid v mn)) as [[s l] g].
    assert (Hmx: dmax data 0 idx = v) by (destruct (proj2 (dmax_spec data 0 idx Hne)) as (i & Hi & <-); auto).
    assert (Hmn: dmin data 0 idx = v) by (destruct (proj2 (dmin_spec data 0 idx Hne)) as (i & Hi & <-); auto).
    assert (Hm: exact_mid v mn < v) by (unfold exact_mid; apply (Qmult_lt_r _ _ 2); [lra|]; field_simplify; lra).
    destruct C as (C1 & C2 & [(-> & C3)|[(-> & C3 & _)|(-> & -> & -> & _)]]).
    - exfalso. destruct l as [|i l]; [congruence|]. assert (HI: In i (fst (lgfill data 0 idx (exact_mid v mn)))) by (rewrite <- C2; now left).
      unfold lgfill in HI. cbn [fst] in HI. apply filter_In in HI. destruct HI as (HI & HQ). apply Qle_bool_iff in HQ. rewrite (Hv i HI) in HQ. lra.
    - exfalso. destruct g as [|i g]; [congruence|]. assert (HI: In i (snd (lgfill data 0 idx (dmin data 0 idx)))) by (rewrite <- C2; now left).
      unfold lgfill in HI. cbn [snd] in HI. apply filter_In in HI. destruct HI as (HI & HQ). apply Qltb_true in HQ. rewrite (Hv i HI), Hmn in HQ. lra.
    - now rewrite Hmx. }
  induction fuel as [|f IH]; [reflexivity|]. cbn [kd_build]. destruct (Nat.leb_spec (length idx) leaf); [lia|].
  change (widest [v] [mn]) with 0%nat. cbn [nth]. destruct (Qeqb_spec v mn); [lra|]. rewrite ES. cbn [upd]. rewrite IH. reflexivity.
Qed.

Lemma repeat_fold_max v n : fold_left (fun M r => if Qltb M (nth 0 r 0) then nth 0 r 0 else M) (repeat [v] n) v = v.
Proof. induction n as [|n IH]; cbn [repeat fold_left nth]; [reflexivity|]. destruct (Qltb_spec v v); [lra|exact IH]. Qed.
Lemma repeat_fold_min v n : 0 < v -> fold_left (fun M r => if Qltb (nth 0 r 0) M then nth 0 r 0 else M) (repeat [v] n) 0 = 0.
Proof. intros H. induction n as [|n IH]; cbn [repeat fold_left nth]; [reflexivity|]. destruct (Qltb_spec v 0); [lra|exact IH]. Qed.

Lemma kd_new_loops L v : (1 <= L)%nat -> 0 < v -> forall fuel, kd_new exact_mid fuel ([0] :: repeat [v] (S L)) L = None.
Proof.
  intros HL Hv fuel. unfold kd_new. set (data := [0] :: repeat [v] (S L)).
  assert (EM: kd_maxes data = [v]).
  { unfold kd_maxes, data. cbn [hd length seq map]. unfold col_max. cbn [tl hd nth repeat fold_left]. destruct (Qltb_spec 0 v); [|lra]. now rewrite repeat_fold_max. }
  assert (Em: kd_mins data = [0]).
  { unfold kd_mins, data. cbn [hd length seq map]. unfold col_min. cbn [tl hd nth]. now rewrite repeat_fold_min. }
  rewrite EM, Em. assert (ELS: (if Nat.ltb L 1 then 1%nat else L) = L) by (destruct (Nat.ltb_spec L 1); lia). rewrite ELS.
  assert (EN: length data = S (S L)) by (unfold data; cbn; now rewrite repeat_length).
  destruct fuel as [|f]; [reflexivity|]. cbn [kd_build]. rewrite seq_length, EN. destruct (Nat.leb_spec (S (S L)) L); [lia|].
  change (widest [v] [0]) with 0%nat. cbn [nth]. destruct (Qeqb_spec v 0); [lra|].
  assert (HD0: dat data 0 0 = 0) by reflexivity.
  assert (HV: forall i, (1 <= i <= S L)%nat -> dat data i 0 = v).
  { intros i Hi. unfold dat, data. destruct i as [|i]; [lia|]. cbn [nth]. rewrite (nth_indep _ [] [v]) by (rewrite repeat_length; lia). rewrite nth_repeat. reflexivity. }
  assert (Hm: 0 <= exact_mid v 0 /\ exact_mid v 0 < v) by (unfold exact_mid; split; [apply Qle_shift_div_l; lra|apply Qlt_shift_div_r; lra]).
  assert (ES: kd_split data 0 (seq 0 (S (S L))) (exact_mid v 0) = (exact_mid v 0, [0%nat], seq 1 (S L))).
  { assert (E: lgfill data 0 (seq 0 (S (S L))) (exact_mid v 0) = ([0%nat], seq 1 (S L))).
    { unfold lgfill. change (seq 0 (S (S L))) with (0%nat :: seq 1 (S L)). set (T := seq 1 (S L)). cbn [filter]. rewrite HD0.
      destruct (Qleb_spec 0 (exact_mid v 0)); [|lra]. destruct (Qltb_spec (exact_mid v 0) 0); [lra|].
      rewrite (proj2 (filter_nil _ T)), filter_all; auto.
      - intros i Hi. apply in_seq in Hi. rewrite HV by lia. apply Qltb_true. lra.
      - intros i Hi. apply in_seq in Hi. rewrite HV by lia. apply Qleb_false. lra. }
    unfold kd_split. rewrite E. reflexivity. }
  rewrite ES. cbn [upd]. rewrite (build_loops data L (seq 1 (S L)) v (exact_mid v 0)).
  - now destruct (kd_build _ _ _ _ _ _ _).
  - rewrite seq_length. lia.
  - lra.
  - intros i Hi. apply in_seq in Hi. apply HV. lia.
Qed.

(* a midpoint that rounds up to the larger of two values *)
Lemma kd_new_loops_mid mid a b : b < a -> mid a b = a -> forall fuel, kd_new mid fuel [[b]; [a]] 1 = None.
Proof.
  intros Hlt Hmid fuel. unfold kd_new. cbn [Nat.ltb Nat.leb].
  assert (EM: kd_maxes [[b]; [a]] = [a]).
  { unfold kd_maxes, col_max. cbn [hd length seq map tl nth fold_left]. destruct (Qltb_spec b a); [reflexivity|lra]. }
  assert (Em: kd_mins [[b]; [a]] = [b]).
  { unfold kd_mins, col_min. cbn [hd length seq map tl nth fold_left]. destruct (Qltb_spec a b); [lra|reflexivity]. }
  rewrite EM, Em. cbn [length seq]. induction fuel as [|f IH]; [reflexivity|]. cbn [kd_build length Nat.leb]. change (widest [a] [b]) with 0%nat. cbn [nth].
  destruct (Qeqb_spec a b); [lra|]. rewrite Hmid.
  assert (ES: kd_split [[b]; [a]] 0 [0%nat; 1%nat] a = (a, [0%nat; 1%nat], [])).
  { unfold kd_split, lgfill, dmax, dat. cbn [filter nth fold_left].
    destruct (Qleb_spec b a); [|lra]. destruct (Qleb_spec a a); [|lra]. destruct (Qltb_spec a b); [lra|]. destruct (Qltb_spec a a); [lra|]. destruct (Qltb_spec b a); [|lra].
    cbn [filter nth]. destruct (Qleb_spec b a); [|lra]. destruct (Qleb_spec a a); [|lra]. destruct (Qltb_spec a b); [lra|]. destruct (Qltb_spec a a); [lra|]. reflexivity. }
  rewrite ES. cbn [upd]. rewrite IH. reflexivity.
Qed.

(* the midpoint as computed in binary64, and the value of a finite float *)
Definition fmid (a b : spec_float) : spec_float := SFdiv 53 1024 (SFadd 53 1024 a b) (S754_finite false (2 ^ 52) (-51)).
Definition f2q (f : spec_float) : Q :=
  match f with S754_finite s m e => (if s then -1 else 1) * inject_Z (Zpos m) * Qpower 2 e | _ => 0 end.
