From Verif Require Import QCommon MetricsModel MetricsProofs.
Open Scope Q_scope.

Lemma SSapp {A} (R : A -> A -> Prop) l1 l2 : StronglySorted R (l1 ++ l2) <->
  StronglySorted R l1 /\ StronglySorted R l2 /\ (forall x y, In x l1 -> In y l2 -> R x y).
Proof.
  induction l1 as [|a l1 IH]; cbn [app].
  - split; [intros H; repeat split; auto; [constructor|contradiction]|tauto].
  - split.
    + intros H. apply StronglySorted_inv in H. destruct H as (H & HF). apply IH in H. destruct H as (H1 & H2 & H3).
      rewrite Forall_forall in HF. repeat split; auto.
      * constructor; auto. apply Forall_forall. intros x Hx. apply HF, in_app_iff. auto.
      * intros x y [<-|Hx] Hy; auto. apply HF, in_app_iff. auto.
    + intros (H1 & H2 & H3). apply StronglySorted_inv in H1. destruct H1 as (H1 & HF). constructor.
      * apply IH. repeat split; auto. intros; apply H3; cbn; auto.
      * apply Forall_app. split; auto. apply Forall_forall. intros; apply H3; cbn; auto.
Qed.

Section Rank.
Variable sc : list Q.
Notation s i := (nth i sc 0).

Definition desc (idx : list nat) : Prop := StronglySorted (fun i j => s j <= s i) idx.
Definition gwf (gs : list (list nat)) : Prop :=
  Forall (fun g => g <> [] /\ forall i j, In i g -> In j g -> s i == s j) gs /\
  StronglySorted (fun g g' => forall i j, In i g -> In j g' -> s j < s i) gs.

Lemma group_inv (idx : list nat) : forall dn rgs prev,
  desc (dn ++ idx) -> concat (rev rgs) = dn -> gwf (rev rgs) ->
  match prev with None => dn = [] /\ rgs = [] | Some p => exists dn', dn = dn' ++ [p] /\ exists g gs, rgs = g :: gs /\ In p g end ->
  let r := fold_left (group_step sc) idx (rgs, prev) in
  concat (rev (fst r)) = dn ++ idx /\ gwf (rev (fst r)).
Proof.
  induction idx as [|i idx IH]; intros dn rgs prev HD HC HG HP; cbn [fold_left].
  - rewrite app_nil_r. auto.
  - assert (HD': desc ((dn ++ [i]) ++ idx)) by (rewrite <- app_assoc; exact HD).
    replace (dn ++ i :: idx) with ((dn ++ [i]) ++ idx) by (rewrite <- app_assoc; reflexivity).
    assert (Hle: forall x, In x dn -> s i <= s x).
    { intros x Hx. apply SSapp in HD. apply HD; [exact Hx|now left]. }
    destruct prev as [p|]; cbn [group_step].
    + destruct HP as (dn' & Edn & g & gs & Er & Hpg).
      assert (Hip: s i <= s p) by (apply Hle; rewrite Edn; apply in_app_iff; right; now left).
      destruct (Qltb_spec (s i) (s p)) as [Hlt|Hge].
      * apply IH; auto.
        -- cbn [rev]. rewrite concat_app, HC. reflexivity.
        -- cbn [rev]. destruct HG as (G1 & G2). split.
           ++ apply Forall_app. split; auto. constructor; auto. split; [discriminate|]. intros a b [<-|[]] [<-|[]]. reflexivity.
           ++ apply SSapp. split; [exact G2|]. split; [repeat constructor|]. intros h h' Hh [<-|[]] a b Ha [<-|[]].
              assert (Hain: In a dn). { rewrite <- HC. apply in_concat. eauto. }
              assert (s p <= s a).
              { rewrite Edn in *. apply SSapp in HD. destruct HD as (HD0 & _). apply SSapp in HD0. destruct HD0 as (_ & _ & HD1).
                apply in_app_iff in Hain. destruct Hain as [Hain|[<-|[]]]; [|lra]. apply HD1; [exact Hain|now left]. }
              lra.
        -- exists dn. split; auto. exists [i], rgs. split; auto. now left.
      * rewrite Er in *. apply IH; auto.
        -- cbn [rev] in *. rewrite concat_app in *. cbn [concat] in *. rewrite app_nil_r in *. rewrite app_assoc, HC. reflexivity.
        -- cbn [rev] in *. destruct HG as (G1 & G2). apply Forall_app in G1. destruct G1 as (G1 & G3). inversion G3 as [|? ? (G4 & G5) _]; subst.
           apply SSapp in G2. destruct G2 as (G2 & _ & G6). split.
           ++ apply Forall_app. split; auto. constructor; auto. split; [destruct g; discriminate|].
              assert (Eip: s i == s p) by lra.
              intros a b Ha Hb. apply in_app_iff in Ha, Hb.
              destruct Ha as [Ha|[<-|[]]], Hb as [Hb|[<-|[]]]; auto; try reflexivity.
              ** rewrite Eip. auto.
              ** rewrite Eip. auto.
           ++ apply SSapp. split; [exact G2|]. split; [repeat constructor|]. intros h h' Hh [<-|[]] a b Ha Hb.
              apply in_app_iff in Hb. destruct Hb as [Hb|[<-|[]]].
              ** apply (G6 h g Hh (or_introl eq_refl)); auto.
              ** assert (s p < s a) by (apply (G6 h g Hh (or_introl eq_refl)); auto). lra.
        -- exists dn. split; auto. exists (g ++ [i]), gs. split; auto. apply in_app_iff. right; now left.
    + destruct HP as (-> & ->). apply IH; auto.
      * cbn [rev app]. split; [|repeat constructor]. constructor; auto. split; [discriminate|]. intros a b [<-|[]] [<-|[]]. reflexivity.
      * exists []. split; auto. exists [i], []. split; auto. now left.
Qed.

Lemma clf_groups_spec idx : desc idx -> concat (clf_groups sc idx) = idx /\ gwf (clf_groups sc idx).
Proof.
  intros H. unfold clf_groups. apply (group_inv idx [] [] None); auto. split; [constructor|constructor].
Qed.

Variable pos : nat -> bool.
Variable w : nat -> Q.
Definition Ts (l : list nat) : Q := qsum (map (fun i => if pos i then w i else 0) l).
Definition Fs (l : list nat) : Q := qsum (map (fun i => if pos i then 0 else w i) l).
Lemma Ts_app a b : Ts (a ++ b) == Ts a + Ts b. Proof. unfold Ts. rewrite map_app. apply qsum_app. Qed.
Lemma Fs_app a b : Fs (a ++ b) == Fs a + Fs b. Proof. unfold Fs. rewrite map_app. apply qsum_app. Qed.
Lemma Ts_fold g : forall a, fold_left (fun a i => if pos i then a + w i else a) g a == a + Ts g.
Proof.
  unfold Ts. induction g as [|i g IH]; intros a; cbn [fold_left map]; [rewrite qsum_nil; ring|]. rewrite IH, qsum_cons. destruct (pos i); ring.
Qed.
Lemma Fs_fold g : forall a, fold_left (fun a i => if pos i then a else a + w i) g a == a + Fs g.
Proof.
  unfold Fs. induction g as [|i g IH]; intros a; cbn [fold_left map]; [rewrite qsum_nil; ring|]. rewrite IH, qsum_cons. destruct (pos i); ring.
Qed.

Lemma clf_spec gs : forall tp fp, let '(fps, tps, ths) := clf_curve pos w sc gs tp fp in
  length fps = length gs /\ length tps = length gs /\ length ths = length gs /\
  forall k, (k < length gs)%nat ->
    nth k tps 0 == tp + Ts (concat (firstn (S k) gs)) /\ nth k fps 0 == fp + Fs (concat (firstn (S k) gs)) /\
    nth k ths 0 = s (hd 0%nat (nth k gs [])).
Proof.
  induction gs as [|g gs IH]; intros tp fp; cbn [clf_curve].
  - cbn. repeat split; lia.
  - specialize (IH (fold_left (fun a i => if pos i then a + w i else a) g tp) (fold_left (fun a i => if pos i then a else a + w i) g fp)).
    destruct (clf_curve _ _ _ _ _ _) as [[fps tps] ths]. destruct IH as (L1 & L2 & L3 & V).
    cbn [length]. repeat (split; [lia|]). intros [|k] Hk; [|change (firstn (S (S k)) (g :: gs)) with (g :: firstn (S k) gs)]; cbn [nth concat hd].
    + cbn [firstn concat]. rewrite app_nil_r. rewrite Ts_fold, Fs_fold. repeat split; reflexivity.
    + destruct (V k ltac:(lia)) as (V1 & V2 & V3). rewrite V1, V2, Ts_fold, Fs_fold, Ts_app, Fs_app. split; [ring|]. split; [ring|]. exact V3.
Qed.

(* samples with score at least t *)
Definition TPt (l : list nat) (t : Q) : Q := qsum (map (fun i => if (pos i && Qle_bool t (s i))%bool then w i else 0) l).
Definition FPt (l : list nat) (t : Q) : Q := qsum (map (fun i => if (negb (pos i) && Qle_bool t (s i))%bool then w i else 0) l).

Lemma TPt_app a b t : TPt (a ++ b) t == TPt a t + TPt b t. Proof. unfold TPt. rewrite map_app. apply qsum_app. Qed.
Lemma FPt_app a b t : FPt (a ++ b) t == FPt a t + FPt b t. Proof. unfold FPt. rewrite map_app. apply qsum_app. Qed.
Lemma TPt_all l t : (forall i, In i l -> t <= s i) -> TPt l t == Ts l.
Proof. intros H. apply qsum_map_ext. intros i Hi. specialize (H i Hi). destruct (Qleb_spec t (s i)); [|lra]. destruct (pos i); reflexivity. Qed.
Lemma FPt_all l t : (forall i, In i l -> t <= s i) -> FPt l t == Fs l.
Proof. intros H. apply qsum_map_ext. intros i Hi. specialize (H i Hi). destruct (Qleb_spec t (s i)); [|lra]. destruct (pos i); reflexivity. Qed.
Lemma TPt_none l t : (forall i, In i l -> s i < t) -> TPt l t == 0.
Proof.
  intros H. unfold TPt. rewrite (qsum_map_ext _ (fun _ => 0)). { rewrite qsum_const. ring. }
  intros i Hi. specialize (H i Hi). destruct (Qleb_spec t (s i)); [lra|]. rewrite andb_false_r. reflexivity.
Qed.
Lemma FPt_none l t : (forall i, In i l -> s i < t) -> FPt l t == 0.
Proof.
  intros H. unfold FPt. rewrite (qsum_map_ext _ (fun _ => 0)). { rewrite qsum_const. ring. }
  intros i Hi. specialize (H i Hi). destruct (Qleb_spec t (s i)); [lra|]. rewrite andb_false_r. reflexivity.
Qed.

Lemma hd_in (g : list nat) : g <> [] -> In (hd 0%nat g) g.
Proof. destruct g; [congruence|]. intros _. now left. Qed.

Lemma gwf_split gs k : gwf gs -> (k < length gs)%nat ->
  let t := s (hd 0%nat (nth k gs [])) in
  (forall i, In i (concat (firstn (S k) gs)) -> t <= s i) /\ (forall i, In i (concat (skipn (S k) gs)) -> s i < t).
Proof.
  intros (G1 & G2) Hk. cbv zeta. set (g := nth k gs []).
  assert (Hg: In g gs) by (apply nth_In; exact Hk).
  rewrite Forall_forall in G1. destruct (G1 g Hg) as (Hne & Heq).
  assert (Es: gs = firstn k gs ++ g :: skipn (S k) gs).
  { apply nth_error_split'. unfold g. now apply nth_error_nth'. }
  rewrite Es in G2. apply SSapp in G2. destruct G2 as (_ & G3 & G4). apply StronglySorted_inv in G3. destruct G3 as (_ & G3). rewrite Forall_forall in G3.
  split; intros i Hi; apply in_concat in Hi; destruct Hi as (h & Hh & Hi).
  - replace (firstn (S k) gs) with (firstn k gs ++ [g]) in Hh.
    + apply in_app_iff in Hh. destruct Hh as [Hh|[<-|[]]].
      * apply Qlt_le_weak. apply (G4 h g Hh (or_introl eq_refl)); auto. now apply hd_in.
      * rewrite (Heq (hd 0%nat g) i); auto; [lra|now apply hd_in].
    + assert (E2: firstn (S k) (firstn k gs ++ g :: skipn (S k) gs) = firstn k gs ++ [g]).
      { rewrite firstn_app, firstn_firstn, firstn_length. replace (Nat.min (S k) k) with k by lia.
        replace (S k - Nat.min k (length gs))%nat with 1%nat by lia. reflexivity. }
      rewrite <- E2, <- Es. reflexivity.
  - apply (G3 h Hh); auto. now apply hd_in.
Qed.

Lemma curve_points idx : desc idx ->
  let '(fps, tps, ths) := clf_curve pos w sc (clf_groups sc idx) 0 0 in
  length tps = length fps /\ length ths = length fps /\
  (forall k, (k < length fps)%nat -> nth k fps 0 == FPt idx (nth k ths 0) /\ nth k tps 0 == TPt idx (nth k ths 0)) /\
  (forall a b, (a < b < length fps)%nat -> nth b ths 0 < nth a ths 0) /\
  (forall i, In i idx -> exists k, (k < length fps)%nat /\ nth k ths 0 == s i) /\
  (forall k, (k < length fps)%nat -> exists i, In i idx /\ nth k ths 0 = s i) /\
  (idx <> [] -> fps <> []) /\
  (idx <> [] -> last fps 0 == Fs idx /\ last tps 0 == Ts idx).
Proof.
  intros HD. destruct (clf_groups_spec idx HD) as (HC & HG). set (gs := clf_groups sc idx) in *.
  pose proof (clf_spec gs 0 0) as S. destruct (clf_curve pos w sc gs 0 0) as [[fps tps] ths]. destruct S as (L1 & L2 & L3 & V).
  split; [lia|]. split; [lia|]. rewrite L1.
  assert (HP: forall k, (k < length gs)%nat -> idx = concat (firstn (S k) gs) ++ concat (skipn (S k) gs)).
  { intros k _. rewrite <- concat_app, firstn_skipn. auto. }
  assert (HNE: idx <> [] -> (0 < length gs)%nat). { intros Hi. destruct gs; [cbn in HC; congruence|cbn; lia]. }
  split; [|split; [|split; [|split; [|split]]]].
  - intros k Hk. destruct (V k Hk) as (V1 & V2 & V3). destruct (gwf_split gs k HG Hk) as (A & B). cbv zeta in *.
    rewrite V1, V2, V3, (HP k Hk). rewrite FPt_app, TPt_app, FPt_all, TPt_all, FPt_none, TPt_none by auto. split; ring.
  - intros a b Hab. destruct (V a ltac:(lia)) as (_ & _ & Va). destruct (V b ltac:(lia)) as (_ & _ & Vb). rewrite Va, Vb.
    destruct (gwf_split gs a HG ltac:(lia)) as (_ & B). apply B.
    apply in_concat. exists (nth b gs []). split.
    + rewrite <- (firstn_skipn (S a) gs) at 1. rewrite app_nth2 by (rewrite firstn_length; lia). apply nth_In.
      rewrite firstn_length, skipn_length. lia.
    + apply hd_in. destruct HG as (G1 & _). rewrite Forall_forall in G1. apply G1. apply nth_In. lia.
  - intros i Hi. rewrite <- HC in Hi. apply in_concat in Hi. destruct Hi as (g & Hg & Hi).
    destruct (In_nth _ _ [] Hg) as (k & Hk & Ek). exists k. split; auto. destruct (V k Hk) as (_ & _ & V3). rewrite V3, Ek.
    destruct HG as (G1 & _). rewrite Forall_forall in G1. destruct (G1 g Hg) as (Hne & Heq). apply Heq; auto. now apply hd_in.
  - intros k Hk. destruct (V k Hk) as (_ & _ & V3). eexists. split; [|exact V3]. rewrite <- HC. apply in_concat. exists (nth k gs []).
    split; [now apply nth_In|]. apply hd_in. destruct HG as (G1 & _). rewrite Forall_forall in G1. apply G1. now apply nth_In.
  - intros Hi E. apply HNE in Hi. rewrite E in L1. cbn in L1. lia.
  - intros Hi. apply HNE in Hi. 
    assert (EL: forall l : list Q, l <> [] -> last l 0 = nth (length l - 1) l 0).
    { clear. induction l as [|x l IH]; [congruence|]. intros _. destruct l as [|y l]; [reflexivity|]. cbn [last]. cbn [last] in IH. rewrite IH by discriminate. cbn [length]. replace (S (S (length l)) - 1)%nat with (S (S (length l) - 1)) by lia. reflexivity. }
    rewrite !EL by (intros E0; rewrite E0 in *; cbn in *; lia). rewrite L1, L2. destruct (V (length gs - 1)%nat ltac:(lia)) as (V1 & V2 & _).
    rewrite V1, V2. rewrite firstn_all2 by lia. rewrite HC. split; ring.
Qed.

(* ------------------------------------------------------------ Mann-Whitney *)
Definition hcmp (a b : Q) : Q := if Qltb b a then 1 else if Qeq_bool a b then 1 # 2 else 0.
(* weight of the pairs (negative n in A, positive p in B) with p above n, ties
   counting one half *)
Definition mwx (A B : list nat) : Q :=
  qsum (map (fun n => qsum (map (fun p => (if pos n then 0 else w n) * ((if pos p then w p else 0) * hcmp (s p) (s n))) B)) A).

Lemma mwx_app_l A A' B : mwx (A ++ A') B == mwx A B + mwx A' B.
Proof. unfold mwx. rewrite map_app. apply qsum_app. Qed.
Lemma mwx_app_r A B B' : mwx A (B ++ B') == mwx A B + mwx A B'.
Proof. unfold mwx. rewrite <- qsum_map_plus. apply qsum_map_ext. intros n _. rewrite map_app. apply qsum_app. Qed.

Lemma mwx_const A B c : (forall n p, In n A -> In p B -> hcmp (s p) (s n) == c) -> mwx A B == c * (Fs A * Ts B).
Proof.
  intros H. unfold mwx, Fs, Ts.
  rewrite (qsum_map_ext _ (fun n => (c * qsum (map (fun i => if pos i then w i else 0) B)) * (if pos n then 0 else w n))).
  - rewrite qsum_map_scale. ring.
  - intros n Hn. rewrite (qsum_map_ext _ (fun p => ((if pos n then 0 else w n) * c) * (if pos p then w p else 0))).
    + rewrite qsum_map_scale. ring.
    + intros p Hp. rewrite (H n p Hn Hp). ring.
Qed.

Lemma auc_groups gs : gwf gs -> forall A tp fp a, tp == Ts A -> fp == Fs A ->
  (forall i j, In i A -> In j (concat gs) -> s j < s i) ->
  let '(fps, tps, ths) := clf_curve pos w sc gs tp fp in
  auc_loop fps tps fp tp a == a + mwx (A ++ concat gs) (A ++ concat gs) - mwx A A.
Proof.
  induction gs as [|g gs IH]; intros (G1 & G2) A tp fp a HT HF HA; cbn [clf_curve].
  - cbn [auc_loop concat]. rewrite app_nil_r. ring.
  - inversion G1 as [|? ? (Hne & Heq) G1']; subst. apply StronglySorted_inv in G2. destruct G2 as (G2 & G3). rewrite Forall_forall in G3.
    specialize (IH (conj G1' G2) (A ++ g)
       (fold_left (fun a i => if pos i then a + w i else a) g tp) (fold_left (fun a i => if pos i then a else a + w i) g fp)).
    set (tp' := fold_left _ g tp) in *. set (fp' := fold_left _ g fp) in *.
    assert (ET: tp' == tp + Ts g) by apply Ts_fold. assert (EF: fp' == fp + Fs g) by apply Fs_fold.
    destruct (clf_curve pos w sc gs tp' fp') as [[fps tps] ths]. cbn [auc_loop concat].
    rewrite IH; clear IH.
    + rewrite app_assoc. set (M := mwx ((A ++ g) ++ concat gs) ((A ++ g) ++ concat gs)).
      rewrite mwx_app_l, !mwx_app_r.
      rewrite (mwx_const A g 0). 2:{ intros n p Hn Hp. assert (s p < s n) by (apply HA; auto; cbn [concat]; apply in_app_iff; auto).
        unfold hcmp. destruct (Qltb_spec (s n) (s p)); [lra|]. destruct (Qeqb_spec (s p) (s n)); [lra|reflexivity]. }
      rewrite (mwx_const g A 1). 2:{ intros n p Hn Hp. assert (s n < s p) by (apply HA; auto; cbn [concat]; apply in_app_iff; auto).
        unfold hcmp. destruct (Qltb_spec (s n) (s p)); [reflexivity|lra]. }
      rewrite (mwx_const g g (1 # 2)). 2:{ intros n p Hn Hp. pose proof (Heq n p Hn Hp).
        unfold hcmp. destruct (Qltb_spec (s n) (s p)); [lra|]. destruct (Qeqb_spec (s p) (s n)); [reflexivity|exfalso; lra]. }
      rewrite EF, ET, HT, HF. field.
    + rewrite ET, HT, Ts_app. reflexivity.
    + rewrite EF, HF, Fs_app. reflexivity.
    + intros i j Hi Hj. apply in_app_iff in Hi. destruct Hi as [Hi|Hi].
      * apply HA; auto. cbn [concat]. apply in_app_iff. auto.
      * apply in_concat in Hj. destruct Hj as (h & Hh & Hj). apply (G3 h Hh); auto.
Qed.

Lemma auc_scale c d xs : forall ys x y a x' y' a', x' == c * x -> y' == d * y -> a' == c * d * a ->
  auc_loop (map (Qmult c) xs) (map (Qmult d) ys) x' y' a' == c * d * auc_loop xs ys x y a.
Proof.
  induction xs as [|u xs IH]; intros ys x y a x' y' a' Hx Hy Ha; cbn [map auc_loop]; [exact Ha|].
  destruct ys as [|v ys]; cbn [map auc_loop]; [exact Ha|]. apply IH; try reflexivity. rewrite Hx, Hy, Ha. field.
Qed.

Lemma auc_acc xs : forall ys x y a x' y' a', x == x' -> y == y' -> a == a' -> auc_loop xs ys x y a == auc_loop xs ys x' y' a'.
Proof.
  induction xs as [|u xs IH]; intros ys x y a x' y' a' Hx Hy Ha; cbn [auc_loop]; [exact Ha|].
  destruct ys as [|v ys]; [exact Ha|]. apply IH; try reflexivity. rewrite Hx, Hy, Ha. reflexivity.
Qed.

Lemma mwx_perm A A' : Permutation A A' -> mwx A A == mwx A' A'.
Proof.
  intros HP. unfold mwx. etransitivity.
  - apply qsum_map_ext. intros n _. apply qsum_perm. apply Permutation_map. exact HP.
  - apply qsum_perm. apply Permutation_map. exact HP.
Qed.
Lemma Ts_perm A A' : Permutation A A' -> Ts A == Ts A'. Proof. intros. apply qsum_perm, Permutation_map; auto. Qed.
Lemma Fs_perm A A' : Permutation A A' -> Fs A == Fs A'. Proof. intros. apply qsum_perm, Permutation_map; auto. Qed.
Lemma TPt_perm A A' t : Permutation A A' -> TPt A t == TPt A' t. Proof. intros. apply qsum_perm, Permutation_map; auto. Qed.
Lemma FPt_perm A A' t : Permutation A A' -> FPt A t == FPt A' t. Proof. intros. apply qsum_perm, Permutation_map; auto. Qed.

Lemma mwx_bounds A : (forall i, In i A -> 0 <= w i) -> 0 <= mwx A A <= Fs A * Ts A.
Proof.
  intros H. assert (Hh: forall a b, 0 <= hcmp a b <= 1) by (intros a b; unfold hcmp; destruct (Qltb b a); [lra|]; destruct (Qeq_bool a b); lra).
  assert (Hu: forall n p, In n A -> In p A -> 0 <= (if pos n then 0 else w n) /\ 0 <= (if pos p then w p else 0)).
  { intros n p Hn Hp. pose proof (H n Hn). pose proof (H p Hp). destruct (pos n), (pos p); split; lra. }
  split.
  - apply qsum_nonneg. intros q Hq. apply in_map_iff in Hq. destruct Hq as (n & <- & Hn). apply qsum_nonneg.
    intros q Hq. apply in_map_iff in Hq. destruct Hq as (p & <- & Hp). destruct (Hu n p Hn Hp). pose proof (Hh (s p) (s n)).
    apply Qmult_le_0_compat; auto. apply Qmult_le_0_compat; auto. lra.
  - assert (E: Fs A * Ts A == qsum (map (fun n => qsum (map (fun p => (if pos n then 0 else w n) * ((if pos p then w p else 0) * 1)) A)) A)).
    { unfold Fs, Ts. rewrite Qmult_comm, <- qsum_map_scale. apply qsum_map_ext. intros n _. rewrite Qmult_comm, <- qsum_map_scale.
      apply qsum_map_ext. intros p _. ring. }
    rewrite E. unfold mwx. apply qsum_le. intros n Hn. apply qsum_le. intros p Hp. destruct (Hu n p Hn Hp) as (U1 & U2). pose proof (Hh (s p) (s n)).
    set (u := if pos n then 0 else w n) in *. set (v := if pos p then w p else 0) in *.
    assert (v * hcmp (s p) (s n) <= v * 1) by nra. nra.
Qed.
End Rank.

(* --------------------------------------------------------------- ROC curve *)
Definition ispos (labels : list Z) (posLabel : Z) (i : nat) : bool := Z.eqb (nth i labels 0%Z) posLabel.

Lemma last_map (f : Q -> Q) l d : l <> [] -> last (map f l) d = f (last l 0).
Proof. induction l as [|x l IH]; [congruence|]. intros _. destruct l as [|y l]; [reflexivity|]. cbn [map last] in *. apply IH. discriminate. Qed.

Lemma roc_main labels posLabel wt sc idx :
  let n := length labels in let pos := ispos labels posLabel in let w := weight wt in let all := seq 0 n in
  length sc = n -> Permutation idx all -> StronglySorted (fun i j => nth j sc 0 <= nth i sc 0) idx ->
  (forall i, (i < n)%nat -> 0 <= w i) -> 0 < Ts pos w all -> 0 < Fs pos w all ->
  exists fpr tpr ths, roc_curve labels posLabel wt sc idx = Some (fpr, tpr, ths) /\
    length fpr = length ths /\ length tpr = length ths /\ (0 < length ths)%nat /\
    (forall k, (k < length ths)%nat ->
       nth k fpr 0 == FPt sc pos w all (nth k ths 0) / Fs pos w all /\
       nth k tpr 0 == TPt sc pos w all (nth k ths 0) / Ts pos w all) /\
    (forall a b, (a < b < length ths)%nat -> nth b ths 0 < nth a ths 0 /\ nth a fpr 0 <= nth b fpr 0 /\ nth a tpr 0 <= nth b tpr 0) /\
    nth 0 fpr 0 == 0 /\ last fpr 0 == 1 /\ last tpr 0 == 1 /\
    auc fpr tpr == mwx sc pos w all all / (Fs pos w all * Ts pos w all).
Proof.
  intros n pos w all Hn HP HD Hw HT HF. unfold roc_curve, binary_clf_curve.
  change (fun i => Z.eqb (nth i labels 0%Z) posLabel) with pos. change (weight wt) with w.
  pose proof (curve_points sc pos w idx HD) as C.
  destruct (clf_groups_spec sc idx HD) as (GC & GW). pose proof (auc_groups sc pos w _ GW [] 0 0 0 ltac:(reflexivity) ltac:(reflexivity)) as AU.
  destruct (clf_curve pos w sc (clf_groups sc idx) 0 0) as [[fps tps] ths].
  destruct C as (L1 & L2 & V & VD & VC & VI & NE & LA).
  assert (Hne: idx <> []). { intros E. rewrite E in HP. apply Permutation_nil in HP. rewrite HP in HT. unfold Ts in HT. cbn in HT. lra. }
  specialize (NE Hne). destruct (LA Hne) as (LF & LT). rewrite (Fs_perm pos w _ _ HP) in LF. rewrite (Ts_perm pos w _ _ HP) in LT.
  assert (AUC0: auc_loop fps tps 0 0 0 == mwx sc pos w all all).
  { rewrite AU by (intros i j []). cbn [app]. rewrite GC. rewrite (mwx_perm sc pos w _ _ HP). unfold mwx at 2. cbn [map]. rewrite qsum_nil. ring. }
  clear AU.
  assert (HFne: ~ Fs pos w all == 0) by lra. assert (HTne: ~ Ts pos w all == 0) by lra.
  (* the lists after the optional extra point *)
  set (trip := if Qeq_bool (nth 0 fps 0) 0 then (fps, tps, ths) else (0 :: fps, 0 :: tps, (nth 0 ths 0 + 1) :: ths)).
  assert (K: let '(fps1, tps1, ths1) := trip in
     length fps1 = length ths1 /\ length tps1 = length ths1 /\ (0 < length ths1)%nat /\
     (forall k, (k < length ths1)%nat -> nth k fps1 0 == FPt sc pos w all (nth k ths1 0) /\ nth k tps1 0 == TPt sc pos w all (nth k ths1 0)) /\
     (forall a b, (a < b < length ths1)%nat -> nth b ths1 0 < nth a ths1 0) /\
     nth 0 fps1 0 == 0 /\ last fps1 0 == Fs pos w all /\ last tps1 0 == Ts pos w all /\
     auc_loop fps1 tps1 0 0 0 == mwx sc pos w all all /\ fps1 <> [] /\ tps1 <> []).
  { assert (V': forall k, (k < length fps)%nat -> nth k fps 0 == FPt sc pos w all (nth k ths 0) /\ nth k tps 0 == TPt sc pos w all (nth k ths 0)).
    { intros k Hk. destruct (V k Hk) as (V1 & V2). rewrite V1, V2, (FPt_perm sc pos w _ _ _ HP), (TPt_perm sc pos w _ _ _ HP). split; reflexivity. }
    assert (H0: (0 < length fps)%nat) by (destruct fps; [congruence|cbn; lia]).
    unfold trip. destruct (Qeqb_spec (nth 0 fps 0) 0) as [Z|NZ].
    - rewrite L2, L1. repeat (split; [lia|]). split; [exact V'|]. split; [exact VD|]. split; [exact Z|]. split; [exact LF|]. split; [exact LT|]. split; [exact AUC0|].
      split; [exact NE|]. destruct tps; [cbn in L1; lia|discriminate].
    - cbn [length]. rewrite L2, L1. repeat (split; [lia|]). 
      assert (Hmax: forall i, In i idx -> nth i sc 0 <= nth 0 ths 0).
      { intros i Hi. destruct (VC i Hi) as (k & Hk & Ek). destruct (Nat.eq_dec k 0) as [->|]; [lra|]. pose proof (VD 0%nat k ltac:(lia)). lra. }
      split.
      { intros [|k] Hk; cbn [nth].
        - rewrite FPt_none, TPt_none; [split; reflexivity| |]; intros i Hi; apply (Permutation_in _ (Permutation_sym HP)) in Hi; specialize (Hmax i Hi); lra.
        - apply V'. lia. }
      split.
      { intros [|a] [|b] Hab; try lia; cbn [nth].
        - destruct (Nat.eq_dec b 0) as [->|]; [lra|]. pose proof (VD 0%nat b ltac:(lia)). lra.
        - apply VD. lia. }
      split; [reflexivity|].
      split. { destruct fps; [congruence|exact LF]. }
      split. { destruct tps; [cbn in L1; lia|exact LT]. }
      split; [|split; discriminate].
      cbn [auc_loop]. rewrite <- AUC0. apply auc_acc; try reflexivity. }
  destruct fps as [|f0 fps0]; [congruence|]. destruct ths as [|t0 ths0]; [cbn in L2; lia|].
  match goal with |- context [if Qeq_bool f0 0 then ?a else ?b] => change (if Qeq_bool f0 0 then a else b) with trip end.
  destruct trip as [[fps1 tps1] ths1]. destruct K as (K1 & K2 & K3 & K4 & K5 & K6 & K7 & K8 & K9 & K10 & K11).
  destruct (Qleb_spec (last fps1 0) 0); [lra|]. destruct (Qleb_spec (last tps1 0) 0); [lra|]. cbn [orb].
  set (cf := 1 / last fps1 0). set (ct := 1 / last tps1 0).
  assert (Hcf: cf == 1 / Fs pos w all) by (unfold cf; rewrite K7; reflexivity).
  assert (Hct: ct == 1 / Ts pos w all) by (unfold ct; rewrite K8; reflexivity).
  assert (Hnth: forall c l k, nth k (map (Qmult c) l) 0 == c * nth k l 0).
  { intros c l k. destruct (Nat.lt_ge_cases k (length l)).
    - rewrite (nth_indep _ 0 (c * 0)) by (now rewrite map_length). rewrite (map_nth (Qmult c)). reflexivity.
    - rewrite !nth_overflow by (rewrite ?map_length; lia). ring. }
  eexists _, _, _. split; [reflexivity|].
  split; [now rewrite map_length|]. split; [now rewrite map_length|]. split; [exact K3|].
  assert (K4': forall k, (k < length ths1)%nat ->
       nth k (map (Qmult cf) fps1) 0 == FPt sc pos w all (nth k ths1 0) / Fs pos w all /\
       nth k (map (Qmult ct) tps1) 0 == TPt sc pos w all (nth k ths1 0) / Ts pos w all).
  { intros k Hk. destruct (K4 k Hk) as (A & B). rewrite !Hnth, A, B, Hcf, Hct. split; field; auto. }
  split; [exact K4'|]. split.
  { intros a b Hab. pose proof (K5 a b Hab) as HL. split; [exact HL|].
    destruct (K4' a ltac:(lia)) as (A1 & A2). destruct (K4' b ltac:(lia)) as (B1 & B2). rewrite A1, A2, B1, B2.
    assert (Hwin: forall i, In i all -> 0 <= w i) by (intros i Hi; apply in_seq in Hi; apply Hw; lia).
    split; unfold Qdiv; apply Qmult_le_compat_r; try (apply Qinv_le_0_compat; lra); apply qsum_le; intros i Hi; specialize (Hwin i Hi);
      destruct (pos i); cbn [andb negb]; try lra; destruct (Qleb_spec (nth a ths1 0) (nth i sc 0)), (Qleb_spec (nth b ths1 0) (nth i sc 0)); lra. }
  split; [rewrite Hnth, K6; ring|].
  split; [rewrite last_map by auto; unfold cf; field; lra|]. split; [rewrite last_map by auto; unfold ct; field; lra|].
  unfold auc. rewrite (auc_scale cf ct fps1 tps1 0 0 0) by ring. rewrite K9, Hcf, Hct. field. auto.
Qed.

(* ------------------------------------------------- precision-recall curve *)
Lemma qsearch_le a x : (qsearch a x <= length a)%nat.
Proof. induction a as [|y a IH]; cbn; [lia|]. destruct (Qltb y x); lia. Qed.
Lemma qsearch_hit a x : (qsearch a x < length a)%nat -> x <= nth (qsearch a x) a 0.
Proof. induction a as [|y a IH]; cbn [qsearch length]; [lia|]. destruct (Qltb_spec y x); cbn [nth]; intros; auto. apply IH. lia. Qed.
Lemma qsearch_lt a x z : In z a -> x <= z -> (qsearch a x < length a)%nat.
Proof.
  induction a as [|y a IH]; [intros []|]. cbn [qsearch length In]. destruct (Qltb_spec y x) as [L|L]; [|lia].
  intros [->|Hz] Hx; [lra|]. specialize (IH Hz Hx). lia.
Qed.
Lemma last_In (l : list Q) : l <> [] -> In (last l 0) l.
Proof. induction l as [|x l IH]; [congruence|]. intros _. destruct l as [|y l]; [now left|]. right. apply IH. discriminate. Qed.

Lemma nth_firstn {A} n k (l : list A) d : (k < n)%nat -> nth k (firstn n l) d = nth k l d.
Proof. revert k l; induction n as [|n IH]; intros k l H; [lia|]. destruct l; [reflexivity|]. destruct k; cbn; [reflexivity|]. apply IH. lia. Qed.

Lemma nth_map_gen {A B} (f : A -> B) l k d d' : (k < length l)%nat -> nth k (map f l) d = f (nth k l d').
Proof. intros H. rewrite (nth_indep _ d (f d')) by (now rewrite map_length). apply map_nth. Qed.

Lemma pr_main labels posLabel wt sc idx :
  let n := length labels in let pos := ispos labels posLabel in let w := weight wt in let all := seq 0 n in
  length sc = n -> Permutation idx all -> StronglySorted (fun i j => nth j sc 0 <= nth i sc 0) idx ->
  (forall i, (i < n)%nat -> 0 < w i) -> 0 < Ts pos w all ->
  exists prec rec ths, pr_curve labels posLabel wt sc idx = Some (prec ++ [1], rec ++ [0], ths) /\
    length prec = length ths /\ length rec = length ths /\ (0 < length ths)%nat /\
    (forall k, (k < length ths)%nat -> let TP := TPt sc pos w all (nth k ths 0) in let FP := FPt sc pos w all (nth k ths 0) in
       0 < TP + FP /\ nth k prec 0 == TP / (TP + FP) /\ nth k rec 0 == TP / Ts pos w all /\
       0 <= nth k prec 0 <= 1 /\ 0 <= nth k rec 0 <= 1) /\
    (forall a b, (a < b < length ths)%nat -> nth a ths 0 < nth b ths 0 /\ nth b rec 0 <= nth a rec 0) /\
    nth 0 rec 0 == 1.
Proof.
  intros n pos w all Hn HP HD Hw HT. unfold pr_curve, binary_clf_curve.
  change (fun i => Z.eqb (nth i labels 0%Z) posLabel) with pos. change (weight wt) with w.
  pose proof (curve_points sc pos w idx HD) as C.
  destruct (clf_curve pos w sc (clf_groups sc idx) 0 0) as [[fps tps] ths].
  destruct C as (L1 & L2 & V & VD & VC & VI & NE & LA).
  assert (Hne: idx <> []). { intros E. rewrite E in HP. apply Permutation_nil in HP. rewrite HP in HT. unfold Ts in HT. cbn in HT. lra. }
  specialize (NE Hne). destruct (LA Hne) as (LF & LT). rewrite (Ts_perm pos w _ _ HP) in LT. clear LF.
  assert (V': forall k, (k < length fps)%nat -> nth k fps 0 == FPt sc pos w all (nth k ths 0) /\ nth k tps 0 == TPt sc pos w all (nth k ths 0)).
  { intros k Hk. destruct (V k Hk) as (V1 & V2). rewrite V1, V2, (FPt_perm sc pos w _ _ _ HP), (TPt_perm sc pos w _ _ _ HP). split; reflexivity. }
  assert (Hwin: forall i, In i all -> 0 < w i) by (intros i Hi; apply in_seq in Hi; apply Hw; lia).
  assert (B0: forall t, 0 <= TPt sc pos w all t /\ 0 <= FPt sc pos w all t /\ TPt sc pos w all t <= Ts pos w all).
  { intros t. repeat split.
    - apply qsum_nonneg. intros q Hq. apply in_map_iff in Hq. destruct Hq as (i & <- & Hi). specialize (Hwin i Hi). destruct (_ && _)%bool; lra.
    - apply qsum_nonneg. intros q Hq. apply in_map_iff in Hq. destruct Hq as (i & <- & Hi). specialize (Hwin i Hi). destruct (_ && _)%bool; lra.
    - apply qsum_le. intros i Hi. specialize (Hwin i Hi). destruct (pos i); cbn [andb]; [destruct (Qle_bool _ _); lra|lra]. }
  assert (BP: forall k, (k < length fps)%nat -> 0 < TPt sc pos w all (nth k ths 0) + FPt sc pos w all (nth k ths 0)).
  { intros k Hk. destruct (VI k Hk) as (i & Hi & Ei). apply (Permutation_in _ HP) in Hi. rewrite Ei.
    destruct (in_split _ _ Hi) as (l1 & l2 & El). 
    assert (E: TPt sc pos w all (nth i sc 0) + FPt sc pos w all (nth i sc 0) ==
               qsum (map (fun j => if Qle_bool (nth i sc 0) (nth j sc 0) then w j else 0) all)).
    { unfold TPt, FPt. rewrite <- qsum_map_plus. apply qsum_map_ext. intros j _. destruct (pos j); cbn [andb negb]; destruct (Qle_bool _ _); ring. }
    rewrite E. rewrite El. rewrite map_app, qsum_app. cbn [map]. rewrite qsum_cons.
    assert (Z: forall l, (forall j, In j l -> In j all) -> 0 <= qsum (map (fun j => if Qle_bool (nth i sc 0) (nth j sc 0) then w j else 0) l)).
    { intros l Hl. apply qsum_nonneg. intros q Hq. apply in_map_iff in Hq. destruct Hq as (j & <- & Hj). specialize (Hwin j (Hl j Hj)). destruct (Qle_bool _ _); lra. }
    assert (Z1: 0 <= qsum (map (fun j => if Qle_bool (nth i sc 0) (nth j sc 0) then w j else 0) l1)) by (apply Z; intros; rewrite El; apply in_app_iff; auto).
    assert (Z2: 0 <= qsum (map (fun j => if Qle_bool (nth i sc 0) (nth j sc 0) then w j else 0) l2)) by (apply Z; intros; rewrite El; apply in_app_iff; right; now right).
    destruct (Qleb_spec (nth i sc 0) (nth i sc 0)); [|lra]. specialize (Hwin i Hi). lra. }
  set (tot := last tps 0) in *.
  assert (Hl: (0 < length tps)%nat) by (rewrite L1; destruct fps; [congruence|cbn; lia]).
  assert (Htne: tps <> []) by (destruct tps; [cbn in Hl; lia|discriminate]).
  destruct (Qeqb_spec tot 0) as [Z|Tnz]; [lra|]. cbn [orb].
  assert (EX: existsb (fun tf => Qeq_bool (fst tf + snd tf) 0) (combine tps fps) = false).
  { apply Bool.not_true_is_false. intros E. apply existsb_exists in E. destruct E as ((a & b) & Hin & Hz). cbn [fst snd] in Hz.
    destruct (In_nth _ _ (0, 0) Hin) as (k & Hk & Ek). rewrite combine_length in Hk. rewrite combine_nth in Ek by lia. injection Ek as Ea Eb.
    apply Qeq_bool_iff in Hz. destruct (V' k ltac:(lia)) as (V1 & V2). specialize (BP k ltac:(lia)). rewrite <- V1, <- V2, Ea, Eb in BP. lra. }
  rewrite EX. set (m := S (qsearch tps tot)).
  assert (Hq: (qsearch tps tot < length tps)%nat) by (apply (qsearch_lt tps tot (last tps 0)); [now apply last_In|unfold tot; lra]).
  assert (Hm: (m <= length fps)%nat) by (unfold m; lia).
  destruct tps as [|t0 tps']; [congruence|]. set (tps := t0 :: tps') in *.
  eexists _, _, _. split; [reflexivity|].
  assert (LP: length (firstn m (map (fun tf => fst tf / (fst tf + snd tf)) (combine tps fps))) = m) by (rewrite firstn_length, map_length, combine_length; lia).
  assert (LR: length (firstn m (map (fun t => t / tot) tps)) = m) by (rewrite firstn_length, map_length; lia).
  assert (LH: length (firstn m ths) = m) by (rewrite firstn_length; lia).
  rewrite !rev_length, LP, LR, LH. repeat (split; [reflexivity|]). split; [unfold m; lia|].
  assert (NP: forall k, (k < m)%nat -> nth k (rev (firstn m (map (fun tf => fst tf / (fst tf + snd tf)) (combine tps fps)))) 0 =
      nth (m - S k) tps 0 / (nth (m - S k) tps 0 + nth (m - S k) fps 0)).
  { intros k Hk. rewrite rev_nth by (rewrite LP; lia). rewrite LP. rewrite nth_firstn by lia.
    rewrite (nth_map_gen _ _ _ _ (0, 0)) by (rewrite combine_length; lia). rewrite combine_nth by lia. reflexivity. }
  assert (NR: forall k, (k < m)%nat -> nth k (rev (firstn m (map (fun t => t / tot) tps))) 0 = nth (m - S k) tps 0 / tot).
  { intros k Hk. rewrite rev_nth by (rewrite LR; lia). rewrite LR. rewrite nth_firstn by lia.
    rewrite (nth_map_gen _ _ _ _ 0) by lia. reflexivity. }
  assert (NH: forall k, (k < m)%nat -> nth k (rev (firstn m ths)) 0 = nth (m - S k) ths 0).
  { intros k Hk. rewrite rev_nth by (rewrite LH; lia). rewrite LH. now rewrite nth_firstn by lia. }
  split; [|split].
  - intros k Hk. cbv zeta. rewrite NP, NR, NH by auto. set (u := (m - S k)%nat). assert (Hu: (u < length fps)%nat) by (unfold u; lia).
    destruct (V' u Hu) as (V1 & V2). specialize (BP u Hu). destruct (B0 (nth u ths 0)) as (B1 & B2 & B3). rewrite V1, V2.
    split; [exact BP|]. split; [reflexivity|]. split; [rewrite LT; reflexivity|]. split.
    + apply qdiv_bounds; lra.
    + rewrite LT. apply qdiv_bounds; lra.
  - intros a b Hab. rewrite !NH, !NR by lia. assert (HLT: nth (m - S a) ths 0 < nth (m - S b) ths 0) by (apply VD; lia).
    split; [exact HLT|]. destruct (V' (m - S a)%nat ltac:(lia)) as (_ & A2). destruct (V' (m - S b)%nat ltac:(lia)) as (_ & B2).
    rewrite A2, B2. unfold Qdiv. apply Qmult_le_compat_r; [|apply Qinv_le_0_compat; lra]. apply qsum_le. intros i Hi. specialize (Hwin i Hi).
    destruct (pos i); cbn [andb]; [|lra]. destruct (Qleb_spec (nth (m - S a) ths 0) (nth i sc 0)), (Qleb_spec (nth (m - S b) ths 0) (nth i sc 0)); lra.
  - rewrite NR by (unfold m; lia). replace (m - 1)%nat with (qsearch tps tot) by (unfold m; lia).
    assert (HH: tot <= nth (qsearch tps tot) tps 0) by (apply qsearch_hit; exact Hq).
    destruct (V' (qsearch tps tot) ltac:(lia)) as (_ & A2). destruct (B0 (nth (qsearch tps tot) ths 0)) as (_ & _ & B3).
    assert (E: nth (qsearch tps tot) tps 0 == tot) by lra. rewrite E. field. exact Tnz.
Qed.

Lemma ap_bounds p : forall r, length r = length p -> (forall k, (k < length p)%nat -> 0 <= nth k p 0 <= 1) ->
  (forall a b, (a < b < length r)%nat -> nth b r 0 <= nth a r 0) -> 0 <= ap_loop p r <= nth 0 r 0 - last r (nth 0 r 0).
Proof.
  induction p as [|p0 p IH]; intros r HL HP HR.
  - destruct r; [|discriminate]. cbn. lra.
  - destruct r as [|r0 r]; [discriminate|]. cbn [ap_loop nth]. destruct r as [|r1 r]; [cbn; lra|].
    destruct (IH (r1 :: r)) as (A & B).
    { cbn in *; lia. } { intros k Hk. apply (HP (S k)). cbn; lia. } { intros a b Hab. apply (HR (S a) (S b)). cbn in *; lia. }
    pose proof (HP 0%nat ltac:(cbn; lia)) as H0. cbn [nth] in H0. pose proof (HR 0%nat 1%nat ltac:(cbn; lia)) as H1. cbn [nth] in H1, A, B.
    change (last (r0 :: r1 :: r) r0) with (last (r1 :: r) r0).
    assert (EL: last (r1 :: r) r0 = last (r1 :: r) r1). { clear. revert r1. induction r as [|x r IH]; intros r1; [reflexivity|]. change (last (x :: r) r0 = last (x :: r) r1). rewrite IH. destruct r; [reflexivity|]. clear. revert q. induction r as [|z r IH]; intros q; [reflexivity|]. apply IH. }
    rewrite EL. assert (0 <= (r0 - r1) * p0) by (apply Qmult_le_0_compat; lra). assert ((r0 - r1) * p0 <= (r0 - r1) * 1) by nra. lra.
Qed.
