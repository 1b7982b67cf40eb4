(* Proofs about SvmModel.v: the kernel cache. *)
From Verif Require Import Common QCommon SvmModel.
Local Open Scope nat_scope.

Lemma keyb_spec p q : Bool.reflect (p = q) (keyb p q).
Proof.
  destruct p as [a b], q as [c d]. unfold keyb; cbn [fst snd].
  destruct (Nat.eqb_spec a c), (Nat.eqb_spec b d); cbn; constructor; congruence.
Qed.
Lemma keyb_refl p : keyb p p = true. Proof. destruct (keyb_spec p p); congruence. Qed.
Definition keys (st : cache) : list (nat * nat) := map fst (cnd st).
Definition times (st : cache) : list nat := map (fun e => fst (snd e)) (cnd st).

Definition cgood (kf : nat -> nat -> Q) (st : cache) : Prop :=
  (forall i v, nth i (cdiag st) None = Some v -> v = kf i i) /\
  (forall a b t v, In ((a, b), (t, v)) (cnd st) -> (a < b /\ v = kf a b /\ t <= ctime st)) /\
  NoDup (keys st) /\ NoDup (times st).
Lemma cgood_new kf m : cgood kf (cache_new m).
Proof.
  split; [|split; [intros a b t v []|split; constructor]].
  intros i v. cbn [cdiag cache_new]. intros H.
  destruct (Nat.ltb_spec i m) as [L|L].
  - rewrite nth_repeat in H. discriminate.
  - rewrite nth_overflow in H by (rewrite repeat_length; lia). discriminate.
Qed.

(* value *)
Lemma get_value kf cap ord i j st : cgood kf st -> fst (cache_get kf cap ord i j st) = kf (min i j) (max i j).
Proof.
  intros (D & E & _). unfold cache_get.
  destruct (Nat.eqb_spec i j) as [<-|N].
  - rewrite Nat.min_id, Nat.max_id. destruct (nth i (cdiag st) None) as [v|] eqn:V; cbn; auto.
  - assert (KE : (if Nat.ltb j i then (j, i) else (i, j)) = (min i j, max i j)).
    { destruct (Nat.ltb_spec j i); f_equal; lia. }
    rewrite KE. destruct (find _ _) as [[[a b] [t v]]|] eqn:F; cbn [fst snd]; auto.
    apply find_some in F. destruct F as [I F]. cbn [fst] in F.
    destruct (keyb_spec (a, b) (min i j, max i j)) as [EQ|]; [|discriminate].
    destruct (E a b t v I) as (_ & -> & _). now inversion EQ.
Qed.

Lemma nth_upd_opt (l : list (option Q)) i k v : nth k (upd l i (Some v)) None = if Nat.eqb i k then (if Nat.ltb k (length l) then Some v else None) else nth k l None.
Proof.
  destruct (nth_error (upd l i (Some v)) k) as [x|] eqn:E.
  - rewrite (nth_error_nth _ _ _ E). rewrite nth_error_upd in E.
    destruct (Nat.eqb i k); [destruct (Nat.ltb k (length l)); congruence|]. symmetry. now apply nth_error_nth.
  - rewrite nth_overflow by (now apply nth_error_None). rewrite nth_error_upd in E.
    destruct (Nat.eqb i k); [destruct (Nat.ltb k (length l)); congruence|]. symmetry. apply nth_overflow. now apply nth_error_None.
Qed.

Lemma find_None_In {A} (f : A -> bool) l : find f l = None -> forall x, In x l -> f x = false.
Proof. intros H x I. destruct (f x) eqn:E; auto. now rewrite (find_none f l H x I) in E. Qed.

Lemma NoDup_map_filter {A B} (g : A -> B) f (l : list A) : NoDup (map g l) -> NoDup (map g (filter f l)).
Proof.
  induction l as [|x l IH]; cbn; auto. intros H; inversion H; subst.
  destruct (f x); cbn; auto. constructor; auto.
  intros I. apply in_map_iff in I. destruct I as (y & E & I). apply filter_In in I. apply H2. rewrite <- E. now apply in_map.
Qed.
Lemma NoDup_snoc {A} (l : list A) x : NoDup l -> ~ In x l -> NoDup (l ++ [x]).
Proof.
  induction l as [|y l IH]; intros H N; [constructor; [intros []|constructor]|].
  inversion H; subst. cbn. constructor.
  - rewrite in_app_iff. intros [I|[I|[]]]; [tauto|]. subst. apply N. now left.
  - apply IH; auto. intros I. apply N. now right.
Qed.

Lemma hit_keys key t (l : list centry) : map fst (map (fun e' => if keyb (fst e') key then (key, (t, snd (snd e'))) else e') l) = map fst l.
Proof.
  induction l as [|e l IH]; cbn [map]; auto. rewrite IH. f_equal. destruct (keyb_spec (fst e) key); auto.
Qed.
Lemma hit_times key t (l : list centry) : NoDup (map fst l) -> NoDup (map (fun e => fst (snd e)) l) -> (forall e, In e l -> fst (snd e) < t) ->
  NoDup (map (fun e : centry => fst (snd e)) (map (fun e' => if keyb (fst e') key then (key, (t, snd (snd e'))) else e') l)).
Proof.
  induction l as [|e l IH]; intros NK NT B; cbn [map]; [constructor|].
  cbn [map] in NK, NT. inversion NK as [|? ? NK1 NK2]; subst. inversion NT as [|? ? NT1 NT2]; subst.
  constructor.
  - rewrite map_map. intros I. apply in_map_iff in I. destruct I as (e' & E & I).
    destruct (keyb_spec (fst e') key) as [K'|K']; cbn [fst snd] in E;
    destruct (keyb_spec (fst e) key) as [K''|K'']; cbn [fst snd] in E.
    + apply NK1. rewrite K'', <- K'. now apply in_map.
    + assert (fst (snd e) < t) by (apply B; now left). lia.
    + assert (fst (snd e') < t) by (apply B; now right). lia.
    + apply NT1. rewrite <- E. apply in_map_iff. now exists e'.
  - apply IH; auto. intros e' I'. apply B. now right.
Qed.

Lemma get_good kf cap ord i j st : cgood kf st -> cgood kf (snd (cache_get kf cap ord i j st)).
Proof.
  intros (D & E & NK & NT). unfold cache_get.
  destruct (Nat.eqb_spec i j) as [<-|N].
  - destruct (nth i (cdiag st) None) as [v|] eqn:V; cbn [snd]; [now split|].
    split; [|split; [|split]]; auto. cbn [cdiag]. intros k v. rewrite nth_upd_opt.
    destruct (Nat.eqb_spec i k) as [<-|]; [|auto]. destruct (Nat.ltb i (length (cdiag st))); congruence.
  - set (key := if Nat.ltb j i then (j, i) else (i, j)).
    assert (KL : fst key < snd key) by (unfold key; destruct (Nat.ltb_spec j i); cbn; lia).
    destruct (find _ _) as [e|] eqn:F.
    + cbn [snd]. split; [exact D|split; [|split]].
      * cbn [cnd ctime]. intros a b t v I. apply in_map_iff in I. destruct I as ([[a' b'] [t' v']] & EQ & I).
        cbn [fst snd] in EQ. destruct (E a' b' t' v' I) as (A1 & A2 & A3).
        destruct (keyb_spec (a', b') key) as [K1|K1].
        { assert ((a, b) = (a', b')) by congruence. assert (t = S (ctime st)) by congruence. assert (v = v') by congruence.
          inversion H; subst. split; [exact A1|]. split; [reflexivity|lia]. }
        { inversion EQ; subst. split; [exact A1|]. split; [reflexivity|lia]. }
      * unfold keys; cbn [cnd]. now rewrite hit_keys.
      * unfold times; cbn [cnd]. apply hit_times; auto.
        intros [[a b] [t v]] I. destruct (E a b t v I) as (_ & _ & B). cbn. lia.
    + cbn [snd].
      set (nd := if Nat.eqb (length (cnd st)) cap then _ else _).
      assert (INC : forall e, In e nd -> In e (cnd st)).
      { intros e. unfold nd. destruct (Nat.eqb _ _); auto. rewrite filter_In. tauto. }
      assert (NK' : NoDup (map fst nd)) by (unfold nd; destruct (Nat.eqb _ _); [now apply NoDup_map_filter|exact NK]).
      assert (NT' : NoDup (map (fun e => fst (snd e)) nd)) by (unfold nd; destruct (Nat.eqb _ _); [now apply NoDup_map_filter|exact NT]).
      split; [exact D|split; [|split]].
      * cbn [cnd ctime]. intros a b t v I. apply in_app_iff in I. destruct I as [I|[I|[]]].
        { destruct (E a b t v (INC _ I)) as (A1 & A2 & A3). split; [exact A1|]. split; [exact A2|lia]. }
        { assert (EK : key = (a, b)) by congruence. inversion I; subst. rewrite EK in KL |- *. cbn [fst snd] in *. split; [exact KL|]. split; [reflexivity|lia]. }
      * unfold keys; cbn [cnd]. rewrite map_app. apply NoDup_snoc; auto.
        intros I. apply in_map_iff in I. destruct I as (e & EQ & I).
        assert (FF := find_None_In _ _ F e (INC e I)). cbn in FF, EQ. rewrite EQ, keyb_refl in FF. discriminate.
      * unfold times; cbn [cnd]. rewrite map_app. apply NoDup_snoc; auto.
        intros I. apply in_map_iff in I. destruct I as ([[a b] [t v]] & EQ & I). cbn in EQ.
        destruct (E a b t v (INC _ I)) as (_ & _ & B). lia.
Qed.

(* eviction *)
Lemma oldest_fold (l : list centry) : forall k t, 
  let r := fold_left (fun acc e => if Nat.ltb (fst (snd e)) (snd acc) then (fst e, fst (snd e)) else acc) l (k, t) in
  r = (k, t) /\ (forall e, In e l -> t <= fst (snd e)) \/
   exists e, In e l /\ r = (fst e, fst (snd e)) /\ fst (snd e) < t /\ forall e', In e' l -> fst (snd e) <= fst (snd e').
Proof.
  induction l as [|e l IH]; intros k t; cbn [fold_left].
  - left. split; auto. intros e [].
  - cbn [snd]. destruct (Nat.ltb_spec (fst (snd e)) t) as [L|L].
    + destruct (IH (fst e) (fst (snd e))) as [(R & M)|(e1 & I1 & R & L1 & M)]; rewrite R.
      * right. exists e. split; [now left|]. split; [reflexivity|]. split; auto. intros e' [<-|I]; auto.
      * right. exists e1. split; [now right|]. split; [reflexivity|]. split; [lia|]. intros e' [<-|I]; [lia|auto].
    + destruct (IH k t) as [(R & M)|(e1 & I1 & R & L1 & M)]; rewrite R.
      * left. split; auto. intros e' [<-|I]; auto.
      * right. exists e1. split; [now right|]. split; [reflexivity|]. split; [lia|]. intros e' [<-|I]; [lia|auto].
Qed.

(* with two or more entries the key of [oldest] is present and has the
   smallest time, whatever the order of the map *)
Lemma oldest_spec kf ord st : cgood kf st -> (forall l, Permutation l (ord l)) -> 2 <= length (cnd st) ->
  exists e, In e (cnd st) /\ oldest ord st = fst e /\ forall e', In e' (cnd st) -> fst (snd e) <= fst (snd e').
Proof.
  intros (_ & E & NK & NT) P L. unfold oldest.
  destruct (oldest_fold (ord (cnd st)) (0, 0) (ctime st)) as [(R & M)|(e1 & I1 & R & L1 & M)]; rewrite R.
  - exfalso. unfold times in NT. destruct (cnd st) as [|[[a b] [t v]] [|[[a' b'] [t' v']] r]]; cbn in L; try lia.
    assert (t = ctime st).
    { destruct (E a b t v (or_introl eq_refl)) as (_ & _ & B).
      assert (ctime st <= t); [|lia]. apply (M ((a, b), (t, v))). apply (Permutation_in _ (P _)). now left. }
    assert (t' = ctime st).
    { destruct (E a' b' t' v' (or_intror (or_introl eq_refl))) as (_ & _ & B).
      assert (ctime st <= t'); [|lia]. apply (M ((a', b'), (t', v'))). apply (Permutation_in _ (P _)). right; now left. }
    cbn in NT. inversion NT as [|? ? NT1 NT2]. apply NT1. left. congruence.
  - exists e1. split; [apply (Permutation_in _ (Permutation_sym (P _)) I1)|]. split; [reflexivity|].
    intros e' I'. apply M. apply (Permutation_in _ (P _) I').
Qed.

Lemma filter_key_length (l : list centry) e : NoDup (map fst l) -> In e l -> S (length (filter (fun e' => negb (keyb (fst e') (fst e))) l)) = length l.
Proof.
  induction l as [|x l IH]; intros N I; [destruct I|]. cbn [map] in N. inversion N; subst. cbn [filter].
  destruct I as [->|I].
  - rewrite keyb_refl. cbn [negb length]. f_equal.
    clear IH N H2. induction l as [|y l IH]; auto. cbn [filter].
    destruct (keyb_spec (fst y) (fst e)) as [K|K].
    + exfalso. apply H1. rewrite <- K. cbn. now left.
    + cbn [negb length]. f_equal. apply IH. intros J. apply H1. now right.
  - destruct (keyb_spec (fst x) (fst e)) as [K|K].
    + exfalso. apply H1. rewrite K. now apply in_map.
    + cbn [negb length]. f_equal. now apply IH.
Qed.

Lemma get_size kf cap ord i j st : 2 <= cap -> cgood kf st -> (forall l, Permutation l (ord l)) ->
  length (cnd st) <= cap -> length (cnd (snd (cache_get kf cap ord i j st))) <= cap.
Proof.
  intros C G P L. assert (G' := G). destruct G as (D & E & NK & NT). unfold cache_get.
  destruct (Nat.eqb i j); [destruct (nth i (cdiag st) None); auto|].
  destruct (find _ _) as [e|] eqn:F; cbn [snd cnd]; [now rewrite map_length|].
  rewrite app_length; cbn [length]. destruct (Nat.eqb_spec (length (cnd st)) cap) as [EQ|NE]; [|unfold centry in *; lia].
  destruct (@oldest_spec kf ord st G' P) as (e & I & -> & M); [unfold centry in *; lia|].
  assert (S (length (filter (fun e' => negb (keyb (fst e') (fst e))) (cnd st))) = length (cnd st)) by (now apply filter_key_length).
  unfold centry in *; lia.
Qed.

Lemma run_all kf cap ops : 2 <= cap -> (forall o, In o ops -> forall l, Permutation l (fst o l)) ->
  forall st, cgood kf st -> length (cnd st) <= cap ->
  fst (cache_run kf cap ops st) = map (fun o => kf (min (fst (snd o)) (snd (snd o))) (max (fst (snd o)) (snd (snd o)))) ops /\
  cgood kf (snd (cache_run kf cap ops st)) /\ length (cnd (snd (cache_run kf cap ops st))) <= cap.
Proof.
  intros C. induction ops as [|[ord [i j]] ops IH]; intros P st G L; [split; [reflexivity|]; split; [exact G|exact L]|].
  cbn [cache_run].
  assert (V := @get_value kf cap ord i j st G). assert (G1 := @get_good kf cap ord i j st G).
  assert (L1 := @get_size kf cap ord i j st C G (P (ord, (i, j)) (or_introl eq_refl)) L).
  destruct (cache_get kf cap ord i j st) as [v st1]. cbn [fst snd] in *.
  destruct (IH (fun o I => P o (or_intror I)) st1 G1 L1) as (A & B & D).
  destruct (cache_run kf cap ops st1) as [vs st2]. cbn [fst snd] in *. split; [|split; [exact B|exact D]]. cbn [map fst snd]. now rewrite V, A.
Qed.
Lemma run_values kf cap ops : forall st, cgood kf st ->
  fst (cache_run kf cap ops st) = map (fun o => kf (min (fst (snd o)) (snd (snd o))) (max (fst (snd o)) (snd (snd o)))) ops.
Proof.
  induction ops as [|[ord [i j]] ops IH]; intros st G; [reflexivity|].
  cbn [cache_run].
  assert (V := @get_value kf cap ord i j st G). assert (G1 := @get_good kf cap ord i j st G).
  destruct (cache_get kf cap ord i j st) as [v st1]. cbn [fst snd] in *. specialize (IH st1 G1).
  destruct (cache_run kf cap ops st1) as [vs st2]. cbn [fst snd] in *. cbn [map fst snd]. now rewrite V, IH.
Qed.

(* a miss on a full cache drops exactly the least recently used entry *)
Lemma get_lru kf cap ord i j st : 2 <= cap -> cgood kf st -> (forall l, Permutation l (ord l)) -> i <> j ->
  length (cnd st) = cap -> ~ In (min i j, max i j) (keys st) ->
  exists e, In e (cnd st) /\ (forall e', In e' (cnd st) -> fst (snd e) <= fst (snd e')) /\
    Permutation (map fst (cnd (snd (cache_get kf cap ord i j st))) ++ [fst e]) ((min i j, max i j) :: keys st).
Proof.
  intros C G P N L NI. destruct (@oldest_spec kf ord st G P) as (e & I & O & M); [lia|].
  exists e. split; [exact I|]. split; [exact M|].
  unfold cache_get. destruct (Nat.eqb_spec i j) as [|_]; [congruence|].
  assert (KE : (if Nat.ltb j i then (j, i) else (i, j)) = (min i j, max i j)) by (destruct (Nat.ltb_spec j i); f_equal; lia).
  rewrite KE. destruct (find _ _) as [e0|] eqn:F.
  - exfalso. apply find_some in F. destruct F as [I0 F]. destruct (keyb_spec (fst e0) (min i j, max i j)) as [K|]; [|discriminate].
    apply NI. rewrite <- K. now apply in_map.
  - cbn [snd cnd]. rewrite L, Nat.eqb_refl, O. rewrite map_app. cbn [map fst snd].
    rewrite <- app_assoc. cbn [app]. etransitivity; [apply Permutation_app_comm|]. cbn [app]. apply perm_skip.
    destruct G as (_ & _ & NK & _). unfold keys in *. clear - NK I.
    induction (cnd st) as [|x l IH]; [destruct I|]. cbn [map] in NK. inversion NK; subst. cbn [filter].
    destruct I as [->|I].
    + rewrite keyb_refl. cbn [negb map]. apply perm_skip.
      replace (filter _ l) with l; auto. clear IH NK H2. induction l as [|y l IH]; auto. cbn [filter].
      destruct (keyb_spec (fst y) (fst e)) as [K|K]; [exfalso; apply H1; rewrite <- K; now left|].
      cbn [negb]. f_equal. apply IH. intros J; apply H1; now right.
    + destruct (keyb_spec (fst x) (fst e)) as [K|K]; [exfalso; apply H1; rewrite K; now apply in_map|].
      cbn [negb map]. etransitivity; [apply perm_swap|]. apply perm_skip. now apply IH.
Qed.

(* capacity 0: never evicts *)
Definition diag_ops (n : nat) : list ((list centry -> list centry) * (nat * nat)) := map (fun k => ((fun l => l), (0, S k))) (seq 0 n).
Lemma cap0_aux kf n : forall k st, map fst (cnd st) = map (fun t => (0, S t)) (seq 0 k) -> (k = 0 -> cnd st = []) ->
  length (cnd (snd (cache_run kf 0 (map (fun t => ((fun l => l), (0, S t))) (seq k n)) st))) = k + n.
Proof.
  induction n as [|n IH]; intros k st H E.
  - cbn [seq map cache_run snd]. assert (HL : length (cnd st) = length (map fst (cnd st))) by (now rewrite map_length). rewrite HL, H, map_length, seq_length. lia.
  - cbn [seq map cache_run]. unfold cache_get. cbn [Nat.eqb Nat.ltb Nat.leb].
    destruct (find _ _) as [e|] eqn:F.
    + exfalso. apply find_some in F. destruct F as [I F]. destruct (keyb_spec (fst e) (0, S k)) as [K|]; [|discriminate].
      assert (J : In (0, S k) (map fst (cnd st))) by (rewrite <- K; now apply in_map).
      rewrite H in J. apply in_map_iff in J. destruct J as (x & EX & J). apply in_seq in J. inversion EX. lia.
    + match goal with |- context[cache_run kf 0 ?o ?s] => set (st' := s); specialize (IH (S k) st') end.
      destruct (cache_run kf 0 _ st') as [vs st2]. cbn [snd] in *. rewrite IH; [lia| |discriminate].
      unfold st'; cbn [cnd]. rewrite map_app. cbn [map fst].
      replace (map fst (if Nat.eqb (length (cnd st)) 0 then _ else cnd st)) with (map fst (cnd st)).
      * rewrite H. replace (S k) with (k + 1) by lia. rewrite seq_app, map_app. cbn. repeat f_equal; lia.
      * destruct (cnd st); reflexivity.
Qed.
Lemma cap0_unbounded kf m n : length (cnd (snd (cache_run kf 0 (diag_ops n) (cache_new m)))) = n.
Proof. apply (@cap0_aux kf n 0 (cache_new m)); auto. Qed.
