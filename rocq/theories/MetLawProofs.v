(* Proofs for MetLawModel and further laws of MetricsModel. *)
From Verif Require Import QCommon LabelModel MetricsModel MetricsProofs RankProofs KnnModel KnnProofs MetLawModel.
Open Scope Q_scope.

Ltac qm := unfold qmax, qmin in *; repeat match goal with |- context [Qle_bool ?a ?b] => destruct (Qleb_spec a b) | H : context [Qle_bool ?a ?b] |- _ => destruct (Qleb_spec a b) end.

Lemma rr_min_coord a b c d x y : a <= x <= b -> c <= y <= d -> 0 <= qmax 0 (qmax (a - d) (c - b)) <= Qabs (x - y).
Proof.
  intros H1 H2. pose proof (Qabs_nonneg (x - y)). pose proof (Qle_Qabs (x - y)). pose proof (Qle_Qabs (- (x - y))) as H4. rewrite Qabs_opp in H4. qm; lra.
Qed.
Lemma rr_max_coord a b c d x y : a <= x <= b -> c <= y <= d -> Qabs (x - y) <= qmax (b - c) (d - a).
Proof. intros H1 H2. apply Qabs_case; intros; qm; lra. Qed.

Section Pair.
  Variables (r o : rect).
  Let n := length (maxes o).
  Hypothesis Hr : proper r n.
  Hypothesis Ho : proper o n.

  Lemma rr_bounds x y : length x = n -> length y = n -> inside r x -> inside o y ->
    (norm1 (rr_min_vec r o) <= norm1 (diffv x y) /\ normi (rr_min_vec r o) <= normi (diffv x y) /\ norm2s (rr_min_vec r o) <= norm2s (diffv x y)) /\
    (norm1 (diffv x y) <= norm1 (rr_max_vec r o) /\ normi (diffv x y) <= normi (rr_max_vec r o) /\ norm2s (diffv x y) <= norm2s (rr_max_vec r o)).
  Proof.
    intros Lx Ly Ix Iy. split; apply norms_mono; try (unfold rr_min_vec, rr_max_vec, diffv; rewrite !map_length, !seq_length; fold n; congruence);
      intros d Hd; unfold rr_min_vec, rr_max_vec, diffv in *; rewrite map_length, seq_length in Hd; rewrite !nth_map_seq by (fold n in Hd |- *; congruence);
      specialize (Ix d ltac:(fold n in Hd; congruence)); specialize (Iy d ltac:(fold n in Hd; congruence)).
    - destruct (rr_min_coord _ _ _ _ _ _ Ix Iy) as (A & B). rewrite Qabs_pos by exact A. exact B.
    - eapply Qle_trans; [exact (rr_max_coord _ _ _ _ _ _ Ix Iy)|]. apply Qle_Qabs.
  Qed.

  (* a nearest pair: the middle of the overlap, or the facing sides *)
  Definition near_r : list Q := map (fun d => qmax (nth d (mins r) 0) (qmin (nth d (maxes r) 0) (nth d (mins o) 0))) (seq 0 n).
  Definition near_o : list Q := map (fun d => qmax (nth d (mins o) 0) (qmin (nth d (maxes o) 0) (nth d near_r 0))) (seq 0 n).
  Definition far_r : list Q := map (fun d => if Qle_bool (nth d (maxes r) 0 - nth d (mins o) 0) (nth d (maxes o) 0 - nth d (mins r) 0) then nth d (mins r) 0 else nth d (maxes r) 0) (seq 0 n).
  Definition far_o : list Q := map (fun d => if Qle_bool (nth d (maxes r) 0 - nth d (mins o) 0) (nth d (maxes o) 0 - nth d (mins r) 0) then nth d (maxes o) 0 else nth d (mins o) 0) (seq 0 n).

  Lemma len_map_seq (f : nat -> Q) : length (map f (seq 0 n)) = n.
  Proof. now rewrite map_length, seq_length. Qed.

  Lemma rr_min_attained : exists x y, length x = n /\ length y = n /\ inside r x /\ inside o y /\
    norm1 (diffv x y) == norm1 (rr_min_vec r o) /\ normi (diffv x y) == normi (rr_min_vec r o) /\ norm2s (diffv x y) == norm2s (rr_min_vec r o).
  Proof.
    exists near_r, near_o. split; [apply len_map_seq|]. split; [apply len_map_seq|].
    split; [|split].
    - intros d Hd. unfold near_r in *. rewrite len_map_seq in Hd. rewrite nth_map_seq by exact Hd. specialize (Hr d Hd). qm; lra.
    - intros d Hd. unfold near_o in *. rewrite len_map_seq in Hd. rewrite nth_map_seq by exact Hd. specialize (Ho d Hd). qm; lra.
    - apply norms_eq; [unfold diffv, rr_min_vec; rewrite !map_length, !seq_length; unfold near_o; apply len_map_seq|].
      intros d Hd. unfold diffv in *. rewrite map_length, seq_length in Hd. assert (Hd': (d < n)%nat) by (unfold near_o in Hd; now rewrite len_map_seq in Hd).
      rewrite nth_map_seq by exact Hd. unfold rr_min_vec. rewrite nth_map_seq by exact Hd'. unfold near_o. rewrite nth_map_seq by exact Hd'. unfold near_r. rewrite nth_map_seq by exact Hd'.
      specialize (Hr d Hd'). specialize (Ho d Hd'). set (a := nth d (mins r) 0) in *. set (b := nth d (maxes r) 0) in *. set (c := nth d (mins o) 0) in *. set (e := nth d (maxes o) 0) in *. clearbody a b c e.
      apply Qabs_case; intros; apply Qabs_case; intros; qm; lra.
  Qed.
  Lemma rr_max_attained : exists x y, length x = n /\ length y = n /\ inside r x /\ inside o y /\
    norm1 (diffv x y) == norm1 (rr_max_vec r o) /\ normi (diffv x y) == normi (rr_max_vec r o) /\ norm2s (diffv x y) == norm2s (rr_max_vec r o).
  Proof.
    exists far_r, far_o. split; [apply len_map_seq|]. split; [apply len_map_seq|].
    split; [|split].
    - intros d Hd. unfold far_r in *. rewrite len_map_seq in Hd. rewrite nth_map_seq by exact Hd. specialize (Hr d Hd). qm; lra.
    - intros d Hd. unfold far_o in *. rewrite len_map_seq in Hd. rewrite nth_map_seq by exact Hd. specialize (Ho d Hd). qm; lra.
    - apply norms_eq; [unfold diffv, rr_max_vec; rewrite !map_length, !seq_length; unfold far_o; apply len_map_seq|].
      intros d Hd. unfold diffv in *. rewrite map_length, seq_length in Hd. assert (Hd': (d < n)%nat) by (unfold far_o in Hd; now rewrite len_map_seq in Hd).
      rewrite nth_map_seq by exact Hd. unfold rr_max_vec. rewrite nth_map_seq by exact Hd'. unfold far_o, far_r. rewrite !nth_map_seq by exact Hd'.
      specialize (Hr d Hd'). specialize (Ho d Hd'). set (a := nth d (mins r) 0) in *. set (b := nth d (maxes r) 0) in *. set (c := nth d (mins o) 0) in *. set (e := nth d (maxes o) 0) in *. clearbody a b c e.
      apply Qabs_case; intros; apply Qabs_case; intros; qm; lra.
  Qed.
End Pair.

(* ------------------------------------------------------------------ volume *)
Definition qprod (l : list Q) : Q := fold_right Qmult 1 l.
Lemma fold_prod {A} (f : A -> Q) l : forall v, fold_left (fun v a => v * f a) l v == v * qprod (map f l).
Proof. induction l as [|x l IH]; intros v; cbn [fold_left map]; unfold qprod in *; cbn [fold_right]; [ring|]. rewrite IH. ring. Qed.
Lemma volume_prod r : volume r == qprod (map (fun d => nth d (maxes r) 0 - nth d (mins r) 0) (seq 0 (length (maxes r)))).
Proof. unfold volume. rewrite fold_prod. ring. Qed.
Lemma qprod_ext {A} (f g : A -> Q) l : (forall x, In x l -> f x == g x) -> qprod (map f l) == qprod (map g l).
Proof. induction l as [|x l IH]; intros H; unfold qprod in *; cbn [map fold_right]; [reflexivity|]. rewrite H by (now left). rewrite IH by (intros; apply H; now right). reflexivity. Qed.
(* products that differ in one factor *)
Lemma qprod_split (f g h : nat -> Q) d : forall l, NoDup l -> In d l -> f d == g d + h d -> (forall e, In e l -> e <> d -> f e == g e /\ f e == h e) ->
  qprod (map f l) == qprod (map g l) + qprod (map h l).
Proof.
  induction l as [|x l IH]; intros ND I E H; [destruct I|]. inversion ND; subst. unfold qprod in *; cbn [map fold_right]. destruct I as [->|I].
  - assert (A: qprod (map g l) == qprod (map f l)) by (apply qprod_ext; intros e He; symmetry; apply H; [now right|intros ->; contradiction]).
    assert (B: qprod (map h l) == qprod (map f l)) by (apply qprod_ext; intros e He; symmetry; apply H; [now right|intros ->; contradiction]).
    unfold qprod in *. rewrite A, B, E. ring.
  - destruct (H x) as (A & B); [now left|intros ->; contradiction|]. unfold qprod in *. rewrite IH by (auto; intros; apply H; auto; now right).
    rewrite Qmult_plus_distr_r. rewrite A at 1. rewrite B. reflexivity.
Qed.
Definition sgn (n : nat) : Q := if Nat.even n then 1 else -1.
Lemma sgn_S n : sgn (S n) == - sgn n.
Proof. unfold sgn. rewrite Nat.even_succ, <- Nat.negb_even. destruct (Nat.even n); reflexivity. Qed.
Lemma qprod_opp {A} (f : A -> Q) l : qprod (map (fun x => - f x) l) == sgn (length l) * qprod (map f l).
Proof. induction l as [|x l IH]; unfold qprod in *; cbn [map fold_right length]; [reflexivity|]. rewrite IH, sgn_S. ring. Qed.

Lemma split_volumes r d s : length (mins r) = length (maxes r) -> (d < length (maxes r))%nat ->
  volume (fst (rect_split r d s)) + volume (snd (rect_split r d s)) == sgn (length (maxes r)) * volume r.
Proof.
  intros L Hd. rewrite !volume_prod. cbn [rect_split fst snd maxes mins]. rewrite upd_length, L.
  set (n := length (maxes r)) in *.
  transitivity (qprod (map (fun k => - (nth k (maxes r) 0 - nth k (mins r) 0)) (seq 0 n))).
  - symmetry. rewrite Qplus_comm. apply (qprod_split _ _ _ d); [apply seq_NoDup|apply in_seq; lia| |].
    + rewrite !nth_upd_q. rewrite Nat.eqb_refl. replace (d <? length (mins r))%nat with true by (symmetry; apply Nat.ltb_lt; lia). replace (d <? length (maxes r))%nat with true by (symmetry; apply Nat.ltb_lt; fold n; lia). cbn. ring.
    + intros e He Hne. apply in_seq in He. rewrite !nth_upd_q. replace (d =? e)%nat with false by (symmetry; apply Nat.eqb_neq; lia). replace (e =? d)%nat with false by (symmetry; apply Nat.eqb_neq; lia). cbn. split; ring.
  - rewrite qprod_opp, seq_length. reflexivity.
Qed.

(* ------------------------------------------------------- regression errors *)
Definition colpairs (j : nat) (yt yp : list (list Q)) : list (Q * Q) := map (fun ab => (nth j (fst ab) 0, nth j (snd ab) 0)) (combine yt yp).
Lemma reg_none loss yt yp j : length yt = length yp -> yt <> [] ->
  exists v, reg_err loss None yt yp j = Some v /\ v == qsum (map (fun ab => loss (snd ab - fst ab)) (colpairs j yt yp)) / qn (length yt).
Proof.
  intros L N. destruct (reg_err_spec loss None yt yp j L N) as (v & E & V). exists v. split; [exact E|]. rewrite V. unfold colpairs. rewrite map_map. reflexivity.
Qed.
Lemma qsum_zero {A} (f : A -> Q) l : (forall x, In x l -> 0 <= f x) -> (qsum (map f l) == 0 <-> forall x, In x l -> f x == 0).
Proof.
  induction l as [|x l IH]; intros H; cbn [map]; [split; [intros _ ? []|reflexivity]|]. rewrite qsum_cons.
  assert (P: 0 <= f x) by (apply H; now left). assert (P': 0 <= qsum (map f l)) by (apply qsum_nonneg; intros q Hq; apply in_map_iff in Hq; destruct Hq as (z & <- & Hz); apply H; now right).
  specialize (IH (fun z Hz => H z (or_intror Hz))). split.
  - intros E z [<-|Hz]; [lra|]. apply IH; [lra|exact Hz].
  - intros Z. rewrite (Z x) by (now left). rewrite (proj2 IH); [lra|]. intros z Hz. apply Z. now right.
Qed.
Lemma qdiv_zero a n : 0 < n -> (a / n == 0 <-> a == 0).
Proof.
  intros H. split; intros E.
  - assert (X: a == a / n * n) by (field; lra). rewrite X, E. ring.
  - rewrite E. field. lra.
Qed.
Lemma qdiv_nn a n : 0 < n -> 0 <= a -> 0 <= a / n.
Proof. intros H1 H2. apply Qle_shift_div_l; [exact H1|]. lra. Qed.
(* the mean of squares is at least the square of the mean *)
Lemma qmean_sq (l : list Q) : l <> [] -> (qsum l / qn (length l)) * (qsum l / qn (length l)) <= qsum (map (fun x => x * x) l) / qn (length l).
Proof.
  intros N. assert (HN: 0 < qn (length l)) by (apply qn_pos; destruct l; [congruence|cbn; lia]).
  set (m := qsum l / qn (length l)). assert (Em: qsum l == m * qn (length l)) by (unfold m; field; lra). clearbody m.
  assert (P: 0 <= qsum (map (fun x => (x - m) * (x - m)) l)) by (apply qsum_nonneg; intros q Hq; apply in_map_iff in Hq; destruct Hq as (z & <- & _); apply qsq_nonneg).
  assert (E: qsum (map (fun x => (x - m) * (x - m)) l) == qsum (map (fun x => x * x) l) - 2 * m * qsum l + qn (length l) * (m * m)).
  { clear. induction l as [|x l IH]; cbn [map length]; [rewrite !qsum_nil; change (qn 0) with 0; ring|]. rewrite !qsum_cons, IH, qn_S. ring. }
  apply Qle_shift_div_l; [exact HN|]. rewrite E, Em in P. nra.
Qed.
Lemma colpairs_len j yt yp : length yt = length yp -> length (colpairs j yt yp) = length yt.
Proof. intros L. unfold colpairs. rewrite map_length, combine_length. lia. Qed.
Lemma colpairs_swap j yt : forall yp, colpairs j yp yt = map (fun ab => (snd ab, fst ab)) (colpairs j yt yp).
Proof. induction yt as [|a yt IH]; intros [|b yp]; cbn; try reflexivity. unfold colpairs in *. cbn. f_equal. apply IH. Qed.
Lemma colpairs_in j yt yp ab : length yt = length yp -> In ab (colpairs j yt yp) <->
  exists i, (i < length yt)%nat /\ ab = (nth j (nth i yt []) 0, nth j (nth i yp []) 0).
Proof.
  revert yp. induction yt as [|a yt IH]; intros [|b yp] L; cbn in L; try lia.
  - cbn. split; [intros []|intros (i & H & _); cbn in H; lia].
  - cbn [colpairs combine map In fst snd]. change (map _ (combine yt yp)) with (colpairs j yt yp). rewrite IH by lia. split.
    + intros [<-|(i & Hi & ->)]; [exists 0%nat; split; [cbn; lia|reflexivity]|exists (S i); split; [cbn; lia|reflexivity]].
    + intros (i & Hi & ->). destruct i as [|i]; [now left|right; exists i; split; [cbn in Hi; lia|reflexivity]].
Qed.
(* sums over a row of triples *)
Lemma tri_sum (yt : list (list Q)) : forall yp yz j, length yt = length yp -> length yt = length yz ->
  qsum (map (fun ab => Qabs (snd ab - fst ab)) (colpairs j yt yz)) <=
  qsum (map (fun ab => Qabs (snd ab - fst ab)) (colpairs j yt yp)) + qsum (map (fun ab => Qabs (snd ab - fst ab)) (colpairs j yp yz)).
Proof.
  induction yt as [|a yt IH]; intros [|b yp] [|c yz] j L1 L2; cbn in L1, L2; try lia; [cbn; lra|].
  cbn [colpairs combine map]. change (map (fun ab => (nth j (fst ab) 0, nth j (snd ab) 0)) (combine ?u ?v)) with (colpairs j u v).
  specialize (IH yp yz j ltac:(lia) ltac:(lia)). unfold colpairs in *. cbn [fst snd]. rewrite !qsum_cons.
  assert (T: Qabs (nth j c 0 - nth j a 0) <= Qabs (nth j b 0 - nth j a 0) + Qabs (nth j c 0 - nth j b 0)).
  { assert (E: nth j c 0 - nth j a 0 == (nth j b 0 - nth j a 0) + (nth j c 0 - nth j b 0)) by ring. rewrite E. apply Qabs_triangle. }
  lra.
Qed.
Lemma qabs_sq t : Qabs t * Qabs t == t * t.
Proof. apply (Qabs_case t (fun s => s * s == t * t)); intros; ring. Qed.
Lemma qabs_zero t : Qabs t == 0 <-> t == 0.
Proof. split; intros H; [|rewrite H; reflexivity]. revert H. apply (Qabs_case t (fun s => s == 0 -> t == 0)); intros; lra. Qed.

Lemma reg_laws yt yp j : length yt = length yp -> yt <> [] ->
  exists e a, mse None yt yp j = Some e /\ mae None yt yp j = Some a /\ 0 <= a /\ a * a <= e /\
    (a == 0 <-> forall i, (i < length yt)%nat -> nth j (nth i yp []) 0 == nth j (nth i yt []) 0) /\
    (e == 0 <-> forall i, (i < length yt)%nat -> nth j (nth i yp []) 0 == nth j (nth i yt []) 0).
Proof.
  intros L N. destruct (reg_none (fun d => d * d) yt yp j L N) as (e & Ee & Ve). destruct (reg_none Qabs yt yp j L N) as (a & Ea & Va).
  assert (HN: 0 < qn (length yt)) by (apply qn_pos; destruct yt; [congruence|cbn; lia]).
  exists e, a. split; [exact Ee|]. split; [exact Ea|]. split; [rewrite Va; apply qdiv_nn; [exact HN|apply qsum_nonneg; intros q Hq; apply in_map_iff in Hq; destruct Hq as (z & <- & _); apply Qabs_nonneg]|].
  split; [|split].
  - rewrite Va, Ve. pose proof (qmean_sq (map (fun ab => Qabs (snd ab - fst ab)) (colpairs j yt yp))) as Q1.
    rewrite map_length, colpairs_len in Q1 by exact L. rewrite map_map in Q1. eapply Qle_trans; [apply Q1|].
    + intros X. apply (f_equal (@length _)) in X. rewrite map_length, colpairs_len in X by exact L. destruct yt; [congruence|discriminate].
    + rewrite (qsum_map_ext _ (fun ab => (snd ab - fst ab) * (snd ab - fst ab))) by (intros x _; apply qabs_sq). lra.
  - rewrite Va, qdiv_zero, qsum_zero by (auto; intros; apply Qabs_nonneg). split.
    + intros H i Hi. specialize (H _ (proj2 (colpairs_in j yt yp _ L) (ex_intro _ i (conj Hi eq_refl)))). apply -> qabs_zero in H. cbn [fst snd] in H. lra.
    + intros H x Hx. apply colpairs_in in Hx; [|exact L]. destruct Hx as (i & Hi & ->). cbn [fst snd]. apply qabs_zero. rewrite (H i Hi). ring.
  - rewrite Ve, qdiv_zero, qsum_zero by (auto; intros; apply qsq_nonneg). split.
    + intros H i Hi. specialize (H _ (proj2 (colpairs_in j yt yp _ L) (ex_intro _ i (conj Hi eq_refl)))). cbn [fst snd] in H. apply Qmult_integral in H. destruct H; lra.
    + intros H x Hx. apply colpairs_in in Hx; [|exact L]. destruct Hx as (i & Hi & ->). cbn [fst snd]. rewrite (H i Hi). ring.
Qed.
Lemma reg_sym loss yt yp j : (forall d d', d == d' -> loss d == loss d') -> (forall d, loss (- d) == loss d) -> length yt = length yp -> yt <> [] ->
  exists v v', reg_err loss None yt yp j = Some v /\ reg_err loss None yp yt j = Some v' /\ v' == v.
Proof.
  intros P O L N. destruct (reg_none loss yt yp j L N) as (v & E & V). assert (N': yp <> []) by (destruct yp; [destruct yt; [congruence|discriminate]|discriminate]).
  destruct (reg_none loss yp yt j (eq_sym L) N') as (v' & E' & V'). exists v, v'. split; [exact E|]. split; [exact E'|]. rewrite V, V', L, colpairs_swap, map_map. cbn [fst snd].
  rewrite (qsum_map_ext _ (fun ab => loss (snd ab - fst ab))); [reflexivity|]. intros x _. rewrite <- (O (snd x - fst x)). apply P. ring.
Qed.
Lemma mae_triangle yt yp yz j : length yt = length yp -> length yt = length yz -> yt <> [] ->
  exists a b c, mae None yt yp j = Some a /\ mae None yp yz j = Some b /\ mae None yt yz j = Some c /\ c <= a + b.
Proof.
  intros L1 L2 N. assert (N': yp <> []) by (destruct yp; [destruct yt; [congruence|discriminate]|discriminate]).
  destruct (reg_none Qabs yt yp j L1 N) as (a & Ea & Va). destruct (reg_none Qabs yp yz j ltac:(congruence) N') as (b & Eb & Vb). destruct (reg_none Qabs yt yz j L2 N) as (c & Ec & Vc).
  exists a, b, c. do 3 (split; [assumption|]). rewrite Va, Vb, Vc, <- L1.
  assert (HN: 0 < qn (length yt)) by (apply qn_pos; destruct yt; [congruence|cbn; lia]).
  pose proof (tri_sum yt yp yz j L1 L2) as T. apply Qle_shift_div_r; [exact HN|]. eapply Qle_trans; [exact T|]. apply Qle_lteq. right. field. lra.
Qed.

(* --------------------------------------------------------------- R2Score *)
Definition affine (a b : Q) (s : list (Q * Q * Q)) : list (Q * Q * Q) := map (fun x => ((a * fst (fst x) + b, a * snd (fst x) + b), snd x)) s.
Lemma affine_num a b s : r2_num (affine a b s) == a * a * r2_num s.
Proof.
  unfold r2_num, affine. rewrite map_map. cbn [fst snd]. rewrite (qsum_map_ext _ (fun x => a * a * (snd x * ((snd (fst x) - fst (fst x)) * (snd (fst x) - fst (fst x)))))) by (intros; ring).
  apply qsum_map_scale.
Qed.
Lemma affine_avg a b s : ~ qsum (map snd s) == 0 -> r2_avg (affine a b s) == a * r2_avg s + b.
Proof.
  intros H. unfold r2_avg, affine. rewrite !map_map. cbn [fst snd].
  rewrite (qsum_map_ext (fun x => snd x * (a * fst (fst x) + b)) (fun x => a * (snd x * fst (fst x)) + b * snd x)) by (intros; ring).
  rewrite qsum_map_plus, !qsum_map_scale. change (map (fun x : Q * Q * Q => snd x) s) with (map (@snd (Q * Q) Q) s). field. exact H.
Qed.
Lemma affine_den a b s : ~ qsum (map snd s) == 0 -> r2_den (affine a b s) == a * a * r2_den s.
Proof.
  intros H. unfold r2_den at 1. rewrite (qsum_map_ext _ (fun x => snd x * ((fst (fst x) - (a * r2_avg s + b)) * (fst (fst x) - (a * r2_avg s + b))))) by (intros; rewrite (affine_avg a b s H); reflexivity).
  unfold affine. rewrite map_map. cbn [fst snd].
  rewrite (qsum_map_ext _ (fun x => a * a * (snd x * ((fst (fst x) - r2_avg s) * (fst (fst x) - r2_avg s))))) by (intros; ring). apply qsum_map_scale.
Qed.
Lemma qmax_ge d : r2_tiny <= d -> qmax d r2_tiny == d.
Proof. intros H. unfold qmax. destruct (Qleb_spec d r2_tiny); lra. Qed.
Lemma r2_affine a b s : ~ a == 0 -> ~ qsum (map snd s) == 0 -> r2_tiny <= r2_den s -> r2_tiny <= a * a * r2_den s -> r2_raw (affine a b s) == r2_raw s.
Proof.
  intros Ha Hs H1 H2. unfold r2_raw. rewrite (qmax_ge (r2_den s) H1). rewrite (qmax_ge (r2_den (affine a b s))) by (rewrite affine_den by exact Hs; exact H2).
  rewrite affine_den, affine_num by exact Hs. assert (0 < r2_den s) by (unfold r2_tiny in *; lra). field. split; [lra|exact Ha].
Qed.

(* --------------------------------------------------- precision and recall *)
Lemma Qltb_comp x x' y y' : x == x' -> y == y' -> Qltb x y = Qltb x' y'.
Proof. intros H1 H2. destruct (Qltb_spec x y), (Qltb_spec x' y'); auto; exfalso; lra. Qed.
Lemma prf_swap tp tr pr tp' tr' pr' : tp' == tp -> tr' == pr -> pr' == tr ->
  let '(p, r, f) := prf 1 tp tr pr in let '(p', r', f') := prf 1 tp' tr' pr' in p' == r /\ r' == p /\ f' == f.
Proof.
  intros H1 H2 H3. unfold prf.
  assert (A: (if Qltb 0 pr' then tp' / pr' else 0) == (if Qltb 0 tr then tp / tr else 0)).
  { rewrite (Qltb_comp 0 0 pr' tr ltac:(reflexivity) H3). destruct (Qltb 0 tr); [rewrite H1, H3|]; reflexivity. }
  assert (B: (if Qltb 0 tr' then tp' / tr' else 0) == (if Qltb 0 pr then tp / pr else 0)).
  { rewrite (Qltb_comp 0 0 tr' pr ltac:(reflexivity) H2). destruct (Qltb 0 pr); [rewrite H1, H2|]; reflexivity. }
  split; [exact A|]. split; [exact B|].
  set (p := if Qltb 0 pr then _ else _) in *. set (r := if Qltb 0 tr then _ else _) in *. set (p' := if Qltb 0 pr' then _ else _) in *. set (r' := if Qltb 0 tr' then _ else _) in *.
  rewrite (Qltb_comp 0 0 (1 * 1 * p' + r') (1 * 1 * p + r)) by (rewrite ?A, ?B; ring). destruct (Qltb_spec 0 (1 * 1 * p + r)); [|reflexivity].
  rewrite A, B. field; lra.
Qed.
(* F-beta lies between precision and recall *)
Lemma prf_between beta tp tr pr : 0 <= tp -> tp <= tr -> tp <= pr ->
  let '(p, r, f) := prf beta tp tr pr in qmin p r <= f <= qmax p r.
Proof.
  intros H0 H1 H2. pose proof (prf_bounds beta tp tr pr H0 H1 H2) as B. destruct (prf beta tp tr pr) as [[p r] f]. destruct B as (Bp & Br & Bf & _ & _ & _ & _ & E & Z).
  assert (Hb: 0 <= beta * beta) by nra. set (b := beta * beta) in *. clearbody b. destruct (Qlt_le_dec 0 (b * p + r)) as [P|P].
  - assert (K: forall m, 0 <= m -> (m <= p /\ m <= r -> m <= f) /\ (p <= m /\ r <= m -> f <= m)).
    { intros m Hm. split; intros (A1 & A2); apply Qnot_lt_le; intros C; apply (Qlt_irrefl (f * (b * p + r))).
      - apply Qlt_le_trans with (m * (b * p + r)); [apply Qmult_lt_compat_r; auto|]. rewrite E.
        assert (X1: m * r <= p * r) by nra. assert (X2: m * p <= r * p) by nra. assert (X3: b * (m * p) <= b * (r * p)) by nra.
        assert (X4: m * (b * p + r) == b * (m * p) + m * r) by ring. assert (X5: (1 + b) * p * r == b * (r * p) + p * r) by ring. rewrite X4, X5. lra.
      - apply Qle_lt_trans with (m * (b * p + r)); [|apply Qmult_lt_compat_r; auto]. rewrite E.
        assert (X1: p * r <= m * r) by nra. assert (X2: r * p <= m * p) by nra. assert (X3: b * (r * p) <= b * (m * p)) by nra.
        assert (X4: m * (b * p + r) == b * (m * p) + m * r) by ring. assert (X5: (1 + b) * p * r == b * (r * p) + p * r) by ring. rewrite X4, X5. lra. }
    split; apply K; qm; repeat split; lra.
  - assert (Hr: r == 0) by (assert (0 <= b * p) by nra; lra). assert (Zr: b * p + r == 0) by (assert (0 <= b * p) by nra; lra). specialize (Z Zr). rewrite Z. qm; split; lra.
Qed.
Lemma sorted_same (c : list Z) : forall c', StronglySorted Z.lt c -> StronglySorted Z.lt c' -> (forall v, In v c <-> In v c') -> c = c'.
Proof.
  induction c as [|x c IH]; intros [|y c'] H H' E; [reflexivity|exfalso; apply (E y); now left|exfalso; apply (E x); now left|].
  apply StronglySorted_inv in H. destruct H as (H & F). apply StronglySorted_inv in H'. destruct H' as (H' & F'). rewrite Forall_forall in F, F'.
  assert (x = y).
  { destruct (proj1 (E x) (or_introl eq_refl)) as [->|I]; [reflexivity|]. destruct (proj2 (E y) (or_introl eq_refl)) as [->|J]; [reflexivity|]. specialize (F _ J). specialize (F' _ I). lia. }
  subst y. f_equal. apply IH; auto. intros v. split; intros I.
  - destruct (proj1 (E v) (or_intror I)) as [<-|J]; [specialize (F _ I); lia|exact J].
  - destruct (proj2 (E v) (or_intror I)) as [<-|J]; [specialize (F' _ I); lia|exact J].
Qed.
Definition swap_s (s : list (Z * Z * Q)) : list (Z * Z * Q) := map (fun x => ((snd (fst x), fst (fst x)), snd x)) s.
Lemma swap_confusion s : s <> [] ->
  (forall v, In v (map (fun x => fst (fst x)) s) <-> In v (map (fun x => snd (fst x)) s)) ->
  exists (c : list Z) cm cm', confusion (Some (map snd s)) 1 (map smp s) = Some (length c, cm) /\ confusion (Some (map snd (swap_s s))) 1 (map smp (swap_s s)) = Some (length c, cm') /\
    (forall i j, (i < length c)%nat -> (j < length c)%nat -> cm_at (length c) cm' i j == cm_at (length c) cm j i) /\
    (forall k, (k < length c)%nat -> let '(p, r, f) := prf_class 1 (length c) cm k in let '(p', r', f') := prf_class 1 (length c) cm' k in p' == r /\ r' == p /\ f' == f).
Proof.
  intros N HS. destruct (confusion_main s N) as (c & cm & E & S1 & V & _ & X).
  { intros x Hx. apply HS. now apply (in_map (fun x => snd (fst x))). }
  assert (M1: map (fun x => fst (fst x)) (swap_s s) = map (fun x => snd (fst x)) s) by (unfold swap_s; now rewrite map_map).
  destruct (confusion_main (swap_s s)) as (c' & cm' & E' & S1' & V' & _ & X').
  { unfold swap_s. intros H. apply map_eq_nil in H. contradiction. }
  { intros x Hx. rewrite M1. apply in_map_iff in Hx. destruct Hx as (y & <- & Hy). cbn. apply HS. now apply (in_map (fun x => fst (fst x))). }
  assert (c' = c) by (apply sorted_same; auto; intros v; rewrite V, V', M1; symmetry; apply HS). subst c'.
  assert (T: forall i j, (i < length c)%nat -> (j < length c)%nat -> cm_at (length c) cm' i j == cm_at (length c) cm j i).
  { intros i j Hi Hj. rewrite X, X' by auto. unfold swap_s. rewrite map_map. cbn [fst snd]. apply qsum_map_ext. intros x _. rewrite andb_comm. reflexivity. }
  exists c, cm, cm'. split; [exact E|]. split; [exact E'|]. split; [exact T|].
  intros k Hk. unfold prf_class. apply prf_swap.
  - apply T; auto.
  - unfold cm_row, cm_col. apply qsum_map_ext. intros j Hj. apply in_seq in Hj. apply T; lia.
  - unfold cm_row, cm_col. apply qsum_map_ext. intros j Hj. apply in_seq in Hj. apply T; lia.
Qed.

(* --------------------------------------------------------------------- AUC *)
Lemma auc_formula labels wt sc idx : let n := length labels in let pos := ispos labels 1 in
  length sc = n -> Permutation idx (seq 0 n) -> StronglySorted (fun i j => nth j sc 0 <= nth i sc 0) idx ->
  (forall i, (i < n)%nat -> 0 <= weight wt i) -> 0 < Ts pos (weight wt) (seq 0 n) -> 0 < Fs pos (weight wt) (seq 0 n) ->
  exists a, roc_auc_binary labels wt sc idx = Some a /\ a == mwx sc pos (weight wt) (seq 0 n) (seq 0 n) / (Fs pos (weight wt) (seq 0 n) * Ts pos (weight wt) (seq 0 n)).
Proof.
  intros n pos H1 H2 H3 H4 H5 H6. destruct (roc_main labels 1 wt sc idx H1 H2 H3 H4 H5 H6) as (fpr & tpr & ths & E & _ & _ & _ & _ & _ & _ & _ & _ & AU).
  exists (auc fpr tpr). unfold roc_auc_binary. rewrite E. auto.
Qed.
Lemma mwx_total (pos : nat -> bool) (w : nat -> Q) A B : qsum (map (fun n => qsum (map (fun p => (if pos n then 0 else w n) * ((if pos p then w p else 0) * 1)) B)) A) == Fs pos w A * Ts pos w B.
Proof.
  unfold Fs, Ts. rewrite (qsum_map_ext _ (fun n => qsum (map (fun i => if pos i then w i else 0) B) * (if pos n then 0 else w n))).
  - rewrite qsum_map_scale. ring.
  - intros n _. rewrite Qmult_comm, <- qsum_map_scale. apply qsum_map_ext. intros; ring.
Qed.
Lemma hcmp_opp a b : hcmp (- a) (- b) == 1 - hcmp a b.
Proof. unfold hcmp. destruct (Qltb_spec b a), (Qltb_spec (- b) (- a)); try (exfalso; lra); destruct (Qeqb_spec a b), (Qeqb_spec (- a) (- b)); try (exfalso; lra); try reflexivity; exfalso; lra. Qed.
Lemma mwx_neg sc (pos : nat -> bool) (w : nat -> Q) n : length sc = n -> mwx (map Qopp sc) pos w (seq 0 n) (seq 0 n) == Fs pos w (seq 0 n) * Ts pos w (seq 0 n) - mwx sc pos w (seq 0 n) (seq 0 n).
Proof.
  intros L. rewrite <- mwx_total. unfold mwx.
  assert (K: forall A (f g : A -> Q) l, qsum (map f l) - qsum (map g l) == qsum (map (fun x => f x - g x) l)).
  { intros A f g l. rewrite (qsum_map_ext (fun x => f x - g x) (fun x => f x + (-1) * g x)) by (intros; ring). rewrite qsum_map_plus, qsum_map_scale. ring. }
  rewrite K. apply qsum_map_ext. intros i Hi. rewrite K. apply qsum_map_ext. intros j Hj. apply in_seq in Hi, Hj.
  assert (O: forall k, (k < n)%nat -> nth k (map Qopp sc) 0 = - nth k sc 0) by (intros k Hk; rewrite (nth_indep _ 0 (- 0)) by (rewrite map_length; lia); apply (map_nth Qopp)).
  rewrite !O by lia. rewrite hcmp_opp. ring.
Qed.
Lemma mwx_full sc (pos : nat -> bool) (w : nat -> Q) n : (forall i, (i < n)%nat -> 0 < w i) ->
  (mwx sc pos w (seq 0 n) (seq 0 n) == Fs pos w (seq 0 n) * Ts pos w (seq 0 n) <->
   forall i j, (i < n)%nat -> (j < n)%nat -> pos i = false -> pos j = true -> nth i sc 0 < nth j sc 0).
Proof.
  intros W. rewrite <- mwx_total.
  set (t i j := (if pos i then 0 else w i) * ((if pos j then w j else 0) * (1 - hcmp (nth j sc 0) (nth i sc 0)))).
  assert (Hh: forall a b, 0 <= hcmp a b <= 1) by (intros a b; unfold hcmp; destruct (Qltb b a); [lra|]; destruct (Qeq_bool a b); lra).
  assert (Tn: forall i j, (i < n)%nat -> (j < n)%nat -> 0 <= t i j).
  { intros i j Hi Hj. unfold t. pose proof (W i Hi). pose proof (W j Hj). pose proof (Hh (nth j sc 0) (nth i sc 0)). apply Qmult_le_0_compat; [destruct (pos i); lra|]. apply Qmult_le_0_compat; [destruct (pos j); lra|lra]. }
  assert (K: forall A (f g : A -> Q) l, qsum (map f l) - qsum (map g l) == qsum (map (fun x => f x - g x) l)).
  { intros A f g l. rewrite (qsum_map_ext (fun x => f x - g x) (fun x => f x + (-1) * g x)) by (intros; ring). rewrite qsum_map_plus, qsum_map_scale. ring. }
  assert (E: qsum (map (fun n0 => qsum (map (fun p => (if pos n0 then 0 else w n0) * ((if pos p then w p else 0) * 1)) (seq 0 n))) (seq 0 n)) - mwx sc pos w (seq 0 n) (seq 0 n) == qsum (map (fun i => qsum (map (t i) (seq 0 n))) (seq 0 n))).
  { unfold mwx. rewrite K. apply qsum_map_ext. intros i _. rewrite K. apply qsum_map_ext. intros j _. unfold t. ring. }
  assert (Z: qsum (map (fun i => qsum (map (t i) (seq 0 n))) (seq 0 n)) == 0 <-> forall i j, (i < n)%nat -> (j < n)%nat -> t i j == 0).
  { assert (TT: forall i, (i < n)%nat -> 0 <= qsum (map (t i) (seq 0 n))) by (intros i Hi; apply qsum_nonneg; intros q Hq; apply in_map_iff in Hq; destruct Hq as (j & <- & Hj); apply in_seq in Hj; apply Tn; lia).
    rewrite qsum_zero by (intros i Hi; apply in_seq in Hi; apply TT; lia). split.
    - intros H i j Hi Hj. specialize (H i ltac:(apply in_seq; lia)). rewrite qsum_zero in H by (intros k Hk; apply in_seq in Hk; apply Tn; lia). apply H. apply in_seq. lia.
    - intros H i Hi. apply in_seq in Hi. rewrite qsum_zero by (intros k Hk; apply in_seq in Hk; apply Tn; lia). intros j Hj. apply in_seq in Hj. apply H; lia. }
  transitivity (forall i j, (i < n)%nat -> (j < n)%nat -> t i j == 0); [rewrite <- Z; split; intros; lra|].
  split; intros H i j Hi Hj.
  - intros Pi Pj. specialize (H i j Hi Hj). unfold t in H. rewrite Pi, Pj in H. pose proof (W i Hi). pose proof (W j Hj).
    apply Qmult_integral in H. destruct H as [H|H]; [lra|]. apply Qmult_integral in H. destruct H as [H|H]; [lra|].
    unfold hcmp in H. destruct (Qltb_spec (nth i sc 0) (nth j sc 0)); [assumption|]. destruct (Qeq_bool (nth j sc 0) (nth i sc 0)); lra.
  - unfold t. destruct (pos i) eqn:Pi; [ring|]. destruct (pos j) eqn:Pj; [|ring]. specialize (H i j Hi Hj Pi Pj). unfold hcmp. destruct (Qltb_spec (nth i sc 0) (nth j sc 0)); [ring|lra].
Qed.
Lemma qsum_member {A} (f : A -> Q) l a : (forall x, In x l -> 0 <= f x) -> In a l -> f a <= qsum (map f l).
Proof.
  induction l as [|x l IH]; intros H I; [destruct I|]. cbn [map]. rewrite qsum_cons.
  assert (P': 0 <= qsum (map f l)) by (apply qsum_nonneg; intros q Hq; apply in_map_iff in Hq; destruct Hq as (z & <- & Hz); apply H; now right).
  destruct I as [->|I]; [lra|]. pose proof (H x (or_introl eq_refl)). pose proof (IH (fun z Hz => H z (or_intror Hz)) I). lra.
Qed.
Lemma class_between beta K cm k : (forall i j, (i < K)%nat -> (j < K)%nat -> 0 <= cm_at K cm i j) -> (k < K)%nat ->
  let '(p, r, f) := prf_class beta K cm k in qmin p r <= f <= qmax p r.
Proof.
  intros H Hk. unfold prf_class. apply prf_between; [now apply H| |].
  - unfold cm_row. apply (qsum_member (fun j => cm_at K cm k j)); [|apply in_seq; lia]. intros x Hx. apply in_seq in Hx. apply H; lia.
  - unfold cm_col. apply (qsum_member (fun i => cm_at K cm i k)); [|apply in_seq; lia]. intros x Hx. apply in_seq in Hx. apply H; lia.
Qed.
