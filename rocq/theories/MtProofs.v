(* Proofs about MtModel.v *)
From Coq Require Import Reals Lra Lia List Arith Psatz.
From Verif Require Import MtModel.
Import ListNotations.
Open Scope R_scope.

Lemma rs_ext n f g : (forall i, (i < n)%nat -> f i = g i) -> rs n f = rs n g.
Proof. induction n as [|n IH]; intros H; cbn [rs]; [reflexivity|]. rewrite IH, H by auto. reflexivity. Qed.
Lemma rs_plus n f g : rs n (fun i => f i + g i) = rs n f + rs n g.
Proof. induction n as [|n IH]; cbn [rs]; [ring|]. rewrite IH. ring. Qed.
Lemma rs_minus n f g : rs n (fun i => f i - g i) = rs n f - rs n g.
Proof. induction n as [|n IH]; cbn [rs]; [ring|]. rewrite IH. ring. Qed.
Lemma rs_scale n c f : rs n (fun i => c * f i) = c * rs n f.
Proof. induction n as [|n IH]; cbn [rs]; [ring|]. rewrite IH. ring. Qed.
Lemma rs_zero n : rs n (fun _ => 0) = 0.
Proof. induction n as [|n IH]; cbn [rs]; [reflexivity|]. rewrite IH. ring. Qed.
Lemma rs_le n f g : (forall i, (i < n)%nat -> f i <= g i) -> rs n f <= rs n g.
Proof. induction n as [|n IH]; intros H; cbn [rs]; [lra|]. specialize (IH ltac:(auto)). assert (f n <= g n) by auto. lra. Qed.
Lemma rs_nonneg n f : (forall i, (i < n)%nat -> 0 <= f i) -> 0 <= rs n f.
Proof. intros H. rewrite <- (rs_zero n). now apply rs_le. Qed.
Lemma rs_swap n m f : rs n (fun i => rs m (f i)) = rs m (fun j => rs n (fun i => f i j)).
Proof. induction n as [|n IH]; cbn [rs]; [now rewrite rs_zero|]. rewrite IH, <- rs_plus. reflexivity. Qed.
Lemma rs_split n f j : (j < n)%nat -> rs n f = f j + rs n (fun i => if Nat.eqb i j then 0 else f i).
Proof.
  induction n as [|n IH]; intros Hj; [lia|]. cbn [rs]. destruct (Nat.eqb_spec n j) as [->|N].
  - rewrite (rs_ext j (fun i => if Nat.eqb i j then 0 else f i) f); [ring|]. intros i Hi. destruct (Nat.eqb_spec i j); [lia|reflexivity].
  - rewrite IH by lia. ring.
Qed.
Lemma rs_sq n f : 0 <= rs n (fun i => f i * f i).
Proof. apply rs_nonneg. intros. nra. Qed.
Lemma rs_sq0 n f : rs n (fun i => f i * f i) = 0 -> forall i, (i < n)%nat -> f i = 0.
Proof.
  intros H i Hi. rewrite (rs_split n _ i Hi) in H.
  assert (0 <= rs n (fun k => if Nat.eqb k i then 0 else f k * f k)) by (apply rs_nonneg; intros k Hk; destruct (Nat.eqb k i); nra). nra.
Qed.

(* Cauchy-Schwarz *)
Lemma cs n a b : rs n (fun i => a i * b i) * rs n (fun i => a i * b i) <= rs n (fun i => a i * a i) * rs n (fun i => b i * b i).
Proof.
  set (A := rs n (fun i => a i * a i)). set (B := rs n (fun i => b i * b i)). set (C := rs n (fun i => a i * b i)).
  assert (HB : 0 <= B) by apply rs_sq.
  destruct (Req_dec B 0) as [E|E].
  - assert (Z : C = 0); [|rewrite Z; assert (0 <= A) by apply rs_sq; nra]. unfold C. rewrite <- (rs_zero n). apply rs_ext. intros i Hi.
    rewrite (rs_sq0 n b E i Hi). ring.
  - assert (H : 0 <= rs n (fun i => (B * a i - C * b i) * (B * a i - C * b i))) by apply rs_sq.
    assert (X : rs n (fun i => (B * a i - C * b i) * (B * a i - C * b i)) = B * (B * A - C * C)).
    { rewrite (rs_ext n _ (fun i => (B * B) * (a i * a i) - (2 * B * C) * (a i * b i) + (C * C) * (b i * b i))) by (intros; ring).
      rewrite rs_plus, rs_minus, !rs_scale. fold A B C. ring. }
    rewrite X in H. assert (0 < B) by lra. nra.
Qed.
Lemma nrm2_sq q v : nrm2 q v * nrm2 q v = rs q (fun o => v o * v o).
Proof. apply sqrt_sqrt, rs_sq. Qed.
Lemma nrm2_nonneg q v : 0 <= nrm2 q v.
Proof. apply sqrt_pos. Qed.
Lemma cs_norm q a b : rs q (fun o => a o * b o) <= nrm2 q a * nrm2 q b.
Proof.
  pose proof (cs q a b) as H. rewrite <- !nrm2_sq in H. pose proof (nrm2_nonneg q a). pose proof (nrm2_nonneg q b).
  set (x := rs q _) in *. destruct (Rle_dec x (nrm2 q a * nrm2 q b)); [assumption|exfalso].
  assert (0 <= nrm2 q a * nrm2 q b) by nra. nra.
Qed.
Lemma nrm2_zero q v : nrm2 q v = 0 -> forall o, (o < q)%nat -> v o = 0.
Proof. intros H. apply rs_sq0. rewrite <- nrm2_sq, H. ring. Qed.
Lemma nrm2_ext q u v : (forall o, (o < q)%nat -> u o = v o) -> nrm2 q u = nrm2 q v.
Proof. intros H. unfold nrm2. f_equal. apply rs_ext. intros o Ho. now rewrite H. Qed.
Lemma nrm2_scale q c v : 0 <= c -> nrm2 q (fun o => c * v o) = c * nrm2 q v.
Proof.
  intros Hc. unfold nrm2. rewrite (rs_ext q _ (fun o => (c * c) * (v o * v o))) by (intros; ring). rewrite rs_scale.
  rewrite sqrt_mult by (try nra; apply rs_sq). rewrite sqrt_square by exact Hc. reflexivity.
Qed.
Lemma rltb_spec a b : Bool.reflect (a < b) (rltb a b).
Proof. unfold rltb. destruct (Rlt_dec a b); now constructor. Qed.
Lemma reqb_spec a b : Bool.reflect (a = b) (reqb a b).
Proof. unfold reqb. destruct (Req_EM_T a b); now constructor. Qed.
Lemma rmaxn_ub n f i : (i < n)%nat -> f i <= rmaxn n f.
Proof.
  induction n as [|n IH]; intros Hi; [lia|]. cbn [rmaxn]. destruct (Nat.eq_dec i n) as [->|N].
  - destruct (rltb_spec (rmaxn n f) (f n)); lra.
  - specialize (IH ltac:(lia)). destruct (rltb_spec (rmaxn n f) (f n)); lra.
Qed.

(* (1/2) ||Y - X W||^2 + l1 sum_j ||W_j|| + (l2/2) ||W||^2 *)
Definition mt_obj (l1 l2 : R) (n p q : nat) (X Y w : rmtx) : R :=
  / 2 * rs n (fun i => rs q (fun o => (Y i o - rs p (fun j => X i j * w j o)) * (Y i o - rs p (fun j => X i j * w j o)))) +
  l1 * rs p (fun j => sqrt (rs q (fun o => w j o * w j o))) + / 2 * l2 * rs p (fun j => rs q (fun o => w j o * w j o)).

Section MT.
  Variables (l1 l2 : R) (n p q : nat) (X Y : rmtx).
  Notation obj := (mt_obj l1 l2 n p q X Y).
  Notation update := (mt_update l1 l2 n p q X).
  Hypotheses (Ha : 0 <= l1) (Hb : 0 <= l2).
  Definition mres_ok (w r : rmtx) : Prop := forall i o, (i < n)%nat -> (o < q)%nat -> r i o = Y i o - rs p (fun j => X i j * w j o).

  Lemma pred_setrow w j v i o : (j < p)%nat -> rs p (fun k => X i k * setrow w j v k o) = rs p (fun k => X i k * w k o) + X i j * (v o - w j o).
  Proof using.
    intros Hj. rewrite (rs_split p (fun k => X i k * setrow w j v k o) j Hj), (rs_split p (fun k => X i k * w k o) j Hj).
    rewrite (rs_ext p (fun k => if Nat.eqb k j then 0 else X i k * setrow w j v k o) (fun k => if Nat.eqb k j then 0 else X i k * w k o)).
    2:{ intros k Hk. unfold setrow. destruct (Nat.eqb k j); reflexivity. }
    unfold setrow. rewrite Nat.eqb_refl. ring.
  Qed.
  Lemma sum_setrow (f : (nat -> R) -> R) w j v : (j < p)%nat -> rs p (fun k => f (setrow w j v k)) = rs p (fun k => f (w k)) + f v - f (w j).
  Proof using.
    intros Hj. rewrite (rs_split p (fun k => f (setrow w j v k)) j Hj), (rs_split p (fun k => f (w k)) j Hj).
    rewrite (rs_ext p (fun k => if Nat.eqb k j then 0 else f (setrow w j v k)) (fun k => if Nat.eqb k j then 0 else f (w k))).
    2:{ intros k Hk. unfold setrow. destruct (Nat.eqb k j); reflexivity. }
    unfold setrow at 1. rewrite Nat.eqb_refl. change (fun o => v o) with v. ring.
  Qed.
  Definition corr (w : rmtx) (j o : nat) : R := rs n (fun i => X i j * (Y i o - rs p (fun k => X i k * w k o) + X i j * w j o)).

  Lemma obj_along w j v : (j < p)%nat ->
    let r1 := fun i o => Y i o - rs p (fun k => X i k * w k o) + X i j * w j o in
    obj (setrow w j v) = / 2 * rs n (fun i => rs q (fun o => r1 i o * r1 i o))
      + l1 * (rs p (fun k => nrm2 q (w k)) - nrm2 q (w j)) + / 2 * l2 * (rs p (fun k => rs q (fun o => w k o * w k o)) - rs q (fun o => w j o * w j o))
      + (- rs q (fun o => v o * corr w j o) + / 2 * (mncx n X j + l2) * (nrm2 q v * nrm2 q v) + l1 * nrm2 q v).
  Proof using.
    intros Hj. cbv zeta. unfold mt_obj. fold (nrm2 q).
    pose proof (sum_setrow (nrm2 q) w j v Hj) as E1. unfold nrm2 in E1 at 1. rewrite E1.
    rewrite (sum_setrow (fun u => rs q (fun o => u o * u o)) w j v Hj).
    set (r1 := fun i o => Y i o - rs p (fun k => X i k * w k o) + X i j * w j o).
    rewrite (rs_ext n _ (fun i => rs q (fun o => r1 i o * r1 i o) - 2 * rs q (fun o => v o * (X i j * r1 i o)) + (X i j * X i j) * rs q (fun o => v o * v o))).
    2:{ intros i Hi. rewrite <- !rs_scale, <- rs_minus, <- rs_plus. apply rs_ext. intros o Ho. rewrite pred_setrow by auto. unfold r1. ring. }
    rewrite rs_plus, rs_minus, !rs_scale.
    rewrite (rs_ext n (fun i => X i j * X i j * rs q (fun o => v o * v o)) (fun i => rs q (fun o => v o * v o) * (X i j * X i j))) by (intros; ring).
    rewrite rs_scale. rewrite (rs_swap n q (fun i o => v o * (X i j * r1 i o))).
    rewrite (rs_ext q (fun o => rs n (fun i => v o * (X i j * r1 i o))) (fun o => v o * corr w j o)).
    2:{ intros o Ho. rewrite rs_scale. reflexivity. }
    rewrite nrm2_sq. unfold mncx, r1. cbv beta. field.
  Qed.

  (* the minimiser of a block *)
  Lemma block t d v : 0 < d ->
    let f := if rltb l1 (nrm2 q t) then Rmax (1 - l1 / nrm2 q t) 0 / d else 0 in
    let s := fun o => f * t o in
    - rs q (fun o => s o * t o) + / 2 * d * (nrm2 q s * nrm2 q s) + l1 * nrm2 q s <=
    - rs q (fun o => v o * t o) + / 2 * d * (nrm2 q v * nrm2 q v) + l1 * nrm2 q v.
  Proof using Ha.
    intros Hd f s. pose proof (cs_norm q v t) as CS. set (N := nrm2 q t) in *. set (A := nrm2 q v) in *.
    assert (HN : 0 <= N) by apply nrm2_nonneg. assert (HA : 0 <= A) by apply nrm2_nonneg.
    assert (Hf : 0 <= f).
    { unfold f. destruct (rltb_spec l1 N); [|lra]. apply Rmult_le_pos; [apply Rmax_r|]. left. now apply Rinv_0_lt_compat. }
    assert (E1 : nrm2 q s = f * N) by (apply nrm2_scale; exact Hf).
    assert (E2 : rs q (fun o => s o * t o) = f * (N * N)).
    { unfold s, N. rewrite nrm2_sq, <- rs_scale. apply rs_ext. intros; ring. }
    rewrite E1, E2. clear E1 E2. set (c := rs q (fun o => v o * t o)) in *.
    destruct (rltb_spec l1 N) as [L|L].
    - assert (Ef : f * N * d = N - l1).
      { unfold f. rewrite Rmax_left; [field; lra|]. assert (l1 / N <= 1); [|lra]. apply Rmult_le_reg_r with N; [lra|]. field_simplify; lra. }
      clearbody f c A N. set (g := f * N) in *. replace (f * (N * N)) with (g * N) by (unfold g; ring).
      clearbody g. assert (EN : N = g * d + l1) by lra. subst N. assert (0 <= d * ((A - g) * (A - g))) by (apply Rmult_le_pos; [lra|]; generalize (A - g); intros; nra). nra.
    - assert (f = 0) as -> by reflexivity. assert (A * N <= A * l1) by nra. assert (0 <= / 2 * d * (A * A)) by (apply Rmult_le_pos; nra). nra.
  Qed.

  Lemma mncx_nonneg j : 0 <= mncx n X j.
  Proof using. apply rs_sq. Qed.
  Lemma obj_ext w w' : (forall j o, (j < p)%nat -> (o < q)%nat -> w j o = w' j o) -> obj w = obj w'.
  Proof using.
    intros H. unfold mt_obj.
    rewrite (rs_ext p (fun j => sqrt (rs q (fun o => w j o * w j o))) (fun j => sqrt (rs q (fun o => w' j o * w' j o)))).
    2:{ intros j Hj. f_equal. apply rs_ext. intros o Ho. now rewrite H. }
    rewrite (rs_ext p (fun j => rs q (fun o => w j o * w j o)) (fun j => rs q (fun o => w' j o * w' j o))).
    2:{ intros j Hj. apply rs_ext. intros o Ho. now rewrite H. }
    f_equal. f_equal. f_equal. apply rs_ext. intros i Hi. apply rs_ext. intros o Ho.
    rewrite (rs_ext p (fun j => X i j * w j o) (fun j => X i j * w' j o)) by (intros j Hj; now rewrite H). reflexivity.
  Qed.

  Lemma mt_update_spec st j : (j < p)%nat -> mres_ok (m_w st) (m_R st) ->
    mres_ok (m_w (update st j)) (m_R (update st j)) /\
    (mncx n X j = 0 -> update st j = st) /\
    (mncx n X j <> 0 -> let t := corr (m_w st) j in
       let f := if rltb l1 (nrm2 q t) then Rmax (1 - l1 / nrm2 q t) 0 / (mncx n X j + l2) else 0 in
       forall k o, (o < q)%nat -> m_w (update st j) k o = setrow (m_w st) j (fun o => f * t o) k o).
  Proof using.
    intros Hj HR. unfold mt_update. destruct (reqb_spec (mncx n X j) 0) as [E|E].
    - split; [exact HR|]. split; [auto|]. intros; contradiction.
    - set (R1 := if reqb (nrm2 q (m_w st j)) 0 then m_R st else _). cbv zeta.
      assert (HR1 : forall i o, (o < q)%nat -> R1 i o = m_R st i o + X i j * m_w st j o).
      { intros i o Ho. unfold R1. destruct (reqb_spec (nrm2 q (m_w st j)) 0) as [Z|Z]; [|reflexivity]. rewrite (nrm2_zero q _ Z o Ho). ring. }
      set (t := fun o => rs n (fun i => R1 i o * X i j)).
      assert (Ht : forall o, (o < q)%nat -> t o = corr (m_w st) j o).
      { intros o Ho. unfold t, corr. apply rs_ext. intros i Hi. rewrite HR1, HR by auto. ring. }
      assert (En : nrm2 q t = nrm2 q (corr (m_w st) j)) by (apply nrm2_ext; exact Ht).
      rewrite En. set (f := if rltb l1 (nrm2 q (corr (m_w st) j)) then _ else 0).
      cbn [m_w m_R]. split; [|split; [intros; contradiction|]].
      + intros i o Hi Ho. rewrite pred_setrow by auto. set (w' := setrow (m_w st) j (fun o => f * rs n (fun i => R1 i o * X i j))).
        assert (Ew : w' j = fun o => f * t o) by (unfold w', setrow; now rewrite Nat.eqb_refl).
        destruct (reqb_spec (nrm2 q (w' j)) 0) as [Z|Z].
        * pose proof (nrm2_zero q _ Z o Ho) as Z'. rewrite Ew in Z'. cbv beta in Z'. change (rs n (fun i0 => R1 i0 o * X i0 j)) with (t o). rewrite Z', HR1, HR by auto. ring.
        * rewrite Ew, HR1, HR by auto. unfold t. ring.
      + intros _ k o Ho. unfold setrow. destruct (Nat.eqb k j); [|reflexivity]. change (rs n (fun i0 => R1 i0 o * X i0 j)) with (t o). now rewrite Ht.
  Qed.

  Lemma mt_minimises st j : (j < p)%nat -> mres_ok (m_w st) (m_R st) -> mncx n X j <> 0 -> forall v, obj (m_w (update st j)) <= obj (setrow (m_w st) j v).
  Proof using Ha Hb.
    intros Hj HR E v. destruct (mt_update_spec st j Hj HR) as (_ & _ & H). specialize (H E). cbv zeta in H.
    rewrite (obj_ext _ _ (fun k o _ Ho => H k o Ho)). rewrite !obj_along by auto. cbv zeta. apply Rplus_le_compat_l.
    apply block. pose proof (mncx_nonneg j). lra.
  Qed.
  Lemma mt_descends st j : (j < p)%nat -> mres_ok (m_w st) (m_R st) -> obj (m_w (update st j)) <= obj (m_w st).
  Proof using Ha Hb.
    intros Hj HR. destruct (Req_dec (mncx n X j) 0) as [E|E].
    - destruct (mt_update_spec st j Hj HR) as (_ & H & _). rewrite (H E). lra.
    - pose proof (mt_minimises st j Hj HR E (m_w st j)) as G. rewrite (obj_ext (setrow (m_w st) j (m_w st j)) (m_w st)) in G; [exact G|].
      intros k o _ _. unfold setrow. destruct (Nat.eqb_spec k j) as [->|]; reflexivity.
  Qed.
  Lemma mt_fold order : (forall j, In j order -> (j < p)%nat) -> forall st, mres_ok (m_w st) (m_R st) ->
    let st' := fold_left update order st in mres_ok (m_w st') (m_R st') /\ obj (m_w st') <= obj (m_w st).
  Proof using Ha Hb.
    induction order as [|j order IH]; intros HO st HR; cbn [fold_left]; [split; [exact HR|lra]|].
    assert (Hj : (j < p)%nat) by (apply HO; cbn; auto).
    destruct (mt_update_spec st j Hj HR) as (H1 & _ & _). pose proof (mt_descends st j Hj HR).
    destruct (IH ltac:(intros; apply HO; cbn; auto) _ H1) as [A B]. split; [exact A|]. cbv zeta in *. lra.
  Qed.

  (* ----------------------------------------------------------- duality gap *)
  Lemma young a b : a * b - / 2 * (b * b) <= / 2 * (a * a).
  Proof using. assert (0 <= (a - b) * (a - b)) by (generalize (a - b); intros; nra). lra. Qed.

  Lemma mt_gap_bound w r v : mres_ok w r -> obj w - mt_gap l1 l2 n p q X Y w r <= obj v.
  Proof using Ha Hb.
    intros HR. unfold mt_gap. cbv zeta.
    set (D := rmaxn p (fun j => nrm2 q (fun o => rs n (fun i => X i j * r i o) - l2 * w j o))).
    set (A := fun j o => rs n (fun i => X i j * r i o) - l2 * w j o).
    set (R2 := rs n (fun i => rs q (fun o => r i o * r i o))). set (w2 := rs p (fun j => rs q (fun o => w j o * w j o))).
    assert (HR2 : 0 <= R2) by (apply rs_nonneg; intros; apply rs_sq). assert (Hw2 : 0 <= w2) by (apply rs_nonneg; intros; apply rs_sq).
    assert (ER : forall c, sqrt R2 * c * (sqrt R2 * c) = R2 * (c * c)) by (intros c; replace (sqrt R2 * c * (sqrt R2 * c)) with ((sqrt R2 * sqrt R2) * (c * c)) by ring; now rewrite sqrt_sqrt).
    rewrite ER. rewrite (sqrt_sqrt R2 HR2), (sqrt_sqrt w2 Hw2).
    set (c := if rltb l1 D then l1 / D else 1). set (RY := rs n (fun i => rs q (fun o => r i o * Y i o))).
    set (l21 := rs p (fun j => nrm2 q (w j))).
    assert (Hc : 0 <= c /\ c * D <= l1).
    { unfold c. destruct (rltb_spec l1 D) as [L|L].
      - split; [apply Rmult_le_pos; [exact Ha|left; apply Rinv_0_lt_compat; lra]|]. right. field. lra.
      - lra. }
    destruct Hc as [Hc0 HcD].
    assert (EG : (if rltb l1 D then / 2 * (R2 + R2 * (c * c)) else R2) = / 2 * (R2 + R2 * (c * c))).
    { unfold c. destruct (rltb l1 D); [reflexivity|field]. }
    rewrite EG. clear EG.
    assert (EO : obj w = / 2 * R2 + l1 * l21 + / 2 * l2 * w2).
    { unfold mt_obj. fold w2. change (rs p (fun j => sqrt (rs q (fun o => w j o * w j o)))) with l21. f_equal. f_equal. f_equal. unfold R2. apply rs_ext. intros i Hi. apply rs_ext. intros o Ho. now rewrite HR. }
    rewrite EO. clear EO.
    (* lower bound of the objective at v *)
    assert (L1 : c * rs n (fun i => rs q (fun o => r i o * (Y i o - rs p (fun j => X i j * v j o)))) - / 2 * (c * c) * R2 <=
      / 2 * rs n (fun i => rs q (fun o => (Y i o - rs p (fun j => X i j * v j o)) * (Y i o - rs p (fun j => X i j * v j o))))).
    { unfold R2. rewrite <- !rs_scale, <- rs_minus. apply rs_le. intros i Hi. rewrite <- !rs_scale, <- rs_minus. apply rs_le. intros o Ho.
      pose proof (young (Y i o - rs p (fun j => X i j * v j o)) (c * r i o)). lra. }
    assert (L2 : c * rs p (fun j => rs q (fun o => w j o * v j o)) - / 2 * (c * c) * w2 <= / 2 * rs p (fun j => rs q (fun o => v j o * v j o))).
    { unfold w2. rewrite <- !rs_scale, <- rs_minus. apply rs_le. intros j Hj. rewrite <- !rs_scale, <- rs_minus. apply rs_le. intros o Ho.
      pose proof (young (v j o) (c * w j o)). lra. }
    assert (L3 : c * rs p (fun j => rs q (fun o => A j o * v j o)) <= l1 * rs p (fun j => nrm2 q (v j))).
    { rewrite <- !rs_scale. apply rs_le. intros j Hj. pose proof (cs_norm q (A j) (v j)). pose proof (rmaxn_ub p (fun j => nrm2 q (A j)) j Hj) as M. cbv beta in M. change (rmaxn p (fun j => nrm2 q (A j))) with D in M.
      pose proof (nrm2_nonneg q (v j)). apply Rle_trans with (c * (D * nrm2 q (v j))).
      - apply Rmult_le_compat_l; [exact Hc0|]. apply Rle_trans with (1 := H). now apply Rmult_le_compat_r.
      - rewrite <- Rmult_assoc. now apply Rmult_le_compat_r. }
    assert (E : rs n (fun i => rs q (fun o => r i o * (Y i o - rs p (fun j => X i j * v j o)))) = RY - (rs p (fun j => rs q (fun o => A j o * v j o)) + l2 * rs p (fun j => rs q (fun o => w j o * v j o)))).
    { assert (E1 : rs p (fun j => rs q (fun o => A j o * v j o)) + l2 * rs p (fun j => rs q (fun o => w j o * v j o)) = rs n (fun i => rs q (fun o => r i o * rs p (fun j => X i j * v j o)))).
      { rewrite <- rs_scale, <- rs_plus.
        rewrite (rs_ext p _ (fun j => rs n (fun i => rs q (fun o => r i o * (X i j * v j o))))).
        2:{ intros j Hj. rewrite <- rs_scale, <- rs_plus. rewrite (rs_swap n q). apply rs_ext. intros o Ho. unfold A.
            rewrite (rs_ext n (fun i => r i o * (X i j * v j o)) (fun i => v j o * (X i j * r i o))) by (intros; ring). rewrite rs_scale. ring. }
        rewrite (rs_swap p n). apply rs_ext. intros i Hi. rewrite (rs_swap p q). apply rs_ext. intros o Ho. now rewrite <- rs_scale. }
      rewrite E1. unfold RY. rewrite <- rs_minus. apply rs_ext. intros i Hi. rewrite <- rs_minus. apply rs_ext. intros o Ho. ring. }
    unfold mt_obj. change (rs p (fun j => sqrt (rs q (fun o => v j o * v j o)))) with (rs p (fun j => nrm2 q (v j))).
    rewrite E in L1. assert (L2' : l2 * (c * rs p (fun j => rs q (fun o => w j o * v j o)) - / 2 * (c * c) * w2) <= l2 * (/ 2 * rs p (fun j => rs q (fun o => v j o * v j o)))) by (apply Rmult_le_compat_l; assumption).
    lra.
  Qed.

  Lemma mres_ok0 w : mres_ok w (mres0 p X Y w).
  Proof using. intros i o _ _. reflexivity. Qed.

  Lemma mt_loop_spec order dwtol tol : (forall k j, In j (order k) -> (j < p)%nat) -> forall left k w r gap, mres_ok w r ->
    let '(w', g, it) := mt_loop l1 l2 n p q X Y order dwtol tol left k w r gap in
    obj w' <= obj w /\ (it <= S (left + k))%nat /\
    (left <> O -> forall v, obj w' - g <= obj v) /\ ((it <= left + k)%nat -> g < tol).
  Proof using Ha Hb.
    intros HO. induction left as [|left IH]; intros k w r gap HR; cbn [mt_loop].
    - split; [lra|]. split; [lia|]. split; [congruence|]. intros; lia.
    - destruct (mt_fold (order k) (HO k) (mkmt w r 0 0) HR) as [A B]. fold (mt_pass l1 l2 n p q X (order k) w r) in A, B. cbn [m_w] in B.
      set (st := mt_pass l1 l2 n p q X (order k) w r) in *. cbv zeta.
      assert (G : forall v, obj (m_w st) - mt_gap l1 l2 n p q X Y (m_w st) (m_R st) <= obj v) by (intros v; now apply mt_gap_bound).
      destruct (_ || _ || _)%bool eqn:T.
      + destruct (rltb_spec (mt_gap l1 l2 n p q X Y (m_w st) (m_R st)) tol) as [L|L].
        * split; [exact B|]. split; [lia|]. split; [intros _; exact G|]. intros _. exact L.
        * specialize (IH (S k) (m_w st) (m_R st) (mt_gap l1 l2 n p q X Y (m_w st) (m_R st)) A).
          destruct (mt_loop _ _ _ _ _ _ _ _ _ _ left _ _ _ _) as [[w' g] it] eqn:EL. destruct IH as (I1 & I2 & I3 & I4).
          split; [lra|]. split; [lia|]. split; [|intros; apply I4; lia]. intros _ v. destruct left as [|left]; [|now apply I3].
          cbn in EL. injection EL as <- <- <-. apply G.
      + specialize (IH (S k) (m_w st) (m_R st) gap A).
        destruct (mt_loop _ _ _ _ _ _ _ _ _ _ left _ _ _ _) as [[w' g] it] eqn:EL. destruct IH as (I1 & I2 & I3 & I4).
        split; [lra|]. split; [lia|]. split; [|intros; apply I4; lia]. intros _ v. destruct left as [|left]; [|now apply I3].
        rewrite Bool.orb_true_r in T. discriminate.
  Qed.
End MT.

(* one sample, one feature: the descent lands on the target whatever its sign *)
Lemma mt_negative : let X := fun _ _ : nat => 1 in let Y := fun _ o : nat => match o with O => -3 | _ => -4 end in
  let '(w, _, _, _) := mt_cd 0 0 1 1 2 X Y true (fun _ => [0%nat]) 0 1 (fun _ _ => 0) in w 0%nat 0%nat = -3 /\ w 0%nat 1%nat = -4.
Proof.
  cbv zeta. unfold mt_cd. cbv zeta. cbn [mt_loop]. unfold mt_pass. cbn [fold_left].
  set (X := fun _ _ : nat => 1). set (Y := fun _ o : nat => match o with O => -3 | _ => -4 end).
  set (st0 := mkmt (fun _ _ => 0) _ 0 0).
  destruct (mt_update_spec 0 0 1 1 2 X Y st0 0%nat ltac:(lia) ltac:(apply mres_ok0)) as (_ & _ & H).
  assert (E : mncx 1 X 0 = 1) by (unfold mncx, X; cbn [rs]; ring). specialize (H ltac:(rewrite E; lra)). cbv zeta in H.
  assert (C : forall o, corr 1 1 X Y (m_w st0) 0 o = Y 0%nat o) by (intros o; unfold corr, X, st0; cbn [rs m_w]; ring).
  assert (N : 0 < nrm2 2 (corr 1 1 X Y (m_w st0) 0)).
  { unfold nrm2. apply sqrt_lt_R0. cbn [rs]. rewrite !C. unfold Y. lra. }
  assert (F : (if rltb 0 (nrm2 2 (corr 1 1 X Y (m_w st0) 0)) then Rmax (1 - 0 / nrm2 2 (corr 1 1 X Y (m_w st0) 0)) 0 / (mncx 1 X 0 + 0) else 0) = 1).
  { destruct (rltb_spec 0 (nrm2 2 (corr 1 1 X Y (m_w st0) 0))); [|lra]. rewrite E, Rmax_left; [field; lra|]. unfold Rdiv. lra. }
  rewrite F in H.
  assert (W : m_w (mt_update 0 0 1 1 2 X st0 0) 0%nat 0%nat = -3 /\ m_w (mt_update 0 0 1 1 2 X st0 0) 0%nat 1%nat = -4).
  { rewrite !H by lia. unfold setrow. cbn [Nat.eqb]. rewrite !C. unfold Y. lra. }
  destruct (_ || _ || _)%bool; [destruct (rltb (mt_gap _ _ _ _ _ _ _ _ _) _)|]; exact W.
Qed.
