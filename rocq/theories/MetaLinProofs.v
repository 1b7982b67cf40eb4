(* Laws that relate two fits of a linear model: other units, another order of the samples. *)
From Verif Require Import QCommon LinModel LinProofs LinProps.
Open Scope Q_scope.

Definition sq (x : Q) : Q := x * x.
Lemma sq_nonneg x : 0 <= sq x.
Proof. unfold sq. destruct (Qlt_le_dec x 0); nra. Qed.
Lemma sq_zero x : sq x == 0 -> x == 0.
Proof. unfold sq. intros H. destruct (Qlt_le_dec x 0); [nra|]. destruct (Qlt_le_dec 0 x); [nra|lra]. Qed.
Lemma sumn_zero_terms n f : (forall i, (i < n)%nat -> 0 <= f i) -> sumn n f <= 0 -> forall i, (i < n)%nat -> f i == 0.
Proof.
  intros H0 H i Hi. rewrite (sumn_split n f i Hi) in H. pose proof (H0 i Hi).
  assert (0 <= sumn n (fun k => if Nat.eqb k i then 0 else f k)) by (apply sumn_nonneg; intros k Hk; destruct (Nat.eqb k i); [lra|auto]). lra.
Qed.
(* two best fits that can be averaged agree *)
Lemma ls_unique n (y f g : nat -> Q) :
  sumn n (fun i => sq (y i - f i)) <= sumn n (fun i => sq (y i - (1 # 2) * (f i + g i))) ->
  sumn n (fun i => sq (y i - g i)) <= sumn n (fun i => sq (y i - (1 # 2) * (f i + g i))) ->
  forall i, (i < n)%nat -> f i == g i.
Proof.
  intros A B i Hi.
  assert (E: sumn n (fun i => sq (y i - (1 # 2) * (f i + g i))) + (1 # 4) * sumn n (fun i => sq (f i - g i)) == (1 # 2) * (sumn n (fun i => sq (y i - f i)) + sumn n (fun i => sq (y i - g i)))).
  { rewrite <- !sumn_plus, <- !sumn_scale, <- !sumn_plus. apply sumn_ext. intros k _. unfold sq. ring. }
  assert (Z: sq (f i - g i) == 0).
  { apply (sumn_zero_terms n (fun i => sq (f i - g i))); [intros; apply sq_nonneg|lra|exact Hi]. }
  apply sq_zero in Z. lra.
Qed.
Lemma sumn_perm n (sg : nat -> nat) f : Permutation (map sg (seq 0 n)) (seq 0 n) -> sumn n (fun i => f (sg i)) == sumn n f.
Proof. intros P. unfold sumn. rewrite <- (map_map sg f). apply qsum_perm. now apply Permutation_map. Qed.

(* the same samples in another order (sample i becomes sample sg i), feature j multiplied by a j and shifted by b j, output o by c o and d o *)
Definition converted (sg : nat -> nat) (p q : nat) (a b c d : nat -> Q) (X Y X' Y' : mtx) : Prop :=
  let n := length X in
  length X' = n /\ Permutation (map sg (seq 0 n)) (seq 0 n) /\
  (forall i j, (i < n)%nat -> (j < p)%nat -> at2 X' (sg i) j == a j * at2 X i j + b j) /\
  (forall i o, (i < n)%nat -> (o < q)%nat -> at2 Y' (sg i) o == c o * at2 Y i o + d o).
(* what Solve is for: the residuals are orthogonal to the columns *)
Definition solves (nrm : list Q -> Q) (solve : mtx -> mtx -> mtx) (fit norm : bool) (X Y : mtx) (p q : nat) : Prop :=
  let pr := preprocess nrm fit norm X Y in
  length (solve (pX pr) (pY pr)) = p /\
  forall j o, (j < p)%nat -> (o < q)%nat ->
    sumn (length X) (fun i => at2 (pX pr) i j * (at2 (pY pr) i o - sumn p (fun k => at2 (pX pr) i k * at2 (solve (pX pr) (pY pr)) k o))) == 0.

Lemma linreg_shape nrm solve fit norm X Y p q old C b : rect Y q -> (fit = true \/ old = None) -> solves nrm solve fit norm X Y p q -> linreg_fit nrm solve fit norm X Y old = Some (C, b) ->
  length C = p /\ (fit = false -> forall o, (o < q)%nat -> nth o b 0 == 0).
Proof.
  intros HY Hfo (HS & _) E. unfold linreg_fit, set_intercept in E. cbv zeta in HS, E. destruct (existsb _ _); [discriminate|].
  set (W := solve _ _) in *. assert (L: length (tab2 (length W) (ncols Y) (fun j o => at2 W j o / nth j (p_scale (preprocess nrm fit norm X Y)) 0)) = p) by (rewrite tab2_length; exact HS).
  destruct fit.
  - destruct (Nat.eqb _ _); [|discriminate]. injection E as <- <-. split; [exact L|discriminate].
  - destruct Hfo as [Hff| ->]; [discriminate|]. injection E as <- <-. split; [exact L|]. intros _ o Ho. rewrite nth_tab; [reflexivity|]. rewrite (rect_ncols _ _ HY). exact Ho.
Qed.

Lemma linreg_convert sg a b c d fit nrm nrm' solve solve' norm norm' X Y X' Y' p q old old' C b0 C' b0' :
  rect X p -> rect Y q -> length Y = length X -> rect X' p -> rect Y' q -> length Y' = length X' -> converted sg p q a b c d X Y X' Y' ->
  (forall j, (j < p)%nat -> ~ a j == 0) -> (forall o, (o < q)%nat -> ~ c o == 0) ->
  (fit = false -> (forall j, (j < p)%nat -> b j == 0) /\ (forall o, (o < q)%nat -> d o == 0)) ->
  (fit = true \/ old = None /\ old' = None) ->
  solves nrm solve fit norm X Y p q -> solves nrm' solve' fit norm' X' Y' p q ->
  linreg_fit nrm solve fit norm X Y old = Some (C, b0) -> linreg_fit nrm' solve' fit norm' X' Y' old' = Some (C', b0') ->
  forall i o, (i < length X)%nat -> (o < q)%nat -> decision C' b0' (nth (sg i) X' []) o == c o * decision C b0 (nth i X []) o + d o.
Proof.
  intros HX HY HL HX' HY' HL' (Ln & P & EX & EY) Ha Hc Hf Hold S S' E E' i o Hi Ho.
  assert (Hold1: fit = true \/ old = None) by tauto. assert (Hold2: fit = true \/ old' = None) by tauto.
  destruct (linreg_shape _ _ _ _ _ _ _ _ _ _ _ HY Hold1 S E) as (LC & Z). destruct (linreg_shape _ _ _ _ _ _ _ _ _ _ _ HY' Hold2 S' E') as (LC' & Z').
  pose proof (fun w' b' => C104_least_squares nrm solve fit norm X Y p q old C b0 HX HY HL Hold1 S E o w' b' Ho) as M.
  pose proof (fun w' b' => C104_least_squares nrm' solve' fit norm' X' Y' p q old' C' b0' HX' HY' HL' Hold2 S' E' o w' b' Ho) as M'.
  set (n := length X) in *. rewrite Ln in M'.
  set (w := fun j => at2 C j o). set (w' := fun j => at2 C' j o). set (co := c o). set (d0 := d o). assert (Hco: ~ co == 0) by (apply Hc; exact Ho).
  assert (D: forall k, decision C b0 (nth k X []) o == sumn p (fun j => at2 X k j * w j) + nth o b0 0) by (intros k; unfold decision; rewrite LC; reflexivity).
  assert (D': forall k, decision C' b0' (nth k X' []) o == sumn p (fun j => at2 X' k j * w' j) + nth o b0' 0) by (intros k; unfold decision; rewrite LC'; reflexivity).
  set (f := fun k => decision C b0 (nth k X []) o) in *. set (f' := fun k => decision C' b0' (nth (sg k) X' []) o).
  set (y := fun k => at2 Y k o).
  (* the other fit, in the units of the first *)
  set (g := fun k => (f' k - d0) / co).
  assert (G: forall k, (k < n)%nat -> g k == sumn p (fun j => at2 X k j * (a j * w' j / co)) + (sumn p (fun j => b j * w' j) + nth o b0' 0 - d0) / co).
  { intros k Hk. unfold g, f'. rewrite D'. rewrite (sumn_ext p _ (fun j => co * (at2 X k j * (a j * w' j / co)) + b j * w' j)).
    - rewrite sumn_plus, sumn_scale. field. exact Hco.
    - intros j Hj. rewrite (EX k j Hk Hj). field. exact Hco. }
  assert (U: forall k, (k < n)%nat -> f k == g k).
  { apply (ls_unique n y).
    - eapply Qle_trans; [apply (M (tab p (fun j => (1 # 2) * (w j + a j * w' j / co))) ((1 # 2) * (nth o b0 0 + (sumn p (fun j => b j * w' j) + nth o b0' 0 - d0) / co)))|].
      + intros Hff. destruct (Hf Hff) as (B0 & D0). assert (S0: sumn p (fun j => b j * w' j) == 0) by (rewrite <- (sumn_zero p); apply sumn_ext; intros j Hj; rewrite (B0 j Hj); ring).
        rewrite S0, (Z Hff o Ho), (Z' Hff o Ho). unfold d0. rewrite (D0 o Ho). field. exact Hco.
      + apply Qle_lteq. right. apply sumn_ext. intros k Hk. fold (sq (at2 Y k o - (sumn p (fun j => at2 X k j * nth j (tab p (fun j => (1 # 2) * (w j + a j * w' j / co))) 0) + (1 # 2) * (nth o b0 0 + (sumn p (fun j => b j * w' j) + nth o b0' 0 - d0) / co)))).
        assert (R: sumn p (fun j => at2 X k j * nth j (tab p (fun j => (1 # 2) * (w j + a j * w' j / co))) 0) + (1 # 2) * (nth o b0 0 + (sumn p (fun j => b j * w' j) + nth o b0' 0 - d0) / co) == (1 # 2) * (f k + g k)).
        { rewrite (G k Hk). unfold f. rewrite D. rewrite (sumn_ext p _ (fun j => (1 # 2) * (at2 X k j * w j) + (1 # 2) * (at2 X k j * (a j * w' j / co)))).
          - rewrite sumn_plus, !sumn_scale. field. exact Hco.
          - intros j Hj. rewrite nth_tab by exact Hj. ring. }
        unfold y, sq. rewrite R. reflexivity.
    - set (wm := tab p (fun j => (1 # 2) * (w' j + co * w j / a j))). set (bm := (1 # 2) * (nth o b0' 0 + co * nth o b0 0 + d0 - sumn p (fun j => co * w j * b j / a j))).
      assert (R: forall k, (k < n)%nat -> sumn p (fun j => at2 X' (sg k) j * nth j wm 0) + bm == co * ((1 # 2) * (f k + g k)) + d0).
      { intros k Hk. unfold g, f', f. rewrite D, D'. unfold bm, wm. rewrite (sumn_ext p (fun j => at2 X' (sg k) j * nth j (tab p _) 0) (fun j => (1 # 2) * (at2 X' (sg k) j * w' j) + ((1 # 2) * co * (at2 X k j * w j) + (1 # 2) * (co * w j * b j / a j)))).
        - rewrite !sumn_plus, !sumn_scale. field. exact Hco.
        - intros j Hj. rewrite nth_tab by exact Hj. pose proof (Ha j Hj). setoid_replace (at2 X' (sg k) j * ((1 # 2) * (w' j + co * w j / a j))) with ((1 # 2) * (at2 X' (sg k) j * w' j) + (1 # 2) * at2 X' (sg k) j * (co * w j / a j)) by ring.
          setoid_replace ((1 # 2) * at2 X' (sg k) j * (co * w j / a j)) with ((1 # 2) * (a j * at2 X k j + b j) * (co * w j / a j)) by (rewrite (EX k j Hk Hj); reflexivity). field. assumption. }
      assert (B: fit = false -> bm == 0).
      { intros Hff. destruct (Hf Hff) as (B0 & D0). unfold bm. assert (S0: sumn p (fun j => co * w j * b j / a j) == 0) by (rewrite <- (sumn_zero p); apply sumn_ext; intros j Hj; rewrite (B0 j Hj); field; auto).
        rewrite S0, (Z Hff o Ho), (Z' Hff o Ho). unfold d0. rewrite (D0 o Ho). ring. }
      pose proof (M' wm bm B) as MM.
      rewrite <- (sumn_perm n sg (fun i => (at2 Y' i o - decision C' b0' (nth i X' []) o) * (at2 Y' i o - decision C' b0' (nth i X' []) o)) P) in MM.
      rewrite <- (sumn_perm n sg (fun i => (at2 Y' i o - (sumn p (fun j => at2 X' i j * nth j wm 0) + bm)) * (at2 Y' i o - (sumn p (fun j => at2 X' i j * nth j wm 0) + bm))) P) in MM.
      rewrite (sumn_ext n (fun i => (at2 Y' (sg i) o - decision C' b0' (nth (sg i) X' []) o) * (at2 Y' (sg i) o - decision C' b0' (nth (sg i) X' []) o)) (fun k => (co * co) * sq (y k - g k))) in MM.
      + rewrite (sumn_ext n (fun i => (at2 Y' (sg i) o - (sumn p (fun j => at2 X' (sg i) j * nth j wm 0) + bm)) * (at2 Y' (sg i) o - (sumn p (fun j => at2 X' (sg i) j * nth j wm 0) + bm))) (fun k => (co * co) * sq (y k - (1 # 2) * (f k + g k)))) in MM.
        * rewrite !sumn_scale in MM. assert (0 < co * co) by (destruct (Qlt_le_dec co 0); [nra|]; destruct (Qlt_le_dec 0 co); [nra|exfalso; apply Hco; lra]). apply Qmult_le_l in MM; assumption.
        * intros k Hk. rewrite (R k Hk), (EY k o Hk Ho). fold co d0. unfold sq, y. ring.
      + intros k Hk. rewrite (EY k o Hk Ho). fold co d0. change (decision C' b0' (nth (sg k) X' []) o) with (f' k). unfold sq, g, y. field. exact Hco. }
  specialize (U i Hi). unfold g in U. change (f' i == co * f i + d0). rewrite U. field. exact Hco.
Qed.

(* rows spanned by the training rows *)
Lemma decision_span C b X lam row o p : length C = p -> (forall j, (j < p)%nat -> nth j row 0 == sumn (length X) (fun i => lam i * at2 X i j)) ->
  (nth o b 0 == 0 \/ sumn (length X) lam == 1) -> decision C b row o == sumn (length X) (fun i => lam i * decision C b (nth i X []) o).
Proof.
  intros L Hr Hb. unfold decision. rewrite L.
  rewrite (sumn_ext p _ (fun j => sumn (length X) (fun i => lam i * (at2 X i j * at2 C j o)))).
  - rewrite sumn_swap. assert (E: nth o b 0 == sumn (length X) (fun i => lam i * nth o b 0)).
    { rewrite (sumn_ext _ _ (fun i => nth o b 0 * lam i)) by (intros; ring). rewrite sumn_scale. destruct Hb as [-> | ->]; ring. }
    rewrite E at 1. rewrite <- sumn_plus. apply sumn_ext. intros i _. rewrite sumn_scale. unfold at2. ring.
  - intros j Hj. rewrite (Hr j Hj). rewrite (Qmult_comm _ (at2 C j o)), <- sumn_scale. apply sumn_ext. intros; ring.
Qed.

(* ------------------------------------------------------ coordinate descent *)
(* l' is c times l *)
Definition scaled (c : Q) (l l' : list Q) : Prop := length l' = length l /\ forall j, nth j l' 0 == c * nth j l 0.
Lemma scaled_tab c n f g : (forall i, (i < n)%nat -> g i == c * f i) -> scaled c (tab n f) (tab n g).
Proof.
  intros H. split; [now rewrite !tab_length|]. intros j. destruct (Nat.ltb_spec j n); [rewrite !nth_tab by assumption; auto|]. rewrite !nth_overflow by (rewrite tab_length; lia). ring.
Qed.
Lemma scaled_upd c l l' i v v' : scaled c l l' -> v' == c * v -> scaled c (upd l i v) (upd l' i v').
Proof.
  intros (L & H) Hv. split; [now rewrite !upd_length|]. intros j. destruct (Nat.eq_dec j i) as [->|E].
  - destruct (Nat.ltb_spec i (length l)).
    + assert (A: forall (m : list Q) x, (i < length m)%nat -> nth i (upd m i x) 0 = x) by (intros m x Hm; apply nth_error_nth; now apply nth_error_upd_same).
      rewrite !A by lia. exact Hv.
    + rewrite !nth_overflow by (rewrite upd_length; lia). ring.
  - assert (A: forall (m : list Q) x, nth j (upd m i x) 0 = nth j m 0).
    { intros m x. revert i E. revert j. induction m as [|a m IH]; intros j i E; destruct i, j; cbn; auto; try congruence; apply IH; congruence. }
    rewrite !A. apply H.
Qed.
Lemma Qabs_cases c : ~ c == 0 -> 0 < Qabs c /\ (c == Qabs c \/ c == - Qabs c) /\ Qabs c * Qabs c == c * c.
Proof.
  intros H. destruct (Qlt_le_dec c 0).
  - assert (E: Qabs c == - c) by (apply Qabs_neg; lra). rewrite E. split; [lra|]. split; [right; ring|ring].
  - assert (E: Qabs c == c) by (apply Qabs_pos; lra). rewrite E. split; [destruct (Qlt_le_dec 0 c); [assumption|exfalso; apply H; lra]|]. split; [left; reflexivity|ring].
Qed.
Lemma qmax_scale s x x' y y' : 0 <= s -> x' == s * x -> y' == s * y -> qmax x' y' == s * qmax x y.
Proof. intros Hs Hx Hy. unfold qmax. destruct (Qleb_spec x y), (Qleb_spec x' y'); rewrite ?Hx, ?Hy in *; try reflexivity; nra. Qed.
Lemma Qltb_scale s x x' y y' : 0 < s -> x' == s * x -> y' == s * y -> Qltb x' y' = Qltb x y.
Proof. intros Hs Hx Hy. destruct (Qltb_spec x y), (Qltb_spec x' y'); auto; rewrite Hx, Hy in *; exfalso; nra. Qed.
Lemma Qeqb_scale s x x' : ~ s == 0 -> x' == s * x -> Qeq_bool x' 0 = Qeq_bool x 0.
Proof.
  intros Hs Hx. destruct (Qeqb_spec x 0) as [E|E], (Qeqb_spec x' 0) as [F|F]; auto; exfalso.
  - apply F. rewrite Hx, E. ring.
  - apply E. rewrite Hx in F. apply Qmult_integral in F. tauto.
Qed.
Lemma fsign_scale c t t' : ~ c == 0 -> t' == c * t -> fsign t' * Qabs c == c * fsign t.
Proof.
  intros Hc Ht. destruct (Qabs_cases c Hc) as (A & [B|B] & _); unfold fsign.
  - rewrite (Qltb_scale (Qabs c) 0 0 t t' A) by (try ring; rewrite Ht; rewrite B at 1; reflexivity). rewrite (Qeqb_scale c t t' Hc Ht). destruct (Qltb 0 t); [lra|]. destruct (Qeq_bool t 0); lra.
  - rewrite (Qeqb_scale c t t' Hc Ht). destruct (Qltb_spec 0 t), (Qltb_spec 0 t'), (Qeqb_spec t 0); rewrite Ht in *; try lra; nra.
Qed.
Lemma lmaxq_scale s l l' : 0 < s -> scaled s l l' -> lmaxq l' == s * lmaxq l.
Proof.
  intros Hs (L & H). destruct l as [|x l], l' as [|x' l']; try discriminate; [cbn [lmaxq]; ring|]. cbn [lmaxq].
  assert (G: forall l l' m m', length l' = length l -> (forall j, nth j l' 0 == s * nth j l 0) -> m' == s * m -> fold_left qmax l' m' == s * fold_left qmax l m).
  { clear -Hs. induction l as [|x l IH]; intros [|x' l'] m m' L H Hm; try discriminate; cbn [fold_left]; [exact Hm|]. apply IH; [cbn in L; lia|intros j; exact (H (S j))|].
    apply qmax_scale; [lra|exact Hm|exact (H 0%nat)]. }
  apply G; [cbn in L; lia|intros j; exact (H (S j))|exact (H 0%nat)].
Qed.
Lemma scaled_map_abs c l l' : scaled c l l' -> scaled (Qabs c) (map Qabs l) (map Qabs l').
Proof.
  intros (L & H). split; [now rewrite !map_length|]. intros j. change 0 with (Qabs 0) at 1 2. rewrite !map_nth. rewrite (H j). apply Qabs_Qmult.
Qed.

Section CDscale.
  Variables (c alpha alpha' beta beta' : Q) (positive : bool) (sg : nat -> nat) (X X' : mtx) (y y' : list Q) (p : nat).
  Hypothesis Hc : ~ c == 0.
  Hypothesis Hpos : positive = true -> 0 < c.
  Hypothesis Halpha : alpha' == Qabs c * alpha.
  Hypothesis Hbeta : beta' == beta.
  Let n := length X.
  Hypothesis HL : length X' = n.
  Hypothesis HP : Permutation (map sg (seq 0 n)) (seq 0 n).
  Hypothesis HX : forall i j, (i < n)%nat -> (j < p)%nat -> at2 X' (sg i) j == at2 X i j.
  Hypothesis Hy : forall i, (i < n)%nat -> nth (sg i) y' 0 == c * nth i y 0.
  (* residuals follow their samples *)
  Definition moved (r r' : list Q) : Prop := forall i, (i < n)%nat -> nth (sg i) r' 0 == c * nth i r 0.
  Lemma sg_lt i : (i < n)%nat -> (sg i < n)%nat.
  Proof. clear HL HX Hy. intros Hi. assert (In (sg i) (seq 0 n)) by (eapply Permutation_in; [exact HP|]; apply in_map, in_seq; lia). apply in_seq in H. lia. Qed.
  Lemma moved_tab f g : (forall i, (i < n)%nat -> g (sg i) == c * f i) -> moved (tab n f) (tab n g).
  Proof. clear HL HX Hy. intros H i Hi. rewrite !nth_tab by auto using sg_lt. auto. Qed.
  Lemma ncx_moved j : (j < p)%nat -> ncx X' j == ncx X j.
  Proof. intros Hj. unfold ncx. rewrite HL. fold n. rewrite <- (sumn_perm n sg (fun i => at2 X' i j * at2 X' i j) HP). apply sumn_ext. intros i Hi. rewrite (HX i j Hi Hj). reflexivity. Qed.
  Definition st_scaled (s s' : cd) : Prop :=
    scaled c (c_w s) (c_w s') /\ moved (c_R s) (c_R s') /\ c_wmax s' == Qabs c * c_wmax s /\ c_dwmax s' == Qabs c * c_dwmax s.
  Let HA : 0 < Qabs c := proj1 (Qabs_cases c Hc).

  Lemma axpy_scaled r r' v v' j : (j < p)%nat -> moved r r' -> v' == c * v -> moved (if Qeq_bool v 0 then r else tab n (fun i => Qred (nth i r 0 + v * at2 X i j))) (if Qeq_bool v' 0 then r' else tab n (fun i => Qred (nth i r' 0 + v' * at2 X' i j))).
  Proof.
    intros Hj Hr Hv. rewrite (Qeqb_scale c v v' Hc Hv). destruct (Qeq_bool v 0); [exact Hr|]. apply moved_tab. intros i Hi. rewrite !Qred_correct. rewrite (Hr i Hi), (HX i j Hi Hj), Hv. ring.
  Qed.
  Lemma axpy_scaled' r r' v v' j : (j < p)%nat -> moved r r' -> v' == c * v -> moved (if Qeq_bool v 0 then r else tab n (fun i => Qred (nth i r 0 + - v * at2 X i j))) (if Qeq_bool v' 0 then r' else tab n (fun i => Qred (nth i r' 0 + - v' * at2 X' i j))).
  Proof.
    intros Hj Hr Hv. rewrite (Qeqb_scale c v v' Hc Hv). destruct (Qeq_bool v 0); [exact Hr|]. apply moved_tab. intros i Hi. rewrite !Qred_correct. rewrite (Hr i Hi), (HX i j Hi Hj), Hv. ring.
  Qed.
  Lemma dot_scaled r r' j : (j < p)%nat -> moved r r' -> sumn n (fun i => at2 X' i j * nth i r' 0) == c * sumn n (fun i => at2 X i j * nth i r 0).
  Proof. intros Hj H. rewrite <- (sumn_perm n sg (fun i => at2 X' i j * nth i r' 0) HP). rewrite <- sumn_scale. apply sumn_ext. intros i Hi. rewrite (H i Hi), (HX i j Hi Hj). ring. Qed.
  Lemma max_scaled m m' v v' : m' == Qabs c * m -> v' == c * v -> (if Qltb m' (Qabs v') then Qabs v' else m') == Qabs c * (if Qltb m (Qabs v) then Qabs v else m).
  Proof.
    intros Hm Hv. assert (E: Qabs v' == Qabs c * Qabs v) by (rewrite Hv; apply Qabs_Qmult). rewrite (Qltb_scale (Qabs c) m m' (Qabs v) (Qabs v') HA Hm E). now destruct (Qltb m (Qabs v)).
  Qed.

  Lemma update_scaled s s' j : (j < p)%nat -> st_scaled s s' -> st_scaled (cd_update alpha beta positive X s j) (cd_update alpha' beta' positive X' s' j).
  Proof.
    intros Hj (Sw & SR & Sm & Sd). unfold cd_update. pose proof (ncx_moved j Hj) as EN. rewrite (Qeqb_scale 1 (ncx X j) (ncx X' j)) by (try lra; rewrite EN; ring). destruct (Qeq_bool (ncx X j) 0); [now repeat split; try apply Sw; try apply SR|]. rewrite HL. fold n.
    set (wii := nth j (c_w s) 0). set (wii' := nth j (c_w s') 0). assert (Hw: wii' == c * wii) by apply (proj2 Sw).
    pose proof (axpy_scaled _ _ wii wii' j Hj SR Hw) as SR1. cbv zeta. set (R1 := if Qeq_bool wii 0 then _ else _) in *. set (R1' := if Qeq_bool wii' 0 then _ else _) in *.
    pose proof (dot_scaled _ _ j Hj SR1) as Ht. set (t := sumn n (fun i => at2 X i j * nth i R1 0)) in *. set (t' := sumn n (fun i => at2 X' i j * nth i R1' 0)) in *.
    set (v := Qred (if (positive && Qltb t 0)%bool then 0 else fsign t * qmax (Qabs t - alpha) 0 / (ncx X j + beta))).
    set (v' := Qred (if (positive && Qltb t' 0)%bool then 0 else fsign t' * qmax (Qabs t' - alpha') 0 / (ncx X' j + beta'))).
    assert (Hv: v' == c * v).
    { unfold v, v'. rewrite !Qred_correct.
      assert (G: fsign t' * qmax (Qabs t' - alpha') 0 / (ncx X' j + beta') == c * (fsign t * qmax (Qabs t - alpha) 0 / (ncx X j + beta))).
      { assert (E: qmax (Qabs t' - alpha') 0 == Qabs c * qmax (Qabs t - alpha) 0).
        { apply qmax_scale; [lra| |ring]. rewrite Ht, Qabs_Qmult, Halpha. ring. }
        rewrite E, Hbeta, EN. pose proof (fsign_scale c t t' Hc Ht) as F. unfold Qdiv. rewrite Qmult_assoc, F. ring. }
      destruct positive; cbn [andb]; [|exact G]. rewrite (Qltb_scale c t t' 0 0 (Hpos eq_refl) Ht ltac:(ring)). destruct (Qltb t 0); [ring|exact G]. }
    split; [|split; [|split]]; cbn [c_w c_R c_wmax c_dwmax].
    - apply scaled_upd; assumption.
    - apply axpy_scaled'; assumption.
    - apply max_scaled; assumption.
    - apply max_scaled; [assumption|]. rewrite Hv, Hw. ring.
  Qed.
  Lemma pass_scaled order w w' r r' : (forall j, In j order -> (j < p)%nat) -> scaled c w w' -> moved r r' -> st_scaled (cd_pass alpha beta positive X order w r) (cd_pass alpha' beta' positive X' order w' r').
  Proof.
    intros Ho Sw Sr. unfold cd_pass. assert (H: st_scaled (mkcd w r 0 0) (mkcd w' r' 0 0)) by (split; [exact Sw|split; [exact Sr|split; cbn; ring]]).
    revert H. generalize (mkcd w r 0 0) (mkcd w' r' 0 0). induction order as [|j order IH]; intros s s' H; cbn [fold_left]; [exact H|]. apply IH; [intros; apply Ho; now right|]. apply update_scaled; [apply Ho; now left|exact H].
  Qed.
  Lemma gap_scaled w w' r r' : scaled c w w' -> moved r r' -> cd_gap alpha' beta' positive X' y' p w' r' == c * c * cd_gap alpha beta positive X y p w r.
  Proof.
    intros Sw Sr. unfold cd_gap. rewrite HL. fold n.
    set (xta := tab p (fun j => sumn n (fun i => at2 X i j * nth i r 0) + - beta * nth j w 0)). set (xta' := tab p (fun j => sumn n (fun i => at2 X' i j * nth i r' 0) + - beta' * nth j w' 0)).
    assert (Sx: scaled c xta xta') by (apply scaled_tab; intros j Hj; rewrite (dot_scaled r r' j Hj Sr), (proj2 Sw j), Hbeta; ring). cbv zeta.
    set (dual := if positive then lmaxq xta else lmaxq (map Qabs xta)). set (dual' := if positive then lmaxq xta' else lmaxq (map Qabs xta')).
    assert (Hd: dual' == Qabs c * dual).
    { unfold dual, dual'. destruct positive; [|apply lmaxq_scale; [exact HA|now apply scaled_map_abs]]. rewrite (lmaxq_scale c xta xta' (Hpos eq_refl) Sx). rewrite (Qabs_pos c); [reflexivity|]. pose proof (Hpos eq_refl). lra. }
    clearbody dual dual'. rewrite (Qltb_scale (Qabs c) alpha alpha' dual dual' HA Halpha Hd).
    assert (E1: sumn n (fun i => nth i r' 0 * nth i r' 0) == c * c * sumn n (fun i => nth i r 0 * nth i r 0)) by (rewrite <- (sumn_perm n sg (fun i => nth i r' 0 * nth i r' 0) HP); rewrite <- sumn_scale; apply sumn_ext; intros i Hi; rewrite (Sr i Hi); ring).
    assert (E2: sumn p (fun j => nth j w' 0 * nth j w' 0) == c * c * sumn p (fun j => nth j w 0 * nth j w 0)) by (rewrite <- sumn_scale; apply sumn_ext; intros i _; rewrite (proj2 Sw i); ring).
    assert (E3: sumn p (fun j => Qabs (nth j w' 0)) == Qabs c * sumn p (fun j => Qabs (nth j w 0))) by (rewrite <- sumn_scale; apply sumn_ext; intros i _; rewrite (proj2 Sw i); apply Qabs_Qmult).
    assert (E4: sumn n (fun i => nth i r' 0 * nth i y' 0) == c * c * sumn n (fun i => nth i r 0 * nth i y 0)) by (rewrite <- (sumn_perm n sg (fun i => nth i r' 0 * nth i y' 0) HP); rewrite <- sumn_scale; apply sumn_ext; intros i Hi; rewrite (Sr i Hi), (Hy i Hi); ring).
    assert (E5: alpha' * sumn p (fun j => Qabs (nth j w' 0)) == c * c * (alpha * sumn p (fun j => Qabs (nth j w 0)))).
    { rewrite E3, Halpha. pose proof (proj2 (proj2 (Qabs_cases c Hc))) as F. rewrite <- F. ring. }
    destruct (Qltb_spec alpha dual) as [H|H]; rewrite E1, E2, E4, E5, Hbeta.
    - destruct (Qeqb_spec dual 0) as [Z|Z].
      + assert (alpha' / dual' == alpha / dual) as ->; [|ring]. rewrite Hd, Z. setoid_replace (Qabs c * 0) with 0 by ring. unfold Qdiv. change (/ 0) with 0. ring.
      + assert (alpha' / dual' == alpha / dual) as ->; [|ring]. rewrite Hd, Halpha. field. split; [exact Z|]. lra.
    - ring.
  Qed.
  Lemma loop_scaled order dwtol tol tol' : (forall k j, In j (order k) -> (j < p)%nat) -> tol' == c * c * tol -> forall left k w w' r r' g g', scaled c w w' -> moved r r' ->
    let '(w1, g1, it) := cd_loop alpha beta positive X y p order dwtol tol left k w r g in
    let '(w1', g1', it') := cd_loop alpha' beta' positive X' y' p order dwtol tol' left k w' r' g' in
    scaled c w1 w1' /\ it' = it /\ (left <> 0%nat \/ g' == c * c * g -> g1' == c * c * g1).
  Proof.
    intros Ho Htol. assert (HCC: 0 < c * c) by (pose proof (proj2 (proj2 (Qabs_cases c Hc))) as B; rewrite <- B; nra).
    induction left as [|left IH]; intros k w w' r r' g g' Sw Sr; cbn [cd_loop].
    - split; [exact Sw|]. split; [reflexivity|]. intros [H|H]; [congruence|exact H].
    - pose proof (pass_scaled (order k) w w' r r' (Ho k) Sw Sr) as (Sw1 & Sr1 & Sm & Sd). set (st := cd_pass alpha beta positive X (order k) w r) in *. set (st' := cd_pass alpha' beta' positive X' (order k) w' r') in *.
      assert (HQ: ~ Qabs c == 0) by lra.
      assert (ER: c_dwmax st' / c_wmax st' == c_dwmax st / c_wmax st).
      { rewrite Sm, Sd. destruct (Qeqb_spec (c_wmax st) 0) as [Z|Z].
        - rewrite Z. setoid_replace (Qabs c * 0) with 0 by ring. unfold Qdiv. change (/ 0) with 0. ring.
        - field. split; assumption. }
      assert (EB: (Qeq_bool (c_wmax st') 0 || Qltb (c_dwmax st' / c_wmax st') dwtol || Nat.eqb left 0)%bool = (Qeq_bool (c_wmax st) 0 || Qltb (c_dwmax st / c_wmax st) dwtol || Nat.eqb left 0)%bool).
      { rewrite (Qeqb_scale (Qabs c) _ _ HQ Sm). rewrite (Qltb_scale 1 (c_dwmax st / c_wmax st) (c_dwmax st' / c_wmax st') dwtol dwtol); [reflexivity|lra|rewrite ER; ring|ring]. }
      rewrite EB. pose proof (gap_scaled _ _ _ _ Sw1 Sr1) as GS.
      destruct (Qeq_bool (c_wmax st) 0 || Qltb (c_dwmax st / c_wmax st) dwtol || Nat.eqb left 0)%bool eqn:Ev.
      + assert (GR: Qred (cd_gap alpha' beta' positive X' y' p (c_w st') (c_R st')) == c * c * Qred (cd_gap alpha beta positive X y p (c_w st) (c_R st))) by (rewrite !Qred_correct; exact GS).
        rewrite (Qltb_scale (c * c) _ _ tol tol' HCC GR Htol). destruct (Qltb (Qred (cd_gap alpha beta positive X y p (c_w st) (c_R st))) tol).
        * split; [exact Sw1|]. split; [reflexivity|]. intros _. exact GR.
        * specialize (IH (S k) _ _ _ _ (Qred (cd_gap alpha beta positive X y p (c_w st) (c_R st))) (Qred (cd_gap alpha' beta' positive X' y' p (c_w st') (c_R st'))) Sw1 Sr1).
          destruct (cd_loop alpha beta _ _ _ _ _ _ _ _ _ _ _ _) as [[w1 g1] it]. destruct (cd_loop alpha' _ _ _ _ _ _ _ _ _ _ _ _ _) as [[w1' g1'] it']. destruct IH as (A & B & D). split; [exact A|]. split; [exact B|]. intros _. apply D. right. exact GR.
      + specialize (IH (S k) _ _ _ _ g g' Sw1 Sr1). destruct (cd_loop alpha beta _ _ _ _ _ _ _ _ _ _ _ _) as [[w1 g1] it]. destruct (cd_loop alpha' _ _ _ _ _ _ _ _ _ _ _ _ _) as [[w1' g1'] it']. destruct IH as (A & B & D). split; [exact A|]. split; [exact B|]. intros _. apply D. left.
        intros ->. rewrite Nat.eqb_refl, !Bool.orb_true_r in Ev. discriminate.
  Qed.
End CDscale.

Lemma enet_scaled c alpha alpha' beta beta' positive sg X X' y y' order tol maxIter w0 w0' : ~ c == 0 -> (positive = true -> 0 < c) -> alpha' == Qabs c * alpha -> beta' == beta ->
  length X' = length X -> ncols X' = ncols X -> Permutation (map sg (seq 0 (length X))) (seq 0 (length X)) -> (forall i j, (i < length X)%nat -> (j < ncols X)%nat -> at2 X' (sg i) j == at2 X i j) ->
  (forall k j, In j (order k) -> (j < ncols X)%nat) ->
  (forall i, (i < length X)%nat -> nth (sg i) y' 0 == c * nth i y 0) -> scaled c w0 w0' ->
  let '(w, gap, eps, it) := enet_cd alpha beta positive X y order tol maxIter w0 in
  let '(w', gap', eps', it') := enet_cd alpha' beta' positive X' y' order tol maxIter w0' in
  scaled c w w' /\ it' = it /\ eps' == c * c * eps /\ (maxIter <> 0%nat -> gap' == c * c * gap).
Proof.
  intros Hc Hp Ha Hb HL HN P HX Ho Hy Sw. unfold enet_cd. rewrite HL, HN.
  assert (Ht: tol * sumn (length X) (fun i => nth i y' 0 * nth i y' 0) == c * c * (tol * sumn (length X) (fun i => nth i y 0 * nth i y 0))).
  { rewrite <- (sumn_perm (length X) sg (fun i => nth i y' 0 * nth i y' 0) P).
    rewrite (sumn_ext (length X) (fun i => nth (sg i) y' 0 * nth (sg i) y' 0) (fun i => c * c * (nth i y 0 * nth i y 0))) by (intros i Hi; rewrite (Hy i Hi); ring). rewrite sumn_scale. ring. }
  assert (Sr: moved c sg X (resid0 X y (ncols X) w0) (resid0 X' y' (ncols X) w0')).
  { unfold resid0. rewrite HL. apply moved_tab; [exact P|]. intros i Hi. rewrite !Qred_correct, (Hy i Hi). rewrite (sumn_ext (ncols X) (fun j => at2 X' (sg i) j * nth j w0' 0) (fun j => c * (at2 X i j * nth j w0 0))) by (intros j Hj; rewrite (proj2 Sw j), (HX i j Hi Hj); ring). rewrite sumn_scale. ring. }
  pose proof (loop_scaled c alpha alpha' beta beta' positive sg X X' y y' (ncols X) Hc Hp Ha Hb HL P HX Hy order tol _ _ Ho Ht maxIter 0 w0 w0' _ _ (tol + 1) (tol + 1) Sw Sr) as L.
  destruct (cd_loop alpha beta _ _ _ _ _ _ _ _ _ _ _ _) as [[w1 g1] it]. destruct (cd_loop alpha' _ _ _ _ _ _ _ _ _ _ _ _ _) as [[w1' g1'] it']. destruct L as (A & B & D). split; [exact A|]. split; [exact B|]. split; [exact Ht|]. intros H. apply D. now left.
Qed.

(* the penalties of e' are those of e in other units of the target: the l1 part follows the unit, the l2 part does not *)
Definition penalties (c : Q) (e e' : enet_par) : Prop :=
  e_fit e' = e_fit e /\ e_norm e' = e_norm e /\ e_tol e' = e_tol e /\ e_iter e' = e_iter e /\ e_warm e' = e_warm e /\ e_pos e' = e_pos e /\
  e_alpha e' * e_l1 e' == Qabs c * (e_alpha e * e_l1 e) /\ e_alpha e' * (1 - e_l1 e') == e_alpha e * (1 - e_l1 e).
Lemma scaled_zero c n : scaled c (tab n (fun _ => 0)) (tab n (fun _ => 0)).
Proof. apply scaled_tab. intros; ring. Qed.
Lemma at2_col w j : at2 (map (fun v => [v]) w) j 0 = nth j w 0.
Proof. unfold at2. revert j. induction w as [|v w IH]; intros [|j]; cbn; auto. Qed.

Lemma yoff_at nrm fit norm X Y q o : rect Y q -> (o < q)%nat -> nth o (p_yoff (preprocess nrm fit norm X Y)) 0 = if fit then col_mean Y o else 0.
Proof. intros HY Ho. pose proof (rect_ncols _ _ HY) as E. unfold preprocess. destruct fit, norm; cbn [negb andb p_yoff]; cbv zeta; rewrite nth_tab by lia; reflexivity. Qed.
Lemma xoff_at nrm fit norm X Y p j : rect X p -> (j < p)%nat -> nth j (p_xoff (preprocess nrm fit norm X Y)) 0 = if fit then col_mean X j else 0.
Proof. intros HY Ho. pose proof (rect_ncols _ _ HY) as E. unfold preprocess. destruct fit, norm; cbn [negb andb p_xoff]; cbv zeta; rewrite nth_tab by lia; reflexivity. Qed.
(* the norm of a column does not depend on the order of its entries, nor on how a number is written *)
Definition symmetric (nrm : list Q -> Q) : Prop := forall l mid l', Permutation l mid -> Forall2 Qeq mid l' -> nrm l' == nrm l.
Lemma F2_map {A} (f g : A -> Q) l : (forall x, In x l -> f x == g x) -> Forall2 Qeq (map f l) (map g l).
Proof. induction l as [|x l IH]; intros H; constructor; [apply H; now left|]. apply IH. intros; apply H; now right. Qed.

Lemma perm_lt sg n : Permutation (map sg (seq 0 n)) (seq 0 n) -> forall i, (i < n)%nat -> (sg i < n)%nat.
Proof. intros HP i Hi. assert (In (sg i) (seq 0 n)) by (eapply Permutation_in; [exact HP|]; apply in_map, in_seq; lia). apply in_seq in H. lia. Qed.

Section Reordered.
  Variables (nrm : list Q -> Q) (fit norm : bool) (sg : nat -> nat) (X X' Y Y' : mtx) (p : nat).
  Hypothesis HN : symmetric nrm.
  Hypothesis HX : rect X p.
  Hypothesis HX' : rect X' p.
  Let n := length X.
  Hypothesis HL : length X' = n.
  Hypothesis HP : Permutation (map sg (seq 0 n)) (seq 0 n).
  Hypothesis HR : forall i j, (i < n)%nat -> (j < p)%nat -> at2 X' (sg i) j == at2 X i j.
  Let pr := preprocess nrm fit norm X Y.
  Let pr' := preprocess nrm fit norm X' Y'.
  Lemma mean_moved j : (j < p)%nat -> col_mean X' j == col_mean X j.
  Proof. intros Hj. unfold col_mean. rewrite HL. fold n. rewrite <- (sumn_perm n sg (fun i => at2 X' i j) HP). rewrite (sumn_ext n (fun i => at2 X' (sg i) j) (fun i => at2 X i j)) by (intros i Hi; now apply HR). reflexivity. Qed.
  Lemma xoff_moved j : (j < p)%nat -> nth j (p_xoff pr') 0 == nth j (p_xoff pr) 0.
  Proof. intros Hj. unfold pr, pr'. rewrite (xoff_at nrm fit norm X Y p j HX Hj), (xoff_at nrm fit norm X' Y' p j HX' Hj). destruct fit; [now apply mean_moved|reflexivity]. Qed.
  Lemma scale_moved j : (j < p)%nat -> nth j (p_scale pr') 0 == nth j (p_scale pr) 0.
  Proof.
    intros Hj. pose proof (rect_ncols _ _ HX) as E1. pose proof (rect_ncols _ _ HX') as E2. unfold pr, pr'.
    destruct (fit && norm)%bool eqn:B.
    - apply andb_prop in B. destruct B as (-> & ->). rewrite !scale_norm by lia. rewrite E1, E2, HL. fold n. symmetry.
      set (f := fun i => at2 (tab2 n p (fun i j => at2 X i j - nth j (tab p (fun j => col_mean X j)) 0)) i j). set (f' := fun i => at2 (tab2 n p (fun i j => at2 X' i j - nth j (tab p (fun j => col_mean X' j)) 0)) i j).
      apply (HN _ (map f' (map sg (seq 0 n)))); [unfold tab; apply Permutation_map; symmetry; exact HP|]. unfold tab. rewrite map_map. apply F2_map. intros i Hi. apply in_seq in Hi.
      unfold f, f'. rewrite !at2_tab2 by (try apply (perm_lt sg n HP); lia). rewrite !nth_tab by exact Hj. rewrite (HR i j) by lia. rewrite (mean_moved j Hj). reflexivity.
    - rewrite !scale_simple by (try exact B; lia). reflexivity.
  Qed.
  (* the cells, column scales and offsets included *)
  Lemma pX_cell X0 Y0 i j : rect X0 p -> (i < length X0)%nat -> (j < p)%nat -> let q := preprocess nrm fit norm X0 Y0 in
    at2 (pX q) i j == if Qeq_bool (nth j (p_scale q) 0) 0 then at2 X0 i j - nth j (p_xoff q) 0 else (at2 X0 i j - nth j (p_xoff q) 0) / nth j (p_scale q) 0.
  Proof.
    intros R Hi Hj q. pose proof (rect_ncols _ _ R) as E. unfold q, preprocess. destruct fit, norm; cbn [negb andb pX p_scale p_xoff]; cbv zeta; rewrite ?E;
      rewrite ?(at2_tab2 _ Hi Hj), ?(nth_tab _ Hj), ?(at2_tab2 _ Hi Hj), ?(nth_tab _ Hj); try reflexivity.
    - change (Qeq_bool 1 0) with false. cbv iota. field.
    - change (Qeq_bool 1 0) with false. cbv iota. field.
  Qed.
  Lemma pX_moved i j : (i < n)%nat -> (j < p)%nat -> at2 (pX pr') (sg i) j == at2 (pX pr) i j.
  Proof.
    intros Hi Hj. unfold pr, pr'. rewrite (pX_cell X' Y' (sg i) j HX') by (try (rewrite HL; apply (perm_lt sg n HP)); assumption). rewrite (pX_cell X Y i j HX) by assumption. fold pr pr'.
    rewrite (Qeqb_scale 1 (nth j (p_scale pr) 0) (nth j (p_scale pr') 0)) by (try lra; rewrite (scale_moved j Hj); ring).
    destruct (Qeq_bool _ 0); rewrite (xoff_moved j Hj), (HR i j Hi Hj); [reflexivity|rewrite (scale_moved j Hj); reflexivity].
  Qed.
End Reordered.

Lemma ymean_moved sg c d n (Y Y' : mtx) : (0 < n)%nat -> length Y = n -> length Y' = n -> Permutation (map sg (seq 0 n)) (seq 0 n) -> (forall i, (i < n)%nat -> at2 Y' (sg i) 0 == c * at2 Y i 0 + d) -> col_mean Y' 0 == c * col_mean Y 0 + d.
Proof.
  intros Hn L L' P H. unfold col_mean. rewrite L, L'. rewrite <- (sumn_perm n sg (fun i => at2 Y' i 0) P). rewrite (sumn_ext n (fun i => at2 Y' (sg i) 0) (fun i => c * at2 Y i 0 + d)) by exact H.
  rewrite sumn_plus, sumn_scale, sumn_const. field. pose proof (qn_pos n Hn). lra.
Qed.
Lemma cd_loop_length alpha beta positive X y p order dwtol tol : forall left k w r g, length (fst (fst (cd_loop alpha beta positive X y p order dwtol tol left k w r g))) = length w.
Proof.
  assert (U: forall ord s, length (c_w (fold_left (cd_update alpha beta positive X) ord s)) = length (c_w s)).
  { induction ord as [|j ord IH]; intros s; cbn [fold_left]; [reflexivity|]. rewrite IH. unfold cd_update. destruct (Qeq_bool _ 0); [reflexivity|]. cbn [c_w]. apply upd_length. }
  induction left as [|left IH]; intros k w r g; cbn [cd_loop]; [reflexivity|]. assert (E: length (c_w (cd_pass alpha beta positive X (order k) w r)) = length w) by (unfold cd_pass; now rewrite U).
  destruct (_ || _)%bool; [|now rewrite IH]. destruct (Qltb _ tol); [exact E|now rewrite IH].
Qed.

Lemma enet_units nrm order e e' sg c d X X' Y Y' p coef coef' old : symmetric nrm -> ~ c == 0 -> (e_pos e = true -> 0 < c) -> rect X p -> rect X' p -> rect Y 1 -> rect Y' 1 ->
  length X' = length X -> length Y = length X -> length Y' = length X -> Permutation (map sg (seq 0 (length X))) (seq 0 (length X)) ->
  (forall i j, (i < length X)%nat -> (j < p)%nat -> at2 X' (sg i) j == at2 X i j) -> (forall i, (i < length X)%nat -> at2 Y' (sg i) 0 == c * at2 Y i 0 + d) ->
  penalties c e e' -> (e_fit e = true \/ d == 0 /\ old = None) -> (forall k j, In j (order k) -> (j < p)%nat) ->
  match coef, coef' with Some w0, Some w0' => length w0 = p /\ scaled c w0 w0' | None, None => True | _, _ => False end ->
  match enet_fit nrm order e X Y coef old, enet_fit nrm order e' X' Y' coef' old with
  | Some (C, b, gap, eps, it), Some (C', b', gap', eps', it') =>
      length C' = length C /\ (forall j, at2 C' j 0 == c * at2 C j 0) /\ nth 0 b' 0 == c * nth 0 b 0 + d /\ it' = it /\ eps' == c * c * eps /\ (e_iter e <> 0%nat -> gap' == c * c * gap)
  | None, None => True
  | _, _ => False
  end.
Proof.
  intros HN Hc Hp HX HX' HY HY' HL HLY HLY' P ER EY (F1 & F2 & F3 & F4 & F5 & F6 & F7 & F8) Hfit Ho Hw. unfold enet_fit. rewrite F1, F2, F3, F4, F5, F6.
  pose proof (pX_moved nrm (e_fit e) (e_norm e) sg X X' Y Y' p HN HX HX' HL P ER) as EX. pose proof (scale_moved nrm (e_fit e) (e_norm e) sg X X' Y Y' p HN HX HX' HL P ER) as ES.
  pose proof (xoff_moved nrm (e_fit e) (e_norm e) sg X X' Y Y' p HX HX' HL P ER) as EO.
  pose proof (rect_ncols _ _ HX) as NC. pose proof (rect_ncols _ _ HX') as NC'. assert (Hn: (0 < length X)%nat) by apply HX.
  set (pr := preprocess nrm (e_fit e) (e_norm e) X Y) in *. set (pr' := preprocess nrm (e_fit e) (e_norm e) X' Y') in *.
  assert (YO: nth 0 (p_yoff pr') 0 == c * nth 0 (p_yoff pr) 0 + d).
  { unfold pr, pr'. rewrite (yoff_at nrm _ _ X Y 1 0 HY), (yoff_at nrm _ _ X' Y' 1 0 HY') by lia. destruct (e_fit e); [|destruct Hfit as [?|(H & _)]; [discriminate|rewrite H; ring]].
    apply (ymean_moved sg c d (length X)); auto. }
  assert (YP: forall i, (i < length X)%nat -> at2 (pY pr') (sg i) 0 == c * at2 (pY pr) i 0).
  { intros i Hi. pose proof (perm_lt sg _ P i Hi) as Hs. unfold pr, pr'. rewrite !pY_at; fold pr pr'; [|lia|rewrite (rect_ncols _ _ HY); lia|lia|rewrite (rect_ncols _ _ HY'); lia]. rewrite YO, (EY i Hi). ring. }
  rewrite NC, NC'. destruct (if e_warm e then coef else Some (tab p (fun _ => 0))) as [w0|] eqn:E0; destruct (if e_warm e then coef' else Some (tab p (fun _ => 0))) as [w0'|] eqn:E0'.
  2:{ destruct (e_warm e); [subst; destruct Hw|discriminate]. }
  2:{ destruct (e_warm e); [subst; destruct Hw|discriminate]. }
  2:{ exact I. }
  assert (S0: length w0 = p /\ scaled c w0 w0') by (destruct (e_warm e); [subst; exact Hw|injection E0 as <-; injection E0' as <-; split; [apply tab_length|apply scaled_zero]]). destruct S0 as (L0 & S0).
  assert (Lp: length (pX pr) = length X) by apply pX_length. assert (Lp': length (pX pr') = length X) by (unfold pr'; rewrite pX_length; exact HL).
  assert (Np: ncols (pX pr) = p /\ ncols (pX pr') = p).
  { unfold pr, pr', preprocess. rewrite NC, NC'. destruct (e_fit e), (e_norm e); cbn [negb andb pX]; cbv zeta; split; try (rewrite ncols_tab2; [reflexivity|try rewrite HL; exact Hn]); assumption. }
  destruct Np as (Np & Np').
  pose proof (enet_scaled c (e_alpha e * e_l1 e * qn (length X)) (e_alpha e' * e_l1 e' * qn (length X)) (e_alpha e * (1 - e_l1 e) * qn (length X)) (e_alpha e' * (1 - e_l1 e') * qn (length X)) (e_pos e) sg
    (pX pr) (pX pr') (tab (length X) (fun i => at2 (pY pr) i 0)) (tab (length X) (fun i => at2 (pY pr') i 0)) order (e_tol e) (e_iter e) w0 w0' Hc Hp ltac:(rewrite F7; ring) ltac:(rewrite F8; ring)) as L.
  rewrite Lp, Lp', Np, Np' in L. specialize (L eq_refl eq_refl P EX Ho ltac:(intros i Hi; rewrite !nth_tab by (try apply (perm_lt sg _ P); exact Hi); now apply YP) S0). rewrite HL.
  assert (LW: length (fst (fst (fst (enet_cd (e_alpha e * e_l1 e * qn (length X)) (e_alpha e * (1 - e_l1 e) * qn (length X)) (e_pos e) (pX pr) (tab (length X) (fun i => at2 (pY pr) i 0)) order (e_tol e) (e_iter e) w0)))) = p).
  { rewrite <- L0. unfold enet_cd. match goal with |- context [cd_loop ?a ?b ?c ?d ?e0 ?f ?g ?h ?i ?j ?k ?l ?m ?o] => pose proof (cd_loop_length a b c d e0 f g h i j k l m o) as G; destruct (cd_loop a b c d e0 f g h i j k l m o) as [[w1 g1] it] end. exact G. }
  destruct (enet_cd (e_alpha e * e_l1 e * qn (length X)) _ _ _ _ _ _ _ _) as [[[w gap] eps] it]. destruct (enet_cd (e_alpha e' * e_l1 e' * qn (length X)) _ _ _ _ _ _ _ _) as [[[w' gap'] eps'] it']. destruct L as (Sw & Ei & Ee & Eg). cbn [fst] in LW.
  unfold set_intercept. rewrite !map_length. rewrite (proj1 Sw), LW.
  assert (EE: existsb (fun j => Qeq_bool (nth j (p_scale pr') 0) 0) (seq 0 p) = existsb (fun j => Qeq_bool (nth j (p_scale pr) 0) 0) (seq 0 p)).
  { assert (G: forall l, (forall j, In j l -> (j < p)%nat) -> existsb (fun j => Qeq_bool (nth j (p_scale pr') 0) 0) l = existsb (fun j => Qeq_bool (nth j (p_scale pr) 0) 0) l).
    { induction l as [|j l IH]; intros H; [reflexivity|]. cbn [existsb]. rewrite IH by (intros; apply H; now right). f_equal. apply (Qeqb_scale 1); [lra|]. rewrite (ES j) by (apply H; now left). ring. }
    apply G. intros j Hj. apply in_seq in Hj. lia. }
  rewrite EE. destruct (existsb (fun j => Qeq_bool (nth j (p_scale pr) 0) 0) (seq 0 p)); [exact I|]. clear EE.
  set (C := tab2 p 1 (fun j o => at2 (map (fun v => [v]) w) j o / nth j (p_scale pr) 0)). set (C' := tab2 p 1 (fun j o => at2 (map (fun v => [v]) w') j o / nth j (p_scale pr') 0)).
  assert (EC: forall j, at2 C' j 0 == c * at2 C j 0).
  { intros j. destruct (Nat.ltb_spec j p) as [Hj|Hj].
    - unfold C, C'. rewrite !at2_tab2 by lia. rewrite !at2_col, (proj2 Sw j), (ES j Hj). unfold Qdiv. ring.
    - unfold at2. rewrite !(nth_overflow _ []) by (unfold C, C'; rewrite tab2_length; lia). cbn [nth]. ring. }
  assert (LC: length C' = length C) by (unfold C, C'; now rewrite !tab2_length).
  destruct (e_fit e) eqn:Ef.
  - destruct (Nat.eqb _ 1); [|exact I]. split; [exact LC|]. split; [exact EC|]. split; [|auto]. rewrite !nth_tab by lia. fold C C'.
    rewrite (sumn_ext p (fun j => nth j (p_xoff pr') 0 * at2 C' j 0) (fun j => c * (nth j (p_xoff pr) 0 * at2 C j 0))) by (intros j Hj; rewrite (EC j), (EO j Hj); ring). rewrite sumn_scale, YO. ring.
  - split; [exact LC|]. split; [exact EC|]. split; [|auto]. destruct Hfit as [?|(H & ->)]; [discriminate|]. rewrite H. rewrite !nth_tab by lia. ring.
Qed.
