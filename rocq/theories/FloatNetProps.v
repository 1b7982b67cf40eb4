(* Properties C249-C250: class probabilities and losses of the classifiers in binary64 arithmetic *)
From Coq Require Import Reals ZArith List Bool Lia Lra.
From Flocq Require Import Core.Core IEEE754.BinarySingleNaN.
From Verif Require Import FloatModel FloatProofs FloatDistProofs FloatScoreModel FloatScoreProofs FloatRegProofs FloatNetModel FloatNetProofs.
Import ListNotations.
Open Scope R_scope.

(* C249: whatever exponential is used, when the exponentials and their sum are finite numbers >= 0 and the sum is not 0, the softmax
   outputs are finite numbers in [0, 1], a class with a greater exponential has no smaller output, and the class MaxIdx64 chooses has the
   greatest output *)
Theorem C249_softmax_partial : forall (e : f64 -> f64) (row : list f64), row <> [] -> (forall z, In z row -> is_finite (e z) = true /\ 0 <= B2R (e z)) ->
  is_finite (fsum (map e row)) = true -> 0 < B2R (fsum (map e row)) ->
  length (softmax e row) = length row /\ (forall p, In p (softmax e row) -> is_finite p = true /\ 0 <= B2R p <= 1) /\
  (forall i j zi zj pi pj, nth_error row i = Some zi -> nth_error row j = Some zj -> nth_error (softmax e row) i = Some pi -> nth_error (softmax e row) j = Some pj ->
     B2R (e zi) <= B2R (e zj) -> B2R pi <= B2R pj) /\
  (exists p, nth_error (softmax e row) (max_idx (softmax e row)) = Some p /\ forall q, In q (softmax e row) -> B2R q <= B2R p).
Proof.
  intros e row NE H FS PS. assert (N : Forall nn (map e row)) by (apply Forall_forall; intros v I; apply in_map_iff in I as (z & <- & I); apply nn_fin; apply (H z I)).
  pose proof (fsum_mono _ N f0 nn_0 FS) as (_ & _ & M). fold (fsum (map e row)) in M. set (s := fsum (map e row)) in *.
  assert (D : forall z, In z row -> is_finite (fdiv (e z) s) = true /\ B2R (fdiv (e z) s) = rnd (B2R (e z) / B2R s) /\ 0 <= B2R (fdiv (e z) s) <= 1).
  { intros z I. destruct (H z I) as [Fz Pz]. apply div_01; [exact Fz|split; [exact Pz|apply M, in_map, I]|exact PS]. }
  assert (R : forall p, In p (softmax e row) -> is_finite p = true /\ 0 <= B2R p <= 1).
  { unfold softmax. fold s. intros p I. apply in_map_iff in I as (v & <- & I). apply in_map_iff in I as (z & <- & I). destruct (D z I) as (A & _ & B). auto. }
  split; [unfold softmax; now rewrite !map_length|]. split; [exact R|]. split.
  - intros i j zi zj pi pj Hi Hj Pi Pj L. unfold softmax in Pi, Pj. fold s in Pi, Pj. rewrite map_map, (map_nth_error _ _ _ Hi) in Pi. rewrite map_map, (map_nth_error _ _ _ Hj) in Pj. injection Pi as <-. injection Pj as <-.
    destruct (D zi (nth_error_In _ _ Hi)) as (_ & Ei & _). destruct (D zj (nth_error_In _ _ Hj)) as (_ & Ej & _). change (B2R (fdiv (e zi) s) <= B2R (fdiv (e zj) s)). rewrite Ei, Ej. apply rnd_le. apply Rmult_le_compat_r; [left; now apply Rinv_0_lt_compat|exact L].
  - apply max_idx_spec; [|intros v I; apply (R v I)]. unfold softmax. destruct row; [congruence|discriminate].
Qed.
Print Assumptions C249_softmax_partial.

(* and the outputs of n classes sum to 1 up to the rounding of n additions and one division *)
Theorem C249_sum_partial : forall (e : f64 -> f64) (row : list f64), (forall z, In z row -> is_finite (e z) = true /\ 0 <= B2R (e z)) -> is_finite (fsum (map e row)) = true -> 0 < B2R (fsum (map e row)) ->
  let n := length row in let u := bpow radix2 (-53) in
  (1 - u) / (1 + u) ^ n - INR n * bpow radix2 (-1075) <= fold_right (fun p s => B2R p + s) 0 (softmax e row) <= (1 + u) / (1 - u) ^ n + INR n * bpow radix2 (-1075).
Proof.
  intros e row H FS PS n u. assert (N : Forall nn (map e row)) by (apply Forall_forall; intros v I; apply in_map_iff in I as (z & <- & I); apply nn_fin; apply (H z I)).
  pose proof (fsum_mono _ N f0 nn_0 FS) as (_ & _ & M). fold (fsum (map e row)) in M.
  pose proof (fsum_bounds (map e row) N f0 0 0%nat nn_0 (Rle_refl 0)) as B. cbn [pow Nat.add] in B. rewrite !Rmult_1_l, map_length, Rplus_0_l in B. fold (fsum (map e row)) n u in B.
  assert (Hb := B (conj (Rle_refl 0) (Rle_refl 0)) FS). clear B. pose proof (probs_bounds (map e row) (fsum (map e row)) N M PS) as P. fold u in P. rewrite map_length in P. fold n in P.
  change (fold_right (fun p s => B2R p + s) 0 (softmax e row)) with (rsum (map (fun v => fdiv v (fsum (map e row))) (map e row))).
  pose proof (rsum_nonneg _ N) as Z. pose proof u_small as U. fold u in U. set (s := B2R (fsum (map e row))) in *. set (S := rsum (map e row)) in *. set (K := INR n * bpow radix2 (-1075)) in *. clearbody u s S K.
  assert (P1 : 0 < (1 - u) ^ n) by (apply pow_lt; lra). assert (P2 : 0 < (1 + u) ^ n) by (apply pow_lt; lra).
  assert (L1 : / (1 + u) ^ n <= S / s).
  { apply Rmult_le_reg_r with ((1 + u) ^ n * s); [apply Rmult_lt_0_compat; assumption|]. replace (/ (1 + u) ^ n * ((1 + u) ^ n * s)) with s by (field; lra). replace (S / s * ((1 + u) ^ n * s)) with ((1 + u) ^ n * S) by (field; lra). lra. }
  assert (L2 : S / s <= / (1 - u) ^ n).
  { apply Rmult_le_reg_r with ((1 - u) ^ n * s); [apply Rmult_lt_0_compat; assumption|]. replace (/ (1 - u) ^ n * ((1 - u) ^ n * s)) with s by (field; lra). replace (S / s * ((1 - u) ^ n * s)) with ((1 - u) ^ n * S) by (field; lra). lra. }
  split.
  - apply Rle_trans with ((1 - u) * (S / s) - K); [|apply P]. unfold Rdiv at 1. apply Rplus_le_compat_r, Rmult_le_compat_l; [lra|exact L1].
  - apply Rle_trans with ((1 + u) * (S / s) + K); [apply P|]. unfold Rdiv at 2. apply Rplus_le_compat_r, Rmult_le_compat_l; [lra|exact L2].
Qed.
Print Assumptions C249_sum_partial.

(* an exponential that overflows: its class gets NaN and MaxIdx64 chooses class 0, whichever class that was *)
Theorem C249_overflow_refuted : forall (e : f64 -> f64) (row : list f64) k z, nth_error row k = Some z -> e z = B754_infinity false -> (forall x, In x row -> fle f0 (e x) = true) ->
  nth_error (softmax e row) k = Some B754_nan /\ max_idx (softmax e row) = 0%nat.
Proof.
  intros e row k z Hk Ez H. assert (N : Forall nn (map e row)) by (apply Forall_forall; intros v I; apply in_map_iff in I as (x & <- & I); apply fle0_nn, H, I).
  assert (I : In (B754_infinity false) (map e row)) by (rewrite <- Ez; apply in_map, (nth_error_In _ _ Hk)). unfold softmax. unfold fsum at 1 2. rewrite (fsum_inf _ N I f0 nn_0). split.
  - rewrite map_map, (map_nth_error _ _ _ Hk), Ez. reflexivity.
  - unfold max_idx. assert (F : forall v, In v (map (fun v => fdiv v (B754_infinity false)) (map e row)) -> flat v).
    { intros v J. apply in_map_iff in J as (w & <- & J). apply div_inf. now apply (proj1 (Forall_forall _ _) N). }
    apply max_go_flat; [|exact F]. destruct row as [|x row]; [left; exists false; reflexivity|]. apply F. left. reflexivity.
Qed.
Print Assumptions C249_overflow_refuted.

(* when all exponentials are 0 every output is NaN *)
Theorem C249_underflow_refuted : forall (e : f64 -> f64) (row : list f64), (forall x, In x row -> e x = B754_zero false) -> forall p, In p (softmax e row) -> p = B754_nan.
Proof.
  intros e row H p I. unfold softmax in I. apply in_map_iff in I as (v & <- & I). apply in_map_iff in I as (z & <- & I). rewrite (H z I).
  replace (fsum (map e row)) with (B754_zero false : f64); [reflexivity|]. clear z I. unfold fsum. change f0 with (B754_zero false : f64). revert H. induction row as [|x row IH]; intros H; [reflexivity|]. cbn [map fold_left]. rewrite (H x (or_introl eq_refl)). exact (IH (fun y J => H y (or_intror J))).
Qed.
Print Assumptions C249_underflow_refuted.

(* six equal scores: the probabilities do not add up to 1 *)
Theorem C249_sum_refuted : forall e : f64 -> f64, e f0 = f1 -> feq (fsum (softmax e (repeat f0 6))) f1 = false.
Proof. intros e E. unfold softmax. cbn [repeat map]. rewrite E. vm_compute. reflexivity. Qed.
Print Assumptions C249_sum_refuted.

(* the logistic output is a finite number in [0, 1] for every score and every exponential that returns numbers >= 0 or +Inf *)
Theorem C249_logistic : forall (e : f64 -> f64) z, fle f0 (e (fneg z)) = true -> is_finite (logistic e z) = true /\ 0 <= B2R (logistic e z) <= 1.
Proof. intros e z H. apply fle0_nn in H. exact (logistic_01 _ H). Qed.
Print Assumptions C249_logistic.
(* the class predicted from finite outputs: 1 for a single output above one half and 0 otherwise; of several outputs one that no other exceeds,
   and only that one *)
Theorem C249_logits_partial : forall row : list f64, row <> [] -> (forall v, In v row -> is_finite v = true) ->
  length (to_logits row) = length row /\
  (forall v, row = [v] -> (/ 2 < B2R v -> to_logits row = [f1]) /\ (B2R v <= / 2 -> to_logits row = [f0])) /\
  ((2 <= length row)%nat -> exists k w, nth_error row k = Some w /\ (forall v, In v row -> B2R v <= B2R w) /\
     forall c, (c < length row)%nat -> nth_error (to_logits row) c = Some (if Nat.eqb c k then f1 else f0)).
Proof.
  intros row N F. split; [destruct row as [|v [|v' r]]; [congruence|reflexivity|unfold to_logits; now rewrite map_length, seq_length]|]. split.
  - intros v ->. pose proof (F v (or_introl eq_refl)) as Fv. destruct half_val as [HV HF].
    unfold to_logits. split; intros H; destruct (flt (fdiv f1 (fint 2)) v) eqn:E; try reflexivity; exfalso.
    + apply Bool.not_true_iff_false in E. apply E. apply flt_val; [exact HF|exact Fv|]. now rewrite HV.
    + apply flt_val in E; [|exact HF|exact Fv]. rewrite HV in E. lra.
  - intros L. destruct (max_idx_spec row N F) as (w & W & M). exists (max_idx row), w. split; [exact W|]. split; [exact M|]. intros c H. unfold to_logits. destruct row as [|v [|v' r]]; [cbn in L; lia|cbn in L; lia|].
    rewrite nth_error_map. rewrite (nth_error_nth' _ 0%nat) by (now rewrite seq_length). rewrite seq_nth by exact H. reflexivity.
Qed.
Print Assumptions C249_logits_partial.
Example C249_example :
  let e x := if flt (fint 9) x then B754_infinity false else fadd (fabs x) f1 in
  max_idx (softmax e [fint 1; fint 2; fint 0]) = 1%nat /\
  forallb (fun p => feq (fst p) (snd p)) (combine (softmax e [fint 1; fint 0; fint 0]) [fdiv f1 (fint 2); fdiv f1 (fint 4); fdiv f1 (fint 4)]) = true /\
  max_idx (softmax e [fint 1; fint 2; fint 800]) = 0%nat /\ map is_nan (softmax e [fint 1; fint 2; fint 800]) = [false; false; true] /\
  feq (logistic e (fint 800)) (fdiv f1 (fint 802)) = true /\ feq (logistic e (fint (-800))) f0 = true.
Proof. vm_compute. repeat split. Qed.

(* C250: for targets 0 and 1 and outputs that are not NaN (infinite ones included), with a logarithm that is finite and <= 0 on (0, 1), both
   log losses are numbers >= 0 (+Inf at worst), and the loss of one sample is minus the logarithm of the clipped probability of its class *)
Theorem C250_log_partial : forall (ln : f64 -> f64) rows (l : list (f64 * f64)), log_ok ln -> (forall y h, In (y, h) l -> (feq y f0 = true \/ feq y f1 = true) /\ is_nan h = false) -> (0 < rows)%nat -> (Z.of_nat rows <= 2 ^ 53)%Z ->
  fle f0 (log_loss ln rows l) = true.
Proof.
  intros ln rows l L H P B. apply nn_fle. unfold log_loss. destruct (fint_val (Z.of_nat rows)) as (V & F & _); [lia|]. apply div_nn; [|exact F|rewrite V; apply IZR_lt; lia].
  apply (fold_terms (fun p => fmul (fneg (fst p)) (ln (clip (snd p)))) (fun p => feq (fst p) f0)); [|exact nn_0]. intros [y h] I _. cbn [fst snd]. destruct (H y h I) as [Y N]. destruct (log_term ln y h L Y N) as [A E].
  apply nn_fin; [exact A|]. rewrite E. destruct (clip_in h N) as [Fc Hc]. destruct (L _ Fc Hc) as [_ G]. destruct (y01 y Y) as [_ [-> | ->]]; lra.
Qed.
Print Assumptions C250_log_partial.
Theorem C250_bin_partial : forall (ln ln1 : f64 -> f64) rows (l : list (f64 * f64)), log_ok ln -> log1p_ok ln1 -> (forall y h, In (y, h) l -> (feq y f0 = true \/ feq y f1 = true) /\ is_nan h = false) -> (0 < rows)%nat -> (Z.of_nat rows <= 2 ^ 53)%Z ->
  fle f0 (bin_loss ln ln1 rows l) = true /\
  forall y h, In (y, h) l -> B2R (bin_term ln ln1 (y, h)) = (if feq y f0 then - B2R (ln1 (fneg (clip h))) else - B2R (ln (clip h))).
Proof.
  intros ln ln1 rows l L L1 H P B. split.
  - apply nn_fle. unfold bin_loss. destruct (fint_val (Z.of_nat rows)) as (V & F & _); [lia|]. apply div_nn; [|exact F|rewrite V; apply IZR_lt; lia].
    apply (fold_terms (bin_term ln ln1) (fun _ => false)); [|exact nn_0]. intros [y h] I _. destruct (H y h I) as [Y N]. destruct (bin_term_val ln ln1 y h L L1 Y N) as [A E].
    apply nn_fin; [exact A|]. eapply Rle_trans; [|apply Req_le; symmetry; exact E]. destruct (clip_in h N) as [Fc Hc]. destruct (L _ Fc Hc) as [_ G]. destruct (L1 _ Fc Hc) as [_ G1]. destruct (feq y f0); lra.
  - intros y h I. destruct (H y h I) as [Y N]. apply (bin_term_val ln ln1 y h L L1 Y N).
Qed.
Print Assumptions C250_bin_partial.

(* an output between 0 and 1 enters the losses as it is; any other finite output as the nearest number between 0 and 1 *)
Theorem C250_clip_partial : forall (ln ln1 : f64 -> f64) (y h : f64), log_ok ln -> log1p_ok ln1 -> feq y f0 = true \/ feq y f1 = true -> is_finite h = true -> exists c : f64,
  is_finite c = true /\ 0 < B2R c < 1 /\ (forall g : f64, is_finite g = true -> 0 < B2R g < 1 -> Rabs (B2R c - B2R h) <= Rabs (B2R g - B2R h)) /\
  B2R (bin_term ln ln1 (y, h)) = (if feq y f0 then - B2R (ln1 (fneg c)) else - B2R (ln c)) /\ (feq y f1 = true -> feq (log_loss ln 1 [(y, h)]) (fneg (ln c)) = true).
Proof.
  intros ln ln1 y h L L1 Y F. assert (N : is_nan h = false) by (destruct h; try reflexivity; discriminate F). destruct (clip_in h N) as [Fc Hc]. exists (clip h). split; [exact Fc|]. split; [exact Hc|]. split; [|split].
  - intros g Fg Hg. destruct (inside g Fg Hg) as [A B]. destruct (Rle_or_lt (B2R h) 0) as [C|C]; [rewrite (clip_low h F C) in *; rewrite !Rabs_pos_eq by lra; lra|].
    destruct (Rle_or_lt 1 (B2R h)) as [D|D]; [rewrite (clip_high h F D) in *; rewrite !Rabs_left1 by lra; lra|]. rewrite (clip_id h F (conj C D)), Rminus_diag_eq, Rabs_R0 by reflexivity. apply Rabs_pos.
  - apply (bin_term_val ln ln1 y h L L1 Y N).
  - intros Y1. destruct (log_term ln y h L Y N) as [A E]. destruct f1_val as [V1 F1]. assert (Fy : is_finite y = true) by apply (y01 y Y). assert (Vy : B2R y = 1) by (rewrite <- V1; now apply feq_val).
    assert (Z : feq y f0 = false). { destruct (feq y f0) eqn:Q; [|reflexivity]. apply feq_val in Q; [|exact Fy|reflexivity]. change (B2R f0) with 0 in Q. lra. }
    unfold log_loss. cbn [fold_left fst snd]. rewrite Z. rewrite Vy in E. destruct (fneg_val (ln (clip h))) as [Vn Fn]. destruct (L _ Fc Hc) as [Fl _]. rewrite Fl in Fn.
    set (t := fmul (fneg y) (ln (clip h))) in *. assert (Et : B2R t = B2R (fneg (ln (clip h)))) by (rewrite E, Vn; ring). pose proof (val_big _ Fn) as Bg. assert (R : forall z, z = B2R (fneg (ln (clip h))) -> rnd z = z) by (intros z ->; apply rnd_fmt, fmt_val).
    destruct (fadd_val f0 t eq_refl A) as [Va Fa]; [change (B2R f0) with 0; rewrite Rplus_0_l, R, Et by exact Et; exact Bg|]. change (B2R f0) with 0 in Va. rewrite Rplus_0_l, R in Va by exact Et.
    change (fint (Z.of_nat 1)) with f1. assert (Dv : B2R (fadd f0 t) / B2R f1 = B2R (fneg (ln (clip h)))) by (rewrite V1, Va, Et; field).
    destruct (fdiv_val (fadd f0 t) f1 Fa) as [Vd Fd]; [lra|rewrite R, Dv by exact Dv; exact Bg|]. rewrite R in Vd by exact Dv. apply feq_val; [exact Fd|exact Fn|]. rewrite Vd. exact Dv.
Qed.
Print Assumptions C250_clip_partial.

(* one NaN output of a class that is present makes the whole loss NaN, whatever the other samples *)
Theorem C250_nan_refuted : forall (ln ln1 : f64 -> f64) rows (l : list (f64 * f64)) (y : f64), ln B754_nan = B754_nan -> In (y, B754_nan) l -> (feq y f0 = false -> log_loss ln rows l = B754_nan) /\ bin_loss ln ln1 rows l = B754_nan.
Proof.
  intros ln ln1 rows l y E I. split.
  - intros Y. unfold log_loss. rewrite (fold_nan_in (fun p => fmul (fneg (fst p)) (ln (clip (snd p)))) (fun p => feq (fst p) f0) l (y, B754_nan) I Y); [now destruct (fint (Z.of_nat rows))|]. cbn [fst snd]. rewrite clip_nan, E. destruct y as [[]|[]| |[]]; reflexivity.
  - unfold bin_loss. rewrite (fold_nan_in (bin_term ln ln1) (fun _ => false) l (y, B754_nan) I eq_refl); [now destruct (fint (Z.of_nat rows))|]. unfold bin_term. cbn [fst snd]. rewrite clip_nan, E.
    replace (fmul (fneg y) B754_nan) with (B754_nan : f64) by (destruct y as [[]|[]| |[]]; reflexivity). destruct (fmul _ (ln1 _)) as [[]|[]| |[]]; reflexivity.
Qed.
Print Assumptions C250_nan_refuted.
Example C250_example :
  let ln h := if is_nan h then h else if flt h (fdiv f1 (fint 2)) then fint (-700) else fint (-1) in
  feq (log_loss ln 2 [(f1, f0); (f0, f1); (f0, f0); (f1, f1)]) (fdiv (fint 701) (fint 2)) = true /\
  feq (bin_loss ln (fun h => fint (-3)) 1 [(f1, B754_infinity false); (f0, f1)]) (fint 4) = true /\
  is_nan (bin_loss ln (fun h => fint (-3)) 1 [(f1, f1); (f0, B754_nan)]) = true.
Proof. vm_compute. repeat split. Qed.
