(* Lemmas about PowerModel *)
From Coq Require Import Reals Lra List Arith Bool.
From Verif Require Import MtModel MtProofs PowerModel.
Import ListNotations.
Open Scope R_scope.

Lemma gpow_pos b e : 0 < b -> gpow b e = Some (Rpower b e).
Proof. intros H. unfold gpow. destruct (rltb_spec 0 b); [reflexivity|lra]. Qed.
Lemma Rpower_pos a e : 0 < Rpower a e.
Proof. apply exp_pos. Qed.
Lemma Rpower_inv b e : 0 < b -> e <> 0 -> Rpower (Rpower b e) (1 / e) = b.
Proof. intros Hb He. rewrite Rpower_mult. replace (e * (1 / e)) with 1 by (field; exact He). now apply Rpower_1. Qed.
Lemma Rpower_base_lt a b e : 0 < a -> a < b -> 0 < e -> Rpower a e < Rpower b e.
Proof. intros Ha Hb He. unfold Rpower. apply exp_increasing. apply Rmult_lt_compat_l; [exact He|]. now apply ln_increasing. Qed.
Lemma Rpower_base_gt a b e : 0 < a -> a < b -> e < 0 -> Rpower b e < Rpower a e.
Proof. intros Ha Hb He. unfold Rpower. apply exp_increasing. pose proof (ln_increasing a b Ha Hb). nra. Qed.
Lemma Rpower_one e : Rpower 1 e = 1.
Proof. unfold Rpower. rewrite ln_1, Rmult_0_r. apply exp_0. Qed.

(* the quotient (b^e - 1)/e increases with b *)
Lemma quot_lt a b e : 0 < a -> a < b -> e <> 0 -> (Rpower a e - 1) / e < (Rpower b e - 1) / e.
Proof.
  intros Ha Hb He. destruct (Rtotal_order e 0) as [H|[H|H]]; [|contradiction|].
  - pose proof (Rpower_base_gt a b e Ha Hb H). assert (/ e < 0) by now apply Rinv_lt_0_compat. unfold Rdiv. nra.
  - pose proof (Rpower_base_lt a b e Ha Hb H). assert (0 < / e) by now apply Rinv_0_lt_compat. unfold Rdiv. nra.
Qed.
Lemma quot_nonneg b e : 1 <= b -> e <> 0 -> 0 <= (Rpower b e - 1) / e.
Proof.
  intros Hb He. destruct (Req_dec b 1) as [->|N]. { rewrite Rpower_one. unfold Rdiv. lra. }
  pose proof (quot_lt 1 b e ltac:(lra) ltac:(lra) He) as H. rewrite Rpower_one in H. unfold Rdiv in H at 1. lra.
Qed.

Definition yjr (l x : R) : R :=
  if rltb x 0 then (if reqb l 2 then - ln (1 - x) else - ((Rpower (1 - x) (2 - l) - 1) / (2 - l))) else (Rpower (1 + x) l - 1) / l.
Lemma yj_val l x : (x < 0 \/ l <> 0) -> yj l x = Some (yjr l x).
Proof.
  intros H. unfold yj, yjr, spacing. destruct (rltb_spec x 0) as [Hx|Hx].
  - destruct (reqb_spec l 2) as [->|N].
    + replace (2 - 2) with 0 by ring. rewrite Rabs_R0. destruct (rltb_spec (1 - 1) 0); [lra|reflexivity].
    + destruct (rltb_spec (1 - 1) (Rabs (l - 2))) as [_|G]; [|exfalso; apply G; replace (1 - 1) with 0 by ring; apply Rabs_pos_lt; lra].
      rewrite gpow_pos by lra. cbn [bind]. unfold gdiv. destruct (reqb_spec (2 - l) 0); [lra|]. replace (- x + 1) with (1 - x) by ring. f_equal. field. lra.
  - destruct (rltb_spec (Rabs l) (1 - 1)) as [G|_]; [pose proof (Rabs_pos l); lra|]. destruct H as [H|H]; [contradiction|].
    rewrite gpow_pos by lra. cbn [bind]. unfold gdiv. destruct (reqb_spec l 0); [contradiction|]. now replace (x + 1) with (1 + x) by ring.
Qed.
Lemma yjr_neg l x : x < 0 -> yjr l x < 0.
Proof.
  intros H. unfold yjr. destruct (rltb_spec x 0); [|lra]. destruct (reqb_spec l 2) as [->|N].
  - assert (0 < ln (1 - x)); [|lra]. rewrite <- ln_1. apply ln_increasing; lra.
  - pose proof (quot_lt 1 (1 - x) (2 - l) ltac:(lra) ltac:(lra) ltac:(lra)) as Q. rewrite Rpower_one in Q. unfold Rdiv in Q at 1. lra.
Qed.
Lemma yjr_nonneg l x : 0 <= x -> l <> 0 -> 0 <= yjr l x.
Proof. intros H N. unfold yjr. destruct (rltb_spec x 0); [lra|]. apply quot_nonneg; [lra|exact N]. Qed.

Lemma yj_round l x : (x < 0 \/ l <> 0) -> bind (yj l x) (yj_inv l) = Some x.
Proof.
  intros H. rewrite (yj_val l x H). cbn [bind]. unfold yj_inv, spacing. destruct (Rlt_le_dec x 0) as [Hx|Hx].
  - pose proof (yjr_neg l x Hx). destruct (rltb_spec (yjr l x) 0); [|lra]. unfold yjr. destruct (rltb_spec x 0); [|lra]. destruct (reqb_spec l 2) as [->|N].
    + replace (2 - 2) with 0 by ring. rewrite Rabs_R0. destruct (rltb_spec (1 - 1) 0); [lra|]. rewrite Ropp_involutive, exp_ln by lra. f_equal. ring.
    + destruct (rltb_spec (1 - 1) (Rabs (l - 2))) as [_|G]; [|exfalso; apply G; replace (1 - 1) with 0 by ring; apply Rabs_pos_lt; lra].
      replace (- (2 - l) * - ((Rpower (1 - x) (2 - l) - 1) / (2 - l)) + 1) with (Rpower (1 - x) (2 - l)) by (field; lra).
      rewrite gpow_pos by apply Rpower_pos. cbn [bind]. rewrite Rpower_inv by lra. f_equal. ring.
  - destruct H as [H|H]; [lra|]. pose proof (yjr_nonneg l x Hx H). destruct (rltb_spec (yjr l x) 0); [lra|].
    destruct (rltb_spec (Rabs l) (1 - 1)) as [G|_]; [pose proof (Rabs_pos l); lra|]. unfold yjr. destruct (rltb_spec x 0); [lra|].
    replace ((Rpower (1 + x) l - 1) / l * l + 1) with (Rpower (1 + x) l) by (field; exact H).
    rewrite gpow_pos by apply Rpower_pos. cbn [bind]. rewrite Rpower_inv by (try lra; exact H). f_equal. ring.
Qed.
Lemma gpow_neg b e : b < 0 -> gpow b e = None.
Proof. intros H. unfold gpow. destruct (rltb_spec 0 b); [lra|]. destruct (reqb_spec b 0); [lra|reflexivity]. Qed.
Lemma gpow_0 e : gpow 0 e = if rltb 0 e then Some 0 else None.
Proof. unfold gpow. destruct (rltb_spec 0 0); [lra|]. destruct (reqb_spec 0 0); [reflexivity|lra]. Qed.
Lemma Rpower_inv' b e : 0 < b -> e <> 0 -> Rpower (Rpower b (1 / e)) e = b.
Proof. intros Hb He. rewrite Rpower_mult. replace (1 / e * e) with 1 by (field; exact He). now apply Rpower_1. Qed.
Lemma Rpower_ge1 b e : 0 < b -> 0 <= (b - 1) / e -> e <> 0 -> 1 <= Rpower b (1 / e).
Proof.
  intros Hb H He. set (c := Rpower b (1 / e)). assert (Ec : Rpower c e = b) by now apply Rpower_inv'. assert (Hc : 0 < c) by apply Rpower_pos.
  destruct (Rlt_le_dec c 1) as [L|L]; [|exact L]. exfalso. pose proof (quot_lt c 1 e Hc L He) as Q. rewrite Ec, Rpower_one in Q. unfold Rdiv in Q at 2. lra.
Qed.
Lemma Rpower_gt1 b e : 0 < b -> 0 < (b - 1) / e -> e <> 0 -> 1 < Rpower b (1 / e).
Proof.
  intros Hb H He. pose proof (Rpower_ge1 b e Hb (Rlt_le _ _ H) He) as [G|G]; [exact G|]. exfalso.
  pose proof (Rpower_inv' b e Hb He) as E. rewrite <- G, Rpower_one in E. rewrite <- E in H. unfold Rdiv in H. lra.
Qed.
Lemma yj_back l y x : l <> 0 -> yj_inv l y = Some x -> yj l x = Some y.
Proof.
  intros N. unfold yj_inv, spacing. destruct (rltb_spec y 0) as [Hy|Hy].
  - destruct (Req_dec l 2) as [->|N2].
    + replace (2 - 2) with 0 by ring. rewrite Rabs_R0. destruct (rltb_spec (1 - 1) 0); [lra|]. intros E. injection E as <-.
      assert (1 < exp (- y)). { rewrite <- exp_0. apply exp_increasing. lra. }
      rewrite yj_val by (left; lra). f_equal. unfold yjr. destruct (rltb_spec (1 - exp (- y)) 0); [|lra]. destruct (reqb_spec 2 2); [|lra].
      replace (1 - (1 - exp (- y))) with (exp (- y)) by ring. rewrite ln_exp. ring.
    + destruct (rltb_spec (1 - 1) (Rabs (l - 2))) as [_|G]; [|exfalso; apply G; replace (1 - 1) with 0 by ring; apply Rabs_pos_lt; lra].
      set (b := - (2 - l) * y + 1). destruct (Rtotal_order b 0) as [B|[B|B]].
      * rewrite gpow_neg by exact B. discriminate.
      * rewrite B, gpow_0. destruct (rltb_spec 0 (1 / (2 - l))) as [L|L]; [|discriminate]. exfalso.
        assert (0 < 2 - l). { destruct (Rlt_le_dec 0 (2 - l)); [assumption|]. exfalso. assert (2 - l < 0) by lra. pose proof (Rinv_lt_0_compat (2 - l) ltac:(lra)). unfold Rdiv in L. lra. }
        unfold b in B. nra.
      * rewrite gpow_pos by exact B. cbn [bind]. intros E. injection E as <-.
        assert (Q : (b - 1) / (2 - l) = - y) by (unfold b; field; lra).
        assert (1 < Rpower b (1 / (2 - l))) by (apply Rpower_gt1; [exact B|lra|lra]).
        rewrite yj_val by (left; lra). f_equal. unfold yjr. destruct (rltb_spec (1 - Rpower b (1 / (2 - l))) 0); [|lra]. destruct (reqb_spec l 2); [contradiction|].
        replace (1 - (1 - Rpower b (1 / (2 - l)))) with (Rpower b (1 / (2 - l))) by ring. rewrite Rpower_inv' by (try lra; exact B). lra.
  - destruct (rltb_spec (Rabs l) (1 - 1)) as [G|_]; [pose proof (Rabs_pos l); lra|].
    set (b := y * l + 1). destruct (Rtotal_order b 0) as [B|[B|B]].
    + rewrite gpow_neg by exact B. discriminate.
    + rewrite B, gpow_0. destruct (rltb_spec 0 (1 / l)) as [L|L]; [|discriminate]. exfalso.
      assert (0 < l). { destruct (Rlt_le_dec 0 l); [assumption|]. exfalso. pose proof (Rinv_lt_0_compat l ltac:(lra)). unfold Rdiv in L. lra. }
      unfold b in B. nra.
    + rewrite gpow_pos by exact B. cbn [bind]. intros E. injection E as <-.
      assert (Q : (b - 1) / l = y) by (unfold b; field; exact N).
      assert (1 <= Rpower b (1 / l)) by (apply Rpower_ge1; [exact B|lra|exact N]).
      rewrite yj_val by now right. f_equal. unfold yjr. destruct (rltb_spec (Rpower b (1 / l) - 1) 0); [lra|].
      replace (1 + (Rpower b (1 / l) - 1)) with (Rpower b (1 / l)) by ring. rewrite Rpower_inv' by (try exact N; exact B). exact Q.
Qed.
Lemma yj_mono l x x' : l <> 0 -> x < x' -> exists y y', yj l x = Some y /\ yj l x' = Some y' /\ y < y'.
Proof.
  intros N H. exists (yjr l x), (yjr l x'). split; [now apply yj_val; right|]. split; [now apply yj_val; right|].
  destruct (Rlt_le_dec x 0) as [Hx|Hx], (Rlt_le_dec x' 0) as [Hx'|Hx'].
  - unfold yjr. destruct (rltb_spec x 0); [|lra]. destruct (rltb_spec x' 0); [|lra]. destruct (reqb_spec l 2) as [->|N2].
    + pose proof (ln_increasing (1 - x') (1 - x) ltac:(lra) ltac:(lra)). lra.
    + pose proof (quot_lt (1 - x') (1 - x) (2 - l) ltac:(lra) ltac:(lra) ltac:(lra)). lra.
  - pose proof (yjr_neg l x Hx). pose proof (yjr_nonneg l x' Hx' N). lra.
  - lra.
  - unfold yjr. destruct (rltb_spec x 0); [lra|]. destruct (rltb_spec x' 0); [lra|]. apply quot_lt; [lra|lra|exact N].
Qed.
Lemma yj_zero x : 0 <= x -> yj 0 x = None.
Proof.
  intros H. unfold yj, spacing. destruct (rltb_spec x 0); [lra|]. rewrite Rabs_R0. destruct (rltb_spec 0 (1 - 1)); [lra|].
  rewrite gpow_pos by lra. cbn [bind]. unfold gdiv. destruct (reqb_spec 0 0); [reflexivity|lra].
Qed.

Lemma bc_val l x : 0 < x -> bc l x = Some (if reqb l 0 then ln x else (Rpower x l - 1) / l).
Proof.
  intros H. unfold bc, bc_guard. destruct (rltb_spec 0 x); [|lra]. cbn [orb]. destruct (reqb_spec l 0) as [->|N]; [reflexivity|].
  rewrite gpow_pos by exact H. cbn [bind]. unfold gdiv. destruct (reqb_spec l 0); [contradiction|reflexivity].
Qed.
Lemma bc_above l x : 1 < x -> bind (bc l x) (bc_inv l) = Some x.
Proof.
  intros H. rewrite bc_val by lra. cbn [bind]. unfold bc_inv, bc_guard. destruct (reqb_spec l 0) as [->|N].
  - assert (0 < ln x) by (rewrite <- ln_1; apply ln_increasing; lra). destruct (rltb_spec 0 (ln x)); [|lra]. cbn [orb]. now rewrite exp_ln by lra.
  - pose proof (quot_lt 1 x l ltac:(lra) H N) as Q. rewrite Rpower_one in Q. unfold Rdiv in Q at 1. destruct (rltb_spec 0 ((Rpower x l - 1) / l)); [|lra]. cbn [orb].
    replace ((Rpower x l - 1) / l * l + 1) with (Rpower x l) by (field; exact N). rewrite gpow_pos by apply Rpower_pos. now rewrite Rpower_inv by (try lra; exact N).
Qed.
Lemma bc_below l x : 0 < x < 1 -> exists y, bc l x = Some y /\ bc_inv l y = None.
Proof.
  intros H. eexists. split; [apply bc_val; lra|]. unfold bc_inv, bc_guard. destruct (reqb_spec l 0) as [->|N].
  - pose proof (ln_increasing x 1 ltac:(lra) ltac:(lra)) as L. rewrite ln_1 in L. destruct (rltb_spec 0 (ln x)); [lra|]. destruct (rltb_spec (ln x) 0); [|lra]. reflexivity.
  - pose proof (quot_lt x 1 l ltac:(lra) ltac:(lra) N) as Q. rewrite Rpower_one in Q. unfold Rdiv in Q at 2.
    destruct (rltb_spec 0 ((Rpower x l - 1) / l)); [lra|]. destruct (rltb_spec ((Rpower x l - 1) / l) 0); [|lra]. reflexivity.
Qed.
Lemma std_round sc o : (forall mu s, sc = Some (mu, s) -> s <> 0) -> forall (g : R -> option R), bind (std sc o) (fun y => g (unstd sc y)) = bind o g.
Proof.
  intros H g. destruct sc as [[mu s]|]; [|reflexivity]. destruct o as [v|]; [|reflexivity]. cbn [std bind unstd]. f_equal. field. now apply (H mu).
Qed.
