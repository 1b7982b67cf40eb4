(* Proofs about StatModel (C220) *)
From Coq Require Import Reals List Lra Lia.
Import ListNotations.
From Verif Require Import StatModel.
Local Open Scope R_scope.

(* sums of squared deviations *)
Definition ssd (l : list R) : R := rsum (map (fun x => (x - mean l) * (x - mean l)) l).
Lemma rsum_nonneg l : (forall x, In x l -> 0 <= x) -> 0 <= rsum l.
Proof. induction l as [|a l IH]; intros H; [cbn; lra|]. change (rsum (a :: l)) with (a + rsum l). assert (0 <= a) by (apply H; now left). assert (0 <= rsum l) by (apply IH; intros x Hx; apply H; now right). lra. Qed.
Lemma ssd_nonneg l : 0 <= ssd l.
Proof. apply rsum_nonneg. intros x Hx. apply in_map_iff in Hx. destruct Hx as (y & <- & _). apply Rle_0_sqr. Qed.
Lemma rsum_zero l : (forall x, In x l -> 0 <= x) -> rsum l = 0 -> forall x, In x l -> x = 0.
Proof.
  induction l as [|a l IH]; intros H E x Hx; [destruct Hx|]. change (rsum (a :: l)) with (a + rsum l) in E. assert (0 <= a) by (apply H; now left). assert (H1 : forall x, In x l -> 0 <= x) by (intros y Hy; apply H; now right). pose proof (rsum_nonneg l H1). destruct Hx as [<-|Hx]; [lra|]. apply IH; auto. lra.
Qed.
Lemma ssd_zero l : ssd l = 0 -> forall x, In x l -> x = mean l.
Proof.
  intros E x Hx. assert ((x - mean l) * (x - mean l) = 0). { apply (rsum_zero _) with (2 := E); [|now apply (in_map (fun x => (x - mean l) * (x - mean l)))]. intros y Hy. apply in_map_iff in Hy. destruct Hy as (z & <- & _). apply Rle_0_sqr. }
  destruct (Rmult_integral _ _ H); lra.
Qed.
Lemma ssd_pos l x y : In x l -> In y l -> x <> y -> 0 < ssd l.
Proof. intros Hx Hy D. destruct (Rle_lt_or_eq_dec 0 (ssd l) (ssd_nonneg l)) as [H|H]; [exact H|]. exfalso. apply D. rewrite (ssd_zero l (eq_sym H) x Hx), (ssd_zero l (eq_sym H) y Hy). reflexivity. Qed.
Lemma spread_length (l : list R) x y : In x l -> In y l -> x <> y -> (2 <= length l)%nat.
Proof. destruct l as [|a [|b l]]; cbn; try tauto; [|lia]. intros [<-|[]] [<-|[]] H. now elim H. Qed.
(* m (n-1)^2 = n^2 (m-1) has no solution with m > 1 *)
Lemma no_fraction (m n : Z) : (1 < m -> 0 < n -> m * ((n - 1) * (n - 1)) = n * n * (m - 1) -> False)%Z.
Proof. intros Hm Hn E. assert (E2 : (n * n = m * (2 * n - 1))%Z) by lia.
  (* n divides m (2n-1), hence m: m = n k; then n = k (2n - 1), so k <= 0 or n = 1 *)
  assert (D : (n | m * (2 * n - 1))%Z) by (exists n; lia). assert (D2 : (n | m)%Z).
  { apply (Znumtheory.Gauss n (2 * n - 1) m); [rewrite Z.mul_comm; exact D|]. apply Znumtheory.bezout_rel_prime. apply Znumtheory.Bezout_intro with (u := 2%Z) (v := (-1)%Z). lia. }
  destruct D2 as (k & ->). assert (E3 : (n = k * (2 * n - 1))%Z) by (apply (Z.mul_reg_r _ _ n); lia). assert (1 <= k)%Z by nia. assert (n = 1)%Z by nia. subst n. lia.
Qed.
Lemma sqrt_scale a b : 0 <= a -> 0 <= b -> sqrt (a * (b * b)) = sqrt a * b.
Proof. intros Ha Hb. rewrite sqrt_mult by nra. now rewrite sqrt_square. Qed.
