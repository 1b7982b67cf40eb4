(* Property C261: Normalizer in binary64 arithmetic *)
From Coq Require Import Reals ZArith List Bool Lia Lra.
From Flocq Require Import Core.Core IEEE754.BinarySingleNaN.
From Verif Require Import FloatModel FloatProofs FloatRegProofs FloatAffineProofs FloatNormModel FloatNormProofs.
Import ListNotations.
Local Open Scope R_scope.

(* Norm "max" and "l1": when the norm is between 2^-1022 and 2^1022 all elements become numbers in [-1, 1] with the signs and in the order they had *)
Theorem C261_range_partial : forall (l1 : bool) (row : list f64), Forall (fun v => is_finite v = true) row -> let n := if l1 then nz_l1 row else nz_max row in
  is_finite n = true -> bpow radix2 (-1022) <= B2R n <= bpow radix2 1022 -> length (nz_transform l1 row) = length row /\
  (forall i x p, nth_error row i = Some x -> nth_error (nz_transform l1 row) i = Some p -> is_finite p = true /\ Rabs (B2R p) <= 1 /\ (0 <= B2R x -> 0 <= B2R p) /\ (B2R x <= 0 -> B2R p <= 0)) /\
  (forall i j x y p q, nth_error row i = Some x -> nth_error row j = Some y -> nth_error (nz_transform l1 row) i = Some p -> nth_error (nz_transform l1 row) j = Some q -> fle x y = true -> fle p q = true).
Proof.
  intros l1 row F n Fn B. pose proof (bpow_gt_0 radix2 (-1022)) as T. assert (Z : feq n f0 = false). { destruct (feq n f0) eqn:E; [|reflexivity]. apply feq_val in E; [|exact Fn|reflexivity]. change (B2R f0) with 0 in E. lra. }
  assert (M : forall x, In x row -> Rabs (B2R x) <= B2R n). { intros x I. unfold n. destruct l1; [now apply nz_l1_spec|]. destruct (nz_max_spec row F f0 eq_refl) as (_ & _ & C & _). now apply C. }
  unfold nz_transform, nz_scale. fold n. rewrite Z. split; [apply map_length|]. split.
  - intros i x p Hx Hp. rewrite (map_nth_error _ _ _ Hx) in Hp. injection Hp as <-. apply nth_error_In in Hx. pose proof (proj1 (Forall_forall _ _) F x Hx) as Fx. destruct (recip_mul x n Fx Fn B (M x Hx)) as (A1 & A2 & _ & A3 & A4 & _). auto.
  - intros i j x y p q Hx Hy Hp Hq L. rewrite (map_nth_error _ _ _ Hx) in Hp. rewrite (map_nth_error _ _ _ Hy) in Hq. injection Hp as <-. injection Hq as <-. apply nth_error_In in Hx. pose proof (proj1 (Forall_forall _ _) F x Hx) as Fx.
    destruct (recip_mul x n Fx Fn B (M x Hx)) as (_ & _ & _ & _ & _ & P). exact (mono_mul _ P x y L).
Qed.
Print Assumptions C261_range_partial.
(* with "max" an element of the greatest magnitude comes within 2^-53 of 1 or -1 *)
Theorem C261_unit_partial : forall row, Forall (fun v => is_finite v = true) row -> bpow radix2 (-1022) <= B2R (nz_max row) <= bpow radix2 1022 ->
  exists p, In p (nz_transform false row) /\ 1 - bpow radix2 (-53) <= Rabs (B2R p) <= 1.
Proof.
  intros row F B. pose proof (bpow_gt_0 radix2 (-1022)) as T. destruct (nz_max_spec row F f0 eq_refl) as (Fn & _ & C & D). fold (nz_max row) in Fn, C, D. change (B2R f0) with 0 in D. destruct D as [D|(x & I & E)]; [lra|].
  assert (Z : feq (nz_max row) f0 = false). { destruct (feq (nz_max row) f0) eqn:Q; [|reflexivity]. apply feq_val in Q; [|exact Fn|reflexivity]. change (B2R f0) with 0 in Q. lra. }
  destruct (recip_mul x (nz_max row) (proj1 (Forall_forall _ _) F x I) Fn B (C x I)) as (_ & A & U & _). exists (fmul x (fdiv f1 (nz_max row))). split; [unfold nz_transform, nz_scale; rewrite Z; exact (in_map (fun v => fmul v (fdiv f1 (nz_max row))) row x I)|]. split; [now apply U|exact A].
Qed.
Print Assumptions C261_unit_partial.
(* a row of zeros is left as it is *)
Theorem C261_zero : forall (l1 : bool) (row : list f64), Forall (fun v => is_finite v = true /\ B2R v = 0) row -> nz_transform l1 row = row.
Proof.
  intros l1 row H. unfold nz_transform, nz_scale. assert (E : feq (if l1 then nz_l1 row else nz_max row) f0 = true); [|now rewrite E].
  destruct l1.
  - unfold nz_l1, fsum. assert (G : forall a, is_finite a = true -> B2R a = 0 -> is_finite (fold_left fadd (map fabs row) a) = true /\ B2R (fold_left fadd (map fabs row) a) = 0).
    { induction H as [|v l [F V] H IH]; intros a Fa Va; cbn [map fold_left]; [auto|]. destruct (fabs_val' v) as [Vv Fv]. rewrite F in Fv. rewrite V, Rabs_R0 in Vv. assert (S : rnd (B2R a + B2R (fabs v)) = 0) by (rewrite Va, Vv, Rplus_0_l; apply rnd_0).
      destruct (fadd_val a (fabs v) Fa Fv) as [Vs Fs]; [rewrite S, Rabs_R0; apply bpow_gt_0|]. apply IH; [exact Fs|]. etransitivity; [exact Vs|exact S]. }
    destruct (G f0 eq_refl eq_refl) as [A B]. apply feq_val; [exact A|reflexivity|exact B].
  - assert (F : Forall (fun v => is_finite v = true) row) by (apply Forall_forall; intros v I; apply (proj1 (Forall_forall _ _) H v I)). destruct (nz_max_spec row F f0 eq_refl) as (A & _ & _ & [D|(v & I & D)]); apply feq_val; try exact A; try reflexivity; [exact D|].
    destruct (proj1 (Forall_forall _ _) H v I) as [_ V]. rewrite V, Rabs_R0 in D. symmetry. exact D.
Qed.
Print Assumptions C261_zero.
(* the greatest element need not become 1; one above 2^1022 can become greater than 1; a row with a tiny norm becomes infinite and NaN *)
Theorem C261_unit_refuted : exists x, is_finite x = true /\ forall p, In p (nz_transform false [x]) -> flt p f1 = true.
Proof. exists (fint 49). split; [reflexivity|]. intros p [<-|[]]. vm_compute. reflexivity. Qed.
Print Assumptions C261_unit_refuted.
Theorem C261_large_refuted : exists x, is_finite x = true /\ forall p, In p (nz_transform false [x]) -> flt f1 p = true.
Proof. exists (fint (136 * 2 ^ 1016)). split; [vm_compute; reflexivity|]. intros p. unfold nz_transform, nz_scale. replace (feq _ f0) with false by (vm_compute; reflexivity). intros [<-|[]]. vm_compute. reflexivity. Qed.
Print Assumptions C261_large_refuted.
Theorem C261_tiny_refuted : exists x, is_finite x = true /\ flt f0 x = true /\ exists p q, nz_transform false [x; f0] = [p; q] /\ is_finite p = false /\ is_nan q = true.
Proof.
  exists (Bsucc f0). split; [reflexivity|]. split; [vm_compute; reflexivity|]. unfold nz_transform, nz_scale. replace (feq _ f0) with false by (vm_compute; reflexivity).
  eexists; eexists. split; [reflexivity|]. split; vm_compute; reflexivity.
Qed.
Print Assumptions C261_tiny_refuted.
Example C261_example : map B2SF (nz_transform false [fint 4; fint (-8); f0; fint 2]) = map B2SF [fdiv f1 (fint 2); fint (-1); f0; fdiv f1 (fint 4)] /\
  map B2SF (nz_transform true [fint 1; fint (-2); fint 1]) = map B2SF [fdiv f1 (fint 4); fdiv (fint (-1)) (fint 2); fdiv f1 (fint 4)].
Proof. vm_compute. split; reflexivity. Qed.
