(* Lemmas about FloatKnnModel *)
From Coq Require Import ZArith Reals List Bool Lia Lra Psatz Permutation.
From Flocq Require Import Core IEEE754.BinarySingleNaN.
From Verif Require Import FloatModel FloatProofs FloatDistProofs FloatRegProofs FloatScoreProofs FloatAffineProofs FloatNetProofs FloatKnnModel.
Import ListNotations.
Local Open Scope R_scope.

Lemma keps_val : finite keps = true /\ bpow radix2 (-50) <= val keps <= 1.
Proof.
  destruct f1_val as [V1 F1]. destruct (fint_val (10 ^ 15)) as (V & F & _); [vm_compute; discriminate|].
  assert (P : bpow radix2 (-50) <= 1 / IZR (10 ^ 15) <= 1).
  { assert (A : 1 <= IZR (10 ^ 15)) by (apply IZR_le; vm_compute; discriminate). assert (B : IZR (10 ^ 15) <= bpow radix2 50) by (change (bpow radix2 50) with (IZR (2 ^ 50)); apply IZR_le; vm_compute; discriminate).
    revert A B. generalize (IZR (10 ^ 15)). intros r A B. split; [change (-50)%Z with (- (50))%Z; rewrite bpow_opp; unfold Rdiv; rewrite Rmult_1_l; apply Rinv_le_contravar; lra|]. apply Rmult_le_reg_r with r; [lra|]. unfold Rdiv. rewrite Rmult_assoc, Rinv_l by lra. lra. }
  assert (Q : bpow radix2 (-50) <= rnd (1 / IZR (10 ^ 15)) <= 1).
  { split; [rewrite <- (rnd_fmt (bpow radix2 (-50))) by (apply generic_format_bpow; apply Zle_bool_imp_le; vm_compute; reflexivity)|apply Rle_trans with (rnd 1); [|rewrite (rnd_fmt 1 fmt_1); apply Rle_refl]]; apply rnd_le; apply P. }
  pose proof (bpow_gt_0 radix2 (-50)) as Z. destruct (fdiv_val f1 (fint (10 ^ 15)) F1) as [A B].
  - rewrite V. apply IZR_neq. vm_compute. discriminate.
  - rewrite V1, V. rewrite Rabs_pos_eq by lra. pose proof one_big. lra.
  - rewrite V1, V in A. unfold keps. rewrite A. auto.
Qed.
(* epsilon + d does not overflow *)
Lemma keps_add d : finite d = true -> 0 <= val d -> finite (fadd keps d) = true /\ val (fadd keps d) = rnd (val keps + val d) /\ bpow radix2 (-50) <= val (fadd keps d) <= big.
Proof.
  intros F P. destruct keps_val as [Fe [E1 E2]]. pose proof (bpow_gt_0 radix2 (-50)) as Z.
  assert (L : bpow radix2 (-50) <= rnd (val keps + val d)). { apply Rle_trans with (1 := E1). rewrite <- (rnd_fmt (val keps)) at 1 by apply fmt_val. apply rnd_le. lra. }
  assert (H : rnd (val keps + val d) < big).
  { destruct (Rle_or_lt (bpow radix2 1022) (val d)) as [D|D].
    - apply Rle_lt_trans with (val d); [|rewrite <- (Rabs_pos_eq (val d)) by exact P; now apply val_big]. unfold rnd. apply round_N_le_midp; [exact fx_valid|apply fmt_val|]. rewrite succ_eq_pos by exact P.
      assert (U : bpow radix2 970 <= ulp radix2 fx (val d)). { apply Rle_trans with (ulp radix2 fx (bpow radix2 1022)); [rewrite ulp_bpow; apply bpow_le; apply Zle_bool_imp_le; vm_compute; reflexivity|]. apply ulp_le_pos; [exact fx_valid|apply fexp_monotone|apply bpow_ge_0|exact D]. }
      assert (T : 2 < bpow radix2 970) by (change 2 with (bpow radix2 1); apply bpow_lt; reflexivity). lra.
    - apply Rle_lt_trans with (bpow radix2 1023); [|apply bpow_lt; reflexivity]. rewrite <- (rnd_fmt (bpow radix2 1023)) by (apply generic_format_bpow; apply Zle_bool_imp_le; vm_compute; reflexivity). apply rnd_le.
      replace (bpow radix2 1023) with (2 * bpow radix2 1022) by (change 1023%Z with (1 + 1022)%Z; rewrite bpow_plus; reflexivity). assert (T : 1 <= bpow radix2 1022) by (change 1 with (bpow radix2 0); apply bpow_le; discriminate). lra. }
  destruct (fadd_val keps d Fe F) as [A B]; [rewrite Rabs_pos_eq by lra; exact H|]. split; [exact B|]. split; [exact A|]. rewrite A. lra.
Qed.
Lemma kweight_fin d : finite d = true -> 0 <= val d -> finite (kweight d) = true /\ val (kweight d) = rnd (1 / rnd (val keps + val d)) /\ 0 < val (kweight d).
Proof.
  intros F P. destruct (keps_add d F P) as (Fs & Vs & L & H). destruct f1_val as [V1 F1]. pose proof (bpow_gt_0 radix2 (-50)) as Z. set (s := val (fadd keps d)) in *.
  assert (B1 : 1 / s <= bpow radix2 50). { unfold Rdiv. rewrite Rmult_1_l. replace (bpow radix2 50) with (/ bpow radix2 (-50)) by (rewrite <- bpow_opp; reflexivity). apply Rinv_le_contravar; lra. }
  assert (B2 : bpow radix2 (-1024) <= 1 / s). { unfold Rdiv. rewrite Rmult_1_l. change (-1024)%Z with (- (1024))%Z. rewrite bpow_opp. apply Rinv_le_contravar; lra. }
  pose proof (bpow_gt_0 radix2 (-1024)) as Z2.
  assert (B3 : bpow radix2 (-1024) <= rnd (1 / s)) by (rewrite <- (rnd_fmt (bpow radix2 (-1024))) by (apply generic_format_bpow; apply Zle_bool_imp_le; vm_compute; reflexivity); now apply rnd_le).
  assert (B4 : rnd (1 / s) <= bpow radix2 50) by (rewrite <- (rnd_fmt (bpow radix2 50)) by (apply generic_format_bpow; apply Zle_bool_imp_le; vm_compute; reflexivity); now apply rnd_le).
  destruct (fdiv_val f1 (fadd keps d) F1) as [A B]; fold s; [lra|rewrite V1, Rabs_pos_eq by lra; apply Rle_lt_trans with (1 := B4); apply bpow_lt; reflexivity|].
  rewrite V1 in A. fold s in A. unfold kweight. split; [exact B|]. rewrite A. split; [now rewrite <- Vs|lra].
Qed.
Lemma kweight_inf : kweight (B754_infinity false) = B754_zero false.
Proof. unfold kweight. destruct keps_val as [Fe _]. replace (fadd keps (B754_infinity false)) with (B754_infinity false : f64); [reflexivity|]. destruct keps as [s|s| |s m e B]; try discriminate Fe; reflexivity. Qed.
Lemma kweight_anti d d' : nn d -> fle d d' = true -> fle (kweight d') (kweight d) = true.
Proof.
  intros N L. destruct (finite d') eqn:F'.
  - destruct (finite d) eqn:F.
    + assert (P := nn_val _ N). apply fle_val in L; [|exact F|exact F']. destruct (kweight_fin d F P) as (A & B & _). destruct (kweight_fin d' F' ltac:(lra)) as (A' & B' & _). apply fle_val; [exact A'|exact A|]. rewrite B, B'.
      destruct (keps_add d F P) as (_ & Vs & Ls & _). rewrite Vs in Ls. pose proof (bpow_gt_0 radix2 (-50)) as Z. apply rnd_le. unfold Rdiv. rewrite !Rmult_1_l. apply Rinv_le_contravar; [lra|]. apply rnd_le. lra.
    + exfalso. destruct d as [s|s| |s m e B]; try discriminate F; [cbn in N; subst s|destruct N]. destruct d' as [[]|[]| |[] m e B]; try discriminate L; discriminate F'.
  - destruct (fle_nan _ _ L) as [_ N']. destruct d' as [s|[]| |s m e B]; try discriminate.
    + exfalso. destruct d as [[]|[]| |[] m e B]; try discriminate L. cbn in N. discriminate N.
    + rewrite kweight_inf. destruct (finite d) eqn:F; [|destruct d as [s|s| |s m e B]; try discriminate F; [cbn in N; subst s; rewrite kweight_inf; reflexivity|destruct N]]. destruct (kweight_fin d F (nn_val _ N)) as (A & _ & P). apply fle_val; [reflexivity|exact A|]. change (val (B754_zero false)) with 0. lra.
Qed.
Lemma kweight_nn d : nn d -> nn (kweight d).
Proof.
  intros N. destruct (finite d) eqn:F; [destruct (kweight_fin d F (nn_val _ N)) as (A & _ & P); apply nn_fin; [exact A|lra]|]. destruct d as [s|s| |s m e B]; try discriminate F; [cbn in N; subst s; rewrite kweight_inf; exact nn_0|destruct N].
Qed.

(* sums of weights *)
Definition total (yw : list (Z * f64)) (c : Z) : option f64 := match map snd (filter (fun e => Z.eqb (fst e) c) yw) with [] => None | w :: ws => Some (fold_left fadd ws w) end.
Fixpoint look (m : list (Z * f64)) (c : Z) : option f64 := match m with [] => None | (c', t) :: r => if Z.eqb c' c then Some t else look r c end.
Lemma look_add m c w c' : look (cw_add m c w) c' = if Z.eqb c c' then Some (match look m c with Some t => fadd t w | None => w end) else look m c'.
Proof.
  induction m as [|[a t] m IH]; cbn [cw_add look]; [destruct (Z.eqb c c'); reflexivity|]. destruct (Z.eqb_spec c a) as [->|N]; cbn [look].
  - rewrite Z.eqb_refl. destruct (Z.eqb a c'); reflexivity.
  - destruct (Z.eqb_spec a c) as [->|N2]; [congruence|]. rewrite IH. destruct (Z.eqb_spec a c') as [->|N3]; [destruct (Z.eqb_spec c c'); [congruence|reflexivity]|reflexivity].
Qed.
Lemma keys_add m c w : NoDup (map fst m) -> NoDup (map fst (cw_add m c w)) /\ forall x, In x (map fst (cw_add m c w)) -> x = c \/ In x (map fst m).
Proof.
  induction m as [|[a t] m IH]; cbn [cw_add map fst]; intros N; [split; [constructor; [easy|constructor]|intros x [<-|[]]; now left]|]. inversion N as [|? ? N1 N2]; subst. destruct (Z.eqb_spec c a) as [->|E]; cbn [map fst]; [split; [exact N|intros x I; now right]|].
  destruct (IH N2) as [A B]. split.
  - constructor; [|exact A]. intros I. destruct (B a I) as [->|J]; [congruence|contradiction].
  - intros x [<-|I]; [right; now left|]. destruct (B x I) as [->|J]; [now left|right; now right].
Qed.
Lemma classw_spec yw : NoDup (map fst (classw yw)) /\ forall c, look (classw yw) c = total yw c.
Proof.
  unfold classw. induction yw as [|[c w] yw IH] using rev_ind; [split; [constructor|reflexivity]|]. rewrite fold_left_app. cbn [fold_left fst snd]. destruct IH as [N L]. split; [now apply keys_add|]. intros c'. rewrite look_add, !L. unfold total. rewrite filter_app, map_app. cbn [filter fst].
  destruct (Z.eqb_spec c c') as [->|E]; [|cbn [map]; now rewrite app_nil_r]. cbn [map snd]. destruct (map snd (filter (fun e => Z.eqb (fst e) c') yw)) as [|v vs]; [reflexivity|]. cbn [app]. now rewrite fold_left_app.
Qed.
Lemma look_in m c t : NoDup (map fst m) -> In (c, t) m <-> look m c = Some t.
Proof.
  induction m as [|[a s] m IH]; cbn [look map fst]; intros N; [split; [intros []|discriminate]|]. inversion N as [|? ? N1 N2]; subst. destruct (Z.eqb_spec a c) as [->|E].
  - split; [intros [H|H]; [congruence|exfalso; apply N1; exact (in_map fst m (c, t) H)]|intros H; left; congruence].
  - rewrite <- (IH N2). split; [intros [H|H]; [congruence|exact H]|now right].
Qed.
Lemma nn_nan v : nn v -> is_nan v = false. Proof. destruct v; try reflexivity; intros []. Qed.
Lemma ev_nn v : nn v -> 0 <= ev v.
Proof. intros N. pose proof big_pos. destruct v as [s|s| |s m e B]; [cbn; lra|cbn in N; subst s; cbn; lra|destruct N|exact N]. Qed.
Lemma add_ge a b : nn a -> nn b -> ev a <= ev (fadd a b) /\ ev b <= ev (fadd a b).
Proof.
  intros Na Nb. pose proof big_pos as P. assert (I : forall v, nn v -> finite v = false -> v = B754_infinity false) by (intros [s|s| |s m e B] N F; try discriminate F; [now rewrite N|destruct N]).
  destruct (finite a) eqn:Fa; [destruct (finite b) eqn:Fb|].
  - destruct (fadd_ev a b Fa Fb) as [_ ->]. rewrite (ev_fin a Fa), (ev_fin b Fb). pose proof (nn_val _ Na) as A. pose proof (nn_val _ Nb) as B.
    assert (K : forall v, finite v = true -> 0 <= val v -> val v <= val a + val b -> val v <= clipR (rnd (val a + val b))).
    { intros v Fv Pv L. assert (C : val v <= rnd (val a + val b)) by (rewrite <- (rnd_fmt (val v)) at 1 by apply fmt_val; now apply rnd_le). pose proof (val_big v Fv) as Q. rewrite Rabs_pos_eq in Q by exact Pv. unfold clipR, Rmax, Rmin. repeat destruct (Rle_dec _ _); lra. }
    split; apply K; auto; lra.
  - rewrite (I b Nb Fb) in *. rewrite (proj1 (nn_inf_add a Na)). split; [apply ev_range|lra].
  - rewrite (I a Na Fa) in *. rewrite (proj2 (nn_inf_add b Nb)). split; [lra|apply ev_range].
Qed.
Lemma fold_ge l : Forall nn l -> forall a, nn a -> nn (fold_left fadd l a) /\ ev a <= ev (fold_left fadd l a) /\ forall v, In v l -> ev v <= ev (fold_left fadd l a).
Proof.
  induction 1 as [|v l Nv N IH]; intros a Na; cbn [fold_left]; [split; [exact Na|split; [lra|intros v []]]|]. destruct (IH _ (nn_add _ _ Na Nv)) as (A & B & C). destruct (add_ge a v Na Nv) as [D E]. split; [exact A|]. split; [lra|]. intros w [->|I]; [lra|now apply C].
Qed.
Lemma total_spec yw c t : (forall e, In e yw -> nn (snd e)) -> total yw c = Some t -> nn t /\ In c (map fst yw) /\ forall e, In e yw -> fst e = c -> ev (snd e) <= ev t.
Proof.
  intros H E. unfold total in E. assert (G : forall w, In w (map snd (filter (fun e => Z.eqb (fst e) c) yw)) -> nn w) by (intros w I; apply in_map_iff in I as (e & <- & I); apply filter_In in I as [I _]; now apply H).
  assert (K : forall e, In e yw -> fst e = c -> In (snd e) (map snd (filter (fun e => Z.eqb (fst e) c) yw))) by (intros e I Q; apply in_map, filter_In; split; [exact I|now apply Z.eqb_eq]).
  assert (J : forall w, In w (map snd (filter (fun e => Z.eqb (fst e) c) yw)) -> In c (map fst yw)) by (intros w I; apply in_map_iff in I as (e & _ & I); apply filter_In in I as [I Q]; apply Z.eqb_eq in Q; rewrite <- Q; now apply in_map).
  destruct (map snd (filter (fun e => Z.eqb (fst e) c) yw)) as [|w ws]; [discriminate|]. injection E as <-. assert (F : Forall nn ws) by (apply Forall_forall; intros v I; apply G; now right). destruct (fold_ge ws F w (G w (or_introl eq_refl))) as (A & B & C).
  split; [exact A|]. split; [apply (J w); now left|]. intros e I Q. destruct (K e I Q) as [<-|X]; [exact B|now apply C].
Qed.
Lemma total_some yw e : In e yw -> exists t, total yw (fst e) = Some t.
Proof.
  intros I. unfold total. assert (K : In (snd e) (map snd (filter (fun x => Z.eqb (fst x) (fst e)) yw))) by (apply in_map, filter_In; split; [exact I|apply Z.eqb_refl]). destruct (map snd _) as [|w ws]; [destruct K|]. eexists; reflexivity.
Qed.
Lemma flt_ev x y : nn x -> nn y -> flt x y = true <-> ev x < ev y.
Proof.
  intros Nx Ny. pose proof big_pos as P. destruct (finite x) eqn:Fx, (finite y) eqn:Fy.
  - rewrite (ev_fin _ Fx), (ev_fin _ Fy). now apply flt_val.
  - destruct y as [s|s| |s m e H]; try discriminate; [cbn in Ny; subst s|destruct Ny]. rewrite (ev_fin _ Fx). pose proof (val_big x Fx) as A. apply Rabs_lt_inv in A. cbn [ev]. split; [intros _; lra|]. intros _. destruct x as [[]|[]| |[] m e H]; try discriminate Fx; reflexivity.
  - destruct x as [s|s| |s m e H]; try discriminate; [cbn in Nx; subst s|destruct Nx]. rewrite (ev_fin _ Fy). pose proof (val_big y Fy) as A. apply Rabs_lt_inv in A. cbn [ev]. split; [|lra]. intros Q. destruct y as [[]|[]| |[] m e H]; try discriminate Q; discriminate Fy.
  - destruct x as [s|s| |s m e H]; try discriminate; [cbn in Nx; subst s|destruct Nx]. destruct y as [s|s| |s m e H]; try discriminate; [cbn in Ny; subst s|destruct Ny]. cbn [ev]. split; [discriminate|lra].
Qed.
Lemma vote_loop (l : list (Z * f64)) : (forall e, In e l -> nn (snd e)) -> forall s : f64 * Z, nn (fst s) ->
  let r := fold_left (fun (s : f64 * Z) (e : Z * f64) => if flt (fst s) (snd e) then (snd e, fst e) else s) l s in
  nn (fst r) /\ ev (fst s) <= ev (fst r) /\ (forall e, In e l -> ev (snd e) <= ev (fst r)) /\ (r = s \/ In (snd r, fst r) l).
Proof.
  induction l as [|e l IH]; intros H s Ns; cbn [fold_left]; [split; [exact Ns|split; [lra|split; [intros e []|now left]]]|]. pose proof (H e (or_introl eq_refl)) as Ne. assert (H' : forall x, In x l -> nn (snd x)) by (intros x I; apply H; now right). destruct (flt (fst s) (snd e)) eqn:E.
  - apply flt_ev in E; try assumption. destruct (IH H' (snd e, fst e) Ne) as (A & B & C & D). cbn [fst snd] in B. split; [exact A|]. split; [lra|]. split; [intros x [<-|I]; [exact B|now apply C]|]. right. destruct D as [D|D]; [|now right]. rewrite D. cbn [fst snd]. left. destruct e; reflexivity.
  - assert (G : ev (snd e) <= ev (fst s)) by (apply Rnot_lt_le; intros G; apply flt_ev in G; try assumption; congruence). destruct (IH H' s Ns) as (A & B & C & D). split; [exact A|]. split; [exact B|]. split; [intros x [<-|I]; [lra|now apply C]|]. destruct D as [D|D]; [now left|right; now right].
Qed.

Lemma vote_spec ord yw : (forall m, Permutation m (ord m)) -> (forall e, In e yw -> nn (snd e)) -> (exists e, In e yw /\ flt f0 (snd e) = true) ->
  exists t, total yw (kvote ord yw) = Some t /\ nn t /\ forall c t', total yw c = Some t' -> nn t' /\ ev t' <= ev t.
Proof.
  intros Po H (e0 & I0 & P0). destruct (classw_spec yw) as [N L]. assert (E0 : 0 < ev (snd e0)) by (apply flt_ev in P0; [exact P0|exact nn_0|now apply H]).
  assert (M : forall e, In e (ord (classw yw)) <-> total yw (fst e) = Some (snd e)). { intros [c t]. cbn [fst snd]. rewrite <- L, <- (look_in _ _ _ N). split; apply Permutation_in; [apply Permutation_sym|]; apply Po. }
  destruct (vote_loop (ord (classw yw)) (fun e I => proj1 (total_spec yw _ _ H (proj1 (M e) I))) (f0, 0%Z) nn_0) as (A & _ & C & D).
  unfold kvote. set (r := fold_left _ _ _) in *. destruct (total_some yw e0 I0) as [t0 T0]. destruct (total_spec yw _ _ H T0) as (_ & _ & G). pose proof (C (fst e0, t0) (proj2 (M (fst e0, t0)) T0)) as K. specialize (G e0 I0 eq_refl). cbn [snd] in K.
  destruct D as [D|D].
  - exfalso. rewrite D in K. cbn [fst] in K. change (ev f0) with 0 in K. lra.
  - exists (fst r). split; [exact (proj1 (M (snd r, fst r)) D)|]. split; [exact A|]. intros c t' T. split; [exact (proj1 (total_spec yw _ _ H T))|]. exact (C (c, t') (proj2 (M (c, t')) T)).
Qed.
Lemma fle_nn x y : nn x -> nn y -> ev x <= ev y -> fle x y = true.
Proof. intros A B H. apply fle_ev; auto using nn_nan. Qed.
Lemma ones_total ys c : (Z.of_nat (length ys) <= 2 ^ 53)%Z -> match total (map (fun y => (y, f1)) ys) c with None => count_occ Z.eq_dec ys c = 0%nat | Some t => isnat t (count_occ Z.eq_dec ys c) end.
Proof.
  intros H. unfold total. assert (E : map snd (filter (fun e => Z.eqb (fst e) c) (map (fun y => (y, f1)) ys)) = map (fun _ => f1) (filter (fun y => Z.eqb y c) ys)).
  { clear. induction ys as [|y ys IH]; [reflexivity|]. cbn [map filter fst]. destruct (Z.eqb y c); cbn [map snd]; now rewrite IH. }
  assert (K : count_occ Z.eq_dec ys c = length (filter (fun y => Z.eqb y c) ys)). { clear. induction ys as [|y ys IH]; [reflexivity|]. cbn [count_occ filter]. destruct (Z.eq_dec y c) as [->|Q]; [rewrite Z.eqb_refl; cbn [length]; now rewrite IH|]. apply Z.eqb_neq in Q. now rewrite Q. }
  assert (B : (length (filter (fun y => Z.eqb y c) ys) <= length ys)%nat). { clear. induction ys as [|y ys IH]; [apply le_n|]. cbn [filter]. destruct (Z.eqb y c); cbn [length]; lia. }
  rewrite E, K. destruct (filter (fun y => Z.eqb y c) ys) as [|y l]; [reflexivity|]. cbn [map length] in *. change (S (length l)) with (1 + length l)%nat. apply ones_val; [|lia]. destruct f1_val. split; assumption.
Qed.
Lemma zero_vote ord ys : (forall m, Permutation m (ord m)) -> kvote ord (map (fun y => (y, B754_zero false)) ys) = 0%Z.
Proof.
  intros Po. assert (Z : forall m c, Forall (fun e => snd e = f0) m -> Forall (fun e => snd e = f0) (cw_add m c (B754_zero false))).
  { induction m as [|[a t] m IH]; intros c F; cbn [cw_add]; [constructor; [reflexivity|constructor]|]. inversion F as [|? ? F1 F2]; subst. cbn [snd] in F1. destruct (Z.eqb c a); constructor; auto. cbn [snd]. rewrite F1. reflexivity. }
  assert (A : Forall (fun e => snd e = f0) (classw (map (fun y => (y, B754_zero false)) ys))).
  { unfold classw. enough (G : forall m, Forall (fun e => snd e = f0) m -> Forall (fun e => snd e = f0) (fold_left (fun m e => cw_add m (fst e) (snd e)) (map (fun y => (y, B754_zero false)) ys) m)) by (apply G; constructor). induction ys as [|y ys IH]; intros m F; [exact F|]. cbn [map fold_left fst snd]. apply IH, Z, F. }
  assert (B : Forall (fun e => snd e = f0) (ord (classw (map (fun y => (y, B754_zero false)) ys)))) by (rewrite Forall_forall in *; intros e I; apply A; apply Permutation_in with (2 := I); apply Permutation_sym, Po).
  unfold kvote. induction B as [|e l E B IH]; [reflexivity|]. cbn [fold_left fst]. rewrite E. exact IH.
Qed.
Lemma zero_sum {A} (ys : list A) : fsum (map (fun _ => B754_zero false) ys) = B754_zero false.
Proof. unfold fsum. induction ys as [|y ys IH]; [reflexivity|]. exact IH. Qed.
