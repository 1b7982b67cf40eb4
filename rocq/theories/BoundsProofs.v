(* Lemmas about BoundsModel *)
From Coq Require Import List Arith Bool Lia.
From Verif Require Import BoundsModel.
Import ListNotations.

Section P.
  Context {V : Type} (dflt : V) (veq : V -> V -> bool) (lg ex : V -> V).
  Notation bnd := (bnd dflt). Notation free := (free dflt veq).
  Lemma put_length (st : list (V * V)) : forall a x, length (put st a x) = length st.
  Proof. induction st as [|y st IH]; intros [|a] x; cbn; auto. Qed.
  Lemma put_same (st : list (V * V)) : forall a x, a < length st -> bnd (put st a x) a = x.
  Proof. induction st as [|y st IH]; intros [|a] x H; cbn in *; [lia|lia|reflexivity|apply IH; lia]. Qed.
  Lemma put_other (st : list (V * V)) : forall a c x, a <> c -> bnd (put st a x) c = bnd st c.
  Proof. induction st as [|y st IH]; intros [|a] [|c] x H; cbn; try reflexivity; try lia. apply IH. lia. Qed.
  Lemma bnd_app st e a : a < length st -> bnd (st ++ e) a = bnd st a.
  Proof. intros H. unfold BoundsModel.bnd. now apply app_nth1. Qed.
  Lemma bnd_last st x : bnd (st ++ [x]) (length st) = x.
  Proof. unfold BoundsModel.bnd. rewrite app_nth2, Nat.sub_diag by lia. reflexivity. Qed.
  (* freeness of the parameters is kept by a write that keeps the freeness of the one written *)
  Lemma free_put st ps a x : a < length st -> veq (snd x) (fst x) = veq (snd (bnd st a)) (fst (bnd st a)) -> free (put st a x) ps = free st ps.
  Proof.
    intros H E. unfold BoundsModel.free. apply filter_ext. intros p. destruct (Nat.eq_dec a (snd p)) as [<-|N]; [|now rewrite put_other]. rewrite put_same by exact H. now rewrite E.
  Qed.
  Lemma nth_free st ps i a : nth_error (map snd (free st ps)) i = Some a -> veq (snd (bnd st a)) (fst (bnd st a)) = false /\ exists v, In (v, a) ps.
  Proof.
    intros H. apply nth_error_In in H. apply in_map_iff in H as ([v b] & <- & I). apply filter_In in I as [I F]. cbn [snd] in *. split; [now apply negb_true_iff|eauto].
  Qed.
  Lemma free_nodup st ps : NoDup (map snd ps) -> NoDup (map snd (free st ps)).
  Proof.
    induction ps as [|p ps IH]; intros N; [constructor|]. cbn [map] in N. inversion N as [|? ? N1 N2]; subst. unfold BoundsModel.free. cbn [filter]. fold (free st ps). destruct (negb _); [|auto]. cbn [map]. constructor; [|auto].
    intros I. apply N1. apply in_map_iff in I as (q & E & I). apply filter_In in I as [I _]. rewrite <- E. now apply in_map.
  Qed.
End P.
(* what a kernel refers to lies in the store, each bound once *)
Definition allocated {A} (st : list A) (k : bkern) : Prop := forall ps, params k = Some ps -> NoDup (map snd ps) /\ forall v b, In (v, b) ps -> b < length st.
