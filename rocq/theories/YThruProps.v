(* C223: transformers hand the targets on *)
From Coq Require Import List.
From Verif Require Import PipeModel YThruModel.
Import ListNotations.

(* Every chain of transformers without KBinsDiscretizer (and without the two that rewrite Y on purpose) delivers Y to the last
   step of the pipeline.  Partial: KBinsDiscretizer below. *)
Theorem C223_pipeline_partial {Y} (own : lib -> Y -> Y) ks y :
  (forall k, In k ks -> k <> LKBins /\ k <> LShuffler /\ k <> LMultiLabel) -> y_pipeline own ks (Some y) = Some (Some y).
Proof.
  induction ks as [|k ks IH]; intros H; [reflexivity|]. cbn. destruct (H k (or_introl eq_refl)) as (A & B & C).
  destruct k; try contradiction; cbn; apply IH; intros; apply H; right; assumption.
Qed.
Print Assumptions C223_pipeline_partial.
Example C223_ex : y_pipeline (fun _ (y : list nat) => y) [LImputer; LStandard; LPoly; LPca] (Some [3; 1]) = Some (Some [3; 1]).
Proof. reflexivity. Qed.

(* with a KBinsDiscretizer anywhere before it, no last step ever sees the targets *)
Theorem C223_kbins_refuted {Y} (own : lib -> Y -> Y) ks ks' y z : y_pipeline own (ks ++ LKBins :: ks') y <> Some (Some z).
Proof.
  assert (N : forall l, y_pipeline own l (@None Y) <> Some (Some z)).
  { induction l as [|k l IH]; [discriminate|]. cbn. destruct k; cbn; auto; discriminate. }
  revert y. induction ks as [|k ks IH]; intros y; cbn; [apply N|]. destruct (y_transform own k y); [apply IH|discriminate].
Qed.
Print Assumptions C223_kbins_refuted.

(* InverseTransform of the scalers, of OneHotEncoder, Imputer, PCA and PowerTransformer returns Y; that of PolynomialFeatures and
   KBinsDiscretizer returns nil *)
Theorem C223_inverse_partial {Y} (own : lib -> Y -> Y) k y :
  In k [LMinMax; LStandard; LRobust; LMaxAbs; LOneHot; LImputer; LPca; LPower] -> y_inverse own k (Some y) = Some (Some y).
Proof. cbn. intuition (subst; reflexivity). Qed.
Print Assumptions C223_inverse_partial.
Theorem C223_inverse_refuted {Y} (own : lib -> Y -> Y) k (y : Y) : k = LPoly \/ k = LKBins ->
  y_transform own LPoly (Some y) = Some (Some y) /\ y_inverse own k (Some y) = Some None.
Proof. intros [-> | ->]; split; reflexivity. Qed.
Print Assumptions C223_inverse_refuted.
