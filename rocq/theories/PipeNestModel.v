(* pipeline/pipeline.go: a Pipeline seen from outside (GetNOutputs, IsClassifier, Transform), and as a step of another Pipeline *)
From Coq Require Import List Arith Bool.
From Verif Require Import PipeModel.
Import ListNotations.

Section Outer.
  Variables (X Y St : Type) (isT isP isI clf : St -> bool) (fit : St -> X -> Y -> option St) (trans : St -> X -> Y -> option (X * Y))
    (nout : St -> nat) (pred : St -> X -> option Y) (inv : St -> Y -> option Y).
  Variable blank : X -> nat -> Y.          (* mat.NewDense(nSamples, n, nil) for the samples of X *)
  Variable into : Y -> Y -> option Y.      (* base/matrix.go:218-241 FromDense(dst, src): what dst holds afterwards *)

  (* pipeline.go:51-60 IsClassifier *)
  Definition pclf (ss : list St) : bool := match rev ss with [] => false | l :: _ => if isP l then clf l else false end.
  (* pipeline.go:114-120 GetNOutputs: the type assertion panics when the last step is not a Predicter *)
  Definition pnout (ss : list St) : option nat := match rev ss with [] => Some 0 | l :: _ => if isP l then Some (nout l) else None end.
  (* pipeline.go:136-143 Transform; n is the field NOutputs.  mat.NewDense panics without columns; Predict returns the prediction
     and writes it into Yout.  X is given as a *mat.Dense or copied (ToDense), and handed back *)
  Definition ptransform (n : nat) (ss : list St) (x : X) : option (X * Y) :=
    if Nat.eqb n 0 then None
    else match ppredict X Y St isT isP isI trans nout pred inv ss x (blank x n) with
         | Some p => match into (blank x n) p with Some yo => Some (x, yo) | None => None end
         | None => None
         end.
  (* pipeline.go:146-149 FitTransform, where cols y is the number of columns that Fit stores in NOutputs (line 87) *)
  Definition pfit_transform (cols : Y -> nat) (ss : list St) (x : X) (y : Y) : option (X * Y) :=
    match pfit X Y St isT isP fit trans nout pred ss x y with Some ss' => ptransform (cols y) ss' x | None => None end.

  (* A step that may be a Pipeline: it has no TransformerClone, so it is a Predicter and neither a Transformer nor an
     InverseTransformer (base/interfaces.go:13-28, preprocessing/data.go:24-27).  A panic of GetNOutputs is given as 0 outputs:
     transformStep (pipeline.go:67-70) panics for both. *)
  Definition nst := (St + list St)%type.
  Definition n_isT (s : nst) : bool := match s with inl a => isT a | inr _ => false end.
  Definition n_isP (s : nst) : bool := match s with inl a => isP a | inr _ => true end.
  Definition n_isI (s : nst) : bool := match s with inl a => isI a | inr _ => false end.
  Definition n_fit (s : nst) (x : X) (y : Y) : option nst :=
    match s with inl a => option_map inl (fit a x y) | inr ss => option_map inr (pfit X Y St isT isP fit trans nout pred ss x y) end.
  Definition n_trans (s : nst) (x : X) (y : Y) : option (X * Y) := match s with inl a => trans a x y | inr _ => None end.
  Definition n_nout (s : nst) : nat := match s with inl a => nout a | inr ss => match pnout ss with Some n => n | None => 0 end end.
  (* pipeline.go:71-73: Predict into a new matrix *)
  Definition n_pred (s : nst) (x : X) : option Y :=
    match s with
    | inl a => pred a x
    | inr ss => match pnout ss with
                | Some n => match ppredict X Y St isT isP isI trans nout pred inv ss x (blank x n) with Some p => into (blank x n) p | None => None end
                | None => None
                end
    end.
  Definition n_inv (s : nst) (y : Y) : option Y := match s with inl a => inv a y | inr _ => None end.
End Outer.
