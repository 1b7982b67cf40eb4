(* pipeline/pipeline.go.  The matrices X and Y and the values behind the interface base.Fiter are of any types; what a step does is
   given by functions of its state, so that the model covers every step that a user can write.  A step does not share memory with
   another step, and the methods do not write into their arguments.  None is a panic. *)
From Coq Require Import List Arith Bool.
Import ListNotations.

Section Pipe.
  Variables (X Y St S : Type).
  (* does the step implement base.Transformer, base.Predicter (base/interfaces.go:13-28), preprocessing.InverseTransformer
     (preprocessing/data.go:24-27) *)
  Variables (isT isP isI : St -> bool).
  Variable fit : St -> X -> Y -> option St.
  Variable trans : St -> X -> Y -> option (X * Y).
  Variable nout : St -> nat.                      (* GetNOutputs *)
  Variable pred : St -> X -> option Y.            (* Predict into a new matrix *)
  Variable inv : St -> Y -> option Y.             (* the second result of InverseTransform(nil, Y) *)
  Variable score : St -> X -> Y -> option S.
  Variables (cloneT cloneP : St -> St).

  (* pipeline.go:62-82 transformStep *)
  Definition tstep (s : St) (x : X) (y : Y) : option (X * Y) :=
    if isT s then trans s x y
    else if isP s then if Nat.eqb (nout s) 0 then None else option_map (fun y' => (x, y')) (pred s x)
    else None.
  Fixpoint tsteps (ss : list St) (x : X) (y : Y) : option (X * Y) :=
    match ss with [] => Some (x, y) | s :: r => match tstep s x y with Some (x', y') => tsteps r x' y' | None => None end end.
  (* pipeline.go:85-97 Fit: each step is fitted, all but the last transform the data for the next *)
  Fixpoint pfit (ss : list St) (x : X) (y : Y) : option (list St) :=
    match ss with
    | [] => Some []
    | s :: r => match fit s x y with
                | None => None
                | Some s' => match r with
                             | [] => Some [s']
                             | _ :: _ => match tstep s' x y with Some (x', y') => option_map (cons s') (pfit r x' y') | None => None end
                             end
                end
    end.
  (* pipeline.go:128-131: the loop of InverseTransform, on the steps from last but one to first *)
  Fixpoint invs (ss : list St) (y : Y) : option Y :=
    match ss with [] => Some y | s :: r => if isI s then match inv s y with Some y' => invs r y' | None => None end else None end.
  (* pipeline.go:122-133 Predict; y is what the caller's matrix holds *)
  Definition ppredict (ss : list St) (x : X) (y : Y) : option Y :=
    match tsteps ss x y with Some (_, y') => invs (rev (removelast ss)) y' | None => None end.
  (* pipeline.go:100-112 Score: without steps the slice bound is -1 *)
  Definition pscore (ss : list St) (x : X) (y : Y) : option S :=
    match rev ss with
    | [] => None
    | l :: _ => match tsteps (removelast ss) x y with Some (x', _) => if isP l then score l x' y else None | None => None end
    end.
  (* pipeline.go:35-48 PredicterClone *)
  Fixpoint pclone (ss : list St) : option (list St) :=
    match ss with
    | [] => Some []
    | s :: r => if isT s then option_map (cons (cloneT s)) (pclone r) else if isP s then option_map (cons (cloneP s)) (pclone r) else None
    end.
End Pipe.

(* The transformers of package preprocessing: what InverseTransform(nil, Y) does with Y *)
Inductive lib : Type :=
| LMinMax | LStandard | LRobust | LPoly | LPca   (* data.go:119, 212, 424, 606, pca.go:75: nil X is returned with Y *)
| LImputer                                       (* imputation.go:93: X, Y are returned *)
| LOneHot | LShuffler | LMaxAbs | LNormalizer    (* data.go:771, 845, 981, 1063: methods of the nil X are called *)
| LBinarizer | LKernelCenterer | LQuantile       (* no InverseTransform *)
| LPower | LKBins | LMultiLabel.                 (* data.go:1341, discretization.go:103, label.go:236: other parameter or result types *)
Definition lib_isI (k : lib) : bool :=
  match k with LBinarizer | LKernelCenterer | LQuantile | LPower | LKBins | LMultiLabel => false | _ => true end.
Definition lib_inv {Y} (k : lib) (y : Y) : option Y :=
  match k with LMinMax | LStandard | LRobust | LPoly | LPca | LImputer => Some y | _ => None end.
