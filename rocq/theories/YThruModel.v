(* What the transformers of package preprocessing do with their second argument Y ( *mat.Dense or nil).  Y is any type of
   matrices; an inner None is a nil *mat.Dense, an outer None a panic.  base.ToDense of a nil *mat.Dense is that pointer
   (base/matrix.go:198-201). *)
From Coq Require Import List.
From Verif Require Import PipeModel.
Import ListNotations.

Section YThru.
  Context {Y : Type}.
  (* what Shuffler (data.go:815) and MultiLabelBinarizer (label.go:170) make of a matrix *)
  Variable own : lib -> Y -> Y.

  (* the second result of Transform: data.go:103-110, 185-204, 402-416, 583-599, 726-762, 815-838, 888-907, 961-974, 1015-1052,
     1120-1138, 1190-1207, 1291-1317, imputation.go:62-84, pca.go:56-67; discretization.go:61-94 never sets it *)
  Definition y_transform (k : lib) (y : option Y) : option (option Y) :=
    match k with
    | LKBins => Some None
    | LShuffler | LMultiLabel => match y with Some v => Some (Some (own k v)) | None => None end
    | _ => Some y
    end.
  (* the second result of InverseTransform(X, Y) with X not nil: data.go:119-129, 212-232, 424-440, 606-678 (never set),
     771-786, 845-868, 981-992, 1063-1083 (writes to a nil Xout), 1341-1369, imputation.go:93-96, pca.go:75-89,
     discretization.go:103-134 (never set); None also for the types without the method *)
  Definition y_inverse (k : lib) (y : option Y) : option (option Y) :=
    match k with
    | LKBins | LPoly => Some None
    | LNormalizer | LBinarizer | LKernelCenterer | LQuantile => None
    | LShuffler | LMultiLabel => match y with Some v => Some (Some (own k v)) | None => None end
    | _ => Some y
    end.
  (* pipeline.go:88-96: the Y that reaches the last step in Fit *)
  Fixpoint y_pipeline (ks : list lib) (y : option Y) : option (option Y) :=
    match ks with
    | [] => Some y
    | k :: r => match y_transform k y with Some y' => y_pipeline r y' | None => None end
    end.
End YThru.
