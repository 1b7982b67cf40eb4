(* Clones of LabelEncoder: preprocessing/label.go.  TransformerClone copies the struct, so that original and clone hold the same outer
   slices Classes and Support, whose elements PartialFit replaces.  A table is what the two outer slices hold (LabelModel.le_col for every
   column); an encoder refers to a table, or holds nil. *)
From Coq Require Import ZArith List Arith.
From Verif Require Import Common LabelModel.
Import ListNotations.
Local Open Scope nat_scope.

Definition eworld : Type := list (list le_col) * list (option nat).
Inductive eop := EClone (i : nat) | EFit (i ncols : nat) (rows : list (list Z)) | EPartial (i ncols : nat) (rows : list (list Z)).

(* what encoder i holds; None when there is no such encoder or it is not fitted *)
Definition eholds (w : eworld) (i : nat) : option (list le_col) :=
  match nth_error (snd w) i with Some (Some t) => nth_error (fst w) t | _ => None end.

(* label.go:282-285 TransformerClone, 288-294 Fit (new tables, then PartialFit), 297-321 PartialFit (299-302 new tables if there are none or
   their number is not that of the columns); None: no such encoder *)
Definition estep (w : eworld) (o : eop) : option eworld :=
  let '(tabs, encs) := w in
  match o with
  | EClone i => match nth_error encs i with Some e => Some (tabs, encs ++ [e]) | None => None end
  | EFit i ncols rows => match nth_error encs i with Some _ => Some (tabs ++ [le_fit ncols rows], upd encs i (Some (length tabs))) | None => None end
  | EPartial i ncols rows =>
      match nth_error encs i with
      | None => None
      | Some e =>
        match (match e with Some t => nth_error tabs t | None => None end), e with
        | Some tab, Some t => if Nat.eqb (length tab) ncols then Some (upd tabs t (le_partial_fit tab ncols rows), encs)
                              else Some (tabs ++ [le_fit ncols rows], upd encs i (Some (length tabs)))
        | _, _ => Some (tabs ++ [le_fit ncols rows], upd encs i (Some (length tabs)))
        end
      end
  end.
Fixpoint erun (w : eworld) (l : list eop) : option eworld :=
  match l with [] => Some w | o :: r => match estep w o with Some w' => erun w' r | None => None end end.
