(* linear_model/bayes.go over the real numbers, on the data that PreprocessData returned: n samples, p features, q outputs;
   V and S are what svd.VTo and svd.Values return. *)
From Coq Require Import Reals List Arith Bool.
From Verif Require Import MtModel.
Import ListNotations.
Open Scope R_scope.

(* Go's copy: the common length of both *)
Definition gcopy {A} (dst src : list A) : list A := firstn (length dst) src ++ skipn (length src) dst.
(* bayes.go:143-153: left and right are declared and never allocated *)
Definition bgamma (lam al : R) (ev : list R) : R :=
  let left := map (fun x => al * x) (gcopy [] ev) in
  let right := map (fun x => x + lam) (gcopy [] left) in
  fold_left Rplus (map (fun xy => fst xy / snd xy) (combine left right)) 0.

Record bres : Type := mkbres { b_coef : rmtx; b_alpha : R; b_lambda : R; b_sigma : rmtx; b_iter : nat; b_stop : bool }.
Section Bayes.
  Variables (n p q : nat) (X Y V : rmtx) (S : nat -> R) (a1 a2 l1 l2 tol : R).
  (* bayes.go:71-72 *)
  Definition bxty : rmtx := fun i o => rs n (fun r => X r i * Y r o).
  (* bayes.go:91-103 calcsigma: V times the rows V[:,m] / (S[m]^2 + lambda/alpha) *)
  Definition bsig (lam al : R) : rmtx := fun i k => rs p (fun m => V i m * (1 / (S m * S m + lam / al) * V k m)).
  (* bayes.go:120 *)
  Definition bcoef (lam al : R) : rmtx := fun i o => rs p (fun k => bsig lam al i k * bxty k o).
  (* bayes.go:137-140: mat.Norm(.,2) is the square root of the sum of the squares of all elements *)
  Definition bnorm (W : rmtx) : R := sqrt (rs n (fun r => rs q (fun o => (rs p (fun i => X r i * W i o) - Y r o) * (rs p (fun i => X r i * W i o) - Y r o)))).
  (* bayes.go:155-159 *)
  Definition blam' (lam al : R) : R :=
    (bgamma lam al (map (fun m => S m * S m) (seq 0 p)) + 2 * l1) / (rs p (fun i => rs q (fun o => bcoef lam al i o * bcoef lam al i o)) + 2 * l2).
  Definition bal' (lam al : R) : R :=
    (INR n - bgamma lam al (map (fun m => S m * S m) (seq 0 p)) + 2 * a1) / (bnorm (bcoef lam al) + 2 * a2).
  (* bayes.go:175-187 *)
  Definition bchange (old W : rmtx) : R := rs p (fun j => rs q (fun o => Rabs (old j o - W j o))).
  (* bayes.go:112-198, the loop with [fuel] iterations to go and what follows it; the score is not computed.
     reg is regr.Lambda, W is coef *)
  Fixpoint bloop (fuel iter : nat) (lam al : R) (old W : rmtx) (reg : R) : bres :=
    match fuel with
    | O => mkbres W al reg (fun i k => 1 / al * bsig lam al i k) iter false
    | Datatypes.S f =>
        let W' := bcoef lam al in
        if ((0 <? iter)%nat && rltb (bchange old W') tol)%bool
        then mkbres W' (bal' lam al) lam (fun i k => 1 / bal' lam al * bsig (blam' lam al) (bal' lam al) i k) iter true
        else bloop f (Datatypes.S iter) (blam' lam al) (bal' lam al) W' W' lam
    end.
  (* bayes.go:54-62, 69, 106 and the panics of 129 and, without iterations, of 193 (S and V have n entries and columns when n < p); None is a panic; reg0 is regr.Lambda before *)
  Definition bfit (niter : nat) (reg0 : R) : option bres :=
    if ((0 <? niter)%nat && (n <=? p)%nat || (n <? p)%nat)%bool then None
    else Some (bloop niter 0 1 (INR (n * q) / rs n (fun r => rs q (fun o => Y r o * Y r o))) (fun _ _ => 0) (fun _ _ => 0) reg0).
End Bayes.
(* bayes.go:240-263 Predict2, the second result, for the sample xn scaled as in 243-248 *)
Definition bstd (p : nat) (Sigma : rmtx) (alpha : R) (xn : nat -> R) : R := rs p (fun j => xn j * Sigma 0%nat j * xn j) + 1 / alpha.
