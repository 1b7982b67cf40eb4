(* The outputs and losses of the classifiers (neural_network/basemlp64.go, linear_model/logistic.go) in binary64 arithmetic, one row at a
   time.  math.Exp, math.Log and math.Log1p are arguments: nothing is assumed of them but what a theorem says. *)
From Coq Require Import ZArith List Bool.
From Flocq Require Import Core.Core IEEE754.BinarySingleNaN.
From Verif Require Import FloatModel FloatScoreModel.
Import ListNotations.

(* neural_network/basemlp64.go:106-118 and linear_model/logistic.go:79-91 softmax: the exponentials are summed in the order of the columns *)
Definition softmax (e : f64 -> f64) (row : list f64) : list f64 :=
  let es := map e row in map (fun v => fdiv v (fsum es)) es.
(* basemlp64.go:80-86, logistic.go:64-70 logistic *)
Definition logistic (e : f64 -> f64) (z : f64) : f64 := fdiv f1 (fadd f1 (e (fneg z))).

(* mathCompat.go:93-101 MaxIdx64; i is the index of the next element, mi the index of the maximum so far, m its value *)
Fixpoint max_go (l : list f64) (i mi : nat) (m : f64) : nat :=
  match l with
  | [] => mi
  | v :: r => if flt m v then max_go r (S i) i v else max_go r (S i) mi m
  end.
Definition max_idx (a : list f64) : nat := max_go a 0 0 (hd f0 a).
(* basemlp64.go:1074-1095 toLogits64 on a row *)
Definition to_logits (row : list f64) : list f64 :=
  match row with
  | [v] => [if flt (fdiv f1 (fint 2)) v then f1 else f0]
  | _ => map (fun c => if Nat.eqb c (max_idx row) then f1 else f0) (seq 0 (length row))
  end.

(* math.Nextafter(0, 1) and math.Nextafter(1, 0) *)
Definition hmin : f64 := Bsucc f0.
Definition hmax : f64 := Bpred f1.
(* basemlp64.go:168-173, 188-193 *)
Definition clip (h : f64) : f64 := if flt h hmin then hmin else if flt hmax h then hmax else h.
(* basemlp64.go:163-181 log_loss: the samples are given as pairs (y, h) in the order of the loops, rows is h.Rows *)
Definition log_loss (ln : f64 -> f64) (rows : nat) (l : list (f64 * f64)) : f64 :=
  fdiv (fold_left (fun s p => if feq (fst p) f0 then s else fadd s (fmul (fneg (fst p)) (ln (clip (snd p))))) l f0) (fint (Z.of_nat rows)).
(* basemlp64.go:182-198 binary_log_loss *)
Definition bin_term (ln ln1 : f64 -> f64) (p : f64 * f64) : f64 :=
  let h := clip (snd p) in fsub (fmul (fneg (fst p)) (ln h)) (fmul (fsub f1 (fst p)) (ln1 (fneg h))).
Definition bin_loss (ln ln1 : f64 -> f64) (rows : nat) (l : list (f64 * f64)) : f64 :=
  fdiv (fold_left (fun s p => fadd s (bin_term ln ln1 p)) l f0) (fint (Z.of_nat rows)).
