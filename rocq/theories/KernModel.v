(* gaussian_process/kernels/kernels.go and matutil.go over the real numbers.
   A matrix is a function of row and column; X has p columns.  Kernels are expressions over their leaves;
   A is the type of a hyperparameter: its value, or its address in a store (the pointers PValue). *)
From Coq Require Import Reals List Arith Bool.
From Verif Require Import MtModel.
Import ListNotations.
Open Scope R_scope.

Inductive kern (A : Type) : Type :=
| KConst (c : A) (b : R * R)                  (* kernels.go:328-332 *)
| KWhite (v : A) (b : R * R)                  (* kernels.go:413-417 *)
| KRBF (ls : list A) (bs : list (R * R))      (* kernels.go:508-513 *)
| KDot (s : A) (b : R * R)                    (* kernels.go:633-636 *)
| KSum (k1 k2 : kern A)                       (* kernels.go:159-161 *)
| KProd (k1 k2 : kern A)                      (* kernels.go:213-215 *)
| KExp (k : kern A) (e : R).                  (* kernels.go:277-280 *)
Arguments KConst {A}. Arguments KWhite {A}. Arguments KRBF {A}. Arguments KDot {A}. Arguments KSum {A}. Arguments KProd {A}. Arguments KExp {A}.

Fixpoint kmap {A B} (f : A -> B) (k : kern A) : kern B :=
  match k with
  | KConst c b => KConst (f c) b
  | KWhite v b => KWhite (f v) b
  | KRBF ls bs => KRBF (map f ls) bs
  | KDot s b => KDot (f s) b
  | KSum k1 k2 => KSum (kmap f k1) (kmap f k2)
  | KProd k1 k2 => KProd (kmap f k1) (kmap f k2)
  | KExp k e => KExp (kmap f k) e
  end.

(* kernels.go:26-28 IsFixed *)
Definition fixedb (b : R * R) : bool := reqb (snd b) (fst b).
(* hyperparameters(), kernels.go:110-112, 335-339, 420-424, 516-523, 639-643, with IsFixed.  None is a panic:
   a missing bound, or Exponentiation (kernels.go:283-291), whose method calls itself without end. *)
Fixpoint hyper {A} (k : kern A) : option (list (A * bool)) :=
  match k with
  | KConst c b => Some [(c, fixedb b)]
  | KWhite v b => Some [(v, fixedb b)]
  | KRBF ls bs => if length bs <? length ls then None else Some (combine ls (map fixedb bs))
  | KDot s b => Some [(s, fixedb b)]
  | KSum k1 k2 | KProd k1 k2 => match hyper k1, hyper k2 with Some h1, Some h2 => Some (h1 ++ h2) | _, _ => None end
  | KExp _ _ => None
  end.
(* kernels.go:33-41 notFixed *)
Definition notfixed {A} (h : list (A * bool)) : list A := map fst (filter (fun x => negb (snd x)) h).
(* the entries behind Theta(): kernels.go:42-55, 115-117, 342-344, 427-429, 526-528, 646-648; Exponentiation has the
   method of the kernel it embeds *)
Fixpoint tvars {A} (k : kern A) : option (list A) :=
  match k with KExp k' _ => tvars k' | _ => option_map notfixed (hyper k) end.
Definition theta (k : kern R) : option (list R) := option_map (map ln) (tvars k).

(* ------------------------------------------------------------------ Eval *)
(* gonum floats.EqualApprox with tolerance 1e-8: entry by entry, absolute or relative *)
Definition tol8 : R := / 10 ^ 8.
Definition approx (a b : R) : bool := if Rle_dec (Rabs (a - b)) tol8 then true else if Rle_dec (Rabs (a - b)) (tol8 * Rmax (Rabs a) (Rabs b)) then true else false.
Fixpoint near (p : nat) (x y : nat -> R) : bool := match p with O => true | S q => (near q x y && approx (x q) (y q))%bool end.

Section Eval.
  Variables (pw : R -> R -> R) (p : nat).     (* math.Pow; number of features *)
  (* kernels.go:553-562: a row divided by the length scales *)
  Definition rbf_scale (ls : list R) (x : nat -> R) : option (nat -> R) :=
    match ls with
    | [l] => Some (fun f => x f / l)
    | _ => if Nat.eqb (length ls) p then Some (fun f => x f / nth f ls 0) else None
    end.
  (* Eval(X, Y, false), nil for Y being X: kernels.go:169-173, 224-229, 294-298, 361-374, 444-463, 547-583, 663-681 *)
  Fixpoint eval (k : kern R) (X Y : rmtx) : option rmtx :=
    match k with
    | KConst c _ => Some (fun _ _ => c)
    | KWhite v _ => Some (fun i j => if near p (X i) (Y j) then v else 0)
    | KRBF ls _ => match rbf_scale ls (fun _ => 0) with
                   | None => None
                   | Some _ => Some (fun i j =>
                       match rbf_scale ls (X i), rbf_scale ls (Y j) with
                       | Some x, Some y => exp (- (1 / 2) * rs p (fun f => (x f - y f) * (x f - y f)))
                       | _, _ => 0
                       end)
                   end
    | KDot s _ => Some (fun i j => s * s + rs p (fun f => X i f * Y j f))
    | KSum k1 k2 => match eval k1 X Y, eval k2 X Y with Some a, Some b => Some (fun i j => a i j + b i j) | _, _ => None end
    | KProd k1 k2 => match eval k1 X Y, eval k2 X Y with Some a, Some b => Some (fun i j => a i j * b i j) | _, _ => None end
    | KExp k e => match eval k X Y with Some a => Some (fun i j => pw (a i j) e) | None => None end
    end.
  (* Diag: kernels.go:93-102 (RBF), 195-205, 258-269, 310-319, 392-401, 483-492, 698-711 *)
  Fixpoint diag (k : kern R) (X : rmtx) (i : nat) : R :=
    match k with
    | KConst c _ => c
    | KWhite v _ => v
    | KRBF _ _ => 1
    | KDot s _ => s * s + rs p (fun f => X i f * X i f)
    | KSum k1 k2 => diag k1 X i + diag k2 X i
    | KProd k1 k2 => diag k1 X i * diag k2 X i
    | KExp k e => pw (diag k X i) e
    end.

  (* The gradient of Eval(X, nil, true) for n rows: the third dimension of the tensor and its storage, n x n x d row-major.
     kernels.go:174-190, 230-253, 299-305, 375-387, 464-478, 584-609, 682-693 *)
  Fixpoint evalg (n : nat) (k : kern R) (X : rmtx) : option (nat * (nat -> R)) :=
    match k with
    | KConst c b => Some (if fixedb b then (0%nat, fun _ => 0) else (1%nat, fun _ => c))
    | KWhite v b => Some (if fixedb b then (0%nat, fun _ => 0) else (1%nat, fun i => if Nat.eqb (i mod (n + 1)) 0 then v else 0))
    | KRBF ls bs =>
        match eval k X X, hyper k with
        | Some K, Some ((_, fx) :: _) =>
            Some (if fx then (0%nat, fun _ => 0) else (1%nat, fun i =>
              let r := (i / n)%nat in let c := (i mod n)%nat in
              match rbf_scale ls (fun f => X r f - X c f) with Some d => K r c * rs p (fun f => d f * d f) | None => 0 end))
        | _, _ => None
        end
    | KDot s b => Some (if fixedb b then (0%nat, fun _ => 0) else (1%nat, fun _ => 2 * s * s))
    | KSum k1 k2 =>
        match evalg n k1 X, evalg n k2 X with
        | Some (d1, g1), Some (d2, g2) =>
            let s2 := (d1 + d2)%nat in
            Some (s2, fun i =>
              let i2 := (i mod s2)%nat in let i1 := (((i - i2) / s2) mod n)%nat in let i0 := (((i - i2) / s2) / n)%nat in
              if (i2 <? d1)%nat then g1 (i0 * n * d1 + i1 * d1 + i2)%nat else g2 (i0 * n * d2 + i1 * d2 + (i2 - d1))%nat)
        | _, _ => None
        end
    | KProd k1 k2 =>
        match evalg n k1 X, evalg n k2 X, eval k1 X X, eval k2 X X with
        | Some (d1, g1), Some (d2, g2), Some K1, Some K2 =>
            let s2 := (d1 + d2)%nat in
            (* the loops over i0, i1, i2 write every position (i0*n+i1)*s2+i2 once; i is one of them *)
            Some (s2, fun i =>
              let i2 := (i mod s2)%nat in let i1 := (((i - i2) / s2) mod n)%nat in let i0 := (((i - i2) / s2) / n)%nat in
              if (i2 <? d1)%nat then g1 (i0 * (n * d1) + i1 * d1 + i2)%nat * K2 i0 i1 else g2 (i0 * (n * d2) + i1 * d2 + (i2 - d1))%nat * K1 i0 i1)
        | _, _, _, _ => None
        end
    | KExp k e =>
        match evalg n k X, eval k X X with
        | Some (d, g), Some K =>
            (* K holds the powers already; Kdata has n*n entries, so d > 1 runs past its end *)
            if ((1 <? d) && (0 <? n))%bool%nat then None
            else Some (d, fun i => g i * (e * pw (pw (K (i / n)%nat (i mod n)%nat) e) (e - 1)))
        | _, _ => None
        end
    end.
End Eval.
(* entry [i, j, m] of the tensor *)
Definition gentry (n : nat) (g : nat * (nat -> R)) (i j m : nat) : R := snd g ((i * n + j) * fst g + m)%nat.

(* ------------------------------------------------------------------ CloneWithTheta *)
(* the store: the value behind every address handed out so far *)
Definition rd (st : list R) (a : nat) : R := nth a st 0.
Fixpoint wr (st : list R) (a : nat) (v : R) : list R :=
  match st, a with [], _ => [] | _ :: st', O => v :: st' | x :: st', S a' => x :: wr st' a' v end.
Definition val (st : list R) (k : kern nat) : kern R := kmap (rd st) k.
(* matutil.go:51-58 matCopy into a Theta(): a row more than there are parameters panics *)
Fixpoint matcopy (st : list R) (vars : list nat) (th : list R) {struct th} : option (list R) :=
  match th with
  | [] => Some st
  | v :: th' => match vars with [] => None | a :: vars' => matcopy (wr st a (exp v)) vars' th' end
  end.
Definition matcopy_to (st : list R) (k : kern nat) (th : list R) : option (list R) :=
  match tvars k with Some vars => matcopy st vars th | None => None end.
(* td.Slice(0, n1), td.Slice(n1, n1+n2) of gonum: emptyok tells whether gonum lets an empty slice pass *)
Definition slice2 (emptyok : bool) (n1 n2 : nat) (th : list R) : option (list R * list R) :=
  if ((length th <? n1 + n2) || (negb emptyok && ((n1 =? 0) || (n2 =? 0))))%nat%bool then None
  else Some (firstn n1 th, firstn n2 (skipn n1 th)).
(* kernels.go:125-136, 164-166, 218-221, 352-356, 437-441, 536-544, 656-660; Exponentiation has the method of the kernel
   it embeds.  Value receivers: the kernel is copied to n, and from there to the clone at S n.  theta is one column whose
   capacity is its number of rows. *)
Fixpoint clone (emptyok : bool) (st : list R) (k : kern nat) (th : list R) : option (list R * kern nat) :=
  match k with
  | KConst a b => let n := length st in let st2 := st ++ [rd st a; rd st a] in
      match matcopy_to st2 (KConst (S n) b) th with Some st3 => Some (st3, KConst (S n) b) | None => None end
  | KWhite a b => let n := length st in let st2 := st ++ [rd st a; rd st a] in
      match matcopy_to st2 (KWhite n b) th with Some st3 => Some (st3, KWhite (S n) b) | None => None end
  | KRBF ls bs => let n := length st in let st2 := st ++ map (rd st) ls in let k' := KRBF (seq n (length ls)) bs in
      match matcopy_to st2 k' th with Some st3 => Some (st3, k') | None => None end
  | KDot a b => let n := length st in let st2 := st ++ [rd st a; rd st a] in
      match matcopy_to st2 (KDot (S n) b) th with Some st3 => Some (st3, KDot (S n) b) | None => None end
  | KSum k1 k2 =>
      match tvars k1, tvars k2 with
      | Some v1, Some v2 =>
          match slice2 emptyok (length v1) (length v2) th with
          | Some (t1, t2) => match clone emptyok st k1 t1 with
                             | Some (st1, k1') => match clone emptyok st1 k2 t2 with Some (st2, k2') => Some (st2, KSum k1' k2') | None => None end
                             | None => None end
          | None => None end
      | _, _ => None
      end
  | KProd k1 k2 =>
      match tvars k1, tvars k2 with
      | Some v1, Some v2 =>
          match slice2 emptyok (length v1) (length v2) th with
          | Some (t1, t2) => match clone emptyok st k1 t1 with
                             | Some (st1, k1') => match clone emptyok st1 k2 t2 with Some (st2, k2') => Some (st2, KProd k1' k2') | None => None end
                             | None => None end
          | None => None end
      | _, _ => None
      end
  | KExp k _ => clone emptyok st k th
  end.

(* ------------------------------------------------------------------ gpr.go *)
Record gpr : Type := mkgpr { g_kernel : kern R; g_alpha : list R; g_xtrain : option (nat * rmtx); g_ytrain : option (nat * rmtx); g_ymean : option rmtx }.
(* gpr.go:34-41 *)
Definition new_regressor (k : kern R) : gpr := mkgpr k [/ 10 ^ 10] None None None.
(* gpr.go:76-84: ry is the number of columns of Y *)
Definition gpr_fit (m : gpr) (n ry : nat) (X Y : rmtx) : option gpr :=
  if (negb (length (g_alpha m) =? 1) && negb (length (g_alpha m) =? ry))%nat%bool then None
  else Some (mkgpr (g_kernel m) (g_alpha m) (Some (n, X)) (Some (ry, Y)) (g_ymean m)).
(* gpr.go:87-124 PredictEx for ns rows without std and cov; dst is the caller's Dense, when there is one.  None is a panic:
   NewDense(ns, 1, Alpha) wants ns values, Mul wants ns training rows, Add wants a YtrainMean. *)
Definition gpr_predict (pw : R -> R -> R) (p : nat) (m : gpr) (ns : nat) (X : rmtx) (dst : option rmtx) : option rmtx :=
  let ymean := match dst with Some y => y | None => fun _ _ => 0 end in
  match g_xtrain m with
  | None => Some ymean
  | Some (n, Xt) =>
      match eval pw p (g_kernel m) X Xt with
      | None => None
      | Some K =>
          if negb (length (g_alpha m) =? ns)%nat then None
          else if negb (n =? ns)%nat then None
          else match g_ymean m with
               | None => None
               | Some mean => Some (fun i _ => rs ns (fun j => K i j * nth j (g_alpha m) 0) + mean i 0%nat)
               end
      end
  end.
