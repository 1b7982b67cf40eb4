(* Properties C56, C57, C96, C97, C98, C99. *)
From Coq Require Import Permutation Lqa.
From Verif Require Import QCommon InterpModel InterpProofs Interp2dProofs CubicProofs.
Local Open Scope Q_scope.

(* insertion sort, a sort for the examples *)
Fixpoint ins_pt (p : pt) (l : list pt) : list pt := match l with [] => [p] | q :: r => if Qltb (fst p) (fst q) then p :: q :: r else q :: ins_pt p r end.
Definition isort (l : list pt) : list pt := fold_right ins_pt [] l.
Fixpoint ins_pt3 (p : pt3) (l : list pt3) : list pt3 :=
  match l with [] => [p] | q :: r => if Qltb (fst p) (fst q) || (Qeq_bool (fst p) (fst q) && Qltb (fst (snd p)) (fst (snd q))) then p :: q :: r else q :: ins_pt3 p r end.
Definition isort3 (l : list pt3) : list pt3 := fold_right ins_pt3 [] l.

(* C56 *)
Theorem C56_knots : forall srt l x0 y0 f x, sorts srt -> interp1d srt l = Some f -> distinct l -> (forall p, In p l -> snd p <> None) ->
  In (x0, Some y0) l -> x == x0 -> oeq (f x) y0.
Proof. exact interp1d_knot. Qed.
Print Assumptions C56_knots.
(* neighbouring points p, q: the line through them is used between them, before them when p is the
   first point, after them when q is the last *)
Theorem C56_segments : forall srt l x0 y0 x1 y1 x f, sorts srt -> interp1d srt l = Some f -> distinct l -> (forall p, In p l -> snd p <> None) ->
  In (x0, Some y0) l -> In (x1, Some y1) l -> x0 < x1 -> (forall p, In p l -> ~ x0 < fst p < x1) ->
  (x0 <= x \/ forall p, In p l -> x0 <= fst p) ->
  (x <= x1 \/ forall p, In p l -> fst p <= x1) ->
  oeq (f x) (y0 + (x - x0) / (x1 - x0) * (y1 - y0)).
Proof. exact interp1d_segment. Qed.
Print Assumptions C56_segments.
Theorem C56_defined : forall srt l, (2 <= length l)%nat -> exists f, interp1d srt l = Some f.
Proof. intros srt l H. unfold interp1d. destruct (Nat.ltb_spec (length l) 2); [Lia.lia|]. eexists. reflexivity. Qed.
Print Assumptions C56_defined.
Example C56_example : exists f, interp1d isort [(3, Some 6); (1, Some (-1)); (4, Some 8); (2, Some (-2))] = Some f /\
  oeq (f (3 # 2)) (-(3 # 2)) /\ oeq (f 5) 10 /\ oeq (f 0) 0 /\ oeq (f 3) 6.
Proof. eexists. split; [reflexivity|]. vm_compute. repeat split. Qed.

(* C96: missing ordinates are bridged, from the first known point (excluded) to the last *)
Theorem C96_bridged : forall srt l x0 y0 x1 y1 x f, sorts srt -> interp1d srt l = Some f -> distinct l ->
  In (x0, Some y0) l -> In (x1, Some y1) l -> x0 < x1 ->
  (forall a b, In (a, Some b) l -> ~ x0 < a < x1) ->
  (x0 < x \/ forall p, In p l -> x0 <= fst p) ->
  (x <= x1 \/ forall p, In p l -> fst p <= x1) ->
  oeq (f x) (y0 + (x - x0) / (x1 - x0) * (y1 - y0)).
Proof. exact interp1d_nan. Qed.
Print Assumptions C96_bridged.
Example C96_example : exists f, interp1d isort [(0, Some 0); (1, None); (2, None); (3, Some 6)] = Some f /\ oeq (f 1) 2 /\ oeq (f (5 # 2)) 5.
Proof. eexists. split; [reflexivity|]. vm_compute. repeat split. Qed.
(* the first known point itself is NaN when missing points come before it *)
Theorem C96_leading_refuted : forall srt l f x0 y0 x1, sorts srt -> interp1d srt l = Some f -> distinct l ->
  In (x0, Some y0) l -> In (x1, None) l -> (forall a b, In (a, Some b) l -> x0 <= a) -> x1 < x0 -> f x0 = None.
Proof. exact interp1d_leading_nan. Qed.
Print Assumptions C96_leading_refuted.
Example C96_leading_example : exists f, interp1d isort [(0, None); (1, Some 5); (2, Some 7)] = Some f /\ f 1 = None.
Proof. eexists. split; [reflexivity|]. vm_compute. reflexivity. Qed.

(* C97: an interpolant made from unsorted points does not change when the caller's slices do ... *)
Theorem C97_copied : forall srt l h mem x, interp1d_mem srt l = Some h -> sortedb (map fst l) = false ->
  eval_mem h mem x = eval_mem h l x /\ interp1d srt l = Some (eval_mem h l).
Proof. exact eval_mem_fixed. Qed.
Print Assumptions C97_copied.
(* ... one made from sorted points follows them *)
Theorem C97_alias_refuted : forall srt l h mem x, interp1d_mem srt l = Some h -> sortedb (map fst l) = true ->
  eval_mem h mem x = eval1 mem x /\ interp1d srt l = Some (eval_mem h l).
Proof. exact eval_mem_alias. Qed.
Print Assumptions C97_alias_refuted.
Example C97_example : exists h, interp1d_mem isort [(0, Some 0); (1, Some 1)] = Some h /\
  oeq (eval_mem h [(0, Some 0); (1, Some 1)] 1) 1 /\ oeq (eval_mem h [(0, Some 0); (1, Some 7)] 1) 7.
Proof. eexists. split; [reflexivity|]. vm_compute. repeat split. Qed.

(* C98: between neighbouring columns, and before the first, Interp2d is linear in x between
   the linear interpolations in y along the columns *)
Theorem C98_cells : forall srt3 srt l, sorts3 srt3 -> sorts srt -> distinct3 l ->
  forall x y gl gr pl pr ya za yb zb ya' za' yb' zb',
  In pl l -> fst pl == gl -> In pr l -> fst pr == gr -> gl < gr -> (forall p, In p l -> ~ gl < fst p < gr) ->
  (gl <= x \/ forall p, In p l -> gl <= fst p) -> x < gr ->
  segment l gl y ya za yb zb -> segment l gr y ya' za' yb' zb' ->
  exists r, interp2d srt3 srt l x y = Some r /\ oeq r (line gl (line ya za yb zb y) gr (line ya' za' yb' zb' y) x).
Proof. exact interp2d_cell. Qed.
Print Assumptions C98_cells.
(* from the last column on it is constant in x: no extrapolation on that side *)
Theorem C98_right_refuted : forall srt3 srt l, sorts3 srt3 -> sorts srt -> distinct3 l ->
  forall x y g pg pl ya za yb zb,
  In pg l -> fst pg == g -> In pl l -> fst pl < g -> (forall p, In p l -> fst p <= g) -> g <= x ->
  segment l g y ya za yb zb ->
  exists r, interp2d srt3 srt l x y = Some r /\ oeq r (line ya za yb zb y).
Proof. exact interp2d_right. Qed.
Print Assumptions C98_right_refuted.
Definition grid4 : list pt3 := [(0, (0, 0)); (0, (1, 1)); (1, (0, 2)); (1, (1, 3))].
Example C98_example : oeq (match interp2d isort3 isort grid4 (1 # 2) (1 # 2) with Some r => r | None => None end) (3 # 2) /\
  oeq (match interp2d isort3 isort grid4 (-1) 0 with Some r => r | None => None end) (-2) /\
  oeq (match interp2d isort3 isort grid4 3 0 with Some r => r | None => None end) 2.
Proof. vm_compute. repeat split. Qed.

(* C57: whatever slopes the solver returned *)
Theorem C57_knots : forall xs ys ks, (2 <= length xs)%nat -> (forall i j, (i < j < length xs)%nat -> qget xs i < qget xs j) ->
  forall i x, (i < length xs)%nat -> x == qget xs i -> cs_eval xs ys ks x == qget ys i.
Proof. exact knots. Qed.
Print Assumptions C57_knots.
(* both pieces at a knot have the value y_i and the derivative k_i there *)
Theorem C57_slopes : forall xs ys ks, (forall i j, (i < j < length xs)%nat -> qget xs i < qget xs j) ->
  forall i, (1 <= i)%nat -> (S i < length xs)%nat -> exists c c' b b', forall h,
    cs_piece xs ys ks i (qget xs i + h) == qget ys i + qget ks i * h + h * h * (c + b * h) /\
    cs_piece xs ys ks (S i) (qget xs i + h) == qget ys i + qget ks i * h + h * h * (c' + b' * h).
Proof. intros xs ys ks H i I L. apply knot_slope; auto; Lia.lia. Qed.
Print Assumptions C57_slopes.
(* piece i is the one used between knots i-1 and i *)
Theorem C57_pieces : forall xs ys ks, (2 <= length xs)%nat -> (forall i j, (i < j < length xs)%nat -> qget xs i < qget xs j) ->
  forall i x, (1 <= i < length xs)%nat -> (i = 1%nat \/ qget xs (i - 1) < x) -> (i = (length xs - 1)%nat \/ x <= qget xs i) ->
  cs_eval xs ys ks x = cs_piece xs ys ks i x.
Proof. exact eval_piece. Qed.
Print Assumptions C57_pieces.
Example C57_example : let xs := [0; 1; 3] in let ys := [1; 0; 4] in let ks := [5; 7; -2] in
  cs_eval xs ys ks 1 == 0 /\ cs_eval xs ys ks 3 == 4 /\ cs_eval xs ys ks (1 # 2) == 1 # 4.
Proof. vm_compute. repeat split. Qed.

(* C99: when the slopes solve the system, the pieces also share their second derivative at
   inner knots, it vanishes at the end knots, and the slopes are determined *)
Theorem C99_natural : forall xs ys ks, (2 <= length xs)%nat -> (forall i j, (i < j < length xs)%nat -> qget xs i < qget xs j) -> cs_solution xs ys ks ->
  let n := length xs in
  (forall i, (1 <= i)%nat -> (S i < n)%nat -> exists c b b', forall h,
      cs_piece xs ys ks i (qget xs i + h) == qget ys i + qget ks i * h + h * h * (c + b * h) /\
      cs_piece xs ys ks (S i) (qget xs i + h) == qget ys i + qget ks i * h + h * h * (c + b' * h)) /\
  (exists b b', forall h,
      cs_piece xs ys ks 1 (qget xs 0 + h) == qget ys 0 + qget ks 0 * h + h * h * h * b /\
      cs_piece xs ys ks (n - 1) (qget xs (n - 1) + h) == qget ys (n - 1) + qget ks (n - 1) * h + h * h * h * b').
Proof. exact natural. Qed.
Print Assumptions C99_natural.
Theorem C99_unique : forall xs ys ks ks', (2 <= length xs)%nat -> (forall i j, (i < j < length xs)%nat -> qget xs i < qget xs j) ->
  cs_solution xs ys ks -> cs_solution xs ys ks' -> forall i, (i < length xs)%nat -> qget ks i == qget ks' i.
Proof. exact cs_unique. Qed.
Print Assumptions C99_unique.
Example C99_example : cs_solution [0; 1; 2] [0; 1; 0] [3 # 2; 0; -(3 # 2)].
Proof. split; [reflexivity|]. intros [|[|[|i]]] H; cbn in H; try Lia.lia; vm_compute; reflexivity. Qed.
