(* neural_network: loading a network from JSON (unmarshal.go, basemlp64.go:1139-1211), the shapes Predict works with, scores,
   SumRows, Fit and Predict on different kinds of matrices, strided targets and destinations, warm start, refitting.
   basemlp32.go is the same text with float32.  int is unbounded. *)
From Coq Require Import String Ascii.
From Verif Require Import Common QCommon MlpModel.
From Verif Require PlumbModel.
Import ListNotations.
Open Scope nat_scope.
Open Scope list_scope.

Fixpoint omap {X Y : Type} (f : X -> option Y) (l : list X) : option (list Y) :=
  match l with
  | [] => Some []
  | x :: t => match f x, omap f t with Some y, Some ys => Some (y :: ys) | _, _ => None end
  end.

(* ------------------------------------------------------------------ JSON *)
Section Json.
  Context {A : Type}.
  (* what encoding/json stores in an interface{}: nil, bool, float64, string, []interface{}, map[string]interface{} *)
  Inductive json : Type := JNull | JBool (b : bool) | JNum (x : A) | JStr (s : string) | JArr (l : list json) | JObj (l : list (string * json)).
  (* unmarshal.go:3-10; None is the panic of a type assertion *)
  Definition floats_from (j : json) : option (list A) :=
    match j with JArr l => omap (fun e => match e with JNum x => Some x | _ => None end) l | _ => None end.
  (* unmarshal.go:12-26: the width is that of the first row; a shorter row panics, the excess of a longer one is dropped *)
  Definition blas_from (j : json) : option (gen A) :=
    match j with
    | JArr t1 =>
        match t1 with
        | JArr t10 :: _ =>
            let cols := length t10 in
            match omap (fun e => match floats_from e with Some l => if length l <? cols then None else Some (firstn cols l) | None => None end) t1 with
            | Some rows => Some (mkgen (length t1) cols cols (concat rows))
            | None => None
            end
        | _ => None
        end
    | _ => None
    end.

  (* a settable field: name, exported, type, value *)
  Inductive jty : Type := TyFloat | TyInt | TyStr | TyBool | TyOther.
  Record pfield : Type := mkpf { p_name : string; p_exp : bool; p_ty : jty; p_val : json }.
  (* reflect.Value.Set: the dynamic type of the value must be that of the field; a null is the zero Value, whose use panics;
     no JSON value has the type of a field of any other kind (int, []int, base.RandomState, ...) *)
  Definition assignable (t : jty) (v : json) : bool :=
    match t, v with TyFloat, JNum _ => true | TyStr, JStr _ => true | TyBool, JBool _ => true | _, _ => false end.
  Fixpoint ppos (k : string) (l : list pfield) (i : nat) : list nat :=
    match l with [] => [] | f :: t => if PlumbModel.equal_fold (p_name f) k then i :: ppos k t (S i) else ppos k t (S i) end.
  (* basemlp64.go:1140-1150, one entry: FieldByNameFunc finds nothing when no name or several match, and the entry is then dropped *)
  Definition set_one (l : list pfield) (kv : string * json) : option (list pfield) :=
    match ppos (fst kv) l 0 with
    | [i] => match nth_error l i with
             | Some f => if p_exp f && assignable (p_ty f) (snd kv) then Some (upd l i (mkpf (p_name f) true (p_ty f) (snd kv))) else None
             | None => None
             end
    | _ => Some l
    end.
  Fixpoint set_params (l : list pfield) (kvs : list (string * json)) : option (list pfield) :=
    match kvs with
    | [] => Some l
    | kv :: t => match set_one l kv with Some l' => set_params l' t | None => None end
    end.

  Definition jget (k : string) (mp : list (string * json)) : option json :=
    match find (fun kv => String.eqb (fst kv) k) mp with Some kv => Some (snd kv) | None => None end.

  (* the parts of the estimator Unmarshal writes; weights live in n_mem (packedParameters) at the places pack 0 n_units gives.
     n_soft: OutActivation is softmax, otherwise logistic *)
  Record net : Type := mknet { n_fields : list pfield; n_units : list nat; n_hidden : list nat; n_soft : bool; n_mem : list A }.

  (* basemlp64.go:1195-1202: intercepts are copied one by one (an index past the JSON array panics); Copy (general.go:279-291)
     writes rows*cols numbers from the place of Coefs[i] on if the memory reaches so far, otherwise it writes elsewhere *)
  Fixpoint load (mem : list A) (tiles : list (nat * nat * nat * nat)) (ints : list json) (bs : list (gen A)) : option (list A) :=
    match tiles, bs with
    | (io, il, co, _) :: tiles', b :: bs' =>
        match ints with
        | [] => None
        | ji :: ints' =>
            match floats_from ji with
            | Some v =>
                if length v <? il then None
                else let mem1 := blit mem io (firstn il v) in
                     let size := g_rows b * g_cols b in
                     let mem2 := if length mem1 - co <? size then mem1 else blit mem1 co (firstn size (g_data b)) in
                     load mem2 tiles' ints' bs'
            | None => None
            end
        end
    | _, _ => Some mem
    end.

  Inductive ures : Type := UPanic | UErr (n : net) | UOk (n : net).
  Variable order : list (string * json) -> list (string * json).     (* the order of the iteration over a map *)
  Variable rnd : nat -> list A.                                       (* the weights initialize draws, overwritten *)
  (* basemlp64.go:1153-1211; the last step is initialize (409-483), which lays out the memory *)
  Definition unmarshal (n : net) (mp : list (string * json)) : ures :=
    let ps := match jget "params" mp with Some (JObj pm) => pm | Some _ => [] | None => mp end in
    match set_params (n_fields n) (order ps) with
    | None => UPanic
    | Some fs =>
        let n1 := mknet fs (n_units n) (n_hidden n) (n_soft n) (n_mem n) in
        match jget "coefs_" mp with
        | None => UOk n1
        | Some jc =>
            match jget "intercepts_" mp with
            | Some (JArr ints) =>
                match jc with
                | JArr [] => UErr n1
                | JArr c64 =>
                    match omap blas_from c64 with
                    | None => UPanic
                    | Some bs =>
                        let units := g_rows (hd (mkgen 0 0 0 []) bs) :: map g_cols bs in
                        let nouts := last units 0 in
                        match load (rnd (packed_size units)) (pack 0 units) ints bs with
                        | Some mem => UOk (mknet fs units (repeat 0 (length bs - 1)) (1 <? nouts) mem)
                        | None => UPanic
                        end
                    end
                | _ => UErr n1
                end
            | _ => UErr n1
            end
        end
    end.

  (* Coefs[i].At(r, c) and Intercepts[i][c] *)
  Definition coef_at (n : net) (i r c : nat) : option A :=
    match nth_error (pack 0 (n_units n)) i with
    | Some (_, il, co, cl) => nth_error (slice (n_mem n) co cl) (r * il + c)
    | None => None
    end.
  Definition intercept_at (n : net) (i c : nat) : option A :=
    match nth_error (pack 0 (n_units n)) i with
    | Some (io, il, _, _) => nth_error (slice (n_mem n) io il) c
    | None => None
    end.
End Json.
Arguments json : clear implicits. Arguments pfield : clear implicits. Arguments net : clear implicits. Arguments ures : clear implicits.

(* basemlp64.go:25-76, the names of the fields of BaseMultilayerPerceptron64; jtag is the name json.Marshal writes (lines 26-58,
   the Go name when there is no tag), None for a field that is not exported *)
Definition mlp_decl : list (string * option string * jty) :=
  [ ("Activation", Some "activation", TyStr); ("Solver", Some "solver", TyStr); ("Alpha", Some "alpha", TyFloat);
    ("WeightDecay", Some "weight_decay", TyFloat); ("BatchSize", Some "batch_size", TyInt); ("BatchNormalize", Some "BatchNormalize", TyBool);
    ("LearningRate", Some "learning_rate", TyStr); ("LearningRateInit", Some "learning_rate_init", TyFloat); ("PowerT", Some "power_t", TyFloat);
    ("MaxIter", Some "max_iter", TyInt); ("LossFuncName", Some "loss_func_name", TyStr); ("HiddenLayerSizes", Some "hidden_layer_sizes", TyOther);
    ("Shuffle", Some "shuffle", TyBool); ("RandomState", Some "random_state", TyOther); ("Tol", Some "tol", TyFloat);
    ("Verbose", Some "verbose", TyBool); ("WarmStart", Some "warm_start", TyBool); ("Momentum", Some "momentum", TyFloat);
    ("NesterovsMomentum", Some "nesterovs_momentum", TyBool); ("EarlyStopping", Some "early_stopping", TyBool);
    ("ValidationFraction", Some "validation_fraction", TyFloat); ("Beta1", Some "beta_1", TyFloat); ("Beta2", Some "beta_2", TyFloat);
    ("Epsilon", Some "epsilon", TyFloat); ("NIterNoChange", Some "n_iter_no_change", TyInt); ("NLayers", Some "NLayers", TyInt);
    ("NIter", Some "NIter", TyInt); ("NOutputs", Some "NOutputs", TyInt); ("Intercepts", Some "intercepts_", TyOther); ("Coefs", Some "coefs_", TyOther);
    ("OutActivation", Some "out_activation_", TyStr); ("Loss", Some "Loss", TyFloat); ("t", None, TyInt); ("LossCurve", Some "LossCurve", TyOther);
    ("ValidationScores", Some "ValidationScores", TyOther); ("BestValidationScore", Some "BestValidationScore", TyFloat);
    ("BestLoss", Some "BestLoss", TyFloat); ("NoImprovementCount", Some "NoImprovementCount", TyInt); ("optimizer", None, TyOther);
    ("packedParameters", None, TyOther); ("packedGrads", None, TyOther); ("bestParameters", None, TyOther); ("batchNorm", None, TyOther);
    ("lb", None, TyOther); ("beforeMinimize", None, TyOther) ]%string.
Definition mlp_fields {A} (vals : string -> json A) : list (pfield A) :=
  map (fun d => let '(nm, tag, t) := d in mkpf nm (match tag with Some _ => true | None => false end) t (vals nm)) mlp_decl.
(* the entries json.Marshal writes for the fields of an estimator *)
Definition mlp_marshal {A} (l : list (pfield A)) : list (string * json A) :=
  concat (map (fun d => let '(nm, tag, _) := d in
    match tag, find (fun f => String.eqb (p_name f) nm) l with Some tg, Some f => [(tg, p_val f)] | _, _ => [] end) mlp_decl).

(* ------------------------------------------------------------------ shapes in Predict *)
(* blas64.Gemm(NoTrans, NoTrans, 1, a, b, 0, c): a leading dimension below max(1, width) panics, so does memory that is too short *)
Record shape : Type := mkshape { sh_rows : nat; sh_cols : nat; sh_stride : nat; sh_len : nat }.
Definition full (r c : nat) : shape := mkshape r c c (r * c).
Definition mem_ok (rows cols stride len : nat) : bool := stride * (rows - 1) + cols <=? len.
Definition gemm_ok (a b c : shape) : bool :=
  let m := sh_rows a in let k := sh_cols a in let n := sh_cols b in
  (Nat.max 1 k <=? sh_stride a) && (Nat.max 1 n <=? sh_stride b) && (Nat.max 1 n <=? sh_stride c) &&
  ((m =? 0) || (n =? 0) || (mem_ok m k (sh_stride a) (sh_len a) && mem_ok k n (sh_stride b) (sh_len b) && mem_ok m n (sh_stride c) (sh_len c))).
(* basemlp64.go:205-211: the intercepts are indexed up to the width of the activation *)
Definition add_ok (a : shape) (nb : nat) : bool := (sh_rows a =? 0) || (sh_cols a <=? nb).
(* basemlp64.go:260-275, whether forwardPass returns; coefs are full matrices of the loaded layers *)
Fixpoint forward_ok (a : shape) (acts : list shape) (coefs : list (nat * nat)) : bool :=
  match coefs with
  | [] => true
  | (r, c) :: coefs' =>
      match acts with
      | [] => false
      | h :: acts' => gemm_ok a (full r c) h && add_ok h c && forward_ok h acts' coefs'
      end
  end.
(* basemlp64.go:897-915: the buffers have the widths in HiddenLayerSizes, the last is the destination *)
Definition predict_acts (rows : nat) (hidden : list nat) (Y : shape) : list shape := map (full rows) hidden ++ [Y].
Fixpoint unit_pairs (us : list nat) : list (nat * nat) := match us with a :: (b :: _) as t => (a, b) :: unit_pairs t | _ => [] end.
Definition predict_ok (units hidden : list nat) (X Y : shape) : bool := forward_ok X (predict_acts (sh_rows X) hidden Y) (unit_pairs units).

(* ------------------------------------------------------------------ scores *)
Section Scores.
  (* nth with an explicit panic *)
  Definition gq (g : gen Q) (p : nat) : option Q := nth_error (g_data g) p.
  (* basemlp64.go:1124-1137 *)
  Definition row_eq (Y H : gen Q) (i : nat) : option bool :=
    fold_left (fun acc c => match acc with
                            | Some true => match gq H (i * g_stride H + c), gq Y (i * g_stride Y + c) with Some h, Some y => Some (Qeq_bool h y) | _, _ => None end
                            | o => o
                            end) (seq 0 (g_cols Y)) (Some true).
  Definition accuracy64 (Y H : gen Q) : option Q :=
    match omap (row_eq Y H) (seq 0 (g_rows Y)) with
    | Some l => Some (inject_Z (Z.of_nat (length (filter (fun b : bool => b) l))) / inject_Z (Z.of_nat (g_rows Y)))%Q
    | None => None
    end.
  (* basemlp64.go:1097-1122; yPred is read at the positions of yTrue.  None: an index panic or the panic "yDen=0" *)
  Definition r2_col (Yt Yp : gen Q) (c : nat) : option Q :=
    match omap (fun r => gq Yt (r * g_stride Yt + c)) (seq 0 (g_rows Yt)), omap (fun r => gq Yp (r * g_stride Yt + c)) (seq 0 (g_rows Yt)) with
    | Some ts, Some ps =>
        let avg := (qsum ts / inject_Z (Z.of_nat (g_rows Yt)))%Q in
        let num := qsum (map (fun tp => ((snd tp - fst tp) * (snd tp - fst tp))%Q) (combine ts ps)) in
        let den := qsum (map (fun t => ((t - avg) * (t - avg))%Q) ts) in
        if Qeq_bool den 0 then None else Some (1 - num / den)%Q
    | _, _ => None
    end.
  Definition r2_64 (Yt Yp : gen Q) : option Q :=
    match omap (r2_col Yt Yp) (seq 0 (g_cols Yt)) with
    | Some l => Some (qsum l / inject_Z (Z.of_nat (g_cols Yt)))%Q
    | None => None
    end.
End Scores.

(* ------------------------------------------------------------------ general.go *)
(* general.go:305-321 SumRows: for each row and column an assignment to mat.Data[c] (mpos is not used); None is an index panic *)
Definition sum_rows {A} (d : list A) (a : gen A) : option (list A) :=
  match omap (fun rc => match nth_error (g_data a) (fst rc * g_stride a + snd rc) with Some v => Some (snd rc, v) | None => None end) (row_major (g_rows a) (g_cols a)) with
  | Some ws => write_all ws d
  | None => None
  end.

(* ------------------------------------------------------------------ which matrices are read *)
(* basemlp64.go:579-592: the kinds are whether X and Y have RawMatrix; None stands for the matrices left empty *)
Definition fit_reads (xraw yraw shuffle : bool) {M : Type} (X Y : M) : option (M * M) :=
  if xraw && negb shuffle then if yraw then Some (X, Y) else None else Some (X, Y).
(* basemlp64.go:611-621 *)
Definition predict_reads (xraw yraw : bool) {M : Type} (X Y : M) : option (M * M) :=
  if xraw then if yraw then Some (X, Y) else None else Some (X, Y).

(* ------------------------------------------------------------------ predict into a view *)
(* basemlp64.go:917-930 with a label binarizer: InverseTransform gives vals with full rows; tmp := Y; tmp.Copy(vals) sets the stride to
   the number of columns and copies one block to the start of Y's memory (when it is large enough) *)
Definition predict_labels {A} (Y : gen A) (vals : list A) : list A :=
  if length (g_data Y) <? length vals then g_data Y else blit (g_data Y) 0 vals.

(* ------------------------------------------------------------------ the deltas of the output layer *)
(* basemlp64.go:371-379: the positions of y index all three (H, D and y are three memories).  None is an index panic *)
Definition out_deltas {A} (sub : A -> A -> A) (D H : list A) (y : gen A) : option (list A) :=
  match omap (fun rc => let p := fst rc * g_stride y + snd rc in
                        match nth_error H p, nth_error (g_data y) p with Some h, Some v => Some (p, sub h v) | _, _ => None end) (row_major (g_rows y) (g_cols y)) with
  | Some ws => write_all ws D
  | None => None
  end.

(* ------------------------------------------------------------------ warm start *)
(* basemlp64.go:496-507, 552-566: with WarmStart the layers are those of the estimator (nlayers, packed numbers); the gradients are
   laid out for the units of this call.  make with a negative length, an index or a slice past the end panics *)
Fixpoint grads_ok (steps off : nat) (us : list nat) (packed : nat) : bool :=
  match steps with
  | O => true
  | S k => match us with
           | a :: (b :: _) as t => (off + b + a * b <=? packed) && grads_ok k (off + b + a * b) t packed
           | _ => false
           end
  end.
Definition warm_ok (nlayers packed : nat) (us : list nat) : bool := (1 <=? nlayers) && grads_ok (nlayers - 1) 0 us packed.

(* ------------------------------------------------------------------ refitting a classifier *)
(* basemlp64.go:593-598: lb is set when the targets are not all 0 or 1, and otherwise left as it is.
   The state is the classes of lb (None: nil) and the number of outputs of the network *)
Definition fit_lb (lb : option lbin) (cols : nat) (Y : list (list Z)) : option lbin * nat :=
  if forallb (forallb (fun v => Z.eqb v 0 || Z.eqb v 1)) Y then (lb, cols)
  else let m := lb_fit 0 1 cols Y in (Some m, length (concat (lb_classes m))).
(* basemlp64.go:917-925: the width of the matrix the forward pass writes *)
Definition predict_width (lb : option lbin) (ycols : nat) : nat := match lb with None => ycols | Some m => length (concat (lb_classes m)) end.
