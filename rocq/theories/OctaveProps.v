(* Properties of the Octave loader: C58, C100, C101. *)
From Coq Require Import ZArith.
From Verif Require Import Common OctaveModel OctaveProofs.
Local Open Scope nat_scope.

(* C58.  A file of variables without documentation is decoded to what it stores when the
   reader answers each header read in full, whatever it does with the numbers ... *)
Theorem C58_roundtrip_partial : forall ck vs, lawful ck -> (forall v, In v vs -> var_ok v /\ vdoc v = []) ->
  (forall p n, In (p, n) ((0, 10) :: (10, 1) :: headers 11 vs) -> 0 < n -> ck p n = n) ->
  exists m, load ck (enc_file vs) = Some m /\
    (forall n e, find (fun x => zs_eqb (fst x) n) m = Some e -> exists v, In v vs /\ vname v = n) /\
    (forall a v b, vs = a ++ v :: b -> (forall u, In u b -> vname u <> vname v) ->
       find (fun x => zs_eqb (fst x) (vname v)) m = Some (vname v, content v)).
Proof. exact roundtrip. Qed.
Print Assumptions C58_roundtrip_partial.
(* ... and panics as soon as the reader answers one header read in part, which io.Reader allows *)
Theorem C58_short_read_refuted : forall ck vs, lawful ck -> (forall v, In v vs -> var_ok v /\ vdoc v = []) ->
  (exists p n, In (p, n) ((0, 10) :: (10, 1) :: headers 11 vs) /\ 0 < n /\ ck p n <> n) ->
  load ck (enc_file vs) = None.
Proof. exact short_read. Qed.
Print Assumptions C58_short_read_refuted.
Definition c58_var (name : Z) : var := {| vname := [name]; vdoc := []; vglob := 0%Z; vrows := 2; vcols := 1; vcell := fun i _ => Z.of_nat (300 + i) |}.
Example C58_example :
  let one p n := if Nat.leb n 10 then n else 1 in
  load one (enc_file [c58_var 65; c58_var 66]) = Some [([66%Z], (2, 1, [[300; 301]]%Z)); ([65%Z], (2, 1, [[300; 301]]%Z))] /\
  load (fun p n => if Nat.eqb p 11 then 2 else n) (enc_file [c58_var 65]) = None.
Proof. vm_compute. split; reflexivity. Qed.

(* C100.  A file cut short never yields anything but the first variables, whole ... *)
Theorem C100_prefix : forall ck vs k, lawful ck -> (forall v, In v vs -> var_ok v /\ vdoc v = []) -> k < length (enc_file vs) ->
  load ck (firstn k (enc_file vs)) = None \/
  exists a v b, vs = a ++ v :: b /\ load ck (firstn k (enc_file vs)) = Some (as_map a) /\
    (k = length (enc_file a) \/ (k = length (enc_file a) + 4 /\ vname v <> [])).
Proof. exact truncated. Qed.
Print Assumptions C100_prefix.
(* ... but a cut inside a variable, after the length of its name, goes unnoticed *)
Theorem C100_silent_refuted : forall ck a v b, lawful ck -> (forall u, In u (a ++ v :: b) -> var_ok u /\ vdoc u = []) ->
  (forall p n, In (p, n) ((0, 10) :: (10, 1) :: headers 11 (a ++ v :: b)) -> 0 < n -> ck p n = n) -> vname v <> [] ->
  load ck (firstn (length (enc_file a) + 4) (enc_file (a ++ v :: b))) = Some (as_map a).
Proof. exact silent. Qed.
Print Assumptions C100_silent_refuted.
Example C100_example : let f := enc_file [c58_var 65; c58_var 66] in let full p n : nat := n in
  length (enc_file [c58_var 65]) = 61 /\
  load full (firstn 65 f) = Some [([65%Z], (2, 1, [[300; 301]]%Z))] /\ load full (firstn 64 f) = None /\ load full (firstn 66 f) = None.
Proof. vm_compute. repeat split. Qed.

(* C101.  A variable with a documentation string makes the loader panic, whatever the reader does *)
Theorem C101_doc_refuted : forall ck vs v ws, lawful ck -> (forall u, In u vs -> var_ok u /\ vdoc u = []) ->
  (Z.of_nat (length (vname v)) < 2 ^ 32)%Z -> vdoc v <> [] -> (forall x, In x (vdoc v) -> x <> 255%Z) -> vglob v <> 255%Z ->
  load ck (enc_file (vs ++ v :: ws)) = None.
Proof. exact doc_panics. Qed.
Print Assumptions C101_doc_refuted.
Example C101_example : let v := {| vname := [65]%Z; vdoc := [104; 105]%Z; vglob := 0%Z; vrows := 1; vcols := 1; vcell := fun _ _ => 7%Z |} in
  load (fun _ n => n) (enc_file [c58_var 65; v]) = None.
Proof. vm_compute. reflexivity. Qed.
