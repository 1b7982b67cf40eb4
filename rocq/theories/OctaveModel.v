(* Model of /repo/datasets/octave.go: LoadOctaveBin.  A file is a list of bytes (numbers
   0..255); a float64 is its 64 bit pattern. *)
From Verif Require Import Common.
From Coq Require Import ZArith.
Set Implicit Arguments.
Open Scope Z_scope.

(* the outcome of a read: data and next position, err == io.EOF, or a panic *)
Inductive rres (A : Type) : Type := ROk (a : A) (p : nat) | REof | RPanic.
Arguments REof {A}. Arguments RPanic {A}.

(* little-endian *)
Fixpoint le (b : list Z) : Z := match b with [] => 0 | x :: r => x + 256 * le r end.
Definition sub (d : list Z) (p n : nat) : list Z := firstn n (skipn p d).

Section Load.
  (* how many bytes the io.Reader (bufio or gzip) returns for Read of n bytes at position p *)
  Variable ck : nat -> nat -> nat.
  Variable d : list Z.

  (* octave.go:26-40.  Read of no byte returns no error; at the end of the data the error is EOF *)
  Definition read (p n : nat) : rres (list Z) :=
    if Nat.eqb n 0 then ROk [] p
    else if Nat.leb (length d) p then REof
    else if Nat.eqb (Nat.min (ck p n) (length d - p)) n then ROk (sub d p n) (p + n)%nat
    else RPanic. (* octave.go:33-35: nread != n *)
  (* octave.go:41-48 *)
  Definition read_u32 (p : nat) : rres Z :=
    match read p 4 with ROk b p' => ROk (le b) p' | REof => REof | RPanic => RPanic end.
  (* octave.go:49-60 *)
  Definition read_string (p : nat) : rres (list Z) :=
    match read_u32 p with
    | ROk n p' => read p' (Z.to_nat n)
    | REof => REof
    | RPanic => RPanic
    end.
  (* octave.go:96, 98, 111, 118: errors are dropped *)
  Definition read_ign (p n : nat) : option nat :=
    match read p n with ROk _ p' => Some p' | REof => Some p | RPanic => None end.
  (* read and check(err) *)
  Definition chk {A} (r : rres A) : option (A * nat) :=
    match r with ROk a p => Some (a, p) | _ => None end.

  (* octave.go:123-128: binary.Read reads until all bytes are there, however they come *)
  Fixpoint read_cols (rows cols p : nat) : option (list (list Z) * nat) :=
    match cols with
    | O => Some ([], p)
    | S c =>
        if Nat.leb (p + 8 * rows) (length d) then
          let col := map (fun i => le (sub d (p + 8 * i) 8)) (seq 0 rows) in
          match read_cols rows c (p + 8 * rows)%nat with Some (r, p') => Some (col :: r, p') | None => None end
        else None
    end.

  (* a *mat.Dense: rows, columns, the columns *)
  Definition dense : Type := (nat * nat * list (list Z))%type.
  Definition magic : list Z := [79; 99; 116; 97; 118; 101; 45; 49; 45; 76]. (* Octave-1-L *)
  Definition matrix_s : list Z := [109; 97; 116; 114; 105; 120]. (* matrix *)
  Fixpoint zs_eqb (a b : list Z) : bool :=
    match a, b with [], [] => true | x :: r, y :: s => Z.eqb x y && zs_eqb r s | _, _ => false end.
  (* the map; the last entry for a name is the one in front *)
  Definition vars : Type := list (list Z * dense).
  Definition put (n : list Z) (v : dense) (m : vars) : vars := (n, v) :: filter (fun e => negb (zs_eqb (fst e) n)) m.

  (* octave.go:95-129: one variable, after its name *)
  Definition one_var (p : nat) : option (dense * nat) :=
    match read_ign p 4 with None => None | Some p =>
    match read_ign p 1 with None => None | Some p =>
    match chk (read p 1) with None => None | Some (b, p) =>
    if negb (Z.eqb (nth 0 b 0) 255) then None else
    match chk (read_string p) with None => None | Some (ty, p) =>
    if negb (zs_eqb ty matrix_s) then None else
    match read_ign p 4 with None => None | Some p =>
    match chk (read_u32 p) with None => None | Some (rows, p) =>
    match chk (read_u32 p) with None => None | Some (cols, p) =>
    match read_ign p 1 with None => None | Some p =>
    (* 119-120: uint32 product; NewDense panics for an empty matrix or a wrong length *)
    if (Z.eqb rows 0 || Z.eqb cols 0 || negb (Z.eqb ((rows * cols) mod 2 ^ 32) (rows * cols)))%bool then None else
    match read_cols (Z.to_nat rows) (Z.to_nat cols) p with
    | None => None
    | Some (c, p) => Some ((Z.to_nat rows, Z.to_nat cols, c), p)
    end end end end end end end end end.
  (* octave.go:84-131; fuel: every variable takes at least one byte *)
  Fixpoint load_loop (fuel : nat) (p : nat) (acc : vars) : option vars :=
    match fuel with
    | O => None
    | S fu =>
      match read_string p with
      | REof => Some acc
      | RPanic => None
      | ROk name p => match one_var p with None => None | Some (v, p) => load_loop fu p (put name v acc) end
      end
    end.
  (* octave.go:75-83 *)
  Definition load : option vars :=
    match chk (read 0 10) with None => None | Some (b, p) =>
    if negb (zs_eqb b magic) then None else
    match chk (read p 1) with None => None | Some (_, p) => load_loop (S (length d)) p [] end end.
End Load.

(* ------------------------------------------------ the format, as a writer *)
Fixpoint enc (k : nat) (z : Z) : list Z := match k with O => [] | S k' => (z mod 256) :: enc k' (z / 256) end.
Record var : Type := mkvar { vname : list Z; vdoc : list Z; vglob : Z; vrows : nat; vcols : nat; vcell : nat -> nat -> Z }.
Definition enc_col (v : var) (c : nat) : list Z := concat (map (fun i => enc 8 (vcell v i c)) (seq 0 (vrows v))).
Definition enc_var (v : var) : list Z :=
  enc 4 (Z.of_nat (length (vname v))) ++ vname v ++ enc 4 (Z.of_nat (length (vdoc v))) ++ vdoc v ++ [vglob v] ++ [255] ++
  enc 4 6 ++ matrix_s ++ [254; 255; 255; 255] ++ enc 4 (Z.of_nat (vrows v)) ++ enc 4 (Z.of_nat (vcols v)) ++ [7] ++
  concat (map (enc_col v) (seq 0 (vcols v))).
Definition enc_file (vs : list var) : list Z := magic ++ [0] ++ concat (map enc_var vs).
(* what a variable holds *)
Definition content (v : var) : dense := (vrows v, vcols v, map (fun c => map (fun i => vcell v i c) (seq 0 (vrows v))) (seq 0 (vcols v))).
Definition var_ok (v : var) : Prop :=
  (0 < vrows v)%nat /\ (0 < vcols v)%nat /\ Z.of_nat (vrows v) * Z.of_nat (vcols v) < 2 ^ 32 /\
  Z.of_nat (length (vname v)) < 2 ^ 32 /\ forall i j, 0 <= vcell v i j < 2 ^ 64.
(* the map a list of variables makes *)
Definition as_map (vs : list var) : vars := fold_left (fun m v => put (vname v) (content v) m) vs [].
(* positions and sizes of the reads that are not repeated, for variables written from position p on *)
Fixpoint headers (p : nat) (vs : list var) : list (nat * nat) :=
  match vs with
  | [] => []
  | v :: r => let n := length (vname v) in
      [(p, 4); (p + 4, n); (p + 4 + n, 4); (p + 8 + n, 1); (p + 9 + n, 1); (p + 10 + n, 4); (p + 14 + n, 6);
       (p + 20 + n, 4); (p + 24 + n, 4); (p + 28 + n, 4); (p + 32 + n, 1)]%nat ++ headers (p + length (enc_var v)) r
  end.
(* io.Reader: at least one byte, at most what was asked for *)
Definition lawful (ck : nat -> nat -> nat) : Prop := forall p n, (0 < n)%nat -> (0 < ck p n <= n)%nat.
