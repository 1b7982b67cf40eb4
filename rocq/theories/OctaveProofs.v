(* Proofs about OctaveModel.v. *)
From Coq Require Import ZArith Lia.
From Verif Require Import Common OctaveModel.
Set Implicit Arguments.
Local Open Scope nat_scope.

(* ------------------------------------------------------------- decoding *)
Lemma enc_length k z : length (enc k z) = k.
Proof. revert z. induction k; cbn; auto. Qed.
Lemma le_enc k z : (0 <= z < 256 ^ Z.of_nat k)%Z -> le (enc k z) = z.
Proof.
  revert z. induction k as [|k IH]; intros z H; cbn [enc le].
  - cbn in H. lia.
  - rewrite IH; [pose proof (Z.div_mod z 256 ltac:(lia)); lia|].
    rewrite Nat2Z.inj_succ, Z.pow_succ_r in H by lia. split; [apply Z.div_pos; lia|apply Z.div_lt_upper_bound; lia].
Qed.
Lemma zs_eqb_eq a b : zs_eqb a b = true <-> a = b.
Proof.
  revert b. induction a as [|x a IH]; intros [|y b]; cbn; split; intros H; try discriminate; auto.
  - apply andb_true_iff in H. destruct H as [H1 H2]. apply Z.eqb_eq in H1. apply IH in H2. congruence.
  - injection H as -> ->. apply andb_true_iff. split; [apply Z.eqb_refl|now apply IH].
Qed.

(* s is found at position p *)
Definition at_ (D : list Z) (p : nat) (s : list Z) : Prop := sub D p (length s) = s /\ p + length s <= length D.
Lemma skipn_skipn' {A} a b (l : list A) : skipn a (skipn b l) = skipn (b + a) l.
Proof. revert l. induction b as [|b IH]; intros l; [reflexivity|]. destruct l; cbn; [now rewrite skipn_nil|apply IH]. Qed.
Lemma firstn_add {A} a b (l : list A) : firstn (a + b) l = firstn a l ++ firstn b (skipn a l).
Proof. revert l. induction a as [|a IH]; intros l; [reflexivity|]. destruct l; cbn; [now rewrite firstn_nil|]. f_equal. apply IH. Qed.
Lemma app_eq_len {A} (a b c d : list A) : a ++ b = c ++ d -> length a = length c -> a = c /\ b = d.
Proof. revert c. induction a as [|x a IH]; intros [|y c] E L; cbn in *; try lia; auto. injection E as -> E. destruct (IH c E ltac:(lia)) as [-> ->]. auto. Qed.
Lemma at_app D p s t : at_ D p (s ++ t) -> at_ D p s /\ at_ D (p + length s) t.
Proof.
  unfold at_, sub. rewrite app_length. intros [H L]. rewrite firstn_add, skipn_skipn' in H.
  apply app_eq_len in H; [|rewrite firstn_length, skipn_length; lia]. destruct H. repeat split; auto; lia.
Qed.
Lemma at_whole s t : at_ (s ++ t) (length s) t.
Proof. unfold at_, sub. rewrite skipn_app, Nat.sub_diag, skipn_all, app_length. cbn. split; [apply firstn_all|lia]. Qed.

Definition var0 : var := {| vname := []; vdoc := []; vglob := 0%Z; vrows := 1; vcols := 1; vcell := fun _ _ => 0%Z |}.
Lemma concat_len {B} (f : B -> list Z) k l : (forall i, length (f i) = k) -> length (concat (map f l)) = k * length l.
  Proof. intros H. induction l as [|x l IH]; cbn; [lia|]. rewrite app_length, IH, H. lia. Qed.
Lemma enc_col_length v c : length (enc_col v c) = 8 * vrows v.
  Proof. unfold enc_col. rewrite (@concat_len _ _ 8) by (intros; apply enc_length). now rewrite seq_length. Qed.
Definition rest_len (v : var) : nat := 29 + 8 * vrows v * vcols v.
Definition enc_rest (v : var) : list Z :=
    enc 4 0 ++ [vglob v] ++ [255%Z] ++ (enc 4 6 ++ matrix_s) ++ [254; 255; 255; 255]%Z ++ enc 4 (Z.of_nat (vrows v)) ++ enc 4 (Z.of_nat (vcols v)) ++ [7%Z] ++
    concat (map (enc_col v) (seq 0 (vcols v))).
Lemma enc_var_split v : vdoc v = [] -> enc_var v = (enc 4 (Z.of_nat (length (vname v))) ++ vname v) ++ enc_rest v.
  Proof. intros E. unfold enc_var, enc_rest. rewrite E. cbn [length app]. rewrite <- !app_assoc. reflexivity. Qed.
Lemma enc_rest_len v : length (enc_rest v) = rest_len v.
  Proof.
    unfold enc_rest, rest_len. rewrite !app_length, !enc_length, (@concat_len _ _ (8 * vrows v)) by (intros; apply enc_col_length). rewrite seq_length. cbn [length matrix_s]. lia.
  Qed.
Definition rest_headers (q : nat) : list (nat * nat) :=
    [(q, 4); (q + 4, 1); (q + 5, 1); (q + 6, 4); (q + 10, 6); (q + 16, 4); (q + 20, 4); (q + 24, 4); (q + 28, 1)].
Definition clen (vs : list var) : nat := length (concat (map enc_var vs)).
Lemma clen_cons v vs : clen (v :: vs) = length (enc_var v) + clen vs.
  Proof. unfold clen. cbn [map concat]. apply app_length. Qed.
Lemma enc_var_len v : vdoc v = [] -> length (enc_var v) = 4 + length (vname v) + rest_len v.
  Proof. intros E. rewrite (enc_var_split _ E), !app_length, enc_length, enc_rest_len. lia. Qed.
Lemma headers_cons p v vs : vdoc v = [] -> headers p (v :: vs) = [(p, 4); (p + 4, length (vname v))] ++ rest_headers (p + 4 + length (vname v)) ++ headers (p + length (enc_var v)) vs.
  Proof. intros E. cbn [headers app rest_headers]. repeat (f_equal; try lia). Qed.

Section Cut.
  Variable ck : nat -> nat -> nat.
  Hypothesis LAW : lawful ck.
  Variable D : list Z.
  Variable L : nat.
  Hypothesis LD : L <= length D.
  Let d := firstn L D.
  Lemma d_len : length d = L.
  Proof. unfold d. rewrite firstn_length. lia. Qed.
  Lemma sub_cut p n : p + n <= L -> sub d p n = sub D p n.
  Proof. intros H. unfold sub, d. rewrite skipn_firstn_comm, firstn_firstn. now rewrite Nat.min_l by lia. Qed.

  Definition fullr (h : nat * nat) : Prop := ck (fst h) (snd h) = snd h \/ snd h = 0.

  Lemma read_eof p n : n <> 0 -> L <= p -> read ck d p n = REof.
  Proof. intros N H. unfold read. destruct (Nat.eqb_spec n 0); [lia|]. rewrite d_len. destruct (Nat.leb_spec L p); [reflexivity|lia]. Qed.
  Lemma read_cases p s : at_ D p s -> length s <> 0 ->
    (p + length s <= L /\ fullr (p, length s) /\ read ck d p (length s) = ROk s (p + length s)) \/
    (p < L /\ ~ (p + length s <= L /\ fullr (p, length s)) /\ read ck d p (length s) = RPanic) \/
    (L <= p /\ read ck d p (length s) = REof).
  Proof.
    intros A N. destruct (Nat.le_gt_cases L p) as [G|G]; [right; right; split; auto; now apply read_eof|].
    unfold read. destruct (Nat.eqb_spec (length s) 0); [lia|]. rewrite d_len. destruct (Nat.leb_spec L p); [lia|].
    pose proof (LAW p (n:=length s) ltac:(lia)) as [C1 C2].
    destruct (Nat.eqb_spec (Nat.min (ck p (length s)) (L - p)) (length s)) as [E|E].
    - left. assert (F : p + length s <= L) by lia. split; [exact F|]. split; [left; cbn; lia|]. rewrite sub_cut by lia. destruct A as [-> _]. reflexivity.
    - right. left. split; [exact G|]. split; [|reflexivity]. intros [F [K|K]]; cbn in K; lia.
  Qed.
  Lemma read_string_cases p n s : at_ D p (enc 4 (Z.of_nat n) ++ s) -> length s = n -> (Z.of_nat n < 2 ^ 32)%Z ->
    (p + 4 + n <= L /\ fullr (p, 4) /\ fullr (p + 4, n) /\ read_string ck d p = ROk s (p + 4 + n)) \/
    (p < L /\ ~ ((p + 4 + n <= L \/ (L = p + 4 /\ n <> 0)) /\ fullr (p, 4) /\ fullr (p + 4, n)) /\ read_string ck d p = RPanic) \/
    (L <= p /\ read_string ck d p = REof) \/
    (L = p + 4 /\ n <> 0 /\ fullr (p, 4) /\ read_string ck d p = REof).
  Proof.
    intros A LS B. apply at_app in A. destruct A as [A1 A2]. rewrite enc_length in A2.
    unfold read_string, read_u32. destruct (read_cases A1) as [(F & K & R)|[(G & K & R)|(G & R)]]; rewrite enc_length in *; try lia; rewrite R.
    - rewrite le_enc by (cbn; lia). rewrite Nat2Z.id.
      destruct (Nat.eq_dec n 0) as [->|N].
      + left. cbn. rewrite Nat.add_0_r. split; [lia|]. split; [exact K|]. split; [right; reflexivity|]. destruct s; [reflexivity|discriminate].
      + destruct (read_cases A2) as [(F' & K' & R')|[(G' & K' & R')|(G' & R')]]; rewrite ?LS in *; try lia.
        * left. auto.
        * right. left. split; [lia|]. split; [|exact R']. intros (H1 & H2 & H3). apply K'. split; [lia|exact H3].
        * right. right. right. split; [lia|]. auto.
    - right. left. split; [exact G|]. split; [|reflexivity]. intros (H1 & H2 & H3). apply K. split; [lia|exact H2].
    - right. right. left. auto.
  Qed.
  Lemma read_ign_cases p s : at_ D p s -> length s <> 0 ->
    (p + length s <= L /\ fullr (p, length s) /\ read_ign ck d p (length s) = Some (p + length s)) \/
    (~ (p + length s <= L /\ fullr (p, length s)) /\ read_ign ck d p (length s) = None) \/
    (L <= p /\ read_ign ck d p (length s) = Some p).
  Proof.
    intros A N. unfold read_ign. destruct (read_cases A N) as [(F & K & ->)|[(G & K & ->)|(G & ->)]]; auto.
  Qed.
  Lemma read_ign_eof p n : n <> 0 -> L <= p -> read_ign ck d p n = Some p.
  Proof. intros. unfold read_ign. now rewrite read_eof. Qed.

  (* ----------------------------------------------------------- the columns *)
  Lemma at_concat f : (forall i, length (f i) = 8) -> forall n s p, at_ D p (concat (map f (seq s n))) -> forall i, i < n -> at_ D (p + 8 * i) (f (s + i)).
  Proof.
    intros F8. induction n as [|n IH]; intros s p A i I; [lia|]. cbn [seq map concat] in A. apply at_app in A. destruct A as [A1 A2].
    destruct i as [|i]; [rewrite Nat.mul_0_r, !Nat.add_0_r; exact A1|]. rewrite F8 in A2. specialize (IH _ _ A2 i ltac:(lia)).
    replace (p + 8 * S i) with (p + 8 + 8 * i) by lia. now replace (s + S i) with (S s + i) by lia.
  Qed.
  Lemma read_cols_cases v : (forall i j, (0 <= vcell v i j < 2 ^ 64)%Z) -> forall n s p, at_ D p (concat (map (enc_col v) (seq s n))) ->
    (p + 8 * vrows v * n <= L /\ read_cols d (vrows v) n p = Some (map (fun c => map (fun i => vcell v i c) (seq 0 (vrows v))) (seq s n), p + 8 * vrows v * n)) \/
    (L < p + 8 * vrows v * n /\ (0 < n -> read_cols d (vrows v) n p = None)).
  Proof.
    intros VC. induction n as [|n IH]; intros s p A.
    - cbn [read_cols seq map]. rewrite Nat.mul_0_r, Nat.add_0_r. destruct (Nat.le_gt_cases p L); [left|right; split]; auto; lia.
    - cbn [seq map concat] in A. apply at_app in A. destruct A as [A1 A2]. rewrite enc_col_length in A2.
      cbn [read_cols]. rewrite d_len. destruct (Nat.leb_spec (p + 8 * vrows v) L) as [G|G]; [|right; split; [nia|reflexivity]].
      destruct (IH _ _ A2) as [[F R]|[F R]].
      + left. split; [nia|]. rewrite R. cbn [seq map]. f_equal. f_equal; [|nia]. f_equal.
        apply map_ext_in. intros i I. apply in_seq in I. rewrite sub_cut by lia.
        pose proof (@at_concat (fun i => enc 8 (vcell v i s)) (fun i => enc_length 8 _) _ _ _ A1 i ltac:(lia)) as [E _]. cbn [Nat.add] in E. rewrite enc_length in E. rewrite E.
        apply le_enc. apply VC.
      + right. split; [nia|]. intros _. destruct n as [|n]; [lia|]. now rewrite (R ltac:(lia)).
  Qed.

  (* ---------------------------------------------------------- one variable *)
  Lemma one_var_cases v q : var_ok v -> at_ D q (enc_rest v) ->
    (q + rest_len v <= L /\ Forall fullr (rest_headers q) /\ one_var ck d q = Some (content v, q + rest_len v)) \/
    (~ (q + rest_len v <= L /\ Forall fullr (rest_headers q)) /\ one_var ck d q = None).
  Proof.
    intros (V1 & V2 & V3 & V4 & V5) A. unfold enc_rest in A.
    apply at_app in A. destruct A as [A1 A]. apply at_app in A. destruct A as [A2 A]. apply at_app in A. destruct A as [A3 A].
    apply at_app in A. destruct A as [A4 A]. apply at_app in A. destruct A as [A5 A]. apply at_app in A. destruct A as [A6 A].
    apply at_app in A. destruct A as [A7 A]. apply at_app in A. destruct A as [A8 A9].
    rewrite ?app_length, ?enc_length in *. cbn [length matrix_s] in *.
    replace (q + 4 + 1) with (q + 5) in * by lia. replace (q + 5 + 1) with (q + 6) in * by lia.
    replace (q + 6 + (4 + 6)) with (q + 16) in * by lia. replace (q + 16 + 4) with (q + 20) in * by lia. replace (q + 20 + 4) with (q + 24) in * by lia.
    replace (q + 24 + 4) with (q + 28) in * by lia. replace (q + 28 + 1) with (q + 29) in * by lia.
    assert (R32 : (Z.of_nat (vrows v) < 2 ^ 32)%Z) by nia. assert (C32 : (Z.of_nat (vcols v) < 2 ^ 32)%Z) by nia.
    assert (RL : rest_len v = 29 + 8 * vrows v * vcols v) by reflexivity.
    unfold one_var, rest_headers.
    assert (BAD : forall P : Prop, L < q + 29 -> ~ (q + rest_len v <= L /\ P)) by (intros P G [H _]; lia).
    (* doc length *)
    destruct (read_ign_cases A1) as [(F1 & K1 & R1)|[(K1 & R1)|(G1 & R1)]]; rewrite enc_length in *; [lia| | |].
    2:{ right. rewrite R1. split; [|reflexivity]. intros [H1 H2]. apply K1. split; [lia|]. now inversion H2. }
    2:{ right. rewrite R1, read_ign_eof, read_eof by lia. split; [apply BAD; lia|reflexivity]. }
    rewrite R1.
    destruct (read_ign_cases A2) as [(F2 & K2 & R2)|[(K2 & R2)|(G2 & R2)]]; cbn [length] in *; [lia| | |].
    2:{ right. rewrite R2. split; [|reflexivity]. intros [H1 H2]. apply K2. split; [lia|]. inversion H2. now inversion H4. }
    2:{ right. rewrite R2, read_eof by lia. split; [apply BAD; lia|reflexivity]. }
    rewrite R2. replace (q + 4 + 1) with (q + 5) by lia.
    destruct (read_cases A3) as [(F3 & K3 & R3)|[(G3 & K3 & R3)|(G3 & R3)]]; cbn [length] in *; [lia| | |]; rewrite R3; cbn [chk].
    2:{ right. split; [|reflexivity]. intros [H1 H2]. apply K3. split; [lia|]. rewrite Forall_forall in H2. apply H2. cbn. tauto. }
    2:{ right. split; [apply BAD; lia|reflexivity]. }
    cbn [nth Z.eqb Pos.eqb negb]. replace (q + 5 + 1) with (q + 6) by lia.
    destruct (@read_string_cases (q + 6) 6 matrix_s A4 eq_refl ltac:(lia)) as [(F4 & K4 & K4' & R4)|[(G4 & K4 & R4)|[(G4 & R4)|(G4 & _ & _ & R4)]]]; rewrite R4; cbn [chk].
    2:{ right. split; [|reflexivity]. intros [H1 H2]. apply K4. rewrite Forall_forall in H2. split; [left; lia|]. replace (q + 6 + 4) with (q + 10) by lia. split; apply H2; cbn; tauto. }
    2:{ right. split; [apply BAD; lia|reflexivity]. }
    2:{ right. split; [apply BAD; lia|reflexivity]. }
    assert (ZE : zs_eqb matrix_s matrix_s = true) by (now apply zs_eqb_eq). rewrite ZE. cbn [negb].
    replace (q + 6 + 4 + 6) with (q + 16) by lia. replace (q + 6 + 4) with (q + 10) in K4' by lia.
    destruct (read_ign_cases A5) as [(F5 & K5 & R5)|[(K5 & R5)|(G5 & R5)]]; cbn [length] in *; [lia| | |]; rewrite R5.
    2:{ right. split; [|reflexivity]. intros [H1 H2]. apply K5. split; [lia|]. rewrite Forall_forall in H2. apply H2. cbn. tauto. }
    2:{ right. unfold read_u32. rewrite read_eof by lia. split; [apply BAD; lia|reflexivity]. }
    replace (q + 16 + 4) with (q + 20) by lia. unfold read_u32.
    destruct (read_cases A6) as [(F6 & K6 & R6)|[(G6 & K6 & R6)|(G6 & R6)]]; rewrite ?enc_length in *; [lia| | |]; rewrite R6; cbn [chk].
    2:{ right. split; [|reflexivity]. intros [H1 H2]. apply K6. split; [lia|]. rewrite Forall_forall in H2. apply H2. cbn. tauto. }
    2:{ right. split; [apply BAD; lia|reflexivity]. }
    replace (q + 20 + 4) with (q + 24) by lia.
    destruct (read_cases A7) as [(F7 & K7 & R7)|[(G7 & K7 & R7)|(G7 & R7)]]; rewrite ?enc_length in *; [lia| | |]; rewrite R7; cbn [chk].
    2:{ right. split; [|reflexivity]. intros [H1 H2]. apply K7. split; [lia|]. rewrite Forall_forall in H2. apply H2. cbn. tauto. }
    2:{ right. split; [apply BAD; lia|reflexivity]. }
    replace (q + 24 + 4) with (q + 28) by lia.
    rewrite !le_enc by (cbn; lia).
    assert (DIM : ((Z.of_nat (vrows v) =? 0) || (Z.of_nat (vcols v) =? 0) || negb ((Z.of_nat (vrows v) * Z.of_nat (vcols v)) mod 2 ^ 32 =? Z.of_nat (vrows v) * Z.of_nat (vcols v)))%Z%bool = false).
    { destruct (Z.eqb_spec (Z.of_nat (vrows v)) 0); [lia|]. destruct (Z.eqb_spec (Z.of_nat (vcols v)) 0); [lia|]. rewrite Z.mod_small by nia. rewrite Z.eqb_refl. reflexivity. }
    destruct (read_ign_cases A8) as [(F8 & K8 & R8)|[(K8 & R8)|(G8 & R8)]]; cbn [length] in *; [lia| | |]; rewrite R8.
    2:{ right. split; [|reflexivity]. intros [H1 H2]. apply K8. split; [lia|]. rewrite Forall_forall in H2. apply H2. cbn. tauto. }
    { rewrite DIM, !Nat2Z.id. replace (q + 28 + 1) with (q + 29) by lia.
      destruct (@read_cols_cases v V5 (vcols v) 0 (q + 29) A9) as [[F9 R9]|[F9 R9]].
      - left. split; [lia|]. split; [|rewrite R9; replace (q + rest_len v) with (q + 29 + 8 * vrows v * vcols v) by lia; reflexivity].
        repeat (apply Forall_cons; [assumption|]). constructor.
      - right. rewrite (R9 V2). split; [|reflexivity]. intros [H1 _]. lia. }
    { rewrite DIM, !Nat2Z.id. right. split; [apply BAD; lia|].
      assert (N : read_cols d (vrows v) (vcols v) (q + 28) = None).
      { destruct (vcols v) as [|c]; [lia|]. cbn [read_cols]. rewrite d_len. destruct (Nat.leb_spec (q + 28 + 8 * vrows v) L); [lia|reflexivity]. }
      now rewrite N. }
  Qed.

  (* the cut falls on a variable boundary, or right after the length field of a non-empty name *)
  Definition clean (p : nat) (vs : list var) : Prop :=
    L = p + clen vs \/ exists a v b, vs = a ++ v :: b /\ (L = p + clen a \/ (L = p + clen a + 4 /\ vname v <> [])).
  Lemma clean_cons p v vs : vdoc v = [] -> p + length (enc_var v) <= L -> clean p (v :: vs) -> clean (p + length (enc_var v)) vs.
  Proof.
    intros DOC G [E|(a & u & b & E & C)].
    - left. rewrite clen_cons in E. lia.
    - rewrite (enc_var_len _ DOC) in *. unfold rest_len in *. destruct a as [|x a].
      + exfalso. unfold clen in C. cbn in C. lia.
      + injection E as -> ->. right. exists a, u, b. split; [reflexivity|]. rewrite clen_cons, (enc_var_len _ DOC) in C. unfold rest_len in C. destruct C as [C|[C N]]; [left|right; split; auto]; lia.
  Qed.
  Lemma clean_first p v vs : clean p (v :: vs) -> L < p + length (enc_var v) -> vdoc v = [] -> L = p \/ (L = p + 4 /\ vname v <> []).
  Proof.
    intros [E|(a & u & b & E & C)] G DOC.
    - rewrite clen_cons in E. lia.
    - destruct a as [|x a].
      + injection E as -> ->. unfold clen in C. cbn in C. rewrite Nat.add_0_r in C. exact C.
      + injection E as -> ->. rewrite clen_cons in C. lia.
  Qed.

  Lemma loop_cases : forall vs fuel p acc, (forall v, In v vs -> var_ok v /\ vdoc v = []) -> at_ D p (concat (map enc_var vs)) -> length D = p + clen vs -> L < fuel + p -> p <= L ->
    (exists j, j <= length vs /\ load_loop ck d fuel p acc = Some (fold_left (fun m v => put (vname v) (content v) m) (firstn j vs) acc) /\
       Forall fullr (headers p (firstn j vs)) /\ (L = p + clen (firstn j vs) \/ (L = p + clen (firstn j vs) + 4 /\ j < length vs /\ vname (nth j vs var0) <> []))) \/
    (load_loop ck d fuel p acc = None /\ ~ (clean p vs /\ Forall fullr (headers p vs))).
  Proof.
    induction vs as [|v vs IH]; intros fuel p acc OK A LEN FU PL.
    - left. exists 0. cbn in LEN. split; [lia|]. destruct fuel as [|fu]; [lia|]. cbn [load_loop].
      assert (R : read_string ck d p = REof). { unfold read_string, read_u32. rewrite read_eof by (unfold clen in LEN; cbn in LEN; lia). reflexivity. }
      rewrite R. split; [reflexivity|]. split; [constructor|]. left. unfold clen in *. cbn in *. lia.
    - destruct (OK v (or_introl eq_refl)) as [VO DOC]. assert (VO' := VO). destruct VO' as (_ & _ & _ & V4 & _).
      cbn [map concat] in A. apply at_app in A. destruct A as [A1 A2]. rewrite (enc_var_split _ DOC) in A1. apply at_app in A1. destruct A1 as [A0 A1].
      rewrite app_length, enc_length in A1. rewrite clen_cons in LEN. set (nl := length (vname v)) in *.
      assert (EL := enc_var_len _ DOC). fold nl in EL.
      destruct fuel as [|fu]; [lia|]. cbn [load_loop].
      rewrite (headers_cons p v vs DOC). fold nl.
      destruct (@read_string_cases p nl (vname v) A0 eq_refl V4) as [(F4 & K4 & K4' & R4)|[(G4 & K4 & R4)|[(G4 & R4)|(G4 & N4 & K4 & R4)]]]; rewrite R4.
      + destruct (@one_var_cases v (p + 4 + nl) VO) as [(F & K & R)|(K & R)].
        { now replace (p + 4 + nl) with (p + (4 + nl)) by lia. }
        * rewrite R. replace (p + 4 + nl + rest_len v) with (p + length (enc_var v)) by lia.
          destruct (IH fu (p + length (enc_var v)) (put (vname v) (content v) acc)) as [(j & J & RJ & HJ & LJ)|(RJ & NJ)].
          { intros w W. apply OK. now right. }
          { exact A2. }
          { lia. }
          { lia. }
          { lia. }
          -- left. exists (S j). split; [cbn; lia|]. split; [exact RJ|]. cbn [firstn]. rewrite (headers_cons p v (firstn j vs) DOC). fold nl.
             split; [apply Forall_app; split; [constructor; [exact K4|constructor; [exact K4'|constructor]]|apply Forall_app; split; [exact K|exact HJ]]|].
             rewrite clen_cons. cbn [length]. destruct LJ as [LJ|[LJ LT]]; [left; lia|right; cbn [nth]; split; [lia|]; split; [lia|apply LT]].
          -- right. split; [exact RJ|]. intros [E1 E2]. apply NJ. split; [apply clean_cons; auto; lia|]. apply Forall_app in E2. destruct E2 as [_ E4]. now apply Forall_app in E4.
        * rewrite R. right. split; [reflexivity|]. intros [E1 E2]. apply K. split; [destruct (Nat.le_gt_cases (p + length (enc_var v)) L) as [G|G]; [lia|]; exfalso; destruct (clean_first E1 G DOC) as [E|[E X]]; [lia|]; apply X; destruct (vname v); [reflexivity|unfold nl in *; cbn [length] in *; lia]|]. apply Forall_app in E2. destruct E2 as [_ E4]. now apply Forall_app in E4.
      + right. split; [reflexivity|]. intros [E1 E2]. apply K4. apply Forall_app in E2. destruct E2 as [E2 _]. inversion E2 as [|? ? H1 E3]. inversion E3 as [|? ? H2 E4]. split; [|auto]. destruct (Nat.le_gt_cases (p + length (enc_var v)) L) as [G|G]; [left; lia|]. destruct (clean_first E1 G DOC) as [E|[E X]]; [lia|]. right. split; [exact E|]. unfold nl. destruct (vname v); [congruence|discriminate].
      + left. exists 0. split; [lia|]. split; [reflexivity|]. split; [constructor|]. left. unfold clen. cbn. lia.
      + left. exists 0. split; [lia|]. split; [reflexivity|]. split; [constructor|]. right. unfold clen. cbn. split; [lia|]. split; [lia|]. unfold nl in N4. destruct (vname v); [cbn in N4; lia|discriminate].
  Qed.
End Cut.

Definition all_headers (vs : list var) : list (nat * nat) := (0, 10) :: (10, 1) :: headers 11 vs.
Lemma file_len ws : length (enc_file ws) = 11 + clen ws.
Proof. unfold enc_file, clen. rewrite !app_length. reflexivity. Qed.
Lemma file_cases ck vs L : lawful ck -> (forall v, In v vs -> var_ok v /\ vdoc v = []) -> L <= length (enc_file vs) ->
  (exists j, j <= length vs /\ load ck (firstn L (enc_file vs)) = Some (as_map (firstn j vs)) /\ Forall (fullr ck) (all_headers (firstn j vs)) /\
     (L = length (enc_file (firstn j vs)) \/ (L = length (enc_file (firstn j vs)) + 4 /\ j < length vs /\ vname (nth j vs var0) <> []))) \/
  (load ck (firstn L (enc_file vs)) = None /\ ~ (clean L 11 vs /\ Forall (fullr ck) (all_headers vs))).
Proof.
  intros LAW OK LD. set (D := enc_file vs) in *.
  assert (C11 : clean L 11 vs -> 11 <= L) by (intros [E|(a & u & b & E & [C|[C _]])]; lia).
  assert (A0 : at_ D 0 (magic ++ [0%Z] ++ concat (map enc_var vs))) by (unfold D; exact (at_whole [] _)).
  apply at_app in A0. destruct A0 as [A1 A0]. apply at_app in A0. destruct A0 as [A2 A3]. cbn [length magic Nat.add] in *.
  unfold load.
  destruct (@read_cases ck LAW D L LD 0 magic A1) as [(F1 & K1 & R1)|[(G1 & K1 & R1)|(G1 & R1)]]; cbn [length magic Nat.add] in *; [discriminate| | |]; rewrite R1; cbn [chk].
  2:{ right. split; [reflexivity|]. intros [E1 E2]. apply K1. apply C11 in E1. split; [lia|]. now inversion E2. }
  2:{ right. split; [reflexivity|]. intros [E1 _]. apply C11 in E1. lia. }
  assert (ZE : zs_eqb magic magic = true) by (now apply zs_eqb_eq). rewrite ZE. cbn [negb].
  destruct (@read_cases ck LAW D L LD 10 [0%Z] A2) as [(F2 & K2 & R2)|[(G2 & K2 & R2)|(G2 & R2)]]; cbn [length Nat.add] in *; [discriminate| | |]; rewrite R2; cbn [chk].
  2:{ right. split; [reflexivity|]. intros [E1 E2]. apply K2. apply C11 in E1. split; [lia|]. inversion E2. now inversion H2. }
  2:{ right. split; [reflexivity|]. intros [E1 _]. apply C11 in E1. lia. }
  destruct (@loop_cases ck LAW D L LD vs (S (length (firstn L D))) 11 [] OK A3) as [(j & J & R & H & LJ)|(R & N)].
  - unfold D. rewrite file_len. lia.
  - rewrite firstn_length. lia.
  - lia.
  - left. exists j. split; [exact J|]. split; [exact R|]. split; [constructor; [exact K1|constructor; [exact K2|exact H]]|]. rewrite file_len. exact LJ.
  - right. split; [exact R|]. intros [E1 E2]. apply N. split; [exact E1|]. inversion E2. now inversion H2.
Qed.

Lemma clen_app a b : clen (a ++ b) = clen a + clen b.
Proof. unfold clen. now rewrite map_app, concat_app, app_length. Qed.
Lemma clen_big (b : list var) : (forall v, In v b -> vdoc v = []) -> b <> [] -> 30 <= clen b.
Proof.
  intros H N. destruct b as [|v b]; [congruence|]. rewrite clen_cons, enc_var_len by (apply H; now left). unfold rest_len. lia.
Qed.

Lemma load_iff ck vs : lawful ck -> (forall v, In v vs -> var_ok v /\ vdoc v = []) ->
  (Forall (fullr ck) (all_headers vs) -> load ck (enc_file vs) = Some (as_map vs)) /\
  (~ Forall (fullr ck) (all_headers vs) -> load ck (enc_file vs) = None).
Proof.
  intros LAW OK. pose proof (@file_cases ck vs (length (enc_file vs)) LAW OK ltac:(lia)) as C. rewrite firstn_all in C.
  destruct C as [(j & J & R & H & LJ)|(R & N)].
  - assert (j = length vs).
    { destruct (Nat.eq_dec j (length vs)) as [|NE]; auto. exfalso. rewrite !file_len in LJ.
      rewrite <- (firstn_skipn j vs) in LJ at 1 3. rewrite clen_app in LJ.
      assert (X : 30 <= clen (skipn j vs)).
      { apply clen_big; [intros v I; apply OK; rewrite <- (firstn_skipn j vs); apply in_or_app; now right|].
        intros E. assert (Y : length (skipn j vs) = 0) by now rewrite E. rewrite skipn_length in Y. lia. }
      lia. }
    subst j. rewrite firstn_all in *. split; intros; [exact R|contradiction].
  - split; intros H; [|exact R]. exfalso. apply N. split; [left; now rewrite file_len|exact H].
Qed.
Lemma as_map_lookup vs n : forall v, In v vs -> vname v = n -> exists w, In w vs /\ vname w = n /\
  find (fun e => zs_eqb (fst e) n) (as_map vs) = Some (n, content w) /\ (exists a b, vs = a ++ w :: b /\ forall u, In u b -> vname u <> n).
Proof.
  unfold as_map. induction vs as [|u vs IH] using rev_ind; intros v I E; [contradiction|].
  rewrite fold_left_app. cbn [fold_left]. unfold put at 1. cbn [find fst].
  destruct (zs_eqb (vname u) n) eqn:ZN.
  - apply zs_eqb_eq in ZN. exists u. split; [apply in_or_app; right; now left|]. split; [exact ZN|]. split; [now rewrite ZN|].
    exists vs, []. split; [reflexivity|]. intros w [].
  - assert (NE : vname u <> n) by (intros Q; apply zs_eqb_eq in Q; congruence).
    apply in_app_or in I. destruct I as [I|[->|[]]]; [|congruence].
    destruct (IH v I E) as (w & W1 & W2 & W3 & a & b & -> & W4). exists w. split; [apply in_or_app; now left|]. split; [exact W2|]. split.
    + assert (G : forall l : list (list Z * dense), find (fun e => zs_eqb (fst e) n) (filter (fun e => negb (zs_eqb (fst e) (vname u))) l) = find (fun e => zs_eqb (fst e) n) l).
      { induction l as [|e l IHl]; cbn; auto. destruct (zs_eqb (fst e) (vname u)) eqn:E1; cbn.
        - apply zs_eqb_eq in E1. destruct (zs_eqb (fst e) n) eqn:E2; [apply zs_eqb_eq in E2; congruence|exact IHl].
        - destruct (zs_eqb (fst e) n); auto. }
      rewrite G. exact W3.
    + exists a, (b ++ [u]). split; [rewrite <- app_assoc; reflexivity|]. intros x X. apply in_app_or in X. destruct X as [X|[<-|[]]]; auto.
Qed.

(* truncated files *)
Lemma truncated ck vs k : lawful ck -> (forall v, In v vs -> var_ok v /\ vdoc v = []) -> k < length (enc_file vs) ->
  load ck (firstn k (enc_file vs)) = None \/
  exists a v b, vs = a ++ v :: b /\ load ck (firstn k (enc_file vs)) = Some (as_map a) /\
    (k = length (enc_file a) \/ (k = length (enc_file a) + 4 /\ vname v <> [])).
Proof.
  intros LAW OK K. destruct (@file_cases ck vs k LAW OK ltac:(lia)) as [(j & J & R & H & LJ)|(R & N)]; [right|now left].
  assert (JL : j < length vs). { destruct (Nat.eq_dec j (length vs)) as [->|]; [|lia]. rewrite firstn_all in LJ. lia. }
  exists (firstn j vs), (nth j vs var0), (skipn (S j) vs).
  split; [|split; [exact R|tauto]].
  rewrite <- (firstn_skipn j vs) at 1. f_equal. clear -JL. revert j JL. induction vs as [|x vs IH]; intros [|j] JL; cbn in *; try lia; auto. apply IH. lia.
Qed.
Lemma truncated_silent ck a v b k : lawful ck -> (forall u, In u (a ++ v :: b) -> var_ok u /\ vdoc u = []) ->
  Forall (fullr ck) (all_headers (a ++ v :: b)) ->
  k = length (enc_file a) \/ (k = length (enc_file a) + 4 /\ vname v <> []) ->
  load ck (firstn k (enc_file (a ++ v :: b))) = Some (as_map a).
Proof.
  intros LAW OK FULL KK. set (vs := a ++ v :: b) in *. rewrite file_len in KK.
  assert (CV : clen vs = clen a + clen (v :: b)) by apply clen_app.
  assert (BV : 30 <= clen (v :: b)) by (apply clen_big; [intros u I; apply OK; apply in_or_app; now right|discriminate]).
  destruct (@file_cases ck vs k LAW OK) as [(j & J & R & H & LJ)|(R & N)].
  - rewrite file_len. lia.
  - rewrite R. f_equal. f_equal. rewrite file_len in LJ.
    (* the cut determines the prefix *)
    destruct (Nat.lt_trichotomy j (length a)) as [G|[E|G]].
    + exfalso. assert (X : clen a = clen (firstn j vs) + clen (skipn j a)).
      { unfold vs. rewrite firstn_app. replace (j - length a) with 0 by lia. cbn [firstn]. rewrite app_nil_r, <- clen_app, firstn_skipn. reflexivity. }
      assert (30 <= clen (skipn j a)).
      { apply clen_big; [intros u I; apply OK; apply in_or_app; left; rewrite <- (firstn_skipn j a); apply in_or_app; now right|].
        intros E. assert (Y : length (skipn j a) = 0) by now rewrite E. rewrite skipn_length in Y. lia. }
      lia.
    + unfold vs. subst j. rewrite firstn_app, firstn_all, Nat.sub_diag. cbn. apply app_nil_r.
    + exfalso. assert (X : clen (firstn j vs) = clen a + clen (firstn (j - length a) (v :: b))).
      { unfold vs. rewrite firstn_app, firstn_all2 by lia. apply clen_app. }
      assert (30 <= clen (firstn (j - length a) (v :: b))).
      { apply clen_big; [|destruct (j - length a) eqn:E; [lia|discriminate]].
        intros u I. apply OK. apply in_or_app. right. rewrite <- (firstn_skipn (j - length a) (v :: b)). apply in_or_app. now left. }
      lia.
  - exfalso. apply N. split; [|exact FULL]. right. exists a, v, b. split; [reflexivity|exact KK].
Qed.

(* documented variables *)
Lemma skip_vars ck D tail : lawful ck -> forall vs fuel p acc, (forall v, In v vs -> var_ok v /\ vdoc v = []) ->
  at_ D p (concat (map enc_var vs) ++ tail) -> tail <> [] -> length D < fuel + p ->
  load_loop ck D fuel p acc = None \/
  exists fuel' acc', length D < fuel' + (p + clen vs) /\ load_loop ck D fuel p acc = load_loop ck D fuel' (p + clen vs) acc'.
Proof.
  intros LAW. induction vs as [|v vs IH]; intros fuel p acc OK A NT FU.
  - right. exists fuel, acc. unfold clen. cbn. rewrite Nat.add_0_r. auto.
  - destruct (OK v (or_introl eq_refl)) as [VO DOC]. assert (VO' := VO). destruct VO' as (_ & _ & _ & V4 & _).
    cbn [map concat] in A. rewrite <- app_assoc in A. assert (A' := A). apply at_app in A. destruct A as [A1 A2]. rewrite (enc_var_split _ DOC) in A1. apply at_app in A1. destruct A1 as [A0 A1].
    rewrite app_length, enc_length in A1. set (nl := length (vname v)) in *.
    assert (EL := enc_var_len _ DOC). fold nl in EL.
    assert (PD : p + length (enc_var v) <= length D) by (destruct A2; lia).
    destruct fuel as [|fu]; [lia|]. cbn [load_loop]. rewrite clen_cons.
    destruct (@read_string_cases ck LAW D (length D) ltac:(lia) p nl (vname v) A0 eq_refl V4) as [(F4 & K4 & K4' & R4)|[(G4 & K4 & R4)|[(G4 & R4)|(G4 & N4 & K4 & R4)]]]; rewrite firstn_all in R4; try (unfold rest_len in *; lia); rewrite R4; [|now left].
    destruct (@one_var_cases ck LAW D (length D) ltac:(lia) v (p + 4 + nl) VO) as [(F & K & R)|(K & R)].
    { now replace (p + 4 + nl) with (p + (4 + nl)) by lia. }
    + rewrite firstn_all in R. rewrite R. replace (p + 4 + nl + rest_len v) with (p + length (enc_var v)) by lia.
      destruct (IH fu (p + length (enc_var v)) (put (vname v) (content v) acc)) as [E|(f' & a' & F' & E)].
      { intros w W. apply OK. now right. }
      { exact A2. }
      { exact NT. }
      { lia. }
      { now left. }
      right. exists f', a'. split; [lia|]. replace (p + (length (enc_var v) + clen vs)) with (p + length (enc_var v) + clen vs) by lia. exact E.
    + rewrite firstn_all in R. rewrite R. now left.
Qed.
Lemma doc_panics ck vs v ws : lawful ck -> (forall u, In u vs -> var_ok u /\ vdoc u = []) ->
  (Z.of_nat (length (vname v)) < 2 ^ 32)%Z -> vdoc v <> [] -> (forall x, In x (vdoc v) -> x <> 255%Z) -> vglob v <> 255%Z ->
  load ck (enc_file (vs ++ v :: ws)) = None.
Proof.
  intros LAW OK V4 ND DB GB. set (D := enc_file (vs ++ v :: ws)).
  assert (A0 : at_ D 0 (magic ++ [0%Z] ++ concat (map enc_var (vs ++ v :: ws)))) by (unfold D; exact (at_whole [] _)).
  apply at_app in A0. destruct A0 as [A1 A0]. apply at_app in A0. destruct A0 as [A2 A3]. cbn [length magic Nat.add] in *.
  assert (FA := firstn_all D). unfold load.
  destruct (@read_cases ck LAW D (length D) ltac:(lia) 0 magic A1) as [(F1 & K1 & R1)|[(G1 & K1 & R1)|(G1 & R1)]]; cbn [length magic Nat.add] in *; [discriminate| | |]; rewrite FA in R1; rewrite R1; cbn [chk]; auto.
  assert (ZE : zs_eqb magic magic = true) by (now apply zs_eqb_eq). rewrite ZE. cbn [negb].
  destruct (@read_cases ck LAW D (length D) ltac:(lia) 10 [0%Z] A2) as [(F2 & K2 & R2)|[(G2 & K2 & R2)|(G2 & R2)]]; cbn [length Nat.add] in *; [discriminate| | |]; rewrite FA in R2; rewrite R2; cbn [chk]; auto.
  rewrite map_app, concat_app in A3.
  assert (TL : concat (map enc_var (v :: ws)) <> []).
  { cbn [map concat]. intros E. apply (f_equal (@length Z)) in E. rewrite app_length in E. unfold enc_var in E. rewrite app_length, enc_length in E. discriminate. }
  destruct (@skip_vars ck D _ LAW vs (S (length D)) 11 [] OK A3 TL ltac:(lia)) as [E|(fu & acc & FU & E)]; rewrite E; auto.
  apply at_app in A3. destruct A3 as [_ A3]. fold (clen vs) in A3. set (p := 11 + clen vs) in *.
  cbn [map concat] in A3. apply at_app in A3. destruct A3 as [A3 _]. unfold enc_var in A3. rewrite app_assoc in A3. apply at_app in A3. destruct A3 as [B1 B2].
  destruct fu as [|fu]; [reflexivity|]. cbn [load_loop]. set (nl := length (vname v)) in *. rewrite app_length, enc_length in B2. fold nl in B2.
  apply at_app in B2. destruct B2 as [B2 B3]. rewrite enc_length in B3.
  (* the two bytes after the length of the documentation *)
  assert (X : exists x y t, vdoc v ++ [vglob v] = x :: y :: t /\ y <> 255%Z).
  { destruct (vdoc v) as [|x [|y t]]; [congruence| |]; cbn; eexists _, _, _; split; eauto. apply DB. cbn. auto. }
  destruct X as (x & y & t & X & NY). rewrite app_assoc, X in B3. change ((x :: y :: t) ++ ?l) with ([x] ++ [y] ++ (t ++ l)) in B3.
  apply at_app in B3. destruct B3 as [B3 B4]. apply at_app in B4. destruct B4 as [B4 _]. cbn [length] in *.
  assert (PD : p + (4 + nl) + 4 + 2 <= length D) by (destruct B4; cbn [length] in *; lia).
  destruct (@read_string_cases ck LAW D (length D) ltac:(lia) p nl (vname v) B1 eq_refl V4) as [(F4 & K4 & K4' & R4)|[(G4 & K4 & R4)|[(G4 & R4)|(G4 & N4 & K4 & R4)]]]; rewrite FA in R4; try lia; rewrite R4; auto.
  assert (OV : one_var ck D (p + 4 + nl) = None); [|now rewrite OV].
  replace (p + (4 + nl)) with (p + 4 + nl) in * by lia. unfold one_var.
  destruct (@read_ign_cases ck LAW D (length D) ltac:(lia) _ _ B2) as [(F5 & K5 & R5)|[(K5 & R5)|(G5 & R5)]]; rewrite ?enc_length in *; try lia; rewrite FA in R5; rewrite R5; auto.
  destruct (@read_ign_cases ck LAW D (length D) ltac:(lia) _ _ B3) as [(F6 & K6 & R6)|[(K6 & R6)|(G6 & R6)]]; cbn [length] in *; try lia; rewrite FA in R6; rewrite R6; auto.
  destruct (@read_cases ck LAW D (length D) ltac:(lia) _ _ B4) as [(F7 & K7 & R7)|[(G7 & K7 & R7)|(G7 & R7)]]; cbn [length] in *; try lia; rewrite FA in R7; rewrite R7; cbn [chk]; auto.
  cbn [nth]. destruct (Z.eqb_spec y 255); [contradiction|reflexivity].
Qed.

(* in the words of the properties *)
Lemma full_forall ck vs : Forall (fullr ck) (all_headers vs) <-> forall p n, In (p, n) ((0, 10) :: (10, 1) :: headers 11 vs) -> 0 < n -> ck p n = n.
Proof.
  rewrite Forall_forall. unfold fullr, all_headers. split.
  - intros H p n I N. specialize (H _ I). cbn [fst snd] in H. lia.
  - intros H [p n] I. cbn [fst snd]. destruct n as [|n]; [now right|]. left. apply H; [exact I|lia].
Qed.
Lemma as_map_names vs n e : find (fun x => zs_eqb (fst x) n) (as_map vs) = Some e -> exists v, In v vs /\ vname v = n.
Proof.
  intros F. apply find_some in F. destruct F as [I E]. apply zs_eqb_eq in E.
  assert (G : forall vs acc, In e (fold_left (fun m v => put (vname v) (content v) m) vs acc) -> In e acc \/ exists v, In v vs /\ vname v = fst e).
  { clear. induction vs as [|v vs IH]; intros acc I; [now left|]. cbn [fold_left] in I. apply IH in I. destruct I as [I|(w & W & F)].
    - unfold put in I. destruct I as [<-|I]; [right; exists v; split; [now left|reflexivity]|]. apply filter_In in I. now left.
    - right. exists w. split; [now right|exact F]. }
  destruct (G _ _ I) as [[]|(v & V & W)]. exists v. split; [exact V|congruence].
Qed.
Lemma roundtrip ck vs : lawful ck -> (forall v, In v vs -> var_ok v /\ vdoc v = []) ->
  (forall p n, In (p, n) ((0, 10) :: (10, 1) :: headers 11 vs) -> 0 < n -> ck p n = n) ->
  exists m, load ck (enc_file vs) = Some m /\
    (forall n e, find (fun x => zs_eqb (fst x) n) m = Some e -> exists v, In v vs /\ vname v = n) /\
    (forall a v b, vs = a ++ v :: b -> (forall u, In u b -> vname u <> vname v) ->
       find (fun x => zs_eqb (fst x) (vname v)) m = Some (vname v, content v)).
Proof.
  intros LAW OK H. exists (as_map vs). split; [apply load_iff; auto; now apply full_forall|]. split; [apply as_map_names|].
  intros a v b E N. destruct (@as_map_lookup vs (vname v) v) as (w & _ & W2 & -> & a' & b' & E' & N'); [rewrite E; apply in_or_app; right; now left|reflexivity|].
  f_equal. f_equal. f_equal. rewrite E in E'. clear -E' N N' W2. revert a' E'. induction a as [|x a IH]; intros [|y a'] E'; cbn in E'; injection E' as E0 E1.
  - congruence.
  - exfalso. subst. apply (N w); [apply in_or_app; right; now left|exact W2].
  - exfalso. subst. apply (N' v); [apply in_or_app; right; now left|congruence].
  - now apply IH in E1.
Qed.
Lemma short_read ck vs : lawful ck -> (forall v, In v vs -> var_ok v /\ vdoc v = []) ->
  (exists p n, In (p, n) ((0, 10) :: (10, 1) :: headers 11 vs) /\ 0 < n /\ ck p n <> n) ->
  load ck (enc_file vs) = None.
Proof.
  intros LAW OK (p & n & I & N & C). apply load_iff; auto. intros F. apply C. rewrite full_forall in F. now apply F.
Qed.
Lemma silent ck a v b : lawful ck -> (forall u, In u (a ++ v :: b) -> var_ok u /\ vdoc u = []) ->
  (forall p n, In (p, n) ((0, 10) :: (10, 1) :: headers 11 (a ++ v :: b)) -> 0 < n -> ck p n = n) -> vname v <> [] ->
  load ck (firstn (length (enc_file a) + 4) (enc_file (a ++ v :: b))) = Some (as_map a).
Proof. intros LAW OK H N. apply truncated_silent; auto. now apply full_forall. Qed.
