(* Proofs about MlpIoModel. *)
From Coq Require Import String Ascii.
From Verif Require Import Common QCommon MlpModel MlpProofs MlpTrainProofs MlpIoModel.
From Verif Require PlumbModel.
Import ListNotations.
Open Scope nat_scope.
Open Scope list_scope.

(* ------------------------------------------------------------------ omap *)
Lemma omap_some {X Y} (f : X -> option Y) l : (forall x, In x l -> exists y, f x = Some y) -> exists l', omap f l = Some l'.
Proof.
  induction l as [|x t IH]; intros H; [exists []; reflexivity|]. destruct (H x) as [y Ey]; [cbn; auto|].
  destruct IH as [l' El]; [intros z Hz; apply H; cbn; auto|]. exists (y :: l'). cbn. now rewrite Ey, El.
Qed.
Lemma omap_none {X Y} (f : X -> option Y) l x : In x l -> f x = None -> omap f l = None.
Proof.
  induction l as [|y t IH]; intros H E; [destruct H|]. destruct H as [->|H]; cbn; [now rewrite E|].
  rewrite (IH H E). destruct (f y); reflexivity.
Qed.
Lemma omap_map {X Y Z} (f : Y -> option Z) (g : X -> Y) (h : X -> Z) l : (forall x, In x l -> f (g x) = Some (h x)) -> omap f (map g l) = Some (map h l).
Proof. induction l as [|x t IH]; intros H; [reflexivity|]. cbn. rewrite H by (cbn; auto). rewrite IH; [reflexivity|]. intros z Hz. apply H. cbn. auto. Qed.
Lemma omap_ext_some {X Z} (f : X -> option Z) (h : X -> Z) l : (forall x, In x l -> f x = Some (h x)) -> omap f l = Some (map h l).
Proof. intros H. rewrite <- (map_id l) at 1. now apply omap_map. Qed.
Lemma omap_length {X Y} (f : X -> option Y) l : forall l', omap f l = Some l' -> length l' = length l.
Proof.
  induction l as [|x t IH]; intros l' H; cbn in H; [injection H as <-; reflexivity|].
  destruct (f x); [|discriminate]. destruct (omap f t); [|discriminate]. injection H as <-. cbn. f_equal. now apply IH.
Qed.

(* ------------------------------------------------------------------ loading *)
Section Load.
  Context {A : Type}.
  Definition jvec (v : list A) : json A := JArr (map JNum v).
  Definition jmat (W : list (list A)) : json A := JArr (map jvec W).
  (* weight matrices and intercepts of a network with these numbers of units; no input layer of 0 units *)
  Inductive shaped : list nat -> list (list (list A)) -> list (list A) -> Prop :=
  | shaped_nil u : shaped [u] [] []
  | shaped_cons a b us W Ws bi Is : 0 < a -> length W = a -> Forall (fun row => length row = b) W -> length bi = b ->
      shaped (b :: us) Ws Is -> shaped (a :: b :: us) (W :: Ws) (bi :: Is).

  Lemma floats_jvec v : floats_from (jvec v) = Some v.
  Proof. unfold floats_from, jvec. rewrite (@omap_map _ _ _ _ JNum (fun x => x)) by auto. now rewrite map_id. Qed.
  Definition gmat (b : nat) (W : list (list A)) : gen A := mkgen (length W) b b (concat W).
  Lemma blas_jmat W b : 0 < length W -> Forall (fun row => length row = b) W -> blas_from (jmat W) = Some (gmat b W).
  Proof.
    intros HL HF. destruct W as [|w0 W]; [cbn in HL; lia|]. unfold blas_from, jmat. cbn [map]. unfold jvec at 1.
    rewrite map_length. rewrite Forall_forall in HF. pose proof (HF w0 (or_introl eq_refl)) as H0. rewrite H0.
    change (jvec w0 :: map jvec W) with (map jvec (w0 :: W)). rewrite (@omap_map _ _ _ _ jvec (fun x => x)).
    - rewrite map_id, map_length. reflexivity.
    - intros x Hx. rewrite floats_jvec. rewrite (HF x Hx), Nat.ltb_irrefl. f_equal. apply firstn_all2. rewrite (HF x Hx). lia.
  Qed.
  Arguments blas_jmat {W b}.

  Fixpoint body (Ws : list (list (list A))) (Is : list (list A)) : list A :=
    match Ws, Is with W :: Ws', bi :: Is' => bi ++ concat W ++ body Ws' Is' | _, _ => [] end.
  Lemma concat_len_io (W : list (list A)) b : Forall (fun row => length row = b) W -> length (concat W) = length W * b.
  Proof. induction 1 as [|r W Hr HF IH]; cbn; auto. rewrite app_length, IH, Hr. lia. Qed.
  Arguments concat_len_io {W b}.
  Lemma blit_app (pre x rest : list A) : length x <= length rest -> blit (pre ++ rest) (length pre) x = pre ++ x ++ skipn (length x) rest.
  Proof.
    intros H. unfold blit. rewrite firstn_app, firstn_all, Nat.sub_diag. cbn [firstn]. rewrite app_nil_r. f_equal. f_equal.
    rewrite skipn_app, skipn_all2 by lia. cbn. f_equal. lia.
  Qed.
  Lemma load_spec us Ws Is : shaped us Ws Is -> forall pre rest bs, length rest = packed_size us -> omap blas_from (map jmat Ws) = Some bs ->
    load (pre ++ rest) (pack (length pre) us) (map jvec Is) bs = Some (pre ++ body Ws Is).
  Proof.
    induction 1 as [u|a b us W Ws bi Is Ha HW HF Hb Hsh IH]; intros pre rest bs Hr Hbs.
    - cbn in Hr. destruct rest; [|discriminate]. cbn. reflexivity.
    - cbn [map omap] in Hbs. rewrite (@blas_jmat W b) in Hbs by (auto; lia). change (omap blas_from (map jmat Ws)) with (omap blas_from (map jmat Ws)) in Hbs.
      destruct (omap blas_from (map jmat Ws)) as [bs'|] eqn:Ebs; [|discriminate]. injection Hbs as <-.
      cbn [packed_size] in Hr. cbn [pack load map]. rewrite floats_jvec. rewrite Hb, Nat.ltb_irrefl. rewrite firstn_all2 by lia.
      rewrite blit_app by lia. rewrite Hb. cbn [gmat g_rows g_cols g_data]. rewrite HW.
      pose proof (concat_len_io HF) as HC. rewrite HW in HC.
      rewrite !app_length, skipn_length. destruct (Nat.ltb_spec (length pre + (length bi + (length rest - b)) - (length pre + b)) (a * b)) as [Hlt|_]; [lia|].
      rewrite (firstn_all2 (concat W)) by lia.
      replace (pre ++ bi ++ skipn b rest) with ((pre ++ bi) ++ skipn b rest) by now rewrite app_assoc.
      replace (length pre + b) with (length (pre ++ bi)) by (rewrite app_length; lia).
      rewrite blit_app by (rewrite skipn_length; lia). rewrite HC, skipn_skipn.
      cbn [body]. rewrite app_assoc. rewrite app_assoc. rewrite app_assoc.
      replace (length (pre ++ bi) + a * b) with (length ((pre ++ bi) ++ concat W)) by (rewrite !app_length; lia).
      rewrite IH with (bs := bs'); auto.
      rewrite skipn_length. cbn [packed_size] in *. lia.
  Qed.

  Lemma slice_app (pre x post : list A) : slice (pre ++ x ++ post) (length pre) (length x) = x.
  Proof. unfold slice. rewrite skipn_app, skipn_all, Nat.sub_diag. cbn. rewrite firstn_app, firstn_all, Nat.sub_diag. cbn. now rewrite app_nil_r. Qed.
  Lemma tiles_spec us Ws Is : shaped us Ws Is -> forall pre i W bi, nth_error Ws i = Some W -> nth_error Is i = Some bi ->
    exists io co, nth_error (pack (length pre) us) i = Some (io, length bi, co, length (concat W)) /\
      slice (pre ++ body Ws Is) io (length bi) = bi /\ slice (pre ++ body Ws Is) co (length (concat W)) = concat W /\
      Forall (fun row => length row = length bi) W.
  Proof.
    induction 1 as [u|a b us W0 Ws bi0 Is Ha HW HF Hb Hsh IH]; intros pre i W bi HWi HIi; [destruct i; discriminate|].
    pose proof (concat_len_io HF) as HC. rewrite HW in HC.
    destruct i as [|i]; cbn [nth_error] in *.
    - injection HWi as <-. injection HIi as <-. exists (length pre), (length pre + b). cbn [pack nth_error]. rewrite Hb, HC. split; [reflexivity|].
      cbn [body]. split; [rewrite <- Hb; apply slice_app|]. split; [|exact HF].
      replace (length pre + b) with (length (pre ++ bi0)) by (rewrite app_length; lia). rewrite app_assoc. rewrite <- HC. apply slice_app.
    - cbn [pack nth_error body]. replace (length pre + b + a * b) with (length (pre ++ bi0 ++ concat W0)) by (rewrite !app_length; lia).
      replace (pre ++ bi0 ++ concat W0 ++ body Ws Is) with ((pre ++ bi0 ++ concat W0) ++ body Ws Is) by now rewrite <- !app_assoc.
      now apply IH.
  Qed.
  Lemma shaped_units us Ws Is : shaped us Ws Is -> forall bs, omap blas_from (map jmat Ws) = Some bs -> us = hd 0 us :: map g_cols bs /\ length bs = length Ws /\
    (Ws <> [] -> g_rows (hd (mkgen 0 0 0 []) bs) = hd 0 us).
  Proof.
    induction 1 as [u|a b us W Ws bi Is Ha HW HF Hb Hsh IH]; intros bs Hbs; cbn [map omap] in Hbs.
    - injection Hbs as <-. cbn. repeat split; auto. intros H. now elim H.
    - rewrite (@blas_jmat W b) in Hbs by (auto; lia). destruct (omap blas_from (map jmat Ws)) as [bs'|] eqn:E; [|discriminate]. injection Hbs as <-.
      destruct (IH bs' eq_refl) as (E1 & E2 & _). cbn [hd map length gmat g_cols g_rows] in *. rewrite <- E1, E2. repeat split; auto.
  Qed.
  Arguments shaped_units {us Ws Is}.
  Lemma shaped_blas us Ws Is : shaped us Ws Is -> exists bs, omap blas_from (map jmat Ws) = Some bs.
  Proof.
    induction 1 as [u|a b us W Ws bi Is Ha HW HF Hb Hsh [bs' IH]]; [exists []; reflexivity|]. cbn [map omap].
    rewrite (@blas_jmat W b) by (auto; lia). rewrite IH. eexists. reflexivity.
  Qed.
  Arguments shaped_blas {us Ws Is}.
  Lemma nth_concat_const (W : list (list A)) b : Forall (fun row => length row = b) W -> forall r row c w, nth_error W r = Some row -> nth_error row c = Some w ->
    nth_error (concat W) (r * b + c) = Some w.
  Proof.
    induction 1 as [|r0 W Hr HF IH]; intros r row c w H1 H2; [destruct r; discriminate|]. cbn [concat].
    destruct r as [|r]; cbn [nth_error] in H1.
    - injection H1 as <-. cbn. rewrite nth_error_app1; auto. apply nth_error_Some. congruence.
    - rewrite nth_error_app2 by (cbn; lia). replace (S r * b + c - length r0) with (r * b + c) by (cbn; lia). eapply IH; eauto.
  Qed.

  Lemma unmarshal_loads order rnd (n : net A) mp fs us Ws Is :
    let ps := match jget "params" mp with Some (JObj pm) => pm | Some _ => [] | None => mp end in
    set_params (n_fields n) (order ps) = Some fs -> (forall k, length (rnd k) = k) ->
    jget "coefs_" mp = Some (JArr (map jmat Ws)) -> jget "intercepts_" mp = Some (JArr (map jvec Is)) -> shaped us Ws Is -> Ws <> [] ->
    unmarshal order rnd n mp = UOk (mknet fs us (repeat 0 (length Ws - 1)) (1 <? last us 0) (body Ws Is)).
  Proof.
    intros ps Hfs Hrnd Hc Hi Hsh Hne. unfold unmarshal. fold ps. rewrite Hfs, Hc, Hi.
    destruct (shaped_blas Hsh) as [bs Ebs]. destruct (shaped_units Hsh bs Ebs) as (E1 & E2 & E3). specialize (E3 Hne).
    destruct Ws as [|W Ws]; [now elim Hne|]. cbn [map]. change (jmat W :: map jmat Ws) with (map jmat (W :: Ws)). rewrite Ebs, E3, <- E1, E2.
    pose proof (@load_spec _ _ _ Hsh [] (rnd (packed_size us)) bs (Hrnd _) Ebs) as HL. cbn [app length] in HL. rewrite HL. reflexivity.
  Qed.
  Lemma loaded_cells fs us Ws Is h s : shaped us Ws Is -> forall i W bi, nth_error Ws i = Some W -> nth_error Is i = Some bi ->
    let n := mknet fs us h s (body Ws Is) in
    (forall r row c w, nth_error W r = Some row -> nth_error row c = Some w -> coef_at n i r c = Some w) /\
    (forall c w, nth_error bi c = Some w -> intercept_at n i c = Some w).
  Proof.
    intros Hsh i W bi HW HI n. destruct (@tiles_spec _ _ _ Hsh [] i W bi HW HI) as (io & co & E & S1 & S2 & HF). cbn [app length] in E, S1, S2.
    unfold coef_at, intercept_at. subst n. cbn [n_units n_mem]. rewrite E, S1, S2. split; [|auto].
    intros r row c w Hr Hcw. eapply nth_concat_const; eauto.
  Qed.
End Load.

(* ------------------------------------------------------------------ settings *)
Fixpoint has_us (s : string) : bool := match s with EmptyString => false | String c t => Ascii.eqb c "_" || has_us t end.
Lemma lower_us c : Ascii.eqb (PlumbModel.lower_ascii c) "_" = Ascii.eqb c "_".
Proof. destruct c as [[] [] [] [] [] [] [] []]; reflexivity. Qed.
Lemma has_us_lower s : has_us (PlumbModel.lower s) = has_us s.
Proof. induction s as [|c s IH]; [reflexivity|]. cbn [PlumbModel.lower has_us]. now rewrite lower_us, IH. Qed.
Lemma fold_us a b : PlumbModel.equal_fold a b = true -> has_us a = has_us b.
Proof. unfold PlumbModel.equal_fold. intros H. apply String.eqb_eq in H. rewrite <- (has_us_lower a), <- (has_us_lower b). now rewrite H. Qed.

Section Params.
  Context {A : Type}.
  Definition skel (l : list (pfield A)) : list (string * bool * jty) := map (fun f => (p_name f, p_exp f, p_ty f)) l.
  Lemma ppos_none k (l : list (pfield A)) : forall i, (forall f, In f l -> has_us (p_name f) = false) -> has_us k = true -> ppos k l i = [].
  Proof.
    induction l as [|f t IH]; intros i H Hk; [reflexivity|]. cbn [ppos]. destruct (PlumbModel.equal_fold (p_name f) k) eqn:E.
    - apply fold_us in E. rewrite (H f) in E by (cbn; auto). congruence.
    - apply IH; auto. intros g Hg. apply H. cbn. auto.
  Qed.
  Lemma set_us (l : list (pfield A)) kvs : (forall f, In f l -> has_us (p_name f) = false) -> (forall kv, In kv kvs -> has_us (fst kv) = true) -> set_params l kvs = Some l.
  Proof.
    intros H. induction kvs as [|kv t IH]; intros Hk; [reflexivity|]. cbn [set_params]. unfold set_one. rewrite ppos_none; auto.
    - apply IH. intros x Hx. apply Hk. cbn. auto.
    - apply Hk. cbn. auto.
  Qed.
  Lemma mlp_names (vals : string -> json A) f : In f (mlp_fields vals) -> has_us (p_name f) = false.
  Proof.
    unfold mlp_fields. intros H. apply in_map_iff in H. destruct H as ([[nm tag] t] & <- & H). cbn [p_name].
    assert (Hall : forallb (fun d => negb (has_us (fst (fst d)))) mlp_decl = true) by (vm_compute; reflexivity).
    rewrite forallb_forall in Hall. specialize (Hall _ H). cbn in Hall. now apply negb_true_iff in Hall.
  Qed.
  Lemma ppos_names k (l l' : list (pfield A)) : map p_name l = map p_name l' -> forall i, ppos k l i = ppos k l' i.
  Proof.
    revert l'. induction l as [|f t IH]; intros [|f' t'] H i; try discriminate; [reflexivity|]. cbn in H. injection H as H1 H2. cbn [ppos]. rewrite H1.
    destruct (PlumbModel.equal_fold _ _); [f_equal|]; now apply IH.
  Qed.
  Lemma set_one_skel (l l' : list (pfield A)) kv : set_one l kv = Some l' -> skel l' = skel l.
  Proof.
    unfold set_one. destruct (ppos (fst kv) l 0) as [|i [|]]; intros H; try (injection H as <-; reflexivity).
    destruct (nth_error l i) as [f|] eqn:E; [|discriminate]. destruct (p_exp f && assignable (p_ty f) (snd kv)) eqn:G; [|discriminate]. injection H as <-.
    apply andb_prop in G. destruct G as [G1 G2]. unfold skel. rewrite map_upd. cbn [p_name p_exp p_ty]. apply upd_same. rewrite nth_error_map, E. cbn. now rewrite G1.
  Qed.
  (* a key on which a table of fields panics makes every run over a map that has it panic *)
  Lemma set_params_panic (l : list (pfield A)) kvs k v : In (k, v) kvs -> (forall l', skel l' = skel l -> set_one l' (k, v) = None) -> set_params l kvs = None.
  Proof.
    revert l. induction kvs as [|kv t IH]; intros l H HP; [destruct H|]. cbn [set_params]. destruct H as [->|H].
    - rewrite HP; auto.
    - destruct (set_one l kv) as [l1|] eqn:E; [|reflexivity]. apply IH; auto. intros l' Hl. apply HP. rewrite Hl. now apply set_one_skel in E.
  Qed.
  Lemma skel_names (l l' : list (pfield A)) : skel l = skel l' -> map p_name l = map p_name l'.
  Proof. intros H. unfold skel in H. apply (f_equal (map (fun x => fst (fst x)))) in H. rewrite !map_map in H. cbn in H. exact H. Qed.
  Lemma bad_type (vals : string -> json A) l nm i b t v : skel l = skel (mlp_fields vals) -> ppos nm (mlp_fields vals) 0 = [i] ->
    nth_error (skel (mlp_fields vals)) i = Some (nm, b, t) -> assignable t v = false -> set_one l (nm, v) = None.
  Proof.
    intros H P N Ha. unfold set_one. cbn [fst snd]. rewrite (ppos_names nm _ _ (skel_names _ _ H)), P. rewrite <- H in N. unfold skel in N. rewrite nth_error_map in N.
    destruct (nth_error l i) as [f|]; [|reflexivity]. cbn in N. injection N as N1 N2 N3. rewrite N3, Ha, andb_false_r. reflexivity.
  Qed.
  Lemma int_key_panics (vals : string -> json A) nm tag v l : In (nm, tag, TyInt) mlp_decl -> skel l = skel (mlp_fields vals) -> set_one l (nm, v) = None.
  Proof.
    intros HI HS.
    assert (HP : exists i b, ppos nm (mlp_fields vals) 0 = [i] /\ nth_error (skel (mlp_fields vals)) i = Some (nm, b, TyInt)).
    { cbn [mlp_decl In] in HI. repeat (destruct HI as [HI|HI]; [try (discriminate HI); injection HI as <- <-; eexists; eexists; split; vm_compute; reflexivity|]).
  destruct HI. }
    destruct HP as (i & b & P & N). eapply bad_type; eauto.
  Qed.
  Definition set_val (nm : string) (v : json A) (vals : string -> json A) : string -> json A := fun x => if String.eqb x nm then v else vals x.
  Lemma set_one_ok (vals : string -> json A) nm tag t v : In (nm, Some tag, t) mlp_decl -> assignable t v = true -> set_one (mlp_fields vals) (nm, v) = Some (mlp_fields (set_val nm v vals)).
  Proof.
    intros HI Ha. cbn [mlp_decl In] in HI.
    repeat (destruct HI as [HI|HI]; [try (discriminate HI); injection HI as <- <- <-; try (destruct v; discriminate Ha);
      unfold set_one; cbn [fst snd]; match goal with |- context [ppos ?k ?l 0] => let r := eval vm_compute in (ppos k l 0) in change (ppos k l 0) with r end; cbv iota;
      match goal with |- context [nth_error ?l ?i] => let r := eval vm_compute in (nth_error l i) in change (nth_error l i) with r end; cbv iota; cbn [p_exp p_ty p_name]; rewrite Ha; vm_compute; reflexivity|]). destruct HI.
  Qed.
End Params.

(* ------------------------------------------------------------------ shapes *)
Lemma forward_zero rows r c hs Y a coefs : forward_ok a (full rows 0 :: hs ++ [Y]) ((r, c) :: coefs) = false.
Proof. cbn [forward_ok]. unfold gemm_ok, full. cbn [sh_rows sh_cols sh_stride sh_len]. destruct (Nat.max 1 c <=? 0) eqn:E; [apply Nat.leb_le in E; lia|]. now rewrite !andb_false_r. Qed.

Lemma forward_last_false coefs r c Y : add_ok Y c = false -> forall acts a, length acts = length coefs -> forward_ok a (acts ++ [Y]) (coefs ++ [(r, c)]) = false.
Proof.
  intros HY. induction coefs as [|[r0 c0] coefs IH]; intros [|h acts] a HL; try discriminate.
  - cbn [app forward_ok]. now rewrite HY, andb_false_r.
  - cbn [app forward_ok]. rewrite IH by (cbn in HL; lia). apply andb_false_r.
Qed.
Lemma unit_pairs_last us : 2 <= length us -> exists l r, unit_pairs us = l ++ [(r, last us 0)] /\ length l = length us - 2.
Proof.
  induction us as [|a us IH]; intros H; [cbn in H; lia|]. destruct us as [|b us]; [cbn in H; lia|]. destruct us as [|c us]; [exists [], a; cbn; auto|].
  destruct IH as (l & r & E & HL); [cbn; lia|]. exists ((a, b) :: l), r. change (unit_pairs (a :: b :: c :: us)) with ((a, b) :: unit_pairs (b :: c :: us)). rewrite E. cbn [length] in *. split; [reflexivity|lia].
Qed.

(* ------------------------------------------------------------------ scores *)
Definition cells_in (g : gen Q) (rows cols : nat) : Prop := forall r c, r < rows -> c < cols -> r * g_stride g + c < length (g_data g).
Definition cell (g : gen Q) (r c : nat) : Q := nth (r * g_stride g + c) (g_data g) 0%Q.
Lemma gq_cell g rows cols r c : cells_in g rows cols -> r < rows -> c < cols -> gq g (r * g_stride g + c) = Some (cell g r c).
Proof. intros H Hr Hc. unfold gq, cell. apply nth_error_nth'. auto. Qed.
Lemma row_eq_fold Y H i cs : (forall c, In c cs -> gq H (i * g_stride H + c) = Some (cell H i c) /\ gq Y (i * g_stride Y + c) = Some (cell Y i c)) -> forall b,
  fold_left (fun acc c => match acc with
                          | Some true => match gq H (i * g_stride H + c), gq Y (i * g_stride Y + c) with Some h, Some y => Some (Qeq_bool h y) | _, _ => None end
                          | o => o
                          end) cs (Some b) = Some (b && forallb (fun c => Qeq_bool (cell H i c) (cell Y i c)) cs).
Proof.
  induction cs as [|c cs IH]; intros HC b; cbn [fold_left forallb]; [now rewrite andb_true_r|].
  destruct b.
  - destruct (HC c) as [E1 E2]; [cbn; auto|]. rewrite E1, E2. rewrite IH by (intros; apply HC; cbn; auto). reflexivity.
  - rewrite IH by (intros; apply HC; cbn; auto). reflexivity.
Qed.
Lemma filter_id_map {X} (f : X -> bool) l : length (filter (fun b : bool => b) (map f l)) = length (filter f l).
Proof. induction l as [|x l IH]; cbn; auto. destruct (f x); cbn; auto. Qed.
Lemma accuracy_spec Y H : cells_in Y (g_rows Y) (g_cols Y) -> cells_in H (g_rows Y) (g_cols Y) ->
  accuracy64 Y H = Some (inject_Z (Z.of_nat (length (filter (fun i => forallb (fun c => Qeq_bool (cell H i c) (cell Y i c)) (seq 0 (g_cols Y))) (seq 0 (g_rows Y))))) /
                         inject_Z (Z.of_nat (g_rows Y)))%Q.
Proof.
  intros HY HH. unfold accuracy64.
  rewrite (omap_ext_some _ (fun i => forallb (fun c => Qeq_bool (cell H i c) (cell Y i c)) (seq 0 (g_cols Y)))).
  - now rewrite filter_id_map.
  - intros i Hi. apply in_seq in Hi. unfold row_eq. rewrite row_eq_fold; [reflexivity|]. intros c Hc. apply in_seq in Hc.
    split; eapply gq_cell; eauto; lia.
Qed.

(* the sums of r2 over rows, on cells *)
Definition ss_res (Yt Yp : gen Q) (c : nat) : Q := qsum (map (fun r => ((cell Yp r c - cell Yt r c) * (cell Yp r c - cell Yt r c))%Q) (seq 0 (g_rows Yt))).
Definition col_mean (Yt : gen Q) (c : nat) : Q := (qsum (map (fun r => cell Yt r c) (seq 0 (g_rows Yt))) / inject_Z (Z.of_nat (g_rows Yt)))%Q.
Definition ss_tot (Yt : gen Q) (c : nat) : Q := qsum (map (fun r => ((cell Yt r c - col_mean Yt c) * (cell Yt r c - col_mean Yt c))%Q) (seq 0 (g_rows Yt))).
Lemma combine_map2 {X Y Z} (f : X -> Y) (g : X -> Z) l : combine (map f l) (map g l) = map (fun x => (f x, g x)) l.
Proof. induction l; cbn; f_equal; auto. Qed.
Lemma r2_col_spec Yt Yp c : cells_in Yt (g_rows Yt) (g_cols Yt) -> cells_in Yp (g_rows Yt) (g_cols Yt) -> g_stride Yp = g_stride Yt -> c < g_cols Yt ->
  r2_col Yt Yp c = if Qeq_bool (ss_tot Yt c) 0 then None else Some (1 - ss_res Yt Yp c / ss_tot Yt c)%Q.
Proof.
  intros HT HP HS Hc. unfold r2_col.
  rewrite (omap_ext_some _ (fun r => cell Yt r c)) by (intros r Hr; apply in_seq in Hr; eapply gq_cell; eauto; lia).
  rewrite (omap_ext_some _ (fun r => cell Yp r c)) by (intros r Hr; apply in_seq in Hr; rewrite <- HS; eapply gq_cell; eauto; lia).
  rewrite combine_map2, !map_map. reflexivity.
Qed.
Lemma r2_spec Yt Yp : cells_in Yt (g_rows Yt) (g_cols Yt) -> cells_in Yp (g_rows Yt) (g_cols Yt) -> g_stride Yp = g_stride Yt ->
  (forall c, c < g_cols Yt -> ~ (ss_tot Yt c == 0)%Q) ->
  r2_64 Yt Yp = Some (qsum (map (fun c => (1 - ss_res Yt Yp c / ss_tot Yt c)%Q) (seq 0 (g_cols Yt))) / inject_Z (Z.of_nat (g_cols Yt)))%Q.
Proof.
  intros HT HP HS HN. unfold r2_64. rewrite (omap_ext_some _ (fun c => (1 - ss_res Yt Yp c / ss_tot Yt c)%Q)); [reflexivity|].
  intros c Hc. apply in_seq in Hc. rewrite r2_col_spec by (auto; lia). destruct (Qeqb_spec (ss_tot Yt c) 0) as [E|E]; [|reflexivity]. elim (HN c); [lia|auto].
Qed.
Lemma r2_strided Yt Yp : 2 <= g_rows Yt -> 1 <= g_cols Yt -> g_cols Yt < g_stride Yt -> length (g_data Yp) = g_rows Yt * g_cols Yt -> r2_64 Yt Yp = None.
Proof.
  intros Hr Hc Hs HL. unfold r2_64. rewrite (omap_none _ _ (g_cols Yt - 1)); [reflexivity|apply in_seq; lia|].
  unfold r2_col. rewrite (omap_none (fun r => gq Yp (r * g_stride Yt + (g_cols Yt - 1))) _ (g_rows Yt - 1)).
  - destruct (omap _ _); reflexivity.
  - apply in_seq. lia.
  - unfold gq. apply nth_error_None. rewrite HL. nia.
Qed.
Lemma r2_constant Yt Yp c v : c < g_cols Yt -> (forall r, r < g_rows Yt -> nth_error (g_data Yt) (r * g_stride Yt + c) = Some v) -> 1 <= g_rows Yt -> r2_64 Yt Yp = None.
Proof.
  intros Hc Hv Hr. unfold r2_64. rewrite (omap_none _ _ c); [reflexivity|apply in_seq; lia|]. unfold r2_col.
  rewrite (omap_ext_some (fun r => gq Yt (r * g_stride Yt + c)) (fun _ => v)) by (intros r Hi; apply in_seq in Hi; apply Hv; lia).
  destruct (omap _ _) as [ps|]; [|reflexivity].
  set (avg := (qsum (map (fun _ => v) (seq 0 (g_rows Yt))) / inject_Z (Z.of_nat (g_rows Yt)))%Q).
  assert (Ea : (avg == v)%Q).
  { unfold avg. rewrite qsum_const, seq_length. assert (0 < qn (g_rows Yt))%Q by (apply qn_pos; lia). unfold qn in *. field. intros E. rewrite E in H. now apply Qlt_irrefl in H. }
  rewrite map_map. match goal with |- context [Qeq_bool ?d 0] => assert (Ed : (d == 0)%Q) end.
  { rewrite (qsum_map_ext _ (fun _ => 0%Q)) by (intros x _; rewrite Ea; ring). rewrite qsum_const. ring. }
  destruct (Qeqb_spec (qsum (map (fun _ => ((v - avg) * (v - avg))%Q) (seq 0 (g_rows Yt)))) 0) as [_|E]; [reflexivity|]. now elim E.
Qed.

(* ------------------------------------------------------------------ SumRows, deltas *)
Definition gin {A} (g : gen A) : Prop := forall r c, r < g_rows g -> c < g_cols g -> r * g_stride g + c < length (g_data g).
Lemma omap_row_major {X} (f : nat * nat -> option X) rows cols : (forall r c, r < rows -> c < cols -> exists v, f (r, c) = Some v) -> exists l, omap f (row_major rows cols) = Some l.
Proof. intros H. apply omap_some. intros [r c] Hrc. apply row_major_In in Hrc. apply H; lia. Qed.
Lemma omap_in {X Y} (f : X -> option Y) l : forall l' y, omap f l = Some l' -> In y l' <-> exists x, In x l /\ f x = Some y.
Proof.
  induction l as [|x t IH]; intros l' y H; cbn in H; [injection H as <-; split; [intros []|intros (z & [] & _)]|].
  destruct (f x) as [fx|] eqn:E; [|discriminate]. destruct (omap f t) as [t'|] eqn:Et; [|discriminate]. injection H as <-.
  split.
  - intros [->|Hy]; [exists x; cbn; auto|]. apply (IH t' y eq_refl) in Hy. destruct Hy as (z & Hz & Ez). exists z. cbn. auto.
  - intros (z & [->|Hz] & Ez); [left; congruence|]. right. apply (IH t' y eq_refl). eauto.
Qed.
Lemma write_all_app {A} (w1 w2 : list (nat * A)) d : write_all (w1 ++ w2) d = match write_all w1 d with Some d1 => write_all w2 d1 | None => None end.
Proof. unfold write_all. rewrite fold_left_app. destruct (fold_left write1 w1 (Some d)) as [d1|]; [reflexivity|]. apply write_all_none. Qed.
Lemma omap_app {X Y} (f : X -> option Y) l l' : omap f (l ++ l') = match omap f l, omap f l' with Some a, Some b => Some (a ++ b) | _, _ => None end.
Proof.
  induction l as [|x l IH]; cbn; [destruct (omap f l'); reflexivity|]. rewrite IH. destruct (f x); [|destruct (omap f l'); reflexivity].
  destruct (omap f l); [|destruct (omap f l'); reflexivity]. destruct (omap f l'); reflexivity.
Qed.
Lemma row_major_S r c : row_major (S r) c = row_major r c ++ map (fun j => (r, j)) (seq 0 c).
Proof. unfold row_major. rewrite seq_S, flat_map_app. cbn. now rewrite app_nil_r. Qed.
Lemma sum_rows_last {A} (a : gen A) d : gin a -> g_cols a <= length d -> 1 <= g_rows a -> exists d', sum_rows d a = Some d' /\
  (forall c, c < g_cols a -> nth_error d' c = g_at a (g_rows a - 1) c) /\ forall p, g_cols a <= p -> nth_error d' p = nth_error d p.
Proof.
  intros G HL Hr. unfold sum_rows.
  set (f := fun rc : nat * nat => match nth_error (g_data a) (fst rc * g_stride a + snd rc) with Some v => Some (snd rc, v) | None => None end).
  assert (Hf : forall r c, r < g_rows a -> c < g_cols a -> exists v, f (r, c) = Some (c, v) /\ g_at a r c = Some v).
  { intros r c H1 H2. unfold f, g_at. cbn [fst snd]. specialize (G r c H1 H2). rewrite (Nat.add_comm c). destruct (nth_error (g_data a) (r * g_stride a + c)) as [v|] eqn:E; [eauto|]. apply nth_error_None in E. lia. }
  assert (ER : row_major (g_rows a) (g_cols a) = row_major (g_rows a - 1) (g_cols a) ++ map (fun j => (g_rows a - 1, j)) (seq 0 (g_cols a))) by (rewrite <- row_major_S; f_equal; lia).
  rewrite ER, omap_app.
  destruct (@omap_row_major _ f (g_rows a - 1) (g_cols a)) as [w1 E1]; [intros r c H1 H2; destruct (Hf r c) as (v & E & _); [lia|lia|eauto]|].
  destruct (@omap_some _ _ f (map (fun j => (g_rows a - 1, j)) (seq 0 (g_cols a)))) as [w2 E2].
  { intros [r c] Hx. apply in_map_iff in Hx. destruct Hx as (j & Ej & Hj). injection Ej as <- <-. apply in_seq in Hj. destruct (Hf (g_rows a - 1) j) as (v & E & _); [lia|lia|eauto]. }
  rewrite E1, E2, write_all_app.
  destruct (write_all_spec w1 d) as (d1 & W1 & L1 & _ & O1).
  { intros p v Hp. apply (omap_in f _ _ _ E1) in Hp. destruct Hp as ([r c] & Hrc & Ev). apply row_major_In in Hrc. destruct (Hf r c) as (v' & E & _); [lia|lia|]. rewrite E in Ev. injection Ev as <- _. lia. }
  rewrite W1. destruct (write_all_spec w2 d1) as (d2 & W2 & L2 & N2 & O2).
  { intros p v Hp. apply (omap_in f _ _ _ E2) in Hp. destruct Hp as (x & Hx & Ev). apply in_map_iff in Hx. destruct Hx as (j & <- & Hj). apply in_seq in Hj.
    destruct (Hf (g_rows a - 1) j) as (v' & E & _); [lia|lia|]. rewrite E in Ev. injection Ev as <- _. lia. }
  exists d2. split; [exact W2|]. split.
  - intros c Hc. destruct (Hf (g_rows a - 1) c) as (v & E & EA); [lia|lia|]. rewrite EA. apply N2.
    + assert (Hm : map fst w2 = seq 0 (g_cols a)).
      { clear - E2 Hf Hr. assert (HA : forall l, (forall j, In j l -> j < g_cols a) -> forall w, omap f (map (fun j => (g_rows a - 1, j)) l) = Some w -> map fst w = l).
        { induction l as [|j l IH]; intros Hj w Hw; cbn in Hw; [injection Hw as <-; reflexivity|]. destruct (Hf (g_rows a - 1) j) as (v & E & _); [lia|apply Hj; cbn; auto|]. rewrite E in Hw.
          destruct (omap f (map (fun j0 => (g_rows a - 1, j0)) l)) as [w'|] eqn:E'; [|discriminate]. injection Hw as <-. cbn. f_equal. apply IH; auto. intros k Hk. apply Hj. cbn. auto. }
        apply HA; auto. intros j Hj. apply in_seq in Hj. lia. }
      rewrite Hm. apply seq_NoDup.
    + apply (omap_in f _ _ _ E2). exists (g_rows a - 1, c). split; [|exact E]. apply in_map_iff. exists c. split; [reflexivity|]. apply in_seq. lia.
  - intros p Hp. rewrite O2.
    + apply O1. intros HI. apply in_map_iff in HI. destruct HI as ([q v] & E & HI). cbn in E. subst q. apply (omap_in f _ _ _ E1) in HI. destruct HI as ([r c] & Hrc & Ev). apply row_major_In in Hrc.
      destruct (Hf r c) as (v' & E & _); [lia|lia|]. rewrite E in Ev. injection Ev as <- _. lia.
    + intros HI. apply in_map_iff in HI. destruct HI as ([q v] & E & HI). cbn in E. subst q. apply (omap_in f _ _ _ E2) in HI. destruct HI as (x & Hx & Ev). apply in_map_iff in Hx. destruct Hx as (j & <- & Hj). apply in_seq in Hj.
      destruct (Hf (g_rows a - 1) j) as (v' & E & _); [lia|lia|]. rewrite E in Ev. injection Ev as <- _. lia.
Qed.

Lemma out_deltas_full {A} (sub : A -> A -> A) D H y bs : gin y -> g_stride y = g_cols y -> g_rows y <= bs -> length D = bs * g_cols y -> length H = bs * g_cols y ->
  exists D', out_deltas sub D H y = Some D' /\ (forall r c, r < g_rows y -> c < g_cols y -> exists h v, nth_error H (r * g_cols y + c) = Some h /\ g_at y r c = Some v /\
     nth_error D' (r * g_cols y + c) = Some (sub h v)) /\ (forall p, g_rows y * g_cols y <= p -> nth_error D' p = nth_error D p).
Proof.
  intros G HS HR HD HH. unfold out_deltas. rewrite HS.
  set (f := fun rc : nat * nat => let p := fst rc * g_cols y + snd rc in match nth_error H p, nth_error (g_data y) p with Some h, Some v => Some (p, sub h v) | _, _ => None end).
  assert (Hf : forall r c, r < g_rows y -> c < g_cols y -> exists h v, nth_error H (r * g_cols y + c) = Some h /\ g_at y r c = Some v /\ f (r, c) = Some (r * g_cols y + c, sub h v)).
  { intros r c H1 H2. unfold f, g_at. cbn [fst snd]. specialize (G r c H1 H2). rewrite HS in *. rewrite (Nat.add_comm c).
    destruct (nth_error H (r * g_cols y + c)) as [h|] eqn:E; [|apply nth_error_None in E; nia].
    destruct (nth_error (g_data y) (r * g_cols y + c)) as [v|] eqn:E'; [|apply nth_error_None in E'; nia]. eauto. }
  destruct (@omap_row_major _ f (g_rows y) (g_cols y)) as [w E]; [intros r c H1 H2; destruct (Hf r c H1 H2) as (h & v & _ & _ & E); eauto|].
  rewrite E.
  destruct (write_all_spec w D) as (D' & W & L & N & O).
  { intros p v Hp. apply (omap_in f _ _ _ E) in Hp. destruct Hp as ([r c] & Hrc & Ev). apply row_major_In in Hrc. destruct (Hf r c) as (h & v' & _ & _ & E'); [lia|lia|]. rewrite E' in Ev. injection Ev as <- _. nia. }
  exists D'. split; [exact W|]. split.
  - intros r c H1 H2. destruct (Hf r c H1 H2) as (h & v & E1 & E2 & E3). exists h, v. repeat split; auto. apply N.
    + assert (Hm : map fst w = map (fun rc => fst rc * g_cols y + snd rc) (row_major (g_rows y) (g_cols y))).
      { assert (HA : forall l, (forall r c, In (r, c) l -> r < g_rows y /\ c < g_cols y) -> forall w, omap f l = Some w -> map fst w = map (fun rc => fst rc * g_cols y + snd rc) l).
        { clear - Hf. induction l as [|[r c] l IH]; intros Hj w Hw; cbn [omap] in Hw; [injection Hw as <-; reflexivity|]. destruct (Hj r c) as [Hr Hc]; [cbn; auto|].
          destruct (Hf r c Hr Hc) as (h & v & _ & _ & E). rewrite E in Hw.
          destruct (omap f l) as [w'|] eqn:E'; [|discriminate]. injection Hw as <-. cbn. f_equal. apply IH; auto. intros r' c' Hk. apply Hj. cbn. auto. }
        apply HA; auto. intros r' c' Hi. now apply row_major_In. }
      rewrite Hm. apply NoDup_map_inj'; [apply row_major_NoDup|]. intros [r1 c1] [r2 c2] I1 I2 EE. apply row_major_In in I1, I2. cbn in EE.
      destruct (@cell_inj (g_cols y) r1 c1 r2 c2) as [-> ->]; auto; lia.
    + apply (omap_in f _ _ _ E). exists (r, c). split; [|exact E3]. now apply row_major_In.
  - intros p Hp. apply O. intros HI. apply in_map_iff in HI. destruct HI as ([q v] & Eq & HI). cbn in Eq. subst q. apply (omap_in f _ _ _ E) in HI. destruct HI as ([r c] & Hrc & Ev). apply row_major_In in Hrc.
    destruct (Hf r c) as (h & v' & _ & _ & E'); [lia|lia|]. rewrite E' in Ev. injection Ev as <- _. nia.
Qed.
Lemma out_deltas_strided {A} (sub : A -> A -> A) D H y : g_cols y < g_stride y -> 2 <= g_rows y -> 1 <= g_cols y -> length H = g_rows y * g_cols y -> out_deltas sub D H y = None.
Proof.
  intros HS HR HC HH. unfold out_deltas.
  rewrite (omap_none _ _ (g_rows y - 1, g_cols y - 1)); [reflexivity|apply row_major_In; lia|]. cbn [fst snd].
  replace (nth_error H ((g_rows y - 1) * g_stride y + (g_cols y - 1))) with (@None A); [reflexivity|]. symmetry. apply nth_error_None.
  assert (HM : (g_rows y - 1) * (S (g_cols y)) <= (g_rows y - 1) * g_stride y) by (apply Nat.mul_le_mono_l; lia). nia.
Qed.

(* ------------------------------------------------------------------ warm start *)
Lemma grads_ok_spec us : forall off packed, us <> [] -> grads_ok (length us - 1) off us packed = (match us with [_] => true | _ => off + packed_size us <=? packed end).
Proof.
  induction us as [|a us IH]; intros off packed H; [now elim H|]. destruct us as [|b us]; [reflexivity|].
  replace (length (a :: b :: us) - 1) with (S (length (b :: us) - 1)) by (cbn; lia). cbn [grads_ok]. rewrite IH by discriminate.
  destruct us as [|c us].
  - rewrite andb_true_r. f_equal. cbn [packed_size]. lia.
  - change (packed_size (a :: b :: c :: us)) with ((1 + a) * b + packed_size (b :: c :: us)). set (q := packed_size (b :: c :: us)). replace (off + ((1 + a) * b + q)) with (off + b + a * b + q) by lia.
    destruct (Nat.leb_spec (off + b + a * b) packed), (Nat.leb_spec (off + b + a * b + q) packed); auto; lia.
Qed.
