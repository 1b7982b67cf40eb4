From Coq Require Import Relations.
From Verif Require Import QCommon ClusterModel.
Open Scope Z_scope.

Section D.
Variable isCore : list bool.
Variable nbh : list (list nat).
Let n := length nbh.
Notation isc := (isc isCore).
Notation nbrs := (nbrs nbh).
Hypothesis Hrange : forall i v, In v (nbrs i) -> (v < n)%nat.
Hypothesis Hcore : length isCore = n.

Lemma isc_lt i : isc i = true -> (i < n)%nat.
Proof. unfold isc. intros H. destruct (Nat.ltb_spec i (length isCore)); [lia|]. rewrite nth_overflow in H by lia. discriminate. Qed.

Lemma lab_upd l i v j : (i < length l)%nat -> lab (upd l i v) j = if Nat.eqb j i then v else lab l j.
Proof.
  intros H. unfold lab.
  destruct (Nat.eqb_spec j i) as [->|E].
  - apply nth_error_nth. now apply nth_error_upd_same.
  - assert (X: forall l l' : list Z, nth_error l j = nth_error l' j -> nth j l (-1) = nth j l' (-1)).
    { intros a b Hab. destruct (nth_error a j) eqn:Ea; symmetry in Hab.
      - rewrite (nth_error_nth _ _ _ Ea), (nth_error_nth _ _ _ Hab). reflexivity.
      - apply nth_error_None in Ea. apply nth_error_None in Hab. rewrite !nth_overflow by assumption. reflexivity. }
    apply X. apply nth_error_upd_other. lia.
Qed.

(* samples the search from [root] can reach through samples not labelled before *)
Inductive reach (L0 : list Z) (root : nat) : nat -> Prop :=
| reach_root : reach L0 root root
| reach_step u v : reach L0 root u -> isc u = true -> In v (nbrs u) -> lab L0 v = -1 -> reach L0 root v.

Definition wsum (L : list Z) : nat := list_sum (map (fun i => if Z.eqb (lab L i) (-1) then length (nbrs i) else 0%nat) (seq 0 n)).

Lemma wsum_upd L i k : (i < n)%nat -> (n <= length L)%nat -> lab L i = -1 -> k <> -1 -> (wsum (upd L i k) + length (nbrs i) = wsum L)%nat.
Proof.
  intros Hi HL E Hk. unfold wsum.
  assert (G: forall s m, (i < s \/ s + m <= i)%nat -> list_sum (map (fun j => if lab (upd L i k) j =? -1 then length (nbrs j) else 0%nat) (seq s m)) = list_sum (map (fun j => if lab L j =? -1 then length (nbrs j) else 0%nat) (seq s m))).
  { intros s m Hs. f_equal. apply map_ext_in. intros j Hj. apply in_seq in Hj. rewrite lab_upd by lia. destruct (Nat.eqb_spec j i); [lia|reflexivity]. }
  replace (seq 0 n) with (seq 0 i ++ i :: seq (S i) (n - S i)).
  2:{ replace n with (i + S (n - S i))%nat at 2 by lia. rewrite seq_app. reflexivity. }
  rewrite !map_app, !list_sum_app. cbn [map]. change (list_sum (?a :: ?l)) with (a + list_sum l)%nat.
  rewrite (G 0%nat i) by lia. rewrite (G (S i) (n - S i)%nat) by lia. rewrite (lab_upd L i k i) by lia. rewrite Nat.eqb_refl, E.
  destruct (Z.eqb_spec k (-1)); [contradiction|]. rewrite Z.eqb_refl. lia.
Qed.

Lemma filter_len {A} (P : A -> bool) l : (length (filter P l) <= length l)%nat.
Proof. induction l as [|a l IH]; cbn [filter length]; [lia|]. destruct (P a); cbn [length]; lia. Qed.

Lemma dfs_spec L0 root k : k <> -1 -> length L0 = n -> lab L0 root = -1 -> (forall j, lab L0 j <> k) ->
  forall fuel work L, length L = n -> (length work + wsum L <= fuel)%nat ->
  (forall j, lab L j = lab L0 j \/ (lab L j = k /\ lab L0 j = -1 /\ reach L0 root j)) ->
  (forall j, In j work -> reach L0 root j /\ (j < n)%nat) ->
  (lab L root = k \/ In root work) ->
  (forall u v, lab L u = k -> isc u = true -> In v (nbrs u) -> lab L v = -1 -> In v work) ->
  exists L', dfs isCore nbh fuel k work L = Some L' /\ length L' = n /\
  (forall j, lab L' j = lab L0 j \/ (lab L' j = k /\ lab L0 j = -1 /\ reach L0 root j)) /\
  lab L' root <> -1 /\
  (forall u v, lab L' u = k -> isc u = true -> In v (nbrs u) -> lab L' v <> -1).
Proof.
  intros Hk HL0 Hroot Hnk. induction fuel as [|f IH]; intros work L HL HF HA HW HR HC; (destruct work as [|i stack]; cbn [dfs]).
  - exists L. split; [reflexivity|]. split; [exact HL|]. split; [exact HA|]. split; [destruct HR as [HR|[]]; congruence|]. intros u v Hu Hc Hin E. exact (HC u v Hu Hc Hin E).
  - cbn in HF. lia.
  - exists L. split; [reflexivity|]. split; [exact HL|]. split; [exact HA|]. split; [destruct HR as [HR|[]]; congruence|]. intros u v Hu Hc Hin E. exact (HC u v Hu Hc Hin E).
  - destruct (HW i (or_introl eq_refl)) as (Ri & Hi). cbn [length] in HF.
    destruct (Z.eqb_spec (lab L i) (-1)) as [E|E].
    + assert (LU: forall j, lab (upd L i k) j = if Nat.eqb j i then k else lab L j) by (intros j; apply lab_upd; lia).
      pose proof (wsum_upd L i k Hi ltac:(lia) E Hk) as WS.
      assert (E0: lab L0 i = -1) by (destruct (HA i) as [X|(X & _)]; congruence).
      cbv zeta. apply IH.
      * rewrite upd_length. exact HL.
      * destruct (isc i); [|lia]. rewrite app_length, rev_length. pose proof (filter_len (fun v => lab (upd L i k) v =? -1) (nbrs i)). lia.
      * intros j. rewrite LU. destruct (Nat.eqb_spec j i) as [->|]; [|apply HA]. right. auto.
      * intros j Hj. destruct (isc i) eqn:Ci; [|apply HW; now right]. apply in_app_iff in Hj. destruct Hj as [Hj|Hj]; [|apply HW; now right].
        apply in_rev in Hj. apply filter_In in Hj. destruct Hj as (Hj & Ej). split; [|eapply Hrange; eauto]. eapply reach_step; eauto.
        apply Z.eqb_eq in Ej. rewrite LU in Ej. destruct (Nat.eqb_spec j i) as [->|]; [congruence|]. destruct (HA j) as [X|(X & _)]; congruence.
      * rewrite LU. destruct (Nat.eqb_spec root i); [now left|]. destruct HR as [HR|[HR|HR]]; [now left|congruence|]. right. destruct (isc i); [apply in_app_iff; now right|exact HR].
      * intros u v. rewrite !LU. destruct (Nat.eqb_spec u i) as [->|Hu].
        -- intros _ Ci Hin Ev. rewrite Ci. apply in_app_iff. left. apply -> in_rev. apply filter_In. split; [exact Hin|]. rewrite LU. apply Z.eqb_eq. exact Ev.
        -- intros Lu Cu Hin. destruct (Nat.eqb_spec v i) as [->|Hv]; [congruence|]. intros Ev. destruct (HC u v Lu Cu Hin Ev) as [X|X]; [congruence|]. destruct (isc i); [apply in_app_iff; now right|exact X].
    + apply IH.
      * exact HL.
      * lia.
      * exact HA.
      * intros j Hj. apply HW. now right.
      * destruct HR as [HR|[HR|HR]]; [now left| |now right]. subst i. left. destruct (HA root) as [X|(X & _)]; [|exact X]. congruence.
      * intros u v Lu Cu Hin Ev. destruct (HC u v Lu Cu Hin Ev) as [X|X]; [congruence|exact X].
Qed.

(* linked by core samples *)
Definition link (a b : nat) : Prop := isc a = true /\ isc b = true /\ In b (nbrs a).
Definition chain : nat -> nat -> Prop := clos_refl_trans nat link.
Hypothesis Hsym : forall u v, isc u = true -> isc v = true -> In v (nbrs u) -> In u (nbrs v).

Lemma chain_sym u v : chain u v -> chain v u.
Proof.
  induction 1 as [a b (A & B & C)|a|a b c H1 IH1 H2 IH2]; [|apply rt_refl|eapply rt_trans; eauto]. apply rt_step. split; [exact B|]. split; [exact A|]. now apply Hsym.
Qed.

Lemma reach_chain L0 root j : isc root = true -> reach L0 root j -> isc j = true -> chain root j.
Proof.
  intros Hr. induction 1 as [|u v H IH Hu Hin Ev]; intros Hj; [apply rt_refl|]. eapply rt_trans; [apply IH; exact Hu|]. apply rt_step. now split.
Qed.

Record inv (m : nat) (k : Z) (L : list Z) : Prop := mkinv {
  i_len : length L = n;
  i_k : 0 <= k;
  i_range : forall j, lab L j = -1 \/ 0 <= lab L j < k;
  i_used : forall c, 0 <= c < k -> exists r, isc r = true /\ lab L r = c;
  i_conn : forall u v, isc u = true -> isc v = true -> lab L u <> -1 -> lab L u = lab L v -> chain u v;
  i_closed : forall u v, isc u = true -> lab L u <> -1 -> In v (nbrs u) -> lab L v <> -1;
  i_link : forall u v, isc u = true -> isc v = true -> lab L u <> -1 -> In v (nbrs u) -> lab L v = lab L u;
  i_from : forall j, lab L j <> -1 -> isc j = true \/ exists u, isc u = true /\ In j (nbrs u) /\ lab L u = lab L j;
  i_done : forall j, (j < m)%nat -> isc j = true -> lab L j <> -1
}.

Lemma inv_step m k L : inv m k L -> (m < n)%nat -> lab L m = -1 -> isc m = true ->
  exists L', dfs isCore nbh (dfs_fuel nbh) k [m] L = Some L' /\ inv (S m) (k + 1) L'.
Proof.
  intros I Hm Em Cm. destruct I as [Hlen Hk Hr Hu Hc Hcl Hl Hf Hd].
  destruct (dfs_spec L m k ltac:(lia) Hlen Em ltac:(intros j; destruct (Hr j); lia) (dfs_fuel nbh) [m] L Hlen) as (L' & E & HL' & HA & HR & HC).
  - unfold dfs_fuel. cbn [length]. apply le_n_S. unfold wsum.
    assert (X: forall s (l : list (list nat)), (list_sum (map (fun i => if (lab L (s + i) =? -1)%Z then length (nth i l []) else 0%nat) (seq 0 (length l))) <= list_sum (map (@length nat) l))%nat).
    { intros s l. revert s. induction l as [|a l IH]; intros s; [cbn; lia|]. cbn [length seq map]. rewrite <- seq_shift, map_map. change (list_sum (?a :: ?l)) with (a + list_sum l)%nat. cbn [nth].
      specialize (IH (S s)). rewrite (map_ext _ (fun i => if lab L (S s + i) =? -1 then length (nth i l []) else 0%nat)); [|intros i; replace (s + S i)%nat with (S s + i)%nat by lia; reflexivity].
      destruct (lab L (s + 0) =? -1); lia. }
    exact (X 0%nat nbh).
  - intros j. now left.
  - intros j [<-|[]]. split; [constructor|exact Hm].
  - right. now left.
  - intros u v Lu. destruct (Hr u); lia.
  - exists L'. split; [exact E|].
    assert (LR: forall j, reach L m j -> lab L' j = k /\ lab L j = -1).
    { intros j H. induction H as [|u v H IH Hu' Hin Ev].
      - split; [|exact Em]. destruct (HA m) as [X|(X & _)]; congruence.
      - split; [|exact Ev]. destruct IH as (IH & _). specialize (HC u v IH Hu' Hin). destruct (HA v) as [X|(X & _)]; congruence. }
    assert (OLD: forall j, lab L j <> -1 -> lab L' j = lab L j) by (intros j Hj; destruct (HA j) as [X|(_ & X & _)]; congruence).
    assert (NEW: forall j, lab L' j = k -> lab L j = -1 /\ reach L m j).
    { intros j Hj. destruct (HA j) as [X|(_ & X & Y)]; [|auto]. exfalso. destruct (Hr j); lia. }
    assert (CASE: forall j, lab L' j <> -1 -> (lab L' j = k /\ lab L j = -1 /\ reach L m j) \/ (lab L' j = lab L j /\ lab L j <> -1)).
    { intros j Hj. destruct (HA j) as [X|X]; [right; split; congruence|now left]. }
    constructor.
    + exact HL'.
    + lia.
    + intros j. destruct (HA j) as [X|(X & _)]; rewrite X; [destruct (Hr j); lia|lia].
    + intros c Hc'. destruct (Z.eq_dec c k) as [->|]; [exists m; split; [exact Cm|apply LR; constructor]|].
      destruct (Hu c ltac:(lia)) as (r & A & B). exists r. split; [exact A|]. rewrite OLD; [exact B|lia].
    + intros u v Cu Cv Lu Euv. assert (Lv: lab L' v <> -1) by congruence. destruct (CASE u Lu) as [(A & B & C)|(A & B)], (CASE v Lv) as [(A' & B' & C')|(A' & B')].
      * apply rt_trans with m; [apply chain_sym; apply (reach_chain L m u); auto|apply (reach_chain L m v); auto].
      * exfalso. destruct (Hr v); lia.
      * exfalso. destruct (Hr u); lia.
      * apply Hc; auto. congruence.
    + intros u v Cu Lu Hin. destruct (CASE u Lu) as [(A & B & C)|(A & B)]; [eapply HC; eauto|]. rewrite (OLD v (Hcl u v Cu B Hin)). exact (Hcl u v Cu B Hin).
    + intros u v Cu Cv Lu Hin. destruct (CASE u Lu) as [(A & B & C)|(A & B)].
      * rewrite A. destruct (Z.eq_dec (lab L v) (-1)) as [Ev|Ev].
        -- apply LR. eapply reach_step; eauto.
        -- exfalso. apply (Hcl v u Cv Ev (Hsym u v Cu Cv Hin)). exact B.
      * rewrite A. rewrite (OLD v (Hcl u v Cu B Hin)). now apply Hl.
    + intros j Lj. destruct (CASE j Lj) as [(A & B & C)|(A & B)].
      * rewrite A. destruct C as [|u v Ru Cu Hin Ev]; [left; exact Cm|]. right. exists u. split; [exact Cu|]. split; [exact Hin|]. now apply LR.
      * rewrite A. destruct (Hf j B) as [X|(u & X & Y & W)]; [now left|]. right. exists u. split; [exact X|]. split; [exact Y|]. rewrite OLD; [exact W|congruence].
    + intros j Hj Cj. destruct (Nat.eq_dec j m) as [->|]; [destruct (LR m (reach_root _ _)); lia|].
      assert (X: lab L j <> -1) by (apply Hd; [lia|exact Cj]). now rewrite OLD.
Qed.

Lemma inner_spec : forall d m k L, (m + d = n)%nat -> inv m k L -> exists L' c, inner_loop isCore nbh (seq m d) k L = Some (L', c) /\ inv n c L'.
Proof.
  induction d as [|d IH]; intros m k L Hmd I; cbn [seq inner_loop].
  - exists L, k. split; [reflexivity|]. replace n with m by lia. exact I.
  - destruct (Z.eqb_spec (lab L m) (-1)) as [E|E]; cbn [negb orb].
    + destruct (isc m) eqn:Cm; cbn [negb].
      * destruct (inv_step m k L I ltac:(lia) E Cm) as (L' & E' & I'). rewrite E'. apply IH; [lia|exact I'].
      * apply IH; [lia|]. destruct I. constructor; auto. intros j Hj Cj. destruct (Nat.eq_dec j m) as [->|]; [congruence|]. apply i_done0; [lia|exact Cj].
    + apply IH; [lia|]. destruct I. constructor; auto. intros j Hj Cj. destruct (Nat.eq_dec j m) as [->|]; [exact E|]. apply i_done0; [lia|exact Cj].
Qed.

Lemma dbscan_spec : exists L c, dbscan_inner isCore nbh (repeat (-1) n) = Some (L, c) /\ length L = n /\
  (forall j, lab L j = -1 \/ 0 <= lab L j < c) /\ (forall l, 0 <= l < c -> exists r, isc r = true /\ lab L r = l) /\
  (forall u v, isc u = true -> isc v = true -> (lab L u = lab L v <-> chain u v)) /\
  (forall j, lab L j <> -1 <-> isc j = true \/ exists u, isc u = true /\ In j (nbrs u)) /\
  (forall j, lab L j <> -1 -> isc j = false -> exists u, isc u = true /\ In j (nbrs u) /\ lab L u = lab L j).
Proof.
  unfold dbscan_inner. rewrite repeat_length.
  assert (R: forall j, lab (repeat (-1) n) j = -1).
  { intros j. unfold lab. destruct (Nat.ltb_spec j n); [now apply nth_repeat|apply nth_overflow; rewrite repeat_length; lia]. }
  destruct (inner_spec n 0 0 (repeat (-1) n) eq_refl) as (L & c & E & I).
  - constructor; try (intros; rewrite ?R in *; lia || congruence); first [now rewrite repeat_length|intros j; left; apply R].
  - exists L, c. split; [exact E|]. destruct I. split; [exact i_len0|]. split; [exact i_range0|]. split; [exact i_used0|].
    assert (LAB: forall u, isc u = true -> lab L u <> -1) by (intros u Hu; apply i_done0; [now apply isc_lt|exact Hu]).
    split; [|split].
    + intros u v Cu Cv. split; [intros; apply i_conn0; auto|]. intros H. clear Cv. induction H as [a b (A & B & C)|a|a b x H1 IH1 H2 IH2].
      * symmetry. apply i_link0; auto.
      * reflexivity.
      * assert (Cb: isc b = true). { clear -Cu H1. induction H1 as [a b (A & B & C)|a|a b x H1 IH1 H2 IH2]; auto. }
        rewrite IH1 by exact Cu. now apply IH2.
    + intros j. split.
      * intros Lj. destruct (i_from0 j Lj) as [X|(u & X & Y & _)]; eauto.
      * intros [X|(u & X & Y)]; [now apply LAB|]. eapply i_closed0; eauto.
    + intros j Lj Cj. destruct (i_from0 j Lj) as [X|X]; [congruence|exact X].
Qed.
End D.

(* Fit, from the neighbourhoods on *)
Lemma fit_labels ms m wn m' : dbs_fit ms m wn = Some m' -> exists m0, dbs_fit ms dbs_new wn = Some m0 /\ dLabels m' = dLabels m0 /\ dCore m' = dCore m ++ dCore m0.
Proof.
  unfold dbs_fit. destruct wn as (w & nbh). destruct (dbscan_inner _ _ _) as [[L c]|]; [|discriminate]. intros E. injection E as <-. eexists. split; [reflexivity|]. split; reflexivity.
Qed.
Lemma crt_ext {A} (R R' : A -> A -> Prop) u v : (forall a b, R a b <-> R' a b) -> clos_refl_trans A R u v <-> clos_refl_trans A R' u v.
Proof.
  intros H. split; intros P; (induction P as [a b P|a|a b d _ IH1 _ IH2]; [apply rt_step; now apply H|apply rt_refl|eapply rt_trans; eauto]).
Qed.
