(* Proofs about BaseViewModel.v. *)
From Verif Require Import Common QCommon BaseViewModel.
Local Open Scope nat_scope.

Lemma view_cells v m i j s e :
  vat (VT v) m i j = vat v m j i /\ ((0 <= i < e - s)%Z -> vat (VRow v s e) m i j = vat v m (s + i)%Z j).
Proof.
  split; [reflexivity|]. intros H. cbn [vat].
  destruct (Z.ltb_spec i 0); [lia|]. destruct (Z.ltb_spec (e - s) i); [lia|]. cbn. now rewrite Z.add_comm.
Qed.

Lemma inb_spec i n : Bool.reflect (0 <= i < Z.of_nat n)%Z (inb i n).
Proof. apply Bool.iff_reflect. unfold inb. rewrite Bool.andb_true_iff, Z.leb_le, Z.ltb_lt. lia. Qed.

Lemma nth_upd_gen {A} (l : list A) i k v d : i < length l -> nth k (upd l i v) d = if Nat.eqb i k then v else nth k l d.
Proof.
  intros L. assert (E : nth_error (upd l i v) k = if Nat.eqb i k then Some v else nth_error l k).
  { rewrite nth_error_upd. destruct (Nat.eqb_spec i k) as [<-|]; auto. destruct (Nat.ltb_spec i (length l)); [auto|lia]. }
  destruct (Nat.eqb i k); [now apply nth_error_nth|].
  destruct (nth_error l k) eqn:F.
  - rewrite (nth_error_nth _ _ _ E). symmetry. now apply nth_error_nth.
  - rewrite !nth_overflow; auto; now apply nth_error_None.
Qed.

Lemma st_set_at m i j x m' : st_set m i j x = Some m' ->
  st_at m' i j = Some x /\ forall i' j', (i', j') <> (i, j) -> st_at m' i' j' = st_at m i' j'.
Proof.
  unfold st_set, st_at. destruct (inb_spec i (length m)) as [Hi|]; [|discriminate].
  destruct (inb_spec j (length (nth (Z.to_nat i) m []))) as [Hj|]; [|discriminate]. injection 1 as <-.
  rewrite upd_length. split.
  - destruct (inb_spec i (length m)); [|lia]. rewrite nth_upd_gen by lia. rewrite Nat.eqb_refl, upd_length.
    destruct (inb_spec j (length (nth (Z.to_nat i) m []))); [|lia]. rewrite nth_upd_gen by lia. now rewrite Nat.eqb_refl.
  - intros i' j' N. destruct (inb_spec i' (length m)) as [Hi'|]; [|reflexivity].
    rewrite nth_upd_gen by lia. destruct (Nat.eqb_spec (Z.to_nat i) (Z.to_nat i')) as [E|E]; [|reflexivity].
    assert (i' = i) by lia. subst i'. rewrite upd_length.
    destruct (inb_spec j' (length (nth (Z.to_nat i) m []))); [|reflexivity]. rewrite nth_upd_gen by lia.
    destruct (Nat.eqb_spec (Z.to_nat j) (Z.to_nat j')) as [E2|E2]; [|reflexivity]. exfalso. apply N. f_equal. lia.
Qed.

Lemma view_set_at v : forall m i j x m', start0 v -> vset v m i j x = Some m' ->
  (vat v m i j <> None -> vat v m' i j = Some x) /\
  forall i' j', (i', j') <> (i, j) -> vat v m' i' j' = vat v m i' j'.
Proof.
  induction v as [|v IH|v IH s e|v IH]; intros m i j x m' S H; cbn [vset vat start0] in *.
  - destruct (@st_set_at m i j x m' H) as [A B]. auto.
  - destruct (IH m j i x m' S H) as [A B]. split; [exact A|]. intros i' j' N. apply B. congruence.
  - destruct S as [-> S]. rewrite Z.sub_0_r in H. destruct (IH m i j x m' S H) as [A B]. split.
    + rewrite Z.add_0_r. destruct (_ || _)%bool; [congruence|]. exact A.
    + intros i' j' N. rewrite Z.add_0_r. destruct (_ || _)%bool; [reflexivity|]. now apply B.
  - now apply IH.
Qed.

Lemma rowslice_panics v s e m i j x : (0 <= i < s)%Z -> (forall k l y, (k < 0)%Z -> vset v m k l y = None) -> vset (VRow v s e) m i j x = None.
Proof. intros H N. cbn [vset]. apply N. lia. Qed.

Lemma view_dims v m c : Forall (fun row => length row = c) m -> slices_in v (Z.of_nat (length m), Z.of_nat c) ->
  forall i j, (0 <= i < fst (vdims v (Z.of_nat (length m), Z.of_nat c)))%Z -> (0 <= j < snd (vdims v (Z.of_nat (length m), Z.of_nat c)))%Z ->
  vat v m i j <> None.
Proof.
  intros F. induction v as [|v IH|v IH s e|v IH]; cbn [slices_in vat vdims]; intros L i j Hi Hj.
  - cbn in Hi, Hj. unfold st_at. destruct (inb_spec i (length m)); [|lia].
    assert (E : length (nth (Z.to_nat i) m []) = c) by (rewrite Forall_forall in F; apply F, nth_In; lia).
    rewrite E. destruct (inb_spec j c); [discriminate|lia].
  - destruct (vdims v _) as [r c'] eqn:E. cbn in *. now apply IH.
  - destruct L as (L1 & L2 & L3). destruct (vdims v _) as [r c'] eqn:E. cbn [fst snd] in *.
    destruct (Z.ltb_spec i 0); [lia|]. destruct (Z.ltb_spec (e - s) i); [lia|]. cbn [orb]. apply IH; [exact L3|lia|exact Hj].
  - now apply IH.
Qed.

(* --------------------------------------------------------------- General *)
Lemma cell_of M r c a b V : reslice M r c a b = Some V -> V = mkgen r c (gs M) (goff M + a) (b - a) (gcap M - a) /\ a <= b <= gcap M.
Proof. unfold reslice. destruct (Nat.leb_spec a b), (Nat.leb_spec b (gcap M)); cbn; try discriminate. injection 1 as <-. split; [reflexivity|lia]. Qed.

Lemma view_ok M r c a b di dj : gen_wf M -> 0 < r -> 0 < c -> dj + c <= gc M -> di + r <= gr M -> a = di * gs M + dj ->
  a + (r - 1) * gs M + c <= b <= gcap M ->
  exists V, reslice M r c a b = Some V /\ gen_wf V /\ gr V = r /\ gc V = c /\
  forall i j, i < r -> j < c -> gcell V i j = gcell M (di + i) (dj + j) /\ gcell V i j <> None.
Proof.
  intros (R & C & S & L & CAP) Hr Hc HC HR -> HB.
  unfold reslice. destruct (Nat.leb_spec (di * gs M + dj) b); [|nia]. destruct (Nat.leb_spec b (gcap M)); [|lia]. cbn [andb].
  eexists. split; [reflexivity|]. split; [|split; [reflexivity|split; [reflexivity|]]].
  - unfold gen_wf; cbn [gs goff glen gr gc gcap]. repeat split; try lia.
  - intros i j Hi Hj. unfold gcell; cbn [gs goff glen gr gc gcap].
    assert (B1 : i * gs M <= (r - 1) * gs M) by (apply Nat.mul_le_mono_r; lia).
    assert (B2 : (di + i) * gs M <= (gr M - 1) * gs M) by (apply Nat.mul_le_mono_r; lia).
    destruct (Nat.ltb_spec (i * gs M + j) (b - (di * gs M + dj))); [|lia].
    destruct (Nat.ltb_spec ((di + i) * gs M + (dj + j)) (glen M)); [|lia].
    split; [f_equal; lia|discriminate].
Qed.

Lemma gslice_ok M i k j l : gen_wf M -> i < k <= gr M -> j < l <= gc M ->
  exists V, gslice M i k j l = Some V /\ gen_wf V /\ gr V = k - i /\ gc V = l - j /\
  forall a b, a < k - i -> b < l - j -> gcell V a b = gcell M (i + a) (j + b) /\ gcell V a b <> None.
Proof.
  intros W Hk Hl. unfold gslice. destruct (Nat.leb_spec k i); [lia|].
  apply view_ok; auto; try lia. destruct W as (R & C & S & L & CAP).
  assert (E : (k - 1) * gs M = i * gs M + (k - i - 1) * gs M) by nia.
  assert (B : (k - 1) * gs M <= (gr M - 1) * gs M) by (apply Nat.mul_le_mono_r; lia). lia.
Qed.
Lemma gcolslice_ok M j l : gen_wf M -> j < l <= gc M ->
  exists V, gcolslice M j l = Some V /\ gen_wf V /\ gr V = gr M /\ gc V = l - j /\
  forall a b, a < gr M -> b < l - j -> gcell V a b = gcell M a (j + b) /\ gcell V a b <> None.
Proof.
  intros W Hl. unfold gcolslice. destruct (Nat.leb_spec l j); [lia|].
  destruct W as (R & C & S & L & CAP).
  apply (@view_ok M (gr M) (l - j) j (l + (gr M - 1) * gs M) 0 j); try lia. repeat split; auto.
Qed.
Lemma growslice_ok M i k : gen_wf M -> i < k <= gr M -> k * gs M <= gcap M ->
  exists V, growslice M i k = Some V /\ gen_wf V /\ gr V = k - i /\ gc V = gc M /\
  forall a b, a < k - i -> b < gc M -> gcell V a b = gcell M (i + a) b /\ gcell V a b <> None.
Proof.
  intros W Hk HC. unfold growslice. destruct (Nat.leb_spec k i); [lia|].
  assert (W' := W). destruct W as (R & C & S & L & CAP).
  apply (@view_ok M (k - i) (gc M) (i * gs M) (k * gs M) i 0); auto; try lia.
  assert (E : k * gs M = i * gs M + (k - i - 1) * gs M + gs M) by nia. lia.
Qed.
Lemma rowslice_of_colslice r c j l V i : 0 < r -> 0 < j -> j < l <= c -> gcolslice (gnew r c) j l = Some V -> growslice V i r = None.
Proof.
  intros R J L. unfold gcolslice. destruct (Nat.leb_spec l j); [lia|]. intros E.
  apply cell_of in E. destruct E as [-> E]. cbn in E. unfold growslice. destruct (Nat.leb r i); [reflexivity|]. unfold reslice. cbn [gs gcap gnew].
  destruct (Nat.leb_spec (r * c) (r * c - j)); [nia|]. now rewrite andb_false_r.
Qed.
