(* Properties C59, C93, C94. *)
From Verif Require Import QCommon BaseViewModel BaseViewProofs.

(* C59: what is proved: the views of the views show the cells they should ... *)
Theorem C59_cells : forall v m i j s e,
  vat (VT v) m i j = vat v m j i /\
  ((0 <= i < e - s)%Z -> vat (VRow v s e) m i j = vat v m (s + i)%Z j).
Proof. exact view_cells. Qed.
Print Assumptions C59_cells.
(* ... and Set then At, for any nesting of transposes and of row slices starting at row 0 *)
Theorem C59_set_at_partial : forall v m i j x m', start0 v -> vset v m i j x = Some m' ->
  (vat v m i j <> None -> vat v m' i j = Some x) /\
  forall i' j', (i', j') <> (i, j) -> vat v m' i' j' = vat v m i' j'.
Proof. exact view_set_at. Qed.
Print Assumptions C59_set_at_partial.
Example C59_example : let m := [[1; 2; 3]; [4; 5; 6]]%Q in
  vset (VT (VRow VBase 0 2)) m 2 1 9%Q = Some [[1; 2; 3]; [4; 5; 9]]%Q /\ vat (VT VBase) m 2 0 = Some 3%Q.
Proof. vm_compute. split; reflexivity. Qed.
(* the dimensions announced by a view can be read through it *)
Theorem C59_dims : forall v m c i j, Forall (fun row => length row = c) m -> slices_in v (Z.of_nat (length m), Z.of_nat c) ->
  (0 <= i < fst (vdims v (Z.of_nat (length m), Z.of_nat c)))%Z -> (0 <= j < snd (vdims v (Z.of_nat (length m), Z.of_nat c)))%Z ->
  vat v m i j <> None.
Proof. intros v m c i j F L. now apply view_dims. Qed.
Print Assumptions C59_dims.
Example C59_dims_example : vdims (VRow (VT VBase) 1 3) (2, 3)%Z = (2, 2)%Z /\ vat (VRow (VT VBase) 1 3) [[1; 2; 3]; [4; 5; 6]]%Q 1 1 = Some 6%Q.
Proof. now split. Qed.
(* a row slice that starts later writes to another row, or panics *)
Theorem C59_rowslice_refuted : exists v m i j x m', vset v m i j x = Some m' /\ vat v m i j <> None /\ vat v m' i j <> Some x.
Proof.
  exists (VRow VBase 1 3), [[1]; [2]; [3]]%Q, 1%Z, 0%Z, 9%Q, [[9]; [2]; [3]]%Q. split; [reflexivity|]. split; vm_compute; discriminate.
Qed.
Print Assumptions C59_rowslice_refuted.
Theorem C59_rowslice_panics : forall v s e m i j x, (0 <= i < s)%Z -> (forall k l y, (k < 0)%Z -> vset v m k l y = None) -> vset (VRow v s e) m i j x = None.
Proof. exact rowslice_panics. Qed.
Print Assumptions C59_rowslice_panics.
(* At accepts the row after the last one *)
Theorem C59_bounds_refuted : exists v m i j, fst (vdims v (Z.of_nat (length m), 1%Z)) = i /\ vat v m i j <> None.
Proof. exists (VRow VBase 0 1), [[1]; [2]]%Q, 1%Z, 0%Z. split; [reflexivity|vm_compute; discriminate]. Qed.
Print Assumptions C59_bounds_refuted.

(* C93 *)
Theorem C93_slice : forall M i k j l, gen_wf M -> i < k <= gr M -> j < l <= gc M ->
  exists V, gslice M i k j l = Some V /\ gen_wf V /\ gr V = k - i /\ gc V = l - j /\
  forall a b, a < k - i -> b < l - j -> gcell V a b = gcell M (i + a) (j + b) /\ gcell V a b <> None.
Proof. exact gslice_ok. Qed.
Print Assumptions C93_slice.
Theorem C93_colslice : forall M j l, gen_wf M -> j < l <= gc M ->
  exists V, gcolslice M j l = Some V /\ gen_wf V /\ gr V = gr M /\ gc V = l - j /\
  forall a b, a < gr M -> b < l - j -> gcell V a b = gcell M a (j + b) /\ gcell V a b <> None.
Proof. exact gcolslice_ok. Qed.
Print Assumptions C93_colslice.
(* row slices need the padding after the last row *)
Theorem C93_rowslice_partial : forall M i k, gen_wf M -> i < k <= gr M -> k * gs M <= gcap M ->
  exists V, growslice M i k = Some V /\ gen_wf V /\ gr V = k - i /\ gc V = gc M /\
  forall a b, a < k - i -> b < gc M -> gcell V a b = gcell M (i + a) b /\ gcell V a b <> None.
Proof. exact growslice_ok. Qed.
Print Assumptions C93_rowslice_partial.
(* so the rows up to the last of any column slice of any matrix cannot be taken *)
Theorem C93_rowslice_refuted : forall r c j l V i, 0 < r -> 0 < j -> j < l <= c -> gcolslice (gnew r c) j l = Some V -> growslice V i r = None.
Proof. exact rowslice_of_colslice. Qed.
Print Assumptions C93_rowslice_refuted.
Example C93_example : exists V, gcolslice (gnew 3 4) 1 3 = Some V /\ growslice V 1 3 = None /\ gslice V 1 3 0 2 <> None /\ growslice V 0 2 <> None.
Proof. eexists. split; [reflexivity|]. vm_compute. repeat split; discriminate. Qed.

(* C94: MatOnesPrepended shows the wrapped matrix unchanged *)
Theorem C94_ones_refuted : forall v m d, vdims (VOnes v) d = vdims v d /\ forall i j, vat (VOnes v) m i j = vat v m i j.
Proof. intros. now split. Qed.
Print Assumptions C94_ones_refuted.
Example C94_example : vat (VOnes VBase) [[7%Q]] 0 0 = Some 7%Q /\ vdims (VOnes VBase) (1, 1)%Z = (1, 1)%Z.
Proof. now split. Qed.
