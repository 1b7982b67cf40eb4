(* Lemmas on backpropagation: directional derivatives of the loss. *)
From Coq Require Import Reals Lra Lia List Arith Bool FunctionalExtensionality.
From Verif Require Import MtModel MtProofs LossModel LossProofs MlpNetModel.
Import ListNotations.
Open Scope R_scope.

(* ------------------------------------------------------------------ derivatives *)
Lemma D_cont f x l : D f x l -> forall e, 0 < e -> exists d, 0 < d /\ forall t, Rabs (t - x) < d -> Rabs (f t - f x) < e.
Proof.
  intros H e He. pose proof (derivable_continuous_pt f x (exist _ l H)) as C. destruct (C e He) as (d & Hd & K). exists d. split; [exact Hd|].
  intros t Ht. destruct (Req_EM_T x t) as [-> | N]; [rewrite Rminus_diag_eq, Rabs_R0 by reflexivity; exact He|]. apply (K t). split; [split; [exact I|exact N]|exact Ht].
Qed.
Lemma D_hclip hmin hmax f x l : hmin < f x < hmax -> D f x l -> D (fun t => hclip hmin hmax (f t)) x l.
Proof.
  intros H Hf. destruct (D_cont f x l Hf (Rmin (f x - hmin) (hmax - f x))) as (d & Hd & K); [apply Rmin_glb_lt; lra|].
  apply (D_local f _ x l d Hd); [|exact Hf]. intros t Ht. specialize (K t Ht). apply Rabs_def2 in K.
  pose proof (Rmin_l (f x - hmin) (hmax - f x)). pose proof (Rmin_r (f x - hmin) (hmax - f x)). unfold hclip.
  destruct (rltb_spec (f t) hmin); [lra|]. destruct (rltb_spec hmax (f t)); [lra|reflexivity].
Qed.
Lemma D_ln f x l : 0 < f x -> D f x l -> D (fun t => ln (f t)) x (l / f x).
Proof. intros P H. apply (D_val _ _ (/ f x * l)); [unfold Rdiv; ring|]. apply (D_comp f ln); [exact H|]. now apply derivable_pt_lim_ln. Qed.
Lemma D_exp f x l : D f x l -> D (fun t => exp (f t)) x (exp (f x) * l).
Proof. intros H. apply (D_comp f exp); [exact H|]. apply derivable_pt_lim_exp. Qed.
Lemma D_divc f x l c : D f x l -> D (fun t => f t / c) x (l / c).
Proof. intros H. apply (D_ext (fun t => / c * f t)); [intros; unfold Rdiv; ring|]. apply (D_val _ _ (/ c * l)); [unfold Rdiv; ring|]. now apply D_scal. Qed.
Lemma D_opp f x l : D f x l -> D (fun t => - f t) x (- l).
Proof. intros H. apply (D_ext (fun t => (- 1) * f t)); [intros; ring|]. apply (D_val _ _ ((- 1) * l)); [ring|]. now apply D_scal. Qed.
Lemma D_div f g x a b : g x <> 0 -> D f x a -> D g x b -> D (fun t => f t / g t) x ((a * g x - b * f x) / (g x * g x)).
Proof. intros N Hf Hg. apply (D_ext (div_fct f g)); [reflexivity|]. pose proof (derivable_pt_lim_div f g x a b Hf Hg N) as G. unfold Rsqr in G. exact G. Qed.

(* ------------------------------------------------------------------ outputs *)
Lemma rs_pos n f : (0 < n)%nat -> (forall i, (i < n)%nat -> 0 < f i) -> 0 < rs n f.
Proof.
  intros Hn H. destruct n as [|n]; [lia|]. cbn [rs]. assert (0 <= rs n f) by (apply rs_nonneg; intros; apply Rlt_le, H; lia). specialize (H n ltac:(lia)). lra.
Qed.
Lemma D_softmax q (z : R -> nat -> R) z' c : (c < q)%nat -> (forall k, (k < q)%nat -> D (fun t => z t k) 0 (z' k)) ->
  D (fun t => outF OSoftmax q (z t) c) 0 (outF OSoftmax q (z 0) c * (z' c - rs q (fun k => outF OSoftmax q (z 0) k * z' k))).
Proof.
  intros Hc Hz. unfold outF. set (S0 := rs q (fun k => exp (z 0 k))). assert (P : 0 < S0) by (apply rs_pos; [lia|]; intros; apply exp_pos).
  assert (E : rs q (fun k => exp (z 0 k) / S0 * z' k) = / S0 * rs q (fun k => exp (z 0 k) * z' k)).
  { rewrite <- rs_scale. apply rs_ext. intros. unfold Rdiv. ring. }
  assert (DS : D (fun t => rs q (fun k => exp (z t k))) 0 (rs q (fun k => exp (z 0 k) * z' k))).
  { apply (D_rs q (fun k t => exp (z t k))). intros k Hk. apply (D_exp (fun t => z t k)). auto. }
  eapply D_val; [|apply (D_div (fun t => exp (z t c)) (fun t => rs q (fun k => exp (z t k)))); [|apply (D_exp (fun t => z t c)); auto|exact DS]].
  - cbv beta. fold S0. rewrite E. field. lra.
  - cbv beta. fold S0. lra.
Qed.
Lemma outF_softmax_pos q z c : (c < q)%nat -> 0 < outF OSoftmax q z c.
Proof. intros H. unfold outF. apply Rdiv_lt_0_compat; [apply exp_pos|]. apply rs_pos; [lia|]. intros; apply exp_pos. Qed.

Section Out.
  Variables (hmin hmax : R).
  Definition in_clip (o : out) (h : R) : Prop := o = OIdentity \/ hmin < h < hmax.
  Lemma data_loss_ext o bs n q y h h' : (forall r c, (r < n)%nat -> (c < q)%nat -> h r c = h' r c) -> data_loss hmin hmax o bs n q y h = data_loss hmin hmax o bs n q y h'.
  Proof.
    intros H. destruct o; unfold data_loss.
    - f_equal. f_equal. apply rs_ext. intros r Hr. apply rs_ext. intros c Hc. now rewrite H.
    - f_equal. apply rs_ext. intros r Hr. apply rs_ext. intros c Hc. now rewrite H.
    - f_equal. apply rs_ext. intros r Hr. apply rs_ext. intros c Hc. now rewrite H.
  Qed.
  (* w r is what the row of targets sums to, for softmax *)
  Lemma D_out o n q y (z : R -> rmtx) z' (w : nat -> R) : (0 < n)%nat ->
    (forall r c, (r < n)%nat -> (c < q)%nat -> D (fun t => z t r c) 0 (z' r c)) ->
    (forall r c, (r < n)%nat -> (c < q)%nat -> in_clip o (outF o q (z 0 r) c)) ->
    (forall r, (r < n)%nat -> w r = match o with OSoftmax => rs q (y r) | _ => 1 end) ->
    D (fun t => data_loss hmin hmax o n n q y (fun r c => outF o q (z t r) c)) 0
      (1 / INR n * rs n (fun r => rs q (fun c => (w r * outF o q (z 0 r) c - y r c) * z' r c))).
  Proof.
    intros Hn Hz Hc Hw. destruct o; unfold data_loss.
    - eapply D_val; [|apply D_divc, D_divc, (D_rs n (fun r t => rs q (fun c => (z t r c - y r c) * (z t r c - y r c)))); intros r Hr;
        apply (D_rs q (fun c t => (z t r c - y r c) * (z t r c - y r c))); intros c Hc'; apply (D_sq (fun t => z t r c - y r c)); apply D_minus; [apply Hz; assumption|apply D_const]].
      cbv beta. unfold outF. transitivity (1 / INR n * (/ 2 * rs n (fun i => rs q (fun i0 => 2 * (z 0 i i0 - y i i0) * (z' i i0 - 0))))); [unfold Rdiv; ring|].
      f_equal. rewrite <- rs_scale. apply rs_ext. intros r Hr. rewrite <- rs_scale. apply rs_ext. intros c Hc'. rewrite (Hw r Hr). field.
    - eapply D_val; [|apply D_divc, (D_rs n (fun r t => rs q (fun c => if reqb (y r c) 0 then 0 else - y r c * ln (hclip hmin hmax (outF OSoftmax q (z t r) c)))));
        intros r Hr; apply (D_rs q (fun c t => if reqb (y r c) 0 then 0 else - y r c * ln (hclip hmin hmax (outF OSoftmax q (z t r) c)))
          0 (fun c => - y r c * (z' r c - rs q (fun k => outF OSoftmax q (z 0 r) k * z' r k))))].
      + cbv beta. transitivity (1 / INR n * rs n (fun r => rs q (fun c => - y r c * (z' r c - rs q (fun k => outF OSoftmax q (z 0 r) k * z' r k))))); [unfold Rdiv; ring|].
        f_equal. apply rs_ext. intros r Hr. set (M := rs q (fun k => outF OSoftmax q (z 0 r) k * z' r k)).
        transitivity (M * rs q (y r) - rs q (fun c => y r c * z' r c)); [rewrite <- rs_scale, <- rs_minus; apply rs_ext; intros; ring|].
        rewrite (Hw r Hr). transitivity (rs q (y r) * M - rs q (fun c => y r c * z' r c)); [ring|]. unfold M. rewrite <- rs_scale, <- rs_minus. apply rs_ext. intros; ring.
      + intros c Hc'. destruct (reqb_spec (y r c) 0) as [E|E]; [apply (D_val _ _ 0); [rewrite E; ring|apply D_const]|].
        apply D_scal. destruct (Hc r c Hr Hc') as [F|F]; [discriminate|]. pose proof (outF_softmax_pos q (z 0 r) c Hc') as P.
        eapply D_val; [|apply D_ln; [|apply D_hclip; [exact F|]; apply (D_softmax q (fun t => z t r) (z' r) c Hc'); intros; apply Hz; assumption]].
        * cbv beta. replace (hclip hmin hmax (outF OSoftmax q (z 0 r) c)) with (outF OSoftmax q (z 0 r) c); [field; lra|].
          unfold hclip. destruct (rltb_spec (outF OSoftmax q (z 0 r) c) hmin); [lra|]. destruct (rltb_spec hmax (outF OSoftmax q (z 0 r) c)); [lra|reflexivity].
        * unfold hclip. destruct (rltb_spec (outF OSoftmax q (z 0 r) c) hmin); [lra|]. destruct (rltb_spec hmax (outF OSoftmax q (z 0 r) c)); [lra|exact P].
    - eapply D_val; [|apply D_divc, (D_rs n (fun r t => rs q (fun c => - y r c * ln (hclip hmin hmax (outF OLogistic q (z t r) c)) - (1 - y r c) * ln (1 - hclip hmin hmax (outF OLogistic q (z t r) c)))));
        intros r Hr; apply (D_rs q (fun c t => - y r c * ln (hclip hmin hmax (outF OLogistic q (z t r) c)) - (1 - y r c) * ln (1 - hclip hmin hmax (outF OLogistic q (z t r) c)))
          0 (fun c => (outF OLogistic q (z 0 r) c - y r c) * z' r c))].
      + cbv beta. transitivity (1 / INR n * rs n (fun r => rs q (fun c => (outF OLogistic q (z 0 r) c - y r c) * z' r c))); [unfold Rdiv; ring|].
        f_equal. apply rs_ext. intros r Hr. apply rs_ext. intros c Hc'. rewrite (Hw r Hr). ring.
      + intros c Hc'. destruct (Hc r c Hr Hc') as [F|F]; [discriminate|]. unfold outF in *. pose proof (logistic_range (z 0 r c)) as P.
        assert (E : hclip hmin hmax (actF ALogistic (z 0 r c)) = actF ALogistic (z 0 r c)).
        { unfold hclip. destruct (rltb_spec (actF ALogistic (z 0 r c)) hmin); [lra|]. destruct (rltb_spec hmax (actF ALogistic (z 0 r c))); [lra|reflexivity]. }
        assert (DH : D (fun t => hclip hmin hmax (actF ALogistic (z t r c))) 0 (actF ALogistic (z 0 r c) * (1 - actF ALogistic (z 0 r c)) * z' r c)).
        { apply D_hclip; [exact F|]. apply (D_comp (fun t => z t r c) (actF ALogistic)); [now apply Hz|]. apply (act_deriv ALogistic). discriminate. }
        fold (actF ALogistic (z 0 r c)) in P.
        eapply D_val; [|apply D_minus; [apply D_scal, D_ln; [|exact DH]|apply D_scal, (D_ln (fun t => 1 - hclip hmin hmax (actF ALogistic (z t r c)))); [|apply D_minus; [apply D_const|exact DH]]]].
        * cbv beta. rewrite E. field. change (actF ALogistic (z 0 r c)) with (1 / (1 + exp (- z 0 r c))) in *. lra.
        * cbv beta. rewrite E. apply P.
        * cbv beta. rewrite E. change (1 / (1 + exp (- z 0 r c))) with (actF ALogistic (z 0 r c)) in P. lra.
  Qed.
End Out.

(* ------------------------------------------------------------------ hidden layers *)
Definition hsign (a : act) : R := match a with ATanh => - 1 | _ => 1 end.
Lemma hid_deriv a z : (a = AReLU -> z <> 0) -> D (hidF a) z (hsign a * hidFp a (hidF a z)).
Proof.
  intros Hz. destruct a; unfold hidF, hidFp, hsign.
  - eapply D_val; [|apply (act_deriv AIdentity); discriminate]. cbn. ring.
  - eapply D_val; [|apply (act_deriv ALogistic); discriminate]. cbn. ring.
  - eapply D_val; [|apply (D_comp (fun t => - t) tanh); [apply D_opp, D_id|apply (act_deriv ATanh); discriminate]]. unfold actFp, actF. ring.
  - eapply D_val; [|apply (act_deriv AReLU); exact Hz]. unfold actFp, actF. rewrite Rmult_1_l. specialize (Hz eq_refl).
    destruct (rltb_spec z 0); [destruct (Rle_dec 0 0); [|lra]; destruct (reqb_spec 0 0); [reflexivity|lra]|].
    destruct (Rle_dec z 0); [lra|]. destruct (reqb_spec z 0); [lra|reflexivity].
Qed.

(* a direction in parameter space gives each layer a matrix and a vector *)
Definition dir : Type := rmtx * (nat -> R).
Definition move (t : R) (l : layer) (d : dir) : layer := mklayer (l_in l) (l_out l) (fun i j => l_W l i j + t * fst d i j) (fun j => l_b l j + t * snd d j).
Fixpoint moves (t : R) (ls : list layer) (ds : list dir) : list layer := match ls, ds with l :: ls', d :: ds' => move t l d :: moves t ls' ds' | _, _ => ls end.
Definition inner (l : layer) (g d : dir) : R := rs (l_in l) (fun i => rs (l_out l) (fun j => fst g i j * fst d i j)) + rs (l_out l) (fun j => snd g j * snd d j).
(* the inner product of gradients and directions, each layer weighted by s per layer above it *)
Fixpoint sdot (s : R) (ls : list layer) (gs ds : list dir) : R :=
  match ls, gs, ds with l :: ls', g :: gs', d :: ds' => s ^ length ls' * inner l g d + sdot s ls' gs' ds' | _, _, _ => 0 end.
Fixpoint chain (ls : list layer) : Prop := match ls with l :: ((l2 :: _) as t) => l_out l = l_in l2 /\ chain t | _ => True end.
(* the pre-activations of the first layer *)
Definition pre (A : rmtx) (l : layer) : rmtx := fun r c => rs (l_in l) (fun i => A r i * l_W l i c) + l_b l c.
(* no hidden unit of a relu network sits at 0, and the outputs are inside the clipping bounds *)
Fixpoint smooth (hmin hmax : R) (a : act) (o : out) (n : nat) (A : rmtx) (ls : list layer) : Prop :=
  match ls with
  | [] => True
  | l :: ls' =>
      match ls' with
      | [] => forall r c, (r < n)%nat -> (c < l_out l)%nat -> in_clip hmin hmax o (outF o (l_out l) (pre A l r) c)
      | _ => (a = AReLU -> forall r c, (r < n)%nat -> (c < l_out l)%nat -> pre A l r c <> 0) /\ smooth hmin hmax a o n (fun r c => hidF a (pre A l r c)) ls'
      end
  end.
Lemma move_0 l d : move 0 l d = l.
Proof.
  destruct l as [i o W b]. unfold move. cbn [l_in l_out l_W l_b]. f_equal.
  - apply functional_extensionality. intros x. apply functional_extensionality. intros z. ring.
  - apply functional_extensionality. intros z. ring.
Qed.
Lemma moves_0 ls : forall ds, moves 0 ls ds = ls.
Proof. induction ls as [|l ls IH]; intros [|d ds]; cbn [moves]; auto. now rewrite move_0, IH. Qed.
Lemma moves_length t ls : forall ds, length (moves t ls ds) = length ls.
Proof. induction ls as [|l ls IH]; intros [|d ds]; cbn [moves length]; auto. Qed.
Lemma pre_ext A A' l n : (forall r i, (r < n)%nat -> (i < l_in l)%nat -> A r i = A' r i) -> forall r c, (r < n)%nat -> pre A l r c = pre A' l r c.
Proof. intros H r c Hr. unfold pre. f_equal. apply rs_ext. intros i Hi. now rewrite H. Qed.
Lemma outF_ext o q z z' : (forall c, (c < q)%nat -> z c = z' c) -> forall c, (c < q)%nat -> outF o q z c = outF o q z' c.
Proof. intros H c Hc. destruct o; unfold outF; rewrite ?H by exact Hc; try reflexivity. f_equal. apply rs_ext. intros k Hk. now rewrite H. Qed.
Lemma smooth_ext hmin hmax a o n : forall ls A A', chain ls -> (forall r i, (r < n)%nat -> (i < match ls with [] => O | l :: _ => l_in l end)%nat -> A r i = A' r i) ->
  smooth hmin hmax a o n A ls -> smooth hmin hmax a o n A' ls.
Proof.
  induction ls as [|l ls IH]; intros A A' HC HA; [auto|]. destruct ls as [|l2 ls].
  - cbn [smooth]. intros H r c Hr Hc. rewrite <- (outF_ext o (l_out l) (pre A l r)); auto. intros k Hk. now apply (pre_ext A A' l n).
  - intros [H1 H2]. split.
    + intros E r c Hr Hc. rewrite <- (pre_ext A A' l n HA r c Hr). auto.
    + destruct HC as [HC1 HC2]. revert H2. apply IH; [exact HC2|]. intros r c Hr Hc. now rewrite (pre_ext A A' l n HA r c Hr).
Qed.
Lemma nout_cons l l2 ls : nout (l :: l2 :: ls) = nout (l2 :: ls).
Proof.
  unfold nout. change (rev (l :: l2 :: ls)) with (rev (l2 :: ls) ++ [l]). destruct (rev (l2 :: ls)) as [|x r] eqn:E; [|reflexivity].
  apply (f_equal (@length _)) in E. rewrite rev_length in E. discriminate.
Qed.
Lemma nout_moves t ls : forall ds, nout (moves t ls ds) = nout ls.
Proof.
  induction ls as [|l ls IH]; intros [|d ds]; [reflexivity|reflexivity|reflexivity|]. cbn [moves]. destruct ls as [|l2 ls]; [destruct ds; reflexivity|]. rewrite nout_cons.
  destruct ds as [|d2 ds]; [cbn [moves]; now rewrite nout_cons|]. specialize (IH (d2 :: ds)). cbn [moves] in *. now rewrite nout_cons.
Qed.

(* pre-activations as t varies *)
Lemma D_pre (A : R -> rmtx) A' l d r c : (forall i, (i < l_in l)%nat -> D (fun t => A t r i) 0 (A' r i)) ->
  D (fun t => pre (A t) (move t l d) r c) 0 (rs (l_in l) (fun i => A' r i * l_W l i c + A 0 r i * fst d i c) + snd d c).
Proof.
  intros H. unfold pre, move. cbn [l_in l_out l_W l_b]. apply D_plus.
  - apply (D_rs (l_in l) (fun i t => A t r i * (l_W l i c + t * fst d i c))). intros i Hi.
    eapply D_val; [|apply D_mult; [apply H; exact Hi|apply D_plus; [apply D_const|apply (D_ext (fun t => fst d i c * t)); [intros; ring|]; apply D_scal, D_id]]]. cbv beta. ring.
  - apply (D_ext (fun t => l_b l c + snd d c * t)); [intros; ring|]. eapply D_val; [|apply D_plus; [apply D_const|apply D_scal, D_id]]. ring.
Qed.
(* the chain rule for one layer, rearranged *)
Lemma layer_sum n l (A A' Dl : rmtx) d : (0 < n)%nat ->
  1 / INR n * rs n (fun r => rs (l_out l) (fun c => Dl r c * (rs (l_in l) (fun i => A' r i * l_W l i c + A r i * fst d i c) + snd d c))) =
  inner l (layer_grad 0 n n n A Dl l) d + 1 / INR n * rs n (fun r => rs (l_in l) (fun i => rs (l_out l) (fun j => Dl r j * l_W l i j) * A' r i)).
Proof.
  intros Hn. assert (N : INR n <> 0) by (apply not_0_INR; lia). unfold inner, layer_grad. cbn [fst snd].
  assert (E1 : rs (l_in l) (fun i => rs (l_out l) (fun j => (1 / INR n * rs n (fun r => A r i * Dl r j) + 0 / INR n * l_W l i j) * fst d i j)) =
    1 / INR n * rs n (fun r => rs (l_out l) (fun c => Dl r c * rs (l_in l) (fun i => A r i * fst d i c)))).
  { transitivity (1 / INR n * rs (l_in l) (fun i => rs (l_out l) (fun j => rs n (fun r => A r i * Dl r j * fst d i j)))).
    - rewrite <- rs_scale. apply rs_ext. intros i Hi. rewrite <- rs_scale. apply rs_ext. intros j Hj.
      transitivity (1 / INR n * (fst d i j * rs n (fun r => A r i * Dl r j))); [field; exact N|]. f_equal. rewrite <- rs_scale. apply rs_ext. intros; ring.
    - f_equal. transitivity (rs (l_in l) (fun i => rs n (fun r => rs (l_out l) (fun j => A r i * Dl r j * fst d i j)))); [apply rs_ext; intros; apply rs_swap|].
      rewrite rs_swap. apply rs_ext. intros r Hr. rewrite rs_swap. apply rs_ext. intros j Hj. rewrite <- rs_scale. apply rs_ext. intros; ring. }
  assert (E2 : rs (l_out l) (fun j => rs n (fun r => Dl r j) / INR n * snd d j) = 1 / INR n * rs n (fun r => rs (l_out l) (fun c => Dl r c * snd d c))).
  { rewrite (rs_swap n (l_out l)), <- rs_scale. apply rs_ext. intros j Hj. transitivity (1 / INR n * (snd d j * rs n (fun r => Dl r j))); [field; exact N|]. f_equal. rewrite <- rs_scale. apply rs_ext. intros; ring. }
  assert (E3 : rs n (fun r => rs (l_in l) (fun i => rs (l_out l) (fun j => Dl r j * l_W l i j) * A' r i)) = rs n (fun r => rs (l_out l) (fun c => Dl r c * rs (l_in l) (fun i => A' r i * l_W l i c)))).
  { apply rs_ext. intros r Hr. transitivity (rs (l_in l) (fun i => rs (l_out l) (fun j => Dl r j * l_W l i j * A' r i))).
    - apply rs_ext. intros i Hi. rewrite Rmult_comm, <- rs_scale. apply rs_ext. intros; ring.
    - rewrite rs_swap. apply rs_ext. intros j Hj. rewrite <- rs_scale. apply rs_ext. intros; ring. }
  rewrite E1, E2, E3, <- !Rmult_plus_distr_l, <- !rs_plus. f_equal. apply rs_ext. intros r Hr. rewrite <- !rs_plus. apply rs_ext. intros c Hc. rewrite rs_plus. ring.
Qed.

Section Main.
  Variables (hmin hmax : R).
  Variables (a : act) (o : out) (n : nat) (y : rmtx) (Hn : (0 < n)%nat).
  Notation F := (forward a o n).
  (* the rows of a full batch do not depend on the buffers *)
  Lemma forward_hd A l ls old : exists H, F n A (l :: ls) old = H :: F n H ls (tl old) /\
    forall r c, (r < n)%nat -> H r c = match ls with [] => outF o (l_out l) (pre A l r) c | _ => hidF a (pre A l r c) end.
  Proof.
    eexists. split; [reflexivity|]. intros r c Hr. unfold upd_rows. assert (E : (r <? n)%nat = true) by now apply Nat.ltb_lt. rewrite E. destruct ls as [|l2 ls]; [|rewrite ?E; reflexivity].
    f_equal. apply functional_extensionality. intros k. rewrite ?E. reflexivity.
  Qed.
  Lemma backprop_main : forall ls ds old oldD (A : R -> rmtx) A', ls <> [] -> length ds = length ls -> chain ls ->
    (forall r i, (r < n)%nat -> (i < match ls with [] => O | l :: _ => l_in l end)%nat -> D (fun t => A t r i) 0 (A' r i)) ->
    smooth hmin hmax a o n (A 0) ls -> (o = OSoftmax -> forall r, (r < n)%nat -> rs (nout ls) (y r) = 1) ->
    let bw := backward a 0 n n n y (A 0) ls (F n (A 0) ls old) oldD in
    D (fun t => data_loss hmin hmax o n n (nout ls) y (last (F n (A t) (moves t ls ds) old) (fun _ _ => 0))) 0
      (sdot (hsign a) ls (fst bw) ds + hsign a ^ pred (length ls) *
        (1 / INR n * rs n (fun r => match ls with [] => 0 | l :: _ => rs (l_in l) (fun i => rs (l_out l) (fun j => snd bw r j * l_W l i j) * A' r i) end))).
  Proof.
    induction ls as [|l ls IH]; intros ds old oldD A A' HN HL HC HA HS HY; [congruence|]. destruct ds as [|d ds]; [discriminate|]. clear HN.
    destruct ls as [|l2 ls].
    - destruct ds; [|discriminate]. cbv zeta. cbn [moves]. set (B := hd (fun _ _ => 0) oldD).
      set (Dl := upd_rows n (fun r c => last (F n (A 0) [l] old) (fun _ _ => 0) r c - y r c) B).
      assert (EB : backward a 0 n n n y (A 0) [l] (F n (A 0) [l] old) oldD = ([layer_grad 0 n n n (A 0) Dl l], Dl)) by reflexivity.
      rewrite EB. cbn [fst snd sdot length pred pow]. change (nout [l]) with (l_out l) in *.
      apply (D_ext (fun t => data_loss hmin hmax o n n (l_out l) y (fun r c => outF o (l_out l) (pre (A t) (move t l d) r) c))).
      { intros t. apply data_loss_ext. intros r c Hr Hc. destruct (forward_hd (A t) (move t l d) [] old) as (H & E & EH). rewrite E. cbn [last forward]. now rewrite EH. }
      eapply D_val; [|apply (D_out hmin hmax o n (l_out l) y (fun t => pre (A t) (move t l d)) (fun r c => rs (l_in l) (fun i => A' r i * l_W l i c + A 0 r i * fst d i c) + snd d c)
        (fun r => match o with OSoftmax => rs (l_out l) (y r) | _ => 1 end))].
      + transitivity (1 / INR n * rs n (fun r => rs (l_out l) (fun c => Dl r c * (rs (l_in l) (fun i => A' r i * l_W l i c + A 0 r i * fst d i c) + snd d c)))).
        * f_equal. apply rs_ext. intros r Hr. apply rs_ext. intros c Hc. f_equal. unfold Dl, upd_rows. destruct (Nat.ltb_spec r n); [|lia].
          destruct (forward_hd (A 0) l [] old) as (H' & E & EH). rewrite E. cbn [last forward]. rewrite EH by exact Hr. rewrite move_0.
          destruct o; [ring|rewrite HY by auto; ring|ring].
        * rewrite (layer_sum n l (A 0) A' Dl d Hn). rewrite !Rmult_1_l, Rplus_0_r. reflexivity.
      + exact Hn.
      + intros r c Hr Hc. apply D_pre. intros i Hi. now apply HA.
      + intros r c Hr Hc. rewrite move_0. now apply HS.
      + intros; reflexivity.
    - destruct HS as [HS1 HS2]. destruct HC as [HC1 HC2].
      set (Anext := fun t => hd (fun _ _ => 0) (F n (A t) (moves t (l :: l2 :: ls) (d :: ds)) old)).
      set (Z' := fun r c => rs (l_in l) (fun i => A' r i * l_W l i c + A 0 r i * fst d i c) + snd d c).
      assert (EN : forall t r c, (r < n)%nat -> Anext t r c = hidF a (pre (A t) (move t l d) r c)).
      { intros t r c Hr. unfold Anext. change (moves t (l :: l2 :: ls) (d :: ds)) with (move t l d :: moves t (l2 :: ls) ds). destruct (forward_hd (A t) (move t l d) (moves t (l2 :: ls) ds) old) as (H & E & EH).
        rewrite E. cbn [hd]. rewrite EH by exact Hr.
        destruct ds; reflexivity. }
      assert (EF : forall t, F n (A t) (moves t (l :: l2 :: ls) (d :: ds)) old = Anext t :: F n (Anext t) (moves t (l2 :: ls) ds) (tl old)) by (intros t; reflexivity).
      assert (EZ : F n (A 0) (l :: l2 :: ls) old = Anext 0 :: F n (Anext 0) (l2 :: ls) (tl old)).
      { pose proof (EF 0) as E. rewrite !moves_0 in E. exact E. }
      set (bw2 := backward a 0 n n n y (Anext 0) (l2 :: ls) (F n (Anext 0) (l2 :: ls) (tl old)) (tl oldD)).
      set (B := hd (fun _ _ => 0) oldD).
      set (G := upd_rows n (fun r i => rs (l_out l2) (fun j => snd bw2 r j * l_W l2 i j)) B).
      set (Dl := upd_rows n (fun r i => G r i * hidFp a (Anext 0 r i)) G).
      assert (EB : backward a 0 n n n y (A 0) (l :: l2 :: ls) (F n (A 0) (l :: l2 :: ls) old) oldD = (layer_grad 0 n n n (A 0) Dl l :: fst bw2, Dl)).
      { rewrite EZ. change (backward a 0 n n n y (A 0) (l :: l2 :: ls) (Anext 0 :: F n (Anext 0) (l2 :: ls) (tl old)) oldD) with
          (let '(gs, D2) := backward a 0 n n n y (Anext 0) (l2 :: ls) (F n (Anext 0) (l2 :: ls) (tl old)) (tl oldD) in
           let G := upd_rows n (fun r i => rs (l_out l2) (fun j => D2 r j * l_W l2 i j)) B in
           let Dl := upd_rows n (fun r i => G r i * hidFp a (Anext 0 r i)) G in (layer_grad 0 n n n (A 0) Dl l :: gs, Dl)).
        fold bw2. rewrite (surjective_pairing bw2). reflexivity. }
      cbv zeta. rewrite EB. cbn [fst snd]. rewrite nout_cons in *.
      assert (HDN : forall r i, (r < n)%nat -> (i < l_in l2)%nat -> D (fun t => Anext t r i) 0 (hsign a * hidFp a (Anext 0 r i) * Z' r i)).
      { intros r i Hr Hi. apply (D_ext (fun t => hidF a (pre (A t) (move t l d) r i))); [intros t; symmetry; now apply EN|].
        apply (D_comp (fun t => pre (A t) (move t l d) r i) (hidF a)); [apply D_pre; intros; now apply HA|]. rewrite EN by exact Hr. apply hid_deriv. intros Ea. rewrite move_0. apply HS1; [exact Ea|exact Hr|]. lia. }
      assert (HSN : smooth hmin hmax a o n (Anext 0) (l2 :: ls)).
      { revert HS2. apply smooth_ext; [exact HC2|]. intros r i Hr Hi. rewrite EN by exact Hr. now rewrite move_0. }
      specialize (IH ds (tl old) (tl oldD) Anext _ ltac:(discriminate) ltac:(cbn in *; lia) HC2 HDN HSN HY). cbv zeta in IH. fold bw2 in IH.
      apply (D_ext (fun t => data_loss hmin hmax o n n (nout (l2 :: ls)) y (last (F n (Anext t) (moves t (l2 :: ls) ds) (tl old)) (fun _ _ => 0)))).
      { intros t. rewrite EF. f_equal. destruct ds as [|d2 ds]; [discriminate|]. reflexivity. }
      eapply D_val; [|exact IH].
      change (sdot (hsign a) (l :: l2 :: ls) (layer_grad 0 n n n (A 0) Dl l :: fst bw2) (d :: ds)) with
        (hsign a ^ S (length ls) * inner l (layer_grad 0 n n n (A 0) Dl l) d + sdot (hsign a) (l2 :: ls) (fst bw2) ds).
      change (pred (length (l :: l2 :: ls))) with (S (length ls)). change (pred (length (l2 :: ls))) with (length ls). cbn [pow].
      assert (K : rs n (fun r => rs (l_in l2) (fun i => rs (l_out l2) (fun j => snd bw2 r j * l_W l2 i j) * (hsign a * hidFp a (Anext 0 r i) * Z' r i))) =
        hsign a * rs n (fun r => rs (l_out l) (fun c => Dl r c * Z' r c))).
      { rewrite <- rs_scale. apply rs_ext. intros r Hr. rewrite <- rs_scale, HC1. apply rs_ext. intros i Hi. unfold Dl, G, upd_rows. destruct (Nat.ltb_spec r n); [|lia]. ring. }
      rewrite K. pose proof (layer_sum n l (A 0) A' Dl d Hn) as LS. fold Z' in LS.
      transitivity (sdot (hsign a) (l2 :: ls) (fst bw2) ds + hsign a * hsign a ^ length ls * (1 / INR n * rs n (fun r => rs (l_out l) (fun c => Dl r c * Z' r c)))); [ring|].
      unfold Z' at 1. rewrite LS. ring.
  Qed.
End Main.

(* ------------------------------------------------------------------ the penalty *)
Fixpoint dot (ls : list layer) (gs ds : list dir) : R := match ls, gs, ds with l :: ls', g :: gs', d :: ds' => inner l g d + dot ls' gs' ds' | _, _, _ => 0 end.
Lemma sdot_1 ls : forall gs ds, sdot 1 ls gs ds = dot ls gs ds.
Proof. induction ls as [|l ls IH]; intros [|g gs] [|d ds]; cbn [sdot dot]; auto. rewrite pow1, IH. ring. Qed.
Fixpoint wdot (ls : list layer) (ds : list dir) : R := match ls, ds with l :: ls', d :: ds' => rs (l_in l) (fun i => rs (l_out l) (fun j => l_W l i j * fst d i j)) + wdot ls' ds' | _, _ => 0 end.
Lemma inner_alpha alpha bs n m A Dl l d : inner l (layer_grad alpha bs n m A Dl l) d = inner l (layer_grad 0 bs n m A Dl l) d + alpha / INR n * rs (l_in l) (fun i => rs (l_out l) (fun j => l_W l i j * fst d i j)).
Proof.
  unfold inner, layer_grad. cbn [fst snd].
  assert (E : rs (l_in l) (fun i => rs (l_out l) (fun j => (1 / INR n * rs m (fun r => A r i * Dl r j) + alpha / INR n * l_W l i j) * fst d i j)) =
    rs (l_in l) (fun i => rs (l_out l) (fun j => (1 / INR n * rs m (fun r => A r i * Dl r j) + 0 / INR n * l_W l i j) * fst d i j)) + alpha / INR n * rs (l_in l) (fun i => rs (l_out l) (fun j => l_W l i j * fst d i j))).
  { rewrite <- rs_scale, <- rs_plus. apply rs_ext. intros i Hi. rewrite <- rs_scale, <- rs_plus. apply rs_ext. intros j Hj. unfold Rdiv. ring. }
  rewrite E. ring.
Qed.
Lemma backward_alpha a alpha bs n y : forall ls ds m A hs oldD,
  snd (backward a alpha bs n m y A ls hs oldD) = snd (backward a 0 bs n m y A ls hs oldD) /\
  dot ls (fst (backward a alpha bs n m y A ls hs oldD)) ds = dot ls (fst (backward a 0 bs n m y A ls hs oldD)) ds + alpha / INR n * wdot ls ds.
Proof.
  induction ls as [|l ls IH]; intros ds m A hs oldD; [cbn; split; [reflexivity|ring]|]. destruct ls as [|l2 ls].
  - cbn [backward fst snd dot wdot]. split; [reflexivity|]. destruct ds as [|d ds]; [ring|]. rewrite inner_alpha. ring.
  - destruct (IH (tl ds) bs (hd (fun _ _ => 0) hs) (tl hs) (tl oldD)) as [E1 E2].
    set (b1 := backward a alpha bs n bs y (hd (fun _ _ => 0) hs) (l2 :: ls) (tl hs) (tl oldD)) in *. set (b0 := backward a 0 bs n bs y (hd (fun _ _ => 0) hs) (l2 :: ls) (tl hs) (tl oldD)) in *.
    set (Dl := fun (b : list (rmtx * (nat -> R)) * rmtx) => let G := upd_rows bs (fun r i => rs (l_out l2) (fun j => snd b r j * l_W l2 i j)) (hd (fun _ _ => 0) oldD) in upd_rows bs (fun r i => G r i * hidFp a (hd (fun _ _ => 0) hs r i)) G).
    assert (K : forall al b, b = backward a al bs n bs y (hd (fun _ _ => 0) hs) (l2 :: ls) (tl hs) (tl oldD) -> backward a al bs n m y A (l :: l2 :: ls) hs oldD = (layer_grad al bs n m A (Dl b) l :: fst b, Dl b)).
    { intros al b ->. change (backward a al bs n m y A (l :: l2 :: ls) hs oldD) with (let '(gs, D2) := backward a al bs n bs y (hd (fun _ _ => 0) hs) (l2 :: ls) (tl hs) (tl oldD) in
        let G := upd_rows bs (fun r i => rs (l_out l2) (fun j => D2 r j * l_W l2 i j)) (hd (fun _ _ => 0) oldD) in
        let Dl := upd_rows bs (fun r i => G r i * hidFp a (hd (fun _ _ => 0) hs r i)) G in (layer_grad al bs n m A Dl l :: gs, Dl)).
      destruct (backward a al bs n bs y (hd (fun _ _ => 0) hs) (l2 :: ls) (tl hs) (tl oldD)). reflexivity. }
    rewrite (K alpha b1 eq_refl), (K 0 b0 eq_refl). cbn [fst snd]. assert (ED : Dl b1 = Dl b0) by (unfold Dl; cbv beta zeta; now rewrite E1). rewrite ED. split; [reflexivity|].
    destruct ds as [|d ds]; [cbn; ring|]. cbn [tl] in E2.
    change (dot (l :: l2 :: ls) (layer_grad alpha bs n m A (Dl b0) l :: fst b1) (d :: ds)) with (inner l (layer_grad alpha bs n m A (Dl b0) l) d + dot (l2 :: ls) (fst b1) ds).
    change (dot (l :: l2 :: ls) (layer_grad 0 bs n m A (Dl b0) l :: fst b0) (d :: ds)) with (inner l (layer_grad 0 bs n m A (Dl b0) l) d + dot (l2 :: ls) (fst b0) ds).
    change (wdot (l :: l2 :: ls) (d :: ds)) with (rs (l_in l) (fun i => rs (l_out l) (fun j => l_W l i j * fst d i j)) + wdot (l2 :: ls) ds).
    rewrite E2, inner_alpha. ring.
Qed.
Lemma D_squares ls : forall ds, D (fun t => coef_squares (moves t ls ds)) 0 (2 * wdot ls ds).
Proof.
  induction ls as [|l ls IH]; intros [|d ds].
  - cbn. apply (D_val _ _ 0); [ring|]. apply D_const.
  - cbn. apply (D_val _ _ 0); [ring|]. apply D_const.
  - cbn [moves wdot]. apply (D_val _ _ 0); [ring|]. apply D_const.
  - apply (D_ext (fun t => rs (l_in l) (fun i => rs (l_out l) (fun j => (l_W l i j + t * fst d i j) * (l_W l i j + t * fst d i j))) + coef_squares (moves t ls ds))); [reflexivity|].
    eapply D_val; [|apply D_plus; [apply (D_rs (l_in l) (fun i t => rs (l_out l) (fun j => (l_W l i j + t * fst d i j) * (l_W l i j + t * fst d i j))) 0 (fun i => rs (l_out l) (fun j => 2 * (l_W l i j * fst d i j))))|apply IH]].
    + cbn [wdot]. rewrite Rmult_plus_distr_l. f_equal. rewrite <- rs_scale. apply rs_ext. intros i Hi. apply rs_scale.
    + intros i Hi. apply (D_rs (l_out l) (fun j t => (l_W l i j + t * fst d i j) * (l_W l i j + t * fst d i j))). intros j Hj.
      eapply D_val; [|apply (D_sq (fun t => l_W l i j + t * fst d i j)); apply D_plus; [apply D_const|apply (D_ext (fun t => fst d i j * t)); [intros; ring|apply D_scal, D_id]]]. cbv beta. ring.
Qed.
Lemma net_gradient hmin hmax a o alpha n X y ls ds oldA oldD : (0 < n)%nat -> ls <> [] -> length ds = length ls -> chain ls -> a <> ATanh ->
  smooth hmin hmax a o n X ls -> (o = OSoftmax -> forall r, (r < n)%nat -> rs (nout ls) (y r) = 1) ->
  D (fun t => net_loss hmin hmax a o alpha n n X y (moves t ls ds) oldA) 0 (dot ls (backprop a o alpha n n X y ls oldA oldD) ds).
Proof.
  intros Hn HN HL HC HT HS HY. unfold net_loss, backprop. destruct (backward_alpha a alpha n n y ls ds n X (forward a o n n X ls oldA) oldD) as [_ ->].
  assert (SG : hsign a = 1) by (destruct a; auto; congruence).
  pose proof (backprop_main hmin hmax a o n y Hn ls ds oldA oldD (fun _ => X) (fun _ _ => 0) HN HL HC (fun r i _ _ => D_const (X r i) 0) HS HY) as M. cbv zeta in M. rewrite SG, sdot_1 in M.
  apply (D_ext (fun t => data_loss hmin hmax o n n (nout ls) y (last (forward a o n n X (moves t ls ds) oldA) (fun _ _ => 0)) + 1 / 2 * alpha / INR n * coef_squares (moves t ls ds))).
  { intros t. rewrite nout_moves. f_equal. unfold Rdiv. ring. }
  eapply D_val; [|apply D_plus; [exact M|apply D_scal, D_squares]].
  assert (Z0 : rs n (fun r => match ls with [] => 0 | l :: _ => rs (l_in l) (fun i => rs (l_out l) (fun j => snd (backward a 0 n n n y X ls (forward a o n n X ls oldA) oldD) r j * l_W l i j) * 0) end) = 0).
  { transitivity (rs n (fun _ => 0)); [|apply rs_zero]. apply rs_ext. intros r Hr. destruct ls as [|l ls']; [reflexivity|]. transitivity (rs (l_in l) (fun _ => 0)); [|apply rs_zero]. apply rs_ext. intros; ring. }
  rewrite Z0. unfold Rdiv. field. apply not_0_INR. lia.
Qed.
Lemma net_tanh hmin hmax o n X y ls ds oldA oldD : (0 < n)%nat -> ls <> [] -> length ds = length ls -> chain ls ->
  smooth hmin hmax ATanh o n X ls -> (o = OSoftmax -> forall r, (r < n)%nat -> rs (nout ls) (y r) = 1) ->
  D (fun t => net_loss hmin hmax ATanh o 0 n n X y (moves t ls ds) oldA) 0 (sdot (-1) ls (backprop ATanh o 0 n n X y ls oldA oldD) ds).
Proof.
  intros Hn HN HL HC HS HY. unfold net_loss, backprop.
  pose proof (backprop_main hmin hmax ATanh o n y Hn ls ds oldA oldD (fun _ => X) (fun _ _ => 0) HN HL HC (fun r i _ _ => D_const (X r i) 0) HS HY) as M. cbv zeta in M. cbn [hsign] in M.
  apply (D_ext (fun t => data_loss hmin hmax o n n (nout ls) y (last (forward ATanh o n n X (moves t ls ds) oldA) (fun _ _ => 0)))).
  { intros t. rewrite nout_moves. unfold Rdiv. ring. }
  eapply D_val; [|exact M]. change (-1) with (Ropp 1).
  match goal with |- _ + _ * (_ * ?r) = _ => assert (Z0 : r = 0) end.
  { transitivity (rs n (fun _ => 0)); [|apply rs_zero]. apply rs_ext. intros r Hr. destruct ls as [|l ls']; [reflexivity|]. transitivity (rs (l_in l) (fun _ => 0)); [|apply rs_zero]. apply rs_ext. intros; ring. }
  rewrite Z0. ring.
Qed.
