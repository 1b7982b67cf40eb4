(* Properties C16, C63. *)
From Coq Require Import QArith.
From Verif Require Import Common PolyModel PolyProofs.
Open Scope nat_scope.

(* C16: the generator channels deliver every index tuple once.  The loops end:
   the result does not depend on the fuel once it is large enough. *)
Theorem C16_combinations_with_replacement : forall n r, exists f0 l,
  (forall fuel, f0 <= fuel -> combinations_with_replacement fuel n r = Some l) /\
  NoDup l /\
  forall c, In c l <-> length c = r /\ StronglySorted le c /\ Forall (fun x => x < n) c.
Proof.
  intros n r. destruct (cwr_correct n r) as [f0 H]. exists f0, (lex_cwr 0 n r).
  split; [exact H|]. split; [apply lex_cwr_NoDup|]. intros c. rewrite lex_cwr_In.
  assert (E: Forall (fun x => 0 <= x < n) c <-> Forall (fun x => x < n) c)
    by (split; apply Forall_impl; intros; lia). tauto.
Qed.
Print Assumptions C16_combinations_with_replacement.

Theorem C16_combinations : forall n r, exists f0 l,
  (forall fuel, f0 <= fuel -> combinations fuel n r = Some l) /\
  NoDup l /\
  forall c, In c l <-> length c = r /\ StronglySorted lt c /\ Forall (fun x => x < n) c.
Proof.
  intros n r. destruct (comb_correct n r) as [f0 H]. exists f0, (lex_comb 0 n r).
  split; [exact H|]. split; [apply lex_comb_NoDup|]. intros c. rewrite lex_comb_In.
  assert (E: Forall (fun x => 0 <= x < n) c <-> Forall (fun x => x < n) c)
    by (split; apply Forall_impl; intros; lia). tauto.
Qed.
Print Assumptions C16_combinations.

(* C16: the fitted Powers are exactly the exponent vectors wanted, each once *)
Theorem C16_powers_all_once : forall degree interaction bias n, exists f0 powers,
  (forall fuel, f0 <= fuel -> poly_fit fuel degree interaction bias n = Some powers) /\
  NoDup powers /\
  (forall e, In e powers <->
     length e = n /\ (Z.of_nat (list_sum e) <= degree)%Z /\
     (interaction = true -> Forall (fun p => p <= 1) e) /\ (bias = false -> 0 < list_sum e)).
Proof. exact poly_fit_correct. Qed.
Print Assumptions C16_powers_all_once.

(* C16: column k of a transformed row is the monomial with exponents Powers[k] *)
Theorem C16_column_is_monomial : forall powers x,
  Forall (fun e => length e = length x) powers ->
  Forall2 (fun v e => (v == fold_right (fun xp v => Qpower (fst xp) (Z.of_nat (snd xp)) * v) 1 (combine x e))%Q)
    (poly_transform_row powers x) powers.
Proof. exact poly_transform_row_eq. Qed.
Print Assumptions C16_column_is_monomial.

Example C16_example :
  poly_fit 100 2 false true 2 = Some [[0;0];[1;0];[0;1];[2;0];[1;1];[0;2]] /\
  poly_fit 100 3 true false 3 = Some [[1;0;0];[0;1;0];[0;0;1];[1;1;0];[1;0;1];[0;1;1];[1;1;1]].
Proof. vm_compute. split; reflexivity. Qed.
Example C16_example_values : Forall2 Qeq
  (poly_transform_row [[0;0];[1;0];[0;1];[2;0];[1;1];[0;2]] [3; 5]%Q) [1; 3; 5; 9; 15; 25]%Q.
Proof. vm_compute. repeat constructor. Qed.

(* C63: InverseTransform gives the input row back for every degree >= 1 *)
Theorem C63_poly_inverse : forall degree interaction bias x,
  (1 <= degree)%Z -> x <> [] ->
  exists f0 powers,
    (forall fuel, f0 <= fuel -> poly_fit fuel degree interaction bias (length x) = Some powers) /\
    exists out, poly_inverse_row powers (poly_transform_row powers x) = Some out /\ Forall2 Qeq out x.
Proof. exact poly_fit_roundtrip. Qed.
Print Assumptions C63_poly_inverse.

Example C63_example :
  match poly_fit 100 3 false true 2 with
  | Some p => match poly_inverse_row p (poly_transform_row p [3 # 2; 7]%Q) with
              | Some out => map Qred out = [3 # 2; 7]%Q | None => False end
  | None => False end.
Proof. vm_compute. reflexivity. Qed.
