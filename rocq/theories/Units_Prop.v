(** Properties C35 and C36. *)
From Coq Require Import String List Bool Reals Lra.
From Verif Require Import Py Units_Model Units_Spec Units_Proof.
Import ListNotations.
Open Scope string_scope.

(** ** C35 *)
Theorem C35_convert_keeps_value_in_au :
  forall c, positive c -> forall q u k,
    is_canonical (unit_ q) -> names u k ->
    exists q', convert_to c q u = Ok q' /\ unit_ q' = k /\ is_ok (value_in_au c q) = true /\
      value_in_au c q' = value_in_au c q.
Proof. exact convert_keeps_au. Qed.
Print Assumptions C35_convert_keeps_value_in_au.

Theorem C35_convert_back :
  forall c, positive c -> forall q u q', is_canonical (unit_ q) ->
    convert_to c q u = Ok q' -> convert_to c q' (unit_ q) = Ok q.
Proof. exact convert_roundtrip. Qed.
Print Assumptions C35_convert_back.

Theorem C35_convert_idempotent :
  forall c, positive c -> forall q q', is_canonical (unit_ q) ->
    convert_to c q (unit_ q) = Ok q' -> q' = q.
Proof. exact convert_same. Qed.
Print Assumptions C35_convert_idempotent.

Theorem C35_arithmetic :
  forall c, positive c -> forall p q a b x,
    is_canonical (unit_ p) -> is_canonical (unit_ q) ->
    value_in_au c p = Ok a -> value_in_au c q = Ok b ->
    (exists r, q_add c p q = Ok r /\ value_in_au c r = Ok (a + b)%R) /\
    (exists r, q_sub c p q = Ok r /\ value_in_au c r = Ok (a - b)%R) /\
    (exists r, q_mul c p x = Ok r /\ value_in_au c r = Ok (a * x)%R) /\
    (exists r, q_neg c p = Ok r /\ unit_ r = unit_ p /\ value_in_au c r = Ok (- a)%R) /\
    (x <> 0%R -> exists r, q_div c p x = Ok r /\ value_in_au c r = Ok (a / x)%R).
Proof. exact arith_au. Qed.
Print Assumptions C35_arithmetic.

Theorem C35_comparison :
  forall c, positive c -> forall p q a b, is_canonical (unit_ p) -> is_canonical (unit_ q) ->
    value_in_au c p = Ok a -> value_in_au c q = Ok b ->
    (q_eq c p (OQ q) = Ok true <-> a = b) /\
    (q_gt c p (OQ q) = Ok true <-> (a > b)%R) /\
    is_ok (q_eq c p (OQ q)) = true /\ is_ok (q_gt c p (OQ q)) = true.
Proof. exact compare_au. Qed.
Print Assumptions C35_comparison.

Theorem C35_comparison_with_zero :
  forall c, positive c -> forall p a, is_canonical (unit_ p) -> value_in_au c p = Ok a ->
    (q_eq c p (ON 0) = Ok true <-> a = 0%R) /\ (q_gt c p (ON 0) = Ok true <-> (a > 0)%R).
Proof. exact compare_zero_au. Qed.
Print Assumptions C35_comparison_with_zero.

Theorem C35_comparison_with_number_rejected :
  forall c p x, x <> 0%R ->
    q_eq c p (ON x) = Raise TypeError /\ q_gt c p (ON x) = Raise TypeError.
Proof. exact compare_number. Qed.
Print Assumptions C35_comparison_with_number_rejected.

Theorem C35_inverse_temperature :
  forall c, positive c -> forall t,
    (hartree_K c * kelvin_hartree c = 1)%R -> (0 < t)%R ->
    exists a b, value_in_au c {| value := 1 / t; unit_ := Some "K-1" |} = Ok a /\
      value_in_au c {| value := t; unit_ := Some "K" |} = Ok b /\ (a * b = 1)%R.
Proof. exact inverse_temperature. Qed.
Print Assumptions C35_inverse_temperature.

(** Made-up constants: 27 eV per hartree. *)
Definition exC : consts :=
  {| hartree_J := 4; hartree_eV := 27; hartree_invm := 1000; hartree_K := 2;
     time_s := 3; kelvin_hartree := 1 / 2; length_m := 5; mass_kg := 6 |}.
Example C35_example_hyp : positive exC /\ is_canonical (Some "J") /\ names (Some "ev") (Some "eV").
Proof.
  split; [unfold positive, exC; cbn; lra|]. split.
  - right. exists "J". cbn. tauto.
  - right. exists "ev". cbn. tauto.
Qed.
Example C35_example :
  exists q, convert_to exC {| value := 4; unit_ := Some "J" |} (Some "ev") = Ok q /\
    value q = 27%R /\ unit_ q = Some "eV".
Proof.
  eexists. split; [reflexivity|]. cbn [value unit_]. split; [|reflexivity].
  cbn. field.
Qed.

(** ** C36 *)
Theorem C36_accepted_names :
  forall c u k, standardize c u = Ok k <-> names u k.
Proof. exact standardize_ok. Qed.
Print Assumptions C36_accepted_names.

Theorem C36_other_names_rejected :
  forall c u, (forall k, ~ names u k) -> standardize c u = Raise ValueError.
Proof. exact standardize_bad. Qed.
Print Assumptions C36_other_names_rejected.

(** The intended alias is not accepted: the table holds one string with a comma. *)
Theorem C36_wavenumber_alias_refuted :
  forall c, standardize c (Some "cm^(-1)") = Raise ValueError /\
            standardize c (Some "cm^{-1}") = Raise ValueError /\
            standardize c (Some "cm^(-1), cm^{-1}") = Ok (Some "cm-1").
Proof. intros c. repeat split. Qed.
Print Assumptions C36_wavenumber_alias_refuted.

(** Dimensions are not checked: any unit converts to any other. *)
Theorem C36_no_dimension_check :
  forall c, positive c -> forall q u k, is_canonical (unit_ q) -> names u k ->
    is_ok (convert_to c q u) = true.
Proof.
  intros c H q u k H1 H2. destruct (convert_ok c H q u k H1 H2) as (q' & -> & _). reflexivity.
Qed.
Print Assumptions C36_no_dimension_check.

Example C36_example_energy_to_time :
  exists q, convert_to exC {| value := 27; unit_ := Some "eV" |} (Some "fs") = Ok q.
Proof. eexists. reflexivity. Qed.

(** ** C58: the conversion table *)
Theorem C58_true_amount :
  forall c q, is_canonical (unit_ q) -> unit_ q <> Some "meV" ->
    value_in_au c q = Ok (amount c (value q) (unit_ q)).
Proof. exact true_amount. Qed.
Print Assumptions C58_true_amount.

Theorem C58_convert_keeps_amount :
  forall c, positive c -> forall q u k, is_canonical (unit_ q) -> names u k ->
    unit_ q <> Some "meV" -> k <> Some "meV" ->
    exists q', convert_to c q u = Ok q' /\ unit_ q' = k /\
      amount c (value q') k = amount c (value q) (unit_ q).
Proof. exact convert_true. Qed.
Print Assumptions C58_convert_keeps_amount.

(** The table entry for meV has the factor 1e-3 where 1e3 is meant: a value in meV
    is read as a million times too large. *)
Theorem C58_meV_factor_refuted :
  forall c, positive c -> forall v,
    value_in_au c {| value := v; unit_ := Some "meV" |}
    = Ok (1000000 * amount c v (Some "meV"))%R.
Proof. exact meV_amount. Qed.
Print Assumptions C58_meV_factor_refuted.

(** 27000 meV is one hartree with the constants above; the code says a million. *)
Example C58_example :
  amount exC 27000 (Some "meV") = 1%R /\
  exists a, value_in_au exC {| value := 27000; unit_ := Some "meV" |} = Ok a /\ a = 1000000%R.
Proof.
  split; [unfold amount; cbn; field|]. eexists. split; [reflexivity|]. cbn. field.
Qed.
