(** Specification of unit handling. *)
From Coq Require Import String List Reals.
From Verif Require Import Units_Model.
Import ListNotations.
Open Scope string_scope.

(** Every physical constant is positive. *)
Definition positive (c : consts) : Prop :=
  (0 < hartree_J c /\ 0 < hartree_eV c /\ 0 < hartree_invm c /\ 0 < hartree_K c /\
   0 < time_s c /\ 0 < kelvin_hartree c /\ 0 < length_m c /\ 0 < mass_kg c)%R.

(** How many of unit [u] make one atomic unit (independent of the code's tables):
    one hartree is [hartree_eV] eV, hence a thousand times as many meV. *)
Definition per_au (c : consts) (u : option string) : R :=
  match u with
  | None => 1
  | Some s =>
      if String.eqb s "J" then hartree_J c
      else if String.eqb s "eV" then hartree_eV c
      else if String.eqb s "meV" then hartree_eV c * 1000
      else if String.eqb s "cm-1" then hartree_invm c / 100
      else if String.eqb s "K" then hartree_K c
      else if String.eqb s "s" then time_s c
      else if String.eqb s "fs" then time_s c * 1000000000000000
      else if String.eqb s "ps" then time_s c * 1000000000000
      else if String.eqb s "K-1" then kelvin_hartree c
      else if String.eqb s "m" then length_m c
      else if String.eqb s "pm" then length_m c * 1000000000000
      else mass_kg c
  end%R.

Definition canonical : list string :=
  ["J"; "eV"; "meV"; "cm-1"; "K"; "s"; "fs"; "ps"; "K-1"; "m"; "pm"; "kg"].
Definition aliases : list (string * option string) :=
  [("au", None); ("a.u.", None); ("kelvin", Some "K"); ("ev", Some "eV"); ("mev", Some "meV");
   ("inverse kelvin", Some "K-1"); ("cm^(-1), cm^{-1}", Some "cm-1")].

(** [u] names the canonical unit [k]. *)
Definition names (u k : option string) : Prop :=
  (u = None /\ k = None) \/
  exists s, u = Some s /\ ((In s canonical /\ k = Some s) \/ In (s, k) aliases).

Definition is_canonical (k : option string) : Prop :=
  k = None \/ exists s, k = Some s /\ In s canonical.

(** The physical amount in atomic units of [v] units [k]. *)
Definition amount (c : consts) (v : R) (k : option string) : R := (v / per_au c k)%R.
