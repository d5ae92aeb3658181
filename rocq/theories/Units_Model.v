(** Quantities with units, /repo/minitn/lib/units.py.  Floats are real numbers. *)
From Coq Require Import String List Bool Reals.
From Verif Require Import Py.
Import ListNotations.
Open Scope py_scope.
Open Scope string_scope.

(** The entries of [scipy.constants.physical_constants] used by the table
    /repo/minitn/lib/units.py:13-31. *)
Record consts := {
  hartree_J : R; hartree_eV : R; hartree_invm : R; hartree_K : R;
  time_s : R; kelvin_hartree : R; length_m : R; mass_kg : R
}.

Section U.
Variable c : consts.

(** /repo/minitn/lib/units.py:13-31 [atomic_unit_in]; [None] is the key [None]. *)
Definition table : list (option string * R) :=
  [ (None, 1%R);
    (Some "J", hartree_J c);
    (Some "eV", hartree_eV c);
    (Some "meV", (1 / 1000 * hartree_eV c)%R);
    (Some "cm-1", (1 / 100 * hartree_invm c)%R);
    (Some "K", hartree_K c);
    (Some "s", time_s c);
    (Some "fs", (10 ^ 15 * time_s c)%R);
    (Some "ps", (10 ^ 12 * time_s c)%R);
    (Some "K-1", kelvin_hartree c);
    (Some "m", length_m c);
    (Some "pm", (10 ^ 12 * length_m c)%R);
    (Some "kg", mass_kg c) ].

Definition ukey_eqb (a b : option string) : bool :=
  match a, b with
  | None, None => true
  | Some a, Some b => String.eqb a b
  | _, _ => false
  end.

Fixpoint lookup (l : list (option string * R)) (k : option string) : option R :=
  match l with
  | [] => None
  | (k', v) :: l => if ukey_eqb k k' then Some v else lookup l k
  end.

(** [atomic_unit_in[unit]] *)
Definition factor (u : option string) : res R :=
  match lookup table u with Some v => Ok v | None => Raise KeyError end.

(** /repo/minitn/lib/units.py:33-40 [synonyms]; the last entry is one string with
    a comma inside. *)
Definition synonyms : list (option string * list string) :=
  [ (None, ["au"; "a.u."]);
    (Some "K", ["kelvin"]);
    (Some "eV", ["ev"]);
    (Some "meV", ["mev"]);
    (Some "K-1", ["inverse kelvin"]);
    (Some "cm-1", ["cm^(-1), cm^{-1}"]) ].

Fixpoint find_synonym (l : list (option string * list string)) (u : string)
  : option (option string) :=
  match l with
  | [] => None
  | (key, names) :: l => if existsb (String.eqb u) names then Some key else find_synonym l u
  end.

(** /repo/minitn/lib/units.py:51-63 [standardize]. *)
Definition standardize (u : option string) : res (option string) :=
  match u with
  | None => Ok None
  | Some s =>
      match lookup table (Some s) with
      | Some _ => Ok (Some s)
      | None => match find_synonym synonyms s with
                | Some key => Ok key
                | None => Raise ValueError
                end
      end
  end.

(** /repo/minitn/lib/units.py:42-49 [Quantity]. *)
Record quantity := { value : R; unit_ : option string }.

Definition quantity_new (v : R) (u : option string) : res quantity :=
  let! u := standardize u in Ok {| value := v; unit_ := u |}.

(** /repo/minitn/lib/units.py:65-67 [value_in_au].  Factors are physical constants,
    never zero, so Python's [ZeroDivisionError] is left out. *)
Definition value_in_au (q : quantity) : res R :=
  let! f := factor (unit_ q) in Ok (value q / f)%R.

(** /repo/minitn/lib/units.py:69-73 [convert_to]; the result is the mutated object. *)
Definition convert_to (q : quantity) (u : option string) : res quantity :=
  let! u := standardize u in
  let! v := value_in_au q in
  let! f := factor u in
  Ok {| value := (v * f)%R; unit_ := u |}.

(** /repo/minitn/lib/units.py:79-97. *)
Definition q_neg (q : quantity) : res quantity := quantity_new (- value q)%R (unit_ q).
Definition q_add (p q : quantity) : res quantity :=
  let! a := value_in_au p in let! b := value_in_au q in quantity_new (a + b)%R None.
Definition q_sub (p q : quantity) : res quantity :=
  let! a := value_in_au p in let! b := value_in_au q in quantity_new (a - b)%R None.
Definition q_mul (p : quantity) (x : R) : res quantity :=
  let! a := value_in_au p in quantity_new (a * x)%R None.
(** [/]: a zero divisor raises. *)
Definition q_div (p : quantity) (x : R) : res quantity :=
  let! a := value_in_au p in
  if Req_EM_T x 0 then Raise ZeroDivisionError else quantity_new (a / x)%R None.

(** The right operand of a comparison: a quantity or a plain number. *)
Inductive operand := OQ (q : quantity) | ON (x : R).

Definition Rbool {P Q : Prop} (d : {P} + {Q}) : bool := if d then true else false.

(** /repo/minitn/lib/units.py:99-121 [__eq__], [__gt__]. *)
Definition q_eq (p : quantity) (o : operand) : res bool :=
  match o with
  | OQ q => let! a := value_in_au p in let! b := value_in_au q in Ok (Rbool (Req_EM_T a b))
  | ON x => if Req_EM_T x 0 then Ok (Rbool (Req_EM_T (value p) 0)) else Raise TypeError
  end.
Definition q_gt (p : quantity) (o : operand) : res bool :=
  match o with
  | OQ q => let! a := value_in_au p in let! b := value_in_au q in Ok (Rbool (Rgt_dec a b))
  | ON x => if Req_EM_T x 0 then Ok (Rbool (Rgt_dec (value p) 0)) else Raise TypeError
  end.

End U.
