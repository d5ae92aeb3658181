(** Values by name. *)
From Coq Require Import List String.
Import ListNotations.

(** Among [l], [name] is given the value [v]; names are given once. *)
Definition gives {V} (l : list (string * V)) (name : string) (v : V) : Prop := In (name, v) l.
Definition silent {V} (l : list (string * V)) (name : string) : Prop := ~ In name (map fst l).
