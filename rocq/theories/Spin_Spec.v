(** Matrix elements of a Hamiltonian given as a list of products of local operators. *)
From Coq Require Import String List Arith Bool Reals.
From Verif Require Import Py Alg Cplx NdArray_Model Template_Spec.
Import ListNotations.
Notation length := Datatypes.length.
Local Open Scope nat_scope.

Section Elem.
Context {K : StarRing}.
Definition config := string -> nat.
(** One for states that agree outside the leaves named *)
Fixpoint agree (leaves named : list string) (x y : config) : K :=
  match leaves with
  | [] => r1
  | l :: leaves => if in_dec string_dec l named then agree leaves named x y else rmul (delta (x l) (y l)) (agree leaves named x y)
  end.
Fixpoint locals (t : list (string * arr K)) (x y : config) : K :=
  match t with [] => r1 | (l, a) :: t => rmul (get a [x l; y l]) (locals t x y) end.
(** Element of one product, and of a sum of products *)
Definition elem (leaves : list string) (t : list (string * arr K)) (x y : config) : K := rmul (agree leaves (map fst t) x y) (locals t x y).
Fixpoint total (leaves : list string) (hs : list (list (string * arr K))) (x y : config) : K :=
  match hs with [] => r0 | t :: hs => radd (elem leaves t x y) (total leaves hs x y) end.
(** A term acting on the leaf [e] only *)
Definition only_on (e : string) (t : list (string * arr K)) : Prop := exists a, t = [(e, a)].
(** The terms that do not act on [e] only, in their order *)
Inductive others (e : string) : list (list (string * arr K)) -> list (list (string * arr K)) -> Prop :=
| others_nil : others e [] []
| others_drop t hs rest : only_on e t -> others e hs rest -> others e (t :: hs) rest
| others_keep t hs rest : ~ only_on e t -> others e hs rest -> others e (t :: hs) (t :: rest).
End Elem.

(** The documented Hamiltonian [H_e + sum_j (h_j - 2 c_j q_j |2><2| + 2 c_j^2 / w_j^2 |2><2|)]:
    a mode has a name, a frequency and a coupling *)
Section SpinBoson.
Local Open Scope R_scope.
Variable leaves : list string.
Variable e : string.
Definition two (a b c d : R) (i j : nat) : C_star := RtoC (match i, j with O, O => a | O, S O => b | S O, O => c | S O, S O => d | _, _ => 0 end).
(** [<i| q |j>] of an oscillator of unit mass and unit Planck constant *)
Definition q_elem (w : R) (i j : nat) : C_star := RtoC (sqrt (1 / (2 * w)) * (if (i =? S j)%nat then sqrt (INR i) else if (j =? S i)%nat then sqrt (INR j) else 0)).
Definition level (w : R) (i j : nat) : C_star := RtoC (if (i =? j)%nat then w * (INR i + 1 / 2) else 0).
Definition mode_elem (m : string * (R * R)) (x y : config) : C_star :=
  let '(l, (w, c)) := m in
  radd (rmul (level w (x l) (y l)) (agree leaves [l] x y))
 (radd (rmul (rmul (RtoC (- 2 * c)) (rmul (q_elem w (x l) (y l)) (two 0 0 0 1 (x e) (y e)))) (agree leaves [l; e] x y))
       (rmul (rmul (RtoC (2 * c ^ 2 / w ^ 2)) (two 0 0 0 1 (x e) (y e))) (agree leaves [e] x y))).
Definition relax_elem (m : string * (R * R)) (x y : config) : C_star :=
  let '(l, (w, c)) := m in rmul (rmul (RtoC c) (rmul (q_elem w (x l) (y l)) (two 0 1 1 0 (x e) (y e)))) (agree leaves [l; e] x y).
Definition sum_of {A} (f : A -> C_star) (l : list A) : C_star := fold_right (fun a s => radd (f a) s) r0 l.
Definition spin_boson (e1 e2 v : R) (modes relax : list (string * (R * R))) (x y : config) : C_star :=
  radd (rmul (two e1 v v e2 (x e) (y e)) (agree leaves [e] x y))
       (radd (sum_of (fun m => mode_elem m x y) modes) (sum_of (fun m => relax_elem m x y) relax)).
(** The modes with the names [prefix0], [prefix1], ... *)
Definition named (prefix : string) (l : list (R * R)) : list (string * (R * R)) := combine (map (fun j => (prefix ++ dec j)%string) (seq 0 (length l))) l.
End SpinBoson.
