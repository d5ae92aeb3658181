(** What a solver of differential equations sees of a network, and what becomes of the network. *)
From Coq Require Import List Arith Bool Reals.
From Verif Require Import Py Alg ListX NdArray_Model Net_Model Net_Spec Sweep_Spec Link_Spec Env_Spec Vec_Spec Cache_Model Eom_Spec Direct_Spec Cplx Normalize_Spec Rk4_Spec.
Import ListNotations.
Local Open Scope nat_scope.

(** ** Solvers *)
Section Plans.
Variables V T X : Type.
(** A computation that asks for the derivative at some times and vectors, each question
    depending on the answers before, and ends with a solver object. *)
Inductive plan := Done (x : X) | Ask (t : T) (y : list V) (go : list V -> plan).
(** With the derivative [f], which does not depend on the time; [tell] is what is noted of the time of a question. *)
Fixpoint answered (f : list V -> list V) (tell : T -> option T) (p : plan) (c : option T) : X * option T :=
  match p with Done x => (x, c) | Ask t y go => answered f tell (go (f y)) (tell t) end.
(** Only vectors of length [n] are asked about, if the answers have length [n]; the end is in [P]. *)
Fixpoint sized (P : X -> Prop) (n : nat) (p : plan) : Prop :=
  match p with Done x => P x | Ask t y go => length y = n /\ forall a, length a = n -> sized P n (go a) end.
End Plans.
Arguments Done {V T X} _. Arguments Ask {V T X} _ _ _. Arguments answered {V T X} _ _ _ _. Arguments sized {V T X} _ _ _.

(** ** The derivative of all arrays, with the mean fields of the arrays [A] *)
Section Flow.
Variable K : StarRing.
Implicit Types A B : id -> arr K.

(** One at [x], zero elsewhere. *)
Definition indicator (sh x : list nat) : arr K := build sh (fun z => if list_eq_dec Nat.eq_dec x z then r1 else r0).
(** The derivative of the matrix element by the conjugated array of [t], with [y] in the place of the array itself. *)
Definition gradient A (R : tree) (t : id) (term : list (id * arr K)) (y : arr K) : field K :=
  fun x => element (exchanged A t y) (varied A t (indicator (shape (A t)) x)) R term.
(** The derivative of the array of [t]; [axis] is its axis with the inverse density matrix, none for the root. *)
Definition velocity (icoef : K) (e0 : option K) A (R : tree) (terms : list (list (id * arr K))) (axis : option (nat * arr K)) (t : id) (y : arr K) : field K :=
  fun x => let dims := shape (A t) in
    rsub (rmul icoef (sumL terms (fun term =>
            match axis with
            | None => gradient A R t term y x
            | Some (ax, m) => beyond dims ax (get y) (Rk4_Spec.along (nth ax dims 0) ax (Some m) (gradient A R t term y)) x
            end)))
         (match axis with None => rmul (shift e0) (get y x) | Some _ => r0 end).
(** The arrays in a vector, and back. *)
Definition part A (R : tree) (v : list K) (t : id) : arr K := mkArr (shape (A t)) (slice v (offset (asize A) (nids R) t) (asize A t)).
Definition vector A (R : tree) : list K := concat (map (fun t => data (A t)) (nids R)).
Definition flow (icoef : K) (e0 : option K) A (R : tree) (terms : list (list (id * arr K))) (axis : id -> option (nat * arr K)) (v : list K) : list K :=
  concat (map (fun t => map (velocity icoef e0 A R terms (axis t) t (part A R v t)) (indices (shape (A t)))) (nids R)).
(** The axes with the inverses of the density matrices of [A]. *)
Definition inverse_axes (invert : option (arr K) -> nat -> res (arr K)) (axes : id -> option nat) A (R : tree) (axis : id -> option (nat * arr K)) : Prop :=
  forall t, In t (nids R) ->
    match axes t with
    | None => axis t = None
    | Some ax => exists rho m, density A R t ax rho /\ invert (Some rho) (nth ax (shape (A t)) 0) = Ok m /\ axis t = Some (ax, m)
    end.
End Flow.
Arguments indicator {K} _ _. Arguments gradient {K} _ _ _ _ _ _. Arguments velocity {K} _ _ _ _ _ _ _ _ _. Arguments part {K} _ _ _ _.
Arguments vector {K} _ _. Arguments flow {K} _ _ _ _ _ _ _. Arguments inverse_axes {K} _ _ _ _ _.

(** ** Orthonormalisation *)
(** The rows of [a] can be orthonormalised; [b] is the result. *)
Definition regular (axis : option nat) (a : arr C_star) : Prop :=
  match axis with
  | None => exists x, in_range x (shape a) /\ get a x <> r0
  | Some ax => independent (indices (del ax (shape a))) (nth ax (shape a) 0) (Normalize_Spec.along a ax)
  end.
Definition made_unit (axis : option nat) (a b : arr C_star) : Prop :=
  wf b /\ shape b = shape a /\
  match axis with
  | None => exists n, (0 < n)%R /\ RtoC (n * n) = sumL (indices (shape a)) (fun x => rmul (rconj (get a x)) (get a x)) /\
      forall x, in_range x (shape a) -> get b x = rmul (RtoC (/ n)) (get a x)
  | Some ax =>
      let dim := nth ax (shape a) 0 in let xs := indices (del ax (shape a)) in
      orthonormal xs dim (Normalize_Spec.along b ax) /\ lower xs dim (Normalize_Spec.along b ax) (Normalize_Spec.along a ax) /\
      lower xs dim (Normalize_Spec.along a ax) (Normalize_Spec.along b ax)
  end.

(** ** The course of a step *)
Section Course.
Variables T X : Type.
Variable invert : option (arr C_star) -> nat -> res (arr C_star).
Variable axes : id -> option nat.
Variable R : tree.
(** The terms at a time; [1 / coefficient], and the energy to be subtracted. *)
Variable terms_at : option T -> list (list (id * arr C_star)).
Variable icoef : C_star.
Variable e0 : option C_star.
(** The solver, and how often the mean fields are to be renewed. *)
Variable running : X -> bool.
Variable next_step : X -> plan C_star T X.
Variable current : X -> list C_star.
Variable tell : T -> option T.
Variables cmf limit : nat.
(** Its constructor, called with the time, the vector and the time to stop at. *)
Variable make : T -> list C_star -> T -> plan C_star T X.
Variable later : T -> T.
Variable zero : T.

(** The number of the step, the solver, the time of the network, the arrays of the network, and
    the mean fields in use: the arrays they belong to, their time, and the inverse densities. *)
Record moment := mkMoment {
  count : nat; object : X; clock : option T; arrays : id -> arr C_star;
  source : id -> arr C_star; since : option T; axis_in : id -> option (nat * arr C_star) }.

(** Before the first step: the mean fields of the arrays [A], and a solver that starts with [A]. *)
Definition begins (A : id -> arr C_star) (c : option T) (m : moment) : Prop :=
  let t0 := match c with None => zero | Some t => t end in
  count m = 1 /\ arrays m = A /\ source m = A /\ since m = c /\ inverse_axes invert axes A R (axis_in m) /\
  answered (flow icoef e0 A R (terms_at c) (axis_in m)) tell (make t0 (vector A R) (later t0)) c = (object m, clock m).
(** Whether the mean fields are renewed before the step, and what they are then. *)
Definition renewed (m m' : moment) : Prop :=
  if count m mod cmf =? 0
  then count m < limit /\ source m' = arrays m /\ since m' = clock m /\ inverse_axes invert axes (arrays m) R (axis_in m')
  else source m' = source m /\ since m' = since m /\ axis_in m' = axis_in m.
(** The solver makes a step with the derivative of these mean fields, starting from its own
    vector and not from the arrays. *)
Definition solved (m m' : moment) : Prop :=
  answered (flow icoef e0 (source m') R (terms_at (since m')) (axis_in m')) tell (next_step (object m)) (clock m) = (object m', clock m').
(** Then the arrays are the parts of its vector, made orthonormal. *)
Definition goes (m m' : moment) : Prop :=
  running (object m) = true /\ renewed m m' /\ solved m m' /\ count m' = S (count m) /\
  forall t, In t (nids R) -> regular (axes t) (part (arrays m) R (current (object m')) t) /\
    made_unit (axes t) (part (arrays m) R (current (object m')) t) (arrays m' t).
Inductive reach (m : moment) : moment -> Prop :=
  | here : reach m m
  | further m1 m2 : reach m m1 -> goes m1 m2 -> reach m m2.
(** The vector of the solver after the step that comes next can be orthonormalised. *)
Definition steady (m : moment) : Prop :=
  forall m', running (object m) = true -> renewed m m' -> solved m m' ->
    forall t, In t (nids R) -> regular (axes t) (part (arrays m) R (current (object m')) t).
End Course.
Arguments mkMoment {T X} _ _ _ _ _ _ _. Arguments count {T X} _. Arguments object {T X} _. Arguments clock {T X} _. Arguments arrays {T X} _ _.
Arguments source {T X} _ _. Arguments since {T X} _. Arguments axis_in {T X} _ _.
Arguments renewed {T X} _ _ _ _ _ _ _. Arguments solved {T X} _ _ _ _ _ _ _ _. Arguments goes {T X} _ _ _ _ _ _ _ _ _ _ _ _ _ _.
Arguments reach {T X} _ _ _ _ _ _ _ _ _ _ _ _ _ _. Arguments steady {T X} _ _ _ _ _ _ _ _ _ _ _ _ _. Arguments begins {T X} _ _ _ _ _ _ _ _ _ _ _ _ _.
