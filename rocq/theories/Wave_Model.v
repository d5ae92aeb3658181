(** Propagation on a grid, /repo/minitn/bases/girds.py lines 39-99 and 168-233.

    Simplifications.  Numbers are exact, the points are real.  A wavefunction is what its call on an
    array of points gives.  Arrays of a wrong length raise ValueError: numpy would stretch one of
    length one.  [inner_product] is given the quadrature [simps], and [linalg.eigh] is a parameter. *)
From Coq Require Import List Arith Bool Reals.
From Verif Require Import Py Alg Cplx ListX NdArray_Model Grid_Model.
Import ListNotations.
Notation length := Datatypes.length.
Local Open Scope py_scope.

Definition wave := list R -> res waves.

(** [scipy.interpolate.interp1d], kind linear: the points are sorted, [searchsorted] counts the
    points below, ValueError out of the range *)
Notation knot := (R * C_star)%type.
Fixpoint insert (p : knot) (l : list knot) : list knot :=
  match l with [] => [p] | q :: l' => if Rle_dec (fst p) (fst q) then p :: l else q :: insert p l' end.
Definition sort (l : list knot) : list knot := fold_right insert [] l.
Definition below (x : R) (l : list knot) : nat := length (filter (fun p => if Rlt_dec (fst p) x then true else false) l).
Definition interp_at (l : list knot) (x : R) : res C_star :=
  match l with
  | [] => Raise ValueError
  | first :: _ =>
      if Rlt_dec x (fst first) then Raise ValueError
      else if Rlt_dec (fst (last l first)) x then Raise ValueError
      else
        let hi := Nat.min (Nat.max (below x l) 1) (length l - 1) in
        let p := nth (hi - 1) l first in
        let q := nth hi l first in
        Ok (radd (rmul (rmul (rsub (snd q) (snd p)) (RtoC (/ (fst q - fst p)))) (RtoC (x - fst p))) (snd p))
  end.
Definition interp_row (xs : list R) (ys : list C_star) (pts : list R) : res (list C_star) :=
  mapM (interp_at (sort (combine xs ys))) pts.
Definition interp1d (xs : list R) (w : waves) : res wave :=
  match w with
  | One ys => if (length ys =? length xs)%nat then Ok (fun pts => let! r := interp_row xs ys pts in Ok (One r)) else Raise ValueError
  | Many yss =>
      if forallb (fun ys => (length ys =? length xs)%nat) yss
      then Ok (fun pts => let! r := mapM (fun ys => interp_row xs ys pts) yss in Ok (Many r)) else Raise ValueError
  end.

(** lines 87-99 [keep_ft_type] around [ft] for a function *)
Definition ft_fun (h : gheap) (i : nat) (f : wave) : res (gheap * wave) :=
  let! w := f (g_space (gget h i)) in
  let! r := ft h i w in
  let! c := conj_of (fst r) i in
  let! g := interp1d (g_space (gget (fst c) (snd c))) (snd r) in
  Ok (fst c, g).

(** lines 66-84 [exp], first branch: one state, [v(x)] a number for every point *)
Definition exp_one (c : C_star) (v : R -> C_star) (f : wave) : wave := fun xs =>
  let! w := f xs in
  match w with
  | One ys => if (length ys =? length xs)%nat then Ok (One (map (fun p => rmul (Cexp (rmul c (v (fst p)))) (snd p)) (combine xs ys))) else Raise ValueError
  | Many _ => Raise ValueError
  end.
(** lines 76-83, second branch: several states, [v(x)] a matrix for every point; at a point [vec]
    becomes [u (exp(c w) (u^+ vec))] *)
Definition rotate (c : C_star) (w : list R) (u : arr C_star) (n : nat) (vec : nat -> C_star) (i : nat) : C_star :=
  sumn n (fun a => rmul (get u [i; a]) (rmul (Cexp (rmul c (RtoC (nth a w 0%R)))) (sumn n (fun j => rmul (rconj (get u [j; a])) (vec j))))).
Definition exp_many (eigh : arr C_star -> list R * arr C_star) (c : C_star) (v : R -> arr C_star) (f : wave) : wave := fun xs =>
  let! w := f xs in
  match w with
  | One _ => Raise ValueError
  | Many yss =>
      let n := length yss in
      if forallb (fun ys => (length ys =? length xs)%nat) yss && forallb (fun x => if list_eq_dec Nat.eq_dec (shape (v x)) [n; n] then true else false) xs then
        Ok (Many (map (fun i => map (fun k => let e := eigh (v (nth k xs 0%R)) in rotate c (fst e) (snd e) n (fun j => nth k (nth j yss []) r0) i) (seq 0 (length xs))) (seq 0 n)))
      else Raise ValueError
  end.

(** lines 168-171 [with_time]: a function with or without an argument [t] *)
Inductive pot (V : Type) := Static (f : R -> V) | Timed (f : R -> R -> V).
Arguments Static {V}. Arguments Timed {V}.
Definition with_time {V} (p : pot V) (t : R) : R -> V := match p with Static f => f | Timed f => f t end.

(** lines 39-52 [inner_product], [norm] *)
Definition norm_of (simps : list C_star -> list R -> C_star) (g : grid) (f : wave) : res C_star :=
  let! w := f (g_space g) in
  let sq ys := simps (map (fun y => rmul (rconj y) y) ys) (g_space g) in
  Ok (Csqrt (match w with One ys => sq ys | Many yss => sumL yss sq end)).
(** lambda of line 231 *)
Definition scale_wave (c : C_star) (f : wave) : wave := fun xs =>
  let! w := f xs in
  Ok (match w with One ys => One (map (rmul c) ys) | Many yss => Many (map (map (rmul c)) yss) end).

(** lines 174-187 [Propagator.__init__]; the heap is that of the grids *)
Record prop_state := mkProp { p_heap : gheap; p_wfn : wave; p_coeff : C_star }.
(** lines 226-233 [normalize] *)
Definition normalize (simps : list C_star -> list R -> C_star) (i : nat) (s : prop_state) : res prop_state :=
  let! norm := norm_of simps (gget (p_heap s) i) (p_wfn s) in
  Ok (mkProp (p_heap s) (scale_wave (Cinv norm) (p_wfn s)) (rmul (p_coeff s) norm)).
(** lines 211-219: the body of the loop *)
Definition prop_step {V} (expo : C_star -> (R -> V) -> wave -> wave) (simps : list C_star -> list R -> C_star) (i j : nat) (v t : pot V) (time dt : R) (renormalize : bool) (s : prop_state) : res prop_state :=
  let hbar := g_hbar (gget (p_heap s) i) in
  let uv := expo (0, - (dt / 2 / hbar))%R (with_time v time) in
  let ut := expo (0, - (dt / hbar))%R (with_time t time) in
  let! a := ft_fun (p_heap s) i (uv (p_wfn s)) in
  let! b := ft_fun (fst a) j (ut (snd a)) in
  let s' := mkProp (fst b) (uv (snd b)) (p_coeff s) in
  if renormalize then normalize simps i s' else Ok s'.
(** The object after [k] passes of the loop *)
Fixpoint passes {V} (expo : C_star -> (R -> V) -> wave -> wave) (simps : list C_star -> list R -> C_star) (i j : nat) (v t : pot V) (t0 dt : R) (renormalize : bool) (k : nat) (s : prop_state) : res prop_state :=
  match k with
  | O => Ok s
  | S k => let! s' := passes expo simps i j v t t0 dt renormalize k s in prop_step expo simps i j v t (t0 + INR k * dt) dt renormalize s'
  end.
(** lines 198-220 [__call__]: [basis.conj] is made first; what has been yielded after [max_iter]
    passes, with the object *)
Definition prop_call {V} (expo : C_star -> (R -> V) -> wave -> wave) (simps : list C_star -> list R -> C_star) (i : nat) (v t : pot V) (t0 dt : R) (renormalize : bool) (max_iter : nat) (s : prop_state) : res (list (R * wave) * prop_state) :=
  let! c := conj_of (p_heap s) i in
  let s0 := mkProp (fst c) (p_wfn s) (p_coeff s) in
  let! ys := mapM (fun k => let! s' := passes expo simps i (snd c) v t t0 dt renormalize k s0 in
                            Ok (match k with O => t0 | S k' => t0 + INR k' * dt + dt end, p_wfn s')%R) (seq 0 (S max_iter)) in
  let! s' := passes expo simps i (snd c) v t t0 dt renormalize max_iter s0 in
  Ok (ys, s').
