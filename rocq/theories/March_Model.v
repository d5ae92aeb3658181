(** The generators [PO_DVR.propagation], [PO_DVR.autocorrelation] and the function [PO_DVR.spectrum] of
    /repo/minitn/bases/dvr.py, and what MCTDH of /repo/minitn/algorithms/mctdh.py puts into them.

    Simplifications.  Numbers are exact and complex, times are real.  The solver [RK45] is a Runge-Kutta
    step with any table of coefficients; the size of the step is a given function of the state of the
    solver (None when no size is accepted), the sizes tried before leave no trace.  As in scipy the
    derivative at the end of a step is kept and used as the first one of the next step.  [env] stands for
    the attributes of the instance on which the Hamiltonian depends (for MCTDH [self.vec], from which
    [mod_terms] are computed).  Logging is left out; [fftpack.ifft] is a parameter. *)
From Coq Require Import List Arith ZArith Bool Reals.
From Verif Require Import Py Alg ListX NdArray_Model Cplx Mctdh_Model.
Import ListNotations.
Local Open Scope nat_scope.
Local Open Scope list_scope.
Local Open Scope py_scope.

Notation cvec := (list C_star).
(** [a + b], [c * a] and [np.dot] on vectors, [y.real] and [y.imag] *)
Definition vadd (a b : cvec) : res cvec :=
  if length a =? length b then Ok (map (fun p : C_star * C_star => radd (fst p) (snd p)) (combine a b)) else Raise ValueError.
Definition vscale (c : C_star) (a : cvec) : cvec := map (rmul c) a.
Definition vdot (a b : cvec) : res C_star :=
  if length a =? length b then Ok (sum_list (map (fun p : C_star * C_star => rmul (fst p) (snd p)) (combine a b)) : C_star) else Raise ValueError.
Definition v_re (y : cvec) : cvec := map (fun z : C_star => RtoC (fst z)) y.
Definition v_im (y : cvec) : cvec := map (fun z : C_star => RtoC (snd z)) y.

(** /repo/minitn/bases/dvr.py:1082-1086 [propagator]; [h] is [h_op] and [factor] is [1.0 / self.hbar]. *)
Definition deriv (h : cvec -> res cvec) (factor : R) (y : cvec) : res cvec :=
  let! hi := h (v_im y) in
  let! hr := h (v_re y) in
  vadd (vscale (RtoC factor) hi) (vscale C_i (vscale (RtoC (- factor)) hr)).

(** The state of the solver; [open] is false when it has come to the end or failed. *)
Record solver := mkSolver { s_time : R; s_y : cvec; s_slope : cvec; s_open : bool }.
Section Rk.
Variables (rows : list (list R)) (weights : list R) (size : R -> cvec -> cvec -> option R) (stop : R).
(** [y + h (c_0 k_0 + c_1 k_1 + ...)] *)
Fixpoint combo (h : R) (cs : list R) (ks : list cvec) (y : cvec) : res cvec :=
  match cs, ks with
  | c :: cs, k :: ks => let! y := vadd y (vscale (RtoC (h * c)) k) in combo h cs ks y
  | _, _ => Ok y
  end.
Fixpoint stages (d : cvec -> res cvec) (h : R) (rs : list (list R)) (y : cvec) (ks : list cvec) : res (list cvec) :=
  match rs with
  | [] => Ok ks
  | r :: rs => let! x := combo h r ks y in let! k := d x in stages d h rs y (ks ++ [k])
  end.
Definition rk_step (d : cvec -> res cvec) (s : solver) : res solver :=
  if s_open s then
    match size (s_time s) (s_y s) (s_slope s) with
    | None => Ok (mkSolver (s_time s) (s_y s) (s_slope s) false)
    | Some h =>
        let! ks := stages d h rows (s_y s) [s_slope s] in
        let! y := combo h weights ks (s_y s) in
        let! f := d y in
        Ok (mkSolver (s_time s + h)%R y f (if Rlt_dec (s_time s + h) stop then true else false))
    end
  else Raise RuntimeError.

(** [RK45(propagator, start, init, stop)] *)
Definition rk_init (d : cvec -> res cvec) (start : R) (init : cvec) : res solver :=
  let! f := d init in Ok (mkSolver start init f true).

(** What a call of [next] leads to. *)
Inductive event (A S : Type) := Yields (a : A) (s : S) | Stops | Fails (e : exn).
Arguments Yields {A S}. Arguments Stops {A S}. Arguments Fails {A S}.

Section Gen.
Context {env : Type}.
Variables (h : env -> cvec -> res cvec) (factor : R) (energy : env -> cvec -> res C_star) (e0 : C_star) (const_energy : option R).
Variables (updater : solver -> env -> res env) (normalizer : option (env -> cvec -> res cvec)).
(** /repo/minitn/bases/dvr.py:1089-1106: from the head of the loop to the [yield]; [updater] and
    [normalizer] act on the instance. *)
Definition with_y (s : solver) (y : cvec) : solver := mkSolver (s_time s) y (s_slope s) (s_open s).
Definition visit (s : solver) (e : env) : event (R * cvec) (solver * env) :=
  match (match normalizer with None => Ok s | Some f => let! y := f e (s_y s) in Ok (with_y s y) end) with
  | Raise x => Fails x
  | Ok s =>
      match energy e (s_y s) with
      | Raise x => Fails x
      | Ok en =>
          let gap := sqrt (Cnorm2 (rsub en e0)) in
          let stopped := match const_energy with
                         | None => false
                         | Some c => (if Rlt_dec (1 / 10 ^ 8) gap then true else false) && (if Req_EM_T c 0 then false else true) && (if Rlt_dec c gap then true else false)
                         end in
          if stopped then Stops else Yields (s_time s, s_y s) (s, e)
      end
  end.
(** lines 1107-1114 and back to the head of the loop *)
Definition resume (s : solver) (e : env) : event (R * cvec) (solver * env) :=
  match rk_step (deriv (h e) factor) s with
  | Raise RuntimeError => Stops
  | Raise x => Fails x
  | Ok s => match updater s e with Raise x => Fails x | Ok e => visit s e end
  end.
(** What the [k]-th call of [next] after the first one leads to, when the first one led to [ev]. *)
Fixpoint after (k : nat) (ev : event (R * cvec) (solver * env)) : event (R * cvec) (solver * env) :=
  match k with
  | O => ev
  | S k => match after k ev with Yields _ (s, e) => resume s e | x => x end
  end.
(** All that a generator yields, with a bound on the number of steps: None when the bound is too
    small.  [pep479]: Python from 3.7 on turns a [StopIteration] raised in a generator into a
    [RuntimeError]. *)
Variable pep479 : bool.
Definition ended : res (list (R * cvec)) := if pep479 then Raise RuntimeError else Ok [].
Fixpoint drain_from (fuel : nat) (ev : event (R * cvec) (solver * env)) : option (res (list (R * cvec))) :=
  match ev with
  | Stops => Some ended
  | Fails x => Some (Raise x)
  | Yields a (s, e) =>
      match fuel with
      | O => None
      | S fuel =>
          match drain_from fuel (resume s e) with
          | None => None
          | Some (Raise x) => Some (Raise x)
          | Some (Ok l) => Some (Ok (a :: l))
          end
      end
  end.

(** /repo/minitn/bases/dvr.py:1186-1205: the loop of [autocorrelation] *)
Variable dot : env -> cvec -> cvec -> res C_star.
Definition auto_value (e : env) (y : cvec) : res C_star :=
  let! rr := dot e (v_re y) (v_re y) in
  let! ii := dot e (v_im y) (v_im y) in
  let! ri := dot e (v_re y) (v_im y) in
  Ok (radd (rsub rr ii) (rmul (rmul (RtoC 2) C_i) ri)).
Definition auto_ended : res (list (R * C_star)) := if pep479 then Raise RuntimeError else Ok [].
Fixpoint auto_from (fuel : nat) (t_2 : R) (ev : event (R * cvec) (solver * env)) : option (res (list (R * C_star))) :=
  match ev with
  | Stops => Some auto_ended
  | Fails x => Some (Raise x)
  | Yields (tau, y) (s, e) =>
      if Rlt_dec tau t_2 then
        match auto_value e y with
        | Raise x => Some (Raise x)
        | Ok a =>
            match fuel with
            | O => None
            | S fuel =>
                match auto_from fuel t_2 (resume s e) with
                | None => None
                | Some (Raise x) => Some (Raise x)
                | Some (Ok l) => Some (Ok ((tau * 2, a)%R :: l))
                end
            end
        end
      else Some auto_ended
  end.
(** /repo/minitn/bases/dvr.py:1228-1245 [spectrum], given the time and the value at each point *)
Definition spectrum_of (ifft : cvec -> cvec) (window : option (R -> C_star)) (l : list (R * C_star)) : res (list R * cvec) :=
  match l with
  | [] => Raise ValueError
  | [_] => Raise ZeroDivisionError
  | (t0, _) :: _ =>
      let n := length l in
      let tau := ((fst (last l (0%R, r0)) - t0) / INR (n - 1))%R in
      let auto := match window with None => map snd l | Some w => map (fun p : R * C_star => rmul (snd p) (w (fst p))) l end in
      if forallb (fun p : nat * (R * C_star) => if Rlt_dec (Rabs (fst (snd p) - INR (fst p) * tau)) (1 / 10 ^ 8) then true else false) (combine (seq 0 n) l)
      then Ok (map (fun k => INR k * (2 * PI / INR n / tau))%R (seq 0 n), ifft auto)
      else Raise NotImplementedError
  end.
Definition spectrum (fuel : nat) (ifft : cvec -> cvec) (window : option (R -> C_star)) (length : R) (ev : event (R * cvec) (solver * env)) : option (res (list R * cvec)) :=
  match auto_from fuel (length / 2) ev with
  | None => None
  | Some (Raise x) => Some (Raise x)
  | Some (Ok l) => Some (spectrum_of ifft window l)
  end.
End Gen.
End Rk.
Arguments Yields {A S}. Arguments Stops {A S}. Arguments Fails {A S}.

(** /repo/minitn/bases/dvr.py:1074-1093: the first call of [next]; the Hamiltonian refers to the
    attributes of the instance, which are those in [e]. *)
Definition first_event {env : Type} (h : env -> cvec -> res cvec) (factor : R) (energy : env -> cvec -> res C_star) (const_energy : option R)
  (normalizer : option (env -> cvec -> res cvec)) (start : R) (init : cvec) (e : env) : event (R * cvec) (solver * env) :=
  match energy e init with
  | Raise x => Fails x
  | Ok e0 =>
      match rk_init (deriv (h e) factor) start init with
      | Raise x => Fails x
      | Ok s => visit energy e0 const_energy normalizer s e
      end
  end.

(** /repo/minitn/algorithms/mctdh.py:346-349 [_updater]; the instance is its vector. *)
Definition mctdh_updater (shapes : list (list nat)) (h_terms : list cterm) (s : solver) (self_vec : cvec) : res cvec :=
  let! mods := update_mod_terms shapes h_terms (s_y s) in Ok (s_y s).
(** /repo/minitn/algorithms/mctdh.py:351-365 [_normalizer] *)
Definition vnorm (v : cvec) : R := sqrt (fst (sum_list (map (fun z : C_star => RtoC (Cnorm2 z)) v) : C_star)).
Definition normal_part (shape_list : list (nat * nat)) (vec : cvec) (i : nat) : res cvec :=
  let! v := get_sub_vec (all_shapes shape_list) (Z.of_nat i) vec in
  let std_norm := if i =? length shape_list then sqrt 1 else sqrt (INR (snd (nth i shape_list (0, 0)))) in
  let norm := (vnorm (data v) / std_norm)%R in
  Ok (vscale (RtoC (/ norm)) (data v)).
Definition mctdh_normalizer (shape_list : list (nat * nat)) (vec : cvec) : res cvec :=
  let! parts := mapM (normal_part shape_list vec) (seq 0 (S (length shape_list))) in Ok (concat parts).
(** /repo/minitn/algorithms/mctdh.py:378-382 [_dot] *)
Definition mctdh_dot (shapes : list (list nat)) (v1 v2 : cvec) : res C_star :=
  let! t1 := get_sub_vec shapes (-1) v1 in
  let! t2 := get_sub_vec shapes (-1) v2 in
  vdot (data t1) (data t2).
