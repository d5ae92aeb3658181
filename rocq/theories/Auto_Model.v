(** Autocorrelation functions: /repo/minitn/algorithms/ml.py:789-813
    [MultiLayer.autocorr], a generator around [propagator] (Propagate_Model.v).  The
    copy in /repo/minitn/heom/propagate.py has the same text.

    The world is the heap of tensors and the rest (solver object, settings).  As in
    Propagate_Model.v, the model says what a consumer sees that calls [next] a given
    number of times.

    Simplifications.  The arrays that [_init] refers to are not changed in place (the
    steps of ml.py assign new arrays).  When an observation raises, the world is
    reported as it was before it. *)
From Coq Require Import String Ascii List Arith Bool.
From Verif Require Import Py Alg ListX NdArray_Model Net_Model Propagate_Model.
Import ListNotations.
Local Open Scope nat_scope.
Local Open Scope list_scope.
Local Open Scope py_scope.

Section Auto.
Variable K : StarRing.
Variable X : Type.
Definition world : Type := (heap K * X)%type.
Variable fuel : nat.
Variable fast : bool.

(** /repo/minitn/algorithms/ml.py:798-800 *)
Definition init_arrays (h : heap K) (root : id) : res (list (id * option (arr K))) :=
  let! l := visitor fuel h root (oaxis (hget h root)) false in
  Ok (map (fun t => (t, oarr (hget h t))) l).

(** /repo/minitn/algorithms/ml.py:808: the new [t.aux]; [np.conj] does not take None. *)
Definition partner (init : list (id * option (arr K))) (h : heap K) (t : id) : res (option (arr K)) :=
  if fast then Ok (oarr (hget h t))
  else match find (fun e => fst e =? t) init with
       | None => Raise KeyError
       | Some (_, None) => Raise TypeError
       | Some (_, Some a) => Ok (Some (arr_conj a))
       end.

(** /repo/minitn/algorithms/ml.py:807-808 *)
Fixpoint partners (init : list (id * option (arr K))) (h : heap K) (l : list id) : res (heap K) :=
  match l with
  | [] => Ok h
  | t :: l => let! a := partner init h t in partners init (modify h t (put_aux a)) l
  end.

(** /repo/minitn/algorithms/ml.py:807-809 *)
Definition observe (init : list (id * option (arr K))) (h : heap K) (r : id) : res (option (arr K) * heap K) :=
  let! l := visitor fuel h r (oaxis (hget h r)) false in
  let! h := partners init h l in
  global_inner_product fuel h r.

(** /repo/minitn/algorithms/ml.py:812-813 *)
Definition tidy (h : heap K) (r : id) : res (heap K) :=
  let! l := visitor fuel h r (oaxis (hget h r)) false in
  Ok (set_all (put_aux None) h l).

Variable half : K.
Variable do_step : kind -> K -> bool -> bool -> act world.
Variable root_of : world -> id.
Variable set_time : option K -> world -> world.
Variables renorm set_energy : act world.

(** /repo/minitn/algorithms/ml.py:770-787 and 801-813: the loop of [propagator] with the body
    of the loop of [autocorr] in the place of its [yield]. *)
Section Loop.
Variables (init : list (id * option (arr K))) (steps : option nat) (ode_inter : K) (imaginary : bool) (first : K)
  (c : kind * bool) (root : id).
Fixpoint auto_loop (calls n : nat) (w : world) : list (K * option (arr K)) * (world * status) :=
  match calls with
  | 0 => ([], (w, Suspended))
  | S calls =>
      if match steps with None => false | Some m => m <=? n end then ([], (w, Stopped)) else
      let time := (first + of_nat K n * ode_inter)%S in
      let w := set_time (if imaginary then None else Some time) w in
      match observe init (fst w) root with
      | Raise e => ([], (w, Failed e))
      | Ok (auto, h) =>
          let w := (h, snd w) in
          let ans := (if fast then ((r1 + r1) * time)%S else time, auto) in
          match calls with
          | 0 => ([ans], (w, Suspended))
          | S _ =>
              match tidy (fst w) root with
              | Raise e => ([ans], (w, Failed e))
              | Ok h =>
                  match body world K half do_step renorm ode_inter imaginary c (h, snd w) with
                  | (w, None) => let '(l, r) := auto_loop calls (S n) w in (ans :: l, r)
                  | (w, Some RuntimeWarning) => ([ans], (w, Stopped))
                  | (w, Some e) => ([ans], (w, Failed e))
                  end
              end
          end
      end
  end.
End Loop.

(** /repo/minitn/algorithms/ml.py:789-813 [autocorr]; the method and the order of the splitting are
    attributes of the object, passed to [propagator]. *)
Definition autocorr (calls : nat) (steps : option nat) (ode_inter : K) (split imaginary : bool) (first : K)
  (move_energy : bool) (ps_method : string) (snd_order : bool) (w : world) : list (K * option (arr K)) * (world * status) :=
  match calls with
  | 0 => ([], (w, Suspended))
  | S _ =>
      match (if fast then Ok [] else init_arrays (fst w) (root_of w)) with
      | Raise e => ([], (w, Failed e))
      | Ok init =>
          match choose split ps_method snd_order with
          | Raise e => ([], (w, Failed e))
          | Ok c =>
              match (if move_energy then set_energy w else (w, None)) with
              | (w', Some e) => ([], (w', Failed e))
              | (w', None) => auto_loop init steps ode_inter imaginary first c (root_of w) calls 0 w'
              end
          end
      end
  end.
End Auto.
Arguments init_arrays {K} _ _ _. Arguments partner {K} _ _ _ _. Arguments partners {K} _ _ _ _.
Arguments observe {K} _ _ _ _ _. Arguments tidy {K} _ _ _.
Arguments auto_loop {K X} _ _ _ _ _ _ _ _ _ _ _ _ _ _ _ _. Arguments autocorr {K X} _ _ _ _ _ _ _ _ _ _ _ _ _ _ _ _ _ _.
