(** Tensor networks of /repo/minitn/tensor.py: objects, links, traversal,
    environments, arrays as vectors, uniting and splitting.

    Python objects live in a heap: a list of records, an object being its
    position (two Python objects are equal exactly when they are the same
    object).  Dicts with integer keys are association lists sorted by key; the
    code only looks keys up or sorts by them.  Logging is dropped.  Axis numbers
    are natural numbers. *)
From Coq Require Import String Ascii List Arith Bool.
From Verif Require Import Py Alg ListX NdArray_Model Contract_Model.
Import ListNotations.
Local Open Scope nat_scope.
Local Open Scope list_scope.
Local Open Scope py_scope.

(** Integer dicts. *)
Section Dict.
Context {V : Type}.
Fixpoint dget (d : list (nat * V)) (k : nat) : option V :=
  match d with
  | [] => None
  | (k', v) :: d => if k =? k' then Some v else dget d k
  end.
Fixpoint dput (d : list (nat * V)) (k : nat) (v : V) : list (nat * V) :=
  match d with
  | [] => [(k, v)]
  | (k', v') :: d' => if k =? k' then (k, v) :: d'
                      else if k <? k' then (k, v) :: d
                      else (k', v') :: dput d' k v
  end.
Fixpoint drop (d : list (nat * V)) (k : nat) : list (nat * V) :=
  match d with
  | [] => []
  | (k', v') :: d' => if k =? k' then d' else (k', v') :: drop d' k
  end.
(** [d[k]] *)
Definition dindex (d : list (nat * V)) (k : nat) : res V :=
  match dget d k with Some v => Ok v | None => Raise KeyError end.
(** [d.pop(k)] *)
Definition dpop (d : list (nat * V)) (k : nat) : res (list (nat * V)) :=
  match dget d k with Some _ => Ok (drop d k) | None => Raise KeyError end.
End Dict.

(** Objects, one end of a link (object and axis), links between two ends. *)
Notation id := nat (only parsing).
Notation half := (nat * nat)%type (only parsing).
Notation edge := (nat * nat * nat * nat)%type (only parsing).

Section Net.
Variable K : StarRing.

(** /repo/minitn/tensor.py:46-71 [Tensor.__init__] and 844-847 [Leaf.__init__]:
    the attributes.  [oarr] is [_array], [oacc] is [_access], [ocache] is
    [_partial_env] (which is [None] for a Leaf; it is never read there). *)
Record obj := mkObj {
  oname : option string;
  oleaf : bool;
  oarr : option (arr K);
  oaux : option (arr K);
  oaxis : option nat;
  onorm : bool;
  oacc : list (nat * half);
  ocache : list (nat * option (arr K)) }.

Definition heap := list obj.
Definition no_obj : obj := mkObj None true None None None false [] [].
Definition hget (h : heap) (n : id) : obj := nth n h no_obj.

Definition put_arr a o := mkObj (oname o) (oleaf o) a (oaux o) (oaxis o) (onorm o) (oacc o) (ocache o).
Definition put_aux a o := mkObj (oname o) (oleaf o) (oarr o) a (oaxis o) (onorm o) (oacc o) (ocache o).
Definition put_axis x o := mkObj (oname o) (oleaf o) (oarr o) (oaux o) x (onorm o) (oacc o) (ocache o).
Definition put_acc d o := mkObj (oname o) (oleaf o) (oarr o) (oaux o) (oaxis o) (onorm o) d (ocache o).
Definition put_cache c o := mkObj (oname o) (oleaf o) (oarr o) (oaux o) (oaxis o) (onorm o) (oacc o) c.
Definition modify (h : heap) (n : id) (f : obj -> obj) : heap := upd n (f (hget h n)) h.

(** /repo/minitn/tensor.py:46-71: a new Tensor (not a Leaf). *)
Definition new_tensor (name : option string) (a : option (arr K)) (axis : option nat) (normalized : bool) : obj :=
  mkObj name false a None axis normalized [] [].
(** /repo/minitn/tensor.py:844-847. *)
Definition new_leaf (name : option string) (a : option (arr K)) : obj :=
  mkObj name true a None None false [] [].

(** /repo/minitn/tensor.py:129-131 and 858 [order]. *)
Definition order (h : heap) (n : id) : nat :=
  if oleaf (hget h n) then 1 else length (oacc (hget h n)).

(** * Links *)

(** /repo/minitn/tensor.py:133-151 [Tensor.link] (logging dropped). *)
Definition link (h : heap) (a : id) (i : nat) (b : id) (j : nat) : heap :=
  let h := modify h a (fun o => put_acc (dput (oacc o) i (b, j)) o) in
  modify h b (fun o => put_acc (dput (oacc o) j (a, i)) o).

Definition half_eqb (x y : half) : bool := (fst x =? fst y) && (snd x =? snd y).

(** /repo/minitn/tensor.py:153-169 [Tensor.unlink]: the heap left behind, whether or
    not the call raises, and the outcome. *)
Definition unlink_run (h : heap) (a : id) (i : nat) (b : id) (j : nat) : heap * res unit :=
  let test :=
    (let! x := dindex (oacc (hget h a)) i in
     if half_eqb x (b, j)
     then let! y := dindex (oacc (hget h b)) j in Ok (half_eqb y (a, i))
     else Ok false) in
  match test with
  | Raise e => (h, Raise e)
  | Ok false => (h, Raise RuntimeError)
  | Ok true =>
      match dpop (oacc (hget h a)) i with
      | Raise e => (h, Raise e)
      | Ok d =>
          let h := modify h a (put_acc d) in
          match dpop (oacc (hget h b)) j with
          | Raise e => (h, Raise e)
          | Ok d => (modify h b (put_acc d), Ok tt)
          end
      end
  end.
(** The heap if the call does not raise. *)
Definition unlink (h : heap) (a : id) (i : nat) (b : id) (j : nat) : res heap :=
  match unlink_run h a i b j with (h, Ok _) => Ok h | (_, Raise e) => Raise e end.

Definition is_none {A} (o : option A) : bool := match o with None => true | Some _ => false end.

(** /repo/minitn/tensor.py:171-190 [check_linkage].  Only called here with
    [strict] false or on arrays that have the axis (otherwise the comparison of
    shapes raises IndexError). *)
Definition check_linkage (h : heap) (n : id) (i : nat) (strict : bool) : res unit :=
  let! x := dindex (oacc (hget h n)) i in
  let '(c, j) := x in
  let! y := dindex (oacc (hget h c)) j in
  let condition := half_eqb y (n, i) in
  let! condition :=
    (if strict && condition then
       let o := hget h n in let p := hget h c in
       if oleaf o && is_none (oarr o) then Ok true
       else if oleaf p && is_none (oarr p) then Ok true
       else match oarr o, oarr p with
            | Some a, Some b =>
                if negb ((i <? ndim a) && (j <? ndim b)) then Raise IndexError
                else Ok (nth i (shape a) 0 =? nth j (shape b) 0)
            | _, _ => Ok false
            end
     else Ok condition) in
  if (condition : bool) then Ok tt else Raise RuntimeError.

Fixpoint forM {A} (f : A -> res unit) (l : list A) : res unit :=
  match l with [] => Ok tt | x :: l => let! _ := f x in forM f l end.

(** /repo/minitn/tensor.py:192-207 [check_completness]; [order] is never [None]. *)
Definition check_completness (h : heap) (n : id) (strict : bool) : res unit :=
  let keys := map fst (oacc (hget h n)) in
  if forallb (fun k => k <? order h n) keys && forallb (fun k => memb k keys) (seq 0 (order h n))
  then forM (fun i => check_linkage h n i strict) (seq 0 (order h n))
  else Raise RuntimeError.

(** /repo/minitn/tensor.py:225-240 [unlink_to].  When [check_linkage] raises
    KeyError the names [child], [j] of the return statement are unbound. *)
Definition unlink_to (h : heap) (n : id) (i : nat) (fast : bool) : res (half * heap) :=
  match (if fast then Ok tt else check_linkage h n i false) with
  | Raise KeyError => Raise UnboundLocalError
  | Raise e => Raise e
  | Ok _ =>
      let! x := dindex (oacc (hget h n)) i in
      let '(c, j) := x in
      let! h := unlink h n i c j in
      Ok ((c, j), h)
  end.

(** * Traversal *)

(** /repo/minitn/tensor.py:257-264 [linkages] and 242-255 [children]; [axis] is
    the resolved argument (the default is the attribute [axis]). *)
Definition linkages (h : heap) (n : id) : list (nat * id * nat) :=
  map (fun e => (fst e, fst (snd e), snd (snd e))) (oacc (hget h n)).
Definition is_axis (axis : option nat) (i : nat) : bool :=
  match axis with None => false | Some a => i =? a end.
Definition children (h : heap) (n : id) (axis : option nat) (leaf : bool) : list (nat * id * nat) :=
  if is_none axis && oleaf (hget h n) then []
  else filter (fun x => negb (is_axis axis (fst (fst x))) && (leaf || negb (oleaf (hget h (snd (fst x))))))
              (linkages h n).

(** Concatenated results of a generator over a list. *)
Fixpoint concatM {A B} (f : A -> res (list B)) (l : list A) : res (list B) :=
  match l with
  | [] => Ok []
  | x :: l => let! y := f x in let! ys := concatM f l in Ok (y ++ ys)
  end.

(** /repo/minitn/tensor.py:266-276 [visitor]; [fuel] bounds the depth. *)
Fixpoint visitor (fuel : nat) (h : heap) (n : id) (axis : option nat) (leaf : bool) : res (list id) :=
  match fuel with
  | 0 => Raise RecursionError
  | S fuel =>
      let! rest := concatM (fun x => visitor fuel h (snd (fst x)) (Some (snd x)) leaf)
                           (children h n axis leaf) in
      Ok ((if leaf || negb (oleaf (hget h n)) then [n] else []) ++ rest)
  end.

(** /repo/minitn/tensor.py:278-289 [linkage_visitor]: [directed] is not passed on
    to the recursive call. *)
Fixpoint linkage_visitor (fuel : nat) (h : heap) (n : id) (axis : option nat) (leaf directed : bool)
  : res (list edge) :=
  match fuel with
  | 0 => Raise RecursionError
  | S fuel =>
      concatM (fun x =>
        let '(i, c, j) := x in
        let! rest := linkage_visitor fuel h c (Some j) leaf false in
        Ok ((n, i, c, j) :: rest ++ (if directed then [(c, j, n, i)] else [])))
      (children h n axis leaf)
  end.

(** /repo/minitn/tensor.py:291-303 [decorated_linkage_visitor]. *)
Fixpoint decorated_visitor (fuel : nat) (h : heap) (n : id) (axis : option nat) (leaf : bool)
  : res (list (bool * edge)) :=
  match fuel with
  | 0 => Raise RecursionError
  | S fuel =>
      concatM (fun x =>
        let '(i, c, j) := x in
        let! rest := decorated_visitor fuel h c (Some j) leaf in
        Ok ((false, (n, i, c, j)) :: rest ++ [(true, (c, j, n, i))]))
      (children h n axis leaf)
  end.

(** /repo/minitn/tensor.py:393-403 [leaves]. *)
Definition leaves (fuel : nat) (h : heap) (n : id) : res (list id) :=
  let! l := visitor fuel h n (oaxis (hget h n)) true in
  Ok (filter (fun x => oleaf (hget h x)) l).

(** * Building a network *)

Section Generate.
Variable graph : string -> option (list string).    (* the dict {str: [str]} *)

(** /repo/minitn/tensor.py:92-101: the loop over the children of one node. *)
Fixpoint gen_children (h : heap) (ord : string -> option nat) (stack : list (string * id))
  (sr : string) (r : id) (l : list string) : res (heap * (string -> option nat) * list (string * id)) :=
  match l with
  | [] => Ok (h, ord, stack)
  | sc :: l =>
      let c := length h in
      let known := negb (is_none (graph sc)) in
      let h := h ++ [if known then new_tensor (Some sc) None (Some 0) false
                     else new_leaf (Some sc) None] in
      match ord sr with
      | None => Raise KeyError
      | Some k =>
          let h := link h r k c 0 in
          let ord1 := fun x => if String.eqb x sr then Some (k + 1) else ord x in
          let ord2 := fun x => if String.eqb x sc then Some 1 else ord1 x in
          let stack := if known then (sc, c) :: stack else stack in
          gen_children h ord2 stack sr r l
      end
  end.

(** /repo/minitn/tensor.py:90-101: [while stack] (the head of the list is the top). *)
Fixpoint gen_loop (fuel : nat) (h : heap) (ord : string -> option nat) (stack : list (string * id))
  : res heap :=
  match stack with
  | [] => Ok h
  | (sr, r) :: stack =>
      match fuel with
      | 0 => Raise RecursionError
      | S fuel =>
          match graph sr with
          | None => Raise KeyError
          | Some l =>
              let! st := gen_children h ord stack sr r l in
              let '(h, ord, stack) := st in
              gen_loop fuel h ord stack
          end
      end
  end.

(** /repo/minitn/tensor.py:77-102 [Tensor.generate]; returns the heap and the root. *)
Definition generate (fuel : nat) (h : heap) (root : string) : res (heap * id) :=
  let r := length h in
  let! h := gen_loop fuel (h ++ [new_tensor (Some root) None None false])
              (fun x => if String.eqb x root then Some 0 else None) [(root, r)] in
  Ok (h, r).
End Generate.

(** * Environments *)

Definition scalar1 : arr K := mkArr [] [r1].

(** /repo/minitn/tensor.py:338-339. *)
Fixpoint pp_all (temp : arr K) (envs : list (nat * option (arr K))) : res (arr K) :=
  match envs with
  | [] => Ok temp
  | (i, m) :: envs => let! temp := partial_product temp i m 0 in pp_all temp envs
  end.

(** The list comprehension of lines 331-332: each call may fill caches. *)
Fixpoint env_list (f : heap -> id -> nat -> res (option (arr K) * heap)) (h : heap)
  (l : list (nat * id * nat)) : res (list (nat * option (arr K)) * heap) :=
  match l with
  | [] => Ok ([], h)
  | (i, c, j) :: l =>
      let! r := f h c j in
      let '(e, h) := r in
      let! r := env_list f h l in
      let '(es, h) := r in
      Ok ((i, e) :: es, h)
  end.

Definition opt_eqb (a b : option nat) : bool :=
  match a, b with None, None => true | Some x, Some y => x =? y | _, _ => false end.

(** /repo/minitn/tensor.py:326-348 and 867-876 [partial_env] with [proper=False].
    A missing array or aux raises AttributeError (numpy would raise it, or
    TypeError, on [None]).  Results are [None] or an array; the final [1.] of line
    347 is a zero-dimensional array. *)
Fixpoint partial_env (fuel : nat) (use_aux : bool) (h : heap) (n : id) (i : option nat)
  : res (option (arr K) * heap) :=
  match fuel with
  | 0 => Raise RecursionError
  | S fuel =>
      let o := hget h n in
      if oleaf o then Ok (if use_aux then oaux o else oarr o, h) else
      match (match i with Some k => if use_aux then None else dget (ocache o) k | None => None end) with
      | Some v => Ok (v, h)
      | None =>
          let! r := env_list (fun h c j => partial_env fuel use_aux h c (Some j)) h (children h n i true) in
          let '(env_, h) := r in
          let! ans :=
            (if negb use_aux && opt_eqb i (oaxis o) && onorm o && forallb (fun e => is_none (snd e)) env_
             then Ok None
             else match oarr o with
                  | None => Raise AttributeError
                  | Some a =>
                      let! temp := pp_all a env_ in
                      match (if use_aux then oaux o else Some (arr_conj a)) with
                      | None => Raise AttributeError
                      | Some b => let! x := partial_trace temp i b i in Ok (Some x)
                      end
                  end) in
          match i with
          | Some k => Ok (ans, if use_aux then h
                               else modify h n (fun o => put_cache (dput (ocache o) k ans) o))
          | None => Ok (Some (match ans with Some x => x | None => scalar1 end), h)
          end
      end
  end.

(** /repo/minitn/tensor.py:318-321 and 873-874: [proper=True]. *)
Definition partial_env_proper (fuel : nat) (use_aux : bool) (h : heap) (n : id) (i : nat)
  : res (option (arr K) * heap) :=
  if oleaf (hget h n) then Raise RuntimeError else
  let! x := dindex (oacc (hget h n)) i in
  partial_env fuel use_aux h (fst x) (Some (snd x)).

(** /repo/minitn/tensor.py:108-109 [reset], called on every object. *)
Definition reset_all (h : heap) : heap := map (put_cache []) h.

Fixpoint set_all (f : obj -> obj) (h : heap) (l : list id) : heap :=
  match l with [] => h | n :: l => set_all f (modify h n f) l end.

(** /repo/minitn/tensor.py:350-355 [global_inner_product]. *)
Definition global_inner_product (fuel : nat) (h : heap) (n : id) : res (option (arr K) * heap) :=
  let! l := leaves fuel h n in
  partial_env fuel true (set_all (put_aux None) h l) n None.

(** /repo/minitn/tensor.py:357-362 [matrix_element]. *)
Definition matrix_element (fuel : nat) (h : heap) (n : id) : res (option (arr K) * heap) :=
  let! l := leaves fuel h n in
  partial_env fuel true (set_all (fun o => put_aux (oarr o) o) h l) n None.

Definition conj_aux (o : obj) : obj := put_aux (option_map (@arr_conj K) (oarr o)) o.

(** /repo/minitn/tensor.py:364-370 [global_square]. *)
Definition global_square (fuel : nat) (h : heap) (n : id) : res (option (arr K) * heap) :=
  let! l := visitor fuel h n (oaxis (hget h n)) false in
  global_inner_product fuel (set_all conj_aux h l) n.

(** /repo/minitn/tensor.py:375-380 [expection]. *)
Definition expection (fuel : nat) (h : heap) (n : id) : res (option (arr K) * heap) :=
  let! l := visitor fuel h n (oaxis (hget h n)) false in
  matrix_element fuel (set_all conj_aux h l) n.

(** * Vectors *)

(** /repo/minitn/tensor.py:405-429 [vectorize] without [shape_dict]; an empty list
    of vectors makes [np.concatenate] raise ValueError. *)
Definition vectorize (fuel : nat) (h : heap) (n : id) (use_aux : bool) : res (list K) :=
  let! l := visitor fuel h n (oaxis (hget h n)) false in
  let! vs := mapM (fun t => match (if use_aux then oaux (hget h t) else oarr (hget h t)) with
                            | Some a => Ok (data a)
                            | None => Raise TypeError
                            end) l in
  match vs with [] => Raise ValueError | _ => Ok (concat vs) end.

(** /repo/minitn/tensor.py:445-455: slices clamp at the end of the vector. *)
Fixpoint tensorize_loop (h : heap) (l : list id) (vec : list K) (start : nat) (use_aux : bool) : res heap :=
  match l with
  | [] => Ok h
  | t :: l =>
      match oarr (hget h t) with
      | None => Raise TypeError
      | Some a =>
          let stop := start + prod (shape a) in
          let sl := firstn (stop - start) (skipn start vec) in
          let! b := reshape (mkArr [length sl] sl) (shape a) in
          tensorize_loop (modify h t (if use_aux then put_aux (Some b) else put_arr (Some b))) l vec stop use_aux
      end
  end.

(** /repo/minitn/tensor.py:431-455 [tensorize] without [shape_dict].  For a tensor without
    axes [np.prod(())] is the float 1.0 and the slice would raise TypeError; here it is 1. *)
Definition tensorize (fuel : nat) (h : heap) (n : id) (vec : list K) (use_aux : bool) : res heap :=
  let! l := visitor fuel h n (oaxis (hget h n)) false in
  tensorize_loop h l vec 0 use_aux.

(** * Uniting and splitting *)

Fixpoint count_ascii (c : ascii) (s : string) : nat :=
  match s with
  | EmptyString => 0
  | String x s => (if Ascii.eqb x c then 1 else 0) + count_ascii c s
  end.
Definition quote : ascii := "'"%char.
Definition plus : ascii := "+"%char.

Fixpoint unlinkM (h : heap) (l : list edge) : res heap :=
  match l with
  | [] => Ok h
  | (s, i, t, j) :: l => let! h := unlink h s i t j in unlinkM h l
  end.
Fixpoint linkM (h : heap) (l : list edge) : heap :=
  match l with [] => h | (s, i, t, j) :: l => linkM (link h s i t j) l end.

(** /repo/minitn/tensor.py:620-625: the name of the united tensor.  A missing name
    raises TypeError. *)
Definition unite_name (n1 n2 : option string) : res (option string) :=
  match n1, n2 with
  | None, _ => Raise TypeError
  | Some a, None => if 0 <? count_ascii quote a then Ok None else Raise TypeError
  | Some a, Some b =>
      if 0 <? count_ascii quote a then Ok (Some b)
      else if 0 <? count_ascii quote b then Ok (Some a)
      else Ok (Some (a ++ "+" ++ b)%string)
  end.

(** /repo/minitn/tensor.py:596-644 [unite]; returns the new root. *)
Definition unite (h : heap) (t1 : id) (axis : nat) (root : option id) (normalized : bool) : res (id * heap) :=
  let! x := dindex (oacc (hget h t1)) axis in
  let '(t2, index2) := x in
  if negb (is_none (oaxis (hget h t1))) && negb (is_none (oaxis (hget h t2))) then Raise RuntimeError else
  match oarr (hget h t1), oarr (hget h t2) with
  | Some a1, Some a2 =>
      if negb ((axis <? ndim a1) && (index2 <? ndim a2)) then Raise IndexError else
      let! array := partial_product a1 axis (Some a2) index2 in
      let! name := unite_name (oname (hget h t1)) (oname (hget h t2)) in
      let '(r, h) := match root with
                     | None => (length h, h ++ [new_tensor name (Some array) None normalized])
                     | Some r => (r, modify h r (fun o => put_arr (Some array) (put_axis None o)))
                     end in
      let! h := unlink h t1 axis t2 index2 in
      let l1 := map (fun x => let '(i, t, j) := x in (t1, i, t, j)) (children h t1 None true) in
      let l2 := map (fun x => let '(i, t, j) := x in (t2, i, t, j)) (children h t2 None true) in
      let l := firstn axis l1 ++ l2 ++ skipn axis l1 in
      let! h := unlinkM h l in
      Ok (r, linkM h (map (fun p => let '(k, (_, _, t, j)) := p in (r, k, t, j))
                          (combine (seq 0 (length l)) l)))
  | _, _ => Raise AttributeError
  end.

(** [axes.index(i)] after [axes.insert(index, None)]. *)
Fixpoint oindex_of (i : nat) (l : list (option nat)) : nat :=
  match l with
  | [] => 0
  | Some k :: l => if k =? i then 0 else S (oindex_of i l)
  | None :: l => S (oindex_of i l)
  end.

(** [sorted] of a list of numbers. *)
Fixpoint ninsert (x : nat) (l : list nat) : list nat :=
  match l with [] => [x] | y :: l' => if x <=? y then x :: l else y :: ninsert x l' end.
Fixpoint nsort (l : list nat) : list nat :=
  match l with [] => [] | x :: l => ninsert x (nsort l) end.

(** /repo/minitn/tensor.py:559-560. *)
Fixpoint move_front (a : arr K) (n : nat) (axes : list nat) : res (arr K) :=
  match axes with
  | [] => Ok a
  | i :: axes => let! a := moveaxis a [i] [n] in move_front a (S n) axes
  end.

(** /repo/minitn/tensor.py:553-556: the names of the two parts.
    [name.split('+')] when there is exactly one plus. *)
Fixpoint before_plus (s : string) : string :=
  match s with
  | EmptyString => EmptyString
  | String x s => if Ascii.eqb x plus then EmptyString else String x (before_plus s)
  end.
Fixpoint after_plus (s : string) : string :=
  match s with
  | EmptyString => EmptyString
  | String x s => if Ascii.eqb x plus then s else after_plus s
  end.
Definition name1_of (s : string) : string :=
  if 0 <? count_ascii plus s then before_plus s else (s ++ "'")%string.
Definition name2_of (s : string) : string :=
  if 0 <? count_ascii plus s then after_plus s else s.

Inductive axis_arg := AxInt (i : nat) | AxList (l : list nat).

Section Split.
(** [compressed_svd(a, rank=rank, err=err)] for the given [rank] and [err]. *)
Variable csvd : arr K -> res (arr K * arr K * arr K).

(** /repo/minitn/tensor.py:505-594 [split]. *)
Definition split (h : heap) (n : id) (axis : axis_arg) (indice : option (nat * nat))
  (root child : option id) (normalized : bool) : res (id * id * heap) :=
  let o := hget h n in
  if negb (is_none (oaxis o)) then Raise RuntimeError else
  let axes1 := match axis with AxInt i => [i] | AxList l => nsort l end in
  let default := match axis with AxInt i => (0, i) | AxList _ => (0, 0) end in
  let axes2 := filter (fun i => negb (memb i axes1)) (seq 0 (order h n)) in
  let '(index1, index2) := match indice with Some p => p | None => default end in
  match oarr o with
  | None => Raise TypeError
  | Some a =>
      let kids := children h n None true in
      if negb (forallb (fun i => i <? ndim a) (axes1 ++ axes2)) then Raise IndexError else
      let shape1 := map (fun i => nth i (shape a) 0) axes1 in
      let shape2 := map (fun i => nth i (shape a) 0) axes2 in
      match oname o with
      | None => Raise TypeError
      | Some name =>
          if negb (count_ascii plus name <=? 1) then Raise ValueError else
          let! a := move_front a 0 axes1 in
          let! a := reshape a [prod (1 :: shape1); prod (1 :: shape2)] in
          let! usv := csvd a in
          let '(u, s, vh) := usv in
          let! us := matmul u s in
          let! ra := reshape_infer us shape1 [] in
          let! ra := moveaxis ra [length shape1] [index1] in
          let! ca := reshape_infer vh [] shape2 in
          let! ca := moveaxis ca [0] [index2] in
          let '(r, h) := match root with
                         | None => (length h, h ++ [new_tensor (Some (name1_of name)) (Some ra) None normalized])
                         | Some r => (r, modify h r (fun o => put_arr (Some ra) (put_axis None o)))
                         end in
          let '(c, h) := match child with
                         | None => (length h, h ++ [new_tensor (Some (name2_of name)) (Some ca) (Some index2) normalized])
                         | Some c => (c, modify h c (fun o => put_arr (Some ca) (put_axis (Some index2) o)))
                         end in
          let ax1 := ins index1 None (map Some axes1) in
          let ax2 := ins index2 None (map Some axes2) in
          let! h := unlinkM h (map (fun x => let '(i, t, j) := x in (n, i, t, j)) kids) in
          let link_info := (r, index1, c, index2) ::
            map (fun x => let '(i, t, j) := x in
                   if memb i axes1 then (r, oindex_of i ax1, t, j) else (c, oindex_of i ax2, t, j)) kids in
          Ok (r, c, linkM h link_info)
      end
  end.

(** /repo/minitn/tensor.py:457-476 [split_unite]; [operator] may change the heap
    and returns the tensor that the caller gets back as [mid]. *)
Definition split_unite (h : heap) (n : id) (i : nat) (operator : heap -> id -> res (id * heap))
  (normalized : option bool) : res (id * id * id * heap) :=
  let! x := dindex (oacc (hget h n)) i in
  let '(e, j) := x in
  let normalized := match normalized with Some b => b | None => onorm (hget h n) && onorm (hget h e) end in
  let! r := split h n (AxInt i) None None (Some n) normalized in
  let '(mid, _, h) := r in
  let! r := operator h mid in
  let '(mid, h) := r in
  let! r := unite h e j (Some e) normalized in
  let '(_, h) := r in
  Ok (n, mid, e, h).

Definition edge_eqb (x y : edge) : bool :=
  let '(a, i, b, j) := x in let '(a', i', b', j') := y in
  (a =? a') && (i =? i') && (b =? b') && (j =? j').
Fixpoint edges_eqb (x y : list edge) : bool :=
  match x, y with
  | [], [] => true
  | a :: x, b :: y => edge_eqb a b && edges_eqb x y
  | _, _ => false
  end.

(** /repo/minitn/tensor.py:478-503 [unite_split], with [__debug__] true. *)
Definition unite_split (fuel : nat) (h : heap) (n : id) (i : nat) (operator : heap -> id -> res (id * heap))
  (normalized : option bool) : res (id * id * id * heap) :=
  let! linkage_old := linkage_visitor fuel h n None true false in
  let! x := dindex (oacc (hget h n)) i in
  let '(e, j) := x in
  let normalized := match normalized with Some b => b | None => onorm (hget h n) && onorm (hget h e) end in
  let axes := map (fun k => i + k) (seq 0 (order h e - 1)) in
  let! r := unite h n i None normalized in
  let '(mid, h) := r in
  let! r := operator h mid in
  let '(mid, h) := r in
  let! r := split h mid (AxList axes) (Some (j, i)) (Some e) (Some n) normalized in
  let '(_, _, h) := r in
  let! linkage_new := linkage_visitor fuel h n None true false in
  if edges_eqb linkage_old linkage_new then Ok (n, mid, e, h) else Raise AssertionError.
End Split.

(** /repo/minitn/tensor.py:646-656 [contraction] ([dry_run] false). *)
Fixpoint contract_children (h : heap) (n : id) (l : list (nat * id * nat)) : res heap :=
  match l with
  | [] => Ok h
  | (_, t, j) :: l =>
      let! x := dindex (oacc (hget h t)) j in
      let! r := unite h n (snd x) (Some n) false in
      contract_children (snd r) n l
  end.
Fixpoint contraction (fuel : nat) (h : heap) (n : id) : res (option (arr K) * heap) :=
  match fuel with
  | 0 => Raise RecursionError
  | S fuel =>
      match children h n (oaxis (hget h n)) false with
      | [] => Ok (oarr (hget h n), h)
      | l => let! h := contract_children h n l in contraction fuel h n
      end
  end.

End Net.

Arguments mkObj {K} _ _ _ _ _ _ _ _. Arguments oname {K} _. Arguments oleaf {K} _.
Arguments oarr {K} _. Arguments oaux {K} _. Arguments oaxis {K} _. Arguments onorm {K} _.
Arguments oacc {K} _. Arguments ocache {K} _. Arguments put_arr {K} _ _. Arguments put_aux {K} _ _.
Arguments put_axis {K} _ _. Arguments put_acc {K} _ _. Arguments put_cache {K} _ _.
Arguments modify {K} _ _ _. Arguments hget {K} _ _. Arguments order {K} _ _.
Arguments link {K} _ _ _ _ _. Arguments unlink_run {K} _ _ _ _ _. Arguments unlink {K} _ _ _ _ _. Arguments check_linkage {K} _ _ _ _.
Arguments check_completness {K} _ _ _. Arguments unlink_to {K} _ _ _ _. Arguments linkages {K} _ _.
Arguments children {K} _ _ _ _. Arguments visitor {K} _ _ _ _ _. Arguments linkage_visitor {K} _ _ _ _ _ _.
Arguments decorated_visitor {K} _ _ _ _ _. Arguments leaves {K} _ _ _.
Arguments gen_children {K} _ _ _ _ _ _ _. Arguments gen_loop {K} _ _ _ _ _. Arguments generate {K} _ _ _ _.
Arguments pp_all {K} _ _. Arguments env_list {K} _ _ _. Arguments partial_env {K} _ _ _ _ _.
Arguments partial_env_proper {K} _ _ _ _ _. Arguments set_all {K} _ _ _. Arguments reset_all {K} _.
Arguments global_inner_product {K} _ _ _. Arguments matrix_element {K} _ _ _. Arguments conj_aux {K} _.
Arguments global_square {K} _ _ _. Arguments expection {K} _ _ _. Arguments vectorize {K} _ _ _ _.
Arguments tensorize_loop {K} _ _ _ _ _. Arguments tensorize {K} _ _ _ _ _. Arguments unlinkM {K} _ _.
Arguments linkM {K} _ _. Arguments unite {K} _ _ _ _ _. Arguments move_front {K} _ _ _.
Arguments split {K} _ _ _ _ _ _ _ _. Arguments split_unite {K} _ _ _ _ _ _.
Arguments unite_split {K} _ _ _ _ _ _ _. Arguments contract_children {K} _ _ _.
Arguments contraction {K} _ _ _. Arguments no_obj {K}. Arguments scalar1 {K}.
Arguments new_tensor {K} _ _ _ _. Arguments new_leaf {K} _ _.
