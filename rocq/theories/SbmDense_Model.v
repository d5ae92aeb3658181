(** [dense_h] of /repo/minitn/models/sbm.py.

    Simplifications.  Numbers are exact; frequencies and couplings are python floats, so that a list times a frequency is a TypeError.
    [indices.index(k)] finds the first equal leaf.  [h_tensor += cumm] needs equal shapes (numpy would also broadcast); [np.identity], reshaped, is
    an array over the axes twice. *)
From Coq Require Import List Arith Bool ZArith Reals.
From Verif Require Import Py Alg ListX Cplx NdArray_Model Contract_Model Phonon_Model Corr_Model Heom_Model.
Import ListNotations.
Local Open Scope nat_scope.
Local Open Scope py_scope.

Section Embed.
Variable K : StarRing.
Context {L : Type}.
Variable eqb : L -> L -> bool.
(** [indices.index(k)], /repo/minitn/models/sbm.py:154-155 *)
Fixpoint leaf_index (k : L) (l : list L) : res nat :=
  match l with [] => Raise ValueError | x :: l => if eqb x k then Ok 0 else let! i := leaf_index k l in Ok (S i) end.

(** /repo/minitn/models/sbm.py:152-156: the loops over the terms and over the pairs of a term *)
Fixpoint add_factors (idx : list L) (ii acc : arr K) (fs : list (L * arr K)) : res (arr K) :=
  match fs with
  | [] => Ok acc
  | (k, array) :: fs =>
      let! p := leaf_index k idx in
      let! cumm := partial_product_arr ii p array 0 in
      let! acc := arr_add acc cumm in
      add_factors idx ii acc fs
  end.
(** /repo/minitn/models/sbm.py:148-158 *)
Definition embed_sum (sh : list nat) (idx : list L) (diff : list (list (L * arr K))) : res (arr K) :=
  let! ii := reshape (eye (prod sh) (prod sh)) (sh ++ sh) in
  let! t := add_factors idx ii (zeros (sh ++ sh)) (concat diff) in
  reshape t [prod sh; prod sh].
End Embed.

Section Dense.
Variables h op : arr C_star.
Variable ph_parameters : list (R * R).
Variable ph_dims : list nat.
Variable bath : option correlation.
Variable bath_dims : list nat.
Context {L : Type}.
Variable eqb : L -> L -> bool.

(** the tiers, /repo/minitn/models/sbm.py:109-110 and 143-144 *)
Definition n_tiers : list nat := flat_map (fun d => [d; d]) ph_dims ++ bath_dims.

(** [_diff] (/repo/minitn/heom/hierachy.py:135-167) when [self.basis] or [self.scale] is of no use.  [basis] a number: [self.basis[k]] is a TypeError (line 150), after [coeff[k]]
    and [conj_coeff[k]].  Otherwise [ck / fk] fails (line 159): a TypeError for [None], a ZeroDivisionError for 0, after the first of the three terms. *)
Definition diff_fails (der coeff ccoeff : list C_star) (no_basis : bool) (e : exn) {A} : res A :=
  let! _ := item coeff 0 in
  let! _ := item ccoeff 0 in
  if no_basis then let! _ := item der 0 in let! _ := item n_tiers 0 in Raise e else Raise e.

(** What can be handed on as [beta] *)
Inductive arg := a_none | a_num (b : R) | a_leaves (l : list L).
(** [beta * omega], /repo/minitn/models/bath.py:72: a list, even an empty one, times a float is a TypeError *)
Definition times (l : list L) (omega : R) : res R := Raise TypeError.
(** /repo/minitn/models/bath.py:60-95 [generate_BCF] for such a [beta]; without oscillators it is not looked at *)
Definition bcf (beta : arg) : res correlation :=
  match beta with
  | a_none => generate_BCF ph_parameters bath None
  | a_num b => generate_BCF ph_parameters bath (Some b)
  | a_leaves l => let! _ := map_res (fun p => times l (fst p)) ph_parameters in generate_BCF [] bath None
  end.

(** /repo/minitn/models/sbm.py:97-116 [heom_h_list] for a [basis] that is [None] or a number, a [scale] that is [None] or a number *)
Definition heom_args (sys_i sys_j : L) (bath_indices : list L) (beta : arg) (basis scale : option R) : res (list (list (L * arr C_star))) :=
  let! corr := bcf beta in
  match c_kmax corr, c_coeff corr, c_conj_coeff corr, c_derivative corr with
  | Some k, Some c, Some cc, Some der =>
      let! _ := init C_star n_tiers h op (Z.to_nat k) in
      let terms s := h_list C_star C_i rsq n_tiers h op der c cc (RtoC s) (RtoC (/ s)) sys_i sys_j bath_indices in
      if length n_tiers =? 0 then terms 1%R else
      match basis, scale with
      | Some _, _ => diff_fails der c cc false TypeError
      | None, None => diff_fails der c cc true TypeError
      | None, Some s => if Req_EM_T s 0 then diff_fails der c cc true ZeroDivisionError else terms s
      end
  | _, _, _, _ => Raise TypeError
  end.

(** /repo/minitn/models/sbm.py:131-158 [dense_h]; the arguments of the call in lines 145-146, in their order, go to the parameters [bath_indices], [beta], [basis], [scale] *)
Definition dense_h (sys_i sys_j : L) (ph_indices : list L) (bath_indices : option (list L)) (beta f_type : option R) : res (arr C_star) :=
  let bath_indices := match bath_indices with None => [] | Some l => l end in
  let indices := [sys_i; sys_j] ++ ph_indices ++ bath_indices in
  let sh := shape h ++ n_tiers in
  let! diff := heom_args sys_i sys_j ph_indices (a_leaves bath_indices) beta f_type in
  embed_sum C_star eqb sh indices diff.
End Dense.
