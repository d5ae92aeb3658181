(** Matrix product states and operators, /repo/minitn/algorithms/dmrg.py.

    Simplifications.  [np.einsum] raises ValueError unless the lengths of equal labels agree
    (numpy also stretches axes of length 1, which no call relies on when the chain fits).
    The stacks [L_list] and [R_list] are lists with their last element first.  [eigsh] is a
    given function of the environment, returning the vector it calls [V[:, 0]]; [np.linalg.svd]
    is a given function.  The debug output is left out, and so are the energies. *)
From Coq Require Import String Ascii List Arith Bool.
From Verif Require Import Py Alg Ord ListX NdArray_Model Svd_Model.
Import ListNotations.
Local Open Scope nat_scope.
Local Open Scope list_scope.
Local Open Scope py_scope.

(** ** [np.einsum] with two operands *)
Fixpoint label_val (l : list (ascii * nat)) (c : ascii) : nat :=
  match l with
  | [] => 0
  | (c', n) :: l => if Ascii.eqb c c' then n else label_val l c
  end.
Definition has_label (c : ascii) (l : list ascii) : bool := existsb (Ascii.eqb c) l.
(** Labels in order of first appearance. *)
Fixpoint distinct (l : list ascii) : list ascii :=
  match l with
  | [] => []
  | c :: l => c :: filter (fun c' => negb (Ascii.eqb c c')) (distinct l)
  end.

Section Mps.
Variable K : StarRing.

(** [np.einsum('la,lb->lo', a, b)] *)
Definition einsum (la lb lo : string) (a b : arr K) : res (arr K) :=
  let la := list_ascii_of_string la in
  let lb := list_ascii_of_string lb in
  let lo := list_ascii_of_string lo in
  let sizes := combine la (shape a) ++ combine lb (shape b) in
  if (length la =? ndim a) && (length lb =? ndim b) && forallb (fun p => label_val sizes (fst p) =? snd p) sizes
  then
    let summed := filter (fun c => negb (has_label c lo)) (distinct (la ++ lb)) in
    Ok (build (map (label_val sizes) lo) (fun x =>
          sumL (indices (map (label_val sizes) summed)) (fun y =>
            let env := combine (lo ++ summed) (x ++ y) in
            rmul (get a (map (label_val env) la)) (get b (map (label_val env) lb)))))
  else Raise ValueError.

(** ** /repo/minitn/algorithms/dmrg.py:110-138 [contract_from_left] *)
Definition contract_from_left (L A : arr K) (W : option (arr K)) (B : arr K) : res (arr K) :=
  match W with
  | Some W =>
      let! temp := einsum "sij" "aik" "sajk" A L in
      let! temp := einsum "sajk" "abst" "tbjk" temp W in
      einsum "tbjk" "tkl" "bjl" temp B
  | None =>
      let! temp := einsum "sij" "ik" "sjk" A L in
      einsum "sjk" "skl" "jl" temp B
  end.

(** /repo/minitn/algorithms/dmrg.py:141-169 [contract_from_right] *)
Definition contract_from_right (R A : arr K) (W : option (arr K)) (B : arr K) : res (arr K) :=
  match W with
  | Some W =>
      let! temp := einsum "sij" "bjl" "sbil" A R in
      let! temp := einsum "sbil" "abst" "tail" temp W in
      einsum "tail" "tkl" "aik" temp B
  | None =>
      let! temp := einsum "sij" "jl" "sil" A R in
      einsum "sil" "skl" "ik" temp B
  end.

(** /repo/minitn/algorithms/dmrg.py:190-201 [EnvTensor]: [io_shape] and [_matvec] *)
Definition io_shape (L W R : arr K) : list nat := [nth 3 (shape W) 0; nth 2 (shape L) 0; nth 2 (shape R) 0].
Definition matvec (L W R : arr K) (A : arr K) : res (arr K) :=
  let! A := reshape A (io_shape L W R) in
  let! temp := einsum "aij" "sik" "ajsk" L A in
  let! temp := einsum "ajsk" "abst" "bjtk" temp W in
  let! temp := einsum "bjtk" "bkl" "tjl" temp R in
  reshape temp [prod (io_shape L W R)].

(** /repo/minitn/algorithms/dmrg.py:345-364 [coarse_grain_mps] *)
Definition coarse_grain_mps (A B : arr K) : res (arr K) :=
  let shape_C := [nth 0 (shape A) 0 * nth 0 (shape B) 0; nth 1 (shape A) 0; nth 2 (shape B) 0] in
  let! C := einsum "sij" "tjk" "stik" A B in
  reshape C shape_C.

(** /repo/minitn/algorithms/dmrg.py:367-395 [coarse_grain_mpo] *)
Definition coarse_grain_mpo (W X : arr K) : res (arr K) :=
  let! R := einsum "abst" "bcuv" "acsutv" W X in
  reshape R [nth 0 (shape W) 0; nth 1 (shape X) 0; nth 2 (shape W) 0 * nth 2 (shape X) 0; nth 3 (shape W) 0 * nth 3 (shape X) 0].

(** [np.array([[[1.0]]])], [np.array([[1.0]])] *)
Definition one3 : arr K := mkArr [1; 1; 1] [r1].
Definition one2 : arr K := mkArr [1; 1] [r1].

Definition at_ {X} (l : list X) (i : nat) : res X :=
  match nth_error l i with Some x => Ok x | None => Raise IndexError end.

(** /repo/minitn/algorithms/dmrg.py:519-547 [mat_element]: the loop over the sites [is] *)
Fixpoint element_loop (mps1 : list (arr K)) (mpo : option (list (arr K))) (mps2 : list (arr K)) (is_ : list nat) (L : arr K) : res (arr K) :=
  match is_ with
  | [] => Ok L
  | i :: is_ =>
      let! A := at_ mps1 i in
      let! W := match mpo with None => Ok None | Some mpo => let! w := at_ mpo i in Ok (Some w) end in
      let! B := at_ mps2 i in
      let! L := contract_from_left L A W B in
      element_loop mps1 mpo mps2 is_ L
  end.
Definition mat_element (mps1 : list (arr K)) (mpo : option (list (arr K))) (mps2 : list (arr K)) : res K :=
  match mpo with
  | Some o =>
      let! L := element_loop mps1 mpo mps2 (seq 0 (length o)) one3 in
      Ok (get L [0; 0; 0])
  | None =>
      if negb (length mps1 =? length mps2) then Raise AssertionError else
      let! L := element_loop mps1 mpo mps2 (seq 0 (length mps1)) one2 in
      Ok (get L [0; 0])
  end.

(** ** Sweeps *)
Variable F : OrdRing.
Variable inj : F -> K.
(** The vector found by [eigsh(EnvTensor(L, W, R), 1, v0=A)], and [np.linalg.svd] *)
Variable eig : arr K -> arr K -> arr K -> arr K -> arr K.
Variable svd : arr K -> arr K * list F * arr K.

(** /repo/minitn/algorithms/dmrg.py:204-230 [opt_one_site] *)
Definition opt_one_site (L W R A : arr K) : res (arr K) :=
  let! A := reshape A [prod (io_shape L W R)] in
  reshape (eig L W R A) (io_shape L W R).

(** /repo/minitn/algorithms/dmrg.py:276-289 [_move_right] *)
Definition move_right (mat mat_next : arr K) (trunc : nat) : res (arr K * arr K) :=
  match shape mat with
  | [s; i; j] =>
      let! m := reshape mat [s * i; j] in
      let '(U, sv, V) := svd m in
      let '(U, sv, V, _) := compress_svd U sv V trunc in
      let! m := reshape_infer U [s; i] [] in
      let! SV := matmul (diag (map inj sv)) V in
      let! next := einsum "mj" "tjk" "tmk" SV mat_next in
      Ok (m, next)
  | _ => Raise IndexError
  end.

(** /repo/minitn/algorithms/dmrg.py:291-305 [_move_left] *)
Definition move_left (mat mat_prev : arr K) (trunc : nat) : res (arr K * arr K) :=
  match shape mat with
  | [s; i; j] =>
      let! m := reshape (transpose mat [1; 0; 2]) [i; s * j] in
      let '(U, sv, V) := svd m in
      let '(U, sv, V, _) := compress_svd U sv V trunc in
      let! m := reshape_infer V [] [s; j] in
      let m := transpose m [1; 0; 2] in
      let! US := matmul U (diag (map inj sv)) in
      let! prev := einsum "rhi" "im" "rhm" mat_prev US in
      Ok (m, prev)
  | _ => Raise IndexError
  end.

(** /repo/minitn/algorithms/dmrg.py:398-444 [fine_grain_mps]; [right] is the direction '>' *)
Definition fine_grain_mps (C : arr K) (d1 d2 : nat) (right : bool) (trunc : nat) : res (arr K * arr K) :=
  match shape C with
  | [_; i; k] =>
      let! mat := reshape C [d1; d2; i; k] in
      let mat := transpose mat [0; 2; 1; 3] in
      let! mat := reshape mat [d1 * i; d2 * k] in
      let '(U, sv, V) := svd mat in
      let '(U, sv, V) := (if trunc =? 0 then (U, sv, V) else let '(U, sv, V, _) := compress_svd U sv V trunc in (U, sv, V)) in
      let! AB := (if (right : bool) then let! B := matmul (diag (map inj sv)) V in Ok (U, B)
                  else let! A := matmul U (diag (map inj sv)) in Ok (A, V)) in
      let! A := reshape_infer (fst AB) [d1; i] [] in
      let! B := reshape_infer (snd AB) [] [d2; k] in
      Ok (A, transpose B [1; 0; 2])
  | _ => Raise IndexError
  end.

(** The variables of the sweeps, and the calls of [opt_one_site] so far, latest first: the
    first active site, the matrices at that moment, and the arguments [L], [W], [R] of
    [EnvTensor]. *)
Record call := mkCall { c_site : nat; c_mps : list (arr K); c_L : arr K; c_W : arr K; c_R : arr K }.
Record sweep := mkSweep { w_mps : list (arr K); w_L : list (arr K); w_R : list (arr K); w_log : list call }.

Definition top_ {X} (l : list X) : res X := match l with [] => Raise IndexError | x :: _ => Ok x end.

(** /repo/minitn/algorithms/dmrg.py:307-312 and 466-470 [_contract_Rs]: from the end down to
    site [stop + 1] *)
Fixpoint contract_Rs (mpo mps : list (arr K)) (is_ : list nat) (R : list (arr K)) : res (list (arr K)) :=
  match is_ with
  | [] => Ok R
  | i :: is_ =>
      let! r := top_ R in
      let! A := at_ mps i in
      let! W := at_ mpo i in
      let! r := contract_from_right r A (Some W) A in
      contract_Rs mpo mps is_ (r :: R)
  end.

Variable mpo : list (arr K).
Variable trunc : nat.

(** /repo/minitn/algorithms/dmrg.py:320-325: one step of the right sweep of [dmrg1] *)
Definition right1 (w : sweep) (i : nat) : res sweep :=
  let! L := top_ (w_L w) in
  let! R := top_ (w_R w) in
  let Rs := tl (w_R w) in
  let! W := at_ mpo i in
  let! A := at_ (w_mps w) i in
  let log := mkCall i (w_mps w) L W R :: w_log w in
  let! A := opt_one_site L W R A in
  let mps := upd i A (w_mps w) in
  let! N := at_ mps (i + 1) in
  let! AN := move_right A N trunc in
  let mps := upd (i + 1) (snd AN) (upd i (fst AN) mps) in
  let! L' := contract_from_left L (fst AN) (Some W) (fst AN) in
  Ok (mkSweep mps (L' :: w_L w) Rs log).

(** /repo/minitn/algorithms/dmrg.py:332-337: one step of the left sweep *)
Definition left1 (w : sweep) (i : nat) : res sweep :=
  let! R := top_ (w_R w) in
  let! L := top_ (w_L w) in
  let Ls := tl (w_L w) in
  let! W := at_ mpo i in
  let! A := at_ (w_mps w) i in
  let log := mkCall i (w_mps w) L W R :: w_log w in
  let! A := opt_one_site L W R A in
  let mps := upd i A (w_mps w) in
  let! P := at_ mps (i - 1) in
  let! AP := move_left A P trunc in
  let mps := upd (i - 1) (snd AP) (upd i (fst AP) mps) in
  let! R' := contract_from_right R (fst AP) (Some W) (fst AP) in
  Ok (mkSweep mps Ls (R' :: w_R w) log).

Fixpoint foldM {X T} (f : T -> X -> res T) (l : list X) (s : T) : res T :=
  match l with [] => Ok s | x :: l => let! s := f s x in foldM f l s end.

(** [range(n - 1, k, -1)] *)
Definition down (n k : nat) : list nat := rev (seq (k + 1) (n - 1 - k)).

(** /repo/minitn/algorithms/dmrg.py:318-341: one turn of the outer loop; the matrices are
    replaced one by one, so that their number stays *)
Definition turn1 (w : sweep) : res sweep :=
  let! w := foldM right1 (seq 0 (length mpo - 1)) w in
  foldM left1 (down (length (w_mps w)) 0) w.
Fixpoint turns (turn : sweep -> res sweep) (n : nat) (w : sweep) : res sweep :=
  match n with 0 => Ok w | S n => let! w := turn w in turns turn n w end.
Definition start1 (mps : list (arr K)) : res sweep :=
  let! R := contract_Rs mpo mps (down (length mpo) 0) [one3] in
  Ok (mkSweep mps [one3] R []).
(** /repo/minitn/algorithms/dmrg.py:257-342 [dmrg1] *)
Definition dmrg1 (mps : list (arr K)) (sweeps : nat) : res sweep :=
  let! w := start1 mps in
  turns turn1 (Nat.div sweeps 2) w.

(** /repo/minitn/algorithms/dmrg.py:485-495: one step of the right sweep of [dmrg2] *)
Definition right2 (w : sweep) (i : nat) : res sweep :=
  let! L := top_ (w_L w) in
  let! R := top_ (w_R w) in
  let Rs := tl (w_R w) in
  let! A := at_ (w_mps w) i in
  let! B := at_ (w_mps w) (i + 1) in
  let! C := coarse_grain_mps A B in
  let! W := at_ mpo i in
  let! X := at_ mpo (i + 1) in
  let! WX := coarse_grain_mpo W X in
  let log := mkCall i (w_mps w) L WX R :: w_log w in
  let! C := opt_one_site L WX R C in
  let! AB := fine_grain_mps C (nth 0 (shape A) 0) (nth 0 (shape B) 0) true trunc in
  let mps := upd (i + 1) (snd AB) (upd i (fst AB) (w_mps w)) in
  let! L' := contract_from_left L (fst AB) (Some W) (fst AB) in
  Ok (mkSweep mps (L' :: w_L w) Rs log).

(** /repo/minitn/algorithms/dmrg.py:501-511: one step of the left sweep of [dmrg2] *)
Definition left2 (w : sweep) (i : nat) : res sweep :=
  let! R := top_ (w_R w) in
  let! L := top_ (w_L w) in
  let Ls := tl (w_L w) in
  let! A := at_ (w_mps w) (i - 1) in
  let! B := at_ (w_mps w) i in
  let! C := coarse_grain_mps A B in
  let! W := at_ mpo (i - 1) in
  let! X := at_ mpo i in
  let! WX := coarse_grain_mpo W X in
  let log := mkCall (i - 1) (w_mps w) L WX R :: w_log w in
  let! C := opt_one_site L WX R C in
  let! AB := fine_grain_mps C (nth 0 (shape A) 0) (nth 0 (shape B) 0) false trunc in
  let mps := upd i (snd AB) (upd (i - 1) (fst AB) (w_mps w)) in
  let! R' := contract_from_right R (snd AB) (Some X) (snd AB) in
  Ok (mkSweep mps Ls (R' :: w_R w) log).

Definition turn2 (w : sweep) : res sweep :=
  let! w := foldM right2 (seq 0 (length mpo - 2)) w in
  foldM left2 (down (length (w_mps w)) 1) w.
Definition start2 (mps : list (arr K)) : res sweep :=
  let! R := contract_Rs mpo mps (down (length mpo) 1) [one3] in
  Ok (mkSweep mps [one3] R []).
(** /repo/minitn/algorithms/dmrg.py:447-516 [dmrg2] *)
Definition dmrg2 (mps : list (arr K)) (sweeps : nat) : res sweep :=
  let! w := start2 mps in
  turns turn2 (Nat.div sweeps 2) w.
End Mps.
Arguments einsum {K} _ _ _ _ _. Arguments contract_from_left {K} _ _ _ _. Arguments contract_from_right {K} _ _ _ _.
Arguments io_shape {K} _ _ _. Arguments matvec {K} _ _ _ _. Arguments coarse_grain_mps {K} _ _. Arguments coarse_grain_mpo {K} _ _.
Arguments one3 {K}. Arguments one2 {K}. Arguments element_loop {K} _ _ _ _ _. Arguments mat_element {K} _ _ _.
Arguments opt_one_site {K} _ _ _ _ _. Arguments move_right {K F} _ _ _ _ _. Arguments move_left {K F} _ _ _ _ _.
Arguments fine_grain_mps {K F} _ _ _ _ _ _ _. Arguments contract_Rs {K} _ _ _ _.
Arguments mkCall {K} _ _ _ _ _. Arguments c_site {K} _. Arguments c_mps {K} _. Arguments c_L {K} _. Arguments c_W {K} _. Arguments c_R {K} _.
Arguments mkSweep {K} _ _ _ _. Arguments w_mps {K} _. Arguments w_L {K} _. Arguments w_R {K} _. Arguments w_log {K} _.
Arguments right1 {K F} _ _ _ _ _ _ _. Arguments left1 {K F} _ _ _ _ _ _ _. Arguments turn1 {K F} _ _ _ _ _ _.
Arguments turns {K} _ _ _. Arguments start1 {K} _ _. Arguments dmrg1 {K F} _ _ _ _ _ _ _.
Arguments right2 {K F} _ _ _ _ _ _ _. Arguments left2 {K F} _ _ _ _ _ _ _. Arguments turn2 {K F} _ _ _ _ _ _.
Arguments start2 {K} _ _. Arguments dmrg2 {K F} _ _ _ _ _ _ _.

(** ** /repo/minitn/algorithms/dmrg.py:39-63 [fm_state] and 66-107 [heisenberg] *)
Section States.
Variable K : StarRing.
Variable half : K.                        (* 0.5 *)

Definition up_ : arr K := mkArr [2; 1; 1] [r1; r0].
Definition down_ : arr K := mkArr [2; 1; 1] [r0; r1].
Fixpoint times {X} (n : nat) (l : list X) : list X := match n with 0 => [] | S n => l ++ times n l end.
Definition fm_state (N : nat) (anti : bool) : list (arr K) :=
  if anti then times (Nat.div N 2) [up_; down_] else times N [up_].

Definition mat2 (a b c d : K) : arr K := mkArr [2; 2] [a; b; c; d].
Definition op_I : arr K := mat2 r1 r0 r0 r1.
Definition op_Z : arr K := mat2 r0 r0 r0 r0.
Definition op_Sz : arr K := mat2 half r0 r0 (ropp half).
Definition op_Sp : arr K := mat2 r0 r0 r1 r0.
Definition op_Sm : arr K := mat2 r0 r1 r0 r0.
(** [np.array] of nested lists of 2 x 2 matrices, given as rows *)
Definition block (rows : list (list (arr K))) : arr K :=
  mkArr [length rows; length (nth 0 rows []); 2; 2] (concat (map data (concat rows))).
(** [-h * Sz], [(J / 2.) * Sm], ... : the last row of the bulk tensor *)
Definition last_row (J Jz h : K) : list (arr K) :=
  [arr_scale (ropp h) op_Sz; arr_scale (rmul J half) op_Sm; arr_scale (rmul J half) op_Sp; arr_scale (rmul Jz half) op_Sz; op_I].
Definition W_first (J Jz h : K) : arr K := block [last_row J Jz h].
Definition W_mid (J Jz h : K) : arr K :=
  block [[op_I; op_Z; op_Z; op_Z; op_Z]; [op_Sp; op_Z; op_Z; op_Z; op_Z]; [op_Sm; op_Z; op_Z; op_Z; op_Z]; [op_Sz; op_Z; op_Z; op_Z; op_Z]; last_row J Jz h].
Definition W_last (h : K) : arr K := block [[op_I]; [op_Sp]; [op_Sm]; [op_Sz]; [arr_scale (ropp h) op_Sz]].
Definition heisenberg (N : nat) (J Jz h : K) : list (arr K) :=
  W_first J Jz h :: repeat (W_mid J Jz h) (N - 2) ++ [W_last h].
End States.
Arguments up_ {K}. Arguments down_ {K}. Arguments fm_state {K} _ _. Arguments mat2 {K} _ _ _ _. Arguments op_I {K}. Arguments op_Z {K}. Arguments op_Sp {K}. Arguments op_Sm {K}.
Arguments block {K} _. Arguments op_Sz {K} _. Arguments last_row {K} _ _ _ _. Arguments W_first {K} _ _ _ _. Arguments W_mid {K} _ _ _ _. Arguments W_last {K} _ _. Arguments heisenberg {K} _ _ _ _ _.
