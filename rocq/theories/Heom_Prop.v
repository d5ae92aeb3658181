(** Properties C37, C38, C39, C40: generators of the hierarchy. *)
From Coq Require Import List Arith Bool ZArith Lia Ring.
From Verif Require Import Py Alg ListX NdArray_Model NdArray_Proof Contract_Model Heom_Model Heom_Spec Heom_Proof HeomThm_Proof.
Import ListNotations.
Local Open Scope nat_scope.

(** [a] is an extended density with tiers up to [dims] for a system of dimension [d]. *)
Notation extended dims d a := (wf a /\ shape a = dims ++ [d; d]).

(** ** C37 *)

(** eom2.py: the terms, applied to any extended density, give the hierarchy equations on every tier. *)
Theorem C37_plain :
  forall (K : StarRing) (im ihbar : K) (sq : nat -> K) dims d (h op : arr K) (gamma symm asymm : list K) close0,
    shape h = [d; d] -> shape op = [d; d] ->
    length gamma = length dims -> length symm = length dims -> length asymm = length dims ->
    close0 r0 = true -> (forall g, close0 g = true -> g = r0) ->
    exists terms, diff2 K im ihbar sq dims h op gamma symm asymm close0 = Ok terms /\
    forall a, extended dims d a ->
    exists b, apply_terms terms a = Ok b /\ extended dims d b /\
    forall n i j, in_range n dims -> i < d -> j < d ->
      get b (n ++ [i; j]) =
      plain_rhs im ihbar d (length dims) (mat h) (mat h) (mat op) (mat op) (fun k => nth k gamma r0)
        (fun k => nth k symm r0 + im * nth k asymm r0)%S (fun k => rconj (nth k symm r0 + im * nth k asymm r0))%S
        (tiers dims a) n i j.
Proof. exact plain_ok. Qed.
Print Assumptions C37_plain.

(** hierachy.py: the scaled equations, with the transposed matrices acting from the left. *)
Theorem C37_scaled_transposed :
  forall (K : StarRing) (im : K) (sq : nat -> K) dims d (h op : arr K) (der coeff ccoeff : list K) scale iscale,
    shape h = [d; d] -> shape op = [d; d] ->
    length der = length dims -> length coeff = length dims -> length ccoeff = length dims -> sq 0 = r0 ->
    exists terms, diff3 K im sq dims h op der coeff ccoeff scale iscale = Ok terms /\
    forall a, extended dims d a ->
    exists b, apply_terms terms a = Ok b /\ extended dims d b /\
    forall n i j, in_range n dims -> i < d -> j < d ->
      get b (n ++ [i; j]) =
      scaled_rhs im sq scale iscale d (length dims) (tr (mat h)) (mat h) (tr (mat op)) (mat op) (fun k => - nth k der r0)%S
        (fun k => nth k coeff r0) (fun k => nth k ccoeff r0) (tiers dims a) n i j.
Proof. exact scaled_ok. Qed.
Print Assumptions C37_scaled_transposed.

Definition symmetric_matrix {K : StarRing} (d : nat) (a : arr K) := forall i j, i < d -> j < d -> get a [i; j] = get a [j; i].

(** For symmetric H and X these are the scaled hierarchy equations. *)
Theorem C37_scaled :
  forall (K : StarRing) (im : K) (sq : nat -> K) dims d (h op : arr K) (der coeff ccoeff : list K) scale iscale,
    shape h = [d; d] -> shape op = [d; d] -> symmetric_matrix d h -> symmetric_matrix d op ->
    length der = length dims -> length coeff = length dims -> length ccoeff = length dims -> sq 0 = r0 ->
    exists terms, diff3 K im sq dims h op der coeff ccoeff scale iscale = Ok terms /\
    forall a, extended dims d a ->
    exists b, apply_terms terms a = Ok b /\ extended dims d b /\
    forall n i j, in_range n dims -> i < d -> j < d ->
      get b (n ++ [i; j]) =
      scaled_rhs im sq scale iscale d (length dims) (mat h) (mat h) (mat op) (mat op) (fun k => - nth k der r0)%S
        (fun k => nth k coeff r0) (fun k => nth k ccoeff r0) (tiers dims a) n i j.
Proof.
  intros K im sq dims d h op der coeff ccoeff scale iscale Hh Hop Sh So Lg Lc Lcc S0.
  destruct (scaled_ok K im sq dims d h op der coeff ccoeff scale iscale Hh Hop Lg Lc Lcc S0) as (l & E & H).
  exists l. split; auto. intros a R. destruct (H a R) as (b & Eb & Rb & Gb). exists b. split; auto. split; auto.
  intros n i j Hn Hi Hj. rewrite Gb by auto. apply scaled_sym; auto; intros; unfold tr, mat; [apply Sh|apply So]; auto.
Qed.
Print Assumptions C37_scaled.

(** [h_list] puts the matrices on the given leaves: axis k on the k-th one, the last two axes on [sys_i], [sys_j]. *)
Theorem C37_h_list :
  forall (K : StarRing) (im : K) (sq : nat -> K) dims (h op : arr K) (der coeff ccoeff : list K) scale iscale
         L (sys_i sys_j : L) ph terms named,
    length ph = length dims ->
    diff3 K im sq dims h op der coeff ccoeff scale iscale = Ok terms ->
    h_list K im sq dims h op der coeff ccoeff scale iscale sys_i sys_j ph = Ok named ->
    Forall2 (Forall2 (fun p q => snd p = snd q /\
       (fst p < length dims -> nth_error ph (fst p) = Some (fst q)) /\
       (fst p = length dims -> fst q = sys_i) /\ (fst p = length dims + 1 -> fst q = sys_j))) terms named.
Proof.
  intros K im sq dims h op der coeff ccoeff scale iscale L sys_i sys_j ph terms named Lp E E'.
  unfold h_list in E'. rewrite E in E'. cbn [bind] in E'. clear E.
  assert (M : forall A B (f : A -> res B) (P : A -> B -> Prop), (forall x y, f x = Ok y -> P x y) -> forall l r, map_res f l = Ok r -> Forall2 P l r).
  { intros A B f P HP. induction l as [|x l IH]; intros r Er; cbn [map_res] in Er.
    - injection Er as <-. constructor.
    - destruct (f x) as [y|] eqn:Ex; [|discriminate Er]. cbn [bind] in Er. destruct (map_res f l) as [ys|]; [|discriminate Er]. cbn [bind] in Er. injection Er as <-. constructor; auto. }
  eapply M; [|exact E']. intros t u Et. eapply M; [|exact Et]. intros (k, x) (z, y) Ez. cbn [fst snd] in *. unfold item in Ez.
  destruct (nth_error (ph ++ [sys_i; sys_j]) k) as [w|] eqn:En; [|discriminate Ez]. cbn [bind] in Ez. injection Ez as <- <-. split; [reflexivity|]. split; [|split].
  - intros H. rewrite nth_error_app1 in En by lia. exact En.
  - intros ->. rewrite <- Lp, nth_error_app2, Nat.sub_diag in En by lia. cbn in En. congruence.
  - intros ->. rewrite <- Lp, nth_error_app2 in En by lia. replace (length ph + 1 - length ph) with 1 in En by lia. cbn in En. congruence.
Qed.
Print Assumptions C37_h_list.

(** A spin with a Hermitian but not symmetric H, two baths, over the Gaussian integers;
    with tiers 0 and 1 only the square roots of 0 and 1 occur. *)
Definition g (x y : Z) : G_star := (x, y).
Definition gI : G_star := g 0 1.
Definition gsq (n : nat) : G_star := match n with 0 => g 0 0 | 1 => g 1 0 | _ => g 7 7 end.
Definition pauli_y : arr G_star := garr [2; 2] [(0, 0); (0, -1); (0, 1); (0, 0)]%Z.
Definition pauli_x : arr G_star := garr [2; 2] [(0, 0); (1, 0); (1, 0); (0, 0)]%Z.
Definition is0 (x : G_star) : bool := (Z.eqb (fst x) 0 && Z.eqb (snd x) 0)%bool.
Definition ex_a : arr G_star := garr [2; 2; 2; 2]
  [(1, 0); (2, 3); (0, 1); (4, 0); (1, 1); (0, 2); (2, 0); (3, 0); (5, 0); (1, 2); (0, 0); (1, 0); (2, 2); (1, 0); (0, 1); (3, 1)]%Z.
Definition ex_terms2 := diff2 G_star gI (g 1 0) gsq [2; 2] pauli_y pauli_x [g 3 0; g 5 0] [g 2 0; g 1 0] [g 1 0; g 4 0] is0.
Example C37_example :
  is0 r0 = true /\ (forall x, is0 x = true -> x = r0) /\ extended [2; 2] 2 ex_a /\
  match ex_terms2 with
  | Ok l => length l = 12 /\ match apply_terms l ex_a with
            | Ok b => map (fun n => get b (n ++ [0; 1])) [[0; 0]; [1; 0]; [0; 1]; [1; 1]] =
                      map (fun n => plain_rhs gI (g 1 0) 2 2 (mat pauli_y) (mat pauli_y) (mat pauli_x) (mat pauli_x)
                         (fun k => nth k [g 3 0; g 5 0] r0) (fun k => nth k [g 2 1; g 1 4] r0) (fun k => nth k [g 2 (-1); g 1 (-4)] r0)
                         (tiers [2; 2] ex_a) n 0 1) [[0; 0]; [1; 0]; [0; 1]; [1; 1]] /\ get b [1; 1; 0; 1] <> r0
            | Raise _ => False end
  | Raise _ => False end.
Proof.
  split; [reflexivity|]. split; [|split; [split; reflexivity|]].
  - intros (x, y). unfold is0. cbn [fst snd]. intros H. apply andb_prop in H as (H1 & H2). apply Z.eqb_eq in H1, H2. subst. reflexivity.
  - vm_compute. repeat split; discriminate.
Qed.

(** For H that is Hermitian only, hierachy.py does not give the commutator: witness without bath coupling. *)
Definition ex_terms3 (h : arr G_star) := diff3 G_star gI gsq [2] h pauli_x [g (-3) 0] [g 2 1] [g 2 (-1)] (g 1 0) (g 1 0).
Definition ex_rho : arr G_star := garr [2; 2; 2] [(0, 0); (1, 0); (0, 0); (0, 0); (0, 0); (0, 0); (0, 0); (0, 0)]%Z.
Theorem C37_scaled_hermitian_refuted :
  exists (h : arr G_star) (a : arr G_star),
    (forall i j, i < 2 -> j < 2 -> get h [i; j] = rconj (get h [j; i])) /\ extended [2] 2 a /\
    match ex_terms3 h with Raise _ => False | Ok terms => match apply_terms terms a with Raise _ => False | Ok b =>
    get b ([0] ++ [1; 1]) <> scaled_rhs gI gsq (g 1 0) (g 1 0) 2 1 (mat h) (mat h) (mat pauli_x) (mat pauli_x) (fun k => nth k [g 3 0] r0)
      (fun k => nth k [g 2 1] r0) (fun k => nth k [g 2 (-1)] r0) (tiers [2] a) [0] 1 1
    end end.
Proof.
  exists pauli_y, ex_rho. split; [|split; [split; reflexivity|]].
  - intros [|[|i]] [|[|j]] Hi Hj; try lia; reflexivity.
  - vm_compute. discriminate.
Qed.
Print Assumptions C37_scaled_hermitian_refuted.

(** ** C38 *)
Theorem C38_plain_trace :
  forall (K : StarRing) (im ihbar : K) (sq : nat -> K) dims d (h op : arr K) (gamma symm asymm : list K) close0,
    shape h = [d; d] -> shape op = [d; d] ->
    length gamma = length dims -> length symm = length dims -> length asymm = length dims ->
    close0 r0 = true -> (forall g, close0 g = true -> g = r0) -> Forall (fun x => 0 < x) dims ->
    exists terms, diff2 K im ihbar sq dims h op gamma symm asymm close0 = Ok terms /\
    forall a, extended dims d a -> exists b, apply_terms terms a = Ok b /\
      sumn d (fun i => get b (repeat 0 (length dims) ++ [i; i])) = r0.
Proof.
  intros K im ihbar sq dims d h op gamma symm asymm close0 Hh Hop Lg Ls La C0 C1 Hp.
  destruct (plain_ok K im ihbar sq dims d h op gamma symm asymm close0 Hh Hop Lg Ls La C0 C1) as (l & E & H).
  exists l. split; auto. intros a R. destruct (H a R) as (b & Eb & Rb & Gb). exists b. split; auto.
  rewrite <- (plain_trace K im ihbar d (length dims) (mat h) (mat op) (fun k => nth k gamma r0) (fun k => nth k symm r0 + im * nth k asymm r0)%S
    (fun k => rconj (nth k symm r0 + im * nth k asymm r0))%S (tiers dims a)).
  unfold trace. apply sumn_ext. intros i Hi. apply Gb; auto. apply (tier0_in dims Hp).
Qed.
Print Assumptions C38_plain_trace.

Theorem C38_scaled_trace :
  forall (K : StarRing) (im : K) (sq : nat -> K) dims d (h op : arr K) (der coeff ccoeff : list K) scale iscale,
    shape h = [d; d] -> shape op = [d; d] -> symmetric_matrix d h -> symmetric_matrix d op ->
    length der = length dims -> length coeff = length dims -> length ccoeff = length dims -> sq 0 = r0 -> Forall (fun x => 0 < x) dims ->
    exists terms, diff3 K im sq dims h op der coeff ccoeff scale iscale = Ok terms /\
    forall a, extended dims d a -> exists b, apply_terms terms a = Ok b /\
      sumn d (fun i => get b (repeat 0 (length dims) ++ [i; i])) = r0.
Proof.
  intros K im sq dims d h op der coeff ccoeff scale iscale Hh Hop Sh So Lg Lc Lcc S0 Hp.
  destruct (C37_scaled K im sq dims d h op der coeff ccoeff scale iscale Hh Hop Sh So Lg Lc Lcc S0) as (l & E & H).
  exists l. split; auto. intros a R. destruct (H a R) as (b & Eb & Rb & Gb). exists b. split; auto.
  rewrite <- (scaled_trace K im sq scale iscale d (length dims) (mat h) (mat op) (fun k => - nth k der r0)%S (fun k => nth k coeff r0)
    (fun k => nth k ccoeff r0) (tiers dims a) S0).
  unfold trace. apply sumn_ext. intros i Hi. apply Gb; auto. apply (tier0_in dims Hp).
Qed.
Print Assumptions C38_scaled_trace.

(** With a Hermitian H that is not symmetric the trace is not conserved by hierachy.py. *)
Theorem C38_scaled_trace_hermitian_refuted :
  exists (h : arr G_star) (a : arr G_star),
    (forall i j, i < 2 -> j < 2 -> get h [i; j] = rconj (get h [j; i])) /\ symmetric_matrix 2 pauli_x /\ extended [2] 2 a /\
    match ex_terms3 h with Raise _ => False | Ok terms => match apply_terms terms a with Raise _ => False | Ok b =>
    sumn 2 (fun i => get b ([0] ++ [i; i])) <> r0
    end end.
Proof.
  exists pauli_y, ex_rho. split; [|split; [|split; [split; reflexivity|]]].
  - intros [|[|i]] [|[|j]] Hi Hj; try lia; reflexivity.
  - intros [|[|i]] [|[|j]] Hi Hj; try lia; reflexivity.
  - vm_compute. discriminate.
Qed.
Print Assumptions C38_scaled_trace_hermitian_refuted.

Example C38_example :
  (match ex_terms2 with Ok l => match apply_terms l ex_a with
     | Ok b => radd (get b [0; 0; 0; 0]) (get b [0; 0; 1; 1]) = r0 /\ get b [0; 0; 0; 0] <> r0 | _ => False end | _ => False end) /\
  symmetric_matrix 2 pauli_x /\
  (match ex_terms3 pauli_x with Ok l => match apply_terms l (garr [2; 2; 2] [(1, 0); (2, 3); (0, 1); (4, 0); (1, 1); (0, 2); (2, 0); (3, 0)]%Z) with
     | Ok b => radd (get b [0; 0; 0]) (get b [0; 1; 1]) = r0 /\ get b [0; 0; 0] <> r0 | _ => False end | _ => False end).
Proof.
  split; [vm_compute; split; [reflexivity|discriminate]|]. split; [|vm_compute; split; [reflexivity|discriminate]].
  intros [|[|i]] [|[|j]] Hi Hj; try lia; reflexivity.
Qed.

(** ** C39 *)

(** eom.py: on tier zero the derivative is - i [H, rho_0], whatever the bath and the other tiers; and an extended
    density that vanishes on all other tiers stays so. *)
Theorem C39_zeroth_tier_decoupled :
  forall (K : StarRing) (im ihbar : K) (sq : nat -> K) dims d (h op : arr K) (gamma symm asymm : list K),
    shape h = [d; d] -> shape op = [d; d] ->
    length gamma = length dims -> length symm = length dims -> length asymm = length dims -> sq 0 = r0 -> Forall (fun x => 0 < x) dims ->
    exists terms, diff1 K im ihbar sq dims h op gamma symm asymm = Ok terms /\
    forall a, extended dims d a -> exists b, apply_terms terms a = Ok b /\ extended dims d b /\
      (forall i j, i < d -> j < d ->
         get b (repeat 0 (length dims) ++ [i; j]) = free_rhs im d (mat h) (fun x y => get a (repeat 0 (length dims) ++ [x; y])) i j) /\
      ((forall n i j, in_range n dims -> i < d -> j < d -> n <> repeat 0 (length dims) -> get a (n ++ [i; j]) = r0) ->
       forall n i j, in_range n dims -> i < d -> j < d -> n <> repeat 0 (length dims) -> get b (n ++ [i; j]) = r0).
Proof.
  intros K im ihbar sq dims d h op gamma symm asymm Hh Hop Lg Ls La S0 Hp.
  destruct (shifted_ok K im ihbar sq dims d h op gamma symm asymm Hh Hop Lg Ls La S0) as (l & E & H).
  exists l. split; auto. intros a R. destruct (H a R) as (b & Eb & Rb & Gb). exists b. split; auto. split; auto.
  pose proof (tier0_in dims Hp) as T0. split.
  - intros i j Hi Hj. change (repeat 0 (length dims)) with (tier0 (length dims)). rewrite Gb by auto. rewrite shifted_tier0 by auto.
    apply free_ext; auto. intros x y Hx Hy. apply tiers_in; auto.
  - intros Z n i j Hn Hi Hj N. rewrite Gb by auto. apply shifted_stays; auto.
    + apply in_range_len; auto.
    + intros n' x y Ln' N' Hx Hy. unfold tiers. destruct (inside n' dims) eqn:Ei; [|reflexivity]. apply Z; auto. apply inside_iff; auto.
Qed.
Print Assumptions C39_zeroth_tier_decoupled.

(** So every power of the generator acts on tier zero as the power of - i [H, .]. *)
Theorem C39_no_bath :
  forall (K : StarRing) (im ihbar : K) (sq : nat -> K) dims d (h op : arr K) (gamma symm asymm : list K),
    shape h = [d; d] -> shape op = [d; d] ->
    length gamma = length dims -> length symm = length dims -> length asymm = length dims -> sq 0 = r0 -> Forall (fun x => 0 < x) dims ->
    exists terms, diff1 K im ihbar sq dims h op gamma symm asymm = Ok terms /\
    forall a m, extended dims d a -> exists b, powers terms m a = Ok b /\ extended dims d b /\
      forall i j, i < d -> j < d ->
         get b (repeat 0 (length dims) ++ [i; j]) = times (free_rhs im d (mat h)) m (fun x y => get a (repeat 0 (length dims) ++ [x; y])) i j.
Proof.
  intros K im ihbar sq dims d h op gamma symm asymm Hh Hop Lg Ls La S0 Hp.
  destruct (C39_zeroth_tier_decoupled K im ihbar sq dims d h op gamma symm asymm Hh Hop Lg Ls La S0 Hp) as (l & E & H).
  exists l. split; auto. intros a m R. induction m as [|m (b & Eb & Rb & Gb)].
  - exists a. split; [reflexivity|]. split; auto.
  - destruct (H b Rb) as (c & Ec & Rc & Gc & _). exists c. split; [cbn [powers]; rewrite Eb; exact Ec|]. split; auto.
    intros i j Hi Hj. rewrite Gc by auto. cbn [times]. apply free_ext; auto.
Qed.
Print Assumptions C39_no_bath.

Example C39_example :
  match diff1 G_star gI (g 1 0) gsq [2; 2] pauli_y pauli_x [g 3 0; g 5 0] [g 2 0; g 1 0] [g 1 0; g 4 0] with
  | Ok l => length l = 12 /\ match apply_terms l ex_a with
      | Ok b => get b [0; 0; 0; 1] = free_rhs gI 2 (mat pauli_y) (fun x y => get ex_a ([0; 0] ++ [x; y])) 0 1 /\
                get b [0; 0; 0; 1] <> r0 /\ get b [1; 0; 0; 1] <> r0
      | Raise _ => False end
  | Raise _ => False end.
Proof. vm_compute. repeat split; discriminate. Qed.

(** ** C40 *)

(** When [a2] is [a3] scaled tier by tier with the factors prod f^(n_k) sqrt(n_k!), the same holds for the
    derivatives: eom2.py on [a2], hierachy.py on [a3], for the same bath. *)
Theorem C40_similar :
  forall (K : StarRing) (im : K) (sq : nat -> K) dims d (h op : arr K) (gamma symm asymm : list K) close0 f f',
    shape h = [d; d] -> shape op = [d; d] -> symmetric_matrix d h -> symmetric_matrix d op ->
    length gamma = length dims -> length symm = length dims -> length asymm = length dims ->
    close0 r0 = true -> (forall g, close0 g = true -> g = r0) ->
    (f * f' = r1)%S -> sq 0 = r0 -> (forall k x, k < length dims -> x < nth k dims 0 -> (sq x * sq x)%S = num x) ->
    let coeff := map (fun k => nth k symm r0 + im * nth k asymm r0)%S (seq 0 (length dims)) in
    exists terms2 terms3,
      diff2 K im r1 sq dims h op gamma symm asymm close0 = Ok terms2 /\
      diff3 K im sq dims h op (map ropp gamma) coeff (map rconj coeff) f f' = Ok terms3 /\
    forall m a2 a3, extended dims d a2 -> extended dims d a3 ->
      (forall n i j, in_range n dims -> i < d -> j < d -> get a2 (n ++ [i; j]) = factor f sq (length dims) n * get a3 (n ++ [i; j]))%S ->
    exists b2 b3, powers terms2 m a2 = Ok b2 /\ powers terms3 m a3 = Ok b3 /\ extended dims d b2 /\ extended dims d b3 /\
      forall n i j, in_range n dims -> i < d -> j < d -> (get b2 (n ++ [i; j]) = factor f sq (length dims) n * get b3 (n ++ [i; j]))%S.
Proof.
  intros K im sq dims d h op gamma symm asymm close0 f f' Hh Hop Sh So Lg Ls La C0 C1 Ef S0 Hs coeff.
  assert (Lc : length coeff = length dims) by (unfold coeff; rewrite map_length, seq_length; auto).
  destruct (plain_ok K im r1 sq dims d h op gamma symm asymm close0 Hh Hop Lg Ls La C0 C1) as (l2 & E2 & H2).
  destruct (C37_scaled K im sq dims d h op (map ropp gamma) coeff (map rconj coeff) f f' Hh Hop Sh So) as (l3 & E3 & H3);
    try (rewrite map_length; auto; fail); auto.
  exists l2, l3. split; auto. split; auto. intros m a2 a3 R2 R3 Ha.
  induction m as [|m (b2 & b3 & Eb2 & Eb3 & Rb2 & Rb3 & Hb)].
  { exists a2, a3. repeat split; auto; try apply R2; apply R3. }
  destruct (H2 b2 Rb2) as (c2 & Ec2 & Rc2 & Gc2). destruct (H3 b3 Rb3) as (c3 & Ec3 & Rc3 & Gc3).
  exists c2, c3. cbn [powers]. rewrite Eb2, Eb3. cbn [bind]. split; auto. split; auto. split; auto. split; auto.
  intros n i j Hn Hi Hj. rewrite Gc2, Gc3 by auto. pose proof (in_range_len _ _ Hn) as Ln.
  assert (Cn : forall k, k < length dims -> nth k coeff r0 = (nth k symm r0 + im * nth k asymm r0)%S).
  { intros k Hk. unfold coeff. apply (nth_seq_map K (fun k => nth k symm r0 + im * nth k asymm r0)%S); auto. }
  assert (Cc : forall k, k < length dims -> nth k (map rconj coeff) r0 = rconj (nth k symm r0 + im * nth k asymm r0)%S).
  { intros k Hk. rewrite (nth_indep (map rconj coeff) r0 (rconj r0)) by (rewrite map_length; lia). rewrite map_nth, Cn; auto. }
  assert (Cg : forall k, k < length dims -> (- nth k (map ropp gamma) r0)%S = nth k gamma r0).
  { intros k Hk. rewrite (nth_indep (map ropp gamma) r0 (ropp r0)) by (rewrite map_length; lia). rewrite map_nth. apply ring_opp2. }
  rewrite (plain_ext K im r1 d (length dims) (mat h) (mat op) (fun k => nth k gamma r0) _ _ (tiers dims b2)
    (fun n i j => factor f sq (length dims) n * tiers dims b3 n i j)%S n i j Hi Hj).
  2: { intros n' x y Hx Hy. unfold tiers. destruct (inside n' dims) eqn:Ei; [apply Hb; auto; apply inside_iff; auto|]. symmetry. apply ring_mul0. }
  rewrite (similar K im sq f f') by (auto; intros k Hk; apply (Hs k); auto; apply in_range_nth; auto). f_equal.
  apply scaled_coef; intros k Hk; [symmetry; apply Cg|symmetry; apply Cn|symmetry; apply Cc]; auto.
Qed.
Print Assumptions C40_similar.

(** On tier zero the two agree. *)
Theorem C40_same_tier0 :
  forall (K : StarRing) (im : K) (sq : nat -> K) dims d (h op : arr K) (gamma symm asymm : list K) close0 f f',
    shape h = [d; d] -> shape op = [d; d] -> symmetric_matrix d h -> symmetric_matrix d op ->
    length gamma = length dims -> length symm = length dims -> length asymm = length dims ->
    close0 r0 = true -> (forall g, close0 g = true -> g = r0) ->
    (f * f' = r1)%S -> sq 0 = r0 -> (forall k x, k < length dims -> x < nth k dims 0 -> (sq x * sq x)%S = num x) ->
    Forall (fun x => 0 < x) dims ->
    let coeff := map (fun k => nth k symm r0 + im * nth k asymm r0)%S (seq 0 (length dims)) in
    exists terms2 terms3,
      diff2 K im r1 sq dims h op gamma symm asymm close0 = Ok terms2 /\
      diff3 K im sq dims h op (map ropp gamma) coeff (map rconj coeff) f f' = Ok terms3 /\
    forall m a, extended dims d a ->
      (forall n i j, in_range n dims -> i < d -> j < d -> n <> repeat 0 (length dims) -> get a (n ++ [i; j]) = r0) ->
    exists b2 b3, powers terms2 m a = Ok b2 /\ powers terms3 m a = Ok b3 /\
      forall i j, i < d -> j < d -> get b2 (repeat 0 (length dims) ++ [i; j]) = get b3 (repeat 0 (length dims) ++ [i; j]).
Proof.
  intros K im sq dims d h op gamma symm asymm close0 f f' Hh Hop Sh So Lg Ls La C0 C1 Ef S0 Hs Hp coeff.
  destruct (C40_similar K im sq dims d h op gamma symm asymm close0 f f' Hh Hop Sh So Lg Ls La C0 C1 Ef S0 Hs) as (l2 & l3 & E2 & E3 & H).
  exists l2, l3. split; auto. split; auto. intros m a R Z. destruct (H m a a R R) as (b2 & b3 & Eb2 & Eb3 & R2 & R3 & G).
  - intros n i j Hn Hi Hj. destruct (list_eq_dec Nat.eq_dec n (tier0 (length dims))) as [->|N].
    + rewrite factor_tier0. symmetry. apply ring_mul1.
    + rewrite Z by auto. symmetry. apply ring_mul0.
  - exists b2, b3. split; auto. split; auto. intros i j Hi Hj. rewrite G by (auto; apply (tier0_in dims Hp)).
    change (repeat 0 (length dims)) with (tier0 (length dims)). rewrite factor_tier0. apply ring_mul1.
Qed.
Print Assumptions C40_same_tier0.

(** Scale i and tiers 0, 1 over the Gaussian integers; three applications of both generators. *)
Example C40_example :
  (gI * g 0 (-1) = r1)%S /\ gsq 0 = r0 /\ (forall k x, k < 2 -> x < nth k [2; 2] 0 -> (gsq x * gsq x)%S = num x) /\
  symmetric_matrix 2 pauli_x /\
  match diff2 G_star gI r1 gsq [2; 2] pauli_x pauli_x [g 3 0; g 5 0] [g 2 0; g 1 0] [g 1 0; g 4 0] is0,
        diff3 G_star gI gsq [2; 2] pauli_x pauli_x [g (-3) 0; g (-5) 0] [g 2 1; g 1 4] [g 2 (-1); g 1 (-4)] gI (g 0 (-1)) with
  | Ok l2, Ok l3 =>
      let a := garr [2; 2; 2; 2] [(1, 0); (2, 3); (0, 1); (4, 0); (0, 0); (0, 0); (0, 0); (0, 0); (0, 0); (0, 0); (0, 0); (0, 0); (0, 0); (0, 0); (0, 0); (0, 0)]%Z in
      match powers l2 3 a, powers l3 3 a with
      | Ok b2, Ok b3 => get b2 [0; 0; 0; 1] = get b3 [0; 0; 0; 1] /\ get b2 [0; 0; 0; 1] <> r0 /\
                        get b2 [1; 0; 0; 0] = rmul gI (get b3 [1; 0; 0; 0]) /\ get b3 [1; 0; 0; 0] <> r0
      | _, _ => False end
  | _, _ => False end.
Proof.
  split; [reflexivity|]. split; [reflexivity|]. split; [|split].
  - intros [|[|k]] [|[|x]] Hk Hx; cbn in Hx; try lia; reflexivity.
  - intros [|[|i]] [|[|j]] Hi Hj; try lia; reflexivity.
  - vm_compute. repeat split; discriminate.
Qed.

(** ** C41 *)
Theorem C41_gen_extended_rho :
  forall (K : StarRing) dims d (rho : arr K),
    dims <> [] -> Forall (fun x => 0 < x) dims -> wf rho -> shape rho = [d; d] ->
    exists b, gen_extended_rho dims rho = Ok b /\ extended dims d b /\
    forall n i j, in_range n dims -> i < d -> j < d ->
      get b (n ++ [i; j]) = if list_eq_dec Nat.eq_dec n (repeat 0 (length dims)) then get rho [i; j] else r0.
Proof.
  intros K dims d rho Hne Hp W E. destruct (extended_ok K dims d rho Hne Hp W E) as (b & Eb & Wb & Sb & G).
  exists b. split; auto.
Qed.
Print Assumptions C41_gen_extended_rho.

Example C41_extended_example :
  match gen_extended_rho [2; 3] pauli_y with
  | Ok b => shape b = [2; 3; 2; 2] /\ get b [0; 0; 1; 0] = g 0 1 /\ get b [1; 0; 1; 0] = r0 /\ get b [0; 1; 1; 0] = r0
  | Raise _ => False end.
Proof. vm_compute. auto. Qed.
