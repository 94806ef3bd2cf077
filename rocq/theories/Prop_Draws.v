(** Theorems about the sampling methods of the JAX generator (C69). *)
From Coq Require Import Reals Lra.
From Verif Require Import Base Model_Arrays Model_Jax Model_Draws Spec_Arrays Spec_Draws Proof_Arrays
  Proof_Draws.

(** C69: a draw has the shape of the documented rule, each element is made from its own
    random number, with the key of this call and the parameters that broadcasting
    places there. Everything else is rejected. *)
Theorem jax_normal_draw J k loc scale size :
  let '(state, r) := normal J k loc scale size in
  state = 0 :: k /\
  (forall s, documented_draw [ashape loc; ashape scale] (request size) s ->
    exists a, r = Ok a /\ ashape a = s /\
      forall i, inside s i -> exists j l, comes_from (ashape loc) i j /\ comes_from (ashape scale) i l /\
        aget a i = (aget loc j + aget scale l * normal_bits J (1%nat :: k) s i)%R) /\
  ((forall s, ~ documented_draw [ashape loc; ashape scale] (request size) s) ->
    exists e, r = Err e).
Proof.
  unfold normal. cbn [next_key jax_split map seq nth]. split; [reflexivity|]. split.
  - intros s D. pose proof (documented_fits _ _ _ D) as F.
    inversion F as [|? ? F1 F']. inversion F' as [|? ? F2 _]. subst.
    apply out_shape_iff in D. rewrite D. cbn [bind].
    destruct (zip_fits Rmult scale (jax_normal J (1 :: k) s) F2) as (x & E & Sx & X).
    rewrite E. cbn [bind]. simpl ashape in Sx.
    assert (F1' : fits (ashape x) (ashape loc)) by (rewrite Sx; exact F1).
    destruct (zip_fits Rplus loc x F1') as (a & E' & Sa & A). rewrite Sx in Sa, A.
    exists a. split; [exact E'|]. split; [exact Sa|]. intros i Hi.
    destruct (A i Hi) as (j & J1 & J2). destruct (X i Hi) as (l & L1 & L2).
    exists j, l. split; [exact J1|]. split; [exact L1|]. rewrite J2, L2. reflexivity.
  - intro H. destruct (out_shape_rejects _ _ H) as [e E]. exists e. rewrite E. reflexivity.
Qed.
Print Assumptions jax_normal_draw.

Theorem jax_standard_draws J k size :
  let '(state, r) := standard_normal J k size in
  let '(state', r') := random J k size in
  let s := match request size with None => [] | Some t => t end in
  state = 0 :: k /\ state' = 0 :: k /\
  exists a b, r = Ok a /\ r' = Ok b /\ ashape a = s /\ ashape b = s /\
    forall i, aget a i = normal_bits J (1%nat :: k) s i /\ aget b i = uniform_bits J (1%nat :: k) s i.
Proof.
  unfold standard_normal, random. cbn [next_key jax_split map seq nth].
  split; [reflexivity|]. split; [reflexivity|].
  assert (D : out_shape size [] = Ok match request size with None => [] | Some t => t end)
    by (destruct size; reflexivity).
  rewrite D. cbn [bind]. do 2 eexists. split; [reflexivity|]. split; [reflexivity|].
  split; [reflexivity|]. split; [reflexivity|]. intro i. split; reflexivity.
Qed.
Print Assumptions jax_standard_draws.

Theorem jax_poisson_draw J k lam size :
  let '(state, r) := poisson J k lam size in
  state = 0 :: k /\
  (forall s, documented_draw [ashape lam] (request size) s ->
    exists a, r = Ok a /\ ashape a = s /\
      forall i, inside s i -> exists j, comes_from (ashape lam) i j /\
        aget a i = poisson_bits J (1 :: k) s (aget lam j) i) /\
  ((forall s, ~ documented_draw [ashape lam] (request size) s) -> exists e, r = Err e).
Proof.
  unfold poisson. cbn [next_key jax_split map seq nth]. split; [reflexivity|]. split.
  - intros s D. pose proof (documented_fits _ _ _ D) as F. inversion F as [|? ? F1 _]. subst.
    apply out_shape_iff in D. rewrite D. cbn [bind].
    destruct (fits_broadcast_to lam s F1) as (l & E & _ & L). rewrite E. cbn [bind].
    eexists. split; [reflexivity|]. split; [reflexivity|]. intros i Hi.
    destruct (L i (inside_length _ _ Hi)) as (j & J1 & J2). exists j. split; [exact J1|].
    simpl. rewrite J2. reflexivity.
  - intro H. destruct (out_shape_rejects _ _ H) as [e E]. exists e. rewrite E. reflexivity.
Qed.
Print Assumptions jax_poisson_draw.

(** Uniform numbers lie between the bounds that belong to their place. *)
Theorem jax_uniform_draw J k low high size :
  let '(state, r) := uniform J k low high size in
  state = 0 :: k /\
  (forall s, documented_draw [ashape low; ashape high] (request size) s ->
    exists a, r = Ok a /\ ashape a = s /\
      forall i, inside s i -> (0 <= uniform_bits J (1%nat :: k) s i < 1)%R ->
        exists j l, comes_from (ashape low) i j /\ comes_from (ashape high) i l /\
          ((aget low j <= aget high l)%R ->
            aget a i = (aget low j + uniform_bits J (1%nat :: k) s i * (aget high l - aget low j))%R /\
            (aget low j <= aget a i <= aget high l)%R /\
            ((aget low j < aget high l)%R -> (aget a i < aget high l)%R))) /\
  ((forall s, ~ documented_draw [ashape low; ashape high] (request size) s) ->
    exists e, r = Err e).
Proof.
  unfold uniform. cbn [next_key jax_split map seq nth]. split; [reflexivity|]. split.
  - intros s D. pose proof (documented_fits _ _ _ D) as F.
    inversion F as [|? ? F1 F']. inversion F' as [|? ? F2 _]. subst.
    apply out_shape_iff in D. rewrite D. cbn [bind].
    destruct (fits_broadcast_to low s F1) as (lo & E & _ & L). rewrite E. cbn [bind].
    destruct (fits_broadcast_to high s F2) as (hi & E' & _ & H). rewrite E'. cbn [bind].
    eexists. split; [reflexivity|]. split; [reflexivity|]. intros i Hi U.
    destruct (L i (inside_length _ _ Hi)) as (j & J1 & J2).
    destruct (H i (inside_length _ _ Hi)) as (l & L1 & L2).
    exists j, l. split; [exact J1|]. split; [exact L1|]. intro O. simpl. rewrite J2, L2.
    set (u := uniform_bits J (1%nat :: k) s i) in *. set (x := aget low j) in *. set (y := aget high l) in *.
    assert (P : (0 <= u * (y - x))%R) by (apply Rmult_le_pos; lra).
    assert (Q : (u * (y - x) <= 1 * (y - x))%R) by (apply Rmult_le_compat_r; lra).
    rewrite Rmax_right by lra. split; [ring|]. split; [lra|]. intro S.
    assert (Q' : (u * (y - x) < 1 * (y - x))%R) by (apply Rmult_lt_compat_r; lra). lra.
  - intro H. destruct (out_shape_rejects _ _ H) as [e E]. exists e. rewrite E. reflexivity.
Qed.
Print Assumptions jax_uniform_draw.

(** Multinomial counts have the batch shape of the documented rule, followed by the
    categories; a rejected call takes no key. *)
Theorem jax_multinomial_draw J k n pvals lead c size :
  ashape pvals = lead ++ [c] ->
  let '(state, r) := multinomial J k n pvals size in
  (forall s, documented_draw [ashape n; lead] (request size) s ->
    state = 0 :: k /\
    exists a, r = Ok a /\ ashape a = s ++ [c] /\
      forall i x, inside s i -> x < c -> exists j l, comes_from (ashape n) i j /\ comes_from lead i l /\
        exists p, (forall y, y < c -> p y = aget pvals (l ++ [y])) /\
          aget a (i ++ [x]) = multinomial_bits J (1 :: k) (s ++ [c]) (aget n j) p (i ++ [x])) /\
  ((forall s, ~ documented_draw [ashape n; lead] (request size) s) ->
    state = k /\ exists e, r = Err e).
Proof.
  intro P. unfold multinomial. rewrite P.
  destruct (lead ++ [c]) as [|p0 pr] eqn:N; [destruct lead; discriminate|]. rewrite <- N in *. clear N.
  rewrite removelast_last, last_last.
  destruct (out_shape size [ashape n; lead]) as [b|e] eqn:O.
  2:{ split; [|intros _; split; [reflexivity|exists e; reflexivity]].
      intros s D. apply out_shape_iff in D. congruence. }
  assert (Es : match b with [] => lead ++ [c] | _ :: _ => b ++ [c] end = b ++ [c]).
  { destruct b; [|reflexivity]. apply out_shape_iff, documented_nil in O.
    inversion O as [|? ? _ O']. inversion O' as [|? ? Z _]. rewrite Z. reflexivity. }
  cbn [next_key jax_split map seq nth]. rewrite Es, removelast_last.
  split; [|intro H; apply out_shape_iff in O; destruct (H b O)].
  intros s D. assert (s = b) by (apply out_shape_iff in D; congruence). subst s.
  split; [reflexivity|].
  pose proof (documented_fits _ _ _ D) as F.
  inversion F as [|? ? F1 F']. inversion F' as [|? ? F2 _]. subst.
  destruct (fits_broadcast_to n b F1) as (m & E & _ & M). rewrite E. cbn [bind].
  assert (F3 : fits (b ++ [c]) (ashape pvals)) by (rewrite P; apply fits_snoc; exact F2).
  destruct (fits_broadcast_to pvals _ F3) as (q & E' & _ & Q). rewrite E'. cbn [bind].
  eexists. split; [reflexivity|]. split; [reflexivity|]. intros i x Hi Hx.
  pose proof (inside_length _ _ Hi) as Li.
  destruct (M i Li) as (j & J1 & J2).
  exists j, (source lead i). split; [exact J1|].
  split; [apply source_spec; destruct F2; lia|].
  exists (fun y => aget q (i ++ [y])). split.
  - intros y Hy. destruct (Q (i ++ [y])) as (l & (L1 & L2) & L3); [rewrite !app_length; simpl; lia|].
    rewrite L3. f_equal. destruct F2 as [F2 _].
    rewrite P in L1, L2. rewrite app_length in L1, L2. simpl in L1, L2.
    destruct (source_spec lead i) as [S1 S2]; [lia|].
    rewrite <- (rev_involutive l), <- (rev_involutive (source lead i ++ [y])). f_equal.
    apply (nth_ext _ _ 0 0); rewrite !rev_length, ?app_length; simpl; [lia|].
    intros t Ht. rewrite L2 by lia. rewrite axis_snoc, !rev_app_distr. simpl.
    destruct t as [|t]; simpl.
    + destruct (Nat.eqb_spec c 1); lia.
    + rewrite S2 by lia. reflexivity.
  - simpl. rewrite removelast_last, J2. reflexivity.
Qed.
Print Assumptions jax_multinomial_draw.

(** An accepted draw has the shape that NumPy gives it. *)
Theorem jax_draw_is_numpy params req s : documented_draw params req s -> numpy_draw params req s.
Proof.
  intro D. pose proof (documented_fits _ _ _ D) as F. destruct D as (d & B & H).
  destruct req as [t|]; simpl.
  - destruct H as [-> _]. split; [reflexivity|exact F].
  - subst. exact B.
Qed.
Print Assumptions jax_draw_is_numpy.

(** Not every draw that NumPy accepts is accepted: a mean for each of two columns and a
    request for three rows. The rejected call has taken a key. *)
Theorem jax_draw_accepts_numpy_refuted :
  exists J k loc scale size s,
    numpy_draw [ashape loc; ashape scale] (request size) s /\ ashape loc = [2] /\ s = [3; 2] /\
    normal J k loc scale size = (0 :: k, Err ValueError).
Proof.
  exists {| normal_bits := fun _ _ _ => 0%R; uniform_bits := fun _ _ _ => 0%R; poisson_bits := fun _ _ _ _ => 0; multinomial_bits := fun _ _ _ _ _ => 0 |}, [], {| ashape := [2]; aget := fun i => INR (nth 0 i 0) |},
    {| ashape := []; aget := fun _ => 1%R |}, (Tuple [3; 2]), [3; 2].
  split; [|repeat split].
  split; [reflexivity|]. constructor; [|constructor; [|constructor]].
  - split; [simpl; lia|]. intros [|[|[|k]]]; simpl; auto.
  - split; [simpl; lia|]. intro k. left. apply axis_nil.
Qed.
Print Assumptions jax_draw_accepts_numpy_refuted.

(** Means in a row and widths in a column: a table of four; asking for the same shape
    gives the same numbers. *)
Example jax_normal_example :
  let loc := {| ashape := [2]; aget := fun i => INR (nth 0 i 0) |} in
  let scale := {| ashape := [2; 1]; aget := fun i => INR (10 * nth 0 i 0) |} in
  let bits := fun (k : key) (s : shape) (i : list nat) => INR (length k + nth 0 i 0 + nth 1 i 0) in
  let J := {| normal_bits := bits; uniform_bits := fun _ _ _ => 0%R; poisson_bits := fun _ _ _ _ => 0; multinomial_bits := fun _ _ _ _ _ => 0 |} in
  exists a b, snd (normal J [] loc scale NoSize) = Ok a /\
    snd (normal J [] loc scale (Tuple [2; 2])) = Ok b /\
    ashape a = [2; 2] /\ ashape b = [2; 2] /\
    aget a [1; 1] = 31%R /\ aget b [1; 1] = 31%R /\
    snd (normal J [] loc scale (Length 4)) = Err ValueError.
Proof.
  cbv zeta. do 2 eexists. split; [reflexivity|]. split; [reflexivity|].
  split; [reflexivity|]. split; [reflexivity|]. split; [|split; [|reflexivity]]; simpl; lra.
Qed.

Example jax_multinomial_example :
  let n := {| ashape := [3]; aget := fun i => 10 * nth 0 i 0 |} in
  let p := {| ashape := [2]; aget := fun i => INR (nth 0 i 0) |} in
  let bits := fun (k : key) (s : shape) m (q : nat -> R) (i : list nat) => m + nth 1 i 0 in
  let J := {| normal_bits := fun _ _ _ => 0%R; uniform_bits := fun _ _ _ => 0%R; poisson_bits := fun _ _ _ _ => 0; multinomial_bits := bits |} in
  exists a, multinomial J [5] n p NoSize = ([0; 5], Ok a) /\ ashape a = [3; 2] /\ aget a [2; 1] = 21 /\
    multinomial J [5] n p (Length 4) = ([5], Err ValueError).
Proof.
  cbv zeta. eexists. split; [reflexivity|]. split; [reflexivity|]. split; reflexivity.
Qed.
