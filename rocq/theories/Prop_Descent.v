(** The iteration for the nearest correlation matrix ends, and with nearly the right matrix (C16, C17, C72). *)
From Coq Require Import Reals Lra Lia List Arith Bool.
From Verif Require Import Base RSum Model_Numeric Proof_Numeric Model_Arrays Spec_Arrays Proof_Arrays Model_Effective Proof_Effective
  Model_Cov Spec_Cov Proof_Cov Prop_Cov Proof_Descent.
Import ListNotations.
Local Open Scope R_scope.

Section First.
  Variable eigh : nat -> mat -> (nat -> R) * mat.
  Variable eps : R.
  Variable n : nat.
  Hypothesis Hn : (0 < n)%nat.

  (** The condition for ending after a number of rounds. *)
  Definition ended (N : nat) (a : stack) (t : R) (j : nat) : Prop := forall i, (i < N)%nat -> exists A Y D X, element a i = Some A /\
         rounds eigh eps n j (Some (A, fun _ _ => 0)) = Some (Y, D) /\ clip_matrix eigh eps n None (minus Y D) = Some X /\
         frob n (minus (unit_diagonal X) X) <= t * frob n (unit_diagonal X).

  (** The loop ends with the first round where it can. *)
  Lemma nearcorr_first N a t niter : leading N (ashape a) ->
    exists b found k, nearcorr eigh eps n n a (Some t) niter = Ok (b, found) /\ ashape b = ashape a /\
      (forall i, (i < N)%nat -> element b i = match k, element a i with
         | O, _ => element a i
         | _, Some A => option_map fst (rounds eigh eps n k (Some (A, fun _ _ => 0)))
         | _, None => None end) /\
      (found = true -> exists j, k = S j /\ (j < niter)%nat /\ ended N a t j /\ forall i, (i < j)%nat -> ~ ended N a t i) /\
      (found = false -> k = niter /\ forall j, (j < niter)%nat -> ~ ended N a t j).
  Proof.
    intro L. induction niter as [|m IH].
    - destruct (nearcorr_spec eigh eps n Hn N a (Some t) 0 L) as (b & f & k & E & Sb & K & _ & V & F & _).
      assert (k = 0%nat) by lia. subst k. assert (f = false) by (destruct f; [destruct (proj1 F eq_refl) as (j & K' & _); discriminate|reflexivity]).
      subst f. exists b, false, 0%nat. split; [exact E|]. split; [exact Sb|]. split; [exact V|]. split; [discriminate|]. intros _. split; [reflexivity|].
      intros j Hj. lia.
    - destruct IH as (b & found & k & E & Sb & V & Ft & Ff). destruct found.
      + exists b, true, k. split; [apply (nearcorr_more _ _ _ _ _ _ m); [exact E|lia]|]. split; [exact Sb|]. split; [exact V|].
        split; [|discriminate]. intros _. destruct (Ft eq_refl) as (j & Ek & Hj & H). exists j. split; [exact Ek|]. split; [lia|exact H].
      + destruct (Ff eq_refl) as [_ Not]. clear b E Sb V Ft Ff k.
        destruct (nearcorr_spec eigh eps n Hn N a (Some t) (S m) L) as (b & f & k & E & Sb & K & _ & V & F & Nf).
        change (f = true <-> exists j, k = S j /\ ended N a t j) in F.
        assert (Ek : k = S m).
        { destruct f; [|auto]. destruct (proj1 F eq_refl) as (j & -> & Pj). destruct (Nat.eq_dec j m) as [->|]; [reflexivity|].
          exfalso. apply (Not j); [lia|exact Pj]. }
        subst k. exists b, f, (S m). split; [exact E|]. split; [exact Sb|]. split; [exact V|]. split.
        * intros ->. destruct (proj1 F eq_refl) as (j & [= <-] & Pj). exists m. split; [reflexivity|]. split; [lia|]. split; [exact Pj|exact Not].
        * intros ->. split; [reflexivity|]. intros j Hj Pj. destruct (Nat.eq_dec j m) as [->|].
          -- enough (false = true) by discriminate. apply F. exists m. auto.
          -- apply (Not j); [lia|exact Pj].
  Qed.
End First.

(** C16, C72 *)
Section Converges.
  Variable eigh : nat -> mat -> (nat -> R) * mat.
  Variable eps : R.
  Variable n : nat.
  Hypothesis Hn : (0 < n)%nat.
  Hypothesis eigh_ok : forall A, symmetric n A -> eigensystem n A (fst (eigh n A)) (snd (eigh n A)).
  Hypothesis eps_ok : 0 <= INR n * eps <= 1.

  (** With a tolerance that is not tiny compared to the machine precision the loop ends without warning, after a number
      of rounds that is bounded in terms of the distance of the matrix to any correlation matrix [C].  The result is
      close to a positive semi-definite matrix [X] that is, up to an error proportional to that closeness, as near to the
      input as any correlation matrix [C'], and nearer still to those that are as near. *)
  Theorem nearcorr_converges a A C m t niter : ashape a = [] -> aget a [] = Some A -> symmetric n A ->
    (exists x, normsq n x = 1 /\ 0 <= quad n A x) ->
    unit_diag n C -> positive_semidefinite n C -> at_most n m C ->
    0 < t -> 4 * (INR n * eps * (sqrt (distance n A C) + m)) <= t -> 8 / 3 * distance n A C < INR niter * (INR n * t ^ 2) ->
    exists b B X, nearcorr eigh eps n n a (Some t) niter = Ok (b, true) /\ aget b [] = Some B /\ unit_diag n B /\ symmetric n B /\
      symmetric n X /\ positive_semidefinite n X /\ distance n B X <= (3 / 2 * t) ^ 2 * distance n B (fun _ _ => 0) /\
      forall C', unit_diag n C' -> positive_semidefinite n C' ->
        distance n A X + distance n X C' <= distance n A C' + 2 * (distance n A (fun _ _ => 0) + 2 * (INR n + 1)) * sqrt (distance n B X).
  Proof.
    intros Sa EA Sy Up UC PC MC Ht HT HK.
    assert (L : leading 1 (ashape a)) by (right; auto).
    destruct (nearcorr_first eigh eps n Hn 1 a t niter L) as (b & found & k & E & Sb & V & Ft & Ff).
    assert (El : element a 0 = Some A) by (unfold element; rewrite Sa; exact EA).
    set (X := Xk eigh eps n A). set (P := Pk eigh eps n A).
    assert (Big : forall j, ~ ended eigh eps n 1 a t j -> INR n * t ^ 2 <= gap n (X j)).
    { intros j Nj. apply (gap_large n t (X j)); [lra|]. intro K. apply Nj. intros i Hi. assert (i = 0%nat) by lia. subst i.
      destruct (round_k eigh eps n Hn eigh_ok eps_ok A Sy Up j) as (Y & D & Er & ER & _).
      destruct (clip_k eigh eps n Hn eigh_ok eps_ok A Sy Up j) as (EX & _). rewrite ER in EX. exists A, Y, D, (X j). auto. }
    destruct found.
    2:{ exfalso. destruct (Ff eq_refl) as [_ Not].
        pose proof (loop_rounds eigh eps n Hn eigh_ok eps_ok A Sy Up C m t niter UC PC MC ltac:(lra) HT ltac:(intros j Hj; apply Big, Not; exact Hj)). lra. }
    destruct (Ft eq_refl) as (j & -> & Hj & Pj & Not).
    specialize (V 0%nat ltac:(lia)). rewrite El in V. pose proof (round_value eigh eps n Hn eigh_ok eps_ok A Sy Up j) as RV. unfold start in RV. rewrite RV in V.
    unfold element in V. rewrite Sb, Sa in V. exists b, (unit_diagonal (X j)), (P j). split; [exact E|]. split; [exact V|].
    split; [apply unit_unit|].
    destruct (clip_k eigh eps n Hn eigh_ok eps_ok A Sy Up j) as (EX & SX & SP & PP & _ & _ & DX). fold (X j) in *. fold (P j) in *.
    split; [apply unit_symmetric; exact SX|]. split; [exact SP|]. split; [exact PP|].
    assert (Nr : forall C', unit_diag n C' -> positive_semidefinite n C' -> 4 * (INR n * eps * lk eigh eps n A j) <= t /\
      distance n A (P j) + distance n (P j) C' <= distance n A C' + 2 * (distance n A (fun _ _ => 0) + 2 * (INR n + 1)) * sqrt (gap n (P j))).
    { intros C' UC' PC'. apply (loop_nearly eigh eps n Hn eigh_ok eps_ok A Sy Up C m t j C'); try assumption; [lra|]. intros i Hi. apply Big, Not. exact Hi. }
    split.
    - destruct (Nr C UC PC) as [Hl _]. destruct (round_k eigh eps n Hn eigh_ok eps_ok A Sy Up j) as (Y & D & Er & ER & _ & Hl0 & _).
      pose proof (distance_twice n (unit_diagonal (X j)) (X j) (P j)) as D2.
      set (u := distance n (unit_diagonal (X j)) (fun _ _ => 0)).
      assert (Eu : u = rsum n (fun i => rsum n (fun q => unit_diagonal (X j) i q ^ 2))).
      { apply rsum_ext. intros i _. apply rsum_ext. intros q _. ring. }
      pose proof (frob_unit n (X j)) as U. rewrite <- Eu in U. pose proof (pos_INR n) as Pn.
      assert (D1 : distance n (unit_diagonal (X j)) (X j) <= t ^ 2 * u).
      { destruct (Pj 0%nat ltac:(lia)) as (A' & Y' & D' & X' & EA' & Er' & EX' & Le). rewrite El in EA'. injection EA' as <-.
        unfold start in Er. rewrite Er in Er'. injection Er' as <- <-. rewrite <- ER, EX in EX'. injection EX' as <-.
        unfold frob in Le. rewrite <- Eu in Le.
        change (rsum n (fun i => rsum n (fun j0 => minus (unit_diagonal (X j)) (X j) i j0 ^ 2))) with (distance n (unit_diagonal (X j)) (X j)) in Le.
        assert (Dp : 0 <= distance n (unit_diagonal (X j)) (X j)) by (rewrite ip_distance; apply ip_nonneg).
        assert (Q : sqrt (distance n (unit_diagonal (X j)) (X j)) ^ 2 <= (t * sqrt u) ^ 2) by (apply pow_incr; split; [apply sqrt_pos|exact Le]).
        replace ((t * sqrt u) ^ 2) with (t ^ 2 * (sqrt u * sqrt u)) in Q by ring.
        replace (sqrt (distance n (unit_diagonal (X j)) (X j)) ^ 2) with (sqrt (distance n (unit_diagonal (X j)) (X j)) * sqrt (distance n (unit_diagonal (X j)) (X j))) in Q by ring.
        rewrite !sqrt_sqrt in Q by lra. exact Q. }
      assert (Q : (INR n * eps * lk eigh eps n A j) ^ 2 <= (t / 4) ^ 2).
      { apply pow_incr. split; [apply Rmult_le_pos; [apply eps_ok|exact Hl0]|lra]. }
      assert (Q' : INR n * (INR n * eps * lk eigh eps n A j) ^ 2 <= u * (t / 4) ^ 2).
      { apply Rmult_le_compat; [exact Pn|apply pow2_ge_0|exact U|exact Q]. }
      nra.
    - intros C' UC' PC'. destruct (Nr C' UC' PC') as [_ H]. eapply Rle_trans; [exact H|]. apply Rplus_le_compat_l.
      apply Rmult_le_compat_l; [|apply sqrt_le_1_alt, gap_distance].
      pose proof (pos_INR n). assert (0 <= distance n A (fun _ _ => 0)) by (rewrite ip_distance; apply ip_nonneg). lra.
  Qed.

  (** In exact arithmetic the loop ends for stacks of matrices, too, whatever the tolerance. *)
  Theorem nearcorr_converges_exact N a (A C : nat -> mat) t niter : eps = 0 -> ashape a = [N] ->
    (forall i, (i < N)%nat -> aget a [i] = Some (A i) /\ symmetric n (A i) /\ (exists x, normsq n x = 1 /\ 0 <= quad n (A i) x) /\
       unit_diag n (C i) /\ positive_semidefinite n (C i)) ->
    0 < t -> 2 * rsum N (fun i => distance n (A i) (C i)) < INR niter * (INR n * t ^ 2) ->
    exists b, nearcorr eigh eps n n a (Some t) niter = Ok (b, true) /\ ashape b = [N].
  Proof.
    intros E0 Sa HA Ht HK. assert (L : leading N (ashape a)) by (left; exact Sa).
    destruct (nearcorr_first eigh eps n Hn N a t niter L) as (b & found & k & E & Sb & _ & _ & Ff).
    exists b. rewrite Sb. split; [|exact Sa]. rewrite E. do 2 f_equal. destruct found; [reflexivity|]. exfalso. destruct (Ff eq_refl) as [_ Not].
    set (X := fun i => Xk eigh eps n (A i)).
    assert (El : forall i, (i < N)%nat -> element a i = Some (A i)).
    { intros i Hi. unfold element. rewrite Sa. apply HA. exact Hi. }
    assert (G : forall i j, 0 <= gap n (X i j)) by (intros; apply rsum_nonneg; intros; apply pow2_ge_0).
    assert (Big : forall j, (j < niter)%nat -> INR n * t ^ 2 <= rsum N (fun i => gap n (X i j))).
    { intros j Hj. apply Rnot_lt_le. intro K. apply (Not j Hj). intros i Hi. destruct (HA i Hi) as (_ & Sy & Up & _).
      destruct (round_k eigh eps n Hn eigh_ok eps_ok (A i) Sy Up j) as (Y & D & Er & ER & _).
      destruct (clip_k eigh eps n Hn eigh_ok eps_ok (A i) Sy Up j) as (EX & _). rewrite ER in EX.
      exists (A i), Y, D, (X i j). split; [apply El; exact Hi|]. split; [exact Er|]. split; [exact EX|].
      apply Rnot_lt_le. intro M. pose proof (gap_large n t (X i j) ltac:(lra) ltac:(lra)) as Lg.
      assert (gap n (X i j) <= rsum N (fun i => gap n (X i j))).
      { eapply Rle_trans; [|apply (rsum_le N (fun q => (if (q =? i)%nat then 1 else 0) * gap n (X q j)))].
        - rewrite (rsum_if N i (fun q => gap n (X q j))) by exact Hi. apply Rle_refl.
        - intros q _. pose proof (G q j). destruct (q =? i)%nat; lra. }
      lra. }
    assert (S1 : INR niter * (INR n * t ^ 2) <= rsum niter (fun j => rsum N (fun i => gap n (X i j)))) by (rewrite <- rsum_const; apply rsum_le; exact Big).
    assert (S2 : rsum N (fun i => rsum niter (fun j => gap n (X i j))) <= 2 * rsum N (fun i => distance n (A i) (C i))).
    { rewrite <- rsum_scal. apply rsum_le. intros i Hi. destruct (HA i Hi) as (_ & Sy & Up & UC & PC).
      apply (loop_exact eigh eps n Hn eigh_ok eps_ok (A i) Sy Up (C i) niter E0 UC PC). }
    rewrite rsum_swap in S1. lra.
  Qed.
End Converges.
Print Assumptions nearcorr_converges.
Print Assumptions nearcorr_converges_exact.

(** Ones on the diagonal and twos elsewhere, in double precision, with a tolerance of one fifth: one hundred iterations
    are enough. *)
Example nearcorr_converges_example : exists b B, nearcorr eigh2 (/ 2 ^ 52) 2 2
    {| ashape := []; aget := fun _ => Some (fun i j => if (i =? j)%nat then 1 else 2) |} (Some (1 / 5)) 100 = Ok (b, true) /\
  aget b [] = Some B /\ unit_diag 2 B /\ symmetric 2 B.
Proof.
  set (A := fun i j : nat => if (i =? j)%nat then 1 else 2).
  assert (E : 0 < / 2 ^ 52 < / 1000).
  { split; [apply Rinv_0_lt_compat, pow_lt; lra|]. apply Rinv_lt_contravar; [apply Rmult_lt_0_compat; [lra|apply pow_lt; lra]|]. lra. }
  assert (D : distance 2 A (fun _ _ => 1) = 2) by (unfold distance, A; cbn; ring).
  destruct (nearcorr_converges eigh2 (/ 2 ^ 52) 2 ltac:(lia) eigh2_ok ltac:(cbn [INR]; lra) {| ashape := []; aget := fun _ => Some A |} A (fun _ _ => 1) 2 (1 / 5) 100)
    as (b & B & X & N & V & U & Sy & _); try reflexivity.
  - intros i j _ _. unfold A. rewrite Nat.eqb_sym. reflexivity.
  - exists (fun i => if (i =? 0)%nat then 1 else 0). unfold normsq, quad, A. cbn. lra.
  - intros i _. reflexivity.
  - intro x. unfold quad. cbn. pose proof (pow2_ge_0 (x 0%nat + x 1%nat)). lra.
  - intro x. unfold quad, normsq. cbn. pose proof (pow2_ge_0 (x 0%nat - x 1%nat)). lra.
  - lra.
  - rewrite D. pose proof (sqrt_sqrt 2 ltac:(lra)). assert (sqrt 2 < 2) by (pose proof (sqrt_pos 2); nra). cbn [INR]. nra.
  - rewrite D. replace (INR 100) with 100 by (rewrite INR_IZR_INZ; reflexivity). cbn [INR]. lra.
  - exists b, B. auto.
Qed.

(** C17, C72 *)

(** The same for covariance matrices with positive variances, in terms of the correlation matrix [K]: the result has the
    variances of the input, and there is no warning. *)
Theorem cov_nearest_converges eigh eps n cov A K C m t niter : (0 < n)%nat ->
  (forall M, symmetric n M -> eigensystem n M (fst (eigh n M)) (snd (eigh n M))) -> 0 <= INR n * eps <= 1 ->
  ashape cov = [] -> aget cov [] = Some A -> symmetric n A -> (forall i, (i < n)%nat -> 0 < A i i) ->
  (forall i j, (i < n)%nat -> (j < n)%nat -> K i j * (sqrt (A i i) * sqrt (A j j)) = A i j) ->
  unit_diag n C -> positive_semidefinite n C -> at_most n m C ->
  0 < t -> 4 * (INR n * eps * (sqrt (distance n K C) + m)) <= t -> 8 / 3 * distance n K C < INR niter * (INR n * t ^ 2) ->
  exists b B Y X, cov_nearest eigh eps n cov (Some t) niter = Ok (b, true) /\ aget b [] = Some B /\ symmetric n B /\
    (forall i, (i < n)%nat -> B i i = A i i) /\
    (forall i j, (i < n)%nat -> (j < n)%nat -> B i j = Y i j * (sqrt (A i i) * sqrt (A j j))) /\
    symmetric n X /\ positive_semidefinite n X /\ distance n Y X <= (3 / 2 * t) ^ 2 * distance n Y (fun _ _ => 0) /\
    forall C', unit_diag n C' -> positive_semidefinite n C' ->
      distance n K X + distance n X C' <= distance n K C' + 2 * (distance n K (fun _ _ => 0) + 2 * (INR n + 1)) * sqrt (distance n Y X).
Proof.
  intros Hn eigh_ok eps_ok Sc EA Sy HV HK UC PC MC Ht HT HN.
  assert (In : inside (ashape cov) []) by (rewrite Sc; constructor).
  set (norm := fun (A : mat) (i j : nat) => sqrt (A j j) * sqrt (A i i)).
  set (cr := fun (A : mat) (i j : nat) => A i j / (if ltb 0 (norm A i j) then norm A i j else 1)).
  set (corr := elementwise (fun A => Some (cr A)) cov).
  assert (P : forall i, (i < n)%nat -> 0 < sqrt (A i i)) by (intros i Hi; apply sqrt_lt_R0, HV; exact Hi).
  assert (SK : same n (cr A) K).
  { intros i j Hi Hj. unfold cr. assert (Pn : 0 < norm A i j) by (apply Rmult_lt_0_compat; apply P; assumption).
    rewrite (proj2 (ltb_iff 0 (norm A i j)) Pn). rewrite <- (HK i j Hi Hj) at 1. unfold norm in *. field.
    pose proof (P i Hi). pose proof (P j Hj). split; lra. }
  assert (DK : forall M, distance n (cr A) M = distance n K M).
  { intro M. apply rsum_ext. intros i Hi. apply rsum_ext. intros j Hj. rewrite (SK i j Hi Hj). reflexivity. }
  assert (SyK : symmetric n (cr A)).
  { intros i j Hi Hj. rewrite (SK i j Hi Hj), (SK j i Hj Hi). pose proof (HK i j Hi Hj) as H1. pose proof (HK j i Hj Hi) as H2.
    pose proof (P i Hi). pose proof (P j Hj). rewrite (Sy i j Hi Hj), <- H2 in H1.
    apply (Rmult_eq_reg_r (sqrt (A i i) * sqrt (A j j))); [lra|]. apply Rgt_not_eq, Rmult_lt_0_compat; assumption. }
  destruct (nearcorr_converges eigh eps n Hn eigh_ok eps_ok corr (cr A) C m t niter) as (y & Y & X & N & VY & UY & SY & SX & PX & DX & Near); try assumption.
  - unfold corr. cbn [elementwise aget]. rewrite EA. reflexivity.
  - exists (fun k => if (k =? 0)%nat then 1 else 0). rewrite unit_vector, quad_unit by exact Hn. split; [reflexivity|].
    rewrite (SK 0%nat 0%nat Hn Hn). pose proof (HK 0%nat 0%nat Hn Hn) as H. pose proof (HV 0%nat Hn). pose proof (P 0%nat Hn).
    rewrite sqrt_sqrt in H by lra. nra.
  - rewrite DK. exact HT.
  - rewrite DK. exact HN.
  - assert (Sy' : ashape y = ashape cov).
    { destruct (nearcorr_spec eigh eps n Hn 1 corr (Some t) niter ltac:(right; auto)) as (y' & f & k & E & Sb & _). rewrite N in E. injection E as <- <-. exact Sb. }
    destruct (cov_nearest_spec eigh eps n cov (Some t) niter ltac:(rewrite Sc; cbn; lia)) with (y := y) (found := true) as (b & Eb & Sb & Vb); try assumption.
    { intros k M Ik EM i Hi. rewrite Sc in Ik. apply ndindex_In in Ik. destruct Ik as [<-|[]]. rewrite EA in EM. injection EM as <-. apply Rlt_le, HV. exact Hi. }
    specialize (Vb [] In). rewrite VY, EA in Vb.
    exists b, (fun i j => Y i j * (sqrt (A j j) * sqrt (A i i))), Y, X. split; [exact Eb|]. split; [exact Vb|]. split; [|split; [|split; [|split; [exact SX|split; [exact PX|split; [exact DX|]]]]]].
    + intros i j Hi Hj. rewrite (SY i j Hi Hj). ring.
    + intros i Hi. rewrite (UY i Hi), sqrt_sqrt by (apply Rlt_le, HV; exact Hi). ring.
    + intros i j _ _. ring.
    + intros C' UC' PC'. specialize (Near C' UC' PC'). rewrite !DK in Near. exact Near.
Qed.
Print Assumptions cov_nearest_converges.

(** Variances four and one with a covariance of four, more than the largest possible, two. *)
Example cov_nearest_converges_example : exists b B, cov_nearest eigh2 (/ 2 ^ 52) 2
    {| ashape := []; aget := fun _ => Some (fun i j => if (i =? j)%nat then (if (i =? 0)%nat then 4 else 1) else 4) |} (Some (1 / 5)) 100 = Ok (b, true) /\
  aget b [] = Some B /\ B 0%nat 0%nat = 4 /\ B 1%nat 1%nat = 1.
Proof.
  set (A := fun i j : nat => if (i =? j)%nat then (if (i =? 0)%nat then 4 else 1) else 4).
  set (K := fun i j : nat => if (i =? j)%nat then 1 else 2).
  assert (E : 0 < / 2 ^ 52 < / 1000).
  { split; [apply Rinv_0_lt_compat, pow_lt; lra|]. apply Rinv_lt_contravar; [apply Rmult_lt_0_compat; [lra|apply pow_lt; lra]|]. lra. }
  assert (D : distance 2 K (fun _ _ => 1) = 2) by (unfold distance, K; cbn; ring).
  assert (S4 : sqrt 4 = 2) by (replace 4 with (2 * 2) by ring; apply sqrt_square; lra).
  assert (Two : forall i, (i < 2)%nat -> i = 0%nat \/ i = 1%nat) by (intros; lia).
  destruct (cov_nearest_converges eigh2 (/ 2 ^ 52) 2 {| ashape := []; aget := fun _ => Some A |} A K (fun _ _ => 1) 2 (1 / 5) 100 ltac:(lia) eigh2_ok ltac:(cbn [INR]; lra))
    as (b & B & Y & X & N & V & _ & Dg & _); try reflexivity.
  - intros i j _ _. unfold A. rewrite (Nat.eqb_sym j i). destruct (Nat.eqb_spec i j) as [->|_]; reflexivity.
  - intros i Hi. destruct (Two i Hi) as [->| ->]; cbn; lra.
  - intros i j Hi Hj. destruct (Two i Hi) as [->| ->], (Two j Hj) as [->| ->]; cbn; rewrite ?S4, ?sqrt_1; ring.
  - intros i _. reflexivity.
  - intro x. unfold quad. cbn. pose proof (pow2_ge_0 (x 0%nat + x 1%nat)). lra.
  - intro x. unfold quad, normsq. cbn. pose proof (pow2_ge_0 (x 0%nat - x 1%nat)). lra.
  - lra.
  - rewrite D. pose proof (sqrt_sqrt 2 ltac:(lra)). assert (sqrt 2 < 2) by (pose proof (sqrt_pos 2); nra). cbn [INR]. nra.
  - rewrite D. replace (INR 100) with 100 by (rewrite INR_IZR_INZ; reflexivity). cbn [INR]. lra.
  - exists b, B. split; [exact N|]. split; [exact V|]. rewrite (Dg 0%nat), (Dg 1%nat) by lia. split; reflexivity.
Qed.
