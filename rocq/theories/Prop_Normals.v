(** Claims about the random numbers of the sampler, with expected values as integrals (C09, C22, C76). *)
From Coq Require Import Reals Lra Lia List.
From Verif Require Import RSum Model_Spectra Model_Fields Model_Iternorm Spec_Iternorm Proof_Iternorm Prop_Iternorm.
From Verif Require Import Model_Numeric Model_Transform Spec_Transform Spec_Gauss Proof_Gauss Proof_Normals Prop_Transform.
Import ListNotations.
Local Open Scope R_scope.

(** C09, C76 *)

(** Linear combinations of independent standard normal numbers are normal: moments and exponentials of two of them are
    those of jointly normal numbers with the covariances of the combinations, and expected values are unique. *)
Theorem combinations_jointly_normal n a b :
  jointly_normal (fun f m => means n (fun u => f (combination n a u) (combination n b u)) m)
    (covariance n a a) (covariance n b b) (covariance n a b) /\
  (forall f m m', means n f m -> means n f m' -> m = m').
Proof. split; [apply combinations_normal|apply means_unique]. Qed.
Print Assumptions combinations_jointly_normal.

(** The draws of the sampler for definite covariance matrices, or where nothing varies, are jointly normal with that covariance: the expected
    value of the exponential of any combination of them, which determines the distribution, is that of the normal
    distribution. *)
Theorem iternorm_normal N n c rows : (0 < N)%nat -> length rows = N -> (forall l, (l < n)%nat -> definite N (c l) \/ absent N (c l)) ->
  (forall i row, nth_error rows i = Some row ->
     lead row = n /\ width row = N /\ forall l f, (l < n)%nat -> (f <= i)%nat -> el row l (i - f) = c l i f) ->
  exists ws, iternorm (rows, None) = (ws, None) /\ length ws = N /\
    forall l t, (l < n)%nat ->
      means N (fun u => exp (rsum N (fun i => t i * combination N (coefficient (N - 1) (el (nth i ws empty_stack) l) i) u)))
        (exp (quadratic N (c l) t / 2)).
Proof.
  intros HN Hlen Hdef Hrows.
  destruct (iternorm_definite_or_absent N n c rows HN Hlen Hdef Hrows) as (ws & E & Hl & _ & Hc).
  exists ws. split; [exact E|]. split; [exact Hl|]. intros l t Hln.
  set (a := fun i => coefficient (N - 1) (el (nth i ws empty_stack) l) i).
  assert (C : forall i j, (i < N)%nat -> (j < N)%nat -> covariance N (a i) (a j) = c l i j).
  { intros i j Hi Hj. destruct (Hc i j Hi Hj) as (wi & wj & Ei & Ej & H). unfold a.
    rewrite (nth_error_nth _ _ _ Ei), (nth_error_nth _ _ _ Ej). apply H. exact Hln. }
  eapply means_eq; [apply (combination_exp N (fun q => rsum N (fun i => t i * a i q)))| |].
  - intro u. cbn beta. apply f_equal. unfold combination.
    transitivity (rsum N (fun q => rsum N (fun i => t i * (a i q * nth q u 0)))).
    + apply rsum_ext. intros q _. rewrite <- rsum_scal_r. apply rsum_ext. intros. ring.
    + rewrite rsum_swap. apply rsum_ext. intros i _. rewrite rsum_scal. reflexivity.
  - apply f_equal. f_equal. unfold quadratic, covariance.
    transitivity (rsum N (fun q => rsum N (fun i => rsum N (fun j => t i * (a i q * a j q) * t j)))).
    + apply rsum_ext. intros q _. rewrite <- rsum_scal_r. apply rsum_ext. intros i _. rewrite <- rsum_scal. apply rsum_ext. intros. ring.
    + rewrite rsum_swap. apply rsum_ext. intros i Hi. rewrite rsum_swap. apply rsum_ext. intros j Hj.
      rewrite rsum_scal_r, rsum_scal. rewrite <- (C i j Hi Hj). reflexivity.
Qed.
Print Assumptions iternorm_normal.

(** C09, C22, C76 *)

(** Two transformed draws of the sampler have the expected product that [corr] says, and the expected values zero. *)
Theorem iternorm_transformed N n c rows t1 t2 f l i j : (0 < N)%nat -> length rows = N -> (forall l, (l < n)%nat -> definite N (c l) \/ absent N (c l)) ->
  (forall i row, nth_error rows i = Some row ->
     lead row = n /\ width row = N /\ forall l f, (l < n)%nat -> (f <= i)%nat -> el row l (i - f) = c l i f) ->
  (l < n)%nat -> (i < N)%nat -> (j < N)%nat ->
  variance t1 (c l i i) -> variance t2 (c l j j) -> corr t1 t2 = Ok f ->
  exists ws wi wj z, iternorm (rows, None) = (ws, None) /\ nth_error ws i = Some wi /\ nth_error ws j = Some wj /\ f (c l i j) = Some z /\
    let x u := call t1 (combination N (coefficient (N - 1) (el wi l) i) u) (c l i i) in
    let y u := call t2 (combination N (coefficient (N - 1) (el wj l) j) u) (c l j j) in
    means N (fun u => x u * y u) z /\ means N x 0 /\ means N y 0.
Proof.
  intros HN Hlen Hdef Hrows Hl Hi Hj V1 V2 Hc.
  destruct (iternorm_definite_or_absent N n c rows HN Hlen Hdef Hrows) as (ws & E & _ & _ & C).
  destruct (C i j Hi Hj) as (wi & wj & Ei & Ej & Cij). specialize (Cij l Hl).
  destruct (C i i Hi Hi) as (wi' & wi'' & Ei' & Ei'' & Cii). specialize (Cii l Hl).
  destruct (C j j Hj Hj) as (wj' & wj'' & Ej' & Ej'' & Cjj). specialize (Cjj l Hl).
  assert (wi' = wi) as -> by congruence. assert (wi'' = wi) as -> by congruence.
  assert (wj' = wj) as -> by congruence. assert (wj'' = wj) as -> by congruence.
  pose proof (combinations_normal N (coefficient (N - 1) (el wi l) i) (coefficient (N - 1) (el wj l) j)) as J.
  rewrite Cii, Cjj, Cij in J.
  destruct (corr_expectation _ t1 t2 _ _ _ f J V1 V2 Hc) as (z & Ez & Ep & E1 & E2).
  exists ws, wi, wj, z. split; [exact E|]. split; [exact Ei|]. split; [exact Ej|]. split; [exact Ez|]. cbn zeta. split; [exact Ep|]. split; [exact E1|exact E2].
Qed.
Print Assumptions iternorm_transformed.

(** The sum of two standard normal numbers; the expected value of its exponential, and of its product with one of the
    two. *)
Example means_example :
  means 2 (fun u => exp (combination 2 (fun _ => 1) u)) (exp 1) /\
  means 2 (fun u => combination 2 (fun _ => 1) u * combination 2 (fun q => if (q =? 0)%nat then 1 else 0) u) 1.
Proof.
  split.
  - eapply means_eq; [apply combination_exp|reflexivity|]. apply f_equal. unfold covariance. cbn [rsum]. field.
  - eapply means_eq; [apply (expects_xy _ _ _ _ (combinations_normal 2 (fun _ => 1) (fun q => if (q =? 0)%nat then 1 else 0)))|reflexivity|].
    unfold covariance. cbn [rsum Nat.eqb]. ring.
Qed.

(** Two draws with variance two and covariance one: the expected values of the exponential of their sum, and of the
    product of their lognormal transformations. *)
Example iternorm_normal_example :
  let c := fun l i j : nat => if (i =? j)%nat then 2 else INR l in
  let rows := map (fun i => {| lead := 2; width := 2; el := fun l d => c l i (i - d)%nat |}) [0; 1]%nat in
  exists ws wi wj z, iternorm (rows, None) = (ws, None) /\ nth_error ws 0 = Some wi /\ nth_error ws 1 = Some wj /\
    means 2 (fun u => exp (combination 2 (coefficient 1 (el wi 1%nat) 0) u + combination 2 (coefficient 1 (el wj 1%nat) 1) u)) (exp 3) /\
    z = exp 1 - 1 /\
    means 2 (fun u => call (Lognormal 1) (combination 2 (coefficient 1 (el wi 1%nat) 0) u) 2 * call (Lognormal 1) (combination 2 (coefficient 1 (el wj 1%nat) 1) u) 2) z.
Proof.
  intros c rows. destruct iternorm_definite_example as (D & W). fold c in D, W. fold rows in W.
  destruct (iternorm_normal 2 2 c rows ltac:(lia) eq_refl (fun l H => or_introl (D l H)) W) as (ws & E & L & M).
  destruct (iternorm_transformed 2 2 c rows (Lognormal 1) (Lognormal 1) _ 1 0 1 ltac:(lia) eq_refl (fun l H => or_introl (D l H)) W ltac:(lia) ltac:(lia) ltac:(lia) I I eq_refl)
    as (ws' & wi & wj & z & E' & Ei & Ej & Ez & T). rewrite E in E'. injection E' as <-. cbn zeta in T. destruct T as (T & _).
  exists ws, wi, wj, z. split; [exact E|]. split; [exact Ei|]. split; [exact Ej|].
  specialize (M 1%nat (fun _ => 1) ltac:(lia)). split; [|split].
  - eapply means_eq; [exact M| |].
    + intro u. cbn beta. apply f_equal. cbn [rsum Nat.sub]. rewrite (nth_error_nth _ _ _ Ei), (nth_error_nth _ _ _ Ej). ring.
    + apply f_equal. unfold quadratic, c. cbn [rsum Nat.eqb INR]. field.
  - cbn in Ez. injection Ez as <-. unfold c. cbn. ring.
  - exact T.
Qed.
