(** Claims about transformations of Gaussian fields (C22, C23). *)
From Coq Require Import Reals Lra Psatz.
From Verif Require Import Base Model_Numeric Model_Transform Spec_Transform.
Local Open Scope R_scope.

(** C23 *)

(** Which pairs can be combined, in either order: two squared normal fields, or none. *)
Theorem dispatch_total t1 t2 :
  (supported t1 t2 -> exists c i d, corr t1 t2 = Ok c /\ icorr t1 t2 = Ok i /\ dcorr t1 t2 = Ok d) /\
  (~ supported t1 t2 ->
   corr t1 t2 = Err NotImplementedError /\ icorr t1 t2 = Err NotImplementedError /\ dcorr t1 t2 = Err NotImplementedError).
Proof.
  destruct t1, t2; cbn; split; intro H; try contradiction; try (exfalso; apply H; exact I);
    try (eexists; eexists; eexists; repeat split); auto.
Qed.
Print Assumptions dispatch_total.

Example dispatch_total_example : supported Normal (Lognormal 2) /\ ~ supported (Lognormal 1) (SquaredNormal 0 1).
Proof. cbn. tauto. Qed.

(** Dispatch for any methods: a result comes from the first method if it is implemented, and otherwise from the second. *)
Theorem dispatch_order {T F} (method : T -> T -> option F) t1 t2 :
  (forall f, method t1 t2 = Some f -> dispatch method t1 t2 = Ok f) /\
  (forall f, method t1 t2 = None -> method t2 t1 = Some f -> dispatch method t1 t2 = Ok f) /\
  (dispatch method t1 t2 = Err NotImplementedError <-> method t1 t2 = None /\ method t2 t1 = None).
Proof.
  unfold dispatch. repeat split.
  - intros f ->. reflexivity.
  - intros f -> ->. reflexivity.
  - destruct (method t1 t2); [discriminate|reflexivity].
  - destruct (method t1 t2); [discriminate|]. destruct (method t2 t1); [discriminate|reflexivity].
  - intros [-> ->]. reflexivity.
Qed.
Print Assumptions dispatch_order.

(** Fields stay above minus their scale. *)
Theorem transformed_bounds x v :
  call Normal x v = x /\
  (forall l, 0 < l -> - l < call (Lognormal l) x v) /\
  (forall a l, 0 <= l -> - l <= call (SquaredNormal a l) x v) /\
  (forall a l, 0 < l -> (call (SquaredNormal a l) x v = - l <-> x = a)).
Proof.
  split; [reflexivity|]. split; [|split].
  - intros l H. unfold call. pose proof (exp_pos (x - v / 2)). destruct (Req_EM_T l 1) as [->|_]; nra.
  - intros a l H. unfold call. pose proof (pow2_ge_0 (x - a)). destruct (Req_EM_T l 1) as [->|_]; [lra|nra].
  - intros a l H. assert (E : call (SquaredNormal a l) x v = l * ((x - a) ^ 2 - 1)).
    { unfold call. destruct (Req_EM_T l 1) as [->|_]; ring. }
    rewrite E. split.
    + intro K. assert (K2 : l * (x - a) ^ 2 = 0) by lra. apply Rmult_integral in K2. destruct K2 as [K2|K2]; [lra|].
      replace ((x - a) ^ 2) with ((x - a) * (x - a)) in K2 by ring. apply Rmult_integral in K2. lra.
    + intros ->. ring.
Qed.
Print Assumptions transformed_bounds.

Example transformed_bounds_example : call (Lognormal 2) (1 / 2) 1 = 0 /\ call (SquaredNormal (1 / 2) 3) (3 / 2) (3 / 4) = 0.
Proof.
  unfold call. destruct (Req_EM_T 2 1) as [K|_]; [lra|]. destruct (Req_EM_T 3 1) as [K|_]; [lra|].
  replace (1 / 2 - 1 / 2) with 0 by ring. rewrite exp_0. split; field.
Qed.

(** C22 *)

Ltac unpack H := cbn in H; injection H as <-.

(** The inverse undoes the transformation wherever that is one-to-one. *)
Theorem corr_inverse t1 t2 c i x : proper t1 -> proper t2 ->
  corr t1 t2 = Ok c -> icorr t1 t2 = Ok i -> invertible_at t1 t2 x -> exists y, c x = Some y /\ i y = Some x.
Proof.
  intros P1 P2 C I V. destruct t1 as [|l|a l], t2 as [|l'|a' l']; cbn in C, I; try discriminate; injection C as <-; injection I as <-;
    cbn [proper invertible_at] in *; eexists; (split; [reflexivity|]); unfold divide, nbind, log1p, root.
  - reflexivity.
  - destruct (Req_EM_T l' 0) as [Z|_]; [lra|]. f_equal. field. lra.
  - destruct (Req_EM_T l 0) as [Z|_]; [lra|]. f_equal. field. lra.
  - assert (0 < l * l') by (apply Rmult_lt_0_compat; assumption).
    destruct (Req_EM_T (l * l') 0) as [Z|_]; [lra|].
    replace (l * l' * (exp x - 1) / (l * l')) with (exp x - 1) by (field; split; lra).
    pose proof (exp_pos x). destruct (Rle_dec (exp x - 1) (-1)) as [L|_]; [lra|].
    f_equal. replace (1 + (exp x - 1)) with (exp x) by ring. apply ln_exp.
  - destruct P1 as [A1 L1], P2 as [A2 L2]. assert (0 < l * l') by (apply Rmult_lt_0_compat; assumption).
    assert (0 <= a * a') by (apply Rmult_le_pos; assumption).
    destruct (Req_EM_T (2 * (l * l')) 0) as [Z|_]; [lra|].
    match goal with |- context [Rlt_dec ?u 0] => replace u with ((x + a * a') * (x + a * a')) by (field; split; lra) end.
    destruct (Rlt_dec ((x + a * a') * (x + a * a')) 0) as [L|_]; [nra|].
    rewrite sqrt_square by lra. f_equal. ring.
Qed.
Print Assumptions corr_inverse.

(** The transformation undoes the inverse, which exists exactly for the correlations that are attained. *)
Theorem inverse_corr t1 t2 c i y : proper t1 -> proper t2 ->
  corr t1 t2 = Ok c -> icorr t1 t2 = Ok i ->
  (forall x, i y = Some x -> c x = Some y /\ invertible_at t1 t2 x) /\
  (attained t1 t2 y <-> i y <> None) /\
  (attained t1 t2 y <-> exists x, c x = Some y).
Proof.
  intros P1 P2 C I.
  assert (G : (forall x, i y = Some x -> c x = Some y /\ invertible_at t1 t2 x) /\ (attained t1 t2 y <-> i y <> None) /\
    ((exists x, c x = Some y) -> attained t1 t2 y)).
  { destruct t1 as [|l|a l], t2 as [|l'|a' l']; cbn in C, I; try discriminate; injection C as <-; injection I as <-;
      cbn [proper invertible_at attained] in *; unfold divide, nbind, log1p, root.
    - split; [intros x [= ->]; split; [reflexivity|exact Logic.I]|]. split; [split; [discriminate|intros _; exact Logic.I]|intros _; exact Logic.I].
    - destruct (Req_EM_T l' 0) as [Z|_]; [lra|]. split; [intros x [= <-]; split; [f_equal; field; lra|exact Logic.I]|].
      split; [split; [discriminate|intros _; exact Logic.I]|intros _; exact Logic.I].
    - destruct (Req_EM_T l 0) as [Z|_]; [lra|]. split; [intros x [= <-]; split; [f_equal; field; lra|exact Logic.I]|].
      split; [split; [discriminate|intros _; exact Logic.I]|intros _; exact Logic.I].
    - assert (K : 0 < l * l') by (apply Rmult_lt_0_compat; assumption).
      destruct (Req_EM_T (l * l') 0) as [Z|_]; [lra|].
      assert (E : y / (l * l') * (l * l') = y) by (field; split; lra).
      destruct (Rle_dec (y / (l * l')) (-1)) as [L|L].
      + assert (y <= - (l * l')) by nra. split; [discriminate|]. split; [split; [intro; lra|congruence]|].
        intros (x & [= <-]). pose proof (exp_pos x). nra.
      + assert (- (l * l') < y) by nra. split; [|split; [split; [discriminate|auto]|auto]].
        intros x [= <-]. split; [|exact Logic.I]. rewrite exp_ln by lra. f_equal. lra.
    - destruct P1 as [A1 L1], P2 as [A2 L2]. assert (K : 0 < l * l') by (apply Rmult_lt_0_compat; assumption).
      assert (KA : 0 <= a * a') by (apply Rmult_le_pos; assumption).
      destruct (Req_EM_T (2 * (l * l')) 0) as [Z|_]; [lra|].
      assert (E : y / (2 * (l * l')) * (2 * (l * l')) = y) by (field; split; lra).
      change (a * a' * (a * a' * 1)) with ((a * a') ^ 2).
      set (A := a * a') in *. set (q := y / (2 * (l * l'))) in *.
      destruct (Rlt_dec (q + A ^ 2) 0) as [L|L]; cbv beta iota.
      + assert (y < - (2 * l * l' * A ^ 2)) by nra. split; [discriminate|]. split; [split; [intro; lra|congruence]|].
        intros (x & [= <-]). pose proof (pow2_ge_0 (x + A)). nra.
      + assert (- (2 * l * l' * A ^ 2) <= y) by nra. split; [|split; [split; [discriminate|auto]|auto]].
        intros x Q. apply (f_equal (fun o => match o with Some v => v | None => 0 end)) in Q. cbv beta iota in Q. subst x.
        pose proof (sqrt_pos (q + A ^ 2)). pose proof (sqrt_sqrt (q + A ^ 2) ltac:(lra)) as S.
        set (r := sqrt (q + A ^ 2)) in *. split; [f_equal|lra].
        replace (2 * (l * l') * (r - A) * (r - A + 2 * A)) with (2 * (l * l') * (r * r - A ^ 2)) by ring. rewrite S.
        replace (q + A ^ 2 - A ^ 2) with q by ring. lra. }
  destruct G as (G1 & G2 & G3). split; [exact G1|]. split; [exact G2|]. split; [|exact G3].
  intro H. apply G2 in H. destruct (i y) as [x|] eqn:E; [|contradiction]. exists x. apply G1. reflexivity.
Qed.
Print Assumptions inverse_corr.

(** Uncorrelated fields stay uncorrelated, and the order of the fields does not matter. *)
Theorem corr_zero_symmetric t1 t2 c c' : corr t1 t2 = Ok c -> corr t2 t1 = Ok c' -> c 0 = Some 0 /\ forall x, c x = c' x.
Proof.
  intros C C'. destruct t1 as [|l|a l], t2 as [|l'|a' l']; cbn in C, C'; try discriminate; injection C as <-; injection C' as <-.
  - split; reflexivity.
  - split; [f_equal; ring|reflexivity].
  - split; [f_equal; ring|reflexivity].
  - rewrite exp_0. split; [f_equal; ring|]. intro x. f_equal. ring.
  - split; [f_equal; ring|]. intro x. f_equal. ring.
Qed.
Print Assumptions corr_zero_symmetric.

(** [dcorr] is the derivative of [corr]. *)
Theorem corr_derivative t1 t2 c d : corr t1 t2 = Ok c -> dcorr t1 t2 = Ok d ->
  exists f f', (forall x, c x = Some (f x)) /\ (forall x, d x = Some (f' x)) /\ forall x, derivable_pt_lim f x (f' x).
Proof.
  intros C D. destruct t1 as [|l|a l], t2 as [|l'|a' l']; cbn in C, D; try discriminate; injection C as <-; injection D as <-;
    (eexists; eexists; split; [intro; reflexivity|]; split; [intro; reflexivity|]); intro x; cbv beta.
  - replace (1 + 0 * x) with 1 by ring. apply derivable_pt_lim_id.
  - replace (l' + 0 * x) with (l' * 1) by ring. apply (derivable_pt_lim_scal id). apply derivable_pt_lim_id.
  - replace (l + 0 * x) with (l * 1) by ring. apply (derivable_pt_lim_scal id). apply derivable_pt_lim_id.
  - replace (l * l' * exp x) with (l * l' * (exp x - 0)) by ring.
    apply (derivable_pt_lim_scal (fun x => exp x - 1)). apply (derivable_pt_lim_minus exp (fct_cte 1)); [apply derivable_pt_lim_exp|apply derivable_pt_lim_const].
  - set (L := l * l'). set (A := a * a').
    replace (4 * L * (x + A)) with (2 * L * 1 * (x + 2 * A) + 2 * L * x * (1 + 0)) by ring.
    apply (derivable_pt_lim_mult (fun x => 2 * L * x) (fun x => x + 2 * A)).
    + apply (derivable_pt_lim_scal id). apply derivable_pt_lim_id.
    + apply (derivable_pt_lim_plus id (fct_cte (2 * A))); [apply derivable_pt_lim_id|apply derivable_pt_lim_const].
Qed.
Print Assumptions corr_derivative.

Example corr_example : exists c i d, corr (Lognormal 2) (Lognormal 3) = Ok c /\ icorr (Lognormal 2) (Lognormal 3) = Ok i /\
  dcorr (Lognormal 2) (Lognormal 3) = Ok d /\ c (ln 2) = Some 6 /\ i 6 = Some (ln 2) /\ d (ln 2) = Some 12.
Proof.
  eexists. eexists. eexists. split; [reflexivity|]. split; [reflexivity|]. split; [reflexivity|].
  cbv beta. rewrite !exp_ln by lra. split; [f_equal; ring|]. split; [|f_equal; ring].
  unfold divide, nbind, log1p. destruct (Req_EM_T (2 * 3) 0) as [K|_]; [lra|].
  destruct (Rle_dec (6 / (2 * 3)) (-1)) as [L|_]; [exfalso; lra|]. f_equal. f_equal. field.
Qed.

(** Not everywhere: two squared normal fields, and a covariance that the Gaussian fields can have, as it is the negative
    of the variance.  The inverse of the transformed value is a different covariance. *)
Theorem corr_inverse_refuted : exists t c i x y,
  corr t t = Ok c /\ icorr t t = Ok i /\ proper t /\ (forall v, variance t v -> Rabs x <= v) /\
  c x = Some y /\ i y <> Some x.
Proof.
  exists (SquaredNormal (1 / 2) 1). eexists. eexists. exists (- 3 / 4). eexists. split; [reflexivity|]. split; [reflexivity|].
  split; [cbn; lra|]. split; [cbn [variance]; intros v ->; rewrite Rabs_left by lra; lra|]. split; [reflexivity|].
  unfold divide, nbind, root. destruct (Req_EM_T (2 * (1 * 1)) 0) as [K|_]; [lra|].
  match goal with |- context [Rlt_dec ?u 0] => replace u with (1 / 2 * (1 / 2)) by field end.
  destruct (Rlt_dec (1 / 2 * (1 / 2)) 0) as [L|_]; [exfalso; lra|]. rewrite sqrt_square by lra. intros [= K]. lra.
Qed.
Print Assumptions corr_inverse_refuted.

(** [corr] is the correlation of the transformed fields: for jointly normal numbers with covariance [c], the expected
    value of the product of the transformed numbers.  The fields themselves have mean zero. *)
Theorem corr_expectation expects t1 t2 v1 v2 c f : jointly_normal expects v1 v2 c ->
  variance t1 v1 -> variance t2 v2 -> corr t1 t2 = Ok f ->
  exists z, f c = Some z /\ expects (fun x y => call t1 x v1 * call t2 y v2) z /\
    expects (fun x _ => call t1 x v1) 0 /\ expects (fun _ y => call t2 y v2) 0.
Proof.
  intros E V1 V2 C.
  assert (one := expects_one _ _ _ _ E). assert (ex := expects_x _ _ _ _ E). assert (ey := expects_y _ _ _ _ E).
  assert (ext := expects_ext _ _ _ _ E). assert (lin := expects_lin _ _ _ _ E).
  assert (Lc : forall l x v, call (Lognormal l) x v = l * (exp (x - v / 2) - 1)).
  { intros l x v. unfold call. destruct (Req_EM_T l 1) as [->|_]; ring. }
  assert (Sc : forall a l x v, call (SquaredNormal a l) x v = l * ((x - a) ^ 2 - 1)).
  { intros a l x v. unfold call. destruct (Req_EM_T l 1) as [->|_]; ring. }
  assert (expv : forall x v, exp (x - v / 2) = exp (- (v / 2)) * exp x).
  { intros x v. replace (x - v / 2) with (- (v / 2) + x) by ring. apply exp_plus. }
  assert (expk : forall v, exp (- (v / 2)) * exp (v / 2) = 1).
  { intro v. rewrite <- exp_plus. replace (- (v / 2) + v / 2) with 0 by ring. apply exp_0. }
  (* mean zero *)
  assert (M1 : expects (fun x _ => call t1 x v1) 0).
  { destruct t1 as [|l|a l].
    - exact ex.
    - pose proof (lin _ _ (l * exp (- (v1 / 2))) (- l) _ _ (expects_exp _ _ _ _ E 1 0) one) as H.
      replace ((1 ^ 2 * v1 + 2 * 1 * 0 * c + 0 ^ 2 * v2) / 2) with (v1 / 2) in H by field.
      replace (l * exp (- (v1 / 2)) * exp (v1 / 2) + - l * 1) with 0 in H.
      2:{ rewrite Rmult_assoc, expk. ring. }
      refine (ext _ _ _ _ H). intros x y. rewrite Lc, expv. replace (1 * x + 0 * y) with x by ring. ring.
    - pose proof (lin _ _ l 1 _ _ (expects_xx _ _ _ _ E) (lin _ _ (- 2 * l * a) (l * (a ^ 2 - 1)) _ _ ex one)) as H.
      cbn [variance] in V1. replace (l * v1 + 1 * (-2 * l * a * 0 + l * (a ^ 2 - 1) * 1)) with 0 in H by (rewrite V1; ring).
      refine (ext _ _ _ _ H). intros x y. rewrite Sc. ring. }
  assert (M2 : expects (fun _ y => call t2 y v2) 0).
  { destruct t2 as [|l|a l].
    - exact ey.
    - pose proof (lin _ _ (l * exp (- (v2 / 2))) (- l) _ _ (expects_exp _ _ _ _ E 0 1) one) as H.
      replace ((0 ^ 2 * v1 + 2 * 0 * 1 * c + 1 ^ 2 * v2) / 2) with (v2 / 2) in H by field.
      replace (l * exp (- (v2 / 2)) * exp (v2 / 2) + - l * 1) with 0 in H.
      2:{ rewrite Rmult_assoc, expk. ring. }
      refine (ext _ _ _ _ H). intros x y. rewrite Lc, expv. replace (0 * x + 1 * y) with y by ring. ring.
    - pose proof (lin _ _ l 1 _ _ (expects_yy _ _ _ _ E) (lin _ _ (- 2 * l * a) (l * (a ^ 2 - 1)) _ _ ey one)) as H.
      cbn [variance] in V2. replace (l * v2 + 1 * (-2 * l * a * 0 + l * (a ^ 2 - 1) * 1)) with 0 in H by (rewrite V2; ring).
      refine (ext _ _ _ _ H). intros x y. rewrite Sc. ring. }
  destruct t1 as [|l|a l], t2 as [|l'|a' l']; cbn in C; try discriminate; injection C as <-; eexists; (split; [reflexivity|]);
    (split; [|split; assumption]).
  - exact (expects_xy _ _ _ _ E).
  - pose proof (lin _ _ (l' * exp (- (v2 / 2))) (- l') _ _ (expects_x_exp _ _ _ _ E 1) ex) as H.
    replace (l' * exp (- (v2 / 2)) * (1 * c * exp (1 ^ 2 * v2 / 2)) + - l' * 0) with (l' * c) in H.
    2:{ replace (1 ^ 2 * v2 / 2) with (v2 / 2) by field.
        replace (l' * exp (- (v2 / 2)) * (1 * c * exp (v2 / 2)) + - l' * 0) with (l' * c * (exp (- (v2 / 2)) * exp (v2 / 2))) by ring.
        rewrite expk. ring. }
    refine (ext _ _ _ _ H). intros x y. cbn [call]. fold (call (Lognormal l') y v2). rewrite Lc, expv. replace (1 * y) with y by ring. ring.
  - pose proof (lin _ _ (l * exp (- (v1 / 2))) (- l) _ _ (expects_exp_y _ _ _ _ E 1) ey) as H.
    replace (l * exp (- (v1 / 2)) * (1 * c * exp (1 ^ 2 * v1 / 2)) + - l * 0) with (l * c) in H.
    2:{ replace (1 ^ 2 * v1 / 2) with (v1 / 2) by field.
        replace (l * exp (- (v1 / 2)) * (1 * c * exp (v1 / 2)) + - l * 0) with (l * c * (exp (- (v1 / 2)) * exp (v1 / 2))) by ring.
        rewrite expk. ring. }
    refine (ext _ _ _ _ H). intros x y. rewrite Lc, expv. cbn [call]. replace (1 * x) with x by ring. ring.
  - set (k1 := exp (- (v1 / 2))). set (k2 := exp (- (v2 / 2))).
    pose proof (lin _ _ (l * l' * k1 * k2) 1 _ _ (expects_exp _ _ _ _ E 1 1)
      (lin _ _ (- l * l' * k1) 1 _ _ (expects_exp _ _ _ _ E 1 0) (lin _ _ (- l * l' * k2) (l * l') _ _ (expects_exp _ _ _ _ E 0 1) one))) as H.
    assert (E1 : exp ((1 ^ 2 * v1 + 2 * 1 * 0 * c + 0 ^ 2 * v2) / 2) = exp (v1 / 2)) by (f_equal; field).
    assert (E2 : exp ((0 ^ 2 * v1 + 2 * 0 * 1 * c + 1 ^ 2 * v2) / 2) = exp (v2 / 2)) by (f_equal; field).
    assert (E3 : exp ((1 ^ 2 * v1 + 2 * 1 * 1 * c + 1 ^ 2 * v2) / 2) = exp (v1 / 2) * exp (v2 / 2) * exp c).
    { rewrite <- !exp_plus. f_equal. field. }
    rewrite E1, E2, E3 in H.
    replace (l * l' * k1 * k2 * (exp (v1 / 2) * exp (v2 / 2) * exp c) + 1 * (- l * l' * k1 * exp (v1 / 2) + 1 * (- l * l' * k2 * exp (v2 / 2) + l * l' * 1)))
      with (l * l' * (exp c - 1)) in H.
    2:{ unfold k1, k2. pose proof (expk v1) as K1. pose proof (expk v2) as K2.
        replace (l * l' * exp (- (v1 / 2)) * exp (- (v2 / 2)) * (exp (v1 / 2) * exp (v2 / 2) * exp c))
          with (l * l' * (exp (- (v1 / 2)) * exp (v1 / 2)) * (exp (- (v2 / 2)) * exp (v2 / 2)) * exp c) by ring.
        replace (- l * l' * exp (- (v1 / 2)) * exp (v1 / 2)) with (- l * l' * (exp (- (v1 / 2)) * exp (v1 / 2))) by ring.
        replace (- l * l' * exp (- (v2 / 2)) * exp (v2 / 2)) with (- l * l' * (exp (- (v2 / 2)) * exp (v2 / 2))) by ring.
        rewrite K1, K2. ring. }
    refine (ext _ _ _ _ H). intros x y. rewrite !Lc, !expv. fold k1 k2.
    replace (exp (1 * x + 1 * y)) with (exp x * exp y) by (rewrite <- exp_plus; f_equal; ring).
    replace (1 * x + 0 * y) with x by ring. replace (0 * x + 1 * y) with y by ring. ring.
  - cbn [variance] in V1, V2. set (b := a ^ 2 - 1). set (b' := a' ^ 2 - 1).
    (* (x^2 - 2 a x + b)(y^2 - 2 a' y + b') *)
    set (L := l * l').
    pose proof (lin _ _ L 1 _ _ (expects_xxyy _ _ _ _ E) (lin _ _ (- 2 * L * a') 1 _ _ (expects_xxy _ _ _ _ E)
      (lin _ _ (L * b') 1 _ _ (expects_xx _ _ _ _ E) (lin _ _ (- 2 * L * a) 1 _ _ (expects_xyy _ _ _ _ E)
      (lin _ _ (4 * L * a * a') 1 _ _ (expects_xy _ _ _ _ E) (lin _ _ (- 2 * L * a * b') 1 _ _ ex
      (lin _ _ (L * b) 1 _ _ (expects_yy _ _ _ _ E) (lin _ _ (- 2 * L * a' * b) (L * b * b') _ _ ey one)))))))) as H.
    match type of H with expects _ ?m => replace m with (2 * L * c * (c + 2 * (a * a'))) in H by (rewrite V1, V2; unfold b, b'; ring) end.
    refine (ext _ _ _ _ H). intros x y. rewrite !Sc. unfold b, b', L. ring.
Qed.
Print Assumptions corr_expectation.

(** [compute]: if the transforms between spectra and correlations are each other's inverse, the spectrum that is
    computed gives back the target when its correlations are transformed. *)
Theorem compute_reproduces cltocorr corrtocl t1 t2 c cl : proper t1 -> proper t2 ->
  corrtocl (cltocorr cl) = cl -> (forall x, length x = length (cltocorr cl) -> cltocorr (corrtocl x) = x) ->
  corr t1 t2 = Ok (fun x => Some (c x)) -> Forall (attained t1 t2) (cltocorr cl) ->
  exists gl, compute cltocorr corrtocl t1 t2 (map Some cl) = Ok (map Some gl) /\
    map c (cltocorr gl) = cltocorr cl /\ realised cltocorr corrtocl c gl 0 = cl.
Proof.
  intros P1 P2 B1 B2 C A.
  assert (S : supported t1 t2).
  { destruct (dispatch_total t1 t2) as [_ N]. destruct t1, t2; cbn in *; try exact I; discriminate. }
  destruct (proj1 (dispatch_total t1 t2) S) as (c' & i & d & C' & I & _).
  unfold compute. rewrite I. cbn [bind].
  assert (F : forall l : list R, finite (map Some l) = Some l).
  { induction l as [|x l IH]; [reflexivity|]. unfold finite in *. cbn [map fold_right]. rewrite IH. reflexivity. }
  unfold lifted. rewrite F.
  assert (G : exists g, apply i (map Some (cltocorr cl)) = map Some g /\ map c g = cltocorr cl).
  { clear B1 B2. induction A as [|y l Hy A IH]; [exists []; split; reflexivity|]. destruct IH as (g & E1 & E2).
    destruct (inverse_corr t1 t2 _ i y P1 P2 C I) as (Hi & Ha & _).
    apply Ha in Hy. destruct (i y) as [x|] eqn:E; [|contradiction]. destruct (Hi x eq_refl) as [Q _]. injection Q as Q.
    exists (x :: g). unfold apply in *. cbn [map nbind]. rewrite E, E1, Q, E2. split; reflexivity. }
  destruct G as (g & -> & E). rewrite F. exists (corrtocl g). split; [reflexivity|].
  assert (L : cltocorr (corrtocl g) = g) by (apply B2; rewrite <- E, map_length; reflexivity).
  unfold realised. cbn [repeat]. rewrite app_nil_r, L, E. split; [reflexivity|exact B1].
Qed.
Print Assumptions compute_reproduces.

Example compute_example : exists gl, compute (fun x => x) (fun x => x) (Lognormal 1) (Lognormal 1) (map Some [1; 2]) = Ok (map Some gl) /\
  map (fun x => 1 * 1 * (exp x - 1)) gl = [1; 2] /\ realised (fun x => x) (fun x => x) (fun x => 1 * 1 * (exp x - 1)) gl 0 = [1; 2].
Proof.
  apply (compute_reproduces (fun x => x) (fun x => x) (Lognormal 1) (Lognormal 1) (fun x => 1 * 1 * (exp x - 1)) [1; 2]);
    try reflexivity; cbn [proper]; try lra.
  repeat constructor; cbn [attained]; lra.
Qed.
