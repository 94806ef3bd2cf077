(** Lemmas for Prop_Shapes.v. *)
From Coq Require Import Reals Lra Psatz.
From Coquelicot Require Import Complex.
From Verif Require Import Base Model_Numeric Model_Arrays Model_Effective Model_Shapes
  Spec_Arrays Spec_Galaxies Spec_Points Spec_Shapes Proof_Arrays Proof_Galaxies Proof_Points.
Local Open Scope R_scope.

(** * The apparent shape of an ellipsoid *)
Lemma extent_ellipsoid zeta xi x y z :
  extent (ellipsoid zeta xi) (x, y, z) (sqrt (x ^ 2 + zeta ^ 2 * y ^ 2 + xi ^ 2 * z ^ 2)).
Proof.
  set (Q := x ^ 2 + zeta ^ 2 * y ^ 2 + xi ^ 2 * z ^ 2).
  assert (HQ : 0 <= Q) by (unfold Q; pose proof (pow2_ge_0 x); pose proof (pow2_ge_0 (zeta * y)); pose proof (pow2_ge_0 (xi * z)); nra).
  pose proof (sqrt_pos Q) as Hs. assert (Hss := sqrt_sqrt Q HQ).
  split.
  - intros r (p & (X & Y & Z & H & ->) & ->). cbn [dot].
    apply Rsqr_incr_0_var; [|exact Hs]. unfold Rsqr. rewrite Hss. unfold Q.
    set (y' := zeta * y). set (z' := xi * z).
    replace (zeta ^ 2 * y ^ 2) with (y' ^ 2) by (unfold y'; ring).
    replace (xi ^ 2 * z ^ 2) with (z' ^ 2) by (unfold z'; ring).
    replace (x * X + y * (zeta * Y) + z * (xi * Z)) with (x * X + y' * Y + z' * Z) by (unfold y', z'; ring).
    assert (E : (x * X + y' * Y + z' * Z) * (x * X + y' * Y + z' * Z) =
      (x ^ 2 + y' ^ 2 + z' ^ 2) * (X ^ 2 + Y ^ 2 + Z ^ 2) - (x * Y - y' * X) ^ 2 - (x * Z - z' * X) ^ 2 - (y' * Z - z' * Y) ^ 2) by ring.
    rewrite E. pose proof (pow2_ge_0 (x * Y - y' * X)). pose proof (pow2_ge_0 (x * Z - z' * X)).
    pose proof (pow2_ge_0 (y' * Z - z' * Y)).
    assert (0 <= x ^ 2 + y' ^ 2 + z' ^ 2) by (pose proof (pow2_ge_0 x); pose proof (pow2_ge_0 y'); pose proof (pow2_ge_0 z'); lra).
    assert ((x ^ 2 + y' ^ 2 + z' ^ 2) * (X ^ 2 + Y ^ 2 + Z ^ 2) <= (x ^ 2 + y' ^ 2 + z' ^ 2) * 1)
      by (apply Rmult_le_compat_l; assumption). lra.
  - intros b Hb. destruct (Req_EM_T (sqrt Q) 0) as [E|E].
    + rewrite E. apply Hb. exists (0, zeta * 0, xi * 0). split; [|cbn; ring].
      exists 0, 0, 0. split; [lra|reflexivity].
    + apply Hb. set (w := sqrt Q) in *.
      exists (x / w, zeta * (zeta * y / w), xi * (xi * z / w)). split.
      * exists (x / w), (zeta * y / w), (xi * z / w). split; [|reflexivity].
        replace ((x / w) ^ 2 + (zeta * y / w) ^ 2 + (xi * z / w) ^ 2) with (Q / (w * w)) by (unfold Q; field; exact E).
        rewrite Hss. right. unfold Rdiv. apply Rinv_r. intro K. apply E. unfold w. rewrite K. apply sqrt_0.
      * cbn [dot]. apply (Rmult_eq_reg_r w); [|exact E]. rewrite Hss. unfold Q. field. exact E.
Qed.

Lemma extent_unique body m h h' : extent body m h -> extent body m h' -> h = h'.
Proof. apply is_lub_u. Qed.

(** The quadratic form [a, b, c] on the unit circle. *)
Definition quad (a h c p q : R) : R := a * p ^ 2 + 2 * h * p * q + c * q ^ 2.

Lemma quad_bounds a h c p q : p ^ 2 + q ^ 2 = 1 ->
  (a + c - sqrt ((a - c) * (a - c) + 4 * h ^ 2)) / 2 <= quad a h c p q <= (a + c + sqrt ((a - c) * (a - c) + 4 * h ^ 2)) / 2.
Proof.
  intro H. set (D := (a - c) * (a - c) + 4 * h ^ 2).
  assert (HD : 0 <= D) by (unfold D; pose proof (Rle_0_sqr (a - c)); pose proof (pow2_ge_0 h); unfold Rsqr in *; lra).
  pose proof (sqrt_pos D) as P. pose proof (sqrt_sqrt D HD) as PP.
  set (T := (a - c) * (p ^ 2 - q ^ 2) + 4 * h * p * q).
  assert (E : quad a h c p q = (a + c + T) / 2).
  { unfold quad, T. replace (a + c) with ((a + c) * (p ^ 2 + q ^ 2)) by (rewrite H; ring). field. }
  assert (B : T ^ 2 <= D).
  { assert (T ^ 2 = D * (p ^ 2 + q ^ 2) ^ 2 - ((a - c) * (2 * p * q) - 2 * h * (p ^ 2 - q ^ 2)) ^ 2) as -> by (unfold T, D; ring).
    rewrite H. pose proof (pow2_ge_0 ((a - c) * (2 * p * q) - 2 * h * (p ^ 2 - q ^ 2))). lra. }
  rewrite E. clearbody T D. split; nra.
Qed.

Lemma quad_max a h c : exists p q, p ^ 2 + q ^ 2 = 1 /\
  quad a h c p q = (a + c + sqrt ((a - c) * (a - c) + 4 * h ^ 2)) / 2 /\
  quad a h c (- q) p = (a + c - sqrt ((a - c) * (a - c) + 4 * h ^ 2)) / 2.
Proof.
  set (D := (a - c) * (a - c) + 4 * h ^ 2).
  assert (HD : 0 <= D) by (unfold D; pose proof (Rle_0_sqr (a - c)); pose proof (pow2_ge_0 h); unfold Rsqr in *; lra).
  pose proof (sqrt_pos D) as P. pose proof (sqrt_sqrt D HD) as PP. set (d := sqrt D) in *.
  destruct (Req_EM_T d 0) as [E|E].
  - exists 1, 0. assert (a = c /\ h = 0) as [-> ->].
    { assert (D = 0) by (rewrite <- PP, E; ring). unfold D in *.
      pose proof (Rle_0_sqr (a - c)) as K1. pose proof (pow2_ge_0 h) as K2. unfold Rsqr in K1.
      assert (K3 : (a - c) * (a - c) = 0) by lra. assert (K4 : h ^ 2 = 0) by lra.
      split; [apply Rmult_integral in K3; lra|]. replace (h ^ 2) with (h * h) in K4 by ring. apply Rmult_integral in K4. tauto. }
    unfold quad. repeat split; try ring; rewrite E; field.
  - set (x := (a - c) / d). set (y := 2 * h / d).
    assert (U : x ^ 2 + y ^ 2 = 1).
    { replace (x ^ 2 + y ^ 2) with (D / (d * d)) by (unfold x, y, D; field; exact E). rewrite PP. unfold Rdiv.
      apply Rinv_r. nra. }
    assert (X : -1 <= x <= 1) by nra.
    set (p := sqrt ((1 + x) / 2)). set (q0 := sqrt ((1 - x) / 2)).
    assert (Hp : p * p = (1 + x) / 2) by (apply sqrt_sqrt; lra).
    assert (Hq : q0 * q0 = (1 - x) / 2) by (apply sqrt_sqrt; lra).
    assert (Hpq : 2 * (p * q0) = Rabs y).
    { unfold p, q0. rewrite <- sqrt_mult by lra.
      replace ((1 + x) / 2 * ((1 - x) / 2)) with (Rsqr (y / 2)) by (unfold Rsqr; nra).
      rewrite sqrt_Rsqr_abs. unfold Rdiv. rewrite Rabs_mult, (Rabs_right (/ 2)) by lra. field. }
    set (q := if Rlt_dec y 0 then - q0 else q0).
    assert (Hq' : q * q = (1 - x) / 2) by (unfold q; destruct (Rlt_dec y 0); nra).
    assert (Hy : 2 * (p * q) = y).
    { unfold q. destruct (Rlt_dec y 0) as [L|L].
      - rewrite (Rabs_left y L) in Hpq. nra.
      - rewrite (Rabs_right y) in Hpq by lra. exact Hpq. }
    assert (A : a - c = x * d) by (unfold x; field; exact E).
    assert (B : 2 * h = y * d) by (unfold y; field; exact E).
    exists p, q. unfold quad. clearbody p q x y d. clear Hpq Hq q0.
    split; [nra|]. 
    assert (a = c + x * d) as -> by lra.
    assert (F : (x ^ 2 + y ^ 2) * d = d) by (rewrite U; ring).
    split; [replace ((c + x * d) * p ^ 2 + 2 * h * p * q + c * q ^ 2)
              with (c * (p * p + q * q) + x * d * (p * p) + (2 * h) * (2 * (p * q)) / 2) by field
           |replace ((c + x * d) * (- q) ^ 2 + 2 * h * (- q) * p + c * p ^ 2)
              with (c * (p * p + q * q) + x * d * (q * q) - (2 * h) * (2 * (p * q)) / 2) by field];
      rewrite Hy, B, Hp, Hq'; lra.
Qed.

Section Looks.
  Variables zeta xi u phi : R.
  Hypothesis Hu : -1 <= u <= 1.
  Let a := (1 + (zeta * zeta - 1) * (1 - cos phi * cos phi)) * (u * u) + xi * xi * (1 - u * u).
  Let c := 1 + (zeta * zeta - 1) * (cos phi * cos phi).
  Let h := u * (sin phi * cos phi) * (zeta ^ 2 - 1).
  Let s := sqrt (1 - u ^ 2).

  Lemma s2 : s * s = 1 - u ^ 2.
  Proof. apply sqrt_sqrt. nra. Qed.

  Lemma c2 : sin phi * sin phi = 1 - cos phi * cos phi.
  Proof. pose proof (sc1 phi). lra. Qed.

  Lemma h2 : 4 * (zeta * zeta - 1) * (zeta * zeta - 1) * (u * u) * (1 - cos phi * cos phi) * (cos phi * cos phi) = 4 * h ^ 2.
  Proof. rewrite <- c2. unfold h. ring. Qed.

  (** Directions in the sky and points of the unit circle. *)
  Lemma sky_quad x y z : in_sky (sight u phi) (x, y, z) ->
    exists p q, p ^ 2 + q ^ 2 = 1 /\ x ^ 2 + zeta ^ 2 * y ^ 2 + xi ^ 2 * z ^ 2 = quad a h c p q.
  Proof.
    unfold in_sky, sight. cbn [dot]. fold s. intros [H1 H2].
    pose proof s2 as S. pose proof c2 as K.
    set (C := cos phi) in *. set (Sn := sin phi) in *.
    set (w := x * C + y * Sn). set (q := - x * Sn + y * C). set (p := u * w - s * z).
    assert (Ex : x = w * C - q * Sn).
    { unfold w, q. replace ((x * C + y * Sn) * C - (- x * Sn + y * C) * Sn) with (x * (C * C + Sn * Sn)) by ring.
      rewrite K. ring. }
    assert (Ey : y = w * Sn + q * C).
    { unfold w, q. replace ((x * C + y * Sn) * Sn + (- x * Sn + y * C) * C) with (y * (C * C + Sn * Sn)) by ring.
      rewrite K. ring. }
    assert (H2' : s * w + u * z = 0) by (unfold w; lra).
    assert (Ew : w = u * p).
    { unfold p. replace (u * (u * w - s * z)) with (u ^ 2 * w - s * (s * w + u * z) + s * s * w) by ring.
      rewrite H2', S. ring. }
    assert (Ez : z = - (s * p)).
    { unfold p. replace (- (s * (u * w - s * z))) with (- u * (s * w + u * z) + (u ^ 2 + s * s) * z) by ring.
      rewrite H2', S. ring. }
    exists p, q. clearbody p q w. subst w. 
    assert (N : p ^ 2 + q ^ 2 = 1).
    { rewrite <- H1, Ex, Ey, Ez.
      replace ((u * p * C - q * Sn) * (u * p * C - q * Sn) + (u * p * Sn + q * C) * (u * p * Sn + q * C) + - (s * p) * - (s * p))
        with ((u ^ 2 * p ^ 2 + q ^ 2) * (C * C + Sn * Sn) + s * s * p ^ 2) by ring.
      rewrite K, S. ring. }
    split; [exact N|].
    rewrite Ex, Ey, Ez. unfold quad, a, c, h. fold C Sn. 
    replace ((- (s * p)) ^ 2) with (s * s * p ^ 2) by ring. rewrite S.
    replace ((u * p * C - q * Sn) ^ 2) with (u ^ 2 * p ^ 2 * (C * C) - 2 * u * p * q * (Sn * C) + q ^ 2 * (Sn * Sn)) by ring.
    replace ((u * p * Sn + q * C) ^ 2) with (u ^ 2 * p ^ 2 * (Sn * Sn) + 2 * u * p * q * (Sn * C) + q ^ 2 * (C * C)) by ring.
    rewrite K. ring.
  Qed.

  Lemma quad_sky p q : p ^ 2 + q ^ 2 = 1 -> exists m, in_sky (sight u phi) m /\
    extent (ellipsoid zeta xi) m (sqrt (quad a h c p q)).
  Proof.
    intro H. pose proof s2 as S. pose proof c2 as K.
    exists (u * p * cos phi - q * sin phi, u * p * sin phi + q * cos phi, - (s * p)). split.
    - unfold in_sky, sight. cbn [dot]. fold s. set (C := cos phi) in *. set (Sn := sin phi) in *. split.
      + replace ((u * p * C - q * Sn) * (u * p * C - q * Sn) + (u * p * Sn + q * C) * (u * p * Sn + q * C) + - (s * p) * - (s * p))
          with ((u ^ 2 * p ^ 2 + q ^ 2) * (C * C + Sn * Sn) + s * s * p ^ 2) by ring.
        rewrite K, S. transitivity (p ^ 2 + q ^ 2); [ring|exact H].
      + replace ((u * p * C - q * Sn) * (s * C) + (u * p * Sn + q * C) * (s * Sn) + - (s * p) * u)
          with (s * u * p * (C * C + Sn * Sn) - s * p * u) by ring.
        rewrite K. ring.
    - replace (quad a h c p q) with ((u * p * cos phi - q * sin phi) ^ 2 + zeta ^ 2 * (u * p * sin phi + q * cos phi) ^ 2 + xi ^ 2 * (- (s * p)) ^ 2);
        [apply extent_ellipsoid|].
      unfold quad, a, c, h. set (C := cos phi) in *. set (Sn := sin phi) in *.
      replace ((- (s * p)) ^ 2) with (s * s * p ^ 2) by ring. rewrite S.
      replace ((u * p * C - q * Sn) ^ 2) with (u ^ 2 * p ^ 2 * (C * C) - 2 * u * p * q * (Sn * C) + q ^ 2 * (Sn * Sn)) by ring.
      replace ((u * p * Sn + q * C) ^ 2) with (u ^ 2 * p ^ 2 * (Sn * Sn) + 2 * u * p * q * (Sn * C) + q ^ 2 * (C * C)) by ring.
      rewrite K. ring.
  Qed.

  Lemma quad_nonneg p q : p ^ 2 + q ^ 2 = 1 -> 0 <= quad a h c p q.
  Proof.
    pose proof s2 as S. pose proof c2 as K. intros _.
    replace (quad a h c p q) with ((u * p * cos phi - q * sin phi) ^ 2 + (zeta * (u * p * sin phi + q * cos phi)) ^ 2 + (xi * (s * p)) ^ 2).
    - pose proof (pow2_ge_0 (u * p * cos phi - q * sin phi)). pose proof (pow2_ge_0 (zeta * (u * p * sin phi + q * cos phi))).
      pose proof (pow2_ge_0 (xi * (s * p))). lra.
    - unfold quad, a, c, h. set (C := cos phi) in *. set (Sn := sin phi) in *.
      replace ((xi * (s * p)) ^ 2) with (xi ^ 2 * (s * s) * p ^ 2) by ring. rewrite S.
      replace ((u * p * C - q * Sn) ^ 2) with (u ^ 2 * p ^ 2 * (C * C) - 2 * u * p * q * (Sn * C) + q ^ 2 * (Sn * Sn)) by ring.
      replace ((zeta * (u * p * Sn + q * C)) ^ 2) with (zeta ^ 2 * (u ^ 2 * p ^ 2 * (Sn * Sn) + 2 * u * p * q * (Sn * C) + q ^ 2 * (C * C))) by ring.
      rewrite K. ring.
  Qed.

  Lemma axis_ratio_ok : apparent_ratio zeta xi u phi (axis_ratio zeta xi u phi).
  Proof.
    set (d := sqrt ((a - c) * (a - c) + 4 * h ^ 2)).
    destruct (quad_max a h c) as (p & q & U & Qp & Qm). fold d in Qp, Qm.
    assert (U' : (- q) ^ 2 + p ^ 2 = 1) by (rewrite <- U; ring).
    pose proof (quad_nonneg _ _ U) as Np. pose proof (quad_nonneg _ _ U') as Nm. rewrite Qp in Np. rewrite Qm in Nm.
    assert (Hd : 0 <= d) by apply sqrt_pos.
    exists (sqrt ((a + c + d) / 2)), (sqrt ((a + c - d) / 2)).
    assert (Hle : sqrt ((a + c - d) / 2) <= sqrt ((a + c + d) / 2)) by (apply sqrt_le_1_alt; lra).
    split; [|split; [split; [apply sqrt_pos|exact Hle]|]].
    - split; [|split].
      + rewrite <- Qp. apply quad_sky. exact U.
      + rewrite <- Qm. apply quad_sky. exact U'.
      + intros [[x y] z] e Hm He. rewrite (extent_unique _ _ _ _ He (extent_ellipsoid zeta xi x y z)).
        destruct (sky_quad x y z Hm) as (p' & q' & U2 & ->).
        pose proof (quad_bounds a h c p' q' U2) as B. fold d in B. split; apply sqrt_le_1_alt; lra.
    - unfold axis_ratio.
      assert (E : axis_ratio zeta xi u phi =
        obind (nsqrt ((a - c) * (a - c) + 4 * h ^ 2)) (fun d => obind (ndiv (a + c - d) (a + c + d)) nsqrt)).
      { unfold axis_ratio. rewrite <- h2. fold a c. f_equal. f_equal. ring. }
      cbv zeta in E. unfold axis_ratio in E. cbv zeta in E. rewrite E. clear E.
      assert (N2 : 0 <= (a - c) * (a - c) + 4 * h ^ 2)
        by (pose proof (Rle_0_sqr (a - c)) as K1; pose proof (pow2_ge_0 h) as K2; unfold Rsqr in K1; lra).
      unfold nsqrt at 1. destruct (Rlt_dec ((a - c) * (a - c) + 4 * h ^ 2) 0) as [L|_]; [lra|]. cbn [obind]. fold d.
      unfold ndiv. destruct (Req_EM_T (a + c + d) 0) as [Z|Z]; cbn [obind].
      + rewrite Z. replace (0 / 2) with 0 by field. apply sqrt_0.
      + assert (0 < a + c + d) by lra.
        assert (0 <= (a + c - d) / (a + c + d)) by (apply Rmult_le_pos; [lra|apply Rlt_le, Rinv_0_lt_compat; lra]).
        unfold nsqrt. destruct (Rlt_dec ((a + c - d) / (a + c + d)) 0) as [L|_]; [lra|].
        split; [apply sqrt_lt_R0; lra|]. rewrite <- sqrt_mult by lra. f_equal. field. lra.
  Qed.
End Looks.

(** The shape that is seen is unique. *)
Lemma apparent_ratio_unique zeta xi u phi q q' : apparent_ratio zeta xi u phi q -> apparent_ratio zeta xi u phi q' -> q = q'.
Proof.
  intros (a & b & (A1 & B1 & H1) & N1 & Q1) (a' & b' & (A2 & B2 & H2) & N2 & Q2).
  assert (a = a').
  { destruct A1 as (m & M1 & E1). destruct A2 as (m' & M2 & E2).
    pose proof (H2 m a M1 E1). pose proof (H1 m' a' M2 E2). lra. }
  assert (b = b').
  { destruct B1 as (m & M1 & E1). destruct B2 as (m' & M2 & E2).
    pose proof (H2 m b M1 E1). pose proof (H1 m' b' M2 E2). lra. }
  subst a' b'. destruct q as [q|], q' as [q'|]; [|destruct Q1; lra|destruct Q2; lra|reflexivity].
  destruct Q1 as [P1 E1], Q2 as [P2 E2]. f_equal. apply (Rmult_eq_reg_r a); lra.
Qed.

Lemma apparent_ratio_range zeta xi u phi q : apparent_ratio zeta xi u phi (Some q) -> 0 <= q <= 1.
Proof.
  intros (a & b & _ & N & P & E). split.
  - destruct (Rle_lt_dec 0 q); [assumption|nra].
  - destruct (Rle_lt_dec q 1); [assumption|nra].
Qed.

(** A body with two proper axes is never seen as a point. *)
Lemma apparent_ratio_some zeta xi u phi q : zeta <> 0 -> apparent_ratio zeta xi u phi q -> q <> None.
Proof.
  intros Hz (a & b & (_ & _ & H) & N & Q) ->. subst a.
  assert (M : in_sky (sight u phi) (- sin phi, cos phi, 0)).
  { split; unfold sight; cbn [dot]; [pose proof (sc1 phi); lra|ring]. }
  pose proof (H _ _ M (extent_ellipsoid zeta xi _ _ _)) as [_ L].
  assert (K : 0 < (- sin phi) ^ 2 + zeta ^ 2 * cos phi ^ 2 + xi ^ 2 * 0 ^ 2).
  { pose proof (sc1 phi) as T. assert (0 < zeta ^ 2) by nra.
    destruct (Req_EM_T (cos phi) 0) as [E|E].
    - rewrite E in *. nra.
    - assert (0 < cos phi ^ 2) by nra. nra. }
  apply sqrt_lt_R0 in K. lra.
Qed.

(** * Rejection loops *)
Fixpoint positions (k : nat) (bad : list bool) : list nat :=
  match bad with [] => [] | b :: bad => if b then k :: positions (S k) bad else positions (S k) bad end.

Lemma positions_ge bad : forall k i, In i (positions k bad) -> (k <= i)%nat.
Proof.
  induction bad as [|b bad IH]; intros k i; cbn [positions]; [intros []|].
  destruct b; [intros [<-|H]; [lia|]|intro H]; apply IH in H; lia.
Qed.

Lemma positions_all k n : positions k (repeat true n) = seq k n.
Proof. revert k. induction n as [|n IH]; intro k; [reflexivity|]. cbn. f_equal. apply IH. Qed.

Lemma positions_length bad : forall k, length (positions k bad) = length (filter (fun b => b) bad).
Proof. induction bad as [|[|] bad IH]; intro k; cbn; auto. Qed.

Lemma existsb_positions k bad : existsb (fun b => b) bad = false <-> positions k bad = [].
Proof.
  revert k. induction bad as [|[|] bad IH]; intro k; cbn; [tauto|split; discriminate|apply IH].
Qed.

Lemma nth_app_mid {A} (pre : list A) x l : nth_error (pre ++ x :: l) (length pre) = Some x.
Proof. rewrite nth_error_app2 by lia. rewrite Nat.sub_diag. reflexivity. Qed.

Lemma app_step {A} (pre : list A) x l : pre ++ x :: l = (pre ++ [x]) ++ l.
Proof. rewrite <- app_assoc. reflexivity. Qed.

Lemma length_snoc {A} (pre : list A) x : length (pre ++ [x]) = S (length pre).
Proof. rewrite app_length. cbn. lia. Qed.

Lemma pick_entries {A} bad : forall (pre l : list A), length l = length bad ->
  Forall2 (fun i v => nth_error (pre ++ l) i = Some v) (positions (length pre) bad) (pick bad l).
Proof.
  induction bad as [|b bad IH]; intros pre [|x l] L; try discriminate; [constructor|].
  cbn in L. assert (L' : length l = length bad) by lia.
  specialize (IH (pre ++ [x]) l L'). rewrite length_snoc, <- app_step in IH.
  unfold pick in *. cbn [positions combine filter fst]. destruct b; cbn [map snd]; [|exact IH].
  constructor; [apply nth_app_mid|exact IH].
Qed.

Lemma pick_unique {A} (l : list A) idx v v' : entries_at l idx v -> entries_at l idx v' -> v = v'.
Proof.
  unfold entries_at. intro H. revert v'. induction H as [|i x idx v E H IH]; intros v' H'.
  - inversion H'. reflexivity.
  - inversion H' as [|? y ? w F H2]; subst. rewrite E in F. injection F as ->. f_equal. apply IH. exact H2.
Qed.

Lemma overwrite_length {A} bad : forall (l new : list A), length l = length bad ->
  length new = length (filter (fun b => b) bad) -> length (overwrite bad l new) = length l.
Proof.
  induction bad as [|b bad IH]; intros [|x l] new L N; try discriminate; [reflexivity|].
  cbn in L, N |- *. destruct b.
  - cbn in N. destruct new as [|v new]; [discriminate|]. cbn. rewrite IH; cbn in N; lia.
  - cbn. rewrite IH; lia.
Qed.

Lemma overwrite_entries {A} bad : forall (pre l new : list A), length l = length bad ->
  length new = length (filter (fun b => b) bad) ->
  Forall2 (fun i v => nth_error (pre ++ overwrite bad l new) i = Some v) (positions (length pre) bad) new.
Proof.
  induction bad as [|b bad IH]; intros pre [|x l] new L N; try discriminate.
  - destruct new; [constructor|discriminate].
  - cbn in L, N. cbn [positions overwrite]. destruct b.
    + destruct new as [|v new]; [discriminate|]. cbn in N.
      constructor; [apply nth_app_mid|]. rewrite app_step, <- (length_snoc pre v). apply IH; lia.
    + rewrite app_step, <- (length_snoc pre x). apply IH; lia.
Qed.

Lemma overwrite_others {A} bad : forall (pre l new : list A) i, length l = length bad ->
  length new = length (filter (fun b => b) bad) -> ~ In i (positions (length pre) bad) ->
  nth_error (pre ++ overwrite bad l new) i = nth_error (pre ++ l) i.
Proof.
  induction bad as [|b bad IH]; intros pre [|x l] new i L N H; try discriminate; [reflexivity|].
  cbn in L, N. cbn [positions] in H. cbn [overwrite]. destruct b.
  - destruct new as [|v new]; [discriminate|]. cbn in N. cbn in H.
    rewrite (app_step pre v). 
    assert (E : nth_error ((pre ++ [v]) ++ overwrite bad l new) i = nth_error ((pre ++ [v]) ++ l) i).
    { apply IH; [lia|lia|]. rewrite length_snoc. tauto. }
    rewrite E. rewrite <- app_step. clear - H. 
    destruct (Nat.lt_ge_cases i (length pre)) as [Q|Q].
    + rewrite !nth_error_app1 by lia. reflexivity.
    + rewrite !nth_error_app2 by lia. destruct (i - length pre)%nat eqn:D; [|reflexivity]. exfalso. apply H. left. lia.
  - rewrite (app_step pre x), (app_step pre x l). apply IH; [lia|lia|]. rewrite length_snoc. exact H.
Qed.

Lemma rejection_inv {S V} (ok : V -> Prop) (D : S -> list nat -> list V -> S -> Prop) s idx out s' :
  rejection ok D s idx out s' -> exists vals rest s1, D s idx vals s1 /\ sifted ok idx vals rest /\
    ((rest = [] /\ s' = s1 /\ Forall2 (fun i v => nth_error out i = Some v) idx vals) \/
     (rest <> [] /\ Forall2 (fun i v => ok v -> nth_error out i = Some v) idx vals /\ rejection ok D s1 rest out s')).
Proof. intro H. destruct H as [s idx out vals s'|s idx out vals rest s1 s']; [exists vals, [], s'|exists vals, rest, s1]; auto 10. Qed.

Section Rejection.
  Context {S V : Type}.
  Variable reject : V -> bool.
  Variable ok : V -> Prop.
  Hypothesis Hok : forall v, ok v <-> reject v = false.

  Lemma reject_not v : reject v = true <-> ~ ok v.
  Proof. rewrite Hok. destruct (reject v); split; intro H; try congruence. Qed.

  Lemma sifted_overwrite x : forall k vals, length vals = length (filter (fun b => b) (map reject x)) ->
    sifted ok (positions k (map reject x)) vals (positions k (map reject (overwrite (map reject x) x vals))).
  Proof.
    induction x as [|v x IH]; intros k vals L.
    - destruct vals; [constructor|discriminate].
    - cbn in L. cbn [map positions overwrite]. destruct (reject v) eqn:E.
      + destruct vals as [|w vals]; [discriminate|]. cbn in L. cbn [map positions].
        destruct (reject w) eqn:F.
        * constructor; [apply reject_not; exact F|]. apply IH. lia.
        * constructor; [apply Hok; exact F|]. apply IH. lia.
      + cbn [map positions]. rewrite E. apply IH. exact L.
  Qed.

  Lemma sifted_functional idx vals r : sifted ok idx vals r -> forall r', sifted ok idx vals r' -> r = r'.
  Proof.
    induction 1 as [|i v idx vals rest K H IH|i v idx vals rest K H IH]; intros r' H'; inversion H'; subst; try contradiction; auto.
    f_equal. auto.
  Qed.

  Lemma sifted_length idx vals r : sifted ok idx vals r -> length vals = length idx.
  Proof. induction 1; cbn; lia. Qed.

  Lemma sifted_In idx vals r : sifted ok idx vals r -> forall i, In i r -> In i idx.
  Proof. induction 1; intros j Hj; [destruct Hj|right; auto|destruct Hj as [<-|Hj]; [left; reflexivity|right; auto]]. Qed.

  Lemma sifted_none idx vals r : sifted ok idx vals r -> r = [] -> Forall ok vals.
  Proof. induction 1; intro E; try discriminate; constructor; auto. Qed.

  Lemma positions_reject x : forall pre i v, nth_error (pre ++ x) i = Some v ->
    In i (positions (length pre) (map reject x)) -> reject v = true.
  Proof.
    induction x as [|w x IH]; intros pre i v H Hi; [destruct Hi|].
    cbn [map positions] in Hi. rewrite app_step in H. specialize (IH (pre ++ [w]) i v H). rewrite length_snoc in IH.
    destruct (reject w) eqn:E; [|apply IH; exact Hi].
    destruct Hi as [<-|Hi]; [|apply IH; exact Hi].
    rewrite <- app_step, nth_app_mid in H. injection H as <-. exact E.
  Qed.

  Lemma positions_reject' x : forall pre i v, nth_error (pre ++ x) i = Some v -> (length pre <= i)%nat ->
    ~ In i (positions (length pre) (map reject x)) -> ok v.
  Proof.
    induction x as [|w x IH]; intros pre i v H L Hi.
    - rewrite app_nil_r in H. apply nth_error_None in L. congruence.
    - cbn [map positions] in Hi. destruct (Nat.eq_dec i (length pre)) as [->|N].
      + rewrite nth_app_mid in H. injection H as <-. apply Hok. destruct (reject w) eqn:E; [|reflexivity].
        exfalso. apply Hi. left. reflexivity.
      + rewrite app_step in H. apply (IH (pre ++ [w]) i v H); rewrite length_snoc; [lia|].
        intro K. apply Hi. destruct (reject w); [right|]; exact K.
  Qed.

  Variable draw : S -> list bool -> list V * S.
  Fixpoint gredraw (fuel : nat) (x : list V) (s : S) : result (list V * S) :=
    let bad := map reject x in
    if existsb (fun b => b) bad then
      match fuel with
      | O => Err OutOfFuel
      | Datatypes.S fuel => let '(new, s) := draw s bad in gredraw fuel (overwrite bad x new) s
      end
    else Ok (x, s).

  Variable n : nat.
  Variable D : S -> list nat -> list V -> S -> Prop.
  Hypothesis HD : forall s bad vals s', length bad = n -> (draw s bad = (vals, s') <-> D s (positions 0 bad) vals s').
  Hypothesis Hlen : forall s bad vals s', length bad = n -> draw s bad = (vals, s') -> length vals = length (filter (fun b => b) bad).

  Lemma forall2_weaken {A B} (P Q : A -> B -> Prop) l l' : (forall a b, P a b -> Q a b) -> Forall2 P l l' -> Forall2 Q l l'.
  Proof. intros H F. induction F; constructor; auto. Qed.

  Lemma forall2_In {A B} (P : A -> B -> Prop) l l' a : Forall2 P l l' -> In a l -> exists b, In b l' /\ P a b.
  Proof. intro F. induction F as [|x y l l' Hp F IH]; intros []; [subst; exists y; cbn; auto|]. destruct IH as (b & ? & ?); auto. exists b. cbn. auto. Qed.

  Lemma forall2_agree {W} (good : W -> Prop) (a b : list W) idx vals i v :
    Forall2 (fun i v => nth_error a i = Some v) idx vals ->
    Forall2 (fun i v => good v -> nth_error b i = Some v) idx vals -> In i idx ->
    nth_error a i = Some v -> good v -> nth_error b i = Some v.
  Proof.
    intro F. induction F as [|j w idx vals E F IH]; intros G Hi Ea Hg; [destruct Hi|].
    inversion G as [|? ? ? ? G1 G2]; subst. destruct Hi as [<-|Hi]; [|apply IH; assumption].
    rewrite Ea in E. injection E as <-. apply G1. exact Hg.
  Qed.

  Lemma gredraw_sound fuel : forall x s out s', length x = n -> gredraw fuel x s = Ok (out, s') ->
    length out = n /\ (forall i, ~ In i (positions 0 (map reject x)) -> nth_error out i = nth_error x i) /\
    ((positions 0 (map reject x) = [] /\ out = x /\ s' = s) \/
     (positions 0 (map reject x) <> [] /\ rejection ok D s (positions 0 (map reject x)) out s')).
  Proof.
    induction fuel as [|fuel IH]; intros x s out s' L H; cbn [gredraw] in H.
    all: destruct (existsb (fun b => b) (map reject x)) eqn:E;
      [|injection H as <- <-; split; [exact L|]; split; [reflexivity|]; left; split; [apply existsb_positions; exact E|auto]].
    - discriminate.
    - set (bad := map reject x) in *. assert (Lb : length bad = n) by (unfold bad; rewrite map_length; exact L).
      destruct (draw s bad) as [vals s1] eqn:Ed. pose proof (Hlen _ _ _ _ Lb Ed) as Lv.
      apply HD in Ed; [|exact Lb].
      assert (Lx : length x = length bad) by lia.
      assert (L2 : length (overwrite bad x vals) = n) by (rewrite overwrite_length; assumption).
      pose proof (sifted_overwrite x 0 vals Lv) as Sf. fold bad in Sf.
      pose proof (overwrite_entries bad [] x vals Lx Lv) as Fe. cbn [app length] in Fe.
      pose proof (fun i => overwrite_others bad [] x vals i Lx Lv) as Fo. cbn [app length] in Fo.
      set (x' := overwrite bad x vals) in *.
      destruct (IH x' s1 out s' L2 H) as (Lo & Ho & C). split; [exact Lo|].
      assert (Sub : forall i, In i (positions 0 (map reject x')) -> In i (positions 0 bad)) by (eapply sifted_In; exact Sf).
      split; [intros i Hi; rewrite Ho by (intro K; apply Hi, Sub, K); apply Fo; exact Hi|].
      right. split; [intro K; apply (existsb_positions 0) in K; congruence|].
      destruct C as [(Z & -> & ->)|(Z & C)].
      + rewrite Z in Sf. eapply last_round; [exact Ed|exact Sf|exact Fe].
      + eapply more_rounds; [exact Ed|exact Sf|exact Z| |exact C].
        eapply forall2_weaken; [|exact Fe]. cbn beta. intros i v Hv Hk. rewrite Ho; [exact Hv|].
        intro K. apply (positions_reject x' [] i v Hv) in K. apply Hok in Hk. congruence.
  Qed.

  Lemma gredraw_complete s idx out s' : rejection ok D s idx out s' -> forall x, length x = n -> length out = n ->
    idx = positions 0 (map reject x) -> idx <> [] ->
    (forall i, ~ In i idx -> nth_error out i = nth_error x i) -> exists fuel, gredraw fuel x s = Ok (out, s').
  Proof.
    induction 1 as [s idx out vals s' Hd Hs Hf|s idx out vals rest s1 s' Hd Hs Hr Hf H IH]; intros x L Lo E Hne Ho; subst idx;
      set (bad := map reject x) in *;
      assert (Lb : length bad = n) by (unfold bad; rewrite map_length; exact L);
      apply HD in Hd; [|exact Lb| |exact Lb];
      pose proof (Hlen _ _ _ _ Lb Hd) as Lv;
      assert (Lx : length x = length bad) by lia;
      assert (L2 : length (overwrite bad x vals) = n) by (rewrite overwrite_length; assumption);
      pose proof (sifted_overwrite x 0 vals Lv) as Sf; fold bad in Sf;
      pose proof (overwrite_entries bad [] x vals Lx Lv) as Fe; cbn [app length] in Fe;
      pose proof (fun i => overwrite_others bad [] x vals i Lx Lv) as Fo; cbn [app length] in Fo;
      assert (Ex : existsb (fun b => b) bad = true)
        by (destruct (existsb (fun b => b) bad) eqn:Q; [reflexivity|]; apply (existsb_positions 0) in Q; congruence);
      pose proof (sifted_functional _ _ _ Hs _ Sf) as Er.
    - exists 1%nat. cbn [gredraw]. fold bad. rewrite Ex, Hd. 
      rewrite (proj2 (existsb_positions 0 _) (eq_sym Er)). f_equal. f_equal.
      apply nth_error_ext'. intro i. destruct (in_dec Nat.eq_dec i (positions 0 bad)) as [K|K].
      + destruct (forall2_In _ _ _ i Fe K) as (v & _ & B). rewrite B. symmetry.
        refine (forall2_agree (fun _ => True) _ _ _ _ i v Fe _ K B I). eapply forall2_weaken; [|exact Hf]. auto.
      + rewrite Fo by exact K. symmetry. apply Ho. exact K.
    - destruct (IH (overwrite bad x vals)) as (fuel & IHf); auto.
      + intros i K. destruct (in_dec Nat.eq_dec i (positions 0 bad)) as [J|J].
        * destruct (nth_error (overwrite bad x vals) i) as [v|] eqn:Ev.
          -- assert (Hv : ok v).
             { apply (positions_reject' (overwrite bad x vals) [] i v Ev); [cbn; lia|]. cbn [length]. rewrite <- Er. exact K. }
             exact (forall2_agree ok _ _ _ _ i v Fe Hf J Ev Hv).
          -- exfalso. destruct (forall2_In _ _ _ i Fe J) as (b & _ & B). congruence.
        * rewrite Fo by exact J. apply Ho. exact J.
      + exists (Datatypes.S fuel). cbn [gredraw]. fold bad. rewrite Ex, Hd. exact IHf.
  Qed.

  (** The whole of it: a first draw for everything, then the loop. *)
  Lemma gredraw_iff x s0 s out s' : D s0 (seq 0 n) x s -> length x = n ->
    ((exists fuel, gredraw fuel x s = Ok (out, s')) <-> length out = n /\ rejection ok D s0 (seq 0 n) out s').
  Proof.
    intros H0 L.
    assert (Eall : map (fun _ => true) x = repeat true n).
    { rewrite <- L. clear. induction x; cbn; congruence. }
    assert (Sall : sifted ok (seq 0 n) x (positions 0 (map reject x))).
    { rewrite <- L. clear - Hok. generalize 0%nat. induction x as [|v x IH]; intro k; cbn; [constructor|].
      destruct (reject v) eqn:E; [apply sifted_not; [apply reject_not; exact E|apply IH]|apply sifted_ok; [apply Hok; exact E|apply IH]]. }
    assert (Ent : forall P : nat -> V -> Prop, (forall i v, nth_error x i = Some v -> P i v) -> Forall2 P (seq 0 n) x).
    { intros P HP. rewrite <- L. clear - HP. 
      assert (G : forall pre l, x = pre ++ l -> Forall2 P (seq (length pre) (length l)) l).
      { intros pre l. revert pre. induction l as [|v l IH]; intros pre E; cbn; [constructor|].
        constructor; [apply HP; rewrite E; apply nth_app_mid|]. rewrite <- (length_snoc pre v). apply IH.
        rewrite E. apply app_step. }
      apply (G [] x eq_refl). }
    split.
    - intros (fuel & H). destruct (gredraw_sound fuel x s out s' L H) as (Lo & Ho & C). split; [exact Lo|].
      destruct C as [(Z & -> & ->)|(Z & C)].
      + rewrite Z in Sall. eapply last_round; [exact H0|exact Sall|]. apply Ent. auto.
      + eapply more_rounds; [exact H0|exact Sall|exact Z| |exact C]. apply Ent. intros i v Hv Hk. rewrite Ho; [exact Hv|].
        intro K. apply (positions_reject x [] i v Hv) in K. apply Hok in Hk. congruence.
    - intros [Lo H].
      assert (Dfun : forall vals s1, D s0 (seq 0 n) vals s1 -> vals = x /\ s1 = s).
      { intros vals s1 K. rewrite <- positions_all in K, H0. apply HD in K; [|apply repeat_length].
        apply HD in H0; [|apply repeat_length]. rewrite K in H0. injection H0; auto. }
      apply rejection_inv in H. destruct H as (vals & rest & s1 & Hd & Hs & [(-> & -> & Hf)|(Hr & Hf & H1)]);
        destruct (Dfun _ _ Hd) as [-> ->].
      + exists 0%nat. cbn [gredraw]. pose proof (sifted_functional _ _ _ Hs _ Sall) as Er.
        rewrite (proj2 (existsb_positions 0 _) (eq_sym Er)). f_equal. f_equal.
        apply nth_error_ext'. intro i. destruct (Nat.lt_ge_cases i n) as [Q|Q].
        * assert (Q' : (i < length x)%nat) by lia. apply nth_error_Some in Q'. destruct (nth_error x i) as [v|] eqn:Ev; [|congruence].
          symmetry. apply (forall2_at _ _ _ Hf i i v); [rewrite nth_error_seq; destruct (Nat.ltb_spec i n); [reflexivity|lia]|exact Ev].
        * rewrite (proj2 (nth_error_None x i)), (proj2 (nth_error_None out i)) by lia. reflexivity.
      + pose proof (sifted_functional _ _ _ Hs _ Sall) as Er.
        eapply gredraw_complete; [exact H1|exact L|exact Lo|exact Er|exact Hr|].
        intros i K. destruct (Nat.lt_ge_cases i n) as [Q|Q].
        * assert (Q' : (i < length x)%nat) by lia. apply nth_error_Some in Q'. destruct (nth_error x i) as [v|] eqn:Ev; [|congruence].
          apply (forall2_at _ _ _ Hf i i v); [rewrite nth_error_seq; destruct (Nat.ltb_spec i n); [reflexivity|lia]|exact Ev|].
          apply (positions_reject' x [] i v Ev); [cbn; lia|]. cbn [length]. rewrite <- Er. exact K.
        * rewrite (proj2 (nth_error_None x i)), (proj2 (nth_error_None out i)) by lia. reflexivity.
  Qed.
End Rejection.

Lemma rejection_ok {S V} (ok : V -> Prop) (D : S -> list nat -> list V -> S -> Prop) s idx out s' :
  rejection ok D s idx out s' -> forall i, In i idx -> exists v, nth_error out i = Some v /\ ok v.
Proof.
  assert (G : forall idx vals rest out i, sifted ok idx vals rest ->
    Forall2 (fun i v => ok v -> nth_error out i = Some v) idx vals -> In i idx ->
    (exists v, nth_error out i = Some v /\ ok v) \/ In i rest).
  { clear. intros idx vals rest out i Hs. induction Hs as [|j v idx vals rest K H IH|j v idx vals rest K H IH]; intros F Hi; [destruct Hi| |];
      inversion F as [|? ? ? ? F1 F2]; subst.
    - destruct Hi as [->|Hi]; [left; exists v; auto|auto].
    - destruct Hi as [->|Hi]; [right; left; reflexivity|]. destruct (IH F2 Hi); [left|right; right]; assumption. }
  induction 1 as [s idx out vals s' Hd Hs Hf|s idx out vals rest s1 s' Hd Hs Hr Hf H IH]; intros i Hi.
  - destruct (G _ _ _ out i Hs) as [K|[]]; [|exact Hi|exact K].
    clear - Hf. induction Hf; constructor; auto.
  - destruct (G _ _ _ out i Hs Hf Hi) as [K|K]; [exact K|apply IH; exact K].
Qed.

Lemma gredraw_more {S V} reject (draw : S -> list bool -> list V * S) fuel : forall fuel' x s r, (fuel <= fuel')%nat ->
  gredraw reject draw fuel x s = Ok r -> gredraw reject draw fuel' x s = Ok r.
Proof.
  induction fuel as [|fuel IH]; intros fuel' x s r L H.
  - cbn [gredraw] in H. destruct (existsb _ _) eqn:E; [discriminate|]. destruct fuel'; cbn [gredraw]; rewrite E; exact H.
  - destruct fuel' as [|fuel']; [lia|]. cbn [gredraw] in *. destruct (existsb _ _); [|exact H].
    destruct (draw s _) as [new s1]. apply IH; [lia|exact H].
Qed.

Lemma pick_length {A} bad : forall l : list A, length l = length bad -> length (pick bad l) = length (filter (fun b => b) bad).
Proof.
  unfold pick. induction bad as [|b bad IH]; intros [|x l] L; try discriminate; [reflexivity|].
  cbn in *. destruct b; cbn; rewrite IH; lia.
Qed.

Lemma entries_all {A} (l : list A) n : length l = n -> entries_at l (seq 0 n) l.
Proof.
  intros <-. unfold entries_at.
  assert (G : forall pre m, Forall2 (fun i v => nth_error (pre ++ m) i = Some v) (seq (length pre) (length m)) (m : list A)).
  { intros pre m. revert pre. induction m as [|x m IH]; intro pre; cbn; [constructor|]. constructor; [apply nth_app_mid|].
    rewrite app_step, <- (length_snoc pre x). apply IH. }
  apply (G [] l).
Qed.

Section Normal.
  Context {S : Type} (normal : S -> list R -> list R -> list R * S).
  Hypothesis Hn : forall s m d, length (fst (normal s m d)) = length m.
  Variables (mean sd : list R) (n : nat).
  Hypothesis Lm : length mean = n. Hypothesis Ld : length sd = n.
  Variables (reject : R -> bool) (ok : R -> Prop).
  Hypothesis Hok : forall v, ok v <-> reject v = false.

  Definition draw_normal (s : S) (bad : list bool) := normal s (pick bad mean) (pick bad sd).

  Lemma redraw_normal_g fuel : forall x s, redraw_normal normal reject fuel mean sd x s = gredraw reject draw_normal fuel x s.
  Proof.
    induction fuel as [|fuel IH]; intros x s; cbn [redraw_normal gredraw]; [reflexivity|].
    destruct (existsb _ _); [|reflexivity]. unfold draw_normal at 1. destruct (normal _ _ _). apply IH.
  Qed.

  Lemma draw_normal_at s bad vals s' : length bad = n ->
    (draw_normal s bad = (vals, s') <-> normals_at normal mean sd s (positions 0 bad) vals s').
  Proof.
    intro L. assert (Em : entries_at mean (positions 0 bad) (pick bad mean)) by (apply (pick_entries bad [] mean); lia).
    assert (Ed : entries_at sd (positions 0 bad) (pick bad sd)) by (apply (pick_entries bad [] sd); lia).
    unfold draw_normal. split.
    - intro H. exists (pick bad mean), (pick bad sd). auto.
    - intros (m & d & H1 & H2 & H3). rewrite (pick_unique _ _ _ _ Em H1), (pick_unique _ _ _ _ Ed H2). exact H3.
  Qed.

  (** All draws and redraws. *)
  Lemma normal_rejection s0 x s out s' : normal s0 mean sd = (x, s) ->
    ((exists fuel, redraw_normal normal reject fuel mean sd x s = Ok (out, s')) <->
     length out = n /\ rejection ok (normals_at normal mean sd) s0 (seq 0 n) out s').
  Proof.
    intro H0. assert (Lx : length x = n) by (rewrite <- Lm, <- (Hn s0 mean sd), H0; reflexivity).
    rewrite <- (gredraw_iff reject ok Hok draw_normal n (normals_at normal mean sd)) with (x := x) (s := s).
    - split; intros (fuel & H); exists fuel; [rewrite <- redraw_normal_g|rewrite redraw_normal_g]; exact H.
    - intros s1 bad vals s2 L. apply draw_normal_at. exact L.
    - intros s1 bad vals s2 L E. rewrite <- (pick_length bad mean) by lia. rewrite <- (Hn s1 (pick bad mean) (pick bad sd)).
      unfold draw_normal in E. rewrite E. reflexivity.
    - exists mean, sd. split; [apply entries_all; exact Lm|]. split; [apply entries_all; exact Ld|exact H0].
    - exact Lx.
  Qed.
End Normal.

Section Complex.
  Context {S : Type} (standard_normal : S -> nat -> list R * S).
  Hypothesis Hn : forall s n, length (fst (standard_normal s n)) = n.
  Variables (sigma : R).

  Lemma scaled_spec s n e s' : random_complex standard_normal n s = (e, s') ->
    forall c, complex_normals standard_normal c s n (map (fun x => Cmult x (RtoC c)) e) s'.
  Proof.
    unfold random_complex, complex_normals. destruct (standard_normal s n) as [re s1] eqn:E1.
    destruct (standard_normal s1 n) as [im s2] eqn:E2. intros [= <- <-] c.
    pose proof (Hn s n) as L1. pose proof (Hn s1 n) as L2. rewrite E1 in L1. rewrite E2 in L2. cbn in L1, L2.
    exists re, im, s1. split; [reflexivity|]. split; [exact E2|]. split; [rewrite map_length; etransitivity; [apply combine_length|lia]|].
    intros k x y Hx Hy. unfold C. rewrite nth_error_map', nth_error_combine, Hx, Hy. cbn [option_map]. f_equal.
    unfold Cmult, RtoC. cbn [fst snd]. f_equal; ring.
  Qed.

  Lemma complex_functional c s n e1 s1 e2 s2 :
    complex_normals standard_normal c s n e1 s1 -> complex_normals standard_normal c s n e2 s2 -> e1 = e2 /\ s1 = s2.
  Proof.
    intros (re & im & t & R1 & I1 & L1 & H1) (re' & im' & t' & R2 & I2 & L2 & H2).
    rewrite R1 in R2. injection R2 as <- <-. rewrite I1 in I2. injection I2 as <- <-. split; [|reflexivity].
    pose proof (Hn s n) as K1. pose proof (Hn t n) as K2. rewrite R1 in K1. rewrite I1 in K2. cbn in K1, K2.
    apply nth_error_ext'. intro k. destruct (Nat.lt_ge_cases k n) as [Q|Q].
    - assert (Q1 : (k < length re)%nat) by lia. assert (Q2 : (k < length im)%nat) by lia.
      apply nth_error_Some in Q1, Q2. destruct (nth_error re k) eqn:E1, (nth_error im k) eqn:E2; try congruence.
      rewrite (H1 k _ _ E1 E2), (H2 k _ _ E1 E2). reflexivity.
    - rewrite (proj2 (nth_error_None e1 k)), (proj2 (nth_error_None e2 k)) by lia. reflexivity.
  Qed.

  Definition draw_complex (s : S) (bad : list bool) :=
    let '(new, s) := random_complex standard_normal (length (filter (fun b => b) bad)) s in
    (map (fun x => Cmult x (RtoC sigma)) new, s).
  Definition too_big (e : C) : bool := ltb 1 (Cmod e).

  Lemma too_big_ok e : Cmod e <= 1 <-> too_big e = false.
  Proof. unfold too_big, ltb. destruct (Rlt_dec 1 (Cmod e)); split; intros; try lra; congruence. Qed.

  Lemma redraw_complex_g fuel : forall x s, redraw_complex standard_normal fuel sigma x s = gredraw too_big draw_complex fuel x s.
  Proof.
    induction fuel as [|fuel IH]; intros x s; cbn [redraw_complex gredraw]; [reflexivity|].
    fold too_big. change (map (fun e : C => ltb 1 (Cmod e)) x) with (map too_big x).
    destruct (existsb _ _); [|reflexivity]. unfold draw_complex at 1. destruct (random_complex _ _ _). apply IH.
  Qed.

  Definition normals_for (s : S) (idx : list nat) := complex_normals standard_normal sigma s (length idx).

  Lemma draw_complex_at s bad vals s' :
    draw_complex s bad = (vals, s') <-> normals_for s (positions 0 bad) vals s'.
  Proof.
    unfold draw_complex, normals_for. rewrite positions_length.
    destruct (random_complex _ _ _) as [new s1] eqn:E. pose proof (scaled_spec _ _ _ _ E sigma) as Q. split.
    - intros [= <- <-]. exact Q.
    - intro H. destruct (complex_functional _ _ _ _ _ _ _ H Q) as [-> ->]. reflexivity.
  Qed.

  Lemma complex_rejection n s0 e s out s' : random_complex standard_normal n s0 = (e, s) ->
    ((exists fuel, redraw_complex standard_normal fuel sigma (map (fun x => Cmult x (RtoC sigma)) e) s = Ok (out, s')) <->
     length out = n /\ rejection (fun e => Cmod e <= 1) normals_for s0 (seq 0 n) out s').
  Proof.
    intro H0. pose proof (scaled_spec _ _ _ _ H0 sigma) as Q.
    rewrite <- (gredraw_iff too_big (fun e => Cmod e <= 1) too_big_ok draw_complex n normals_for)
      with (x := map (fun x => Cmult x (RtoC sigma)) e) (s := s).
    - split; intros (fuel & H); exists fuel; [rewrite <- redraw_complex_g|rewrite redraw_complex_g]; exact H.
    - intros s1 bad vals s2 _. apply draw_complex_at.
    - intros s1 bad vals s2 _ E. apply draw_complex_at in E. destruct E as (re & im & t & _ & _ & L & _).
      rewrite L. apply positions_length.
    - unfold normals_for. rewrite seq_length. exact Q.
    - destruct Q as (_ & _ & _ & _ & _ & L & _). exact L.
  Qed.
End Complex.

Lemma redraw_complex_more {S} (standard_normal : S -> nat -> list R * S) fuel fuel' sigma x s r : (fuel <= fuel')%nat ->
  redraw_complex standard_normal fuel sigma x s = Ok r -> redraw_complex standard_normal fuel' sigma x s = Ok r.
Proof. rewrite !redraw_complex_g. apply gredraw_more. Qed.

Lemma redraw_normal_more {S} (normal : S -> list R -> list R -> list R * S) reject fuel fuel' mean sd x s r : (fuel <= fuel')%nat ->
  redraw_normal normal reject fuel mean sd x s = Ok r -> redraw_normal normal reject fuel' mean sd x s = Ok r.
Proof. rewrite !redraw_normal_g. apply gredraw_more. Qed.

(** * Populations *)
Lemma broadcast_to_source {V} (a : array V) t r : broadcast_to a t = Ok r ->
  (length (ashape a) <= length t)%nat /\ aget r = fun i => aget a (source (ashape a) i).
Proof.
  unfold broadcast_to. destruct (to_rev _ _) eqn:E; [|discriminate]. intros [= <-].
  apply to_rev_axis in E. split; [apply E|reflexivity].
Qed.

Lemma comes_from_unique s i j j' : comes_from s i j -> comes_from s i j' -> j = j'.
Proof.
  intros [L H] [L' H']. rewrite <- (rev_involutive j), <- (rev_involutive j'). f_equal.
  apply nth_ext with (d := 0%nat) (d' := 0%nat); rewrite !rev_length; [lia|].
  intros k Hk. rewrite H, H' by lia. reflexivity.
Qed.

Lemma populations_iff count sigma l : populations count sigma = Ok l <-> paired count sigma l.
Proof.
  unfold populations, paired. split.
  - destruct (broadcast_shapes _) as [dims|] eqn:Ed; cbn [bind]; [|discriminate].
    destruct (broadcast_to count dims) as [c|] eqn:Ec; cbn [bind]; [|discriminate].
    destruct (broadcast_to sigma dims) as [g|] eqn:Eg; cbn [bind]; [|discriminate].
    intros [= <-]. apply broadcast_shapes_iff in Ed. exists dims, (ndindex dims).
    split; [exact Ed|]. split; [apply ndindex_row_major|].
    apply broadcast_to_source in Ec, Eg. destruct Ec as [Lc ->], Eg as [Lg ->].
    assert (G : forall k, In k (ndindex dims) -> length k = length dims).
    { intros k Hk. apply Proof_Effective.ndindex_In in Hk. apply Proof_Effective.inside_length. exact Hk. }
    induction (ndindex dims) as [|k ks IH]; cbn [map]; constructor.
    + pose proof (G k (or_introl eq_refl)). cbn [fst snd]. split.
      * exists (source (ashape count) k). split; [apply source_spec; lia|reflexivity].
      * exists (source (ashape sigma) k). split; [apply source_spec; lia|reflexivity].
    + apply IH. intros k' H. apply G. right. exact H.
  - intros (dims & ks & Hb & Hr & F).
    rewrite (proj2 (broadcast_shapes_iff _ _) Hb). cbn [bind].
    destruct Hb as (B1 & _ & B2). inversion B1 as [|? ? L1 B1']; subst. inversion B1' as [|? ? L2 _]; subst.
    destruct (broadcast_to_ok count dims L1) as (c & Ec & _).
    { intro k. destruct (B2 k) as [B _]. destruct (B (ashape count)); cbn; auto. }
    destruct (broadcast_to_ok sigma dims L2) as (g & Eg & _).
    { intro k. destruct (B2 k) as [B _]. destruct (B (ashape sigma)); cbn; auto. }
    rewrite Ec, Eg. cbn [bind]. f_equal.
    apply broadcast_to_source in Ec, Eg. destruct Ec as [Lc ->], Eg as [Lg ->].
    assert (ks = ndindex dims) as <- by (eapply row_major_unique; [exact Hr|apply ndindex_row_major]).
    assert (G : forall k, In k ks -> length k = length dims).
    { intros k Hk. destruct Hr as [Hr _]. apply Hr in Hk. apply Proof_Effective.inside_length. exact Hk. }
    clear - F G Lc Lg. induction F as [|k [x y] ks l [(j1 & C1 & E1) (j2 & C2 & E2)] F IH]; [reflexivity|].
    cbn [map]. cbn [fst snd] in *. pose proof (G k (or_introl eq_refl)).
    rewrite (comes_from_unique _ _ _ _ (source_spec (ashape count) k ltac:(lia)) C1).
    rewrite (comes_from_unique _ _ _ _ (source_spec (ashape sigma) k ltac:(lia)) C2).
    rewrite <- E1, <- E2. f_equal. apply IH. intros k' H'. apply G. right. exact H'.
Qed.

Lemma populations_err count sigma e : populations count sigma = Err e -> e = ValueError.
Proof.
  unfold populations. intro H.
  assert (B : forall s t e, brev s t = Err e -> e = ValueError).
  { clear. induction s as [|a s IH]; intros [|b t] e; cbn [brev]; try discriminate.
    unfold bdim. destruct (a =? b), (a =? 1), (b =? 1); cbn [bind]; try (intros [= <-]; reflexivity);
      destruct (brev s t) eqn:E; cbn [bind]; try discriminate; intros [= <-]; eapply IH; exact E. }
  assert (B2 : forall s t e, broadcast2 s t = Err e -> e = ValueError).
  { intros s t e'. unfold broadcast2. destruct (brev _ _) eqn:E; cbn [bind]; [discriminate|]. intros [= <-]. eapply B. exact E. }
  destruct (broadcast_shapes _) as [dims|x] eqn:Ed; cbn [bind] in H.
  - unfold broadcast_to in H. destruct (to_rev _ _); cbn [bind] in H; [|congruence]. destruct (to_rev _ _); cbn [bind] in H; congruence.
  - injection H as <-. cbn [broadcast_shapes bind] in Ed.
    destruct (broadcast2 (ashape sigma) []) as [t|] eqn:E2; cbn [bind] in Ed; [eapply B2; exact Ed|].
    injection Ed as <-. eapply B2. exact E2.
Qed.

(** * Intrinsically normal ellipticities *)
Lemma modulus_eq (e : C) : sqrt (fst e * fst e + snd e * snd e) = Cmod e.
Proof. unfold Cmod. f_equal. ring. Qed.

Lemma tanh_ratio x : (1 - tanh x) / (1 + tanh x) = exp (- (2 * x)).
Proof.
  unfold tanh, sinh, cosh. pose proof (exp_pos x). pose proof (exp_pos (- x)).
  replace (- (2 * x)) with (- x + - x) by ring. rewrite exp_plus.
  assert (E : exp x * exp (- x) = 1) by (rewrite <- exp_plus; replace (x + - x) with 0 by ring; apply exp_0).
  transitivity (exp (- x) / exp x).
  - field. split; [lra|]. split; [lra|]. intro K. lra.
  - apply (Rmult_eq_reg_r (exp x)); [|lra]. transitivity (exp (- x)); [field; lra|]. 
    transitivity (exp (- x) * (exp x * exp (- x))); [rewrite E; ring|ring].
Qed.

Lemma tanh_range x : 0 <= x -> 0 <= tanh x < 1.
Proof.
  intro H. unfold tanh, sinh, cosh. pose proof (exp_pos x). pose proof (exp_pos (- x)).
  assert (exp (- x) <= exp x). { destruct (Req_dec x 0) as [->|]; [rewrite Ropp_0; lra|]. left. apply exp_increasing. lra. }
  split.
  - apply Rmult_le_pos; [lra|]. apply Rlt_le, Rinv_0_lt_compat. lra.
  - apply (Rmult_lt_reg_r ((exp x + exp (- x)) / 2)); [lra|]. 
    replace ((exp x - exp (- x)) / 2 / ((exp x + exp (- x)) / 2) * ((exp x + exp (- x)) / 2)) with ((exp x - exp (- x)) / 2) by (field; lra).
    lra.
Qed.

Lemma shrink_spec eta : log_axis_ratio (shrink eta) eta.
Proof.
  unfold log_axis_ratio, shrink. rewrite modulus_eq. set (r := Cmod eta).
  pose proof (Cmod_ge_0 eta) as N. fold r in N.
  destruct (Rlt_dec 0 r) as [L|L].
  - pose proof (tanh_range (r / 2) ltac:(lra)) as T.
    assert (E : Cmod (eta * RtoC (tanh (r / 2) / r))%C = tanh (r / 2)).
    { rewrite Cmod_mult, Cmod_R. fold r. rewrite Rabs_right.
      - field. lra.
      - apply Rle_ge, Rmult_le_pos; [lra|]. apply Rlt_le, Rinv_0_lt_compat. exact L. }
    rewrite E. split; [lra|]. split; [rewrite tanh_ratio; f_equal; field|].
    unfold Cmult, RtoC. destruct eta as [x y]. cbn [fst snd]. f_equal; field; lra.
  - assert (r = 0) by lra. assert (eta = RtoC 0) as -> by (apply Cmod_eq_0; exact H).
    rewrite H. replace (RtoC 0 * RtoC 1)%C with (RtoC 0) by (unfold Cmult, RtoC; cbn [fst snd]; f_equal; ring).
    rewrite Cmod_0. split; [lra|]. split; [rewrite Ropp_0, exp_0; field|].
    reflexivity.
Qed.

Lemma log_axis_ratio_unique e e' eta : log_axis_ratio e eta -> log_axis_ratio e' eta -> e = e'.
Proof.
  intros (H1 & H2 & H3) (K1 & K2 & K3).
  pose proof (Cmod_ge_0 e). pose proof (Cmod_ge_0 e').
  assert (E : Cmod e = Cmod e').
  { rewrite <- H2 in K2. apply (f_equal (fun x => x * (1 + Cmod e) * (1 + Cmod e'))) in K2.
    replace ((1 - Cmod e') / (1 + Cmod e') * (1 + Cmod e) * (1 + Cmod e')) with ((1 - Cmod e') * (1 + Cmod e)) in K2 by (field; lra).
    replace ((1 - Cmod e) / (1 + Cmod e) * (1 + Cmod e) * (1 + Cmod e')) with ((1 - Cmod e) * (1 + Cmod e')) in K2 by (field; lra).
    lra. }
  destruct (Req_EM_T (Cmod eta) 0) as [Z|Z].
  - rewrite Z, Ropp_0, exp_0 in H2. apply (f_equal (fun x => x * (1 + Cmod e))) in H2.
    replace ((1 - Cmod e) / (1 + Cmod e) * (1 + Cmod e)) with (1 - Cmod e) in H2 by (field; lra).
    assert (Cmod e = 0) as Z1 by lra. assert (Cmod e' = 0) as Z2 by lra.
    apply Cmod_eq_0 in Z1, Z2. congruence.
  - rewrite <- E, <- H3 in K3. unfold Cmult, RtoC in K3. destruct e as [x y], e' as [x' y']. cbn [fst snd] in K3.
    injection K3 as A B. f_equal; apply (Rmult_eq_reg_l (Cmod eta)); lra.
Qed.
