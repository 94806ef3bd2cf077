(** Proofs about grids in binary64. *)
From Coq Require Import ZArith Reals Lra Lia Psatz List.
From Flocq Require Import Core Relative.
From Verif Require Import Base Model_SpectraFloat Proof_SpectraFloat Model_Windows Model_GridFloat Spec_Numeric.
Open Scope R_scope.

(** * Rounding of given rational numbers *)

Lemma nearest_even y m : Rabs (y - IZR m) < / 2 \/ (Rabs (y - IZR m) = / 2 /\ Z.even m = true) ->
  ZnearestE y = m.
Proof.
  intros [H|[H E]]; [apply Znearest_imp; exact H|].
  destruct (Rle_dec 0 (y - IZR m)) as [P|P].
  - rewrite Rabs_pos_eq in H by lra.
    assert (F : Zfloor y = m) by (apply Zfloor_imp; rewrite plus_IZR; lra).
    unfold Znearest. rewrite F. rewrite Rcompare_Eq by lra. rewrite E. reflexivity.
  - rewrite Rabs_left in H by lra.
    assert (F : Zfloor y = (m - 1)%Z) by (apply Zfloor_imp; rewrite plus_IZR, minus_IZR; lra).
    unfold Znearest. rewrite F, minus_IZR. rewrite Rcompare_Eq by lra.
    replace (Z.even (m - 1)) with false by (rewrite Z.even_sub, E; reflexivity).
    simpl. apply Zceil_imp. rewrite minus_IZR. lra.
Qed.

Lemma bpow_neg k : (0 <= k)%Z -> bpow radix2 (- k) = / IZR (2 ^ k).
Proof.
  intro H. rewrite bpow_opp. f_equal. rewrite <- IZR_Zpower by exact H. reflexivity.
Qed.

Lemma rnd_rational p q m k : (0 < q)%Z -> (0 <= k <= 1074)%Z ->
  (2 ^ 52 * q <= p * 2 ^ k < 2 ^ 53 * q)%Z ->
  (2 * Z.abs (p * 2 ^ k - m * q) < q \/ (2 * Z.abs (p * 2 ^ k - m * q) = q /\ Z.even m = true))%Z ->
  rnd64 (IZR p / IZR q) = IZR m / IZR (2 ^ k).
Proof.
  intros Hq Hk Hr Hm.
  assert (Q : 0 < IZR q) by (apply IZR_lt; exact Hq).
  assert (K : 0 < IZR (2 ^ k)) by (apply IZR_lt; apply Z.pow_pos_nonneg; lia).
  assert (X1 : IZR (2 ^ 52) / IZR (2 ^ k) <= IZR p / IZR q).
  { apply Rmult_le_reg_r with (IZR q * IZR (2 ^ k)); [apply Rmult_lt_0_compat; lra|].
    replace (IZR (2 ^ 52) / IZR (2 ^ k) * (IZR q * IZR (2 ^ k))) with (IZR (2 ^ 52 * q))
      by (rewrite mult_IZR; field; lra).
    replace (IZR p / IZR q * (IZR q * IZR (2 ^ k))) with (IZR (p * 2 ^ k))
      by (rewrite mult_IZR; field; lra).
    apply IZR_le. apply Hr. }
  assert (X2 : IZR p / IZR q < IZR (2 ^ 53) / IZR (2 ^ k)).
  { apply Rmult_lt_reg_r with (IZR q * IZR (2 ^ k)); [apply Rmult_lt_0_compat; lra|].
    replace (IZR (2 ^ 53) / IZR (2 ^ k) * (IZR q * IZR (2 ^ k))) with (IZR (2 ^ 53 * q))
      by (rewrite mult_IZR; field; lra).
    replace (IZR p / IZR q * (IZR q * IZR (2 ^ k))) with (IZR (p * 2 ^ k))
      by (rewrite mult_IZR; field; lra).
    apply IZR_lt. apply Hr. }
  set (x := IZR p / IZR q) in *.
  assert (M : mag radix2 x = (53 - k)%Z :> Z).
  { apply mag_unique_pos. split.
    - replace (53 - k - 1)%Z with (52 + - k)%Z by lia. rewrite bpow_plus, bpow_neg by lia. exact X1.
    - replace (53 - k)%Z with (53 + - k)%Z by lia. rewrite bpow_plus, bpow_neg by lia. exact X2. }
  assert (C : cexp radix2 fexp64 x = (- k)%Z).
  { unfold cexp. rewrite M. unfold fexp64, FLT_exp. lia. }
  unfold rnd64, round, F2R, scaled_mantissa. simpl. rewrite C, Z.opp_involutive.
  rewrite bpow_neg by lia. unfold Rdiv. f_equal. f_equal.
  apply nearest_even.
  assert (B : bpow radix2 k = IZR (2 ^ k)).
  { rewrite <- IZR_Zpower by lia. reflexivity. }
  rewrite B.
  replace (x * IZR (2 ^ k) - IZR m) with (IZR (p * 2 ^ k - m * q) * / IZR q)
    by (unfold x; rewrite minus_IZR, !mult_IZR; field; lra).
  rewrite Rabs_mult, <- abs_IZR, (Rabs_pos_eq (/ IZR q)) by (apply Rlt_le, Rinv_0_lt_compat; lra).
  destruct Hm as [Hm|[Hm E]]; [left|right; split; [|exact E]].
  - apply Rmult_lt_reg_r with (IZR q); [exact Q|]. rewrite Rmult_assoc, Rinv_l, Rmult_1_r by lra.
    apply IZR_lt in Hm. rewrite mult_IZR in Hm. lra.
  - apply Rmult_eq_reg_r with (IZR q); [|lra]. rewrite Rmult_assoc, Rinv_l, Rmult_1_r by lra.
    apply (f_equal IZR) in Hm. rewrite mult_IZR in Hm. lra.
Qed.

(** The same for a number given by an equation. *)
Lemma rnd_is x p q m k : x = IZR p / IZR q ->
  (0 <? q)%Z && (0 <=? k)%Z && (k <=? 1074)%Z && (2 ^ 52 * q <=? p * 2 ^ k)%Z && (p * 2 ^ k <? 2 ^ 53 * q)%Z &&
  ((2 * Z.abs (p * 2 ^ k - m * q) <? q)%Z ||
   ((2 * Z.abs (p * 2 ^ k - m * q) =? q)%Z && Z.even m)) = true ->
  rnd64 x = IZR m / IZR (2 ^ k).
Proof.
  intros -> H. repeat (apply andb_true_iff in H as [H ?]).
  apply rnd_rational; [lia|lia|lia|].
  apply orb_true_iff in H0 as [H0|H0]; [left; lia|].
  apply andb_true_iff in H0 as [H0 H0']. right. split; [lia|exact H0'].
Qed.

Lemma rnd_value x p q m k d : x = IZR p / IZR q ->
  (d =? 2 ^ k)%Z &&
  ((0 <? q)%Z && (0 <=? k)%Z && (k <=? 1074)%Z && (2 ^ 52 * q <=? p * 2 ^ k)%Z && (p * 2 ^ k <? 2 ^ 53 * q)%Z &&
   ((2 * Z.abs (p * 2 ^ k - m * q) <? q)%Z ||
    ((2 * Z.abs (p * 2 ^ k - m * q) =? q)%Z && Z.even m))) = true ->
  rnd64 x = IZR m / IZR d.
Proof.
  intros Hx H. apply andb_true_iff in H as [Hd H]. apply Z.eqb_eq in Hd. subst d.
  apply (rnd_is x p q m k Hx H).
Qed.

(** The next smaller number. *)
Lemma pred_is m k : (2 ^ 52 < m < 2 ^ 53)%Z -> (0 <= k <= 1074)%Z ->
  pred radix2 fexp64 (IZR m / IZR (2 ^ k)) = IZR (m - 1) / IZR (2 ^ k).
Proof.
  intros Hm Hk.
  assert (K : 0 < IZR (2 ^ k)) by (apply IZR_lt; apply Z.pow_pos_nonneg; lia).
  assert (K' : 0 < / IZR (2 ^ k)) by (apply Rinv_0_lt_compat; exact K).
  destruct Hm as [Hm1 Hm2]. apply IZR_lt in Hm1, Hm2.
  set (x := IZR m / IZR (2 ^ k)).
  assert (X1 : IZR (2 ^ 52) * / IZR (2 ^ k) < x) by (apply Rmult_lt_compat_r; assumption).
  assert (X2 : x < IZR (2 ^ 53) * / IZR (2 ^ k)) by (apply Rmult_lt_compat_r; assumption).
  assert (M : mag radix2 x = (53 - k)%Z :> Z).
  { apply mag_unique_pos. split.
    - replace (53 - k - 1)%Z with (52 + - k)%Z by lia. rewrite bpow_plus, bpow_neg by lia.
      apply Rlt_le. exact X1.
    - replace (53 - k)%Z with (53 + - k)%Z by lia. rewrite bpow_plus, bpow_neg by lia. exact X2. }
  assert (P : 0 < x).
  { apply Rle_lt_trans with (IZR (2 ^ 52) * / IZR (2 ^ k)); [|exact X1].
    apply Rmult_le_pos; [apply IZR_le; lia|lra]. }
  rewrite pred_eq_pos by lra. unfold pred_pos. rewrite M.
  rewrite Req_bool_false.
  2:{ replace (53 - k - 1)%Z with (52 + - k)%Z by lia. rewrite bpow_plus, bpow_neg by lia.
      apply Rgt_not_eq. exact X1. }
  rewrite ulp_neq_0 by lra. unfold cexp. rewrite M.
  replace (fexp64 (53 - k)) with (- k)%Z by (unfold fexp64, FLT_exp; lia).
  rewrite bpow_neg by lia. unfold x. rewrite minus_IZR. unfold Rdiv. ring.
Qed.

(** * Rounding errors in general *)

Definition u64 : R := / 2 ^ 53.

Lemma rnd_close x t : bpow radix2 (-1022) <= t -> Rabs x <= t -> Rabs (rnd64 x - x) <= u64 * t.
Proof.
  intros Ht Hx.
  assert (U : / 2 * bpow radix2 (- (53) + 1) = u64).
  { unfold u64. change (- (53) + 1)%Z with (-52)%Z. simpl. lra. }
  destruct (error_N_FLT radix2 (-1074) 53 ltac:(reflexivity) (fun x => negb (Z.even x)) x)
    as (eps & eta & He & Hn & Z0 & E).
  rewrite U in He. unfold rnd64, fexp64. rewrite E.
  replace (x * (1 + eps) + eta - x) with (x * eps + eta) by ring.
  assert (P : 0 <= u64) by (unfold u64; apply Rlt_le, Rinv_0_lt_compat, pow_lt; lra).
  apply Rmult_integral in Z0. destruct Z0 as [->| ->].
  - rewrite Rmult_0_r, Rplus_0_l. apply Rle_trans with (1 := Hn).
    apply Rle_trans with (u64 * bpow radix2 (-1022)).
    + rewrite <- U. rewrite Rmult_assoc, <- bpow_plus. apply Req_le. reflexivity.
    + apply Rmult_le_compat_l; assumption.
  - rewrite Rplus_0_r, Rabs_mult, Rmult_comm. apply Rmult_le_compat; try apply Rabs_pos; assumption.
Qed.

Lemma u64_small : 0 < u64 <= / 1000.
Proof. unfold u64. split; [apply Rinv_0_lt_compat, pow_lt; lra|]. apply Rinv_le_contravar; lra. Qed.

Definition grid_point (start step : R) (i : nat) : R :=
  match i with
  | O => start
  | S O => rnd64 (start + step)
  | _ => rnd64 (start + rnd64 (INR i * rnd64 (rnd64 (start + step) - start)))
  end.

Lemma arange_points start stop step :
  arange_float start stop step =
  map (grid_point start step) (seq 0 (Z.to_nat (Zceil (rnd64 (rnd64 (stop - start) / step))))).
Proof. unfold arange_float. apply map_ext. intros [|[|i]]; reflexivity. Qed.

Lemma Rabs_bounds x t : Rabs x <= t -> - t <= x <= t.
Proof. intro H. apply Rabs_le_inv. exact H. Qed.

Lemma grid_point_close start step i : 0 <= start -> bpow radix2 (-1022) <= step ->
  Rabs (grid_point start step i - (start + INR i * step)) <= 6 * u64 * (INR i * (start + step)).
Proof.
  intros Hs Ht. pose proof u64_small as [U0 U1]. pose proof (bpow_gt_0 radix2 (-1022)) as B.
  set (A := start + step). assert (HA : 0 < A) by (unfold A; lra).
  set (a := u64 * A). assert (Ha : 0 < a) by (apply Rmult_lt_0_compat; assumption).
  assert (R1 : Rabs (rnd64 A - A) <= a).
  { apply rnd_close; [unfold A; lra|]. rewrite Rabs_pos_eq; lra. }
  destruct i as [|[|i]].
  - simpl. rewrite !Rmult_0_l, Rmult_0_r. rewrite Rplus_0_r, Rminus_diag_eq, Rabs_R0 by reflexivity. lra.
  - simpl. rewrite !Rmult_1_l. fold A. rewrite Rmult_assoc. fold a. lra.
  - set (N := INR (S (S i))).
    assert (HN : 2 <= N).
    { unfold N. rewrite !S_INR. pose proof (pos_INR i). lra. }
    unfold grid_point. fold N. fold A.
    set (second := rnd64 A) in *. apply Rabs_bounds in R1.
    set (delta := rnd64 (second - start)).
    assert (Ua : 0 < u64 * a <= / 1000 * a).
    { split; [apply Rmult_lt_0_compat; assumption|]. apply Rmult_le_compat_r; lra. }
    assert (R2 : Rabs (delta - (second - start)) <= u64 * (A + a)).
    { apply rnd_close; [unfold A; lra|]. apply Rabs_le. unfold A in *. lra. }
    apply Rabs_bounds in R2. rewrite Rmult_plus_distr_l in R2. fold a in R2.
    assert (Hd : - (2 * a + / 1000 * a) <= delta - step <= 2 * a + / 1000 * a) by (unfold A in *; lra).
    set (b := N * a). assert (Hb : 2 * a <= b) by (apply Rmult_le_compat_r; lra).
    assert (Hp : - (2 * b + / 1000 * b) <= N * delta - N * step <= 2 * b + / 1000 * b).
    { replace (N * delta - N * step) with (N * (delta - step)) by ring.
      replace (2 * b + / 1000 * b) with (N * (2 * a + / 1000 * a)) by (unfold b; ring).
      rewrite Ropp_mult_distr_r. split; apply Rmult_le_compat_l; lra. }
    assert (Hs1 : N * start + N * step = N * A) by (unfold A; ring).
    assert (Hs2 : start <= N * start).
    { rewrite <- (Rmult_1_l start) at 1. apply Rmult_le_compat_r; lra. }
    assert (Hs3 : step <= N * step).
    { rewrite <- (Rmult_1_l step) at 1. apply Rmult_le_compat_r; lra. }
    assert (Ub : 0 < u64 * b <= / 1000 * b).
    { split; [apply Rmult_lt_0_compat; lra|]. apply Rmult_le_compat_r; lra. }
    assert (HuN : u64 * (N * A) = b) by (unfold b, a; ring).
    assert (R3 : Rabs (rnd64 (N * delta) - N * delta) <= u64 * (N * A + 3 * b)).
    { apply rnd_close; [lra|]. apply Rabs_le. lra. }
    apply Rabs_bounds in R3. rewrite Rmult_plus_distr_l, HuN in R3.
    set (P := rnd64 (N * delta)) in *.
    assert (R4 : Rabs (rnd64 (start + P) - (start + P)) <= u64 * (2 * (N * A) + 5 * b)).
    { apply rnd_close; [lra|]. apply Rabs_le. lra. }
    apply Rabs_bounds in R4.
    replace (u64 * (2 * (N * A) + 5 * b)) with (2 * b + 5 * (u64 * b)) in R4 by (rewrite <- HuN at 1; ring).
    rewrite Rmult_assoc, HuN. apply Rabs_le. lra.
Qed.

Lemma grid_length start stop step :
  0 <= start -> start <= stop -> bpow radix2 (-1022) <= step -> stop + step <= 2 ^ 50 * step ->
  let n := Z.to_nat (Zceil (rnd64 (rnd64 (rnd64 (stop + step) - start) / step))) in
  (1 <= n)%nat /\
  stop + step - 4 * u64 * (stop + step) <= start + INR n * step < stop + 2 * step + 4 * u64 * (stop + step).
Proof.
  intros Hs Hle Ht HM n. pose proof u64_small as [U0 U1]. pose proof (bpow_gt_0 radix2 (-1022)) as B.
  set (M := stop + step) in *. assert (HM0 : 0 < M) by (unfold M; lra).
  set (a := u64 * M). assert (Ha : 0 < a) by (apply Rmult_lt_0_compat; assumption).
  assert (Ha8 : 8 * a <= step).
  { unfold a. replace (8 * (u64 * M)) with (M * / 2 ^ 50) by (unfold u64; field).
    apply Rmult_le_reg_r with (2 ^ 50); [apply pow_lt; lra|].
    rewrite Rmult_assoc, Rinv_l, Rmult_1_r by (apply pow_nonzero; lra). lra. }
  assert (Ua : 0 < u64 * a <= / 1000 * a).
  { split; [apply Rmult_lt_0_compat; assumption|]. apply Rmult_le_compat_r; lra. }
  assert (R1 : Rabs (rnd64 M - M) <= a).
  { apply rnd_close; [unfold M; lra|]. rewrite Rabs_pos_eq; lra. }
  apply Rabs_bounds in R1. set (S1 := rnd64 M) in *.
  set (D := rnd64 (S1 - start)) in *.
  assert (R2 : Rabs (D - (S1 - start)) <= u64 * (M + a)).
  { apply rnd_close; [unfold M in *; lra|]. apply Rabs_le. unfold M in *. lra. }
  apply Rabs_bounds in R2. rewrite Rmult_plus_distr_l in R2. fold a in R2.
  set (q := rnd64 (D / step)) in *.
  assert (T1 : 1 <= (M + 3 * a) / step).
  { apply Rmult_le_reg_r with step; [lra|]. unfold Rdiv. rewrite Rmult_assoc, Rinv_l by lra.
    unfold M in *. lra. }
  assert (B1 : bpow radix2 (-1022) <= 1) by (change 1 with (bpow radix2 0); apply bpow_le; lia).
  assert (R3 : Rabs (q - D / step) <= u64 * ((M + 3 * a) / step)).
  { apply rnd_close; [lra|]. unfold Rdiv. rewrite Rabs_mult.
    rewrite (Rabs_pos_eq (/ step)) by (apply Rlt_le, Rinv_0_lt_compat; lra).
    apply Rmult_le_compat_r; [apply Rlt_le, Rinv_0_lt_compat; lra|].
    apply Rabs_le. unfold M in *. lra. }
  apply Rabs_bounds in R3.
  assert (R3' : - (a + 3 * (u64 * a)) <= q * step - D <= a + 3 * (u64 * a)).
  { replace (q * step - D) with ((q - D / step) * step) by (field; lra).
    replace (a + 3 * (u64 * a)) with (u64 * ((M + 3 * a) / step) * step) by (unfold a; field; lra).
    rewrite Ropp_mult_distr_l. split; apply Rmult_le_compat_r; lra. }
  assert (Q : stop - start + step - 4 * a <= q * step <= stop - start + step + 4 * a)
    by (unfold M in *; lra).
  assert (Q0 : 0 < q).
  { apply Rmult_lt_reg_r with step; lra. }
  assert (C1 : (1 <= Zceil q)%Z).
  { assert (0 < Zceil q)%Z; [|lia]. apply lt_IZR. apply Rlt_le_trans with q; [exact Q0|apply Zceil_ub]. }
  assert (Hn : INR n = IZR (Zceil q)).
  { unfold n. rewrite INR_IZR_INZ, Z2Nat.id by lia. reflexivity. }
  split; [unfold n; lia|]. rewrite Hn, Rmult_assoc. fold a.
  pose proof (Zceil_ub q) as C2. pose proof (Zceil_lb q) as C3.
  assert (E1 : q * step <= IZR (Zceil q) * step) by (apply Rmult_le_compat_r; lra).
  assert (E2 : IZR (Zceil q) * step < (q + 1) * step) by (apply Rmult_lt_compat_r; lra).
  unfold M in *. lra.
Qed.
