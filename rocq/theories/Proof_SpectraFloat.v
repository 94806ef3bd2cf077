From Coq Require Import ZArith Reals Lra Lia Psatz.
From Flocq Require Import Core Relative.
From Verif Require Import Base Model_SpectraFloat Spec_SpectraFloat.
Open Scope R_scope.

#[global] Instance fexp64_valid : Valid_exp fexp64.
Proof. unfold fexp64. apply FLT_exp_valid. reflexivity. Qed.

Lemma dyadic_format (m : Z) (e : Z) :
  (Z.abs m < 2 ^ 53)%Z -> (-1074 <= e)%Z -> generic_format radix2 fexp64 (IZR m * bpow radix2 e).
Proof.
  intros Hm He. unfold fexp64. apply generic_format_FLT.
  exists (Float radix2 m e); [reflexivity|exact Hm|exact He].
Qed.

Lemma format_shift m e x : x = IZR m * bpow radix2 e ->
  (Z.abs m < 2 ^ 53)%Z -> (-1074 <= e)%Z -> generic_format radix2 fexp64 x.
Proof. intros ->. apply dyadic_format. Qed.

Lemma rnd_id x : generic_format radix2 fexp64 x -> rnd64 x = x.
Proof. intro H. unfold rnd64. apply round_generic; [apply valid_rnd_N|exact H]. Qed.

Lemma rnd_ge x y : generic_format radix2 fexp64 x -> x <= y -> x <= rnd64 y.
Proof. intros H H'. unfold rnd64. apply round_ge_generic; auto with typeclass_instances. Qed.
Lemma rnd_le x y : generic_format radix2 fexp64 y -> x <= y -> rnd64 x <= y.
Proof. intros H H'. unfold rnd64. apply round_le_generic; auto with typeclass_instances. Qed.

Lemma faithful_ge x y f : generic_format radix2 fexp64 x -> x <= y -> faithful y f -> x <= f.
Proof.
  intros H H' [-> | ->]; apply round_ge_generic; auto with typeclass_instances.
Qed.
Lemma faithful_le x y f : generic_format radix2 fexp64 y -> x <= y -> faithful x f -> f <= y.
Proof.
  intros H H' [-> | ->]; apply round_le_generic; auto with typeclass_instances.
Qed.

(** Relative error of rounding a positive integer. *)
Lemma rnd_rel x : 1 <= x -> Rabs (rnd64 x - x) <= / 2 ^ 53 * x.
Proof.
  intro Hx.
  assert (H : Rabs (rnd64 x - x) <= / 2 * bpow radix2 (- (53) + 1) * Rabs x).
  { unfold rnd64, fexp64. apply relative_error_N_FLT; [reflexivity|].
    rewrite Rabs_pos_eq by lra. apply Rle_trans with 1; [|exact Hx].
    change 1 with (bpow radix2 0). apply bpow_le. lia. }
  rewrite (Rabs_pos_eq x) in H by lra. eapply Rle_trans; [exact H|].
  right. change (bpow radix2 (- (53) + 1)) with (/ IZR 4503599627370496).
  rewrite (pow_IZR 2 53). change (2 ^ Z.of_nat 53)%Z with 9007199254740992%Z. field.
Qed.

Lemma IZR_lt_pow z n : (z < 2 ^ Z.of_nat n)%Z -> IZR z < 2 ^ n.
Proof.
  intro H. apply IZR_lt in H. rewrite <- (pow_IZR 2 n) in H. exact H.
Qed.

(** The nearest double is at least as near as any other. *)
Lemma rnd_nearest x y : generic_format radix2 fexp64 y -> Rabs (rnd64 x - x) <= Rabs (y - x).
Proof. intro H. destruct (round_N_pt radix2 fexp64 (fun z => negb (Z.even z)) x) as [_ N]. exact (N y H). Qed.

Lemma floor_root_triangle (n t : Z) : (0 <= n < 2 ^ 52)%Z -> (2 * t = n * (n + 1))%Z ->
  Zfloor (rnd64 (sqrt (float_of_int (2 * t)))) = n.
Proof.
  intros Hn Ht. unfold float_of_int. rewrite Ht.
  assert (Hn52 : IZR n + 1 <= 2 ^ 52).
  { rewrite <- (plus_IZR n 1), (pow_IZR 2 52). apply IZR_le. change (2 ^ Z.of_nat 52)%Z with (2 ^ 52)%Z. lia. }
  assert (H0 : 0 <= IZR n) by (apply IZR_le; apply Hn).
  set (x := IZR (n * (n + 1))).
  assert (Ex : x = IZR n * (IZR n + 1)) by (unfold x; rewrite mult_IZR, plus_IZR; reflexivity).
  assert (Fn : generic_format radix2 fexp64 (IZR n)).
  { apply (format_shift n 0); [simpl; ring| |lia]. rewrite Z.abs_eq by lia. lia. }
  assert (Fu : generic_format radix2 fexp64 (IZR n + 1 / 2)).
  { apply (format_shift (2 * n + 1) (-1)); [|rewrite Z.abs_eq by lia; lia|lia].
    rewrite plus_IZR, mult_IZR. change (bpow radix2 (-1)) with (/ 2). field. }
  assert (Hb : IZR n * IZR n <= rnd64 x < (IZR n + 3 / 4) * (IZR n + 3 / 4)).
  { destruct (Z.eq_dec n 0) as [E|E].
    - assert (Ex0 : x = 0) by (unfold x; rewrite E; reflexivity).
      rewrite Ex0, rnd_id by apply generic_format_0. rewrite E. lra.
    - assert (H1 : 1 <= IZR n) by (apply IZR_le; lia).
      assert (Hx1 : 1 <= x) by (rewrite Ex; nra).
      pose proof (rnd_rel x Hx1) as He. apply Rabs_def2b in He || (apply Rabs_le_inv in He).
      assert (Hsmall : / 2 ^ 53 * x <= / 2 * (IZR n)).
      { rewrite Ex. replace (/ 2) with (/ 2 ^ 53 * 2 ^ 52) by (simpl; field).
        rewrite Rmult_assoc. apply Rmult_le_compat_l; [apply Rlt_le, Rinv_0_lt_compat, pow_lt; lra|].
        rewrite (Rmult_comm (IZR n)). apply Rmult_le_compat_r; [lra|exact Hn52]. }
      rewrite Ex in *. nra. }
  assert (Hs : IZR n <= sqrt (rnd64 x) < IZR n + 3 / 4).
  { split.
    - rewrite <- (sqrt_square (IZR n)) by exact H0. apply sqrt_le_1_alt. apply Hb.
    - rewrite <- (sqrt_square (IZR n + 3 / 4)) by lra. apply sqrt_lt_1_alt. split; [nra|apply Hb]. }
  apply Zfloor_imp. rewrite plus_IZR. split.
  - apply rnd_ge; [exact Fn|apply Hs].
  - set (y := sqrt (rnd64 x)) in *. clearbody y. destruct (Rle_or_lt y (IZR n + 1 / 2)) as [L|L].
    + apply Rle_lt_trans with (IZR n + 1 / 2); [apply rnd_le; [exact Fu|exact L]|simpl; lra].
    + pose proof (rnd_nearest y _ Fu) as N. rewrite (Rabs_left (IZR n + 1 / 2 - y)) in N by lra.
      pose proof (Rle_abs (rnd64 y - y)). simpl. lra.
Qed.

(** A number above the middle between a double and the one before is rounded up. *)
Lemma rnd_reaches e u v : generic_format radix2 fexp64 u -> (-1022 <= e)%Z -> bpow radix2 e < u ->
  u - bpow radix2 (e - 52) / 2 < v -> u <= rnd64 v.
Proof.
  intros Fu He Lu Lv. unfold rnd64. apply round_N_ge_midp; [exact fexp64_valid|exact Fu|].
  assert (Pe : 0 < bpow radix2 e) by apply bpow_gt_0.
  assert (Fe : generic_format radix2 fexp64 (bpow radix2 e)).
  { apply generic_format_bpow. unfold fexp64, FLT_exp. lia. }
  pose proof (pred_ge_gt radix2 fexp64 _ _ Fe Fu Lu) as Lp.
  assert (Up : ulp radix2 fexp64 (bpow radix2 e) <= ulp radix2 fexp64 (pred radix2 fexp64 u)).
  { apply ulp_le; [exact fexp64_valid|apply FLT_exp_monotone|]. rewrite !Rabs_pos_eq by lra. exact Lp. }
  rewrite ulp_bpow in Up. replace (fexp64 (e + 1)) with (e - 52)%Z in Up by (unfold fexp64, FLT_exp; lia).
  assert (E : pred radix2 fexp64 u + ulp radix2 fexp64 (pred radix2 fexp64 u) = u).
  { apply pred_plus_ulp; [exact fexp64_valid|lra|exact Fu]. }
  lra.
Qed.

(** The first power of two for which it goes wrong, 2^52, and a number of fields a little above it. *)
Lemma floor_root_wrong : let n := (2 ^ 52 + 2 ^ 26 - 1)%Z in
  Zfloor (rnd64 (sqrt (float_of_int (n * (n + 1))))) = (n + 1)%Z.
Proof.
  intro n. set (X := (2 ^ 104 + 2 ^ 79)%Z).
  assert (FX : generic_format radix2 fexp64 (IZR X)).
  { apply (format_shift (2 ^ 25 + 1) 79); [|rewrite Z.abs_eq by lia; lia|lia].
    change (bpow radix2 79) with (IZR (2 ^ 79)). rewrite <- mult_IZR. reflexivity. }
  assert (E : float_of_int (n * (n + 1)) = IZR X).
  { unfold float_of_int. apply Rle_antisym.
    - apply rnd_le; [exact FX|]. apply IZR_le. unfold n, X. lia.
    - apply (rnd_reaches 104); [exact FX|lia| |].
      + change (bpow radix2 104) with (IZR (2 ^ 104)). apply IZR_lt. unfold X. lia.
      + change (bpow radix2 (104 - 52)) with (IZR (2 ^ 52)). unfold Rdiv.
        assert (H : IZR X - IZR (2 ^ 51) < IZR (n * (n + 1))) by (rewrite <- minus_IZR; apply IZR_lt; unfold n, X; lia).
        replace (IZR (2 ^ 52) * / 2) with (IZR (2 ^ 51)); [exact H|].
        change (2 ^ 52)%Z with (2 * 2 ^ 51)%Z. rewrite mult_IZR. field. }
  rewrite E. set (m := IZR (n + 1)).
  assert (Fm : generic_format radix2 fexp64 m).
  { unfold m. apply (format_shift (n + 1) 0); [simpl; ring|unfold n; rewrite Z.abs_eq by lia; lia|lia]. }
  assert (Pm : 1 < m) by (apply IZR_lt; unfold n; lia).
  assert (Up : sqrt (IZR X) <= m).
  { rewrite <- (sqrt_square m) by lra. apply sqrt_le_1_alt. unfold m. rewrite <- mult_IZR. apply IZR_le. unfold n, X. lia. }
  assert (Lo : m - 1 / 2 < sqrt (IZR X)).
  { rewrite <- (sqrt_square (m - 1 / 2)) by lra. apply sqrt_lt_1_alt. split; [nra|].
    assert (Q : m * m - m + 1 <= IZR X).
    { unfold m. rewrite <- mult_IZR, <- minus_IZR, <- plus_IZR. apply IZR_le. unfold n, X. lia. }
    nra. }
  apply Zfloor_imp. rewrite (plus_IZR (n + 1) 1). fold m. split.
  - apply (rnd_reaches 52); [exact Fm|lia| |].
    + change (bpow radix2 52) with (IZR (2 ^ 52)). apply IZR_lt. unfold n. lia.
    + change (bpow radix2 (52 - 52)) with 1. exact Lo.
  - apply Rle_lt_trans with m; [apply rnd_le; [exact Fm|exact Up]|simpl; lra].
Qed.

Lemma inv_float_ok t n : (0 <= t < 2 ^ 103)%Z ->
  (inv_triangle_number_float t = Ok n <-> (0 <= n /\ 2 * t = n * (n + 1))%Z).
Proof.
  intro Ht. unfold inv_triangle_number_float.
  set (r := Zfloor (rnd64 (sqrt (float_of_int (2 * t))))).
  assert (Hr : (0 <= r)%Z).
  { unfold r. apply Zfloor_lub. simpl. apply rnd_ge; [apply generic_format_0|apply sqrt_pos]. }
  destruct (Z.eqb_spec (r * (r + 1) / 2) t) as [E|E]; cbn [negb].
  - assert (E2 : (2 * t = r * (r + 1))%Z).
    { rewrite <- E. assert (exists q, r * (r + 1) = 2 * q)%Z as [q ->].
      { destruct (Z.Even_or_Odd r) as [[q ->]|[q ->]].
        - exists (q * (2 * q + 1))%Z; ring.
        - exists ((2 * q + 1) * (q + 1))%Z; ring. }
      rewrite (Z.mul_comm 2 q), Z.div_mul by lia. ring. }
    split.
    + intro H; injection H as <-. auto.
    + intros [H1 H2]. f_equal. nia.
  - split; [discriminate|]. intros [H1 H2]. exfalso. apply E.
    assert (Hn : r = n).
    { unfold r. apply floor_root_triangle; [|exact H2]. nia. }
    rewrite Hn, <- H2, Z.mul_comm, Z.div_mul by lia. reflexivity.
Qed.

Lemma inv_float_err t : (0 <= t < 2 ^ 103)%Z ->
  (inv_triangle_number_float t = Err ValueError <->
   forall n, (0 <= n)%Z -> (2 * t <> n * (n + 1))%Z).
Proof.
  intro Ht. split.
  - intros H n H1 H2. rewrite (proj2 (inv_float_ok t n Ht)) in H by auto. discriminate.
  - intro H. destruct (inv_triangle_number_float t) as [n|e] eqn:E.
    + apply inv_float_ok in E as [H1 H2]; [|exact Ht]. exfalso. exact (H n H1 H2).
    + unfold inv_triangle_number_float in E. destruct (negb _); congruence.
Qed.

(** A number below the middle between a double and the next is rounded down. *)
Lemma rnd_stays e u v : generic_format radix2 fexp64 u -> (-1022 <= e)%Z -> bpow radix2 e <= u ->
  u <= v < u + bpow radix2 (e - 52) / 2 -> rnd64 v = u.
Proof.
  intros Fu He Lu [L1 L2]. apply Rle_antisym; [|apply rnd_ge; assumption]. unfold rnd64.
  apply round_N_le_midp; [exact fexp64_valid|exact Fu|].
  assert (Pe : 0 < bpow radix2 e) by apply bpow_gt_0.
  assert (Up : ulp radix2 fexp64 (bpow radix2 e) <= ulp radix2 fexp64 u).
  { apply ulp_le; [exact fexp64_valid|apply FLT_exp_monotone|]. rewrite !Rabs_pos_eq by lra. exact Lu. }
  rewrite ulp_bpow in Up. replace (fexp64 (e + 1)) with (e - 52)%Z in Up by (unfold fexp64, FLT_exp; lia).
  rewrite succ_eq_pos by lra. lra.
Qed.

(** The last spectrum of row 2^27. *)
Lemma row_wrong : row_of_counter_float (fun x => rnd64 (sqrt x)) (2 ^ 53 + 3 * 2 ^ 26) = (2 ^ 27 + 1)%Z.
Proof.
  unfold row_of_counter_float, float_of_int. set (x := IZR (2 * (2 ^ 53 + 3 * 2 ^ 26))).
  assert (Fx : generic_format radix2 fexp64 x).
  { apply (format_shift (2 ^ 27 + 3) 27); [|rewrite Z.abs_eq by lia; lia|lia].
    change (bpow radix2 27) with (IZR (2 ^ 27)). unfold x. rewrite <- mult_IZR. reflexivity. }
  rewrite (rnd_id x Fx). rewrite (rnd_stays 54 x (x + 1 / 4) Fx); [|lia| |].
  2:{ change (bpow radix2 54) with (IZR (2 ^ 54)). unfold x. apply IZR_le. lia. }
  2:{ change (bpow radix2 (54 - 52)) with 4. lra. }
  set (i := IZR (2 ^ 27)).
  assert (Ei : 1 < i) by (apply IZR_lt; lia).
  assert (Ex : x = i * i + 3 * i).
  { unfold x, i. rewrite <- !mult_IZR, <- plus_IZR. reflexivity. }
  assert (Fu : generic_format radix2 fexp64 (i + 3 / 2)).
  { apply (format_shift (2 ^ 28 + 3) (-1)); [|rewrite Z.abs_eq by lia; lia|lia].
    unfold i. rewrite plus_IZR. change (2 ^ 28)%Z with (2 * 2 ^ 27)%Z. rewrite mult_IZR.
    change (bpow radix2 (-1)) with (/ 2). field. }
  assert (R : rnd64 (sqrt x) = i + 3 / 2).
  { apply Rle_antisym.
    - apply rnd_le; [exact Fu|]. rewrite <- (sqrt_square (i + 3 / 2)) by lra. apply sqrt_le_1_alt. rewrite Ex. nra.
    - apply (rnd_reaches 27); [exact Fu|lia| |].
      + change (bpow radix2 27) with (IZR (2 ^ 27)). fold i. lra.
      + assert (B : bpow radix2 (27 - 52) / 2 = 2 / i).
        { change (bpow radix2 (27 - 52)) with (/ IZR (2 ^ 25)).
          replace i with (4 * IZR (2 ^ 25)); [field; apply not_0_IZR; lia|].
          unfold i. rewrite <- mult_IZR. reflexivity. }
        rewrite B. assert (I0 : 0 < 2 / i <= 2).
        { split; [apply Rdiv_lt_0_compat; lra|]. apply (Rmult_le_reg_r i); [lra|]. unfold Rdiv. rewrite Rmult_assoc, Rinv_l by lra. lra. }
        assert (I4 : 2 / i <= 1 / 2).
        { apply (Rmult_le_reg_r i); [lra|]. unfold Rdiv at 1. rewrite Rmult_assoc, Rinv_l by lra.
          assert (4 <= i) by (apply IZR_le; lia). lra. }
        rewrite <- (sqrt_square (i + 3 / 2 - 2 / i)) by lra. apply sqrt_lt_1_alt. split; [nra|]. rewrite Ex.
        assert (P : i * (2 / i) = 2) by (field; lra). nra. }
  rewrite R. replace (i + 3 / 2 - 1 / 2) with (IZR (2 ^ 27 + 1)) by (unfold i; rewrite plus_IZR; lra).
  rewrite rnd_id; [apply Ztrunc_IZR|]. apply (format_shift (2 ^ 27 + 1) 0); [simpl; ring|rewrite Z.abs_eq by lia; lia|lia].
Qed.

Section Row.
Context (pow_half : R -> R) (Hpow : forall x, 0 <= x -> faithful (sqrt x) (pow_half x)).

Lemma row_float (k i : Z) : (0 <= k < 2 ^ 50)%Z -> (0 <= i)%Z ->
  (i * (i + 1) <= 2 * k < (i + 1) * (i + 2))%Z -> row_of_counter_float pow_half k = i.
Proof using Hpow.
  intros Hk Hi Hrow. unfold row_of_counter_float, float_of_int.
  assert (F1 : generic_format radix2 fexp64 (IZR (2 * k))).
  { apply (format_shift (2 * k) 0); [simpl; ring| |lia]. rewrite Z.abs_eq by lia. lia. }
  rewrite (rnd_id (IZR (2 * k))) by exact F1.
  assert (F2 : generic_format radix2 fexp64 (IZR (2 * k) + 1 / 4)).
  { apply (format_shift (8 * k + 1) (-2)); [|rewrite Z.abs_eq by lia; lia|lia].
    rewrite plus_IZR, !mult_IZR. change (bpow radix2 (-2)) with (/ 4). field. }
  rewrite (rnd_id _ F2).
  set (x := IZR (2 * k) + 1 / 4).
  assert (H0 : 0 <= IZR i) by (apply IZR_le; exact Hi).
  assert (Hi25 : (i < 47453133)%Z) by nia.
  assert (Hi25' : IZR i < 47453133) by (apply IZR_lt; exact Hi25).
  assert (Hlow : IZR i * (IZR i + 1) <= IZR (2 * k)).
  { rewrite <- (plus_IZR i 1), <- mult_IZR. apply IZR_le. apply Hrow. }
  assert (Hup : IZR (2 * k) <= (IZR i + 1) * (IZR i + 2) - 2).
  { rewrite <- (plus_IZR i 1), <- (plus_IZR i 2), <- mult_IZR, <- minus_IZR. apply IZR_le.
    assert (exists q, (i + 1) * (i + 2) = 2 * q)%Z as [q Hq].
    { destruct (Z.Even_or_Odd i) as [[q ->]|[q ->]].
      - exists ((2 * q + 1) * (q + 1))%Z; ring.
      - exists ((q + 1) * (2 * q + 3))%Z; ring. }
    lia. }
  set (d := / 67108864).
  assert (Hd : 0 < d) by (unfold d; lra).
  assert (Hd1 : d <= / 4) by (unfold d; lra).
  assert (Hid : d * (IZR i + 3 / 2) <= 1) by (unfold d; simpl in Hi25'; lra).
  assert (Hs : IZR i + 1 / 2 <= sqrt x <= IZR i + 3 / 2 - d).
  { split.
    - rewrite <- (sqrt_square (IZR i + 1 / 2)) by lra. apply sqrt_le_1_alt. unfold x. nra.
    - rewrite <- (sqrt_square (IZR i + 3 / 2 - d)) by lra. apply sqrt_le_1_alt. unfold x. nra. }
  assert (F3 : generic_format radix2 fexp64 (IZR i + 1 / 2)).
  { apply (format_shift (2 * i + 1) (-1)); [|rewrite Z.abs_eq by lia; lia|lia].
    rewrite plus_IZR, mult_IZR. change (bpow radix2 (-1)) with (/ 2). field. }
  assert (Ed : bpow radix2 (-26) = d) by reflexivity.
  assert (F4 : generic_format radix2 fexp64 (IZR i + 3 / 2 - d)).
  { apply (format_shift (67108864 * i + 100663296 - 1) (-26)); [|rewrite Z.abs_eq by lia; lia|lia].
    rewrite minus_IZR, plus_IZR, mult_IZR, Ed. unfold d. field. }
  assert (F5 : generic_format radix2 fexp64 (IZR i)).
  { apply (format_shift i 0); [simpl; ring| |lia]. rewrite Z.abs_eq by lia. lia. }
  assert (F6 : generic_format radix2 fexp64 (IZR i + 1 - d)).
  { apply (format_shift (67108864 * i + 67108864 - 1) (-26)); [|rewrite Z.abs_eq by lia; lia|lia].
    rewrite minus_IZR, plus_IZR, mult_IZR, Ed. unfold d. field. }
  assert (Hx : 0 <= x) by (unfold x; nra).
  pose proof (Hpow x Hx) as Hf.
  pose proof (faithful_ge _ _ _ F3 (proj1 Hs) Hf) as Hp1.
  pose proof (faithful_le _ _ _ F4 (proj2 Hs) Hf) as Hp2.
  set (p := pow_half x) in *.
  assert (Hr1 : IZR i <= rnd64 (p - 1 / 2)) by (apply rnd_ge; [exact F5|lra]).
  assert (Hr2 : rnd64 (p - 1 / 2) <= IZR i + 1 - d) by (apply rnd_le; [exact F6|lra]).
  rewrite Ztrunc_floor by lra.
  apply Zfloor_imp. rewrite plus_IZR. simpl. lra.
Qed.
End Row.
