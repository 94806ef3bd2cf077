(** Means of bounded functions, and bounds of the hyperbolic tangent. *)
From Coq Require Import Reals Lra Lia List.
From Coquelicot Require Import Coquelicot.
From Verif Require Import Spec_Gauss Proof_Gauss Proof_Disc.
Local Open Scope R_scope.

(** The mean keeps the order. *)
Lemma within_pos T : 0 < T -> 0 < within (fun _ => 1) T.
Proof.
  intro H. rewrite within_one. pose proof dd_pos. assert (0 < AA T); [|nra].
  rewrite <- AA_0. unfold AA. pose proof root2. apply Proof_Erf.erf_increasing. apply Rmult_lt_compat_r; [apply Rinv_0_lt_compat|]; lra.
Qed.
Lemma mean_le f g m m' : mean f m -> mean g m' -> (forall x, f x <= g x) -> m <= m'.
Proof.
  intros [Ef Lf] [Eg Lg] H. refine (is_lim_le_loc (fun T => within f T / within (fun _ => 1) T) (fun T => within g T / within (fun _ => 1) T) p_infty m m' _ Lf Lg). exists 1. intros T HT.
  apply Rmult_le_compat_r; [apply Rlt_le, Rinv_0_lt_compat, within_pos; lra|]. unfold within.
  apply RInt_le; [lra|apply Ef|apply Eg|]. intros x _. apply Rmult_le_compat_r; [apply Rlt_le, gauss_pos|apply H].
Qed.

(** A continuous function between zero and a bound has a mean. *)
Lemma mean_bounded f B : (forall x, continuous f x) -> (forall x, 0 <= f x <= B) -> exists m, mean f m.
Proof.
  intros Cf HB. assert (Ex : forall a b, ex_RInt (fun x => f x * gauss x) a b).
  { intros a b. apply (ex_RInt_continuous (V := R_CompleteNormedModule)). intros x _. apply (continuous_mult (K := R_AbsRing) f gauss); [apply Cf|apply gauss_continuous]. }
  pose proof dd_pos as Pd.
  assert (Inc : forall T T', 0 <= T <= T' -> within f T <= within f T').
  { intros T T' HT. unfold within.
    assert (C1 : RInt (fun x => f x * gauss x) (- T') T' = RInt (fun x => f x * gauss x) (- T') (- T) + (RInt (fun x => f x * gauss x) (- T) T + RInt (fun x => f x * gauss x) T T')).
    { rewrite <- (RInt_Chasles (V := R_CompleteNormedModule) _ (- T') (- T) T' (Ex _ _) (Ex _ _)), <- (RInt_Chasles (V := R_CompleteNormedModule) _ (- T) T T' (Ex _ _) (Ex _ _)). reflexivity. }
    assert (P : forall a b, a <= b -> 0 <= RInt (fun x => f x * gauss x) a b).
    { intros a b Hab. apply RInt_ge_0; [exact Hab|apply Ex|]. intros x _. apply Rmult_le_pos; [apply HB|apply Rlt_le, gauss_pos]. }
    pose proof (P (- T') (- T) ltac:(lra)). pose proof (P T T' ltac:(lra)). lra. }
  assert (Up : forall T, 0 <= T -> within f T <= B * (2 * dd)).
  { intros T HT. apply (Rle_trans _ (B * within (fun _ => 1) T)).
    - unfold within. pose proof (RInt_scal (V := R_CompleteNormedModule) (fun x => 1 * gauss x) (- T) T B (ex_gauss _ _)) as Q.
      change (scal B (RInt (fun x => 1 * gauss x) (- T) T)) with (B * RInt (fun x => 1 * gauss x) (- T) T) in Q. rewrite <- Q.
      apply RInt_le; [lra|apply Ex| |].
      + apply (ex_RInt_scal (V := R_CompleteNormedModule) (fun x => 1 * gauss x)). apply ex_gauss.
      + intros x _. unfold scal; cbn -[gauss]; unfold mult; cbn -[gauss]. rewrite Rmult_1_l. apply Rmult_le_compat_r; [apply Rlt_le, gauss_pos|apply HB].
    - rewrite within_one. pose proof (HB 0). apply Rmult_le_compat_l; [lra|]. assert (AA T < 1) by (unfold AA; apply Proof_Erf.erf_bounds). nra. }
  destruct (ex_finite_lim_seq_incr (fun n => within f (INR n)) (B * (2 * dd))) as [v Lv].
  { intro n. apply Inc. rewrite S_INR. pose proof (pos_INR n). lra. }
  { intro n. apply Up, pos_INR. }
  assert (L : is_lim (within f) p_infty v).
  { apply is_lim_spec. intro e. apply is_lim_seq_spec in Lv. destruct (Lv e) as [n Hn]. exists (INR n). intros T HT.
    pose proof (pos_INR n) as Pn. destruct (nfloor_ex T ltac:(lra)) as (k & K1 & K2).
    assert (Hk : (n <= k)%nat). { apply INR_lt in HT || idtac. apply Nat.lt_succ_r. apply INR_lt. rewrite S_INR. lra. }
    pose proof (Hn k Hk) as A. pose proof (Hn (S k) ltac:(lia)) as B'. apply Rabs_def2 in A, B'.
    pose proof (Inc (INR k) T ltac:(split; [apply pos_INR|exact K1])). pose proof (Inc T (INR (S k)) ltac:(rewrite S_INR; lra)).
    apply Rabs_def1; lra. }
  exists (v / (2 * dd)). split; [exact Ex|].
  apply (is_lim_ext_loc (fun T => within f T / (2 * dd) / AA T)).
  - exists 1. intros T HT. rewrite within_one. assert (0 < AA T).
    { rewrite <- AA_0. unfold AA. pose proof root2. apply Proof_Erf.erf_increasing. apply Rmult_lt_compat_r; [apply Rinv_0_lt_compat|]; lra. }
    field. lra.
  - replace (Finite (v / (2 * dd))) with (Rbar_div (v / (2 * dd)) 1) by (cbn; f_equal; field; lra).
    apply is_lim_div; [|apply AA_lim|cbn; intros [= K]; lra|exact I].
    apply (is_lim_scal_r (within f) (/ (2 * dd)) p_infty v). exact L.
Qed.

(** A function of two numbers, bounded and with bounded slope in the first one. *)
Lemma mean_slope f B c : (forall u w, continuous (f u) w) -> (forall u w, 0 <= f u w <= B) -> (forall u u' w, Rabs (f u w - f u' w) <= c * Rabs (u - u')) ->
  exists g m, (forall u, mean (f u) (g u)) /\ mean g m.
Proof.
  intros Cf HB HL.
  assert (G : exists g, forall u, mean (f u) (g u)).
  { exists (fun u => Lim (fun T => within (f u) T / within (fun _ => 1) T) p_infty). intro u.
    destruct (mean_bounded (f u) B (Cf u) (HB u)) as [m Hm]. assert (E : Lim (fun T => within (f u) T / within (fun _ => 1) T) p_infty = m).
    { destruct Hm as [_ L]. apply is_lim_unique in L. rewrite L. reflexivity. }
    rewrite E. exact Hm. }
  destruct G as [g Hg]. exists g.
  assert (Hc : 0 <= c). { pose proof (HL 0 1 0) as K. pose proof (Rabs_pos (f 0 0 - f 1 0)). replace (Rabs (0 - 1)) with 1 in K by (rewrite Rabs_left; lra). lra. }
  assert (Cg : forall u, continuous g u).
  { intro u. apply continuity_pt_filterlim. intros e He. exists (e / (c + 1)). split; [apply Rdiv_lt_0_compat; lra|].
    intros u' [_ Hu]. unfold dist in *; cbn in *. unfold R_dist in *.
    assert (K : Rabs (g u' - g u) <= c * Rabs (u' - u)).
    { apply Rabs_le. split.
      - assert (g u <= g u' + c * Rabs (u' - u)); [|lra].
        apply (mean_le (f u) (fun w => 1 * f u' w + (c * Rabs (u' - u)) * 1)); [apply Hg| |].
        + eapply mean_eq; [apply (mean_lin _ _ 1 (c * Rabs (u' - u)) _ _ (Hg u') mean_one)|reflexivity|ring].
        + intro w. pose proof (HL u u' w) as Q. rewrite Rabs_minus_sym with (x := u) in Q. apply Rabs_le_between in Q. lra.
      - assert (g u' <= g u + c * Rabs (u' - u)); [|lra].
        apply (mean_le (f u') (fun w => 1 * f u w + (c * Rabs (u' - u)) * 1)); [apply Hg| |].
        + eapply mean_eq; [apply (mean_lin _ _ 1 (c * Rabs (u' - u)) _ _ (Hg u) mean_one)|reflexivity|ring].
        + intro w. pose proof (HL u' u w) as Q. apply Rabs_le_between in Q. lra. }
    eapply Rle_lt_trans; [exact K|]. apply (Rle_lt_trans _ ((c + 1) * Rabs (u' - u))); [pose proof (Rabs_pos (u' - u)); nra|].
    apply (Rmult_lt_compat_l (c + 1)) in Hu; [|lra]. replace ((c + 1) * (e / (c + 1))) with e in Hu by (field; lra). exact Hu. }
  destruct (mean_bounded g B Cg) as [m Hm].
  - intro u. split.
    + apply (mean_le (fun _ => 0) (f u)); [apply mean_const|apply Hg|]. intro w. apply HB.
    + apply (mean_le (f u) (fun _ => B)); [apply Hg|apply mean_const|]. intro w. apply HB.
  - exists m. split; [exact Hg|exact Hm].
Qed.

(** The hyperbolic tangent. *)
Lemma tanh_derive x : is_derive tanh x (1 - tanh x ^ 2).
Proof.
  unfold tanh, sinh, cosh. assert (P : 0 < exp x + exp (- x)) by (pose proof (exp_pos x); pose proof (exp_pos (- x)); lra).
  auto_derive; [lra|]. field. lra.
Qed.
Lemma tanh_zero : tanh 0 = 0.
Proof. unfold tanh, sinh, cosh. rewrite Ropp_0. unfold Rdiv. rewrite Rminus_eq_0, !Rmult_0_l. reflexivity. Qed.
Lemma tanh_square x : tanh x ^ 2 < 1.
Proof.
  unfold tanh, sinh, cosh. pose proof (exp_pos x). pose proof (exp_pos (- x)). set (a := exp x) in *. set (b := exp (- x)) in *.
  replace ((a - b) / 2 / ((a + b) / 2)) with ((a - b) / (a + b)) by (field; lra).
  apply (Rmult_lt_reg_r ((a + b) ^ 2)); [apply pow_lt; lra|]. replace (((a - b) / (a + b)) ^ 2 * (a + b) ^ 2) with ((a - b) ^ 2) by (field; lra). nra.
Qed.
Lemma grows f d y : 0 <= y -> (forall x, 0 <= x <= y -> is_derive f x (d x)) -> (forall x, 0 <= x <= y -> 0 <= d x) -> f 0 <= f y.
Proof.
  intros Hy D P. destruct (MVT_gen f 0 y d) as (c & Hc & E).
  - intros x. rewrite Rmin_left, Rmax_right by lra. intro Hx. apply D. lra.
  - intros x. rewrite Rmin_left, Rmax_right by lra. intro Hx. apply continuity_pt_filterlim. apply (ex_derive_continuous (V := R_NormedModule)). exists (d x). apply D. lra.
  - rewrite Rmin_left, Rmax_right in Hc by lra. pose proof (P c Hc). pose proof (Rmult_le_pos _ (y - 0) H ltac:(lra)). lra.
Qed.
Lemma tanh_nonneg y : 0 <= y -> 0 <= tanh y.
Proof.
  intro Hy. rewrite <- tanh_zero. apply (grows tanh (fun x => 1 - tanh x ^ 2)); [exact Hy|intros; apply tanh_derive|]. intros x _. pose proof (tanh_square x). lra.
Qed.
Lemma tanh_below y : 0 <= y -> tanh y <= y.
Proof.
  intro Hy. assert (K : 0 - tanh 0 <= y - tanh y); [|rewrite tanh_zero in K; lra].
  apply (grows (fun y => y - tanh y) (fun x => 1 - (1 - tanh x ^ 2))); [exact Hy| |].
  - intros x _. apply (is_derive_minus (V := R_NormedModule) (fun y => y) tanh); [auto_derive; [exact I|reflexivity]|apply tanh_derive].
  - intros x _. pose proof (pow2_ge_0 (tanh x)). lra.
Qed.
Lemma tanh_above y : 0 <= y -> y - y ^ 3 / 3 <= tanh y.
Proof.
  intro Hy. assert (K : tanh 0 - (0 - 0 ^ 3 / 3) <= tanh y - (y - y ^ 3 / 3)); [|rewrite tanh_zero in K; lra].
  apply (grows (fun y => tanh y - (y - y ^ 3 / 3)) (fun x => (1 - tanh x ^ 2) - (1 - x ^ 2))); [exact Hy| |].
  - intros x _. apply (is_derive_minus (V := R_NormedModule) tanh (fun y => y - y ^ 3 / 3)); [apply tanh_derive|]. auto_derive; [exact I|field].
  - intros x Hx. pose proof (tanh_below x ltac:(lra)). pose proof (tanh_nonneg x ltac:(lra)). nra.
Qed.
Lemma tanh_below5 y : 0 <= y -> y ^ 2 <= 3 -> tanh y <= y - y ^ 3 / 3 + 2 * y ^ 5 / 15.
Proof.
  intros Hy H3. assert (K : 0 - 0 ^ 3 / 3 + 2 * 0 ^ 5 / 15 - tanh 0 <= y - y ^ 3 / 3 + 2 * y ^ 5 / 15 - tanh y); [|rewrite tanh_zero in K; lra].
  apply (grows (fun y => y - y ^ 3 / 3 + 2 * y ^ 5 / 15 - tanh y) (fun x => (1 - x ^ 2 + 2 * x ^ 4 / 3) - (1 - tanh x ^ 2))); [exact Hy| |].
  - intros x _. apply (is_derive_minus (V := R_NormedModule) (fun y => y - y ^ 3 / 3 + 2 * y ^ 5 / 15) tanh); [|apply tanh_derive]. auto_derive; [exact I|field].
  - intros x Hx. pose proof (tanh_above x ltac:(lra)) as A. assert (X3 : x ^ 2 <= 3) by nra.
    assert (P : 0 <= x - x ^ 3 / 3). { replace (x - x ^ 3 / 3) with (x * (1 - x ^ 2 / 3)) by field. apply Rmult_le_pos; lra. }
    assert (Q : (x - x ^ 3 / 3) ^ 2 <= tanh x ^ 2) by (apply pow_incr; lra).
    replace ((x - x ^ 3 / 3) ^ 2) with (x ^ 2 - 2 * x ^ 4 / 3 + x ^ 6 / 9) in Q by field. assert (0 <= x ^ 6) by (apply pow_le; lra). lra.
Qed.

(** Its square, between polynomials. *)
Lemma tanh_square_bounds y : 0 <= y -> y ^ 2 - 2 * y ^ 4 / 3 <= tanh y ^ 2 <= y ^ 2 - 2 * y ^ 4 / 3 + 17 * y ^ 6 / 45.
Proof.
  intro Hy. pose proof (tanh_square y) as S. pose proof (pow2_ge_0 (tanh y)) as S0. set (z := y ^ 2). assert (Hz : 0 <= z) by apply pow2_ge_0.
  replace (y ^ 4) with (z ^ 2) by (unfold z; ring). replace (y ^ 6) with (z ^ 3) by (unfold z; ring).
  destruct (Rle_dec z 3) as [L|L].
  - pose proof (tanh_above y Hy) as A. pose proof (tanh_below5 y Hy L) as B. pose proof (tanh_nonneg y Hy) as T0.
    assert (P : 0 <= y - y ^ 3 / 3). { replace (y - y ^ 3 / 3) with (y * (1 - y ^ 2 / 3)) by field. fold z. apply Rmult_le_pos; lra. }
    split.
    + assert (Q : (y - y ^ 3 / 3) ^ 2 <= tanh y ^ 2) by (apply pow_incr; lra).
      replace ((y - y ^ 3 / 3) ^ 2) with (z - 2 * z ^ 2 / 3 + z ^ 3 / 9) in Q by (unfold z; field). assert (0 <= z ^ 3) by (apply pow_le; lra). lra.
    + assert (Q : tanh y ^ 2 <= (y - y ^ 3 / 3 + 2 * y ^ 5 / 15) ^ 2) by (apply pow_incr; lra).
      replace ((y - y ^ 3 / 3 + 2 * y ^ 5 / 15) ^ 2) with (z - 2 * z ^ 2 / 3 + 17 * z ^ 3 / 45 - 4 / 45 * z ^ 4 * (1 - z / 5)) in Q by (unfold z; field).
      assert (0 <= 4 / 45 * z ^ 4 * (1 - z / 5)) by (apply Rmult_le_pos; [apply Rmult_le_pos; [lra|apply pow_le; lra]|lra]). lra.
  - split; nra.
Qed.

(** The sixth moment of the normal distribution. *)
Lemma mean_x6 : mean (fun x => x ^ 6) 15.
Proof.
  replace 15 with (5 * 3) by ring. apply (mean_parts (fun x => x ^ 6) (fun x => x ^ 4) (fun x => x ^ 5) 5).
  - intro x. eapply parts_derive; [auto_derive; [exact I|reflexivity]|]. ring.
  - intro x. apply (ex_derive_continuous (V := R_NormedModule)). auto_derive. exact I.
  - intro x. apply (ex_derive_continuous (V := R_NormedModule)). auto_derive. exact I.
  - apply mean_xxxx.
  - apply (is_lim_small _ (2 * 256 ^ 4)). exists 2. intros T HT.
    assert (G : gauss T <= (256 / T ^ 4) ^ 4).
    { replace (gauss T) with (gauss (T / 2) ^ 4).
      - apply pow_incr. split; [apply Rlt_le, gauss_pos|]. eapply Rle_trans; [apply gauss_fast; lra|]. right. field. lra.
      - unfold gauss. set (a := - (T / 2) ^ 2 / 2). replace (exp a ^ 4) with (exp a * exp a * (exp a * exp a)) by ring.
        rewrite <- !exp_plus. f_equal. unfold a. field. }
    replace (T ^ 5 * gauss T - (- T) ^ 5 * gauss T) with (2 * (T ^ 5 * gauss T)) by ring. pose proof (gauss_pos T).
    assert (P : forall k, 0 < T ^ k) by (intro; apply pow_lt; lra).
    rewrite Rabs_right by (apply Rle_ge, Rmult_le_pos; [lra|]; apply Rmult_le_pos; [apply Rlt_le, P|lra]).
    apply (Rle_trans _ (2 * (T ^ 5 * (256 / T ^ 4) ^ 4))).
    + apply Rmult_le_compat_l; [lra|]. apply Rmult_le_compat_l; [apply Rlt_le, P|exact G].
    + replace (2 * (T ^ 5 * (256 / T ^ 4) ^ 4)) with (2 * 256 ^ 4 / T * / T ^ 10) by (field; lra).
      rewrite <- (Rmult_1_r (2 * 256 ^ 4 / T)) at 2. apply Rmult_le_compat_l; [apply Rmult_le_pos; [lra|apply Rlt_le, Rinv_0_lt_compat; lra]|].
      rewrite <- Rinv_1. apply Rinv_le_contravar; [lra|]. rewrite <- (pow1 10). apply pow_incr. lra.
Qed.
