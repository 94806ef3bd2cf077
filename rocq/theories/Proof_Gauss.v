(** Expected values of functions of normal random numbers. *)
From Coq Require Import Reals Lra Lia.
From Coquelicot Require Import Coquelicot.
From Verif Require Import Spec_Transform Spec_Gauss.
Local Open Scope R_scope.

Lemma gauss_pos x : 0 < gauss x.
Proof. apply exp_pos. Qed.
Lemma gauss_even x : gauss (- x) = gauss x.
Proof. unfold gauss. f_equal. field. Qed.

Lemma gauss_continuous x : continuous gauss x.
Proof. apply (ex_derive_continuous (V := R_NormedModule)). unfold gauss. auto_derive. exact I. Qed.
Lemma ex_gauss a b : ex_RInt (fun x => 1 * gauss x) a b.
Proof.
  apply (ex_RInt_continuous (V := R_CompleteNormedModule)). intros x _. apply (continuous_mult (K := R_AbsRing) (fun _ => 1) gauss).
  - apply continuous_const.
  - apply gauss_continuous.
Qed.

Lemma exp_square y : 0 <= y -> y ^ 2 / 4 <= exp y.
Proof.
  intro H. replace (exp y) with (exp (y / 2) * exp (y / 2)) by (rewrite <- exp_plus; f_equal; field).
  pose proof (exp_ineq1_le (y / 2)). nra.
Qed.
Lemma gauss_fast x : 1 <= x -> gauss x <= 16 / x ^ 4.
Proof.
  intro H. unfold gauss. replace (- x ^ 2 / 2) with (- (x ^ 2 / 2)) by field. rewrite exp_Ropp.
  assert (P : 0 < x ^ 4) by (apply pow_lt; lra).
  assert (Q : x ^ 4 / 16 <= exp (x ^ 2 / 2)).
  { eapply Rle_trans; [|apply exp_square; pose proof (pow2_ge_0 x); lra]. right. field. }
  replace (16 / x ^ 4) with (/ (x ^ 4 / 16)) by (field; lra). apply Rinv_le_contravar; [lra|exact Q].
Qed.

(** Denominators are bounded from below. *)
Lemma gauss_mass : exists d, 0 < d /\ forall T, 1 <= T -> d <= within (fun _ => 1) T.
Proof.
  exists (within (fun _ => 1) 1). split.
  - apply RInt_gt_0; [lra| |].
    + intros x _. pose proof (gauss_pos x). lra.
    + intros x _. apply (continuous_mult (K := R_AbsRing) (fun _ => 1) gauss); [apply continuous_const|apply gauss_continuous].
  - intros T HT. unfold within.
    assert (C : forall p q t, RInt (fun x => 1 * gauss x) p q + RInt (fun x => 1 * gauss x) q t = RInt (fun x => 1 * gauss x) p t).
    { intros p q t. apply (RInt_Chasles (V := R_CompleteNormedModule) (fun x => 1 * gauss x) p q t); apply ex_gauss. }
    rewrite <- (C (- T) (- (1)) T), <- (C (- (1)) 1 T).
    assert (P : forall a b, a <= b -> 0 <= RInt (fun x => 1 * gauss x) a b).
    { intros a b H. apply RInt_ge_0; [exact H|apply ex_gauss|]. intros x _. pose proof (gauss_pos x). lra. }
    pose proof (P (- T) (- (1)) ltac:(lra)). pose proof (P 1 T HT). lra.
Qed.

(** What is left over vanishes. *)
Lemma mean_by f m r : (forall a b, ex_RInt (fun x => f x * gauss x) a b) ->
  (forall T, 1 <= T -> within f T = m * within (fun _ => 1) T + r T) -> is_lim r p_infty 0 -> mean f m.
Proof.
  intros Ex E L. split; [exact Ex|]. destruct gauss_mass as (d & Hd & Md).
  apply (is_lim_ext_loc (fun T => m + r T * / within (fun _ => 1) T)).
  - exists 1. intros T HT. rewrite (E T) by lra. specialize (Md T ltac:(lra)). field. lra.
  - replace (Finite m) with (Rbar_plus m 0) by (cbn; f_equal; ring). apply is_lim_plus'; [apply is_lim_const|].
    apply is_lim_spec in L. apply is_lim_spec. intro e.
    destruct (L (mkposreal (e * d) (Rmult_lt_0_compat _ _ (cond_pos e) Hd))) as [M HM]. cbn [pos] in HM. exists (Rmax M 1). intros T HT.
    specialize (HM T (Rle_lt_trans _ _ _ (Rmax_l _ _) HT)). specialize (Md T (Rlt_le _ _ (Rle_lt_trans _ _ _ (Rmax_r _ _) HT))).
    rewrite Rminus_0_r in *. rewrite Rabs_mult, (Rabs_right (/ _)) by (apply Rle_ge, Rlt_le, Rinv_0_lt_compat; lra).
    apply (Rmult_lt_reg_r (within (fun _ => 1) T)); [lra|]. rewrite Rmult_assoc, Rinv_l, Rmult_1_r by lra.
    eapply Rlt_le_trans; [exact HM|]. apply Rmult_le_compat_l; [apply Rlt_le, cond_pos|exact Md].
Qed.

Lemma is_lim_small r c : (exists M, forall T, M < T -> Rabs (r T) <= c / T) -> is_lim r p_infty 0.
Proof.
  intros [M H]. apply is_lim_spec. intro e. exists (Rmax (Rmax M 1) (Rabs c / e)). intros T HT. rewrite Rminus_0_r.
  pose proof (Rmax_l (Rmax M 1) (Rabs c / e)). pose proof (Rmax_r (Rmax M 1) (Rabs c / e)). pose proof (Rmax_l M 1). pose proof (Rmax_r M 1).
  eapply Rle_lt_trans; [apply H; lra|]. apply (Rmult_lt_reg_r T); [lra|]. unfold Rdiv. rewrite Rmult_assoc, Rinv_l, Rmult_1_r by lra.
  eapply Rle_lt_trans; [apply Rle_abs|]. pose proof (cond_pos e). apply (Rmult_lt_reg_r (/ e)); [apply Rinv_0_lt_compat; lra|].
  replace (e * T * / e) with T by (field; lra). unfold Rdiv in *. lra.
Qed.

Lemma mean_ext f g m : (forall x, f x = g x) -> mean f m -> mean g m.
Proof.
  intros E [Ex L]. split.
  - intros a b. apply (ex_RInt_ext (fun x => f x * gauss x)); [intros x _; rewrite E; reflexivity|apply Ex].
  - eapply is_lim_ext; [|exact L]. intro T. cbn beta. unfold within. f_equal. apply RInt_ext. intros x _. rewrite E. reflexivity.
Qed.

Lemma mean_lin f g a b m m' : mean f m -> mean g m' -> mean (fun x => a * f x + b * g x) (a * m + b * m').
Proof.
  intros [Ef Lf] [Eg Lg].
  assert (E1 : forall p q, ex_RInt (fun x => a * (f x * gauss x)) p q).
  { intros p q. apply (ex_RInt_scal (V := R_CompleteNormedModule) (fun x => f x * gauss x) p q a). apply Ef. }
  assert (E2 : forall p q, ex_RInt (fun x => b * (g x * gauss x)) p q).
  { intros p q. apply (ex_RInt_scal (V := R_CompleteNormedModule) (fun x => g x * gauss x) p q b). apply Eg. }
  split.
  - intros p q. apply (ex_RInt_ext (fun x => plus (a * (f x * gauss x)) (b * (g x * gauss x)))); [intros x _; unfold plus; cbn; ring|].
    apply (ex_RInt_plus (V := R_CompleteNormedModule)); [apply E1|apply E2].
  - apply (is_lim_ext (fun T => a * (within f T / within (fun _ => 1) T) + b * (within g T / within (fun _ => 1) T))).
    + intro T. assert (W : within (fun x => a * f x + b * g x) T = a * within f T + b * within g T).
      { unfold within. transitivity (RInt (fun x => plus (a * (f x * gauss x)) (b * (g x * gauss x))) (- T) T).
        - apply RInt_ext. intros x _. unfold plus; cbn. ring.
        - rewrite (RInt_plus (V := R_CompleteNormedModule)) by (apply E1 || apply E2). unfold plus; cbn. f_equal.
          + exact (RInt_scal (V := R_CompleteNormedModule) (fun x => f x * gauss x) (- T) T a (Ef _ _)).
          + exact (RInt_scal (V := R_CompleteNormedModule) (fun x => g x * gauss x) (- T) T b (Eg _ _)). }
      rewrite W. unfold Rdiv. ring.
    + apply is_lim_plus'; [apply (is_lim_scal_l _ a p_infty m Lf)|apply (is_lim_scal_l _ b p_infty m' Lg)].
Qed.

(** By parts: a function that is a multiple of another up to a derivative. *)
Lemma mean_parts f g F c m : (forall x, is_derive (fun x => F x * gauss x) x ((c * g x - f x) * gauss x)) ->
  (forall x, continuous f x) -> (forall x, continuous g x) -> mean g m ->
  is_lim (fun T => F T * gauss T - F (- T) * gauss T) p_infty 0 -> mean f (c * m).
Proof.
  intros D Cf Cg [Eg Lg] Lr.
  assert (Ef : forall a b, ex_RInt (fun x => f x * gauss x) a b).
  { intros a b. apply (ex_RInt_continuous (V := R_CompleteNormedModule)). intros x _.
    apply (continuous_mult (K := R_AbsRing) f gauss); [apply Cf|apply gauss_continuous]. }
  assert (M0 : mean (fun x => c * g x + (-1) * f x) 0).
  { apply (mean_by _ 0 (fun T => F T * gauss T - F (- T) * gauss T)); [| |exact Lr].
    - intros a b. apply (ex_RInt_ext (fun x => minus (c * (g x * gauss x)) (f x * gauss x))); [intros x _; unfold minus, plus, opp; cbn; ring|].
      apply (ex_RInt_minus (V := R_CompleteNormedModule)); [|apply Ef].
      apply (ex_RInt_scal (V := R_CompleteNormedModule) (fun x => g x * gauss x) a b c). apply Eg.
    - intros T _. rewrite Rmult_0_l, Rplus_0_l. unfold within. apply is_RInt_unique.
      replace (F (- T) * gauss T) with (F (- T) * gauss (- T)) by (rewrite gauss_even; reflexivity).
      apply (is_RInt_ext (fun x => (c * g x - f x) * gauss x)); [intros x _; change ((c * g x - f x) * gauss x = (c * g x + -1 * f x) * gauss x); ring|].
      apply (is_RInt_derive (V := R_CompleteNormedModule) (fun x => F x * gauss x)); [intros x _; apply D|].
      intros x _. apply (continuous_mult (K := R_AbsRing) (fun x => c * g x - f x) gauss); [|apply gauss_continuous].
      apply (continuous_minus (V := R_NormedModule) (fun x => c * g x) f); [|apply Cf].
      apply (continuous_mult (K := R_AbsRing) (fun _ => c) g); [apply continuous_const|apply Cg]. }
  pose proof (mean_lin _ _ c (-1) _ _ (conj Eg Lg) M0) as H.
  replace (c * m) with (c * m + -1 * 0) by ring. eapply mean_ext; [|exact H]. intro x. cbn. ring.
Qed.

Lemma gauss_derive x : is_derive gauss x (- x * gauss x).
Proof.
  unfold gauss. replace (- x * exp (- x ^ 2 / 2)) with (scal (- x) (exp (- x ^ 2 / 2))) by reflexivity.
  apply (is_derive_comp (V := R_NormedModule) exp (fun x => - x ^ 2 / 2)); [apply is_derive_exp|]. auto_derive; [exact I|field].
Qed.
Lemma parts_derive F x d e : is_derive F x d -> e = (d - x * F x) * gauss x -> is_derive (fun x => F x * gauss x) x e.
Proof.
  intros D ->. replace ((d - x * F x) * gauss x) with (plus (mult d (gauss x)) (mult (F x) (- x * gauss x))) by (unfold plus, mult; cbn; ring).
  apply (is_derive_mult F gauss x d (- x * gauss x)); [exact D|apply gauss_derive|]. intros n m. apply Rmult_comm.
Qed.

Lemma mean_one : mean (fun _ => 1) 1.
Proof.
  apply (mean_by _ 1 (fun _ => 0)); [apply ex_gauss|intros; ring|]. apply is_lim_const.
Qed.

(** Odd powers, with the antiderivative. *)
Lemma mean_x : mean (fun x => x) 0.
Proof.
  replace 0 with (0 * 1) by ring. apply (mean_parts (fun x => x) (fun _ => 1) (fun _ => 1) 0).
  - intro x. eapply parts_derive; [auto_derive; [exact I|reflexivity]|]. ring.
  - intro x. apply continuous_id.
  - intro x. apply continuous_const.
  - apply mean_one.
  - apply (is_lim_ext (fun _ => 0)); [intro; ring|apply is_lim_const].
Qed.

Lemma tail_small k : (k <= 3)%nat -> forall T, 1 < T -> Rabs (T ^ k * gauss T) <= 16 / T.
Proof.
  intros Hk T HT. pose proof (gauss_pos T). assert (P : forall k, 0 < T ^ k) by (intro; apply pow_lt; lra).
  rewrite Rabs_right by (apply Rle_ge, Rmult_le_pos; [apply Rlt_le, P|lra]).
  apply (Rle_trans _ (T ^ 3 * gauss T)); [apply Rmult_le_compat_r; [lra|]; apply Rle_pow; [lra|exact Hk]|].
  apply (Rle_trans _ (T ^ 3 * (16 / T ^ 4))); [apply Rmult_le_compat_l; [apply Rlt_le, P|apply gauss_fast; lra]|]. right. field. lra.
Qed.

Lemma mean_xx : mean (fun x => x ^ 2) 1.
Proof.
  replace 1 with (1 * 1) by ring. apply (mean_parts (fun x => x ^ 2) (fun _ => 1) (fun x => x) 1).
  - intro x. eapply parts_derive; [auto_derive; [exact I|reflexivity]|]. ring.
  - intro x. apply (ex_derive_continuous (V := R_NormedModule)). auto_derive. exact I.
  - intro x. apply continuous_const.
  - apply mean_one.
  - apply (is_lim_small _ 32). exists 1. intros T HT. pose proof (tail_small 1 ltac:(lia) T HT) as H.
    replace (T * gauss T - - T * gauss T) with (2 * (T ^ 1 * gauss T)) by ring. rewrite Rabs_mult, (Rabs_right 2) by lra. unfold Rdiv in *. lra.
Qed.

Lemma mean_xxx : mean (fun x => x ^ 3) 0.
Proof.
  replace 0 with (2 * 0) by ring. apply (mean_parts (fun x => x ^ 3) (fun x => x) (fun x => x ^ 2) 2).
  - intro x. eapply parts_derive; [auto_derive; [exact I|reflexivity]|]. ring.
  - intro x. apply (ex_derive_continuous (V := R_NormedModule)). auto_derive. exact I.
  - intro x. apply continuous_id.
  - apply mean_x.
  - apply (is_lim_ext (fun _ => 0)); [intro; ring|apply is_lim_const].
Qed.

Lemma mean_xxxx : mean (fun x => x ^ 4) 3.
Proof.
  replace 3 with (3 * 1) by ring. apply (mean_parts (fun x => x ^ 4) (fun x => x ^ 2) (fun x => x ^ 3) 3).
  - intro x. eapply parts_derive; [auto_derive; [exact I|reflexivity]|]. ring.
  - intro x. apply (ex_derive_continuous (V := R_NormedModule)). auto_derive. exact I.
  - intro x. apply (ex_derive_continuous (V := R_NormedModule)). auto_derive. exact I.
  - apply mean_xx.
  - apply (is_lim_small _ 32). exists 1. intros T HT. pose proof (tail_small 3 ltac:(lia) T HT) as H.
    replace (T ^ 3 * gauss T - (- T) ^ 3 * gauss T) with (2 * (T ^ 3 * gauss T)) by ring. rewrite Rabs_mult, (Rabs_right 2) by lra. unfold Rdiv in *. lra.
Qed.

(** Completing the square. *)
Lemma exp_gauss s x : exp (s * x) * gauss x = exp (s ^ 2 / 2) * gauss (x - s).
Proof. unfold gauss. rewrite <- !exp_plus. f_equal. field. Qed.

Definition area (x : R) : R := RInt (fun x => 1 * gauss x) 0 x.
Lemma area_derive x : is_derive area x (gauss x).
Proof.
  replace (gauss x) with (1 * gauss x) by ring. apply (is_derive_RInt (V := R_CompleteNormedModule) (fun x => 1 * gauss x) area 0).
  - exists (mkposreal 1 Rlt_0_1). intros y _. apply (RInt_correct (V := R_CompleteNormedModule)). apply ex_gauss.
  - apply (continuous_mult (K := R_AbsRing) (fun _ => 1) gauss); [apply continuous_const|apply gauss_continuous].
Qed.
Lemma area_diff a b : RInt (fun x => 1 * gauss x) a b = area b - area a.
Proof.
  apply is_RInt_unique. apply (is_RInt_derive (V := R_CompleteNormedModule) area).
  - intros x _. replace (1 * gauss x) with (gauss x) by ring. apply area_derive.
  - intros x _. apply (continuous_mult (K := R_AbsRing) (fun _ => 1) gauss); [apply continuous_const|apply gauss_continuous].
Qed.

Lemma far_small s T x : 2 * Rabs s + 2 < T -> T - Rabs s <= x -> gauss x <= 32 / T.
Proof.
  intros H Hx. pose proof (Rabs_pos s).
  apply (Rle_trans _ (16 / x ^ 4)); [apply gauss_fast; lra|]. assert (Hx2 : T <= 2 * x) by lra. assert (Hx1 : 1 <= x) by lra.
  apply (Rle_trans _ (16 / x)).
  - apply Rmult_le_compat_l; [lra|]. apply Rinv_le_contravar; [lra|]. rewrite <- (pow_1 x) at 1. apply Rle_pow; [lra|lia].
  - replace (16 / x) with (32 / (2 * x)) by (field; lra). apply Rmult_le_compat_l; [lra|]. apply Rinv_le_contravar; lra.
Qed.

Lemma area_near s T : 2 * Rabs s + 2 < T -> Rabs (area (T - s) - area T) <= Rabs s * 32 / T /\ Rabs (area (- T - s) - area (- T)) <= Rabs s * 32 / T.
Proof.
  intro H. pose proof (Rle_abs s) as H1. pose proof (Rle_abs (- s)) as H2. rewrite Rabs_Ropp in H2. pose proof (Rabs_pos s) as H3.
  assert (Q : forall a b, (forall c, Rmin a b <= c <= Rmax a b -> gauss c <= 32 / T) -> Rabs (b - a) = Rabs s -> Rabs (area b - area a) <= Rabs s * 32 / T).
  { intros a b B D. destruct (MVT_gen area a b gauss) as (c & Hc & E).
    - intros x _. apply area_derive.
    - intros x _. apply continuity_pt_filterlim. apply (ex_derive_continuous (V := R_NormedModule)). exists (gauss x). apply area_derive.
    - rewrite E, Rabs_mult, D. specialize (B c Hc). pose proof (gauss_pos c). rewrite Rabs_right by lra.
      replace (Rabs s * 32 / T) with (32 / T * Rabs s) by (field; lra). apply Rmult_le_compat_r; lra. }
  split; apply Q.
  - intros c [Hc _]. apply (far_small s T); [exact H|]. revert Hc. unfold Rmin. destruct (Rle_dec _ _); lra.
  - replace (T - s - T) with (- s) by ring. apply Rabs_Ropp.
  - intros c [_ Hc]. rewrite <- gauss_even. apply (far_small s T); [exact H|]. revert Hc. unfold Rmax. destruct (Rle_dec _ _); lra.
  - replace (- T - s - - T) with (- s) by ring. apply Rabs_Ropp.
Qed.

Lemma exp_continuous s x : continuous (fun x => exp (s * x)) x.
Proof. apply (ex_derive_continuous (V := R_NormedModule)). auto_derive. exact I. Qed.

Lemma mean_exp s : mean (fun x => exp (s * x)) (exp (s ^ 2 / 2)).
Proof.
  set (k := exp (s ^ 2 / 2)).
  apply (mean_by _ k (fun T => k * ((area (T - s) - area T) - (area (- T - s) - area (- T))))).
  - intros a b. apply (ex_RInt_continuous (V := R_CompleteNormedModule)). intros x _.
    apply (continuous_mult (K := R_AbsRing) (fun x => exp (s * x)) gauss); [apply exp_continuous|apply gauss_continuous].
  - intros T _. unfold within. rewrite area_diff.
    transitivity (k * (area (T - s) - area (- T - s))); [|ring].
    apply is_RInt_unique. replace (k * (area (T - s) - area (- T - s))) with (minus (k * area (T - s)) (k * area (- T - s))) by (unfold minus, plus, opp; cbn; ring).
    apply (is_RInt_derive (V := R_CompleteNormedModule) (fun x => k * area (x - s))).
    + intros x _. rewrite exp_gauss. apply (is_derive_scal (fun x => area (x - s))).
      replace (gauss (x - s)) with (scal 1 (gauss (x - s))) by (unfold scal; cbn; unfold mult; cbn; ring).
      apply (is_derive_comp (V := R_NormedModule) area (fun x => x - s)); [apply area_derive|]. auto_derive; [exact I|ring].
    + intros x _. apply (continuous_mult (K := R_AbsRing) (fun x => exp (s * x)) gauss); [apply exp_continuous|apply gauss_continuous].
  - apply (is_lim_small _ (k * (64 * Rabs s))). exists (2 * Rabs s + 2). intros T HT. destruct (area_near s T HT) as [A B].
    assert (0 < k) by apply exp_pos. rewrite Rabs_mult, (Rabs_right k) by lra.
    replace (k * (64 * Rabs s) / T) with (k * (Rabs s * 32 / T + Rabs s * 32 / T)) by (field; pose proof (Rabs_pos s); lra).
    apply Rmult_le_compat_l; [lra|]. unfold Rminus at 1. eapply Rle_trans; [apply Rabs_triang|]. rewrite Rabs_Ropp. lra.
Qed.

Lemma mean_x_exp s : mean (fun x => x * exp (s * x)) (s * exp (s ^ 2 / 2)).
Proof.
  apply (mean_parts (fun x => x * exp (s * x)) (fun x => exp (s * x)) (fun x => exp (s * x)) s).
  - intro x. eapply parts_derive; [auto_derive; [exact I|reflexivity]|]. ring.
  - intro x. apply (ex_derive_continuous (V := R_NormedModule)). auto_derive. exact I.
  - intro x. apply exp_continuous.
  - apply mean_exp.
  - apply (is_lim_small _ (exp (s ^ 2 / 2) * 64)). exists (2 * Rabs s + 2). intros T HT. pose proof (Rabs_pos s).
    rewrite <- (gauss_even T) at 2. rewrite !exp_gauss. assert (P := exp_pos (s ^ 2 / 2)).
    pose proof (Rle_abs s). pose proof (Rle_abs (- s)) as K. rewrite Rabs_Ropp in K.
    pose proof (far_small s T (T - s) HT ltac:(lra)) as A. pose proof (far_small s T (T + s) HT ltac:(lra)) as B.
    replace (gauss (- T - s)) with (gauss (T + s)) by (rewrite <- gauss_even; f_equal; ring).
    pose proof (gauss_pos (T - s)). pose proof (gauss_pos (T + s)).
    rewrite <- Rmult_minus_distr_l, Rabs_mult, (Rabs_right (exp _)) by lra.
    replace (exp (s ^ 2 / 2) * 64 / T) with (exp (s ^ 2 / 2) * (32 / T + 32 / T)) by (field; lra).
    apply Rmult_le_compat_l; [lra|]. unfold Rminus at 1. eapply Rle_trans; [apply Rabs_triang|]. rewrite Rabs_Ropp, !Rabs_right by lra. lra.
Qed.

Lemma mean_unique f m m' : mean f m -> mean f m' -> m = m'.
Proof. intros [_ L] [_ L']. apply is_lim_unique in L, L'. rewrite L in L'. injection L'. auto. Qed.

Lemma mean_scal f a m : mean f m -> mean (fun x => a * f x) (a * m).
Proof. intro H. pose proof (mean_lin _ _ a 0 _ _ H mean_one) as K. replace (a * m) with (a * m + 0 * 1) by ring. eapply mean_ext; [|exact K]. intro x. cbn. ring. Qed.
Lemma mean_const a : mean (fun _ => a) a.
Proof. pose proof (mean_scal _ a _ mean_one) as H. rewrite Rmult_1_r in H. eapply mean_ext; [|exact H]. intro x. cbn. ring. Qed.
Lemma mean_eq f g m m' : mean f m -> (forall x, f x = g x) -> m = m' -> mean g m'.
Proof. intros H E <-. eapply mean_ext; [exact E|exact H]. Qed.
(** Polynomials of degree up to four. *)
Lemma mean_poly a b c d e : mean (fun x => a + b * x + c * x ^ 2 + d * x ^ 3 + e * x ^ 4) (a + c + 3 * e).
Proof.
  pose proof (mean_lin _ _ a b _ _ mean_one mean_x) as H1.
  pose proof (mean_lin _ _ c d _ _ mean_xx mean_xxx) as H2.
  pose proof (mean_lin _ _ 1 1 _ _ H1 H2) as H3.
  pose proof (mean_lin _ _ 1 e _ _ H3 mean_xxxx) as H4.
  eapply mean_eq; [exact H4| |]; [intro x|]; cbn beta; ring.
Qed.

(** * Two numbers *)

Lemma mean2_unique p q r f m m' : mean2 p q r f m -> mean2 p q r f m' -> m = m'.
Proof.
  intros (g & Hg & M) (g' & Hg' & M'). apply (mean_unique g'); [|exact M'].
  eapply mean_ext; [|exact M]. intro u. exact (mean_unique _ _ _ (Hg u) (Hg' u)).
Qed.

Lemma mean2_normal p q r : jointly_normal (mean2 p q r) (p ^ 2) (q ^ 2 + r ^ 2) (p * q).
Proof.
  assert (P : forall f a b c d e, (forall x, f x = a + b * x + c * x ^ 2 + d * x ^ 3 + e * x ^ 4) -> mean f (a + c + 3 * e)).
  { intros f a b c d e E. eapply mean_ext; [|apply (mean_poly a b c d e)]. intro x. symmetry. apply E. }
  assert (Q : forall f m a b c d e, m = a + c + 3 * e -> (forall x, f x = a + b * x + c * x ^ 2 + d * x ^ 3 + e * x ^ 4) -> mean f m).
  { intros f m a b c d e -> E. apply (P f a b c d e E). }
  split.
  - intros f g m E (h & H & M). exists h. split; [|exact M]. intro u. eapply mean_ext; [|apply H]. intro w. apply E.
  - intros f g a b m m' (h & H & M) (h' & H' & M'). exists (fun u => a * h u + b * h' u). split; [|apply mean_lin; assumption].
    intro u. apply (mean_lin (fun w => f (p * u) (q * u + r * w)) (fun w => g (p * u) (q * u + r * w))); [apply H|apply H'].
  - exists (fun _ => 1). split; [intro u|]; apply mean_one.
  - exists (fun u => p * u). split; [intro u; apply mean_const|]. apply (Q _ _ 0 p 0 0 0); [ring|intro; ring].
  - exists (fun u => q * u). split; [intro u; apply (Q _ _ (q * u) r 0 0 0); [ring|intro; ring]|]. apply (Q _ _ 0 q 0 0 0); [ring|intro; ring].
  - exists (fun u => (p * u) ^ 2). split; [intro u; apply mean_const|]. apply (Q _ _ 0 0 (p ^ 2) 0 0); [ring|intro; ring].
  - exists (fun u => (q * u) ^ 2 + r ^ 2). split; [intro u; apply (Q _ _ ((q * u) ^ 2) (2 * q * u * r) (r ^ 2) 0 0); [ring|intro; ring]|].
    apply (Q _ _ (r ^ 2) 0 (q ^ 2) 0 0); [ring|intro; ring].
  - exists (fun u => p * u * (q * u)). split; [intro u; apply (Q _ _ (p * u * (q * u)) (p * u * r) 0 0 0); [ring|intro; ring]|].
    apply (Q _ _ 0 0 (p * q) 0 0); [ring|intro; ring].
  - exists (fun u => (p * u) ^ 2 * (q * u)). split; [intro u; apply (Q _ _ ((p * u) ^ 2 * (q * u)) ((p * u) ^ 2 * r) 0 0 0); [ring|intro; ring]|].
    apply (Q _ _ 0 0 0 (p ^ 2 * q) 0); [ring|intro; ring].
  - exists (fun u => p * u * ((q * u) ^ 2 + r ^ 2)). split; [intro u; apply (Q _ _ (p * u * (q * u) ^ 2) (p * u * (2 * q * u * r)) (p * u * r ^ 2) 0 0); [ring|intro; ring]|].
    apply (Q _ _ 0 (p * r ^ 2) 0 (p * q ^ 2) 0); [ring|intro; ring].
  - exists (fun u => (p * u) ^ 2 * ((q * u) ^ 2 + r ^ 2)). split.
    + intro u. apply (Q _ _ ((p * u) ^ 2 * (q * u) ^ 2) ((p * u) ^ 2 * (2 * q * u * r)) ((p * u) ^ 2 * r ^ 2) 0 0); [ring|intro; ring].
    + apply (Q _ _ 0 0 (p ^ 2 * r ^ 2) 0 (p ^ 2 * q ^ 2)); [ring|intro; ring].
  - intros s t. exists (fun u => exp (s * (p * u) + t * (q * u)) * exp ((t * r) ^ 2 / 2)). split.
    + intro u. eapply mean_ext; [|apply (mean_scal _ (exp (s * (p * u) + t * (q * u))) _ (mean_exp (t * r)))].
      intro w. cbn beta. rewrite <- exp_plus. f_equal. ring.
    + eapply mean_eq; [apply (mean_scal _ (exp ((t * r) ^ 2 / 2)) _ (mean_exp (s * p + t * q)))| |].
      * intro u. cbn beta. rewrite Rmult_comm. f_equal. f_equal. ring.
      * rewrite <- exp_plus. f_equal. field.
  - intro t. exists (fun u => p * u * (exp (t * (q * u)) * exp ((t * r) ^ 2 / 2))). split.
    + intro u. eapply mean_eq; [apply (mean_scal _ (p * u * exp (t * (q * u))) _ (mean_exp (t * r)))| |].
      * intro w. cbn beta. rewrite Rmult_assoc, <- exp_plus. f_equal. f_equal. ring.
      * ring.
    + eapply mean_eq; [apply (mean_scal _ (p * exp ((t * r) ^ 2 / 2)) _ (mean_x_exp (t * q)))| |].
      * intro u. cbn beta. replace (t * q * u) with (t * (q * u)) by ring. ring.
      * replace (t ^ 2 * (q ^ 2 + r ^ 2) / 2) with ((t * r) ^ 2 / 2 + (t * q) ^ 2 / 2) by field. rewrite exp_plus. ring.
  - intro t. exists (fun u => exp (t * (p * u)) * (q * u)). split.
    + intro u. apply (Q _ _ (exp (t * (p * u)) * (q * u)) (exp (t * (p * u)) * r) 0 0 0); [ring|intro; ring].
    + eapply mean_eq; [apply (mean_scal _ q _ (mean_x_exp (t * p)))| |].
      * intro u. cbn beta. replace (t * p * u) with (t * (p * u)) by ring. ring.
      * replace (t ^ 2 * p ^ 2 / 2) with ((t * p) ^ 2 / 2) by field. ring.
Qed.
