(** The Gaussian integral and the error function. *)
From Coq Require Import Reals Lra Lia.
From Coquelicot Require Import Coquelicot.
From Verif Require Import Spec_Gauss Spec_Erf Proof_Gauss.
Local Open Scope R_scope.

Definition bump (t : R) : R := exp (- t ^ 2).
Definition half (x : R) : R := RInt bump 0 x.
Definition slice (x t : R) : R := exp (- (x ^ 2 * (1 + t ^ 2))) / (1 + t ^ 2).
Definition other (x : R) : R := RInt (fun t => slice x t) 0 1.

Lemma bump_continuous x : continuous bump x.
Proof. apply (ex_derive_continuous (V := R_NormedModule)). unfold bump. auto_derive. exact I. Qed.
Lemma half_derive x : is_derive half x (bump x).
Proof.
  apply (is_derive_RInt (V := R_CompleteNormedModule) bump half 0).
  - exists (mkposreal 1 Rlt_0_1). intros y _. apply (RInt_correct (V := R_CompleteNormedModule)).
    apply (ex_RInt_continuous (V := R_CompleteNormedModule)). intros; apply bump_continuous.
  - apply bump_continuous.
Qed.
Lemma half_0 : half 0 = 0.
Proof. unfold half. rewrite RInt_point. reflexivity. Qed.

Lemma square_pos t : 0 < 1 + t ^ 2.
Proof. pose proof (pow2_ge_0 t). lra. Qed.

Lemma slice_derive x t : is_derive (fun u => slice u t) x (-2 * x * exp (- (x ^ 2 * (1 + t ^ 2)))).
Proof.
  pose proof (square_pos t) as P. unfold slice.
  eapply is_derive_ext_loc with (f := fun u => / (1 + t ^ 2) * exp (- (u ^ 2 * (1 + t ^ 2)))).
  - exists (mkposreal 1 Rlt_0_1). intros y _. apply Rmult_comm.
  - replace (-2 * x * exp (- (x ^ 2 * (1 + t ^ 2)))) with (/ (1 + t ^ 2) * (-2 * x * (1 + t ^ 2) * exp (- (x ^ 2 * (1 + t ^ 2))))) by (field; lra).
    apply is_derive_scal. replace (-2 * x * (1 + t ^ 2) * exp (- (x ^ 2 * (1 + t ^ 2)))) with (scal (-2 * x * (1 + t ^ 2)) (exp (- (x ^ 2 * (1 + t ^ 2))))) by reflexivity.
    apply (is_derive_comp (V := R_NormedModule) exp (fun u => - (u ^ 2 * (1 + t ^ 2)))); [apply is_derive_exp|]. auto_derive; [exact I|ring].
Qed.

Lemma slice_continuous x t : continuous (fun t => slice x t) t.
Proof. pose proof (square_pos t). apply (ex_derive_continuous (V := R_NormedModule)). unfold slice. auto_derive. cbn in *. lra. Qed.

Lemma other_derive x : is_derive other x (-2 * exp (- x ^ 2) * half x).
Proof.
  assert (D : is_derive other x (RInt (fun t => Derive (fun u => slice u t) x) 0 1)).
  { apply (is_derive_RInt_param slice 0 1 x).
    - exists (mkposreal 1 Rlt_0_1). intros y _ t _. eexists. apply slice_derive.
    - intros t _. apply (continuity_2d_pt_ext (fun u v => -2 * u * exp (- (u * u * (1 + v * v))))).
      + intros u v. symmetry. etransitivity; [exact (is_derive_unique _ _ _ (slice_derive u v))|]. f_equal. f_equal. ring.
      + apply continuity_2d_pt_mult; [apply continuity_2d_pt_mult; [apply continuity_2d_pt_const|apply continuity_2d_pt_id1]|].
        apply (continuity_1d_2d_pt_comp exp (fun u v => - (u * u * (1 + v * v)))).
        * apply derivable_continuous_pt, derivable_pt_exp.
        * apply continuity_2d_pt_opp, continuity_2d_pt_mult; [apply continuity_2d_pt_mult; apply continuity_2d_pt_id1|].
          apply continuity_2d_pt_plus; [apply continuity_2d_pt_const|]. apply continuity_2d_pt_mult; apply continuity_2d_pt_id2.
    - exists (mkposreal 1 Rlt_0_1). intros y _. apply (ex_RInt_continuous (V := R_CompleteNormedModule)). intros; apply slice_continuous. }
  replace (-2 * exp (- x ^ 2) * half x) with (RInt (fun t => Derive (fun u => slice u t) x) 0 1); [exact D|].
  apply is_RInt_unique. apply (is_RInt_ext (fun t => -2 * exp (- x ^ 2) * (x * bump (x * t)))).
  - intros t _. symmetry. etransitivity; [exact (is_derive_unique _ _ _ (slice_derive x t))|]. symmetry. unfold bump.
    replace (- (x ^ 2 * (1 + t ^ 2))) with (- x ^ 2 + - (x * t) ^ 2) by ring. rewrite exp_plus.
    change (-2 * exp (- x ^ 2) * (x * exp (- (x * t) ^ 2)) = -2 * x * (exp (- x ^ 2) * exp (- (x * t) ^ 2))). ring.
  - replace (-2 * exp (- x ^ 2) * half x) with (minus (-2 * exp (- x ^ 2) * half (x * 1)) (-2 * exp (- x ^ 2) * half (x * 0))).
    2:{ unfold minus, plus, opp; cbn -[pow half]. rewrite Rmult_1_r, Rmult_0_r, half_0. ring. }
    apply (is_RInt_derive (V := R_CompleteNormedModule) (fun t => -2 * exp (- x ^ 2) * half (x * t))).
    + intros t _. apply (is_derive_scal (fun t => half (x * t))).
      replace (x * bump (x * t)) with (scal x (bump (x * t))) by reflexivity.
      apply (is_derive_comp (V := R_NormedModule) half (fun t => x * t)); [apply half_derive|]. auto_derive; [exact I|ring].
    + intros t _. apply (ex_derive_continuous (V := R_NormedModule)). unfold bump. auto_derive. exact I.
Qed.

Lemma other_0 : other 0 = PI / 4.
Proof.
  unfold other. apply is_RInt_unique. apply (is_RInt_ext (fun t => / (1 + t ^ 2))).
  - intros t _. unfold slice. replace (- (0 ^ 2 * (1 + t ^ 2))) with 0 by ring. rewrite exp_0. unfold Rdiv. symmetry. apply Rmult_1_l.
  - replace (PI / 4) with (minus (atan 1) (atan 0)).
    2:{ rewrite atan_1, atan_0. unfold minus, plus, opp; cbn. ring. }
    apply (is_RInt_derive (V := R_CompleteNormedModule) atan).
    + intros t _.
      apply is_derive_Reals. apply derivable_pt_lim_atan.
    + intros t _. pose proof (square_pos t). apply (ex_derive_continuous (V := R_NormedModule)). auto_derive. cbn in *. lra.
Qed.

Lemma constant_sum x : half x ^ 2 + other x = PI / 4.
Proof.
  set (F := fun x => half x ^ 2 + other x).
  assert (D : forall y, is_derive F y 0).
  { intro y. unfold F. replace 0 with (plus (2 * half y * bump y) (-2 * exp (- y ^ 2) * half y)) by (unfold plus, bump; cbn -[pow]; ring).
    apply (is_derive_plus (V := R_NormedModule) (fun x => half x ^ 2) other); [|apply other_derive].
    replace (2 * half y * bump y) with (scal (bump y) (2 * half y)) by (unfold scal; cbn; unfold mult; cbn; ring).
    apply (is_derive_comp (V := R_NormedModule) (fun z => z ^ 2) half); [|apply half_derive]. auto_derive; [exact I|ring]. }
  transitivity (F 0).
  - destruct (MVT_gen F 0 x (fun _ => 0)) as (c & _ & E).
    + intros; apply D.
    + intros y _. apply continuity_pt_filterlim. apply (ex_derive_continuous (V := R_NormedModule)). exists 0. apply D.
    + fold (F x). lra.
  - unfold F. rewrite half_0, other_0. ring.
Qed.

Lemma other_bound x : 0 < other x <= exp (- x ^ 2).
Proof.
  assert (Ex : ex_RInt (fun t => slice x t) 0 1) by (apply (ex_RInt_continuous (V := R_CompleteNormedModule)); intros; apply slice_continuous).
  split.
  - unfold other. apply RInt_gt_0; [lra| |].
    + intros t _. unfold slice. apply Rmult_lt_0_compat; [apply exp_pos|]. apply Rinv_0_lt_compat, square_pos.
    + intros t _. apply slice_continuous.
  - replace (exp (- x ^ 2)) with (RInt (fun _ => exp (- x ^ 2)) 0 1).
    2:{ rewrite RInt_const. unfold scal; cbn; unfold mult; cbn. ring. }
    apply RInt_le; [lra|exact Ex|apply ex_RInt_const|]. intros t _. unfold slice. pose proof (square_pos t) as P. pose proof (pow2_ge_0 t). pose proof (pow2_ge_0 x).
    apply (Rle_trans _ (exp (- (x ^ 2 * (1 + t ^ 2))) * 1)).
    + apply Rmult_le_compat_l; [apply Rlt_le, exp_pos|]. rewrite <- Rinv_1 at 2. apply Rinv_le_contravar; lra.
    + rewrite Rmult_1_r. assert (- (x ^ 2 * (1 + t ^ 2)) <= - x ^ 2) by nra. destruct (Rle_lt_or_eq_dec _ _ H1) as [L|E]; [left; apply exp_increasing, L|right; rewrite E; reflexivity].
Qed.

Lemma half_increasing x y : x < y -> half x < half y.
Proof.
  intro H. destruct (MVT_gen half x y bump) as (c & _ & E).
  - intros; apply half_derive.
  - intros z _. apply continuity_pt_filterlim. apply (ex_derive_continuous (V := R_NormedModule)). exists (bump z). apply half_derive.
  - assert (0 < bump c) by apply exp_pos. pose proof (Rmult_lt_0_compat _ (y - x) H0 ltac:(lra)). lra.
Qed.

Lemma root_pi : 0 < sqrt PI /\ (sqrt PI / 2) ^ 2 = PI / 4.
Proof. pose proof PI_RGT_0. split; [apply sqrt_lt_R0; lra|]. replace ((sqrt PI / 2) ^ 2) with (sqrt PI ^ 2 / 4) by field. rewrite pow2_sqrt by lra. reflexivity. Qed.

Lemma half_bounds x : - (sqrt PI / 2) < half x < sqrt PI / 2.
Proof.
  destruct root_pi as [P E]. pose proof (constant_sum x). destruct (other_bound x) as [B _].
  assert (half x ^ 2 < (sqrt PI / 2) ^ 2) by lra. split; nra.
Qed.

Lemma half_lim : is_lim half p_infty (sqrt PI / 2).
Proof.
  destruct root_pi as [P E].
  apply (is_lim_ext (fun x => sqrt PI / 2 - (sqrt PI / 2 - half x))); [intro; ring|].
  replace (Finite (sqrt PI / 2)) with (Rbar_minus (sqrt PI / 2) 0) by (cbn; f_equal; ring).
  apply (is_lim_minus' (fun _ => sqrt PI / 2)); [apply is_lim_const|].
  apply (is_lim_small _ (2 / sqrt PI)). exists 1. intros T HT.
  pose proof (constant_sum T) as S. destruct (other_bound T) as [O1 O2]. destruct (half_bounds T) as [B1 B2].
  assert (P0 : 0 < half T) by (rewrite <- half_0; apply half_increasing; lra).
  rewrite Rabs_right by lra.
  assert (X : exp (- T ^ 2) <= / T).
  { rewrite exp_Ropp. apply Rinv_le_contravar; [lra|]. pose proof (exp_ineq1_le (T ^ 2)). nra. }
  assert (M : (sqrt PI / 2 - half T) * (sqrt PI / 2) <= other T) by nra.
  apply (Rmult_le_reg_r (sqrt PI / 2)); [lra|]. replace (2 / sqrt PI / T * (sqrt PI / 2)) with (/ T) by (field; lra). lra.
Qed.

Lemma erf_half x : erf x = 2 / sqrt PI * half x.
Proof. reflexivity. Qed.
Lemma erf_increasing x y : x < y -> erf x < erf y.
Proof. intro H. rewrite !erf_half. destruct root_pi as [P _]. apply Rmult_lt_compat_l; [|apply half_increasing, H]. apply Rdiv_lt_0_compat; lra. Qed.
Lemma erf_bounds x : -1 < erf x < 1.
Proof.
  rewrite erf_half. destruct root_pi as [P _]. destruct (half_bounds x). split.
  - replace (-1) with (2 / sqrt PI * - (sqrt PI / 2)) by (field; lra). apply Rmult_lt_compat_l; [apply Rdiv_lt_0_compat; lra|lra].
  - replace 1 with (2 / sqrt PI * (sqrt PI / 2)) by (field; lra). apply Rmult_lt_compat_l; [apply Rdiv_lt_0_compat; lra|lra].
Qed.
Lemma erf_lim : is_lim erf p_infty 1.
Proof.
  destruct root_pi as [P _]. replace (Finite 1) with (Rbar_mult (2 / sqrt PI) (sqrt PI / 2)) by (cbn; f_equal; field; lra).
  apply (is_lim_scal_l half (2 / sqrt PI) p_infty (sqrt PI / 2)). apply half_lim.
Qed.
Lemma erf_derive x : is_derive erf x (2 / sqrt PI * bump x).
Proof. apply (is_derive_scal half). apply half_derive. Qed.

Lemma erf_odd x : erf (- x) = - erf x.
Proof.
  assert (E : half (- x) = - half x); [|rewrite !erf_half, E; ring].
  assert (D : forall y, is_derive (fun y => half (- y) + half y) y 0).
  { intro y. replace 0 with (plus (scal (-1) (bump (- y))) (bump y)).
    2:{ unfold plus, scal, bump; cbn -[pow]; unfold mult; cbn -[pow]. replace ((- y) ^ 2) with (y ^ 2) by ring. ring. }
    apply (is_derive_plus (V := R_NormedModule) (fun y => half (- y)) half); [|apply half_derive].
    apply (is_derive_comp (V := R_NormedModule) half (fun y => - y)); [apply half_derive|]. auto_derive; [exact I|ring]. }
  destruct (MVT_gen (fun y => half (- y) + half y) 0 x (fun _ => 0)) as (c & _ & E).
  - intros; apply D.
  - intros y _. apply continuity_pt_filterlim. apply (ex_derive_continuous (V := R_NormedModule) (fun y => half (- y) + half y) y). exists 0. apply D.
  - rewrite Ropp_0, half_0 in E. lra.
Qed.

(** Probabilities of normal numbers. *)
Lemma bell_erf m s a b : 0 < s ->
  bell_between m s a b = (erf ((m - a) / (sqrt 2 * s)) - erf ((m - b) / (sqrt 2 * s))) * (sqrt PI * sqrt 2 * s / 2).
Proof.
  intro H. assert (P2 : 0 < sqrt 2) by (apply sqrt_lt_R0; lra). destruct root_pi as [P _].
  set (k := sqrt PI * sqrt 2 * s / 2). unfold bell_between. apply is_RInt_unique.
  replace ((erf ((m - a) / (sqrt 2 * s)) - erf ((m - b) / (sqrt 2 * s))) * k)
    with (minus (- k * erf ((m - b) / (sqrt 2 * s))) (- k * erf ((m - a) / (sqrt 2 * s)))) by (unfold minus, plus, opp; cbn; ring).
  apply (is_RInt_derive (V := R_CompleteNormedModule) (fun x => - k * erf ((m - x) / (sqrt 2 * s)))).
  - intros x _. replace (bell m s x) with (- k * (- / (sqrt 2 * s) * (2 / sqrt PI * bump ((m - x) / (sqrt 2 * s))))).
    + apply (is_derive_scal (fun x => erf ((m - x) / (sqrt 2 * s)))).
      apply (is_derive_comp (V := R_NormedModule) erf (fun x => (m - x) / (sqrt 2 * s))); [apply erf_derive|].
      auto_derive; [exact I|]. field. nra.
    + assert (E : bump ((m - x) / (sqrt 2 * s)) = bell m s x).
      { unfold bump, bell, gauss. f_equal. replace (((m - x) / (sqrt 2 * s)) ^ 2) with ((m - x) ^ 2 / (sqrt 2 ^ 2 * s ^ 2)) by (field; lra).
        rewrite pow2_sqrt by lra. field. lra. }
      rewrite E. unfold k. field. lra.
  - intros x _. apply (ex_derive_continuous (V := R_NormedModule)). unfold bell, gauss. auto_derive. exact I.
Qed.

Lemma bell_above_erf m s a : 0 < s -> bell_above m s a ((1 + erf ((m - a) / (sqrt 2 * s))) * (sqrt PI * sqrt 2 * s / 2)).
Proof.
  intro H. assert (P2 : 0 < sqrt 2) by (apply sqrt_lt_R0; lra). set (k := sqrt PI * sqrt 2 * s / 2).
  unfold bell_above. apply (is_lim_ext (fun T => (erf ((m - a) / (sqrt 2 * s)) + erf ((T - m) / (sqrt 2 * s))) * k)).
  { intro T. rewrite bell_erf by exact H. fold k. replace ((T - m) / (sqrt 2 * s)) with (- ((m - T) / (sqrt 2 * s))) by (field; lra). rewrite erf_odd. ring. }
  replace (Finite ((1 + erf ((m - a) / (sqrt 2 * s))) * k)) with (Rbar_mult (erf ((m - a) / (sqrt 2 * s)) + 1) k) by (cbn; f_equal; ring).
  apply (is_lim_scal_r (fun T => erf ((m - a) / (sqrt 2 * s)) + erf ((T - m) / (sqrt 2 * s))) k p_infty (erf ((m - a) / (sqrt 2 * s)) + 1)).
  apply is_lim_plus'; [apply is_lim_const|].
  pose proof erf_lim as L; apply is_lim_spec in L. apply is_lim_spec. intro e. destruct (L e) as [M HM].
  exists (m + M * (sqrt 2 * s)). intros T HT. apply HM. apply (Rmult_lt_reg_r (sqrt 2 * s)); [nra|].
  replace ((T - m) / (sqrt 2 * s) * (sqrt 2 * s)) with (T - m) by (field; lra). lra.
Qed.
