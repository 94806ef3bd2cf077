(** Normal numbers inside a disc. *)
From Coq Require Import Reals Lra Lia List.
From Coquelicot Require Import Coquelicot.
From Verif Require Import Spec_Gauss Spec_Erf Proof_Gauss Proof_Erf.
Local Open Scope R_scope.

(** Half of the integral of the Gauss function, and the probability to be within a distance of zero. *)
Definition dd : R := sqrt PI * sqrt 2 / 2.
Definition AA (x : R) : R := erf (x / sqrt 2).

Lemma root2 : 0 < sqrt 2.
Proof. apply sqrt_lt_R0. lra. Qed.
Lemma dd_pos : 0 < dd.
Proof. unfold dd. destruct root_pi as [P _]. pose proof root2. nra. Qed.
Lemma dd_square : dd * dd = PI / 2.
Proof.
  unfold dd. pose proof PI_RGT_0. replace (sqrt PI * sqrt 2 / 2 * (sqrt PI * sqrt 2 / 2)) with ((sqrt PI * sqrt PI) * (sqrt 2 * sqrt 2) / 4) by field.
  rewrite !sqrt_sqrt by lra. field.
Qed.
Lemma AA_derive x : is_derive AA x (gauss x / dd).
Proof.
  pose proof root2. destruct root_pi as [P _].
  replace (gauss x / dd) with (scal (/ sqrt 2) (2 / sqrt PI * bump (x / sqrt 2))).
  - apply (is_derive_comp (V := R_NormedModule) erf (fun x => x / sqrt 2)); [apply erf_derive|]. auto_derive; [exact I|field; lra].
  - unfold scal; cbn -[bump dd]; unfold mult; cbn -[bump dd]. assert (E : bump (x / sqrt 2) = gauss x).
    { unfold bump, gauss. f_equal. replace ((x / sqrt 2) ^ 2) with (x ^ 2 / sqrt 2 ^ 2) by (field; lra). rewrite pow2_sqrt by lra. field. }
    rewrite E. unfold dd. field. lra.
Qed.
Lemma AA_0 : AA 0 = 0.
Proof. unfold AA. replace (0 / sqrt 2) with 0 by (field; pose proof root2; lra). pose proof (erf_odd 0) as K. rewrite Ropp_0 in K. lra. Qed.
Lemma AA_odd x : AA (- x) = - AA x.
Proof. unfold AA. rewrite <- erf_odd. f_equal. field. pose proof root2. lra. Qed.
Lemma AA_continuous x : continuous AA x.
Proof. apply (ex_derive_continuous (V := R_NormedModule)). eexists. apply AA_derive. Qed.
Lemma AA_lim : is_lim AA p_infty 1.
Proof.
  pose proof root2. pose proof erf_lim as L. apply is_lim_spec in L. apply is_lim_spec. intro e. destruct (L e) as [M HM].
  exists (M * sqrt 2). intros T HT. apply HM. apply (Rmult_lt_reg_r (sqrt 2)); [lra|]. unfold Rdiv. rewrite Rmult_assoc, Rinv_l by lra. lra.
Qed.

Lemma gauss_is_RInt a b : is_RInt gauss a b (dd * AA b - dd * AA a).
Proof.
  apply (is_RInt_derive (V := R_CompleteNormedModule) (fun x => dd * AA x)).
  - intros x _. replace (gauss x) with (dd * (gauss x / dd)) by (field; pose proof dd_pos; lra). apply (is_derive_scal AA), AA_derive.
  - intros x _. apply gauss_continuous.
Qed.
Lemma within_one T : within (fun _ => 1) T = 2 * dd * AA T.
Proof.
  unfold within. apply is_RInt_unique. apply (is_RInt_ext gauss); [intros x _; symmetry; apply Rmult_1_l|].
  replace (2 * dd * AA T) with (dd * AA T - dd * AA (- T)) by (rewrite AA_odd; ring). apply gauss_is_RInt.
Qed.

(** The mean of a function that is zero outside an interval. *)
Lemma mean_support f c v : 0 <= c -> (forall x, c < Rabs x -> f x = 0) -> is_RInt (fun x => f x * gauss x) (- c) c v -> mean f (v / (2 * dd)).
Proof.
  intros Hc Hf Hv. pose proof dd_pos as Pd.
  assert (Z : forall a b, (forall x, Rmin a b < x < Rmax a b -> f x = 0) -> is_RInt (fun x => f x * gauss x) a b 0).
  { intros a b H. apply (is_RInt_ext (fun _ => 0)).
    - intros x Hx. rewrite H by exact Hx. symmetry. apply Rmult_0_l.
    - pose proof (is_RInt_const (V := R_NormedModule) a b 0) as K. match type of K with is_RInt _ _ _ ?v => assert (Y : v = 0) by apply Rmult_0_r; rewrite Y in K end. exact K. }
  assert (E : forall a, ex_RInt (fun x => f x * gauss x) (- c) a).
  { intro a. destruct (Rle_dec a (- c)) as [L|L].
    - exists 0. apply Z. intros x. rewrite Rmin_right, Rmax_left by lra. intros Hx. apply Hf. rewrite Rabs_left1 by lra. lra.
    - destruct (Rle_dec a c) as [M|M].
      + apply (ex_RInt_Chasles_1 (V := R_CompleteNormedModule) _ (- c) a c); [lra|exists v; exact Hv].
      + apply (ex_RInt_Chasles (V := R_NormedModule)) with c; [exists v; exact Hv|]. exists 0. apply Z. intros x. rewrite Rmin_left, Rmax_right by lra.
        intros Hx. apply Hf. rewrite Rabs_right by lra. lra. }
  split.
  - intros a b. apply (ex_RInt_Chasles (V := R_NormedModule)) with (- c); [apply ex_RInt_swap, E|apply E].
  - apply (is_lim_ext_loc (fun T => v / (2 * dd) / AA T)).
    + exists (c + 1). intros T HT. rewrite within_one.
      assert (W : within f T = v).
      { unfold within. apply is_RInt_unique. replace v with (plus 0 (plus v 0)) by (unfold plus; cbn; ring).
        apply (is_RInt_Chasles (V := R_NormedModule)) with (- c).
        - apply Z. intros x. rewrite Rmin_left, Rmax_right by lra. intros Hx. apply Hf. rewrite Rabs_left1 by lra. lra.
        - apply (is_RInt_Chasles (V := R_NormedModule)) with c; [exact Hv|]. apply Z. intros x. rewrite Rmin_left, Rmax_right by lra.
          intros Hx. apply Hf. rewrite Rabs_right by lra. lra. }
      rewrite W. assert (0 < AA T).
      { rewrite <- AA_0. unfold AA. apply erf_increasing. pose proof root2. apply Rmult_lt_compat_r; [apply Rinv_0_lt_compat|]; lra. }
      field. lra.
    + replace (Finite (v / (2 * dd))) with (Rbar_div (v / (2 * dd)) 1) by (cbn; f_equal; field; lra).
      apply is_lim_div; [apply is_lim_const|apply AA_lim|cbn; intros [= K]; lra|exact I].
Qed.

(** The square root reduces to the boundary of the disc. *)
Definition disc (r u w : R) : R := if Rle_dec (u ^ 2 + w ^ 2) (r ^ 2) then 1 else 0.
Definition edge (r u : R) : R := sqrt (r ^ 2 - u ^ 2).

Lemma square_abs x y : 0 <= y -> (x ^ 2 <= y ^ 2 <-> Rabs x <= y).
Proof.
  intro Hy. rewrite <- (pow2_abs x). pose proof (Rabs_pos x). split; intro H0; nra.
Qed.
Lemma disc_edge r u w : (u ^ 2 <= r ^ 2) -> disc r u w = if Rle_dec (Rabs w) (edge r u) then 1 else 0.
Proof.
  intro H. unfold disc. assert (P : 0 <= edge r u) by apply sqrt_pos. pose proof (square_abs w _ P) as Q.
  unfold edge in Q at 1. rewrite pow2_sqrt in Q by lra. destruct (Rle_dec _ _) as [L|L], (Rle_dec (Rabs w) _) as [M|M]; try reflexivity.
  - exfalso. apply M, Q. lra.
  - exfalso. apply Q in M. lra.
Qed.

Lemma inner_support r u f v : is_RInt (fun w => f w * gauss w) (- edge r u) (edge r u) v ->
  mean (fun w => disc r u w * f w) (v / (2 * dd)).
Proof.
  intro H. destruct (Rle_dec (u ^ 2) (r ^ 2)) as [L|L].
  - apply (mean_support _ (edge r u)); [apply sqrt_pos| |].
    + intros w Hw. rewrite disc_edge by exact L. destruct (Rle_dec _ _); [lra|ring].
    + apply (is_RInt_ext (fun w => f w * gauss w)); [|exact H]. intros w. assert (P : 0 <= edge r u) by apply sqrt_pos.
      rewrite Rmin_left, Rmax_right by lra. intros Hw. rewrite disc_edge by exact L. destruct (Rle_dec _ _) as [M|M].
      * rewrite Rmult_1_l. reflexivity.
      * exfalso. apply M. apply Rabs_le. lra.
  - assert (E : edge r u = 0) by (apply sqrt_neg_0; lra). rewrite E, Ropp_0 in H.
    assert (Ev : v = 0). { apply (is_RInt_unique (V := R_CompleteNormedModule)) in H. rewrite RInt_point in H. symmetry. exact H. }
    subst v. replace (0 / (2 * dd)) with 0 by (field; pose proof dd_pos; lra). eapply mean_ext; [|apply mean_const].
    intro w. cbn. unfold disc. destruct (Rle_dec _ _) as [M|M]; [exfalso; pose proof (pow2_ge_0 w); lra|ring].
Qed.

Lemma inner_one r u : mean (fun w => disc r u w * 1) (AA (edge r u)).
Proof.
  replace (AA (edge r u)) with ((dd * AA (edge r u) - dd * AA (- edge r u)) / (2 * dd)) by (rewrite AA_odd; field; pose proof dd_pos; lra).
  apply inner_support. apply (is_RInt_ext gauss); [intros x _; symmetry; apply Rmult_1_l|]. apply gauss_is_RInt.
Qed.
Lemma inner_w r u : mean (fun w => disc r u w * w) 0.
Proof.
  replace 0 with (0 / (2 * dd)) by (field; pose proof dd_pos; lra). apply inner_support.
  replace 0 with (minus (- gauss (edge r u)) (- gauss (- edge r u))) by (unfold minus, plus, opp; cbn; rewrite gauss_even; ring).
  apply (is_RInt_derive (V := R_CompleteNormedModule) (fun x => - gauss x)).
  - intros x _. replace (x * gauss x) with (opp (- x * gauss x)) by (unfold opp; cbn; ring). apply (is_derive_opp gauss), gauss_derive.
  - intros x _. apply (continuous_mult (K := R_AbsRing) (fun x => x) gauss); [apply continuous_id|apply gauss_continuous].
Qed.
Lemma inner_ww r u : mean (fun w => disc r u w * w ^ 2) (AA (edge r u) - edge r u * gauss (edge r u) / dd).
Proof.
  pose proof dd_pos as Pd. set (c := edge r u).
  replace (AA c - c * gauss c / dd) with (((dd * AA c - c * gauss c) - (dd * AA (- c) - - c * gauss (- c))) / (2 * dd))
    by (rewrite AA_odd, gauss_even; field; lra).
  apply inner_support. fold c. apply (is_RInt_derive (V := R_CompleteNormedModule) (fun x => dd * AA x - x * gauss x)).
  - intros x _. replace (x ^ 2 * gauss x) with (minus (dd * (gauss x / dd)) ((1 - x * x) * gauss x)) by (unfold minus, plus, opp; cbn; field; lra).
    apply (is_derive_minus (V := R_NormedModule) (fun x => dd * AA x) (fun x => x * gauss x)).
    + apply (is_derive_scal AA), AA_derive.
    + eapply parts_derive; [auto_derive; [exact I|reflexivity]|]. reflexivity.
  - intros x _. apply (continuous_mult (K := R_AbsRing) (fun x => x ^ 2) gauss); [|apply gauss_continuous].
    apply (ex_derive_continuous (V := R_NormedModule)). auto_derive. exact I.
Qed.

(** The outer integral. *)
Lemma outer_angle r g v : 0 <= r -> (forall u, - r <= u <= r -> continuous g u) -> 
  is_RInt (fun t => g (r * sin t) * (r * cos t)) (- (PI / 2)) (PI / 2) v -> is_RInt g (- r) r v.
Proof.
  intros Hr Cg H.
  assert (E : RInt (fun t => scal (r * cos t) (g (r * sin t))) (- (PI / 2)) (PI / 2) = RInt g (r * sin (- (PI / 2))) (r * sin (PI / 2))).
  { apply (RInt_comp g (fun t => r * sin t) (fun t => r * cos t)).
    - intros t _. apply Cg. pose proof (SIN_bound t). nra.
    - intros t _. split; [auto_derive; [exact I|ring]|]. apply (ex_derive_continuous (V := R_NormedModule)). auto_derive. exact I. }
  rewrite sin_neg, sin_PI2 in E. replace (r * - (1)) with (- r) in E by ring. rewrite Rmult_1_r in E.
  assert (V : RInt g (- r) r = v).
  { rewrite <- E. apply is_RInt_unique. eapply is_RInt_ext; [|exact H]. intros t _. apply Rmult_comm. }
  rewrite <- V. apply (RInt_correct (V := R_CompleteNormedModule)). apply (ex_RInt_continuous (V := R_CompleteNormedModule)).
  intros u. rewrite Rmin_left, Rmax_right by lra. apply Cg.
Qed.

Lemma edge_continuous r u : continuous (edge r) u.
Proof.
  unfold edge. apply (continuous_sqrt_comp (fun u => r ^ 2 - u ^ 2)). apply (ex_derive_continuous (V := R_NormedModule)). auto_derive. exact I.
Qed.
Lemma edge_angle r t : 0 <= r -> - (PI / 2) <= t <= PI / 2 -> edge r (r * sin t) = r * cos t.
Proof.
  intros Hr Ht. unfold edge. replace (r ^ 2 - (r * sin t) ^ 2) with ((r * cos t) ^ 2).
  - apply sqrt_pow2. apply Rmult_le_pos; [exact Hr|]. apply cos_ge_0; lra.
  - pose proof (sin2_cos2 t) as S. unfold Rsqr in S. replace (r ^ 2 - (r * sin t) ^ 2) with (r ^ 2 * (1 - sin t * sin t)) by ring.
    replace (1 - sin t * sin t) with (cos t * cos t) by lra. ring.
Qed.

(** For a function of the outer number and of the boundary of the inner one. *)
Lemma outer_mean r f G v : 0 <= r -> (forall u, continuous f u) -> (forall c, continuous G c) -> G 0 = 0 ->
  is_RInt (fun t => f (r * sin t) * G (r * cos t) * gauss (r * sin t) * (r * cos t)) (- (PI / 2)) (PI / 2) v ->
  mean (fun u => f u * G (edge r u)) (v / (2 * dd)).
Proof.
  intros Hr Cf CG G0 H. apply (mean_support _ r); [exact Hr| |].
  - intros u Hu. unfold edge. rewrite sqrt_neg_0; [rewrite G0; ring|]. pose proof (pow2_abs u) as P. pose proof (Rabs_pos u). nra.
  - apply outer_angle; [exact Hr| |].
    + intros u _. apply (continuous_mult (K := R_AbsRing) (fun u => f u * G (edge r u)) gauss); [|apply gauss_continuous].
      apply (continuous_mult (K := R_AbsRing) f (fun u => G (edge r u))); [apply Cf|]. apply (continuous_comp (edge r) G); [apply edge_continuous|apply CG].
    + eapply is_RInt_ext; [|exact H]. intros t. pose proof PI_RGT_0. rewrite Rmin_left, Rmax_right by lra. intros Ht.
      cbn beta. rewrite edge_angle by lra. reflexivity.
Qed.

(** The integral for a constant and a quadratic function of the outer number. *)
Section Angle.
Variables a b : R.
Definition KK (x y : R) : R := AA x * ((a + b * y ^ 2) * gauss y).
Definition slice_disc (r t : R) : R := r * cos t * KK (r * cos t) (r * sin t).
Definition HH (r : R) : R := RInt (slice_disc r) (- (PI / 2)) (PI / 2).
Definition slice_slope (r t : R) : R :=
  cos t * KK (r * cos t) (r * sin t) +
  r * cos t * (gauss (r * cos t) / dd * cos t * ((a + b * (r * sin t) ^ 2) * gauss (r * sin t)) +
    AA (r * cos t) * (sin t * ((2 * b * (r * sin t) - (r * sin t) * (a + b * (r * sin t) ^ 2)) * gauss (r * sin t)))).

Lemma AA_Derive x : Derive (fun x => AA x) x = gauss x / dd.
Proof. exact (is_derive_unique _ _ _ (AA_derive x)). Qed.
Lemma gauss_Derive x : Derive (fun x => gauss x) x = - x * gauss x.
Proof. exact (is_derive_unique _ _ _ (gauss_derive x)). Qed.

Lemma slice_disc_derive r t : is_derive (fun r => slice_disc r t) r (slice_slope r t).
Proof.
  unfold slice_disc, slice_slope, KK. auto_derive.
  - split; [eexists; apply AA_derive|]. split; [eexists; apply gauss_derive|exact I].
  - rewrite AA_Derive, gauss_Derive. ring.
Qed.
Definition primitive (r t : R) : R :=
  sin t * KK (r * cos t) (r * sin t) + r * gauss r / dd * (a * t + b * r ^ 2 * ((t - sin t * cos t) / 2)).
Lemma gauss_product r t : gauss (r * cos t) * gauss (r * sin t) = gauss r.
Proof.
  unfold gauss. rewrite <- exp_plus. f_equal. pose proof (sin2_cos2 t) as S. unfold Rsqr in S.
  replace (- (r * cos t) ^ 2 / 2 + - (r * sin t) ^ 2 / 2) with (- (r ^ 2 * (sin t * sin t + cos t * cos t)) / 2) by field. rewrite S. f_equal. f_equal. ring.
Qed.
Lemma primitive_derive r t : is_derive (primitive r) t (slice_slope r t).
Proof.
  pose proof dd_pos. unfold primitive, slice_slope, KK. auto_derive.
  - split; [eexists; apply AA_derive|]. split; [eexists; apply gauss_derive|exact I].
  - rewrite AA_Derive, gauss_Derive. pose proof (sin2_cos2 t) as S. unfold Rsqr in S. rewrite <- (gauss_product r t).
    set (g := gauss (r * cos t)). set (h := gauss (r * sin t)). set (A := AA (r * cos t)).
    replace (sin t) with (sin t) by reflexivity.
    assert (C : cos t * cos t = 1 - sin t * sin t) by lra. set (c := cos t) in *. set (s := sin t) in *.
    match goal with |- ?x = ?y => replace x with (y + r * g * h / dd * ((a + b * (r * s) ^ 2) * (1 - s * s - c * c) + b * r ^ 2 / 2 * (1 - s * s - c * c))) end.
    + rewrite C. field. lra.
    + field. lra.
Qed.

Lemma slope_continuous r t : continuity_2d_pt (fun r t => slice_slope r t) r t.
Proof.
  assert (X : forall f, (forall x, continuous f x) -> continuity_2d_pt (fun r t => f (r * cos t)) r t /\ continuity_2d_pt (fun r t => f (r * sin t)) r t).
  { intros f Cf. split.
    - apply (continuity_1d_2d_pt_comp f (fun r t => r * cos t)); [apply continuity_pt_filterlim, Cf|].
      apply continuity_2d_pt_mult; [apply continuity_2d_pt_id1|]. apply (continuity_1d_2d_pt_comp cos (fun _ t => t)); [apply continuity_cos|apply continuity_2d_pt_id2].
    - apply (continuity_1d_2d_pt_comp f (fun r t => r * sin t)); [apply continuity_pt_filterlim, Cf|].
      apply continuity_2d_pt_mult; [apply continuity_2d_pt_id1|]. apply (continuity_1d_2d_pt_comp sin (fun _ t => t)); [apply continuity_sin|apply continuity_2d_pt_id2]. }
  assert (Y : forall f, continuity f -> continuity_2d_pt (fun _ t => f t) r t).
  { intros f Cf. apply (continuity_1d_2d_pt_comp f (fun _ t => t)); [apply Cf|apply continuity_2d_pt_id2]. }
  assert (P : forall f, (forall x, ex_derive f x) -> forall x, continuous f x) by (intros f D x; apply (ex_derive_continuous (V := R_NormedModule)), D).
  assert (D1 : forall x, ex_derive (fun y => (a + b * y ^ 2) * gauss y) x).
  { intro x. eexists. eapply parts_derive; [auto_derive; [exact I|reflexivity]|reflexivity]. }
  assert (D2 : forall x, ex_derive (fun y => (2 * b * y - y * (a + b * y ^ 2)) * gauss y) x).
  { intro x. eexists. eapply parts_derive; [auto_derive; [exact I|reflexivity]|reflexivity]. }
  unfold slice_slope, KK.
  repeat first [apply continuity_2d_pt_plus | apply continuity_2d_pt_id1 | apply continuity_2d_pt_const
    | apply (Y cos continuity_cos) | apply (Y sin continuity_sin)
    | apply (proj2 (X _ (P _ D1))) | apply (proj2 (X _ (P _ D2))) | apply (proj1 (X _ AA_continuous))
    | apply (proj1 (X (fun x => gauss x / dd) ltac:(intro x; apply (continuous_mult (K := R_AbsRing) gauss (fun _ => / dd)); [apply gauss_continuous|apply continuous_const])))
    | apply continuity_2d_pt_mult].
Qed.

Lemma primitive_is_RInt r : is_RInt (slice_slope r) (- (PI / 2)) (PI / 2) (r * gauss r / dd * (PI * (a + b * r ^ 2 / 2))).
Proof.
  replace (r * gauss r / dd * (PI * (a + b * r ^ 2 / 2))) with (minus (primitive r (PI / 2)) (primitive r (- (PI / 2)))).
  - apply (is_RInt_derive (V := R_CompleteNormedModule) (primitive r)).
    + intros t _. apply primitive_derive.
    + intros t _. apply continuity_pt_filterlim. intros e He. destruct (slope_continuous r t (mkposreal e He)) as [d Hd].
      exists d. split; [apply cond_pos|]. intros y [_ Hy]. apply Hd; [rewrite Rminus_eq_0, Rabs_R0; apply cond_pos|exact Hy].
  - unfold minus, plus, opp; cbn -[pow primitive]. unfold primitive, KK. rewrite sin_neg, cos_neg, sin_PI2, cos_PI2, !Rmult_0_r, AA_0. field. pose proof dd_pos. lra.
Qed.
Lemma HH_derive r : is_derive HH r (r * gauss r / dd * (PI * (a + b * r ^ 2 / 2))).
Proof.
  assert (D : is_derive HH r (RInt (fun t => Derive (fun u => slice_disc u t) r) (- (PI / 2)) (PI / 2))).
  { apply (is_derive_RInt_param slice_disc (- (PI / 2)) (PI / 2) r).
    - exists (mkposreal 1 Rlt_0_1). intros y _ t _. eexists. apply slice_disc_derive.
    - intros t _. apply (continuity_2d_pt_ext (fun r t => slice_slope r t)); [|apply slope_continuous].
      intros u v. symmetry. exact (is_derive_unique _ _ _ (slice_disc_derive u v)).
    - exists (mkposreal 1 Rlt_0_1). intros y _. apply (ex_RInt_continuous (V := R_CompleteNormedModule)). intros t _.
      apply (ex_derive_continuous (V := R_NormedModule)). unfold slice_disc, KK. auto_derive.
      split; [eexists; apply AA_derive|]. split; [eexists; apply gauss_derive|exact I]. }
  replace (r * gauss r / dd * (PI * (a + b * r ^ 2 / 2))) with (RInt (fun t => Derive (fun u => slice_disc u t) r) (- (PI / 2)) (PI / 2)); [exact D|].
  apply is_RInt_unique. eapply is_RInt_ext; [|apply primitive_is_RInt]. intros t _. symmetry. exact (is_derive_unique _ _ _ (slice_disc_derive r t)).
Qed.
Lemma HH_value r : HH r = PI / dd * (a * (1 - gauss r) + b * (1 - (1 + r ^ 2 / 2) * gauss r)).
Proof.
  pose proof dd_pos as Pd. set (F := fun r => HH r - PI / dd * (a * (1 - gauss r) + b * (1 - (1 + r ^ 2 / 2) * gauss r))).
  assert (D : forall y, is_derive F y 0).
  { intro y. unfold F.
    replace 0 with (minus (y * gauss y / dd * (PI * (a + b * y ^ 2 / 2))) (y * gauss y / dd * (PI * (a + b * y ^ 2 / 2)))) by (unfold minus, plus, opp; cbn; ring).
    apply (is_derive_minus (V := R_NormedModule) HH); [apply HH_derive|]. auto_derive; [repeat split; eexists; apply gauss_derive|].
    rewrite gauss_Derive. field. lra. }
  assert (Z : F r = F 0).
  { destruct (MVT_gen F 0 r (fun _ => 0)) as (c & _ & E).
    + intros; apply D.
    + intros y _. apply continuity_pt_filterlim. apply (ex_derive_continuous (V := R_NormedModule)). exists 0. apply D.
    + lra. }
  assert (Z0 : F 0 = 0).
  { unfold F. assert (H0 : HH 0 = 0).
    { unfold HH. apply is_RInt_unique. apply (is_RInt_ext (fun _ => 0)).
      - intros t _. unfold slice_disc. rewrite !Rmult_0_l. reflexivity.
      - pose proof (is_RInt_const (V := R_NormedModule) (- (PI / 2)) (PI / 2) 0) as K. match type of K with is_RInt _ _ _ ?v => assert (Y : v = 0) by apply Rmult_0_r; rewrite Y in K end. exact K. }
    rewrite H0. assert (G : gauss 0 = 1) by (unfold gauss; replace (- 0 ^ 2 / 2) with 0 by field; apply exp_0). rewrite G. field. lra. }
  unfold F in Z at 1. lra.
Qed.

Lemma outer_quadratic r : 0 <= r -> mean (fun u => (a + b * u ^ 2) * AA (edge r u)) (a * (1 - gauss r) + b * (1 - (1 + r ^ 2 / 2) * gauss r)).
Proof.
  intro Hr. pose proof dd_pos as Pd. pose proof dd_square as S.
  replace (a * (1 - gauss r) + b * (1 - (1 + r ^ 2 / 2) * gauss r)) with (HH r / (2 * dd)).
  - apply outer_mean; [exact Hr| |apply AA_continuous|apply AA_0|].
    + intro u. apply (ex_derive_continuous (V := R_NormedModule)). auto_derive. exact I.
    + apply (is_RInt_ext (slice_disc r)).
      * intros t _. unfold slice_disc, KK. match goal with |- ?x = ?y => change (@eq R x y) end. ring.
      * apply (RInt_correct (V := R_CompleteNormedModule)). apply (ex_RInt_continuous (V := R_CompleteNormedModule)). intros t _.
        apply (ex_derive_continuous (V := R_NormedModule)). unfold slice_disc, KK. auto_derive.
        split; [eexists; apply AA_derive|]. split; [eexists; apply gauss_derive|exact I].
  - rewrite HH_value. replace PI with (2 * (dd * dd)) by lra. field. lra.
Qed.
End Angle.

Lemma outer_ww r : 0 <= r -> mean (fun u => 1 * (edge r u * gauss (edge r u) / dd)) (r ^ 2 / 2 * gauss r).
Proof.
  intro Hr. pose proof dd_pos as Pd. pose proof dd_square as S.
  replace (r ^ 2 / 2 * gauss r) with (r ^ 2 * gauss r / dd * (PI / 2) / (2 * dd)).
  2:{ replace PI with (2 * (dd * dd)) by lra. field. lra. }
  apply (outer_mean r (fun _ => 1) (fun c => c * gauss c / dd)); [exact Hr|intro; apply continuous_const| |cbn beta; unfold Rdiv; rewrite !Rmult_0_l; reflexivity|].
  - intro c. apply (continuous_mult (K := R_AbsRing) (fun c => c * gauss c) (fun _ => / dd)); [|apply continuous_const].
    apply (continuous_mult (K := R_AbsRing) (fun c => c) gauss); [apply continuous_id|apply gauss_continuous].
  - apply (is_RInt_ext (fun t => r ^ 2 * gauss r / dd * (cos t * cos t))).
    + intros t _. rewrite <- (gauss_product r t). match goal with |- ?x = ?y => change (@eq R x y) end. field. lra.
    + replace (r ^ 2 * gauss r / dd * (PI / 2)) with (scal (r ^ 2 * gauss r / dd) (PI / 2)) by reflexivity.
      apply (is_RInt_scal (V := R_NormedModule) (fun t => cos t * cos t)).
      replace (PI / 2) with (minus ((PI / 2 + sin (PI / 2) * cos (PI / 2)) / 2) ((- (PI / 2) + sin (- (PI / 2)) * cos (- (PI / 2))) / 2)) at 3.
      * apply (is_RInt_derive (V := R_CompleteNormedModule) (fun t => (t + sin t * cos t) / 2)).
        -- intros t _. auto_derive; [exact I|]. pose proof (sin2_cos2 t) as Q. unfold Rsqr in Q. nra.
        -- intros t _. apply (ex_derive_continuous (V := R_NormedModule)). auto_derive. exact I.
      * unfold minus, plus, opp; cbn. rewrite cos_neg, cos_PI2. field.
Qed.

(** Expected values inside the disc: of one, of the numbers, of their squares and of their product. *)
Lemma disc_one r : 0 <= r -> means 2 (fun l => disc r (nth 0 l 0) (nth 1 l 0)) (1 - gauss r).
Proof.
  intro Hr. cbn [means nth]. exists (fun u => AA (edge r u)). split.
  - intro u. exists (fun w => disc r u w). split; [reflexivity|]. eapply mean_ext; [|apply inner_one]. intro w. cbn. ring.
  - eapply mean_eq; [apply (outer_quadratic 1 0 r Hr)| |ring]. intro u. cbn. ring.
Qed.
Lemma disc_uu r : 0 <= r -> means 2 (fun l => disc r (nth 0 l 0) (nth 1 l 0) * nth 0 l 0 ^ 2) (1 - (1 + r ^ 2 / 2) * gauss r).
Proof.
  intro Hr. cbn [means nth]. exists (fun u => u ^ 2 * AA (edge r u)). split.
  - intro u. exists (fun w => disc r u w * u ^ 2). split; [reflexivity|]. eapply mean_ext; [|apply (mean_scal _ (u ^ 2) _ (inner_one r u))]. intro w. cbn. ring.
  - eapply mean_eq; [apply (outer_quadratic 0 1 r Hr)| |ring]. intro u. cbn. ring.
Qed.
Lemma disc_ww r : 0 <= r -> means 2 (fun l => disc r (nth 0 l 0) (nth 1 l 0) * nth 1 l 0 ^ 2) (1 - (1 + r ^ 2 / 2) * gauss r).
Proof.
  intro Hr. cbn [means nth]. exists (fun u => AA (edge r u) - edge r u * gauss (edge r u) / dd). split.
  - intro u. exists (fun w => disc r u w * w ^ 2). split; [reflexivity|]. apply inner_ww.
  - eapply mean_eq; [apply (mean_lin _ _ 1 (-1) _ _ (outer_quadratic 1 0 r Hr) (outer_ww r Hr))| |field]. intro u. cbn -[gauss]. ring.
Qed.
Lemma disc_w r f : means 2 (fun l => disc r (nth 0 l 0) (nth 1 l 0) * (f (nth 0 l 0) * nth 1 l 0)) 0.
Proof.
  cbn [means nth]. exists (fun u => 0). split; [|apply mean_const].
  intro u. exists (fun w => disc r u w * (f u * w)). split; [reflexivity|].
  eapply mean_eq; [apply (mean_scal _ (f u) _ (inner_w r u))| |ring]. intro w. cbn. ring.
Qed.
Lemma disc_u r : 0 <= r -> means 2 (fun l => disc r (nth 0 l 0) (nth 1 l 0) * nth 0 l 0) 0.
Proof.
  intro Hr. cbn [means nth]. exists (fun u => u * AA (edge r u)). split.
  - intro u. exists (fun w => disc r u w * u). split; [reflexivity|]. eapply mean_ext; [|apply (mean_scal _ u _ (inner_one r u))]. intro w. cbn. ring.
  - pose proof dd_pos. replace 0 with (0 / (2 * dd)) by (field; lra). apply (outer_mean r (fun u => u) AA); [exact Hr|intro; apply continuous_id|apply AA_continuous|apply AA_0|].
    set (F := fun t => r * sin t * AA (r * cos t) * gauss (r * sin t) * (r * cos t)).
    assert (Ex : forall p q, ex_RInt F p q).
    { intros p q. apply (ex_RInt_continuous (V := R_CompleteNormedModule)). intros t _. apply (ex_derive_continuous (V := R_NormedModule)). unfold F. auto_derive.
      split; [eexists; apply AA_derive|]. split; [eexists; apply gauss_derive|exact I]. }
    assert (Odd : forall t, F (- t) = - F t).
    { intro t. unfold F. rewrite sin_neg, cos_neg. replace (r * - sin t) with (- (r * sin t)) by ring. rewrite gauss_even. ring. }
    pose proof (RInt_correct (V := R_CompleteNormedModule) F _ _ (Ex 0 (PI / 2))) as I1. set (v := RInt F 0 (PI / 2)) in I1.
    replace 0 with (plus (- v) v) by (unfold plus; cbn; ring).
    apply (is_RInt_Chasles (V := R_NormedModule)) with 0; [|exact I1].
    replace 0 with (- 0) in I1 at 1 by ring. replace (PI / 2) with (- (- (PI / 2))) in I1 by ring.
    apply (is_RInt_comp_opp (V := R_NormedModule)) in I1. apply (is_RInt_swap (V := R_NormedModule)) in I1.
    eapply is_RInt_ext; [|exact I1]. intros t _. unfold opp; cbn. rewrite Odd. apply Ropp_involutive.
Qed.
