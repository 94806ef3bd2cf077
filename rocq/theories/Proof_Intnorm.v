(** Averages over all normal numbers of functions of shapes with a random direction. *)
From Coq Require Import Reals Lra Lia List.
From Coquelicot Require Import Coquelicot.
From Verif Require Import Base Model_Numeric Model_Arrays Model_Galaxies Model_Shapes Spec_Gauss Spec_Uniform Spec_Shapes Spec_Unbiased.
From Verif Require Import Proof_Gauss Proof_Normals Proof_Disc Proof_Fit Proof_Shapes Proof_Unbiased.
Import ListNotations.
Local Open Scope R_scope.

Lemma means_le n : forall f g m m', means n f m -> means n g m' -> (forall l, f l <= g l) -> m <= m'.
Proof.
  induction n as [|n IH]; intros f g m m'; cbn [means].
  - intros <- <- H. apply H.
  - intros (p & Hp & Mp) (q & Hq & Mq) H. apply (mean_le p q); [exact Mp|exact Mq|]. intro u. apply (IH (fun l => f (u :: l)) (fun l => g (u :: l))); [apply Hp|apply Hq|]. intro l. apply H.
Qed.

(** * Functions of a vector that is scaled according to its length *)
Section Radial.
  Variables Q Qx Qy : R -> R -> R.
  Variable rho : R.
  Hypothesis derivatives : forall (X Y : R -> R) (t dX dY : R), X t ^ 2 + Y t ^ 2 < rho ^ 2 -> is_derive X t dX -> is_derive Y t dY ->
    is_derive (fun t => Q (X t) (Y t)) t (Qx (X t) (Y t) * dX + Qy (X t) (Y t) * dY).
  Hypothesis Q_continuous : forall x y, x ^ 2 + y ^ 2 < rho ^ 2 -> continuous (fun p : R * R => Q (fst p) (snd p)) (x, y).
  Hypothesis Qx_continuous : forall x y, x ^ 2 + y ^ 2 < rho ^ 2 -> continuous (fun p : R * R => Qx (fst p) (snd p)) (x, y).
  Hypothesis Qy_continuous : forall x y, x ^ 2 + y ^ 2 < rho ^ 2 -> continuous (fun p : R * R => Qy (fst p) (snd p)) (x, y).
  Variables k k' : R -> R.
  Hypothesis k_derive : forall q, 0 <= q -> is_derive k q (k' q).
  Hypothesis k_continuous' : forall q, 0 <= q -> continuous k' q.
  Hypothesis k_small : forall q, 0 <= q -> k q ^ 2 * q < rho ^ 2.

  Definition sq (x y : R) : R := x ^ 2 + y ^ 2.
  Lemma sq_pos x y : 0 <= sq x y.
  Proof. unfold sq. pose proof (pow2_ge_0 x). pose proof (pow2_ge_0 y). lra. Qed.
  Definition kx (x y : R) : R := k (sq x y) * x.
  Definition ky (x y : R) : R := k (sq x y) * y.
  Lemma scaled_in x y : kx x y ^ 2 + ky x y ^ 2 < rho ^ 2.
  Proof. unfold kx, ky. replace ((k (sq x y) * x) ^ 2 + (k (sq x y) * y) ^ 2) with (k (sq x y) ^ 2 * sq x y) by (unfold sq; ring). apply k_small, sq_pos. Qed.

  Lemma mult2 (f g : R * R -> R) p : continuous f p -> continuous g p -> continuous (fun p => f p * g p) p.
  Proof. intros A B. apply (continuous_mult (K := R_AbsRing) f g); assumption. Qed.
  Lemma plus2 (f g : R * R -> R) p : continuous f p -> continuous g p -> continuous (fun p => f p + g p) p.
  Proof. intros A B. apply (continuous_plus (V := R_NormedModule) f g); assumption. Qed.
  Lemma fst2 (p : R * R) : continuous (fun p : R * R => fst p) p.
  Proof. destruct p. apply continuous_fst. Qed.
  Lemma snd2 (p : R * R) : continuous (fun p : R * R => snd p) p.
  Proof. destruct p. apply continuous_snd. Qed.
  Lemma sq_continuous p : continuous (fun p : R * R => sq (fst p) (snd p)) p.
  Proof.
    apply (continuous_ext (fun p : R * R => fst p * fst p + snd p * snd p)); [intro; unfold sq; match goal with |- ?x = ?y => change (@eq R x y) end; ring|].
    apply plus2; apply mult2; auto using fst2, snd2.
  Qed.
  Lemma k_continuous2 p : continuous (fun p : R * R => k (sq (fst p) (snd p))) p.
  Proof. apply (continuous_comp (fun p : R * R => sq (fst p) (snd p)) k); [apply sq_continuous|]. apply (ex_derive_continuous (V := R_NormedModule)). eexists. apply k_derive, sq_pos. Qed.
  Lemma k_continuous2' p : continuous (fun p : R * R => k' (sq (fst p) (snd p))) p.
  Proof. apply (continuous_comp (fun p : R * R => sq (fst p) (snd p)) k'); [apply sq_continuous|]. apply k_continuous', sq_pos. Qed.
  Lemma scaled_continuous (F : R -> R -> R) p : (forall x y, x ^ 2 + y ^ 2 < rho ^ 2 -> continuous (fun p : R * R => F (fst p) (snd p)) (x, y)) ->
    continuous (fun p : R * R => F (kx (fst p) (snd p)) (ky (fst p) (snd p))) p.
  Proof.
    intro CF. apply (comp2 F (fun p : R * R => kx (fst p) (snd p)) (fun p => ky (fst p) (snd p))).
    - apply CF, scaled_in.
    - unfold kx. apply mult2; [apply k_continuous2|apply fst2].
    - unfold ky. apply mult2; [apply k_continuous2|apply snd2].
  Qed.

  Definition Px (x y : R) : R := Qx (kx x y) (ky x y) * (k (sq x y) + 2 * (x * x) * k' (sq x y)) + Qy (kx x y) (ky x y) * (2 * (x * y) * k' (sq x y)).
  Definition Py (x y : R) : R := Qx (kx x y) (ky x y) * (2 * (x * y) * k' (sq x y)) + Qy (kx x y) (ky x y) * (k (sq x y) + 2 * (y * y) * k' (sq x y)).

  Lemma radial_turn r : 0 <= r ->
    means 2 (fun l => disc r (nth 0 l 0) (nth 1 l 0) * turn Qx Qy (kx (nth 0 l 0) (nth 1 l 0)) (ky (nth 0 l 0) (nth 1 l 0))) 0.
  Proof.
    intro Hr. eapply means_eq; [apply (disc_turn (fun x y => Q (kx x y) (ky x y)) Px Py (r + 1) r)| |reflexivity].
    - intros X Y t dX dY _ HX HY.
      assert (DS : is_derive (fun t => sq (X t) (Y t)) t (2 * X t * dX + 2 * Y t * dY)).
      { unfold sq. auto_derive; [repeat split; eexists; eassumption|].
        replace (Derive (fun x : R => X x) t) with dX by (symmetry; apply is_derive_unique; exact HX).
        replace (Derive (fun x : R => Y x) t) with dY by (symmetry; apply is_derive_unique; exact HY). ring. }
      pose proof (is_derive_comp (V := R_NormedModule) k (fun t => sq (X t) (Y t)) t _ _ (k_derive _ (sq_pos (X t) (Y t))) DS) as DK.
      pose proof (is_derive_mult (K := R_AbsRing) _ _ t _ _ DK HX Rmult_comm) as D1.
      pose proof (is_derive_mult (K := R_AbsRing) _ _ t _ _ DK HY Rmult_comm) as D2.
      pose proof (derivatives (fun t => kx (X t) (Y t)) (fun t => ky (X t) (Y t)) t _ _ (scaled_in (X t) (Y t)) D1 D2) as M. cbn beta in M.
      match type of M with is_derive _ _ ?v => assert (V : v = Px (X t) (Y t) * dX + Py (X t) (Y t) * dY) end.
      { unfold plus, mult, scal; cbn. unfold mult; cbn. unfold Px, Py, kx, ky. match goal with |- ?x = ?y => change (@eq R x y) end. ring. }
      rewrite <- V. exact M.
    - intros x y _. apply (scaled_continuous Q). exact Q_continuous.
    - intros x y _. unfold Px. apply plus2; apply mult2; try (apply scaled_continuous; assumption).
      + apply plus2; [apply k_continuous2|]. apply mult2; [|apply k_continuous2']. apply mult2; [apply continuous_const|]. apply mult2; apply fst2.
      + apply mult2; [|apply k_continuous2']. apply mult2; [apply continuous_const|]. apply mult2; [apply fst2|apply snd2].
    - intros x y _. unfold Py. apply plus2; apply mult2; try (apply scaled_continuous; assumption).
      + apply mult2; [|apply k_continuous2']. apply mult2; [apply continuous_const|]. apply mult2; [apply fst2|apply snd2].
      + apply plus2; [apply k_continuous2|]. apply mult2; [|apply k_continuous2']. apply mult2; [apply continuous_const|]. apply mult2; apply snd2.
    - exact Hr.
    - nra.
    - intro l. cbn beta. f_equal. unfold Px, Py, turn, kx, ky. ring.
  Qed.
End Radial.

(** * The hyperbolic tangent *)
Lemma tanh_lipschitz x y : Rabs (tanh x - tanh y) <= Rabs (x - y).
Proof.
  destruct (MVT_gen tanh y x (fun z => 1 - tanh z ^ 2)) as (c & _ & E).
  - intros z _. apply tanh_derive.
  - intros z _. apply continuity_pt_filterlim. apply (ex_derive_continuous (V := R_NormedModule) tanh). eexists. apply tanh_derive.
  - rewrite E, Rabs_mult. rewrite <- (Rmult_1_l (Rabs (x - y))) at 2. apply Rmult_le_compat_r; [apply Rabs_pos|].
    pose proof (tanh_square c). pose proof (pow2_ge_0 (tanh c)). apply Rabs_le. lra.
Qed.
Lemma tanh_nonneg y : 0 <= y -> 0 <= tanh y <= y.
Proof.
  intro H. assert (T0 : tanh 0 = 0) by (unfold tanh, sinh; rewrite Ropp_0; unfold Rdiv; ring).
  destruct (Req_dec y 0) as [->|N]; [rewrite T0; lra|]. pose proof (tanh_range y ltac:(lra)). pose proof (tanh_lipschitz y 0) as L. rewrite T0, !Rminus_0_r, !Rabs_right in L; lra.
Qed.
Definition ratio_of (s : R) : R := tanh (s / 2) / s.
Lemma ratio_near s r : 0 < s -> 0 <= r -> Rabs (r * ratio_of s - tanh (r / 2)) <= Rabs (s - r).
Proof.
  intros Hs Hr. pose proof (tanh_nonneg (s / 2) ltac:(lra)) as T. pose proof (tanh_lipschitz (s / 2) (r / 2)) as L.
  replace (s / 2 - r / 2) with (/ 2 * (s - r)) in L by field. rewrite Rabs_mult, (Rabs_right (/ 2)) in L by lra.
  replace (r * ratio_of s - tanh (r / 2)) with ((tanh (s / 2) - tanh (r / 2)) + - (ratio_of s * (s - r))) by (unfold ratio_of; field; lra).
  eapply Rle_trans; [apply Rabs_triang|]. rewrite Rabs_Ropp, Rabs_mult.
  assert (B : 0 <= ratio_of s <= / 2). { unfold ratio_of. split; [apply Rmult_le_pos; [lra|apply Rlt_le, Rinv_0_lt_compat, Hs]|]. apply (Rmult_le_reg_r s); [exact Hs|]. unfold Rdiv. rewrite Rmult_assoc, Rinv_l by lra. lra. }
  rewrite (Rabs_right (ratio_of s)) by lra. pose proof (Rabs_pos (s - r)). nra.
Qed.
Lemma ratio_half s : 0 < s -> 0 <= ratio_of s <= / 2.
Proof.
  intro Hs. pose proof (tanh_nonneg (s / 2) ltac:(lra)) as T. unfold ratio_of.
  split; [apply Rmult_le_pos; [lra|apply Rlt_le, Rinv_0_lt_compat, Hs]|]. apply (Rmult_le_reg_r s); [exact Hs|]. unfold Rdiv. rewrite Rmult_assoc, Rinv_l by lra. lra.
Qed.

(** * Shapes of a normal vector *)
Lemma component_le c z : Rabs (component c z) <= Cmod z.
Proof. unfold component. destruct c; [|destruct z as [x y]]; (eapply Rle_trans; [|apply Rmax_Cmod]); cbn [fst snd]; [apply Rmax_l|apply Rmax_r]. Qed.
Lemma component_minus c x y : component c (Cminus x y) = component c x - component c y.
Proof. destruct c, x, y; reflexivity. Qed.
Lemma shrink_scale e : exists f, shrink e = Cmult e (RtoC f) /\ Cmod e * f = tanh (Cmod e / 2).
Proof.
  unfold shrink. rewrite modulus_eq. eexists. split; [reflexivity|]. pose proof (Cmod_ge_0 e). destruct (Rlt_dec 0 (Cmod e)) as [L|L]; [field; lra|].
  replace (Cmod e) with 0 by lra. unfold Rdiv. rewrite !Rmult_0_l. unfold tanh, sinh. rewrite Ropp_0. unfold Rdiv. ring.
Qed.
(** A vector that is scaled as if it had another length. *)
Lemma scale_near e f s : Cmod e * f = tanh (Cmod e / 2) -> 0 < s ->
  Cmod (Cminus (Cmult e (RtoC (ratio_of s))) (Cmult e (RtoC f))) <= Rabs (s - Cmod e).
Proof.
  intros E Hs. replace (Cminus (Cmult e (RtoC (ratio_of s))) (Cmult e (RtoC f))) with (Cmult e (RtoC (ratio_of s - f))).
  2:{ rewrite RtoC_minus. unfold Cminus. ring. }
  rewrite Cmod_mult, Cmod_R. rewrite <- (Rabs_right (Cmod e)) at 1 by (apply Rle_ge, Cmod_ge_0). rewrite <- Rabs_mult, Rmult_minus_distr_l, E.
  apply ratio_near; [exact Hs|apply Cmod_ge_0].
Qed.
Lemma shrink_slope e e' : Cmod (Cminus (shrink e) (shrink e')) <= 2 * Cmod (Cminus e e').
Proof.
  destruct (shrink_scale e) as (f & -> & Ef). destruct (shrink_scale e') as (f' & -> & Ef').
  pose proof (Cmod_ge_0 e) as P. pose proof (Cmod_ge_0 e') as P'. pose proof (Cmod_ge_0 (Cminus e e')) as P0.
  destruct (Req_dec (Cmod e) 0) as [Z|Z].
  - apply Cmod_eq_0 in Z. subst e. replace (Cminus (Cmult (RtoC 0) (RtoC f)) (Cmult e' (RtoC f'))) with (Copp (Cmult e' (RtoC f'))) by (unfold Cminus; ring).
    replace (Cminus (RtoC 0) e') with (Copp e') by (unfold Cminus; ring). rewrite !Cmod_opp, Cmod_mult, Cmod_R.
    rewrite <- (Rabs_right (Cmod e')) at 1 by (apply Rle_ge, P'). rewrite <- Rabs_mult, Ef'.
    pose proof (tanh_nonneg (Cmod e' / 2) ltac:(lra)). rewrite Rabs_right by lra. lra.
  - assert (Hs : 0 < Cmod e) by lra. assert (Ff : f = ratio_of (Cmod e)) by (unfold ratio_of; rewrite <- Ef; field; lra). subst f.
    replace (Cminus (Cmult e (RtoC (ratio_of (Cmod e)))) (Cmult e' (RtoC f'))) with
      (Cplus (Cmult (Cminus e e') (RtoC (ratio_of (Cmod e)))) (Cminus (Cmult e' (RtoC (ratio_of (Cmod e)))) (Cmult e' (RtoC f')))) by (unfold Cminus; ring).
    eapply Rle_trans; [apply Cmod_triangle|]. rewrite Cmod_mult, Cmod_R. pose proof (ratio_half _ Hs) as B. rewrite Rabs_right by lra.
    pose proof (scale_near e' f' (Cmod e) Ef' Hs) as N.
    assert (T : Rabs (Cmod e - Cmod e') <= Cmod (Cminus e e')).
    { apply Rabs_le. split.
      - pose proof (Cmod_triangle (Copp (Cminus e e')) e) as K. replace (Cplus (Copp (Cminus e e')) e) with e' in K by (unfold Cminus; ring). rewrite Cmod_opp in K. lra.
      - pose proof (Cmod_triangle (Cminus e e') e') as K. replace (Cplus (Cminus e e') e') with e in K by (unfold Cminus; ring). lra. }
    nra.
Qed.
Lemma shrink_disc e : Cmod (shrink e) < 1.
Proof. destruct (shrink_spec e) as (L & _). exact L. Qed.

Lemma Cmod_conj (z : C) : Cmod (Cconj z) = Cmod z.
Proof. destruct z as [x y]. unfold Cmod, Cconj. cbn [fst snd]. f_equal. ring. Qed.
Lemma denominator g e : Cmod g < 1 -> Cmod e <= 1 -> 1 - Cmod g <= Cmod (Cplus (RtoC 1) (Cmult (Cconj g) e)).
Proof.
  intros Hg He. pose proof (Cmod_triangle (Cplus (RtoC 1) (Cmult (Cconj g) e)) (Copp (Cmult (Cconj g) e))) as T.
  replace (Cplus (Cplus (RtoC 1) (Cmult (Cconj g) e)) (Copp (Cmult (Cconj g) e))) with (RtoC 1) in T by ring.
  rewrite Cmod_opp, Cmod_mult, Cmod_conj, Cmod_1 in T. pose proof (Cmod_ge_0 g). pose proof (Cmod_ge_0 e). nra.
Qed.
Lemma sheared_slope g e e' : Cmod g < 1 -> Cmod e <= 1 -> Cmod e' <= 1 ->
  Cmod (Cminus (sheared g e) (sheared g e')) <= Cmod (Cminus e e') * (2 / (1 - Cmod g) ^ 2).
Proof.
  intros Hg He He'. pose proof (denominator g e Hg He) as D. pose proof (denominator g e' Hg He') as D'.
  set (d := Cplus (RtoC 1) (Cmult (Cconj g) e)) in *. set (d' := Cplus (RtoC 1) (Cmult (Cconj g) e')) in *.
  assert (N : d <> RtoC 0) by (intro Z; rewrite Z, Cmod_0 in D; lra). assert (N' : d' <> RtoC 0) by (intro Z; rewrite Z, Cmod_0 in D'; lra).
  assert (E : Cminus (sheared g e) (sheared g e') = Cdiv (Cmult (Cminus e e') (Cminus (RtoC 1) (Cmult g (Cconj g)))) (Cmult d d')).
  { unfold sheared. fold d d'. unfold Cminus. replace (Cmult (Cplus e (Copp e')) (Cplus (RtoC 1) (Copp (Cmult g (Cconj g))))) with (Cplus (Cmult (Cplus e g) d') (Copp (Cmult (Cplus e' g) d))) by (unfold d, d'; ring).
    field. split; assumption. }
  rewrite E, Cmod_div, Cmod_mult, Cmod_mult by (apply Cmult_neq_0; assumption).
  assert (A : Cmod (Cminus (RtoC 1) (Cmult g (Cconj g))) <= 2).
  { eapply Rle_trans; [apply Cmod_triangle|]. rewrite Cmod_opp, Cmod_mult, Cmod_conj, Cmod_1. pose proof (Cmod_ge_0 g). nra. }
  assert (Pg : 0 < 1 - Cmod g) by lra.
  unfold Rdiv. rewrite Rmult_assoc. apply Rmult_le_compat_l; [apply Cmod_ge_0|].
  apply Rmult_le_compat; [apply Cmod_ge_0|apply Rlt_le, Rinv_0_lt_compat; nra|exact A|]. apply Rinv_le_contravar; [nra|]. nra.
Qed.

(** * Scaling with a regular function *)
Section Regular.
  Variables a d : R.
  Hypothesis Ha : 0 < a.
  Hypothesis Hd : 0 < d.
  Definition longer (q : R) : R := sqrt (a ^ 2 * q + d ^ 2).
  Lemma longer_pos q : 0 <= q -> 0 < longer q.
  Proof. intro H. apply sqrt_lt_R0. assert (0 <= a ^ 2 * q) by (apply Rmult_le_pos; [apply pow2_ge_0|exact H]). assert (0 < d ^ 2) by (apply pow_lt, Hd). lra. Qed.
  Lemma longer_square q : 0 <= q -> longer q ^ 2 = a ^ 2 * q + d ^ 2.
  Proof. intro H. apply pow2_sqrt. assert (0 <= a ^ 2 * q) by (apply Rmult_le_pos; [apply pow2_ge_0|exact H]). pose proof (pow2_ge_0 d). lra. Qed.
  Definition kk (q : R) : R := a * ratio_of (longer q).
  Definition ratio' (s : R) : R := ((1 - tanh (s / 2) ^ 2) / 2 * s - tanh (s / 2)) / s ^ 2.
  Definition kk' (q : R) : R := a * (ratio' (longer q) * (a ^ 2 / (2 * longer q))).
  Lemma half_derive s : is_derive (fun s => tanh (s / 2)) s ((1 - tanh (s / 2) ^ 2) / 2).
  Proof.
    assert (D : is_derive (fun s : R => s / 2) s (/ 2)) by (auto_derive; [exact I|field]).
    pose proof (is_derive_comp (V := R_NormedModule) tanh (fun s => s / 2) s _ _ (tanh_derive (s / 2)) D) as K.
    match type of K with is_derive _ _ ?v => assert (V : v = (1 - tanh (s / 2) ^ 2) / 2) end.
    { unfold scal; cbn -[pow tanh]; unfold mult; cbn -[pow tanh]. field. }
    rewrite <- V. exact K.
  Qed.
  Lemma ratio_derive s : 0 < s -> is_derive ratio_of s (ratio' s).
  Proof.
    intro Hs. pose proof (half_derive s) as H.
    assert (D : is_derive (fun s : R => / s) s (- / s ^ 2)) by (auto_derive; [lra|field; lra]).
    pose proof (is_derive_mult (K := R_AbsRing) _ _ s _ _ H D Rmult_comm) as K.
    match type of K with is_derive _ _ ?v => assert (V : v = ratio' s) end.
    { unfold plus, mult; cbn -[pow tanh]. unfold ratio'. match goal with |- ?x = ?y => change (@eq R x y) end. field. lra. }
    rewrite <- V. exact K.
  Qed.
  Lemma longer_derive q : 0 <= q -> is_derive longer q (a ^ 2 / (2 * longer q)).
  Proof.
    intro Hq. pose proof (longer_pos q Hq) as P. unfold longer in *. auto_derive.
    - apply sqrt_lt_0_alt. rewrite sqrt_0. exact P.
    - match goal with |- ?x = ?y => change (@eq R x y) end. replace (a * (a * 1) * q + d * (d * 1)) with (a ^ 2 * q + d ^ 2) by ring. field. lra.
  Qed.
  Lemma kk_derive q : 0 <= q -> is_derive kk q (kk' q).
  Proof.
    intro Hq. pose proof (is_derive_comp (V := R_NormedModule) ratio_of longer q _ _ (ratio_derive _ (longer_pos q Hq)) (longer_derive q Hq)) as K.
    apply (is_derive_scal (fun q => ratio_of (longer q)) q a) in K. unfold kk, kk'.
    match type of K with is_derive _ _ ?v => assert (V : v = a * (ratio' (longer q) * (a ^ 2 / (2 * longer q)))) end.
    { unfold scal; cbn -[pow tanh]; unfold mult; cbn -[pow tanh]. match goal with |- ?x = ?y => change (@eq R x y) end. ring. }
    rewrite <- V. exact K.
  Qed.
  Lemma mult1 (f g : R -> R) x : continuous f x -> continuous g x -> continuous (fun x => f x * g x) x.
  Proof. intros A B. apply (continuous_mult (K := R_AbsRing) f g); assumption. Qed.
  Lemma kk_continuous' q : 0 <= q -> continuous kk' q.
  Proof.
    intro Hq. pose proof (longer_pos q Hq) as P.
    assert (CL : continuous longer q) by (apply (ex_derive_continuous (V := R_NormedModule)); eexists; apply longer_derive, Hq).
    assert (CI : forall s, 0 < s -> continuous (fun s => / s) s) by (intros s Hs; apply continuous_Rinv; lra).
    assert (CT : forall s : R, continuous (fun s => tanh (s / 2)) s) by (intro s; apply (ex_derive_continuous (V := R_NormedModule)); eexists; apply half_derive).
    assert (CR : forall s, 0 < s -> continuous ratio' s).
    { intros s Hs. apply (continuous_ext (fun s => ((1 + - (tanh (s / 2) * tanh (s / 2))) * / 2 * s + - tanh (s / 2)) * / (s ^ 2))).
      { intro x. unfold ratio', Rdiv, Rminus. match goal with |- ?x = ?y => change (@eq R x y) end. cbn [pow]. rewrite !Rmult_1_r. reflexivity. }
      apply mult1.
      - apply (continuous_plus (V := R_NormedModule) (fun s => (1 + - (tanh (s / 2) * tanh (s / 2))) * / 2 * s) (fun s => - tanh (s / 2))).
        + apply mult1; [|apply continuous_id]. apply mult1; [|apply continuous_const].
          apply (continuous_plus (V := R_NormedModule) (fun _ => 1) (fun s => - (tanh (s / 2) * tanh (s / 2)))); [apply continuous_const|].
          apply (continuous_opp (V := R_NormedModule) (fun s => tanh (s / 2) * tanh (s / 2))). apply mult1; apply CT.
        + apply (continuous_opp (V := R_NormedModule) (fun s => tanh (s / 2))). apply CT.
      - apply (ex_derive_continuous (V := R_NormedModule)). auto_derive. assert (0 < s ^ 2) by (apply pow_lt, Hs). cbn [pow] in *. lra. }
    unfold kk'. apply (mult1 (fun _ => a)); [apply continuous_const|]. apply (mult1 (fun q => ratio' (longer q))).
    - apply (continuous_comp longer ratio'); [exact CL|apply CR, P].
    - apply (mult1 (fun _ => a ^ 2)); [apply continuous_const|]. apply (continuous_comp longer (fun s => / (2 * s))); [exact CL|].
      apply (ex_derive_continuous (V := R_NormedModule)). auto_derive. lra.
  Qed.
  Lemma kk_small q : 0 <= q -> kk q ^ 2 * q < 1 ^ 2.
  Proof.
    intro Hq. pose proof (longer_pos q Hq) as P. pose proof (longer_square q Hq) as S. pose proof (tanh_square (longer q / 2)) as T.
    assert (Pq : 0 <= a ^ 2 * q) by (apply Rmult_le_pos; [apply pow2_ge_0|exact Hq]). assert (Pd : 0 < d ^ 2) by (apply pow_lt, Hd).
    apply (Rmult_lt_reg_r (longer q ^ 2)); [apply pow_lt, P|].
    replace (kk q ^ 2 * q * longer q ^ 2) with (tanh (longer q / 2) ^ 2 * (a ^ 2 * q)) by (unfold kk, ratio_of; field; lra).
    rewrite S. pose proof (pow2_ge_0 (tanh (longer q / 2))). nra.
  Qed.

  Lemma regular_parts x y r : 0 <= r -> x ^ 2 + y ^ 2 < 1 ->
    means 2 (fun l => disc r (nth 0 l 0) (nth 1 l 0) * part1 x y (kx kk (nth 0 l 0) (nth 1 l 0)) (ky kk (nth 0 l 0) (nth 1 l 0))) 0 /\
    means 2 (fun l => disc r (nth 0 l 0) (nth 1 l 0) * part2 x y (kx kk (nth 0 l 0) (nth 1 l 0)) (ky kk (nth 0 l 0) (nth 1 l 0))) 0.
  Proof.
    intros Hr H. pose proof (scaled_in 1 kk kk_small) as In. destruct (Req_dec (x ^ 2 + y ^ 2) 0) as [Z|Z].
    - assert (x = 0) by nra. assert (y = 0) by nra. subst x y. split.
      + eapply means_eq; [apply (radial_turn (fun x y => y) (fun _ _ => 0) (fun _ _ => 1) 1) with (k := kk) (k' := kk') (r := r)| |reflexivity];
          [|intros; apply continuous_snd|intros; apply continuous_const|intros; apply continuous_const|exact kk_derive|exact kk_continuous'|exact kk_small|exact Hr|].
        * intros X Y t dX dY _ _ HY. replace (0 * dX + 1 * dY) with dY by ring. exact HY.
        * intro l. cbn beta. rewrite (proj1 (zero_turn _ _)). f_equal. unfold turn. ring.
      + eapply means_eq; [apply (radial_turn (fun x y => - x) (fun _ _ => -1) (fun _ _ => 0) 1) with (k := kk) (k' := kk') (r := r)| |reflexivity];
          [| |intros; apply continuous_const|intros; apply continuous_const|exact kk_derive|exact kk_continuous'|exact kk_small|exact Hr|].
        * intros X Y t dX dY _ HX _. replace (-1 * dX + 0 * dY) with (- dX) by ring. apply (is_derive_opp X t dX HX).
        * intros x y _. apply (continuous_opp (V := R_NormedModule) (fun p : R * R => fst p)). apply continuous_fst.
        * intro l. cbn beta. rewrite (proj2 (zero_turn _ _)). f_equal. unfold turn. ring.
    - set (n := x ^ 2 + y ^ 2) in *.
      assert (Hs : n * 1 ^ 2 <= 1) by (rewrite pow1; lra).
      split.
      + eapply means_eq; [apply (radial_turn (pot x y (x / n) (y / n)) (pot_x x y (x / n) (y / n)) (pot_y x y (x / n) (y / n)) 1) with (k := kk) (k' := kk') (r := r)| |reflexivity];
          [apply pot_derive, Hs|apply pot_continuous, Hs|apply pot_x_continuous, Hs|apply pot_y_continuous, Hs|exact kk_derive|exact kk_continuous'|exact kk_small|exact Hr|].
        intro l. cbn beta. f_equal. apply (parts_turn x y 1 _ _ Hs (In _ _) Z).
      + eapply means_eq; [apply (radial_turn (pot x y (y / n) (- x / n)) (pot_x x y (y / n) (- x / n)) (pot_y x y (y / n) (- x / n)) 1) with (k := kk) (k' := kk') (r := r)| |reflexivity];
          [apply pot_derive, Hs|apply pot_continuous, Hs|apply pot_x_continuous, Hs|apply pot_y_continuous, Hs|exact kk_derive|exact kk_continuous'|exact kk_small|exact Hr|].
        intro l. cbn beta. f_equal. apply (parts_turn x y 1 _ _ Hs (In _ _) Z).
  Qed.

  (** The scaled vector is near to the shape. *)
  Lemma regular_near u w : Cmod (Cminus (kx kk u w, ky kk u w) (shrink (a * u, a * w))) <= d.
  Proof.
    destruct (shrink_scale (a * u, a * w)) as (f & -> & E). set (s := longer (sq u w)). assert (Hs : 0 < s) by apply longer_pos, sq_pos.
    replace (kx kk u w, ky kk u w) with (Cmult (a * u, a * w) (RtoC (ratio_of s))).
    2:{ unfold kx, ky, kk. fold s. unfold Cmult, RtoC. cbn [fst snd]. f_equal; ring. }
    eapply Rle_trans; [apply (scale_near _ f s E Hs)|]. set (m := Cmod (a * u, a * w)). assert (Pm : 0 <= m) by apply Cmod_ge_0.
    assert (Em : m ^ 2 = a ^ 2 * sq u w).
    { unfold m, Cmod. cbn [fst snd]. rewrite pow2_sqrt by (pose proof (pow2_ge_0 (a * u)); pose proof (pow2_ge_0 (a * w)); lra). unfold sq. ring. }
    pose proof (longer_square (sq u w) (sq_pos u w)) as S. fold s in S. rewrite <- Em in S. apply Rabs_le. split; nra.
  Qed.
  Lemma regular_in u w : Cmod (kx kk u w, ky kk u w) <= 1.
  Proof.
    pose proof (scaled_in 1 kk kk_small u w) as H. unfold Cmod. cbn [fst snd]. rewrite <- sqrt_1. apply sqrt_le_1_alt. lra.
  Qed.
End Regular.
