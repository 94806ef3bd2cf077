(** Averages of functions over circles and discs, if the function is the derivative of another one under rotation. *)
From Coq Require Import Reals Lra Lia List.
From Coquelicot Require Import Coquelicot.
From Verif Require Import Base Spec_Gauss Proof_Gauss Proof_Normals Proof_Disc.
Import ListNotations.
Local Open Scope R_scope.

(** Integrals over an interval are continuous in a parameter. *)
Lemma param_continuous (h : R -> R -> R) x : (forall s, -1 <= s <= 1 -> continuity_2d_pt h x s) ->
  locally x (fun y => ex_RInt (h y) (-1) 1) -> continuous (fun y => RInt (h y) (-1) 1) x.
Proof.
  intros C E. apply (proj1 (continuity_pt_filterlim _ _)). apply continuity_pt_locally. intro eps.
  assert (He : 0 < eps / 4) by (pose proof (cond_pos eps); lra).
  destruct (uniform_continuity_2d_1d' h (-1) 1 x C (mkposreal _ He)) as (d & Hd). pose proof (locally_singleton _ _ E) as E0.
  apply (filter_imp (fun y => ex_RInt (h y) (-1) 1 /\ Rabs (y - x) < d)).
  - intros y (Ey & Ny).
    assert (M : RInt (fun s => minus (h y s) (h x s)) (-1) 1 = RInt (h y) (-1) 1 - RInt (h x) (-1) 1).
    { apply (RInt_minus (V := R_CompleteNormedModule)); assumption. }
    rewrite <- M. eapply Rle_lt_trans.
    + apply (abs_RInt_le_const _ (-1) 1 (eps / 4)); [lra|apply (ex_RInt_minus (V := R_NormedModule)); assumption|].
      intros s Hs. left. apply Rabs_def2 in Ny. pose proof (cond_pos d). apply (Hd s x s y); try lra; rewrite ?Rminus_eq_0, ?Rabs_R0; try lra; apply cond_pos.
    + pose proof (cond_pos eps). cbn. lra.
  - apply filter_and; [exact E|]. exists d. intros y Hy. exact Hy.
Qed.

Section Rotation.
  (** A function [Q] of two numbers with continuous derivatives up to a radius. *)
  Variables Q Qx Qy : R -> R -> R.
  Variable rho : R.
  Hypothesis derivatives : forall (X Y : R -> R) t dX dY, X t ^ 2 + Y t ^ 2 < rho ^ 2 -> is_derive X t dX -> is_derive Y t dY ->
    is_derive (fun t => Q (X t) (Y t)) t (Qx (X t) (Y t) * dX + Qy (X t) (Y t) * dY).
  Hypothesis Qx_continuous : forall x y, x ^ 2 + y ^ 2 < rho ^ 2 -> continuous (fun p : R * R => Qx (fst p) (snd p)) (x, y).
  Hypothesis Qy_continuous : forall x y, x ^ 2 + y ^ 2 < rho ^ 2 -> continuous (fun p : R * R => Qy (fst p) (snd p)) (x, y).
  Hypothesis Q_continuous : forall x y, x ^ 2 + y ^ 2 < rho ^ 2 -> continuous (fun p : R * R => Q (fst p) (snd p)) (x, y).

  (** The derivative under rotation. *)
  Definition turn (x y : R) : R := x * Qy x y - y * Qx x y.

  Lemma turn_continuous x y : x ^ 2 + y ^ 2 < rho ^ 2 -> continuous (fun p : R * R => turn (fst p) (snd p)) (x, y).
  Proof.
    intro H. unfold turn. apply (continuous_minus (V := R_NormedModule) (fun p : R * R => fst p * Qy (fst p) (snd p)) (fun p => snd p * Qx (fst p) (snd p))).
    - apply (continuous_mult (K := R_AbsRing) (fun p : R * R => fst p)); [apply continuous_fst|apply Qy_continuous, H].
    - apply (continuous_mult (K := R_AbsRing) (fun p : R * R => snd p)); [apply continuous_snd|apply Qx_continuous, H].
  Qed.
  (** Composition with any two continuous functions of two numbers. *)
  Lemma comp2 (F : R -> R -> R) (X Y : R * R -> R) p : continuous (fun p : R * R => F (fst p) (snd p)) (X p, Y p) ->
    continuous X p -> continuous Y p -> continuous (fun p => F (X p) (Y p)) p.
  Proof. intros HF HX HY. apply (continuous_comp_2 X Y F); assumption. Qed.
  Lemma comp1 (F : R -> R -> R) (X Y : R -> R) p : continuous (fun p : R * R => F (fst p) (snd p)) (X p, Y p) ->
    continuous X p -> continuous Y p -> continuous (fun p => F (X p) (Y p)) p.
  Proof. intros HF HX HY. apply (continuous_comp_2 X Y F); assumption. Qed.

  Lemma circle_average r : r ^ 2 < rho ^ 2 -> is_RInt (fun t => turn (r * cos (2 * PI * t)) (r * sin (2 * PI * t))) 0 1 0.
  Proof.
    intro Hr. pose proof PI_RGT_0 as PP.
    assert (In : forall t, (r * cos (2 * PI * t)) ^ 2 + (r * sin (2 * PI * t)) ^ 2 < rho ^ 2).
    { intro t. pose proof (sin2_cos2 (2 * PI * t)) as S. unfold Rsqr in S. nra. }
    set (F := fun t => Q (r * cos (2 * PI * t)) (r * sin (2 * PI * t)) / (2 * PI)).
    assert (D : forall t, is_derive F t (turn (r * cos (2 * PI * t)) (r * sin (2 * PI * t)))).
    { intro t. unfold F, Rdiv.
      assert (DX : is_derive (fun t => r * cos (2 * PI * t)) t (- (r * sin (2 * PI * t)) * (2 * PI))) by (auto_derive; [exact I|ring]).
      assert (DY : is_derive (fun t => r * sin (2 * PI * t)) t (r * cos (2 * PI * t) * (2 * PI))) by (auto_derive; [exact I|ring]).
      pose proof (derivatives _ _ t _ _ (In t) DX DY) as K. cbn beta in K.
      apply (is_derive_scal_l (V := R_NormedModule) _ t _ (/ (2 * PI))) in K.
      match type of K with is_derive _ _ ?v => assert (V : v = turn (r * cos (2 * PI * t)) (r * sin (2 * PI * t))) end.
      { unfold scal; cbn; unfold mult; cbn. unfold turn. field. lra. }
      rewrite V in K. exact K. }
    replace 0 with (minus (F 1) (F 0)) at 2.
    - apply (is_RInt_derive (V := R_CompleteNormedModule) F).
      + intros t _. apply D.
      + intros t _. apply (comp1 turn (fun t => r * cos (2 * PI * t)) (fun t => r * sin (2 * PI * t))); [apply turn_continuous, In| |];
          apply (ex_derive_continuous (V := R_NormedModule)); auto_derive; exact I.
    - unfold minus, plus, opp, F; cbn. rewrite Rmult_0_r, Rmult_1_r, cos_2PI, sin_2PI, cos_0, sin_0. ring.
  Qed.
  Variable r : R.
  Hypothesis Hr : 0 <= r.
  Hypothesis Hrho : r ^ 2 < rho ^ 2.

  Lemma slice_in u s : u ^ 2 < rho ^ 2 -> -1 <= s <= 1 -> u ^ 2 + (s * edge r u) ^ 2 < rho ^ 2.
  Proof.
    intros Hu Hs. destruct (Rle_dec (u ^ 2) (r ^ 2)) as [L|L].
    - assert (E : edge r u ^ 2 = r ^ 2 - u ^ 2) by (unfold edge; apply pow2_sqrt; lra).
      rewrite Rpow_mult_distr, E. assert (s ^ 2 <= 1) by nra. assert (0 <= r ^ 2 - u ^ 2) by lra. nra.
    - assert (E : edge r u = 0) by (apply sqrt_neg_0; lra). rewrite E, Rmult_0_r, pow_ne_zero by lia. lra.
  Qed.
  Definition strip (u s : R) : R := edge r u * turn u (s * edge r u).
  Definition slice_sum (u : R) : R := RInt (strip u) (-1) 1.

  Lemma strip_continuous u s : u ^ 2 < rho ^ 2 -> -1 <= s <= 1 -> continuous (fun p : R * R => strip (fst p) (snd p)) (u, s).
  Proof.
    intros Hu Hs. unfold strip.
    assert (E : continuous (fun p : R * R => edge r (fst p)) (u, s)) by (apply (continuous_comp (fun p : R * R => fst p) (edge r)); [apply continuous_fst|apply edge_continuous]).
    apply (continuous_mult (K := R_AbsRing) (fun p : R * R => edge r (fst p))); [exact E|].
    apply (comp2 turn (fun p : R * R => fst p) (fun p => snd p * edge r (fst p))); [apply turn_continuous; cbn [fst snd]; apply slice_in; assumption|apply continuous_fst|].
    apply (continuous_mult (K := R_AbsRing) (fun p : R * R => snd p)); [apply continuous_snd|exact E].
  Qed.
  Lemma strip_ex u : u ^ 2 < rho ^ 2 -> ex_RInt (strip u) (-1) 1.
  Proof.
    intro Hu. apply (ex_RInt_continuous (V := R_CompleteNormedModule)). intros s. rewrite Rmin_left, Rmax_right by lra. intro Hs.
    apply (comp1 strip (fun _ => u) (fun s => s)); [apply strip_continuous; assumption|apply continuous_const|apply continuous_id].
  Qed.
  Lemma slice_is u : u ^ 2 < rho ^ 2 -> is_RInt (turn u) (- edge r u) (edge r u) (slice_sum u).
  Proof.
    intro Hu. pose proof (sqrt_pos (r ^ 2 - u ^ 2)) as P. fold (edge r u) in P.
    assert (X : ex_RInt (turn u) (- edge r u) (edge r u)).
    { apply (ex_RInt_continuous (V := R_CompleteNormedModule)). intros w. rewrite Rmin_left, Rmax_right by lra. intro Hw.
      apply (comp1 turn (fun _ => u) (fun s => s)); [apply turn_continuous|apply continuous_const|apply continuous_id].
      destruct (Rle_lt_dec (edge r u) 0) as [L|L].
      - replace w with (0 * edge r u) by nra. apply slice_in; lra.
      - replace w with (w / edge r u * edge r u) by (field; lra). apply slice_in; [exact Hu|]. split; apply (Rmult_le_reg_r (edge r u)); try lra; unfold Rdiv; rewrite Rmult_assoc, Rinv_l by lra; lra. }
    pose proof (RInt_correct (V := R_CompleteNormedModule) _ _ _ X) as Y.
    replace (slice_sum u) with (RInt (turn u) (- edge r u) (edge r u)); [exact Y|].
    symmetry. unfold slice_sum. apply (is_RInt_unique (V := R_CompleteNormedModule)).
    apply (is_RInt_ext (fun s => scal (edge r u) (turn u (edge r u * s + 0)))).
    - intros s _. unfold strip, scal; cbn; unfold mult; cbn. f_equal. f_equal. ring.
    - apply (is_RInt_comp_lin (V := R_NormedModule)). replace (edge r u * -1 + 0) with (- edge r u) by ring. replace (edge r u * 1 + 0) with (edge r u) by ring. exact Y.
  Qed.
  Lemma slice_continuous u : u ^ 2 < rho ^ 2 -> continuous slice_sum u.
  Proof.
    intro Hu. unfold slice_sum. apply (param_continuous strip u).
    - intros s Hs. apply continuity_2d_pt_filterlim. apply strip_continuous; assumption.
    - assert (C : continuous (fun u => u ^ 2) u) by (apply (ex_derive_continuous (V := R_NormedModule)); auto_derive; exact I).
      apply (filter_imp (fun u => u ^ 2 < rho ^ 2)); [apply strip_ex|]. apply (C (fun z => z < rho ^ 2)). apply (open_lt (rho ^ 2)). exact Hu.
  Qed.

  Lemma circle_in t s : -1 <= s <= 1 -> (r * sin t) ^ 2 + (s * (r * cos t)) ^ 2 < rho ^ 2.
  Proof.
    intro Hs. pose proof (sin2_cos2 t) as S. unfold Rsqr in S. assert (s ^ 2 <= 1) by nra.
    assert ((s * (r * cos t)) ^ 2 <= (r * cos t) ^ 2) by (rewrite Rpow_mult_distr; pose proof (pow2_ge_0 (r * cos t)); nra).
    assert ((r * sin t) ^ 2 + (r * cos t) ^ 2 = r ^ 2) by (replace ((r * sin t) ^ 2 + (r * cos t) ^ 2) with (r ^ 2 * (sin t * sin t + cos t * cos t)) by ring; rewrite S; ring). lra.
  Qed.
  Definition moment (t s : R) : R := s * (r * cos t) ^ 2 * Q (r * sin t) (s * (r * cos t)).
  Definition moment' (t s : R) : R :=
    let c := r * cos t in let x := r * sin t in
    -2 * s * c * x * Q x (s * c) + s * c ^ 2 * (c * Qx x (s * c) - s * x * Qy x (s * c)).
  Lemma moment_derive_in t s : (r * sin t) ^ 2 + (s * (r * cos t)) ^ 2 < rho ^ 2 -> is_derive (fun t => moment t s) t (moment' t s).
  Proof.
    intro Hs.
    assert (DX : is_derive (fun t => r * sin t) t (r * cos t)) by (auto_derive; [exact I|ring]).
    assert (DY : is_derive (fun t => s * (r * cos t)) t (- (s * (r * sin t)))) by (auto_derive; [exact I|ring]).
    pose proof (derivatives _ _ t _ _ Hs DX DY) as K. cbn beta in K.
    assert (DZ : is_derive (fun t => s * (r * cos t) ^ 2) t (-2 * s * (r * cos t) * (r * sin t))) by (auto_derive; [exact I|ring]).
    pose proof (is_derive_mult (K := R_AbsRing) _ _ t _ _ DZ K Rmult_comm) as M.
    match type of M with is_derive _ _ ?v => assert (V : v = moment' t s) end.
    { unfold plus, mult; cbn. unfold moment'. match goal with |- ?x = ?y => change (@eq R x y) end. ring. }
    rewrite <- V. exact M.
  Qed.
  Lemma moment_derive t s : -1 <= s <= 1 -> is_derive (fun t => moment t s) t (moment' t s).
  Proof. intro Hs. apply moment_derive_in, circle_in, Hs. Qed.
  Lemma circle_continuous (F : R -> R -> R) : (forall x y, x ^ 2 + y ^ 2 < rho ^ 2 -> continuous (fun p : R * R => F (fst p) (snd p)) (x, y)) ->
    forall t s, -1 <= s <= 1 -> continuous (fun p : R * R => F (r * sin (fst p)) (snd p * (r * cos (fst p)))) (t, s).
  Proof.
    intros CF t s Hs.
    assert (E : forall f : R -> R, (forall t, ex_derive f t) -> continuous (fun p : R * R => f (fst p)) (t, s)).
    { intros f Df. apply (continuous_comp (fun p : R * R => fst p) f); [apply continuous_fst|apply (ex_derive_continuous (V := R_NormedModule)), Df]. }
    apply (comp2 F (fun p : R * R => r * sin (fst p)) (fun p => snd p * (r * cos (fst p)))).
    - apply CF. cbn [fst snd]. apply circle_in, Hs.
    - apply (E (fun t => r * sin t)). intro. auto_derive. exact I.
    - apply (continuous_mult (K := R_AbsRing) (fun p : R * R => snd p)); [apply continuous_snd|]. apply (E (fun t => r * cos t)). intro. auto_derive. exact I.
  Qed.
  Lemma moment_continuous' t s : -1 <= s <= 1 -> continuous (fun p : R * R => moment' (fst p) (snd p)) (t, s).
  Proof.
    intro Hs. unfold moment'. cbv zeta.
    assert (E : forall f : R -> R, (forall t, ex_derive f t) -> continuous (fun p : R * R => f (fst p)) (t, s)).
    { intros f Df. apply (continuous_comp (fun p : R * R => fst p) f); [apply continuous_fst|apply (ex_derive_continuous (V := R_NormedModule)), Df]. }
    assert (Ec : continuous (fun p : R * R => r * cos (fst p)) (t, s)) by (apply (E (fun t => r * cos t)); intro; auto_derive; exact I).
    assert (Es : continuous (fun p : R * R => r * sin (fst p)) (t, s)) by (apply (E (fun t => r * sin t)); intro; auto_derive; exact I).
    assert (Mu : forall f g : R * R -> R, continuous f (t, s) -> continuous g (t, s) -> continuous (fun p => f p * g p) (t, s)) by (intros f g A B; apply (continuous_mult (K := R_AbsRing) f g); assumption).
    apply (continuous_plus (V := R_NormedModule) (fun p : R * R => -2 * snd p * (r * cos (fst p)) * (r * sin (fst p)) * Q (r * sin (fst p)) (snd p * (r * cos (fst p))))
      (fun p => snd p * (r * cos (fst p)) ^ 2 * (r * cos (fst p) * Qx (r * sin (fst p)) (snd p * (r * cos (fst p))) - snd p * (r * sin (fst p)) * Qy (r * sin (fst p)) (snd p * (r * cos (fst p)))))).
    - apply Mu; [|apply circle_continuous; assumption]. apply Mu; [|exact Es]. apply Mu; [|exact Ec]. apply Mu; [apply continuous_const|apply continuous_snd].
    - apply Mu.
      + apply Mu; [apply continuous_snd|]. apply (continuous_ext (fun p : R * R => r * cos (fst p) * (r * cos (fst p)))); [intro p; cbn; ring|apply Mu; assumption].
      + apply (continuous_minus (V := R_NormedModule) (fun p : R * R => r * cos (fst p) * Qx (r * sin (fst p)) (snd p * (r * cos (fst p))))
          (fun p => snd p * (r * sin (fst p)) * Qy (r * sin (fst p)) (snd p * (r * cos (fst p))))).
        * apply Mu; [assumption|apply circle_continuous; assumption].
        * apply Mu; [apply Mu; [apply continuous_snd|assumption]|apply circle_continuous; assumption].
  Qed.

  Lemma moment_is t : - (PI / 2) <= t <= PI / 2 -> is_RInt (moment' t) (-1) 1 (- (slice_sum (r * sin t) * (r * cos t))).
  Proof.
    intro Ht. set (c := r * cos t). set (x := r * sin t).
    assert (Hx : x ^ 2 < rho ^ 2) by (pose proof (circle_in t 0 ltac:(lra)) as K; rewrite Rmult_0_l in K; unfold x; lra).
    set (B := fun s => c * x * (1 - s ^ 2) * Q x (s * c)). set (B' := fun s => c * x * (-2 * s * Q x (s * c) + (1 - s ^ 2) * c * Qy x (s * c))).
    assert (IB : is_RInt B' (-1) 1 0).
    { replace 0 with (minus (B 1) (B (-1))) by (unfold minus, plus, opp, B; cbn; ring).
      apply (is_RInt_derive (V := R_CompleteNormedModule) B).
      - intros s. rewrite Rmin_left, Rmax_right by lra. intro Hs.
        assert (DX : is_derive (fun _ : R => x) s 0) by (apply (is_derive_const (V := R_NormedModule))).
        assert (DY : is_derive (fun s => s * c) s c) by (auto_derive; [exact I|ring]).
        pose proof (derivatives _ _ s _ _ (circle_in t s Hs) DX DY) as K. cbn beta in K.
        assert (DZ : is_derive (fun s => c * x * (1 - s ^ 2)) s (c * x * (-2 * s))) by (auto_derive; [exact I|ring]).
        pose proof (is_derive_mult (K := R_AbsRing) _ _ s _ _ DZ K Rmult_comm) as M.
        match type of M with is_derive _ _ ?v => assert (V : v = B' s) end.
        { unfold plus, mult; cbn. unfold B'. fold x. match goal with |- ?x = ?y => change (@eq R x y) end. ring. }
        rewrite <- V. exact M.
      - intros s. rewrite Rmin_left, Rmax_right by lra. intro Hs.
        assert (Lc : continuous (fun s : R => s * c) s) by (apply (ex_derive_continuous (V := R_NormedModule)); auto_derive; exact I).
        assert (CF : forall F : R -> R -> R, (forall x y, x ^ 2 + y ^ 2 < rho ^ 2 -> continuous (fun p : R * R => F (fst p) (snd p)) (x, y)) -> continuous (fun s => F x (s * c)) s).
        { intros F HF. apply (comp1 F (fun _ => x) (fun s => s * c)); [apply HF; apply (circle_in t s Hs)|apply continuous_const|exact Lc]. }
        unfold B'. apply (continuous_mult (K := R_AbsRing) (fun _ => c * x)); [apply continuous_const|].
        apply (continuous_plus (V := R_NormedModule) (fun s => -2 * s * Q x (s * c)) (fun s => (1 - s ^ 2) * c * Qy x (s * c))).
        + apply (continuous_mult (K := R_AbsRing) (fun s => -2 * s)); [apply (ex_derive_continuous (V := R_NormedModule)); auto_derive; exact I|apply CF, Q_continuous].
        + apply (continuous_mult (K := R_AbsRing) (fun s => (1 - s ^ 2) * c)); [apply (ex_derive_continuous (V := R_NormedModule)); auto_derive; exact I|apply CF, Qy_continuous]. }
    pose proof (RInt_correct (V := R_CompleteNormedModule) _ _ _ (strip_ex x Hx)) as IS. fold (slice_sum x) in IS.
    apply (is_RInt_scal (V := R_NormedModule) _ _ _ (- c)) in IS. pose proof (is_RInt_plus (V := R_NormedModule) _ _ _ _ _ _ IS IB) as K.
    match type of K with is_RInt _ _ _ ?v => assert (V : v = - (slice_sum x * c)) by (unfold plus, scal; cbn; unfold mult; cbn; ring); rewrite V in K end.
    eapply is_RInt_ext; [|exact K]. intros s _. cbn beta. unfold strip, x. rewrite edge_angle by assumption. fold c x. unfold plus, scal; cbn; unfold mult; cbn.
    unfold turn, B', moment'. fold c x. cbv zeta. ring.
  Qed.

  Definition moments (t : R) : R := RInt (moment t) (-1) 1.
  Lemma moments_derive t : - (PI / 2) <= t <= PI / 2 -> is_derive moments t (- (slice_sum (r * sin t) * (r * cos t))).
  Proof.
    intro Ht. rewrite <- (is_RInt_unique (V := R_CompleteNormedModule) _ _ _ _ (moment_is t Ht)).
    replace (RInt (moment' t) (-1) 1) with (RInt (fun s => Derive (fun u => moment u s) t) (-1) 1).
    2:{ apply (RInt_ext (V := R_CompleteNormedModule)). intros s. rewrite Rmin_left, Rmax_right by lra. intro Hs. apply is_derive_unique, moment_derive. lra. }
    unfold moments. apply (is_derive_RInt_param moment (-1) 1 t).
    - apply filter_forall. intros y s. rewrite Rmin_left, Rmax_right by lra. intro Hs. eexists. apply moment_derive, Hs.
    - intros s. rewrite Rmin_left, Rmax_right by lra. intro Hs.
      apply (continuity_2d_pt_ext_loc moment').
      + assert (C : continuous (fun p : R * R => (r * sin (fst p)) ^ 2 + (snd p * (r * cos (fst p))) ^ 2) (t, s)).
        { apply (circle_continuous (fun x y => x ^ 2 + y ^ 2)); [|exact Hs]. intros x y _.
          apply (continuous_plus (V := R_NormedModule) (fun p : R * R => fst p ^ 2) (fun p => snd p ^ 2)).
          - apply (continuous_comp (fun p : R * R => fst p) (fun x => x ^ 2)); [apply continuous_fst|apply (ex_derive_continuous (V := R_NormedModule)); auto_derive; exact I].
          - apply (continuous_comp (fun p : R * R => snd p) (fun x => x ^ 2)); [apply continuous_snd|apply (ex_derive_continuous (V := R_NormedModule)); auto_derive; exact I]. }
        pose proof (C (fun z => z < rho ^ 2) (open_lt (rho ^ 2) _ (circle_in t s Hs))) as L. unfold filtermap in L.
        apply locally_2d_locally. revert L. apply filter_imp. intros [y z] L. cbn [fst snd] in L |- *. symmetry. apply is_derive_unique, moment_derive_in, L.
      + apply continuity_2d_pt_filterlim. apply moment_continuous', Hs.
    - apply filter_forall. intros y. apply (ex_RInt_continuous (V := R_CompleteNormedModule)). intros s. rewrite Rmin_left, Rmax_right by lra. intro Hs.
      unfold moment. apply (continuous_mult (K := R_AbsRing) (fun s => s * (r * cos y) ^ 2)); [apply (ex_derive_continuous (V := R_NormedModule)); auto_derive; exact I|].
      apply (comp1 Q (fun _ => r * sin y) (fun s => s * (r * cos y))); [apply Q_continuous, circle_in, Hs|apply continuous_const|].
      apply (ex_derive_continuous (V := R_NormedModule)); auto_derive; exact I.
  Qed.
  Lemma moments_end t : cos t = 0 -> moments t = 0.
  Proof.
    intro E. unfold moments. rewrite (RInt_ext (V := R_CompleteNormedModule) _ (fun _ => 0)).
    - rewrite RInt_const. unfold scal; cbn; unfold mult; cbn. ring.
    - intros s _. unfold moment. rewrite E. match goal with |- ?x = ?y => change (@eq R x y) end. ring.
  Qed.
  Lemma outer_turn : is_RInt (fun t => slice_sum (r * sin t) * (r * cos t)) (- (PI / 2)) (PI / 2) 0.
  Proof.
    pose proof PI_RGT_0 as PP. set (F := fun t => - moments t).
    replace 0 with (minus (F (PI / 2)) (F (- (PI / 2)))).
    2:{ unfold F. rewrite !moments_end by (rewrite ?cos_neg; apply cos_PI2). unfold minus, plus, opp; cbn. ring. }
    apply (is_RInt_derive (V := R_CompleteNormedModule) F); intros t; rewrite Rmin_left, Rmax_right by lra; intro Ht.
    - unfold F. pose proof (is_derive_opp _ _ _ (moments_derive t Ht)) as K. unfold opp in K; cbn -[moments] in K. rewrite Ropp_involutive in K. exact K.
    - apply (continuous_mult (K := R_AbsRing) (fun t => slice_sum (r * sin t))).
      + apply (continuous_comp (fun t => r * sin t) slice_sum); [apply (ex_derive_continuous (V := R_NormedModule)); auto_derive; exact I|].
        apply slice_continuous. pose proof (circle_in t 0 ltac:(lra)) as K. rewrite Rmult_0_l in K. lra.
      + apply (ex_derive_continuous (V := R_NormedModule)); auto_derive; exact I.
  Qed.
  Lemma disc_integral : is_RInt slice_sum (- r) r 0.
  Proof. apply outer_angle; [exact Hr| |exact outer_turn]. intros u Hu. apply slice_continuous. nra. Qed.
End Rotation.

(** * Normal numbers in a disc *)
Lemma disc_turn P Px Py rho r :
  (forall (X Y : R -> R) t dX dY, X t ^ 2 + Y t ^ 2 < rho ^ 2 -> is_derive X t dX -> is_derive Y t dY ->
    is_derive (fun t => P (X t) (Y t)) t (Px (X t) (Y t) * dX + Py (X t) (Y t) * dY)) ->
  (forall x y, x ^ 2 + y ^ 2 < rho ^ 2 -> continuous (fun p : R * R => P (fst p) (snd p)) (x, y)) ->
  (forall x y, x ^ 2 + y ^ 2 < rho ^ 2 -> continuous (fun p : R * R => Px (fst p) (snd p)) (x, y)) ->
  (forall x y, x ^ 2 + y ^ 2 < rho ^ 2 -> continuous (fun p : R * R => Py (fst p) (snd p)) (x, y)) ->
  0 <= r -> r ^ 2 < rho ^ 2 ->
  means 2 (fun l => disc r (nth 0 l 0) (nth 1 l 0) * (nth 0 l 0 * Py (nth 0 l 0) (nth 1 l 0) - nth 1 l 0 * Px (nth 0 l 0) (nth 1 l 0))) 0.
Proof.
  intros D CP CX CY Hr Hrho.
  set (Q := fun x y => P x y * (gauss x * gauss y)). set (Qx := fun x y => (Px x y - x * P x y) * (gauss x * gauss y)). set (Qy := fun x y => (Py x y - y * P x y) * (gauss x * gauss y)).
  assert (G1 : forall p : R * R, continuous (fun p : R * R => gauss (fst p) * gauss (snd p)) p).
  { intro p. apply (continuous_mult (K := R_AbsRing) (fun p : R * R => gauss (fst p)) (fun p => gauss (snd p))).
    - apply (continuous_comp (fun p : R * R => fst p) gauss); [destruct p; apply continuous_fst|apply gauss_continuous].
    - apply (continuous_comp (fun p : R * R => snd p) gauss); [destruct p; apply continuous_snd|apply gauss_continuous]. }
  assert (CQ : forall x y, x ^ 2 + y ^ 2 < rho ^ 2 -> continuous (fun p : R * R => Q (fst p) (snd p)) (x, y)).
  { intros x y H. unfold Q. apply (continuous_mult (K := R_AbsRing) (fun p : R * R => P (fst p) (snd p))); [apply CP, H|apply G1]. }
  assert (CQx : forall x y, x ^ 2 + y ^ 2 < rho ^ 2 -> continuous (fun p : R * R => Qx (fst p) (snd p)) (x, y)).
  { intros x y H. unfold Qx. apply (continuous_mult (K := R_AbsRing) (fun p : R * R => Px (fst p) (snd p) - fst p * P (fst p) (snd p))); [|apply G1].
    apply (continuous_minus (V := R_NormedModule) (fun p : R * R => Px (fst p) (snd p)) (fun p => fst p * P (fst p) (snd p))); [apply CX, H|].
    apply (continuous_mult (K := R_AbsRing) (fun p : R * R => fst p)); [apply continuous_fst|apply CP, H]. }
  assert (CQy : forall x y, x ^ 2 + y ^ 2 < rho ^ 2 -> continuous (fun p : R * R => Qy (fst p) (snd p)) (x, y)).
  { intros x y H. unfold Qy. apply (continuous_mult (K := R_AbsRing) (fun p : R * R => Py (fst p) (snd p) - snd p * P (fst p) (snd p))); [|apply G1].
    apply (continuous_minus (V := R_NormedModule) (fun p : R * R => Py (fst p) (snd p)) (fun p => snd p * P (fst p) (snd p))); [apply CY, H|].
    apply (continuous_mult (K := R_AbsRing) (fun p : R * R => snd p)); [apply continuous_snd|apply CP, H]. }
  assert (DQ : forall (X Y : R -> R) t dX dY, X t ^ 2 + Y t ^ 2 < rho ^ 2 -> is_derive X t dX -> is_derive Y t dY ->
    is_derive (fun t => Q (X t) (Y t)) t (Qx (X t) (Y t) * dX + Qy (X t) (Y t) * dY)).
  { intros X Y t dX dY H HX HY. pose proof (D X Y t dX dY H HX HY) as K.
    assert (E1 : is_derive (fun t => gauss (X t)) t (- X t * gauss (X t) * dX)).
    { pose proof (is_derive_comp (V := R_NormedModule) gauss X t _ _ (gauss_derive (X t)) HX) as C. unfold scal in C; cbn in C; unfold mult in C; cbn in C. rewrite (Rmult_comm _ dX). exact C. }
    assert (E2 : is_derive (fun t => gauss (Y t)) t (- Y t * gauss (Y t) * dY)).
    { pose proof (is_derive_comp (V := R_NormedModule) gauss Y t _ _ (gauss_derive (Y t)) HY) as C. unfold scal in C; cbn in C; unfold mult in C; cbn in C. rewrite (Rmult_comm _ dY). exact C. }
    pose proof (is_derive_mult (K := R_AbsRing) _ _ t _ _ E1 E2 Rmult_comm) as E3.
    pose proof (is_derive_mult (K := R_AbsRing) _ _ t _ _ K E3 Rmult_comm) as E4.
    match type of E4 with is_derive _ _ ?v => assert (V : v = Qx (X t) (Y t) * dX + Qy (X t) (Y t) * dY) end.
    { unfold plus, mult; cbn. unfold Qx, Qy. match goal with |- ?x = ?y => change (@eq R x y) end. ring. }
    rewrite <- V. exact E4. }
  pose proof (disc_integral Q Qx Qy rho DQ CQx CQy CQ r Hr Hrho) as DI. set (v := slice_sum Qx Qy r) in *.
  pose proof dd_pos as Pd. cbn [means nth].
  set (m := fun u => (if Rle_dec (u ^ 2) (r ^ 2) then v u / gauss u else 0) / (2 * dd)).
  assert (Gp : forall u, 0 < gauss u) by (intro u; apply exp_pos).
  exists m. split.
  - intro u. exists (fun w => disc r u w * (u * Py u w - w * Px u w)). split; [reflexivity|].
    unfold m. apply inner_support. destruct (Rle_dec _ _) as [L|L].
    + pose proof (slice_is Qx Qy rho CQx CQy r Hrho u ltac:(lra)) as S. fold v in S.
      apply (is_RInt_scal (V := R_NormedModule) _ _ _ (/ gauss u)) in S.
      match type of S with is_RInt _ _ _ ?y => assert (V : y = v u / gauss u) by (unfold scal; cbn; unfold mult; cbn; unfold Rdiv; ring); rewrite V in S end.
      eapply is_RInt_ext; [|exact S]. intros w _. unfold scal; cbn; unfold mult; cbn. unfold turn, Qx, Qy. specialize (Gp u).
      match goal with |- ?x = ?y => change (@eq R x y) end. field. lra.
    + assert (E : edge r u = 0) by (apply sqrt_neg_0; lra). rewrite E, Ropp_0. apply (is_RInt_point (V := R_NormedModule)).
  - replace 0 with ((0 / (2 * dd)) / (2 * dd)) by (field; lra). apply (mean_support m r).
    + exact Hr.
    + intros u Hu. unfold m. destruct (Rle_dec _ _) as [L|L]; [|field; lra].
      exfalso. apply square_abs in L; [lra|exact Hr].
    + apply (is_RInt_scal (V := R_NormedModule) _ _ _ (/ (2 * dd))) in DI.
      match type of DI with is_RInt _ _ _ ?y => assert (V : y = 0 / (2 * dd)) by (unfold scal; cbn; unfold mult; cbn; unfold Rdiv; ring); rewrite V in DI end.
      eapply is_RInt_ext; [|exact DI]. intros u. rewrite Rmin_left, Rmax_right by lra. intro Hu.
      unfold m. destruct (Rle_dec _ _) as [L|L]; [|exfalso; apply L; nra]. unfold scal; cbn; unfold mult; cbn. specialize (Gp u).
      match goal with |- ?x = ?y => change (@eq R x y) end. field. lra.
Qed.

(** * The function that is averaged *)
Section Sheared.
  Variables a b p q : R.
  Definition real (x y : R) : R := 1 + (a * x + b * y).
  Definition imag (x y : R) : R := a * y - b * x.
  Definition norm2 (x y : R) : R := real x y ^ 2 + imag x y ^ 2.
  Definition pot (x y : R) : R := p * atan (imag x y / real x y) + q * (ln (norm2 x y) / 2).
  Definition pot_x (x y : R) : R := (p * (- real x y * b - imag x y * a) + q * (real x y * a - imag x y * b)) / norm2 x y.
  Definition pot_y (x y : R) : R := (p * (real x y * a - imag x y * b) + q * (real x y * b + imag x y * a)) / norm2 x y.
  Variable rho : R.
  Hypothesis small : (a ^ 2 + b ^ 2) * rho ^ 2 <= 1.

  Lemma real_pos x y : x ^ 2 + y ^ 2 < rho ^ 2 -> 0 < real x y.
  Proof.
    intro H. unfold real. assert (S : (a * x + b * y) ^ 2 <= (a ^ 2 + b ^ 2) * (x ^ 2 + y ^ 2)) by (pose proof (pow2_ge_0 (a * y - b * x)); lra).
    assert (0 <= a ^ 2 + b ^ 2) by (pose proof (pow2_ge_0 a); pose proof (pow2_ge_0 b); lra).
    destruct (Req_dec (a ^ 2 + b ^ 2) 0) as [Z|Z].
    - rewrite Z in S. assert (a * x + b * y = 0) by nra. lra.
    - assert ((a ^ 2 + b ^ 2) * (x ^ 2 + y ^ 2) < 1) by nra. nra.
  Qed.
  Lemma norm2_pos x y : x ^ 2 + y ^ 2 < rho ^ 2 -> 0 < norm2 x y.
  Proof. intro H. apply real_pos in H. unfold norm2. pose proof (pow2_ge_0 (imag x y)). nra. Qed.
  Lemma pot_derive (X Y : R -> R) t dX dY : X t ^ 2 + Y t ^ 2 < rho ^ 2 -> is_derive X t dX -> is_derive Y t dY ->
    is_derive (fun t => pot (X t) (Y t)) t (pot_x (X t) (Y t) * dX + pot_y (X t) (Y t) * dY).
  Proof.
    intros H HX HY. pose proof (real_pos _ _ H) as P1. pose proof (norm2_pos _ _ H) as P2. unfold pot, pot_x, pot_y, norm2, real, imag in *.
    auto_derive.
    - repeat split; try (eexists; eassumption); lra.
    - replace (Derive (fun x : R => X x) t) with dX by (symmetry; apply is_derive_unique; exact HX).
      replace (Derive (fun x : R => Y x) t) with dY by (symmetry; apply is_derive_unique; exact HY).
      set (u := 1 + (a * X t + b * Y t)) in *. set (w := a * Y t - b * X t) in *.
      change (a * Y t + - (b * X t)) with w. clearbody u w. match goal with |- ?x = ?y => change (@eq R x y) end.
      field. split; nra.
  Qed.
  Lemma lin2 c d e x y : continuous (fun p : R * R => c + (d * fst p + e * snd p)) (x, y).
  Proof.
    apply (continuous_plus (V := R_NormedModule) (fun _ : R * R => c) (fun p => d * fst p + e * snd p)); [apply continuous_const|].
    apply (continuous_plus (V := R_NormedModule) (fun p : R * R => d * fst p) (fun p => e * snd p)).
    - apply (continuous_mult (K := R_AbsRing) (fun _ : R * R => d) (fun p => fst p)); [apply continuous_const|apply continuous_fst].
    - apply (continuous_mult (K := R_AbsRing) (fun _ : R * R => e) (fun p => snd p)); [apply continuous_const|apply continuous_snd].
  Qed.
  Lemma real_continuous x y : continuous (fun p : R * R => real (fst p) (snd p)) (x, y).
  Proof. apply lin2. Qed.
  Lemma imag_continuous x y : continuous (fun p : R * R => imag (fst p) (snd p)) (x, y).
  Proof. apply (continuous_ext (fun p : R * R => 0 + (- b * fst p + a * snd p))); [intro; unfold imag; cbn; ring|apply lin2]. Qed.
  (** Any function of the two parts with a continuous derivative is continuous. *)
  Lemma parts_continuous (F : R -> R -> R) x y : continuous (fun p : R * R => F (fst p) (snd p)) (real x y, imag x y) ->
    continuous (fun p : R * R => F (real (fst p) (snd p)) (imag (fst p) (snd p))) (x, y).
  Proof. intro H. apply (comp2 F (fun p : R * R => real (fst p) (snd p)) (fun p => imag (fst p) (snd p))); [exact H|apply real_continuous|apply imag_continuous]. Qed.
  Lemma norm2_continuous x y : continuous (fun p : R * R => norm2 (fst p) (snd p)) (x, y).
  Proof.
    unfold norm2. apply (parts_continuous (fun u w => u ^ 2 + w ^ 2)).
    apply (continuous_plus (V := R_NormedModule) (fun p : R * R => fst p ^ 2) (fun p => snd p ^ 2)).
    - apply (continuous_comp (fun p : R * R => fst p) (fun x => x ^ 2)); [apply continuous_fst|apply (ex_derive_continuous (V := R_NormedModule)); auto_derive; exact I].
    - apply (continuous_comp (fun p : R * R => snd p) (fun x => x ^ 2)); [apply continuous_snd|apply (ex_derive_continuous (V := R_NormedModule)); auto_derive; exact I].
  Qed.
  Lemma quotient_continuous (f : R * R -> R) x y : x ^ 2 + y ^ 2 < rho ^ 2 -> continuous f (x, y) ->
    continuous (fun p => f p / norm2 (fst p) (snd p)) (x, y).
  Proof.
    intros H Cf. pose proof (norm2_pos x y H) as P. apply (continuous_mult (K := R_AbsRing) f); [exact Cf|].
    apply (continuous_comp (fun p : R * R => norm2 (fst p) (snd p)) Rinv).
    - apply norm2_continuous.
    - apply continuous_Rinv. cbn [fst snd]. lra.
  Qed.
  Lemma pot_continuous x y : x ^ 2 + y ^ 2 < rho ^ 2 -> continuous (fun s : R * R => pot (fst s) (snd s)) (x, y).
  Proof.
    intro H. pose proof (real_pos x y H) as P1. pose proof (norm2_pos x y H) as P2. unfold pot.
    apply (continuous_plus (V := R_NormedModule) (fun s : R * R => p * atan (imag (fst s) (snd s) / real (fst s) (snd s))) (fun s => q * (ln (norm2 (fst s) (snd s)) / 2))).
    - apply (continuous_mult (K := R_AbsRing) (fun _ : R * R => p)); [apply continuous_const|].
      apply (continuous_comp (fun s : R * R => imag (fst s) (snd s) / real (fst s) (snd s)) atan).
      + apply (continuous_mult (K := R_AbsRing) (fun s : R * R => imag (fst s) (snd s))); [apply imag_continuous|].
        apply (continuous_comp (fun s : R * R => real (fst s) (snd s)) Rinv); [apply real_continuous|apply continuous_Rinv; cbn [fst snd]; lra].
      + apply (ex_derive_continuous (V := R_NormedModule)). auto_derive. exact I.
    - apply (continuous_mult (K := R_AbsRing) (fun _ : R * R => q)); [apply continuous_const|].
      apply (continuous_comp (fun s : R * R => norm2 (fst s) (snd s)) (fun n => ln n / 2)); [apply norm2_continuous|].
      apply (ex_derive_continuous (V := R_NormedModule)). cbn [fst snd]. auto_derive. exact P2.
  Qed.
  Lemma pot_x_continuous x y : x ^ 2 + y ^ 2 < rho ^ 2 -> continuous (fun s : R * R => pot_x (fst s) (snd s)) (x, y).
  Proof.
    intro H. unfold pot_x. apply (quotient_continuous (fun s : R * R => p * (- real (fst s) (snd s) * b - imag (fst s) (snd s) * a) + q * (real (fst s) (snd s) * a - imag (fst s) (snd s) * b))); [exact H|].
    apply (continuous_ext (fun s : R * R => 0 + ((q * a - p * b) * real (fst s) (snd s) + (- p * a - q * b) * imag (fst s) (snd s)))); [intro; cbn; ring|].
    apply (parts_continuous (fun u w => 0 + ((q * a - p * b) * u + (- p * a - q * b) * w))). apply lin2.
  Qed.
  Lemma pot_y_continuous x y : x ^ 2 + y ^ 2 < rho ^ 2 -> continuous (fun s : R * R => pot_y (fst s) (snd s)) (x, y).
  Proof.
    intro H. unfold pot_y. apply (quotient_continuous (fun s : R * R => p * (real (fst s) (snd s) * a - imag (fst s) (snd s) * b) + q * (real (fst s) (snd s) * b + imag (fst s) (snd s) * a))); [exact H|].
    apply (continuous_ext (fun s : R * R => 0 + ((p * a + q * b) * real (fst s) (snd s) + (q * a - p * b) * imag (fst s) (snd s)))); [intro; cbn; ring|].
    apply (parts_continuous (fun u w => 0 + ((p * a + q * b) * u + (q * a - p * b) * w))). apply lin2.
  Qed.
End Sheared.

(** The two components of [e / (1 + conj(g) e)] are derivatives under rotation. *)
Definition part1 (a b x y : R) : R := (x + a * (x ^ 2 + y ^ 2)) / (1 + 2 * (a * x + b * y) + (a ^ 2 + b ^ 2) * (x ^ 2 + y ^ 2)).
Definition part2 (a b x y : R) : R := (y + b * (x ^ 2 + y ^ 2)) / (1 + 2 * (a * x + b * y) + (a ^ 2 + b ^ 2) * (x ^ 2 + y ^ 2)).
Lemma parts_turn a b rho x y : (a ^ 2 + b ^ 2) * rho ^ 2 <= 1 -> x ^ 2 + y ^ 2 < rho ^ 2 -> a ^ 2 + b ^ 2 <> 0 ->
  let n := a ^ 2 + b ^ 2 in
  x * pot_y a b (a / n) (b / n) x y - y * pot_x a b (a / n) (b / n) x y = part1 a b x y /\
  x * pot_y a b (b / n) (- a / n) x y - y * pot_x a b (b / n) (- a / n) x y = part2 a b x y.
Proof.
  intros Hs H Hn n. pose proof (norm2_pos a b rho Hs x y H) as P.
  assert (E : 1 + 2 * (a * x + b * y) + (a ^ 2 + b ^ 2) * (x ^ 2 + y ^ 2) = norm2 a b x y) by (unfold norm2, real, imag; ring).
  unfold part1, part2. rewrite E. unfold pot_x, pot_y, n. set (N := norm2 a b x y) in *. unfold real, imag. split; field; split; lra.
Qed.
Lemma zero_turn x y : part1 0 0 x y = x /\ part2 0 0 x y = y.
Proof. unfold part1, part2. split; field; nra. Qed.

Lemma disc_parts a b r : 0 <= r -> (a ^ 2 + b ^ 2) * r ^ 2 < 1 ->
  means 2 (fun l => disc r (nth 0 l 0) (nth 1 l 0) * part1 a b (nth 0 l 0) (nth 1 l 0)) 0 /\
  means 2 (fun l => disc r (nth 0 l 0) (nth 1 l 0) * part2 a b (nth 0 l 0) (nth 1 l 0)) 0.
Proof.
  intros Hr H. destruct (Req_dec (a ^ 2 + b ^ 2) 0) as [Z|Z].
  - assert (a = 0) by nra. assert (b = 0) by nra. subst a b. split.
    + eapply means_eq; [apply (disc_u r Hr)| |reflexivity]. intro l. cbn beta. rewrite (proj1 (zero_turn _ _)). reflexivity.
    + eapply means_eq; [apply (disc_w r (fun _ => 1))| |reflexivity]. intro l. cbn beta. rewrite (proj2 (zero_turn _ _)), Rmult_1_l. reflexivity.
  - set (n := a ^ 2 + b ^ 2) in *. assert (Pn : 0 < n) by (pose proof (pow2_ge_0 a); pose proof (pow2_ge_0 b); unfold n in *; lra).
    set (rho := sqrt (/ n)). assert (Er : rho ^ 2 = / n) by (apply pow2_sqrt; apply Rlt_le, Rinv_0_lt_compat, Pn).
    assert (Hs : n * rho ^ 2 <= 1) by (rewrite Er, Rinv_r by lra; lra).
    assert (Hrho : r ^ 2 < rho ^ 2) by (apply (Rmult_lt_reg_l n); [exact Pn|]; rewrite Er, Rinv_r by lra; exact H).
    split.
    + eapply means_eq; [apply (disc_turn (pot a b (a / n) (b / n)) (pot_x a b (a / n) (b / n)) (pot_y a b (a / n) (b / n)) rho r)| |reflexivity];
        [apply pot_derive, Hs|apply pot_continuous, Hs|apply pot_x_continuous, Hs|apply pot_y_continuous, Hs|exact Hr|exact Hrho|].
      intro l. cbn beta. unfold disc. destruct (Rle_dec _ _) as [L|L]; [|ring]. rewrite <- (proj1 (parts_turn a b rho (nth 0 l 0) (nth 1 l 0) Hs ltac:(lra) Z)). reflexivity.
    + eapply means_eq; [apply (disc_turn (pot a b (b / n) (- a / n)) (pot_x a b (b / n) (- a / n)) (pot_y a b (b / n) (- a / n)) rho r)| |reflexivity];
        [apply pot_derive, Hs|apply pot_continuous, Hs|apply pot_x_continuous, Hs|apply pot_y_continuous, Hs|exact Hr|exact Hrho|].
      intro l. cbn beta. unfold disc. destruct (Rle_dec _ _) as [L|L]; [|ring]. rewrite <- (proj2 (parts_turn a b rho (nth 0 l 0) (nth 1 l 0) Hs ltac:(lra) Z)). reflexivity.
Qed.
Lemma circle_parts a b r : (a ^ 2 + b ^ 2) * r ^ 2 < 1 ->
  is_RInt (fun t => part1 a b (r * cos (2 * PI * t)) (r * sin (2 * PI * t))) 0 1 0 /\
  is_RInt (fun t => part2 a b (r * cos (2 * PI * t)) (r * sin (2 * PI * t))) 0 1 0.
Proof.
  intros H.
  assert (In : forall t, (r * cos (2 * PI * t)) ^ 2 + (r * sin (2 * PI * t)) ^ 2 = r ^ 2).
  { intro t. pose proof (sin2_cos2 (2 * PI * t)) as S. unfold Rsqr in S. replace (r ^ 2) with (r ^ 2 * 1) by ring. rewrite <- S. ring. }
  destruct (Req_dec (a ^ 2 + b ^ 2) 0) as [Z|Z].
  - assert (a = 0) by nra. assert (b = 0) by nra. subst a b.
    assert (D : forall (X Y : R -> R) (t dX dY : R), X t ^ 2 + Y t ^ 2 < (Rabs r + 1) ^ 2 -> is_derive X t dX -> is_derive Y t dY -> is_derive (fun t => Y t) t (0 * dX + 1 * dY)).
    { intros X Y t dX dY _ _ HY. replace (0 * dX + 1 * dY) with dY by ring. exact HY. }
    assert (D' : forall (X Y : R -> R) (t dX dY : R), X t ^ 2 + Y t ^ 2 < (Rabs r + 1) ^ 2 -> is_derive X t dX -> is_derive Y t dY -> is_derive (fun t => - X t) t (-1 * dX + 0 * dY)).
    { intros X Y t dX dY _ HX _. replace (-1 * dX + 0 * dY) with (- dX) by ring. apply (is_derive_opp X t dX HX). }
    assert (Hr : r ^ 2 < (Rabs r + 1) ^ 2) by (rewrite <- (pow2_abs r); pose proof (Rabs_pos r); nra).
    split.
    + eapply is_RInt_ext; [|apply (circle_average (fun x y => y) (fun _ _ => 0) (fun _ _ => 1) (Rabs r + 1) D)]; [|intros; apply continuous_const|intros; apply continuous_const|exact Hr].
      intros t _. cbn beta. rewrite (proj1 (zero_turn _ _)). unfold turn. match goal with |- ?x = ?y => change (@eq R x y) end. ring.
    + eapply is_RInt_ext; [|apply (circle_average (fun x y => - x) (fun _ _ => -1) (fun _ _ => 0) (Rabs r + 1) D')]; [|intros; apply continuous_const|intros; apply continuous_const|exact Hr].
      intros t _. cbn beta. rewrite (proj2 (zero_turn _ _)). unfold turn. match goal with |- ?x = ?y => change (@eq R x y) end. ring.
  - set (n := a ^ 2 + b ^ 2) in *. assert (Pn : 0 < n) by (pose proof (pow2_ge_0 a); pose proof (pow2_ge_0 b); unfold n in *; lra).
    set (rho := sqrt (/ n)). assert (Er : rho ^ 2 = / n) by (apply pow2_sqrt; apply Rlt_le, Rinv_0_lt_compat, Pn).
    assert (Hs : n * rho ^ 2 <= 1) by (rewrite Er, Rinv_r by lra; lra).
    assert (Hrho : r ^ 2 < rho ^ 2) by (apply (Rmult_lt_reg_l n); [exact Pn|]; rewrite Er, Rinv_r by lra; exact H).
    split.
    + eapply is_RInt_ext; [|apply (circle_average (pot a b (a / n) (b / n)) (pot_x a b (a / n) (b / n)) (pot_y a b (a / n) (b / n)) rho)];
        [|apply pot_derive, Hs|apply pot_x_continuous, Hs|apply pot_y_continuous, Hs|exact Hrho].
      intros t _. cbn beta. apply (parts_turn a b rho _ _ Hs); [rewrite In; exact Hrho|exact Z].
    + eapply is_RInt_ext; [|apply (circle_average (pot a b (b / n) (- a / n)) (pot_x a b (b / n) (- a / n)) (pot_y a b (b / n) (- a / n)) rho)];
        [|apply pot_derive, Hs|apply pot_x_continuous, Hs|apply pot_y_continuous, Hs|exact Hrho].
      intros t _. cbn beta. apply (parts_turn a b rho _ _ Hs); [rewrite In; exact Hrho|exact Z].
Qed.
