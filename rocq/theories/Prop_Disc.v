(** Claims about the distribution of normal ellipticities (C85). *)
From Coq Require Import Reals Lra Lia List.
From Coquelicot Require Import Coquelicot.
From Verif Require Import Base Model_Numeric Model_Arrays Model_Shapes.
From Verif Require Import Spec_Gauss Spec_Shapes Spec_Disc Proof_Gauss Proof_Normals Proof_Disc Proof_Shapes Proof_Reject Proof_Fit.
Import ListNotations.
Local Open Scope R_scope.

Lemma product_app a b : product (a ++ b) = product a * product b.
Proof. unfold product. induction a as [|x a IH]; cbn; [ring|]. rewrite IH. ring. Qed.
Lemma each_app f : forall e f' e', length f = length e -> each (f ++ f') (e ++ e') = each f e * each f' e'.
Proof. induction f as [|g f IH]; intros [|x e] f' e' L; try discriminate; cbn [each app]; [ring|]. rewrite IH by (cbn in L; lia). ring. Qed.
Lemma each_length f : forall e, length f <> length e -> each f e = 0.
Proof. induction f as [|g f IH]; intros [|x e] L; cbn in *; try reflexivity; [lia|]. rewrite IH by lia. ring. Qed.

Lemma redraw_length fuel sigma : forall e s out s', redraw_complex numbers fuel sigma e s = Ok (out, s') -> (length out <= length e)%nat.
Proof.
  induction fuel as [|fuel IH]; intros e s out s'; cbn [redraw_complex]; destruct (existsb _ _).
  - discriminate.
  - intros [= <- <-]. lia.
  - destruct (random_complex _ _ _) as [new s1]. intro H. apply IH in H. etransitivity; [exact H|]. clear. generalize (map (fun x => Cmult x (RtoC sigma)) new) as v.
    induction e as [|x e IHe]; intros v; cbn [map overwrite]; [cbn; lia|]. destruct (ltb 1 (Cmod x)).
    + destruct v as [|y v]; cbn; [lia|]. specialize (IHe v). lia.
    + cbn. specialize (IHe v). lia.
  - intros [= <- <-]. lia.
Qed.

Lemma random_length n s e s' : random_complex numbers n s = (e, s') -> (length e <= n)%nat.
Proof.
  unfold random_complex, numbers. intros [= <- _]. etransitivity; [apply Nat.eq_le_incl, (combine_length (firstn n s))|].
  pose proof (firstn_le_length n s). rewrite firstn_length. lia.
Qed.
Lemma populations_length fuel pops : forall s out s', gaussian_populations numbers fuel pops s = Ok (out, s') -> (length out <= length (scales pops))%nat.
Proof.
  induction pops as [|[n sg] pops IH]; intros s out s'; cbn [gaussian_populations].
  - intros [= <- <-]. cbn. lia.
  - destruct (random_complex _ _ _) as [e s1] eqn:E. destruct (redraw_complex _ _ _ _ _) as [[e' s2]|] eqn:E1; cbn [bind]; [|discriminate].
    destruct (gaussian_populations _ _ _ _) as [[rest s3]|] eqn:E2; cbn [bind]; [|discriminate]. intros [= <- <-].
    apply random_length in E. apply redraw_length in E1. rewrite map_length in E1. apply IH in E2. unfold scales in *. cbn [map concat fst snd]. rewrite !app_length, repeat_length. lia.
Qed.

(** C85 *)

(** The joint distribution of the ellipticities.  All of them are independent; each is distributed as a complex number
    with normal components of its own standard deviation that is known to be inside the unit disc, up to the chance
    that [k] repetitions of the loop are not enough. *)
Theorem gaussian_law count sigma pops fs qs : paired count sigma pops -> Forall (fun p => 0 < snd p) pops ->
  Forall2 (fun sf q => in_disc (fst sf) (snd sf) q) (combine (scales pops) fs) qs -> length fs = length (scales pops) ->
  forall k n, (2 * length fs * S k <= n)%nat ->
    means n (fun l => each_of fs (ellipticity_gaussian numbers k count sigma l))
      (product (map (fun sq => snd sq / disc_chance (fst sq) * (1 - (1 - disc_chance (fst sq)) ^ S k)) (combine (scales pops) qs))).
Proof.
  intros Hp Pos HF HL k n Hn. apply populations_iff in Hp. unfold ellipticity_gaussian. rewrite Hp. cbn [bind]. clear Hp count sigma.
  revert fs qs HF HL n Hn. induction Pos as [|[m sg] pops Ps _ IH]; intros fs qs HF HL n Hn.
  - destruct fs; [|discriminate]. cbn in HF. inversion HF; subst. apply (means_const n 1).
  - cbn [snd] in Ps. unfold scales in *. cbn [map concat fst snd] in *. fold (scales pops) in *.
    rewrite app_length, repeat_length in HL.
    set (f1 := firstn m fs) in *. set (f2 := skipn m fs) in *. assert (Ef : fs = f1 ++ f2) by (symmetry; apply firstn_skipn).
    assert (L1 : length f1 = m) by (apply firstn_length_le; lia). assert (L2 : length f2 = length (scales pops)) by (unfold f2; rewrite skipn_length; lia).
    assert (Sp : exists q1 q2, qs = q1 ++ q2 /\ length q1 = m /\ Forall (fun f => in_disc sg (fst f) (snd f)) (combine f1 q1) /\
      Forall2 (fun sf q => in_disc (fst sf) (snd sf) q) (combine (scales pops) f2) q2).
    { rewrite Ef in HF. clearbody f1 f2. clear - HF L1. revert m L1 qs HF. induction f1 as [|f f1 IH]; intros m L1 qs HF.
      - cbn in L1. subst m. exists [], qs. cbn in HF. repeat split; [constructor|exact HF].
      - destruct m as [|m]; [discriminate|]. cbn [repeat app combine] in HF. inversion HF as [|? ? ? qs' Hq HF']; subst.
        destruct (IH m ltac:(cbn in L1; lia) _ HF') as (q1 & q2 & -> & E & A & B). exists (y :: q1), q2. cbn [combine length]. repeat split; [cbn; lia| |exact B].
        constructor; [exact Hq|exact A]. }
    destruct Sp as (q1 & q2 & -> & Lq & F1 & F2). rewrite Ef in Hn |- *. rewrite app_length in Hn.
    set (kappa := product (map (fun sq => snd sq / disc_chance (fst sq) * (1 - (1 - disc_chance (fst sq)) ^ S k)) (combine (scales pops) q2))).
    assert (Lc : length (combine f1 q1) = m) by (rewrite combine_length; lia).
    pose proof (population_means sg Ps (fun l => each_of f2 (gaussian_populations numbers k pops l)) kappa (2 * length f2 * S k)
      (fun N HN => IH f2 q2 F2 L2 N HN) k (combine f1 q1) n F1 ltac:(rewrite Lc; nia)) as M.
    rewrite Lc in M. eapply means_eq; [exact M| |].
    + intro l. cbn beta. cbn [gaussian_populations]. destruct (random_complex numbers m l) as [e s] eqn:Er.
      change (map (fun x => Cmult x (RtoC sg)) e) with (map (scaled sg) e).
      destruct (redraw_complex numbers k sg (map (scaled sg) e) s) as [[e' s1]|] eqn:Ed; cbn [bind goes]; [|reflexivity].
      assert (Em : map fst (combine f1 q1) = f1).
      { clearbody f1. clear - L1 Lq. revert q1 m L1 Lq. induction f1 as [|f f1 IH]; intros [|q q1] m A B; cbn in *; try reflexivity; [lia|]. f_equal. apply (IH _ (length f1)); lia. }
      rewrite Em. destruct (gaussian_populations numbers k pops s1) as [[rest s2]|] eqn:E2; cbn [bind each_of]; [|ring].
      destruct (Nat.eq_dec (length f1) (length e')) as [Q|Q]; [symmetry; apply each_app; exact Q|].
      rewrite (each_length f1 e' Q), Rmult_0_l. symmetry. apply each_length. rewrite !app_length.
      apply random_length in Er. apply redraw_length in Ed. rewrite map_length in Ed. apply populations_length in E2. lia.
    + unfold kappa. rewrite <- product_app. f_equal.
      clear - Lq L1. clearbody f1. revert m f1 Lq L1. induction q1 as [|q q1 IH]; intros m f1 Lq L1.
      * cbn in Lq. subst m. destruct f1; [reflexivity|discriminate].
      * destruct m as [|m]; [discriminate|]. destruct f1 as [|f f1]; [discriminate|]. cbn [combine map app repeat fst snd].
        f_equal. apply IH; cbn in *; lia.
Qed.
Print Assumptions gaussian_law.

Lemma inside_radius r sigma u w : 0 <= r -> 0 < sigma -> inside r (sigma * u, sigma * w) = disc (r / sigma) u w.
Proof.
  intros Hr Hs. unfold inside, disc, Cmod. cbn [fst snd].
  assert (E : (sigma * u) ^ 2 + (sigma * w) ^ 2 = sigma ^ 2 * (u ^ 2 + w ^ 2)) by ring.
  assert (Q : (r / sigma) ^ 2 = r ^ 2 / sigma ^ 2) by (field; lra). assert (P : 0 < sigma ^ 2) by (apply pow_lt; lra).
  assert (X : sqrt ((sigma * u) ^ 2 + (sigma * w) ^ 2) <= r <-> u ^ 2 + w ^ 2 <= (r / sigma) ^ 2).
  { rewrite E, Q. pose proof (pow2_ge_0 u). pose proof (pow2_ge_0 w). split; intro H1.
    - apply (Rmult_le_reg_l (sigma ^ 2)); [lra|]. replace (sigma ^ 2 * (r ^ 2 / sigma ^ 2)) with (r ^ 2) by (field; lra).
      rewrite <- (sqrt_sqrt (sigma ^ 2 * (u ^ 2 + w ^ 2))) by (apply Rmult_le_pos; lra). pose proof (sqrt_pos (sigma ^ 2 * (u ^ 2 + w ^ 2))). nra.
    - rewrite <- (sqrt_pow2 r) by exact Hr. apply sqrt_le_1_alt. apply (Rmult_le_compat_l (sigma ^ 2)) in H1; [|lra].
      replace (sigma ^ 2 * (r ^ 2 / sigma ^ 2)) with (r ^ 2) in H1 by (field; lra). exact H1. }
  destruct (Rle_dec _ _) as [L|L], (Rle_dec (u ^ 2 + w ^ 2) _) as [M|M]; tauto.
Qed.
Lemma radius_in_disc r sigma : 0 <= r <= 1 -> 0 < sigma -> in_disc sigma (inside r) (1 - exp (- (r ^ 2 / (2 * sigma ^ 2)))).
Proof.
  intros Hr Hs. unfold in_disc. eapply means_eq; [apply (disc_one (r / sigma))| |].
  - apply Rmult_le_pos; [lra|]. apply Rlt_le, Rinv_0_lt_compat. lra.
  - intro l. cbn beta zeta. rewrite <- inside_radius by lra. unfold inside.
    destruct (Rle_dec _ r), (Rle_dec _ 1); lra.
  - unfold gauss. f_equal. f_equal. field. lra.
Qed.

(** In particular the moduli: their joint distribution function. *)
Theorem gaussian_radii count sigma pops rs : paired count sigma pops -> Forall (fun p => 0 < snd p) pops ->
  Forall (fun r => 0 <= r <= 1) rs -> length rs = length (scales pops) ->
  forall k n, (2 * length rs * S k <= n)%nat ->
    means n (fun l => each_of (map inside rs) (ellipticity_gaussian numbers k count sigma l))
      (product (map (fun sr => (1 - exp (- (snd sr ^ 2 / (2 * fst sr ^ 2)))) / (1 - exp (- (1 / (2 * fst sr ^ 2)))) *
        (1 - exp (- (1 / (2 * fst sr ^ 2))) ^ S k)) (combine (scales pops) rs))).
Proof.
  intros Hp Pos Hr HL k n Hn.
  eapply means_eq; [apply (gaussian_law count sigma pops (map inside rs) (map (fun sr => 1 - exp (- (snd sr ^ 2 / (2 * fst sr ^ 2)))) (combine (scales pops) rs)) Hp Pos)| reflexivity|].
  - assert (Ps : Forall (fun s => 0 < s) (scales pops)).
    { clear - Pos. induction Pos as [|[m s] pops P _ IH]; [constructor|]. unfold scales in *. cbn [map concat fst snd]. apply Forall_app. split; [|exact IH].
      apply Forall_forall. intros x Hx. apply repeat_spec in Hx. subst x. exact P. }
    clear - Hr HL Ps. revert rs Hr HL. induction Ps as [|s sc P _ IH]; intros [|r rs] Hr HL; try discriminate; cbn [map combine]; constructor.
    + cbn [fst snd]. apply radius_in_disc; [|exact P]. inversion Hr; assumption.
    + apply IH; [inversion Hr; assumption|cbn in HL; lia].
  - rewrite map_length. exact HL.
  - rewrite map_length. exact Hn.
  - f_equal. revert rs HL Hr Hn. generalize (scales pops) as sc. clear. induction sc as [|s sc IH]; intros [|r rs] HL Hr Hn; try discriminate; [reflexivity|].
    cbn [combine map fst snd]. f_equal; [|apply IH; [cbn in HL; lia|inversion Hr; assumption|cbn in Hn; lia]].
    unfold disc_chance. f_equal. f_equal. f_equal. ring.
Qed.
Print Assumptions gaussian_radii.

(** The moments of one ellipticity: its components have mean zero, are uncorrelated and have one variance. *)
Theorem gaussian_moments count sigma s : 0 < s -> paired count sigma [(1%nat, s)] ->
  let e := exp (- (1 / (2 * s ^ 2))) in let v := s ^ 2 - e / (2 * (1 - e)) in
  forall k n, (2 * S k <= n)%nat ->
    let expected f := means n (fun l => each_of [f] (ellipticity_gaussian numbers k count sigma l)) in
    expected (fun _ => 1) (1 - e ^ S k) /\
    expected (fun x => fst x) 0 /\ expected (fun x => snd x) 0 /\ expected (fun x => fst x * snd x) 0 /\
    expected (fun x => fst x ^ 2) (v * (1 - e ^ S k)) /\ expected (fun x => snd x ^ 2) (v * (1 - e ^ S k)).
Proof.
  intros Hs Hp e v k n Hn expected.
  assert (He : 0 < e < 1). { pose proof (chance_bounds s Hs) as B. unfold disc_chance in B. fold e in B. lra. }
  assert (Gen : forall f q, in_disc s f q -> expected f (q / (1 - e) * (1 - e ^ S k))).
  { intros f q Hf. eapply means_eq; [apply (gaussian_law count sigma [(1%nat, s)] [f] [q] Hp)|reflexivity|].
    - constructor; [exact Hs|constructor].
    - constructor; [exact Hf|constructor].
    - reflexivity.
    - cbn [length]. lia.
    - unfold scales. cbn [map concat fst snd repeat app combine product fold_right]. unfold disc_chance. fold e. replace (1 - (1 - e)) with e by ring. ring. }
  assert (Hr : 0 <= 1 / s) by (apply Rlt_le, Rdiv_lt_0_compat; lra).
  assert (Eg : gauss (1 / s) = e) by (unfold gauss, e; f_equal; field; lra).
  assert (Gs : forall f g q, means 2 (fun l => disc (1 / s) (nth 0 l 0) (nth 1 l 0) * g (nth 0 l 0) (nth 1 l 0)) q ->
    (forall u w, f (s * u, s * w) = s * g u w) -> in_disc s f (s * q)).
  { intros f g q M E. unfold in_disc. eapply means_eq; [apply (means_scal 2 _ s _ M)| |reflexivity]. intro l. cbn beta zeta.
    rewrite E, inside_disc by exact Hs. ring. }
  assert (Eq : forall f q m, in_disc s f q -> q / (1 - e) * (1 - e ^ S k) = m -> expected f m) by (intros f q m H <-; apply Gen, H).
  repeat apply conj.
  - eapply Eq; [apply chance_in_disc; exact Hs|]. unfold disc_chance. fold e. field. lra.
  - eapply Eq; [apply (Gs _ (fun u w => u) 0); [apply disc_u; exact Hr|reflexivity]|]. field. lra.
  - eapply Eq; [apply (Gs _ (fun u w => 1 * w) 0); [apply (disc_w (1 / s) (fun _ => 1))|intros; cbn; ring]|]. field. lra.
  - eapply Eq; [apply (Gs _ (fun u w => (s * u) * w) 0); [apply (disc_w (1 / s) (fun u => s * u))|intros; cbn; ring]|]. field. lra.
  - eapply Eq; [apply (Gs _ (fun u w => s * u ^ 2) (s * (1 - (1 + (1 / s) ^ 2 / 2) * gauss (1 / s)))); [|intros; cbn; ring]|].
    + eapply means_eq; [apply (means_scal 2 _ s _ (disc_uu (1 / s) Hr))| |reflexivity]. intro l. cbn beta. ring.
    + rewrite Eg. unfold v. field. lra.
  - eapply Eq; [apply (Gs _ (fun u w => s * w ^ 2) (s * (1 - (1 + (1 / s) ^ 2 / 2) * gauss (1 / s)))); [|intros; cbn; ring]|].
    + eapply means_eq; [apply (means_scal 2 _ s _ (disc_ww (1 / s) Hr))| |reflexivity]. intro l. cbn beta. ring.
    + rewrite Eg. unfold v. field. lra.
Qed.
Print Assumptions gaussian_moments.

(** The parameter is documented as the standard deviation in each component.  What is returned has a smaller one,
    whatever the parameter is. *)
Theorem gaussian_sigma_refuted count sigma s : 0 < s -> paired count sigma [(1%nat, s)] ->
  exists v, v < s ^ 2 /\ forall k n p m, (2 * S k <= n)%nat ->
    means n (fun l => each_of [fun _ => 1] (ellipticity_gaussian numbers k count sigma l)) p ->
    means n (fun l => each_of [fun x => fst x ^ 2] (ellipticity_gaussian numbers k count sigma l)) m ->
    0 < p /\ m / p = v.
Proof.
  intros Hs Hp. set (e := exp (- (1 / (2 * s ^ 2)))). assert (He : 0 < e < 1). { pose proof (chance_bounds s Hs) as B. unfold disc_chance in B. fold e in B. lra. }
  exists (s ^ 2 - e / (2 * (1 - e))). split.
  - assert (0 < e / (2 * (1 - e))) by (apply Rdiv_lt_0_compat; lra). lra.
  - intros k n p m Hn Mp Mm. destruct (gaussian_moments count sigma s Hs Hp k n Hn) as (A & _ & _ & _ & B & _). fold e in A, B.
    rewrite (means_unique _ _ _ _ Mp A), (means_unique _ _ _ _ Mm B).
    assert (P : e ^ S k < 1) by (apply pow_lt_1_compat; [lra|lia]). split; [lra|]. field. lra.
Qed.
Print Assumptions gaussian_sigma_refuted.

(** A standard deviation for which every other number is inside the disc. *)
Definition even_odds : R := sqrt (/ (2 * ln 2)).
Lemma even_odds_pos : 0 < even_odds.
Proof. apply sqrt_lt_R0, Rinv_0_lt_compat. assert (0 < ln 2) by (rewrite <- ln_1; apply ln_increasing; lra). lra. Qed.
Lemma even_odds_exp r : exp (- (r / (2 * even_odds ^ 2))) = exp (- (r * ln 2)).
Proof.
  assert (0 < ln 2) by (rewrite <- ln_1; apply ln_increasing; lra). unfold even_odds. rewrite pow2_sqrt by (apply Rlt_le, Rinv_0_lt_compat; lra).
  f_equal. field. lra.
Qed.
Lemma even_odds_half : exp (- (1 / (2 * even_odds ^ 2))) = 1 / 2.
Proof. rewrite even_odds_exp, Rmult_1_l, exp_Ropp, exp_ln by lra. lra. Qed.
Definition scalar {A} (a : A) : array A := {| ashape := []; aget := fun _ => a |}.
Lemma scalar_paired (a : nat) (b : R) : paired (scalar a) (scalar b) [(a, b)].
Proof. apply populations_iff. reflexivity. Qed.

(** Two objects, which are both found with at most one repetition with probability (1 - 1/4)^2. *)
Example gaussian_law_example : means 8 (fun l => each_of [inside 1; inside 1] (ellipticity_gaussian numbers 1 (scalar 2%nat) (scalar even_odds) l)) (9 / 16).
Proof.
  eapply means_eq; [apply (gaussian_radii _ _ [(2%nat, even_odds)] [1; 1] (scalar_paired _ _))|reflexivity|].
  - constructor; [apply even_odds_pos|constructor].
  - repeat constructor; lra.
  - reflexivity.
  - cbn. lia.
  - unfold scales. cbn [map concat fst snd repeat app combine product fold_right]. replace (1 ^ 2) with 1 by ring. rewrite even_odds_half. cbn. field.
Qed.
(** One object: both components have variance (1 - ln 2) / (2 ln 2), not 1 / (2 ln 2). *)
Example gaussian_sigma_example : even_odds ^ 2 = 1 / (2 * ln 2) /\
  means 4 (fun l => each_of [fun x => fst x ^ 2] (ellipticity_gaussian numbers 1 (scalar 1%nat) (scalar even_odds) l)) ((1 - ln 2) / (2 * ln 2) * (3 / 4)).
Proof.
  assert (0 < ln 2) by (rewrite <- ln_1; apply ln_increasing; lra).
  assert (Q : even_odds ^ 2 = 1 / (2 * ln 2)) by (unfold even_odds; rewrite pow2_sqrt by (apply Rlt_le, Rinv_0_lt_compat; lra); field; lra).
  split; [exact Q|]. destruct (gaussian_moments _ _ _ even_odds_pos (scalar_paired 1%nat even_odds) 1 4 ltac:(lia)) as (_ & _ & _ & _ & M & _).
  eapply means_eq; [exact M|reflexivity|]. rewrite even_odds_half, Q. cbn. field. lra.
Qed.

(** Independent complex numbers. *)
Lemma each_mean (h : C -> C) fq : Forall (fun f => means 2 (fun l => fst f (h (nth 0 l 0, nth 1 l 0))) (snd f)) fq -> exists g,
  (forall us, length us = length fq -> means (length fq) (fun ws => each (map fst fq) (map h (combine us ws))) (g us)) /\
  means (length fq) g (product (map snd fq)).
Proof.
  induction 1 as [|[f q] fq Hf _ (g & Hg & Mg)]; cbn [length].
  - exists (fun _ => 1). split; [|reflexivity]. intros [|] L; [reflexivity|discriminate].
  - destruct Hf as (a & Ha & Ma). cbn [fst snd] in *.
    exists (fun us => match us with u :: us => a u * g us | [] => 0 end). split.
    + intros [|u us] L; [discriminate|]. cbn [means]. exists (fun w => f (h (u, w)) * g us). split.
      * intro w. eapply means_eq; [apply (means_scal _ _ (f (h (u, w))) _ (Hg us ltac:(cbn in L; lia)))| |reflexivity].
        intro ws. reflexivity.
      * destruct (Ha u) as (b & Hb & Mb). cbn [means nth] in Hb. eapply mean_eq; [apply (mean_scal _ (g us) _ Mb)| |ring].
        intro w. cbn beta. rewrite <- (Hb w). ring.
    + cbn [means map product fold_right snd]. exists (fun u => a u * product (map snd fq)). split.
      * intro u. apply (means_scal _ g (a u)). exact Mg.
      * eapply mean_eq; [apply (mean_scal _ (product (map snd fq)) _ Ma)| |]; [intro u; cbn beta; ring|unfold product; ring].
Qed.

Lemma shrink_radius r eta : 0 <= r < 1 -> Cmod (shrink eta) <= r <-> Cmod eta <= ln ((1 + r) / (1 - r)).
Proof.
  intro Hr. destruct (shrink_spec eta) as (L & E & _). set (m := Cmod (shrink eta)) in *. assert (Hm : 0 <= m) by apply Cmod_ge_0.
  assert (P : 0 < (1 + r) / (1 - r)) by (apply Rdiv_lt_0_compat; lra).
  assert (X : exp (Cmod eta) = (1 + m) / (1 - m)).
  { rewrite <- (Rinv_inv (exp (Cmod eta))), <- exp_Ropp, <- E. field. lra. }
  assert (Y : m <= r <-> (1 + m) / (1 - m) <= (1 + r) / (1 - r)).
  { assert (D : (1 + r) / (1 - r) - (1 + m) / (1 - m) = 2 * (r - m) / ((1 - r) * (1 - m))) by (field; lra).
    assert (Q : 0 < / ((1 - r) * (1 - m))) by (apply Rinv_0_lt_compat; nra). unfold Rdiv in D at 3. set (z := / ((1 - r) * (1 - m))) in *. split; intro; nra. }
  rewrite Y, <- X. rewrite <- (exp_ln _ P) at 1. split; intro H.
  - apply Rnot_lt_le. intro K. apply exp_increasing in K. lra.
  - destruct H as [H| ->]; [left; apply exp_increasing; exact H|right; reflexivity].
Qed.

Lemma intnorm_radius r s : 0 <= r < 1 -> 0 < s < sqrt (1 / 2) ->
  means 2 (fun l => inside r (shrink (Cmult (nth 0 l 0, nth 1 l 0) (RtoC (sigma_eta s)))))
    (1 - exp (- (ln ((1 + r) / (1 - r)) ^ 2 * (1 - 2 * s ^ 2) / (s ^ 2 * (8 + 5 * s ^ 2))))).
Proof.
  intros Hr Hs. assert (U : s * s < 1 / 2). { pose proof (sqrt_sqrt (1 / 2) ltac:(lra)). pose proof (sqrt_pos (1 / 2)). nra. }
  assert (P0 : 0 < (8 + 5 * (s * s)) / (2 - 4 * (s * s))) by (apply Rdiv_lt_0_compat; nra).
  assert (Pe : 0 < sigma_eta s) by (unfold sigma_eta; apply Rmult_lt_0_compat; [lra|apply sqrt_lt_R0; exact P0]).
  assert (Ee : sigma_eta s ^ 2 = s ^ 2 * ((8 + 5 * (s * s)) / (2 - 4 * (s * s)))).
  { unfold sigma_eta. rewrite Rpow_mult_distr, pow2_sqrt by lra. ring. }
  set (t := ln ((1 + r) / (1 - r))). assert (Ht : 0 <= t).
  { unfold t. rewrite <- ln_1. destruct (Req_dec r 0) as [->|N]; [right; f_equal; field|]. left. apply ln_increasing; [lra|].
    assert (D : (1 + r) / (1 - r) - 1 = 2 * r / (1 - r)) by (field; lra). assert (0 < 2 * r / (1 - r)) by (apply Rdiv_lt_0_compat; lra). lra. }
  eapply means_eq; [apply (disc_one (t / sigma_eta s))| |].
  - apply Rmult_le_pos; [exact Ht|apply Rlt_le, Rinv_0_lt_compat, Pe].
  - intro l. cbn beta. rewrite <- inside_radius by assumption. change (Cmult (nth 0 l 0, nth 1 l 0) (RtoC (sigma_eta s))) with (scaled (sigma_eta s) (nth 0 l 0, nth 1 l 0)).
    rewrite scaled_pair. pose proof (shrink_radius r (sigma_eta s * nth 0 l 0, sigma_eta s * nth 1 l 0) Hr) as Q. fold t in Q.
    unfold inside. destruct (Rle_dec _ t) as [A|A], (Rle_dec _ r) as [B|B]; tauto.
  - unfold gauss. f_equal. f_equal. replace ((t / sigma_eta s) ^ 2) with (t ^ 2 / sigma_eta s ^ 2) by (field; lra). rewrite Ee.
    assert (0 < s ^ 2) by (apply pow_lt; lra). field. nra.
Qed.

(** C86 *)

(** The joint distribution function of the moduli of intrinsically normal ellipticities. *)
Theorem intnorm_radii count sigma pops rs : paired count sigma pops -> Forall (fun p => 0 < snd p < sqrt (1 / 2)) pops ->
  Forall (fun r => 0 <= r < 1) rs -> length rs = length (scales pops) ->
  forall n, (2 * length rs <= n)%nat ->
    means n (fun l => each_of (map inside rs) (ellipticity_intnorm numbers count sigma l))
      (product (map (fun sr => 1 - exp (- (ln ((1 + snd sr) / (1 - snd sr)) ^ 2 * (1 - 2 * fst sr ^ 2) / (fst sr ^ 2 * (8 + 5 * fst sr ^ 2)))))
        (combine (scales pops) rs))).
Proof.
  intros Hp Hs Hr HL n Hn. apply populations_iff in Hp. unfold ellipticity_intnorm. rewrite Hp. cbn [bind].
  replace (forallb _ pops) with true.
  2:{ symmetry. apply forallb_forall. intros p Q. rewrite Forall_forall in Hs. specialize (Hs p Q).
      rewrite Proof_Numeric.leb_true, Proof_Numeric.ltb_true by lra. reflexivity. }
  set (q := fun sr : R * R => 1 - exp (- (ln ((1 + snd sr) / (1 - snd sr)) ^ 2 * (1 - 2 * fst sr ^ 2) / (fst sr ^ 2 * (8 + 5 * fst sr ^ 2))))).
  clear Hp count sigma. revert rs Hr HL n Hn. induction Hs as [|[m sg] pops Ps _ IH]; intros rs Hr HL n Hn.
  - destruct rs; [|discriminate]. apply (means_const n 1).
  - cbn [snd] in Ps. unfold scales in *. cbn [map concat fst snd] in *. fold (scales pops) in *. rewrite app_length, repeat_length in HL.
    set (r1 := firstn m rs) in *. set (r2 := skipn m rs) in *. assert (Er : rs = r1 ++ r2) by (symmetry; apply firstn_skipn).
    assert (L1 : length r1 = m) by (apply firstn_length_le; lia). assert (L2 : length r2 = length (scales pops)) by (unfold r2; rewrite skipn_length; lia).
    clearbody r1 r2. subst rs. rewrite app_length in Hn. apply Forall_app in Hr as [Hr1 Hr2].
    set (fq := map (fun r => (inside r, q (sg, r))) r1).
    assert (Lf : length fq = m) by (unfold fq; rewrite map_length; exact L1).
    assert (F : Forall (fun f => means 2 (fun l => fst f (shrink (Cmult (nth 0 l 0, nth 1 l 0) (RtoC (sigma_eta sg))))) (snd f)) fq).
    { apply Forall_forall. intros f Hf. apply in_map_iff in Hf. destruct Hf as (r & <- & Hi). rewrite Forall_forall in Hr1. apply intnorm_radius; auto. }
    destruct (each_mean (fun x => shrink (Cmult x (RtoC (sigma_eta sg)))) fq F) as (g & Hg & Mg). rewrite Lf in *.
    set (kappa := product (map q (combine (scales pops) r2))).
    replace n with (m + (m + (n - m - m)))%nat by lia.
    apply (means_app m _ _ (fun us => kappa * g us)).
    + intros us Lu. apply (means_app m _ _ (fun ws => kappa * each (map fst fq) (map (fun x => shrink (Cmult x (RtoC (sigma_eta sg)))) (combine us ws)))).
      * intros ws Lw. eapply means_eq; [apply (means_scal (n - m - m) _ (each (map fst fq) (map (fun x => shrink (Cmult x (RtoC (sigma_eta sg)))) (combine us ws))) _ (IH r2 Hr2 L2 (n - m - m)%nat ltac:(lia)))| |].
        -- intro l. cbn beta. cbn [intnorm_populations]. pose proof (draw_complex us ws l ltac:(lia)) as D. rewrite Lu in D. rewrite D.
           destruct (intnorm_populations numbers pops l) as [rest s2]. cbn [each_of]. rewrite map_app.
           replace (map fst fq) with (map inside r1) by (unfold fq; rewrite map_map; reflexivity).
           symmetry. apply each_app. rewrite map_length. etransitivity; [exact L1|]. symmetry. etransitivity; [apply map_length|]. etransitivity; [apply (combine_length us ws)|]. lia.
        -- fold kappa. ring.
      * apply (means_scal m _ kappa). apply Hg. exact Lu.
    + eapply means_eq; [apply (means_scal m g kappa _ Mg)|reflexivity|].
      rewrite Rmult_comm. unfold kappa. rewrite <- product_app. f_equal. unfold fq. rewrite map_map. cbn [snd]. clear - L1. revert m L1.
      induction r1 as [|r r1 IH]; intros m L1; [cbn in L1; subst m; reflexivity|]. destruct m as [|m]; [discriminate|].
      cbn [map app repeat combine]. f_equal. apply IH. cbn in L1. lia.
Qed.
Print Assumptions intnorm_radii.

(** Two objects with [sigma] equal to 1/2, and the median of their moduli. *)
Example intnorm_radii_example : let t := sqrt (37 / 8 * ln 2) in let r := (exp t - 1) / (exp t + 1) in
  means 4 (fun l => each_of [inside r; inside r] (ellipticity_intnorm numbers (scalar 2%nat) (scalar (1 / 2)) l)) (1 / 4).
Proof.
  intros t r. assert (Pl : 0 < ln 2) by (rewrite <- ln_1; apply ln_increasing; lra).
  assert (Pt : 0 < t) by (apply sqrt_lt_R0; lra). assert (Pe : 1 < exp t) by (pose proof (exp_ineq1_le t); lra).
  assert (Hr : 0 <= r < 1).
  { unfold r. split; [apply Rmult_le_pos; [lra|apply Rlt_le, Rinv_0_lt_compat; lra]|]. assert (D : 1 - (exp t - 1) / (exp t + 1) = 2 / (exp t + 1)) by (field; lra).
    assert (0 < 2 / (exp t + 1)) by (apply Rdiv_lt_0_compat; lra). lra. }
  assert (El : ln ((1 + r) / (1 - r)) = t). { replace ((1 + r) / (1 - r)) with (exp t) by (unfold r; field; lra). apply ln_exp. }
  eapply means_eq; [apply (intnorm_radii _ _ [(2%nat, 1 / 2)] [r; r] (scalar_paired _ _))|reflexivity|].
  - constructor; [|constructor]. cbn [snd]. split; [lra|]. rewrite <- (sqrt_square (1 / 2)) at 1 by lra. apply sqrt_lt_1; lra.
  - constructor; [exact Hr|]. constructor; [exact Hr|constructor].
  - reflexivity.
  - cbn. lia.
  - unfold scales. cbn [map concat fst snd repeat app combine product fold_right]. rewrite El. unfold t. rewrite pow2_sqrt by lra.
    replace (- (37 / 8 * ln 2 * (1 - 2 * (1 / 2) ^ 2) / ((1 / 2) ^ 2 * (8 + 5 * (1 / 2) ^ 2)))) with (- ln 2) by (field; lra).
    rewrite exp_Ropp, exp_ln by lra. field.
Qed.

(** The modulus in terms of the hyperbolic tangent. *)
Lemma shrink_modulus eta : Cmod (shrink eta) = tanh (Cmod eta / 2).
Proof.
  destruct (shrink_spec eta) as (L & E & _). set (m := Cmod (shrink eta)) in *. assert (Hm : 0 <= m) by apply Cmod_ge_0.
  set (y := Cmod eta / 2). assert (X : exp (- y) = exp (- Cmod eta) * exp y) by (rewrite <- exp_plus; f_equal; unfold y; field).
  unfold tanh, sinh, cosh. rewrite X, <- E. pose proof (exp_pos y). field. lra.
Qed.
Lemma Cmod_slope u u' w : Rabs (Cmod (u, w) - Cmod (u', w)) <= Rabs (u - u').
Proof.
  assert (Q : forall a b, Cmod (a, w) <= Cmod (b, w) + Rabs (a - b)).
  { intros a b. rewrite <- Cmod_R. replace (a, w) with (Cplus (b, w) (RtoC (a - b))) by (unfold Cplus, RtoC; cbn [fst snd]; f_equal; ring). apply Cmod_triangle. }
  pose proof (Q u u'). pose proof (Q u' u) as Q2. rewrite Rabs_minus_sym in Q2. apply Rabs_le. lra.
Qed.
Lemma tanh_slope x y : Rabs (tanh x ^ 2 - tanh y ^ 2) <= 2 * Rabs (x - y).
Proof.
  assert (D : forall z, is_derive (fun z => tanh z ^ 2) z (2 * tanh z * (1 - tanh z ^ 2))).
  { intro z. replace (2 * tanh z * (1 - tanh z ^ 2)) with (scal (1 - tanh z ^ 2) (2 * tanh z)) by (unfold scal; cbn; unfold mult; cbn; ring).
    apply (is_derive_comp (V := R_NormedModule) (fun z => z ^ 2) tanh); [|apply tanh_derive]. auto_derive; [exact I|ring]. }
  destruct (MVT_gen (fun z => tanh z ^ 2) y x (fun z => 2 * tanh z * (1 - tanh z ^ 2))) as (c & _ & E).
  - intros z _. apply D.
  - intros z _. apply continuity_pt_filterlim. apply (ex_derive_continuous (V := R_NormedModule) (fun z => tanh z ^ 2)). eexists. apply D.
  - cbn beta in E. rewrite E, Rabs_mult. apply Rmult_le_compat_r; [apply Rabs_pos|]. pose proof (tanh_square c). pose proof (pow2_ge_0 (tanh c)).
    apply Rabs_le. assert (-1 < tanh c < 1) by (split; nra). split; nra.
Qed.

Lemma intnorm_square_mean a : 0 < a -> exists m, means 2 (fun l => tanh (Cmod (a * nth 0 l 0, a * nth 1 l 0) / 2) ^ 2) m /\
  a ^ 2 / 2 - a ^ 4 / 3 <= m <= a ^ 2 / 2 - a ^ 4 / 3 + 17 * a ^ 6 / 60.
Proof.
  intro Ha. set (f := fun u w => tanh (Cmod (a * u, a * w) / 2) ^ 2).
  destruct (mean_slope f 1 a) as (g & m & Hg & Hm).
  - intros u w. unfold f. apply continuity_pt_filterlim.
    intros e He. exists (e / a). split; [apply Rdiv_lt_0_compat; lra|]. intros w' [_ Hw]. unfold dist in *; cbn -[pow] in *. unfold R_dist in *.
    eapply Rle_lt_trans; [apply tanh_slope|].
    assert (K : Rabs (Cmod (a * u, a * w') - Cmod (a * u, a * w)) <= a * Rabs (w' - w)).
    { assert (Sw : forall p q, Cmod (p, q) = Cmod (q, p)) by (intros; unfold Cmod; cbn [fst snd]; f_equal; ring). rewrite !(Sw (a * u)).
      eapply Rle_trans; [apply Cmod_slope|]. replace (a * w' - a * w) with (a * (w' - w)) by ring. rewrite Rabs_mult, (Rabs_right a) by lra. right. reflexivity. }
    replace (Cmod (a * u, a * w') / 2 - Cmod (a * u, a * w) / 2) with ((Cmod (a * u, a * w') - Cmod (a * u, a * w)) * / 2) by field.
    rewrite Rabs_mult, (Rabs_right (/ 2)) by lra. apply (Rmult_lt_compat_l a) in Hw; [|lra]. replace (a * (e / a)) with e in Hw by (field; lra). lra.
  - intros u w. unfold f. pose proof (tanh_square (Cmod (a * u, a * w) / 2)). pose proof (pow2_ge_0 (tanh (Cmod (a * u, a * w) / 2))). lra.
  - intros u u' w. unfold f. eapply Rle_trans; [apply tanh_slope|].
    replace (Cmod (a * u, a * w) / 2 - Cmod (a * u', a * w) / 2) with ((Cmod (a * u, a * w) - Cmod (a * u', a * w)) * / 2) by field.
    rewrite Rabs_mult, (Rabs_right (/ 2)) by lra. pose proof (Cmod_slope (a * u) (a * u') (a * w)) as K.
    replace (a * u - a * u') with (a * (u - u')) in K by ring. rewrite (Rabs_mult a (u - u')), (Rabs_right a) in K by lra. lra.
  - exists m. split.
    { cbn [means nth]. exists g. split; [|exact Hm]. intro u. exists (f u). split; [reflexivity|apply Hg]. }
    assert (Y : forall u w, let y := Cmod (a * u, a * w) / 2 in 0 <= y /\ y ^ 2 = a ^ 2 / 4 * (u ^ 2 + w ^ 2)).
    { intros u w y. split; [unfold y; pose proof (Cmod_ge_0 (a * u, a * w)); lra|]. unfold y, Cmod. cbn [fst snd].
      replace ((sqrt ((a * u) ^ 2 + (a * w) ^ 2) / 2) ^ 2) with (sqrt ((a * u) ^ 2 + (a * w) ^ 2) ^ 2 / 4) by field.
      rewrite pow2_sqrt by (pose proof (pow2_ge_0 (a * u)); pose proof (pow2_ge_0 (a * w)); lra). field. }
    assert (Bd : forall u w, let z := a ^ 2 / 4 * (u ^ 2 + w ^ 2) in z - 2 * z ^ 2 / 3 <= f u w <= z - 2 * z ^ 2 / 3 + 17 * z ^ 3 / 45).
    { intros u w z. destruct (Y u w) as [Y0 Y2]. fold z in Y2. pose proof (tanh_square_bounds _ Y0) as T. unfold f.
      set (y := Cmod (a * u, a * w) / 2) in *. rewrite <- Y2. replace ((y ^ 2) ^ 2) with (y ^ 4) by ring. replace ((y ^ 2) ^ 3) with (y ^ 6) by ring. exact T. }
    set (b := a ^ 2 / 4).
    (* polynomials in the inner number, and in the outer one *)
    assert (Inner : forall u, mean (fun w => let z := b * (u ^ 2 + w ^ 2) in z - 2 * z ^ 2 / 3)
      (b * (u ^ 2 + 1) - 2 / 3 * b ^ 2 * (u ^ 4 + 2 * u ^ 2 + 3))).
    { intro u. eapply mean_eq; [apply (mean_poly (b * u ^ 2 - 2 / 3 * b ^ 2 * u ^ 4) 0 (b - 4 / 3 * b ^ 2 * u ^ 2) 0 (- (2 / 3) * b ^ 2))| |]; [intro w; cbn beta zeta; field|field]. }
    assert (Outer : mean (fun u => b * (u ^ 2 + 1) - 2 / 3 * b ^ 2 * (u ^ 4 + 2 * u ^ 2 + 3)) (2 * b - 16 / 3 * b ^ 2)).
    { eapply mean_eq; [apply (mean_poly (b - 2 * b ^ 2) 0 (b - 4 / 3 * b ^ 2) 0 (- (2 / 3) * b ^ 2))| |]; [intro u; cbn beta; field|field]. }
    assert (Inner3 : forall u, mean (fun w => (u ^ 2 + w ^ 2) ^ 3) (u ^ 6 + 3 * u ^ 4 + 9 * u ^ 2 + 15)).
    { intro u. eapply mean_eq; [apply (mean_lin _ _ 1 1 _ _ (mean_poly (u ^ 6) 0 (3 * u ^ 4) 0 (3 * u ^ 2)) mean_x6)| |]; [intro w; cbn beta; ring|ring]. }
    assert (Outer3 : mean (fun u => u ^ 6 + 3 * u ^ 4 + 9 * u ^ 2 + 15) 48).
    { eapply mean_eq; [apply (mean_lin _ _ 1 1 _ _ (mean_poly 15 0 9 0 3) mean_x6)| |]; [intro u; cbn beta; ring|ring]. }
    assert (E2 : 2 * b - 16 / 3 * b ^ 2 = a ^ 2 / 2 - a ^ 4 / 3) by (unfold b; field).
    assert (E3 : 17 / 45 * b ^ 3 * 48 = 17 * a ^ 6 / 60) by (unfold b; field).
    rewrite <- E2, <- E3. split.
    + apply (mean_le _ _ _ _ Outer Hm). intro u. apply (mean_le _ _ _ _ (Inner u) (Hg u)). intro w. apply Bd.
    + pose proof (mean_lin _ _ 1 (17 / 45 * b ^ 3) _ _ Outer Outer3) as M. rewrite Rmult_1_l in M. apply (mean_le _ _ _ _ Hm M). intro u.
      pose proof (mean_lin _ _ 1 (17 / 45 * b ^ 3) _ _ (Inner u) (Inner3 u)) as N. apply (mean_le _ _ _ _ (Hg u) N). intro w.
      pose proof (proj2 (Bd u w)) as K. cbn zeta in *. fold b in K. eapply Rle_trans; [exact K|]. right. field.
Qed.

Lemma intnorm_single count sigma s : 0 < s < sqrt (1 / 2) -> paired count sigma [(1%nat, s)] -> forall f m,
  means 2 (fun l => f (shrink (sigma_eta s * nth 0 l 0, sigma_eta s * nth 1 l 0))) m ->
  means 2 (fun l => each_of [f] (ellipticity_intnorm numbers count sigma l)) m.
Proof.
  intros Hs Hp f m M. apply populations_iff in Hp. eapply means_len; [exact M| |reflexivity]. intros l Ll. cbn beta.
  destruct l as [|u [|w [|]]]; try discriminate. unfold ellipticity_intnorm. rewrite Hp. cbn [bind forallb snd].
  rewrite Proof_Numeric.leb_true, Proof_Numeric.ltb_true by lra. cbn [andb intnorm_populations].
  unfold random_complex, numbers. cbn [firstn skipn combine map app each_of each nth].
  change (Cmult (u, w) (RtoC (sigma_eta s))) with (scaled (sigma_eta s) (u, w)). rewrite scaled_pair. ring.
Qed.
Lemma eta_square s : 0 < s < sqrt (1 / 2) -> 0 < sigma_eta s /\ sigma_eta s ^ 2 = s ^ 2 * (8 + 5 * s ^ 2) / (2 - 4 * s ^ 2) /\ s ^ 2 < 1 / 2.
Proof.
  intro Hs. assert (U : s * s < 1 / 2). { pose proof (sqrt_sqrt (1 / 2) ltac:(lra)). pose proof (sqrt_pos (1 / 2)). nra. }
  assert (P0 : 0 < (8 + 5 * (s * s)) / (2 - 4 * (s * s))) by (apply Rdiv_lt_0_compat; nra). split; [|split].
  - unfold sigma_eta. apply Rmult_lt_0_compat; [lra|apply sqrt_lt_R0; exact P0].
  - unfold sigma_eta. rewrite Rpow_mult_distr, pow2_sqrt by lra. field. lra.
  - nra.
Qed.
Lemma fifth : 1 / 5 < sqrt (1 / 2).
Proof. rewrite <- (sqrt_square (1 / 5)) by lra. apply sqrt_lt_1; lra. Qed.

Lemma small_power t c n : 0 < t <= c -> t ^ S n <= t * c ^ n.
Proof. intro H. cbn [pow]. apply Rmult_le_compat_l; [lra|]. apply pow_incr. lra. Qed.
Lemma fit_bounds s m : 0 < s < sqrt (1 / 2) ->
  sigma_eta s ^ 2 / 2 - sigma_eta s ^ 4 / 3 <= m <= sigma_eta s ^ 2 / 2 - sigma_eta s ^ 4 / 3 + 17 * sigma_eta s ^ 6 / 60 ->
  exists k, k = (8 + 5 * s ^ 2) / (4 - 8 * s ^ 2) /\ s ^ 2 * (k / 2 - 2 * s ^ 2 * k ^ 2 / 3) <= m / 2 /\
    m / 2 <= s ^ 2 * (k / 2 - 2 * s ^ 2 * k ^ 2 / 3 + 17 / 15 * (s ^ 2) ^ 2 * k ^ 3).
Proof.
  intros Hs B. destruct (eta_square s Hs) as (Pe & Ee & U). exists ((8 + 5 * s ^ 2) / (4 - 8 * s ^ 2)). split; [reflexivity|].
  set (k := (8 + 5 * s ^ 2) / (4 - 8 * s ^ 2)). assert (E2 : sigma_eta s ^ 2 = 2 * s ^ 2 * k) by (rewrite Ee; unfold k; field; lra).
  replace (sigma_eta s ^ 4) with ((sigma_eta s ^ 2) ^ 2) in B by ring. replace (sigma_eta s ^ 6) with ((sigma_eta s ^ 2) ^ 3) in B by ring. rewrite E2 in B.
  set (t := s ^ 2) in *. split; [|].
  - replace (t * (k / 2 - 2 * t * k ^ 2 / 3)) with ((2 * t * k / 2 - (2 * t * k) ^ 2 / 3) / 2) by field. lra.
  - replace (t * (k / 2 - 2 * t * k ^ 2 / 3 + 17 / 15 * t ^ 2 * k ^ 3)) with ((2 * t * k / 2 - (2 * t * k) ^ 2 / 3 + 17 * (2 * t * k) ^ 3 / 60) / 2) by field. lra.
Qed.

(** The scale is from a fit: up to 1/5, the variance per component is right to two percent. *)
Theorem intnorm_variance count sigma s : 0 < s <= 1 / 5 -> paired count sigma [(1%nat, s)] ->
  exists m, means 2 (fun l => each_of [fun e => fst e ^ 2 + snd e ^ 2] (ellipticity_intnorm numbers count sigma l)) m /\
    Rabs (m / 2 - s ^ 2) <= s ^ 2 / 50.
Proof.
  intros Hs Hp. pose proof fifth. assert (Hs' : 0 < s < sqrt (1 / 2)) by lra. destruct (eta_square s Hs') as (Pe & Ee & U).
  destruct (intnorm_square_mean _ Pe) as (m & Mm & B). exists m. split.
  - apply (intnorm_single count sigma s Hs' Hp). eapply means_eq; [exact Mm| |reflexivity]. intro l. cbn beta. rewrite <- shrink_modulus.
    unfold Cmod. rewrite pow2_sqrt; [reflexivity|]. apply Rplus_le_le_0_compat; apply pow2_ge_0.
  - destruct (fit_bounds s m Hs' ltac:(exact B)) as (k & Ek & L & H'). set (t := s ^ 2) in *. assert (Ht : 0 < t <= 1 / 25) by (unfold t; split; [apply pow_lt; lra|nra]).
    assert (D0 : 0 < 4 - 8 * t) by lra. apply Rabs_le. split.
    + assert (K : 49 / 50 <= k / 2 - 2 * t * k ^ 2 / 3).
      { rewrite Ek. apply (Rmult_le_reg_r ((4 - 8 * t) ^ 2)); [apply pow_lt; lra|].
        replace (((8 + 5 * t) / (4 - 8 * t) / 2 - 2 * t * ((8 + 5 * t) / (4 - 8 * t)) ^ 2 / 3) * (4 - 8 * t) ^ 2)
          with (49 / 50 * (4 - 8 * t) ^ 2 + (8 / 25 - 146 / 75 * t - 10204 / 75 * t ^ 2 - 50 / 3 * t ^ 3)) by (field; lra).
        pose proof (small_power t _ 1 Ht). pose proof (small_power t _ 2 Ht). lra. }
      assert (t * (49 / 50) <= t * (k / 2 - 2 * t * k ^ 2 / 3)) by (apply Rmult_le_compat_l; lra). lra.
    + assert (K : k / 2 - 2 * t * k ^ 2 / 3 + 17 / 15 * t ^ 2 * k ^ 3 <= 51 / 50).
      { rewrite Ek. apply (Rmult_le_reg_r ((4 - 8 * t) ^ 3)); [apply pow_lt; lra|].
        replace (((8 + 5 * t) / (4 - 8 * t) / 2 - 2 * t * ((8 + 5 * t) / (4 - 8 * t)) ^ 2 / 3 + 17 / 15 * t ^ 2 * ((8 + 5 * t) / (4 - 8 * t)) ^ 3) * (4 - 8 * t) ^ 3)
          with (51 / 50 * (4 - 8 * t) ^ 3 - (32 / 25 - 376 / 75 * t - 1568 / 75 * t ^ 2 - 53256 / 25 * t ^ 3 - 2440 / 3 * t ^ 4 - 425 / 3 * t ^ 5)) by (field; lra).
        pose proof (small_power t _ 1 Ht). pose proof (small_power t _ 2 Ht). pose proof (small_power t _ 3 Ht). pose proof (small_power t _ 4 Ht). lra. }
      assert (t * (k / 2 - 2 * t * k ^ 2 / 3 + 17 / 15 * t ^ 2 * k ^ 3) <= t * (51 / 50)) by (apply Rmult_le_compat_l; lra). lra.
Qed.
Print Assumptions intnorm_variance.

(** It is not exact: below 1/8 the variance is always smaller than documented. *)
Theorem intnorm_sigma_refuted count sigma s : 0 < s <= 1 / 8 -> paired count sigma [(1%nat, s)] ->
  exists m, means 2 (fun l => each_of [fun e => fst e ^ 2 + snd e ^ 2] (ellipticity_intnorm numbers count sigma l)) m /\ m / 2 < s ^ 2.
Proof.
  intros Hs Hp. pose proof fifth. assert (Hs' : 0 < s < sqrt (1 / 2)) by lra. destruct (eta_square s Hs') as (Pe & Ee & U).
  destruct (intnorm_square_mean _ Pe) as (m & Mm & B). exists m. split.
  - apply (intnorm_single count sigma s Hs' Hp). eapply means_eq; [exact Mm| |reflexivity]. intro l. cbn beta. rewrite <- shrink_modulus.
    unfold Cmod. rewrite pow2_sqrt; [reflexivity|]. apply Rplus_le_le_0_compat; apply pow2_ge_0.
  - destruct (fit_bounds s m Hs' ltac:(exact B)) as (k & Ek & L & H'). set (t := s ^ 2) in *. assert (Ht : 0 < t <= 1 / 64) by (unfold t; split; [apply pow_lt; lra|nra]).
    assert (D0 : 0 < 4 - 8 * t) by lra.
    assert (K : k / 2 - 2 * t * k ^ 2 / 3 + 17 / 15 * t ^ 2 * k ^ 3 < 1).
    { rewrite Ek. apply (Rmult_lt_reg_r ((4 - 8 * t) ^ 3)); [apply pow_lt; lra|].
      replace (((8 + 5 * t) / (4 - 8 * t) / 2 - 2 * t * ((8 + 5 * t) / (4 - 8 * t)) ^ 2 / 3 + 17 / 15 * t ^ 2 * ((8 + 5 * t) / (4 - 8 * t)) ^ 3) * (4 - 8 * t) ^ 3)
        with (1 * (4 - 8 * t) ^ 3 - (8 / 3 * t - 544 / 15 * t ^ 2 - 2120 * t ^ 3 - 2440 / 3 * t ^ 4 - 425 / 3 * t ^ 5)) by (field; lra).
      pose proof (small_power t _ 1 Ht). pose proof (small_power t _ 2 Ht). pose proof (small_power t _ 3 Ht). pose proof (small_power t _ 4 Ht). lra. }
    assert (t * (k / 2 - 2 * t * k ^ 2 / 3 + 17 / 15 * t ^ 2 * k ^ 3) < t * 1) by (apply Rmult_lt_compat_l; lra). lra.
Qed.
Print Assumptions intnorm_sigma_refuted.

(** The case of 1/10. *)
Example intnorm_variance_example : exists m,
  means 2 (fun l => each_of [fun e => fst e ^ 2 + snd e ^ 2] (ellipticity_intnorm numbers (scalar 1%nat) (scalar (1 / 10)) l)) m /\ 98 / 10000 <= m / 2 < 1 / 100.
Proof.
  destruct (intnorm_sigma_refuted _ _ (1 / 10) ltac:(lra) (scalar_paired 1 (1 / 10))) as (m & M & L).
  destruct (intnorm_variance _ _ (1 / 10) ltac:(lra) (scalar_paired 1 (1 / 10))) as (m' & M' & B). rewrite (means_unique _ _ _ _ M' M) in B.
  exists m. split; [exact M|]. apply Rabs_le_between in B. lra.
Qed.
