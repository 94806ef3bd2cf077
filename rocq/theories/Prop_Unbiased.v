(** Claims about the mean of observed shapes (C95). *)
From Coq Require Import Reals Lra Lia List.
From Coquelicot Require Import Coquelicot.
From Verif Require Import Base Model_Numeric Model_Arrays Model_Galaxies Model_Shapes.
From Verif Require Import Spec_Gauss Spec_Uniform Spec_Disc Spec_Shapes Spec_Photoz Spec_Truncated Spec_Unbiased.
From Verif Require Import Proof_Gauss Proof_Normals Proof_Disc Proof_Fit Proof_Shapes Proof_Reject Proof_Uniform Proof_Truncated Proof_Unbiased Proof_Intnorm.
From Verif Require Import Prop_Galaxies Prop_Disc Prop_Truncated Prop_Ryden.
Import ListNotations.
Local Open Scope R_scope.

(** * The observed shape in components *)
Definition share (c : bool) := if c then part1 else part2.
Lemma sheared_parts c a b x y : (a ^ 2 + b ^ 2) * (x ^ 2 + y ^ 2) < 1 ->
  component c (sheared (a, b) (x, y)) = component c (a, b) + (1 - (a ^ 2 + b ^ 2)) * share c a b x y.
Proof.
  intro H.
  assert (N : 0 < (1 + (a * x + b * y)) ^ 2 + (a * y - b * x) ^ 2).
  { assert (S : (a * x + b * y) ^ 2 <= (a ^ 2 + b ^ 2) * (x ^ 2 + y ^ 2)) by (pose proof (pow2_ge_0 (a * y - b * x)); lra).
    pose proof (pow2_ge_0 (a * y - b * x)). assert (0 < 1 + (a * x + b * y)) by nra. nra. }
  assert (E : 1 + 2 * (a * x + b * y) + (a ^ 2 + b ^ 2) * (x ^ 2 + y ^ 2) = (1 + (a * x + b * y)) ^ 2 + (a * y - b * x) ^ 2) by ring.
  assert (E' : (1 + (a * x - - b * y)) ^ 2 + (0 + (a * y + - b * x)) ^ 2 = (1 + (a * x + b * y)) ^ 2 + (a * y - b * x) ^ 2) by ring.
  unfold share, part1, part2, sheared, component, Cdiv, Cinv, Cmult, Cplus, Cconj, RtoC. destruct c; cbn [fst snd]; rewrite E, E'; field; lra.
Qed.
Lemma square_mod (g : C) : Cmod g < 1 -> fst g ^ 2 + snd g ^ 2 < 1.
Proof. intro H. unfold Cmod in H. rewrite <- sqrt_1 in H. apply sqrt_lt_0_alt in H. exact H. Qed.

(** C95 *)

(** Galaxies with a given modulus of the ellipticity and random direction (a negative number is half a turn): the mean of the observed shapes is the
    reduced shear, not just up to terms of higher order. *)
Theorem shear_circle_unbiased (g : C) r c : Cmod g < 1 -> -1 <= r <= 1 ->
  is_RInt (fun t => component c (sheared g (r * cos (2 * PI * t), r * sin (2 * PI * t)))) 0 1 (component c g).
Proof.
  intros Hg Hr. apply square_mod in Hg. destruct g as [a b]. cbn [fst snd] in Hg.
  assert (H : (a ^ 2 + b ^ 2) * r ^ 2 < 1). { pose proof (pow2_ge_0 a). pose proof (pow2_ge_0 b). assert (r ^ 2 <= 1) by nra. assert (0 <= r ^ 2) by apply pow2_ge_0. nra. }
  destruct (circle_parts a b r H) as [K1 K2].
  assert (K : is_RInt (fun t => share c a b (r * cos (2 * PI * t)) (r * sin (2 * PI * t))) 0 1 0) by (destruct c; assumption).
  apply (is_RInt_scal (V := R_NormedModule) _ _ _ (1 - (a ^ 2 + b ^ 2))) in K.
  pose proof (is_RInt_plus (V := R_NormedModule) _ _ _ _ _ _ (is_RInt_const (V := R_NormedModule) 0 1 (component c (a, b))) K) as M.
  match type of M with is_RInt _ _ _ ?v => assert (V : v = component c (a, b)) by (unfold plus, scal; cbn; unfold mult; cbn; ring); rewrite V in M end.
  eapply is_RInt_ext; [|exact M]. intros t _. cbn beta. rewrite sheared_parts; [reflexivity|].
  pose proof (sin2_cos2 (2 * PI * t)) as S. unfold Rsqr in S.
  replace ((r * cos (2 * PI * t)) ^ 2 + (r * sin (2 * PI * t)) ^ 2) with (r ^ 2 * (sin (2 * PI * t) * sin (2 * PI * t) + cos (2 * PI * t) * cos (2 * PI * t))) by ring.
  rewrite S, Rmult_1_r. exact H.
Qed.
Print Assumptions shear_circle_unbiased.

(** For a round galaxy the shear itself is observed; otherwise the mean needs all directions. *)
Example shear_circle_example :
  is_RInt (fun t => component true (sheared (1 / 2, 0) (1 / 2 * cos (2 * PI * t), 1 / 2 * sin (2 * PI * t)))) 0 1 (1 / 2) /\
  component true (sheared (1 / 2, 0) (1 / 2, 0)) = 4 / 5.
Proof.
  split.
  - apply (shear_circle_unbiased (1 / 2, 0) (1 / 2) true); [|lra]. unfold Cmod. cbn [fst snd]. replace ((1 / 2) ^ 2 + 0 ^ 2) with ((1 / 2) ^ 2) by ring. rewrite sqrt_pow2 by lra. lra.
  - unfold sheared, component, Cdiv, Cinv, Cmult, Cplus, Cconj, RtoC. cbn [fst snd]. field.
Qed.

(** The same for the shapes of [ellipticity_ryden04]: whatever the distribution of the axis ratios is, the expected
    observed shape is the reduced shear. *)
Theorem ryden_shear_unbiased mu sigma gamma sigma_gamma g c : 0 < sigma -> 0 < sigma_gamma -> Cmod g < 1 -> exists p q, 0 < p /\ 0 < q /\
  expects {| flat := mu; flat_sd := sigma; thin := gamma; thin_sd := sigma_gamma; ask := excess c g; flat_chance := p; thin_chance := q; expected := 0 |}.
Proof.
  intros H1 H2 Hg. destruct (ryden_centred mu sigma gamma sigma_gamma true H1 H2) as (p & q & P1 & P2 & v0 & h0 & w0 & _ & _ & Ht & Hf).
  exists p, q. split; [exact P1|]. split; [exact P2|]. cbn [ask thin thin_sd flat flat_sd thin_chance flat_chance expected] in Ht, Hf.
  exists (fun e k l => excess c g (model_galaxy e k (nth 0 l 0) (nth 1 l 0) (nth 2 l 0))), (fun _ _ => 0), (fun _ => 0).
  cbn [ask thin thin_sd flat flat_sd thin_chance flat_chance expected]. split; [|split; [|split]].
  - intros e k a s t o He Hc Ia Is It Ho. cbn [nth]. rewrite (galaxy_unique _ _ _ _ _ _ _ Ho (model_galaxy_ok e k a s t ltac:(lra))). reflexivity.
  - intros e k _ _. exists (fun _ => 0). split; [|apply unit_const]. intros a _. exists (fun _ => 0). split; [|apply unit_const].
    intros s _. exists (fun t => excess c g (model_galaxy e k a s t)). split; [reflexivity|]. unfold model_galaxy.
    destruct (axis_ratio _ _ _ _) as [x|] eqn:Ex; cbn [option_map excess]; [|apply unit_const].
    assert (Px : 0 <= x).
    { unfold axis_ratio, obind, nsqrt, ndiv in Ex. repeat match type of Ex with context [match ?d with _ => _ end] => destruct d; try discriminate end. injection Ex as <-. apply sqrt_pos. }
    set (r := (1 - x) / (1 + x)).
    assert (Hr : -1 <= r <= 1). { unfold r. split; apply (Rmult_le_reg_r (1 + x)); try lra; unfold Rdiv; rewrite Rmult_assoc, Rinv_l by lra; lra. }
    pose proof (is_RInt_minus (V := R_NormedModule) _ _ _ _ _ _ (shear_circle_unbiased g r c Hg Hr) (is_RInt_const (V := R_NormedModule) 0 1 (component c g))) as M.
    match type of M with is_RInt _ _ _ ?v => assert (V : v = 0) by (change (@eq R (component c g + - ((1 - 0) * component c g)) 0); ring); rewrite V in M end.
    eapply is_RInt_ext; [|exact M]. intros t _. cbn beta. assert (Ep : Cmult (polar_complex 1 (0 + (2 * PI - 0) * t)) (RtoC r) = (r * cos (2 * PI * t), r * sin (2 * PI * t))).
    { unfold polar_complex, Cmult, RtoC. cbn [fst snd]. replace (0 + (2 * PI - 0) * t) with (2 * PI * t) by ring. f_equal; ring. }
    rewrite Ep. reflexivity.
  - intros e He. destruct (Ht e He) as (A & B & _). split; [exact A|]. split; [exact B|]. eapply mean_eq; [apply (mean_const 0)| |ring]. intro u. cbn beta. ring.
  - destruct Hf as (A & B & _). split; [exact A|]. split; [exact B|]. eapply mean_eq; [apply (mean_const 0)| |ring]. intro u. cbn beta. ring.
Qed.
Print Assumptions ryden_shear_unbiased.

(** * Normal ellipticities *)
Lemma normal_sheared s g c : 0 < s -> Cmod g < 1 -> in_disc s (fun e => component c (sheared g e)) (component c g * disc_chance s).
Proof.
  intros Hs Hg. apply square_mod in Hg. destruct g as [a b]. cbn [fst snd] in Hg.
  assert (Hr : 0 <= 1 / s) by (apply Rlt_le, Rdiv_lt_0_compat; lra).
  assert (Ps : 0 < s ^ 2) by (apply pow_lt; exact Hs).
  assert (H : ((s * a) ^ 2 + (s * b) ^ 2) * (1 / s) ^ 2 < 1).
  { replace (((s * a) ^ 2 + (s * b) ^ 2) * (1 / s) ^ 2) with (a ^ 2 + b ^ 2) by (field; lra). exact Hg. }
  destruct (disc_parts (s * a) (s * b) (1 / s) Hr H) as [K1 K2].
  assert (K : means 2 (fun l => disc (1 / s) (nth 0 l 0) (nth 1 l 0) * share c (s * a) (s * b) (nth 0 l 0) (nth 1 l 0)) 0) by (destruct c; assumption).
  unfold in_disc. eapply means_eq; [apply (means_lin 2 _ _ (component c (a, b)) ((1 - (a ^ 2 + b ^ 2)) * s) _ _ (disc_one (1 / s) Hr) K)| |].
  - intro l. cbn beta zeta. set (u := nth 0 l 0). set (w := nth 1 l 0). rewrite inside_radius by lra. unfold disc. destruct (Rle_dec _ _) as [L|L]; [|ring].
    assert (B : (a ^ 2 + b ^ 2) * ((s * u) ^ 2 + (s * w) ^ 2) < 1).
    { replace ((s * u) ^ 2 + (s * w) ^ 2) with (s ^ 2 * (u ^ 2 + w ^ 2)) by ring.
      assert (s ^ 2 * (u ^ 2 + w ^ 2) <= 1).
      { apply (Rmult_le_compat_l (s ^ 2)) in L; [|lra]. replace (s ^ 2 * (1 / s) ^ 2) with 1 in L by (field; lra). exact L. }
      pose proof (pow2_ge_0 u). pose proof (pow2_ge_0 w). pose proof (pow2_ge_0 a). pose proof (pow2_ge_0 b). assert (0 <= s ^ 2 * (u ^ 2 + w ^ 2)) by (apply Rmult_le_pos; lra). nra. }
    rewrite sheared_parts by exact B.
    assert (E : share c a b (s * u) (s * w) = s * share c (s * a) (s * b) u w).
    { assert (N : 1 + 2 * (s * a * u + s * b * w) + ((s * a) ^ 2 + (s * b) ^ 2) * (u ^ 2 + w ^ 2) = 1 + 2 * (a * (s * u) + b * (s * w)) + (a ^ 2 + b ^ 2) * ((s * u) ^ 2 + (s * w) ^ 2)) by ring.
      destruct c; unfold share, part1, part2; rewrite N; unfold Rdiv; ring. }
    rewrite E. ring.
  - unfold disc_chance. rewrite Rmult_0_r, Rplus_0_r. f_equal. unfold gauss. f_equal. f_equal. field. lra.
Qed.
Lemma normal_shifted s g c : 0 < s -> in_disc s (fun e => component c (Cplus e g)) (component c g * disc_chance s).
Proof.
  intro Hs. assert (Hr : 0 <= 1 / s) by (apply Rlt_le, Rdiv_lt_0_compat; lra).
  assert (K : means 2 (fun l => disc (1 / s) (nth 0 l 0) (nth 1 l 0) * component c (nth 0 l 0, nth 1 l 0)) 0).
  { destruct c; cbn [component fst snd]; [apply disc_u; exact Hr|]. eapply means_eq; [apply (disc_w (1 / s) (fun _ => 1))| |reflexivity]. intro l. cbn beta. ring. }
  unfold in_disc. eapply means_eq; [apply (means_lin 2 _ _ (component c g) s _ _ (disc_one (1 / s) Hr) K)| |].
  - intro l. cbn beta zeta. rewrite inside_radius by lra. destruct c, g as [a b]; unfold component, Cplus; cbn [fst snd]; ring.
  - unfold disc_chance. rewrite Rmult_0_r, Rplus_0_r. f_equal. unfold gauss. f_equal. f_equal. field. lra.
Qed.

(** Enough numbers for all rounds. *)
Lemma random_enough n s e s' : random_complex numbers n s = (e, s') -> (2 * n <= length s)%nat -> length e = n /\ length s' = (length s - 2 * n)%nat.
Proof. unfold random_complex, numbers. intros [= <- <-] H. split; [change (length (combine (firstn n s) (firstn n (skipn n s))) = n); rewrite combine_length, !firstn_length, !skipn_length; lia|rewrite !skipn_length; lia]. Qed.
Lemma redraw_enough sg m fuel : forall e s out s', redraw_complex numbers fuel sg e s = Ok (out, s') -> length e = m -> (2 * m * fuel <= length s)%nat ->
  length out = m /\ (length s - 2 * m * fuel <= length s')%nat.
Proof.
  induction fuel as [|fuel IH]; intros e s out s'; cbn [redraw_complex]; destruct (existsb _ _); try discriminate; try (intros [= <- <-] L _; split; [exact L|lia]).
  destruct (random_complex _ _ _) as [new s1] eqn:E. intros H L Hs.
  assert (Lf : (length (filter (fun b => b) (map (fun e => ltb 1 (Cmod e)) e)) <= m)%nat).
  { rewrite <- L, <- (map_length (fun e => ltb 1 (Cmod e)) e). clear. induction (map _ e) as [|[] l IH]; cbn; lia. }
  apply random_enough in E as [L1 L2]; [|nia].
  apply IH in H as [A B]; [|rewrite overwrite_length; [exact L|rewrite map_length; reflexivity|rewrite map_length; exact L1]|rewrite L2; nia].
  split; [exact A|]. rewrite L2 in B. nia.
Qed.
Lemma populations_enough fuel pops : forall s out s', gaussian_populations numbers fuel pops s = Ok (out, s') -> (2 * length (scales pops) * S fuel <= length s)%nat ->
  length out = length (scales pops).
Proof.
  induction pops as [|[m sg] pops IH]; intros s out s'; cbn [gaussian_populations].
  - intros [= <- <-] _. reflexivity.
  - unfold scales in *. cbn [map concat fst snd] in *. fold (scales pops) in *. rewrite app_length, repeat_length. intros H Hs.
    destruct (random_complex _ _ _) as [e s1] eqn:E. apply random_enough in E as [L1 L2]; [|nia].
    destruct (redraw_complex _ _ _ _ _) as [[e' s2]|] eqn:E1; cbn [bind] in H; [|discriminate].
    apply (redraw_enough sg m) in E1 as [A B]; [|rewrite map_length; exact L1|rewrite L2; nia].
    destruct (gaussian_populations _ _ _ _) as [[rest s3]|] eqn:E2; cbn [bind] in H; [|discriminate]. injection H as <- <-.
    apply IH in E2; [|rewrite L2 in B; nia]. rewrite app_length. lia.
Qed.

Lemma each_ones {A} (l : list A) : forall e, length e = length l -> each (map (fun _ _ => 1) l) e = 1.
Proof. induction l as [|x l IH]; intros [|y e] L; try discriminate; [reflexivity|]. cbn [map each]. rewrite IH by (cbn in L; lia). ring. Qed.
Lemma each_at {A B} (l1 : list A) (l2 : list B) f : forall e x, length e = (length l1 + S (length l2))%nat -> nth_error e (length l1) = Some x ->
  each (map (fun _ _ => 1) l1 ++ f :: map (fun _ _ => 1) l2) e = f x.
Proof.
  induction l1 as [|y l1 IH]; intros [|z e] x L N; try discriminate.
  - cbn in N. injection N as <-. cbn [map app each]. rewrite each_ones by (cbn in L; lia). ring.
  - cbn [map app each length nth_error] in *. rewrite (IH e x) by (try lia; assumption). ring.
Qed.

(** The observed shapes that [galaxy_shear] returns for the ellipticities of [ellipticity_gaussian].  If the loop over
    rejected values has ended (with the probability [p]), the expected shape of every galaxy is the reduced shear of the
    maps at its position, or just the shear without [reduced_shear]. *)
Theorem gaussian_shear_unbiased ang2pix npix2nside chunk lon lat kappa gamma1 gamma2 nside count sigma pops :
  (0 < chunk)%nat -> length gamma1 = length kappa -> length gamma2 = length kappa -> npix2nside (length kappa) = Ok nside ->
  (forall x y, (ang2pix nside x y < length kappa)%nat) ->
  paired count sigma pops -> Forall (fun p => 0 < snd p) pops -> length lon = length (scales pops) -> length lat = length (scales pops) ->
  forall k n, (2 * length (scales pops) * S k <= n)%nat ->
  exists p, 0 < p <= 1 /\ means n (fun l => returned (ellipticity_gaussian numbers k count sigma l)) p /\
    forall (reduced : bool) i x y kap g1 g2, nth_error lon i = Some x -> nth_error lat i = Some y ->
      nth_error kappa (ang2pix nside x y) = Some kap -> nth_error gamma1 (ang2pix nside x y) = Some g1 -> nth_error gamma2 (ang2pix nside x y) = Some g2 ->
      let g : C := if reduced then Cdiv (g1, g2) (RtoC (1 - kap)) else (g1, g2) in
      (reduced = true -> Cmod g < 1) ->
      forall c, means n (fun l => match ellipticity_gaussian numbers k count sigma l with
        | Ok (eps, _) => entry_of c i (galaxy_shear ang2pix npix2nside chunk lon lat eps kappa gamma1 gamma2 reduced)
        | Err _ => 0 end) (component c g * p).
Proof.
  intros Hc H1 H2 Hn Hp Hpair Pos L1 L2 k n HN.
  assert (Ps : Forall (fun s => 0 < s) (scales pops)).
  { clear - Pos. induction Pos as [|[m s] pops P _ IH]; [constructor|]. unfold scales in *. cbn [map concat fst snd]. apply Forall_app. split; [|exact IH].
    apply Forall_forall. intros x Hx. apply repeat_spec in Hx. subst x. exact P. }
  set (ends := fun s => 1 - (1 - disc_chance s) ^ S k).
  assert (Ends : forall s, 0 < s -> 0 < ends s <= 1).
  { intros s Hs. pose proof (chance_bounds s Hs) as B. unfold ends. assert (0 <= (1 - disc_chance s) ^ S k) by (apply pow_le; lra).
    assert ((1 - disc_chance s) ^ S k < 1) by (apply pow_lt_1_compat; [lra|lia]). lra. }
  exists (product (map ends (scales pops))). split; [|split].
  - clear - Ps Ends. induction Ps as [|s l Hs _ IH]; cbn [map product fold_right]; [lra|]. fold (product (map ends l)). specialize (Ends s Hs). nra.
  - assert (Law := gaussian_law count sigma pops (map (fun (_ : R) (_ : C) => 1) (scales pops)) (map disc_chance (scales pops)) Hpair Pos).
    eapply means_len; [apply (Law ltac:(clear - Ps; induction Ps as [|s l Hs _ IH]; cbn [map combine]; constructor; [apply chance_in_disc, Hs|exact IH])
      ltac:(apply map_length) k n ltac:(rewrite map_length; exact HN))| |].
    + intros l Ll. cbn beta. apply populations_iff in Hpair. unfold ellipticity_gaussian. rewrite Hpair. cbn [bind].
      destruct (gaussian_populations numbers k pops l) as [[out s']|] eqn:E; [|reflexivity]. cbn [each_of returned].
      apply each_ones. apply (populations_enough _ _ _ _ _ E). rewrite Ll. exact HN.
    + f_equal. clear - Ps. induction Ps as [|s l Hs _ IH]; [reflexivity|]. cbn [map combine fst snd]. f_equal; [|exact IH].
      unfold ends. pose proof (chance_bounds s Hs). field. lra.
  - intros reduced i x y kap g1 g2 Hx Hy Hk Hg1 Hg2 g Hg c.
    assert (Li : (i < length (scales pops))%nat) by (rewrite <- L1; apply nth_error_Some; congruence).
    destruct (nth_error (scales pops) i) as [s|] eqn:Es; [|apply nth_error_None in Es; lia].
    apply nth_error_split in Es as (A & B & EAB & LA).
    set (f := fun e : C => component c (if reduced then sheared g e else Cplus e g)).
    assert (Hs : 0 < s) by (rewrite EAB in Ps; apply Forall_app in Ps as [_ Ps]; inversion Ps; assumption).
    assert (If : in_disc s f (component c g * disc_chance s)).
    { unfold f. destruct reduced; [apply normal_sheared; [exact Hs|apply Hg; reflexivity]|apply normal_shifted; exact Hs]. }
    assert (Law := gaussian_law count sigma pops (map (fun (_ : R) (_ : C) => 1) A ++ f :: map (fun (_ : R) (_ : C) => 1) B)
      (map disc_chance A ++ (component c g * disc_chance s) :: map disc_chance B) Hpair Pos).
    rewrite EAB in Law, Ps, HN |- *. 
    assert (PA : Forall (fun s => 0 < s) A) by (apply Forall_app in Ps; tauto). assert (PB : Forall (fun s => 0 < s) B) by (apply Forall_app in Ps as [_ Ps']; inversion Ps'; assumption).
    assert (F0 : forall l, Forall (fun s => 0 < s) l -> Forall2 (fun sf q => in_disc (fst sf) (snd sf) q) (combine l (map (fun (_ : R) (_ : C) => 1) l)) (map disc_chance l)).
    { induction 1 as [|z l Hz _ IH]; cbn [map combine]; constructor; [apply chance_in_disc, Hz|exact IH]. }
    assert (Cm : forall (X : Type) (l : list X) (F : X) l', combine (A ++ s :: B) (l ++ F :: l') = combine A l ++ (s, F) :: combine B l' \/ length l <> length A).
    { clear. intros X. induction A as [|z A IH]; intros [|w l] F l'; cbn [app combine length]; try (right; lia); [left; reflexivity|].
      destruct (IH l F l') as [E|E]; [left; rewrite E; reflexivity|right; lia]. }
    assert (Fa : Forall2 (fun sf q => in_disc (fst sf) (snd sf) q) (combine (A ++ s :: B) (map (fun (_ : R) (_ : C) => 1) A ++ f :: map (fun (_ : R) (_ : C) => 1) B))
      (map disc_chance A ++ (component c g * disc_chance s) :: map disc_chance B)).
    { destruct (Cm _ (map (fun (_ : R) (_ : C) => 1) A) f (map (fun (_ : R) (_ : C) => 1) B)) as [E|E]; [|rewrite map_length in E; lia]. rewrite E.
      apply Forall2_app; [apply F0, PA|]. constructor; [exact If|apply F0, PB]. }
    eapply means_len; [apply (Law Fa ltac:(rewrite !app_length; cbn [length]; rewrite !map_length; lia) k n ltac:(rewrite !app_length in *; cbn [length] in *; rewrite !map_length; exact HN))| |].
    + intros l Ll. cbn beta. apply populations_iff in Hpair. unfold ellipticity_gaussian. rewrite Hpair. cbn [bind].
      destruct (gaussian_populations numbers k pops l) as [[eps s']|] eqn:E; [|reflexivity]. cbn [each_of].
      assert (Le : length eps = length (scales pops)) by (apply (populations_enough _ _ _ _ _ E); rewrite Ll, EAB; exact HN).
      destruct (galaxy_shear_objects ang2pix npix2nside chunk lon lat eps kappa gamma1 gamma2 reduced nside Hc ltac:(congruence) ltac:(congruence) H1 H2 Hn Hp) as (out & Eo & _ & Ho).
      destruct (nth_error eps i) as [e|] eqn:Ee; [|apply nth_error_None in Ee; lia].
      rewrite Eo. unfold entry_of. rewrite (Ho i x y e kap g1 g2 Hx Hy Ee Hk Hg1 Hg2). subst i.
      rewrite (each_at A B f eps e); [|rewrite Le, EAB, app_length; reflexivity|exact Ee]. unfold f, g. destruct reduced; reflexivity.
    + destruct (Cm _ (map disc_chance A) (component c g * disc_chance s) (map disc_chance B)) as [E|E]; [|rewrite map_length in E; lia]. rewrite E, !map_app, !product_app.
      assert (G : forall l, Forall (fun s => 0 < s) l -> product (map (fun sq => snd sq / disc_chance (fst sq) * (1 - (1 - disc_chance (fst sq)) ^ S k)) (combine l (map disc_chance l))) = product (map ends l)).
      { clear. intros l. induction 1 as [|z l Hz _ IH]; [reflexivity|]. cbn [map combine fst snd product fold_right]. unfold product in IH. rewrite IH. unfold ends. pose proof (chance_bounds z Hz). field. lra. }
      assert (Pc : forall z l, product (z :: l) = z * product l) by reflexivity.
      rewrite (G A PA). cbn [map fst snd]. rewrite !Pc, (G B PB). unfold ends at 4. pose proof (chance_bounds s Hs).
      generalize (product (map ends A)), (product (map ends B)). intros. field. lra.
Qed.
Print Assumptions gaussian_shear_unbiased.

(** Two galaxies in different pixels; the expected first component of the second one is its reduced shear
    [(1 / 5) / (1 - 1 / 2)]. *)
Example gaussian_shear_example : exists p, 0 < p <= 1 /\
  means 8 (fun l => match ellipticity_gaussian numbers 1 (scalar 2%nat) (scalar (1 / 4)) l with
    | Ok (eps, _) => entry_of true 1 (galaxy_shear (fun _ x _ => if leb x 1 then 0%nat else 1%nat) (fun _ => Ok 1%nat) 1
        [0; 2] [0; 0] eps [0; 1 / 2] [1 / 10; 1 / 5] [0; 0] true)
    | Err _ => 0 end) (2 / 5 * p).
Proof.
  destruct (gaussian_shear_unbiased (fun _ x _ => if leb x 1 then 0%nat else 1%nat) (fun _ => Ok 1%nat) 1 [0; 2] [0; 0] [0; 1 / 2] [1 / 10; 1 / 5] [0; 0] 1
    (scalar 2%nat) (scalar (1 / 4)) [(2%nat, 1 / 4)]) with (k := 1%nat) (n := 8%nat) as (p & Hp & _ & H);
    [lia|reflexivity|reflexivity|reflexivity|intros x _; cbn [length]; destruct (leb x 1); lia|apply scalar_paired|repeat constructor; cbn [snd]; lra|reflexivity|reflexivity|cbn; lia|].
  exists p. split; [exact Hp|]. specialize (H true 1%nat 2 0 (1 / 2) (1 / 5) 0 eq_refl eq_refl).
  rewrite Proof_Numeric.leb_false in H by lra. specialize (H eq_refl eq_refl eq_refl). cbv zeta in H.
  assert (E : Cdiv (1 / 5, 0) (RtoC (1 - 1 / 2)) = (2 / 5, 0)) by (unfold Cdiv, Cinv, Cmult, RtoC; cbn [fst snd]; f_equal; field).
  rewrite E in H. apply (H ltac:(intros _; unfold Cmod; cbn [fst snd]; replace ((2 / 5) ^ 2 + 0 ^ 2) with ((2 / 5) ^ 2) by ring; rewrite sqrt_pow2 by lra; lra) true).
Qed.

(** One galaxy of [ellipticity_ryden04]: the expected excess of its observed shape over the reduced shear is zero. *)
Example ryden_shear_example : forall k n m, (2 * S k <= n)%nat -> (3 <= m)%nat ->
  both n m (fun s => times_of [excess true (1 / 2, 0)] (ellipticity_ryden04 some_normal some_uniform k [-2] [1] [1 / 2] [1 / 4] s)) 0.
Proof.
  intros k n m Hn Hm.
  destruct (ryden_shear_unbiased (-2) 1 (1 / 2) (1 / 4) (1 / 2, 0) true ltac:(lra) ltac:(lra)) as (p & q & _ & _ & H1).
  - unfold Cmod. cbn [fst snd]. replace ((1 / 2) ^ 2 + 0 ^ 2) with ((1 / 2) ^ 2) by ring. rewrite sqrt_pow2 by lra. lra.
  - pose proof (ryden_law _ (Forall_cons _ H1 (Forall_nil _)) k n m Hn Hm) as M.
    cbn [map product fold_right ask flat flat_sd thin thin_sd expected] in M.
    match type of M with both _ _ _ ?x => assert (X : x = 0) by ring; rewrite X in M end. exact M.
Qed.

(** * Shapes with normal logarithms of the axis ratio *)
Lemma intnorm_sheared a g c : 0 < a -> Cmod g < 1 ->
  means 2 (fun l => component c (sheared g (shrink (a * nth 0 l 0, a * nth 1 l 0)))) (component c g).
Proof.
  intros Ha Hg. pose proof (Cmod_ge_0 g) as Pg. set (L := 2 / (1 - Cmod g) ^ 2).
  assert (PL : 0 < L) by (apply Rdiv_lt_0_compat; [lra|apply pow_lt; lra]).
  assert (In : forall e, Cmod (shrink e) <= 1) by (intro e; apply Rlt_le, shrink_disc).
  set (f := fun u w => component c (sheared g (shrink (a * u, a * w)))).
  assert (Lip : forall u w u' w', Rabs (f u w - f u' w') <= 2 * L * a * (Rabs (u - u') + Rabs (w - w'))).
  { intros u w u' w'. unfold f. rewrite <- component_minus. eapply Rle_trans; [apply component_le|]. eapply Rle_trans; [apply (sheared_slope g _ _ Hg (In _) (In _))|]. fold L.
    pose proof (shrink_slope (a * u, a * w) (a * u', a * w')) as S.
    assert (K : Cmod (Cminus (a * u, a * w) (a * u', a * w')) <= a * (Rabs (u - u') + Rabs (w - w'))).
    { replace (Cminus (a * u, a * w) (a * u', a * w')) with (Cmult (RtoC a) (Cplus (RtoC (u - u')) (Cmult (RtoC (w - w')) Ci))) by (unfold Cminus, Cmult, Cplus, Copp, RtoC, Ci; cbn [fst snd]; f_equal; ring).
      rewrite Cmod_mult, Cmod_R, (Rabs_right a) by lra. apply Rmult_le_compat_l; [lra|]. eapply Rle_trans; [apply Cmod_triangle|]. rewrite Cmod_mult, !Cmod_R.
      assert (Ei : Cmod Ci = 1) by (unfold Cmod, Ci; cbn [fst snd]; replace (0 ^ 2 + 1 ^ 2) with 1 by ring; apply sqrt_1). rewrite Ei, Rmult_1_r. lra. }
    pose proof (Cmod_ge_0 (Cminus (shrink (a * u, a * w)) (shrink (a * u', a * w')))). nra. }
  assert (S0 : sheared g (RtoC 0) = g).
  { unfold sheared. replace (Cplus (RtoC 0) g) with g by ring. replace (Cplus (RtoC 1) (Cmult (Cconj g) (RtoC 0))) with (RtoC 1) by ring.
    unfold Cdiv. replace (Cinv (RtoC 1)) with (RtoC 1); [ring|]. unfold Cinv, RtoC. cbn [fst snd]. f_equal; field. }
  assert (Bd : forall u w, Rabs (f u w - component c g) <= L).
  { intros u w. unfold f. rewrite <- S0 at 2. rewrite <- component_minus. eapply Rle_trans; [apply component_le|].
    eapply Rle_trans; [apply (sheared_slope g _ _ Hg (In _)); rewrite Cmod_0; lra|]. fold L.
    replace (Cminus (shrink (a * u, a * w)) (RtoC 0)) with (shrink (a * u, a * w)) by (unfold Cminus; ring). specialize (In (a * u, a * w)). nra. }
  assert (Ex : exists m, means 2 (fun l => f (nth 0 l 0) (nth 1 l 0)) m).
  { destruct (mean_slope (fun u w => f u w - component c g + L) (2 * L) (2 * L * a)) as (g0 & m & H1 & H2).
    - intros u w. apply (continuous_ext (fun w => f u w + (L - component c g))); [intro; match goal with |- ?x = ?y => change (@eq R x y) end; ring|].
      apply (continuous_plus (V := R_NormedModule) (f u) (fun _ => L - component c g)); [|apply continuous_const].
      apply continuity_pt_filterlim. intros e He. exists (e / (2 * L * a)). assert (PK : 0 < 2 * L * a) by nra. split; [apply Rdiv_lt_0_compat; assumption|].
      intros w' [_ Hw]. unfold dist in *; cbn in *. unfold R_dist in *. eapply Rle_lt_trans; [apply Lip|]. rewrite Rminus_eq_0, Rabs_R0, Rplus_0_l.
      apply (Rmult_lt_compat_l (2 * L * a)) in Hw; [|exact PK]. replace (2 * L * a * (e / (2 * L * a))) with e in Hw by (field; lra). exact Hw.
    - intros u w. specialize (Bd u w). apply Rabs_le_between in Bd. lra.
    - intros u u' w. replace (f u w - component c g + L - (f u' w - component c g + L)) with (f u w - f u' w) by ring.
      eapply Rle_trans; [apply Lip|]. rewrite Rminus_eq_0, Rabs_R0. lra.
    - exists (1 * m + (component c g - L) * 1).
      assert (M : means 2 (fun l => f (nth 0 l 0) (nth 1 l 0) - component c g + L) m).
      { cbn [means nth]. exists g0. split; [|exact H2]. intro u. exists (fun w => f u w - component c g + L). split; [reflexivity|apply H1]. }
      eapply means_eq; [apply (means_lin 2 _ _ 1 (component c g - L) _ _ M (means_const 2 1))| |reflexivity]. intro l. cbn beta. ring. }
  destruct Ex as [m Hm]. enough (Em : m = component c g) by (rewrite <- Em; exact Hm).
  assert (Near : forall d r, 0 < d -> 0 <= r -> Rabs (m - component c g) <= L * d + L * gauss r).
  { intros d r Hd Hr. pose proof (square_mod g Hg) as Hn. set (x := fst g) in *. set (y := snd g) in *. assert (Eg : g = (x, y)) by (apply surjective_pairing).
    destruct (regular_parts a d Hd x y r Hr Hn) as [K1 K2].
    assert (K : means 2 (fun l => disc r (nth 0 l 0) (nth 1 l 0) * share c x y (kx (kk a d) (nth 0 l 0) (nth 1 l 0)) (ky (kk a d) (nth 0 l 0) (nth 1 l 0))) 0) by (destruct c; assumption).
    set (h := fun u w => component c (x, y) + (1 - (x ^ 2 + y ^ 2)) * (disc r u w * share c x y (kx (kk a d) u w) (ky (kk a d) u w))).
    assert (Mh : means 2 (fun l => h (nth 0 l 0) (nth 1 l 0)) (component c g)).
    { eapply means_eq; [apply (means_lin 2 _ _ (component c g) (1 - (x ^ 2 + y ^ 2)) _ _ (means_const 2 1) K)| |ring].
      intro l. cbn beta. unfold h. rewrite <- Eg. ring. }
    assert (Md : means 2 (fun l => L * d + L * (1 - disc r (nth 0 l 0) (nth 1 l 0))) (L * d + L * gauss r)).
    { eapply means_eq; [apply (means_lin 2 _ _ (L * d + L) (- L) _ _ (means_const 2 1) (disc_one r Hr))| |ring]. intro l. cbn beta. ring. }
    assert (Diff : forall u w, Rabs (f u w - h u w) <= L * d + L * (1 - disc r u w)).
    { intros u w. unfold h, disc. destruct (Rle_dec _ _) as [I|I].
      - rewrite Rmult_1_l. pose proof (scaled_in 1 (kk a d) (kk_small a d Hd) u w) as Si. rewrite pow1 in Si.
        rewrite <- sheared_parts.
        2:{ pose proof (pow2_ge_0 x). pose proof (pow2_ge_0 y). pose proof (pow2_ge_0 (kx (kk a d) u w)). pose proof (pow2_ge_0 (ky (kk a d) u w)). nra. }
        rewrite <- Eg. unfold f. rewrite <- component_minus. eapply Rle_trans; [apply component_le|].
        eapply Rle_trans; [apply (sheared_slope g _ _ Hg (In _) (regular_in a d Hd u w))|]. fold L.
        pose proof (regular_near a d Hd u w) as N.
        replace (Cminus (shrink (a * u, a * w)) (kx (kk a d) u w, ky (kk a d) u w)) with (Copp (Cminus (kx (kk a d) u w, ky (kk a d) u w) (shrink (a * u, a * w)))) by (unfold Cminus; ring).
        rewrite Cmod_opp. nra.
      - rewrite Rmult_0_l, Rmult_0_r, Rplus_0_r. rewrite <- Eg. specialize (Bd u w). nra. }
    apply Rabs_le. split.
    - assert (component c g <= 1 * m + 1 * (L * d + L * gauss r)); [|lra].
      apply (means_le 2 _ _ _ _ Mh (means_lin 2 _ _ 1 1 _ _ Hm Md)). intro l. cbn beta. specialize (Diff (nth 0 l 0) (nth 1 l 0)). apply Rabs_le_between in Diff. lra.
    - assert (m <= 1 * component c g + 1 * (L * d + L * gauss r)); [|lra].
      apply (means_le 2 _ _ _ _ Hm (means_lin 2 _ _ 1 1 _ _ Mh Md)). intro l. cbn beta. specialize (Diff (nth 0 l 0) (nth 1 l 0)). apply Rabs_le_between in Diff. lra. }
  destruct (Req_dec m (component c g)) as [E|E]; [exact E|exfalso].
  set (t := Rabs (m - component c g)) in *. assert (Pt : 0 < t) by (apply Rabs_pos_lt; lra).
  set (r := 1 + 64 * L / t). assert (P0 : 0 < 64 * L / t) by (apply Rdiv_lt_0_compat; lra). assert (Hr : 1 <= r) by (unfold r; lra).
  specialize (Near (t / (4 * L)) r ltac:(apply Rdiv_lt_0_compat; lra) ltac:(lra)). replace (L * (t / (4 * L))) with (t / 4) in Near by (field; lra).
  pose proof (gauss_fast r Hr) as Gf.
  assert (R4 : r <= r ^ 4) by (assert (1 <= r ^ 3) by (rewrite <- (pow1 3); apply pow_incr; lra); replace (r ^ 4) with (r * r ^ 3) by ring; nra).
  assert (G2 : 16 / r ^ 4 <= 16 / r) by (apply Rmult_le_compat_l; [lra|apply Rinv_le_contravar; lra]).
  assert (G3 : L * (16 / r) < t / 4).
  { apply (Rmult_lt_reg_r r); [lra|]. replace (L * (16 / r) * r) with (16 * L) by (field; lra). unfold r. replace (t / 4 * (1 + 64 * L / t)) with (t / 4 + 16 * L) by (field; lra). lra. }
  assert (L * gauss r <= L * (16 / r)) by (apply Rmult_le_compat_l; lra). lra.
Qed.

Lemma intnorm_law count sigma pops fs qs : paired count sigma pops -> Forall (fun p => 0 < snd p < sqrt (1 / 2)) pops ->
  Forall2 (fun sf q => means 2 (fun l => snd sf (shrink (sigma_eta (fst sf) * nth 0 l 0, sigma_eta (fst sf) * nth 1 l 0))) q) (combine (scales pops) fs) qs ->
  length fs = length (scales pops) -> forall n, (2 * length fs <= n)%nat ->
    means n (fun l => each_of fs (ellipticity_intnorm numbers count sigma l)) (product qs).
Proof.
  intros Hp Hs Hr HL n Hn. apply populations_iff in Hp. unfold ellipticity_intnorm. rewrite Hp. cbn [bind].
  replace (forallb _ pops) with true.
  2:{ symmetry. apply forallb_forall. intros p Q. rewrite Forall_forall in Hs. specialize (Hs p Q).
      rewrite Proof_Numeric.leb_true, Proof_Numeric.ltb_true by lra. reflexivity. }
  clear Hp count sigma. revert fs qs Hr HL n Hn. induction Hs as [|[m sg] pops Ps _ IH]; intros fs qs Hr HL n Hn.
  - destruct fs; [|discriminate]. inversion Hr; subst. apply (means_const n 1).
  - cbn [snd] in Ps. unfold scales in *. cbn [map concat fst snd] in *. fold (scales pops) in *. rewrite app_length, repeat_length in HL.
    set (f1 := firstn m fs) in *. set (f2 := skipn m fs) in *. assert (Er : fs = f1 ++ f2) by (symmetry; apply firstn_skipn).
    assert (L1 : length f1 = m) by (apply firstn_length_le; lia). assert (L2 : length f2 = length (scales pops)) by (unfold f2; rewrite skipn_length; lia).
    clearbody f1 f2. subst fs. rewrite app_length in Hn.
    assert (Cs : combine (repeat sg m ++ scales pops) (f1 ++ f2) = map (fun f => (sg, f)) f1 ++ combine (scales pops) f2).
    { clear - L1. subst m. induction f1 as [|f f1 IH]; [reflexivity|]. cbn [length repeat app combine map]. f_equal. exact IH. }
    rewrite Cs in Hr. apply Forall2_app_inv_l in Hr as (q1 & q2 & Hr1 & Hr2 & ->).
    assert (Lq : length q1 = m) by (apply Proof_Galaxies.forall2_length in Hr1; rewrite map_length in Hr1; lia).
    set (fq := combine f1 q1). assert (Lf : length fq = m) by (unfold fq; rewrite combine_length; lia).
    assert (F : Forall (fun f => means 2 (fun l => fst f (shrink (Cmult (nth 0 l 0, nth 1 l 0) (RtoC (sigma_eta sg))))) (snd f)) fq).
    { unfold fq. clear - Hr1. revert q1 Hr1. induction f1 as [|f f1 IH]; intros q1 H; cbn [map] in H; inversion H; subst; cbn [combine]; [constructor|constructor; [|apply IH; assumption]].
      cbn [fst snd] in *. eapply means_eq; [eassumption| |reflexivity]. intro l. cbn beta. f_equal. f_equal. unfold Cmult, RtoC. cbn [fst snd]. f_equal; ring. }
    assert (Mf : map fst fq = f1) by (unfold fq; clear - L1 Lq; revert m q1 L1 Lq; induction f1 as [|f f1 IH]; intros [|m] [|q q1] L1 Lq; try discriminate; [reflexivity|]; cbn [combine map fst]; f_equal; apply (IH m q1); cbn in *; lia).
    assert (Ms : map snd fq = q1) by (unfold fq; clear - L1 Lq; revert m q1 L1 Lq; induction f1 as [|f f1 IH]; intros [|m] [|q q1] L1 Lq; try discriminate; [reflexivity|]; cbn [combine map snd]; f_equal; apply (IH m q1); cbn in *; lia).
    destruct (each_mean (fun x => shrink (Cmult x (RtoC (sigma_eta sg)))) fq F) as (g & Hg & Mg). rewrite Lf in *. rewrite Mf, Ms in *.
    replace n with (m + (m + (n - m - m)))%nat by lia.
    apply (means_app m _ _ (fun us => product q2 * g us)).
    + intros us Lu. apply (means_app m _ _ (fun ws => product q2 * each f1 (map (fun x => shrink (Cmult x (RtoC (sigma_eta sg)))) (combine us ws)))).
      * intros ws Lw. eapply means_eq; [apply (means_scal (n - m - m) _ (each f1 (map (fun x => shrink (Cmult x (RtoC (sigma_eta sg)))) (combine us ws))) _ (IH f2 q2 Hr2 L2 (n - m - m)%nat ltac:(lia)))| |].
        -- intro l. cbn beta. cbn [intnorm_populations]. pose proof (draw_complex us ws l ltac:(lia)) as D. rewrite Lu in D. rewrite D.
           destruct (intnorm_populations numbers pops l) as [rest s2]. cbn [each_of].
           symmetry. apply each_app. etransitivity; [exact L1|]. symmetry. etransitivity; [apply map_length|]. etransitivity; [apply (combine_length us ws)|]. lia.
        -- ring.
      * apply (means_scal m _ (product q2)). apply Hg. exact Lu.
    + eapply means_eq; [apply (means_scal m g (product q2) _ Mg)|reflexivity|]. rewrite Rmult_comm. symmetry. apply product_app.
Qed.

(** The observed shapes that [galaxy_shear] returns for the ellipticities of [ellipticity_intnorm]: there are shapes
    with certainty, and the expected shape of every galaxy is the reduced shear of the maps at its position, or just the shear. *)
Theorem intnorm_shear_unbiased ang2pix npix2nside chunk lon lat kappa gamma1 gamma2 nside count sigma pops :
  (0 < chunk)%nat -> length gamma1 = length kappa -> length gamma2 = length kappa -> npix2nside (length kappa) = Ok nside ->
  (forall x y, (ang2pix nside x y < length kappa)%nat) ->
  paired count sigma pops -> Forall (fun p => 0 < snd p < sqrt (1 / 2)) pops -> length lon = length (scales pops) -> length lat = length (scales pops) ->
  forall n, (2 * length (scales pops) <= n)%nat ->
  forall (reduced : bool) i x y kap g1 g2, nth_error lon i = Some x -> nth_error lat i = Some y ->
    nth_error kappa (ang2pix nside x y) = Some kap -> nth_error gamma1 (ang2pix nside x y) = Some g1 -> nth_error gamma2 (ang2pix nside x y) = Some g2 ->
    let g : C := if reduced then Cdiv (g1, g2) (RtoC (1 - kap)) else (g1, g2) in
    (reduced = true -> Cmod g < 1) ->
    forall c, means n (fun l => match ellipticity_intnorm numbers count sigma l with
      | Ok (eps, _) => entry_of c i (galaxy_shear ang2pix npix2nside chunk lon lat eps kappa gamma1 gamma2 reduced)
      | Err _ => 0 end) (component c g).
Proof.
  intros Hc H1 H2 Hn Hp Hpair Pos L1 L2 n HN reduced i x y kap g1 g2 Hx Hy Hk Hg1 Hg2 g Hg c.
  assert (Li : (i < length (scales pops))%nat) by (rewrite <- L1; apply nth_error_Some; congruence).
  assert (Ps : Forall (fun s => 0 < s < sqrt (1 / 2)) (scales pops)).
  { clear - Pos. induction Pos as [|[m s] pops P _ IH]; [constructor|]. unfold scales in *. cbn [map concat fst snd]. apply Forall_app. split; [|exact IH].
    apply Forall_forall. intros x Hx. apply repeat_spec in Hx. subst x. exact P. }
  destruct (nth_error (scales pops) i) as [s|] eqn:Es; [|apply nth_error_None in Es; lia].
  apply nth_error_split in Es as (A & B & EAB & LA).
  set (f := fun e : C => component c (if reduced then sheared g e else Cplus e g)).
  assert (If : forall s, 0 < s < sqrt (1 / 2) -> means 2 (fun l => f (shrink (sigma_eta s * nth 0 l 0, sigma_eta s * nth 1 l 0))) (component c g)).
  { intros z Hz. destruct (eta_square z Hz) as (Pe & _). unfold f. destruct reduced; [apply intnorm_sheared; [exact Pe|apply Hg; reflexivity]|].
    eapply means_eq; [apply (means_lin 2 _ _ 1 (component c g) _ _ (intnorm_sheared (sigma_eta z) (RtoC 0) c Pe ltac:(rewrite Cmod_0; lra)) (means_const 2 1))| |].
    - intro l. cbn beta. generalize (shrink (sigma_eta z * nth 0 l 0, sigma_eta z * nth 1 l 0)). intros [e1 e2].
      destruct c, g as [b1 b2]; unfold component, sheared, Cdiv, Cinv, Cmult, Cplus, Cconj, RtoC; cbn [fst snd]; field; rewrite ?Ropp_0, ?Rmult_0_l, ?Rmult_0_r; lra.
    - destruct c; unfold component, RtoC; cbn [fst snd]; ring. }
  assert (One : forall s, means 2 (fun l => (fun _ : C => 1) (shrink (sigma_eta s * nth 0 l 0, sigma_eta s * nth 1 l 0))) 1) by (intro; apply (means_const 2 1)).
  set (ones := fun l : list R => map (fun (_ : R) (_ : C) => 1) l).
  assert (Fo : forall l, Forall2 (fun sf q => means 2 (fun l => snd sf (shrink (sigma_eta (fst sf) * nth 0 l 0, sigma_eta (fst sf) * nth 1 l 0))) q) (combine l (ones l)) (map (fun _ => 1) l)).
  { induction l as [|z l IH]; cbn [ones map combine]; constructor; [apply (One z)|exact IH]. }
  assert (Cm : combine (A ++ s :: B) (ones A ++ f :: ones B) = combine A (ones A) ++ (s, f) :: combine B (ones B)).
  { clear. induction A as [|z A IH]; [reflexivity|]. cbn [app ones map combine]. f_equal. exact IH. }
  assert (Hs : 0 < s < sqrt (1 / 2)) by (rewrite EAB in Ps; apply Forall_app in Ps as [_ Ps]; inversion Ps; assumption).
  eapply means_len; [apply (intnorm_law count sigma pops (ones A ++ f :: ones B) (map (fun _ => 1) A ++ component c g :: map (fun _ => 1) B) Hpair Pos)| |].
  - rewrite EAB, Cm. apply Forall2_app; [apply Fo|]. constructor; [apply If, Hs|apply Fo].
  - rewrite EAB, !app_length. cbn [length]. unfold ones. rewrite !map_length. reflexivity.
  - rewrite EAB, app_length in HN. rewrite app_length. cbn [length] in *. unfold ones. rewrite !map_length. exact HN.
  - intros l Ll. cbn beta. apply populations_iff in Hpair. unfold ellipticity_intnorm. rewrite Hpair. cbn [bind].
    destruct (forallb _ pops); [|reflexivity].
    destruct (intnorm_populations numbers pops l) as [eps s'] eqn:E. cbn [each_of].
    assert (Le : length eps = length (scales pops)).
    { clear - E Ll HN. revert l eps s' n Ll HN E. induction pops as [|[m z] pops IH]; intros l eps s' n Ll HN E; cbn [intnorm_populations] in E; [injection E as <- _; reflexivity|].
      unfold scales in *. cbn [map concat fst snd] in *. fold (scales pops) in *. rewrite app_length, repeat_length in *.
      destruct (random_complex _ _ _) as [e s1] eqn:E1. destruct (intnorm_populations _ _ _) as [rest s2] eqn:E2. injection E as <- _.
      apply random_enough in E1 as [A1 A2]; [|lia]. rewrite app_length, map_length, A1. f_equal. apply (IH s1 rest s2 (length s1) eq_refl); [lia|exact E2]. }
    destruct (galaxy_shear_objects ang2pix npix2nside chunk lon lat eps kappa gamma1 gamma2 reduced nside Hc ltac:(congruence) ltac:(congruence) H1 H2 Hn Hp) as (out & Eo & _ & Ho).
    destruct (nth_error eps i) as [e|] eqn:Ee; [|apply nth_error_None in Ee; lia].
    rewrite Eo. unfold entry_of. rewrite (Ho i x y e kap g1 g2 Hx Hy Ee Hk Hg1 Hg2). subst i.
    unfold ones. rewrite (each_at A B f eps e); [|rewrite Le, EAB, app_length; reflexivity|exact Ee]. unfold f, g. destruct reduced; reflexivity.
  - rewrite product_app. assert (Po : forall l : list R, product (map (fun _ => 1) l) = 1) by (induction l as [|z l IH]; [reflexivity|]; cbn [map product fold_right]; unfold product in IH; rewrite IH; ring).
    change (product (component c g :: map (fun _ : R => 1) B)) with (component c g * product (map (fun _ : R => 1) B)). rewrite !Po. ring.
Qed.
Print Assumptions intnorm_shear_unbiased.

(** The same two galaxies with shapes of [ellipticity_intnorm]. *)
Example intnorm_shear_example :
  means 4 (fun l => match ellipticity_intnorm numbers (scalar 2%nat) (scalar (1 / 4)) l with
    | Ok (eps, _) => entry_of true 1 (galaxy_shear (fun _ x _ => if leb x 1 then 0%nat else 1%nat) (fun _ => Ok 1%nat) 1
        [0; 2] [0; 0] eps [0; 1 / 2] [1 / 10; 1 / 5] [0; 0] true)
    | Err _ => 0 end) (2 / 5).
Proof.
  assert (Hs : 1 / 4 < sqrt (1 / 2)) by (rewrite <- (sqrt_square (1 / 4)) by lra; apply sqrt_lt_1; lra).
  pose proof (intnorm_shear_unbiased (fun _ x _ => if leb x 1 then 0%nat else 1%nat) (fun _ => Ok 1%nat) 1 [0; 2] [0; 0] [0; 1 / 2] [1 / 10; 1 / 5] [0; 0] 1
    (scalar 2%nat) (scalar (1 / 4)) [(2%nat, 1 / 4)] ltac:(lia) eq_refl eq_refl eq_refl ltac:(intros x y; cbv beta; cbn [length]; destruct (leb x 1); lia) (scalar_paired _ _)
    ltac:(repeat constructor; cbn [snd]; lra) eq_refl eq_refl 4%nat ltac:(cbn; lia) true 1%nat 2 0 (1 / 2) (1 / 5) 0 eq_refl eq_refl) as H.
  cbv beta in H. rewrite Proof_Numeric.leb_false in H by lra. specialize (H eq_refl eq_refl eq_refl). cbv zeta in H.
  assert (E : Cdiv (1 / 5, 0) (RtoC (1 - 1 / 2)) = (2 / 5, 0)) by (unfold Cdiv, Cinv, Cmult, RtoC; cbn [fst snd]; f_equal; field).
  rewrite E in H. apply (H ltac:(intros _; unfold Cmod; cbn [fst snd]; replace ((2 / 5) ^ 2 + 0 ^ 2) with ((2 / 5) ^ 2) by ring; rewrite sqrt_pow2 by lra; lra) true).
Qed.
