(** Claims about the generators of all backends (C74). *)
From Coq Require Import Reals ZArith List Lra Lia.
From Flocq Require Import Core.
From Verif Require Import Base Model_SpectraFloat Model_Generator Spec_Generator.
From Verif Require Model_Rng.
Import ListNotations.
Local Open Scope R_scope.

Lemma pow_two n : (0 <= n)%Z -> 2 ^ Z.to_nat n = IZR (2 ^ n).
Proof. intro H. rewrite <- (Z2Nat.id n H) at 2. rewrite pow_IZR. reflexivity. Qed.

Lemma unit_double_64 x : unit_double x -> rnd64 x = x.
Proof.
  intros (k & Hk & ->). apply round_generic; [apply valid_rnd_N|]. apply generic_format_FLT.
  apply (FLT_spec radix2 (-1074) 53 _ (Float radix2 k (-53))).
  - unfold F2R. cbn [Fnum Fexp]. change (-53)%Z with (Z.opp 53). rewrite (bpow_opp radix2 53). unfold Rdiv. f_equal. f_equal. cbn. lra.
  - cbn [Fnum]. change (Z.abs k < 2 ^ 53)%Z. lia.
  - cbn [Fexp]. lia.
Qed.

Lemma round_32 x : / 2 <= x < 1 -> rnd32 x = IZR (ZnearestE (x * 2 ^ 24)) / 2 ^ 24.
Proof.
  intro H. assert (M : mag radix2 x = 0%Z :> Z).
  { apply mag_unique_pos. cbn. lra. }
  unfold rnd32, round, F2R, scaled_mantissa, cexp. rewrite M. unfold fexp32, FLT_exp. cbn [Z.sub Z.opp Z.add Z.pos_sub].
  change (Z.max (-24) (-149)) with (-24)%Z. cbn [Fnum Fexp]. change (- -24)%Z with 24%Z. change (-24)%Z with (Z.opp 24). rewrite (bpow_opp radix2 24).
  replace (bpow radix2 24) with (2 ^ 24) by (cbn; lra). reflexivity.
Qed.

Lemma nearest_bounds y m : Z.even m = true -> IZR m - / 2 <= y <= IZR m -> ZnearestE y = m.
Proof.
  intros Em [H1 H2]. destruct (Req_dec y (IZR m)) as [->|N]; [apply Zrnd_IZR, valid_rnd_N|].
  assert (F : Zfloor y = (m - 1)%Z).
  { apply Zfloor_imp. rewrite minus_IZR. replace (m - 1 + 1)%Z with m by lia. lra. }
  assert (C : Zceil y = m).
  { rewrite Zceil_floor_neq; [rewrite F; lia|]. rewrite F, minus_IZR. lra. }
  unfold Znearest. rewrite F, C, minus_IZR. destruct (Rcompare_spec (y - (IZR m - 1)) (/ 2)) as [K|K|K]; [lra| |reflexivity].
  replace (Z.even (m - 1)) with false; [reflexivity|]. symmetry. rewrite Z.even_sub, Em. reflexivity.
Qed.

(** C74 *)
Section Generator.
  Context {S K P Z : Type}.
  Variable numpy_rng : nat -> S.
  Variable jax_rng : nat -> K.
  Variable numpy_draw : S -> request P Z -> list R * S.
  Variable jax_draw : K -> request P Z -> list R * K.

  (** Requests that leave the type to the generator. *)
  Definition untyped (q : request P Z) : Prop :=
    match q with Random _ (Some _) | StandardNormal _ (Some _) => False | _ => True end.
  Definition numpy_draws (s : S) (qs : list (request P Z)) : list (list R) :=
    snd (fold_left (fun '(s, vs) q => let '(v, s) := numpy_draw s q in (s, vs ++ [v])) qs (s, [])).

  Lemma numpy_draws_cons s q qs : numpy_draws s (q :: qs) = let '(v, s) := numpy_draw s q in v :: numpy_draws s qs.
  Proof.
    unfold numpy_draws. cbn [fold_left]. destruct (numpy_draw s q) as [v s']. cbn [app].
    assert (G : forall qs s vs ws, snd (fold_left (fun '(s, vs) q => let '(v, s) := numpy_draw s q in (s, vs ++ [v])) qs (s, vs ++ ws)) =
      vs ++ snd (fold_left (fun '(s, vs) q => let '(v, s) := numpy_draw s q in (s, vs ++ [v])) qs (s, ws))).
    { clear. induction qs as [|q qs IH]; intros s vs ws; [reflexivity|]. cbn [fold_left]. destruct (numpy_draw s q) as [v s']. rewrite <- app_assoc. apply IH. }
    exact (G qs s' [v] []).
  Qed.

  (** Wrapped any number of times. *)
  Lemma wrapped_draws (xps : list backend) s qs : (forall s q, Forall (fun x => rnd64 x = x) (fst (numpy_draw s q))) -> Forall untyped qs ->
    draws numpy_draw jax_draw (fold_right (fun xp g => Wrapper g xp) (OfNumPy s) xps) qs = numpy_draws s qs.
  Proof.
    intros Dbl Un.
    assert (Id : forall s q, map rnd64 (fst (numpy_draw s q)) = fst (numpy_draw s q)).
    { clear s. intros s q. specialize (Dbl s q). induction Dbl as [|x l Hx _ IH]; [reflexivity|]. cbn [map]. rewrite Hx, IH. reflexivity. }
    revert s. induction Un as [|q qs Uq _ IH]; intro s; [reflexivity|]. rewrite numpy_draws_cons. cbn [draws].
    assert (D : draw numpy_draw jax_draw (fold_right (fun xp g => Wrapper g xp) (OfNumPy s) xps) q =
      (fst (numpy_draw s q), fold_right (fun xp g => Wrapper g xp) (OfNumPy (snd (numpy_draw s q))) xps)).
    { clear IH. induction xps as [|xp' xps IHx]; cbn [fold_right draw].
      - destruct (numpy_draw s q); reflexivity.
      - destruct q as [z [d|]|l c z|l z|z [d|]|l h z|m pv z]; try contradiction; rewrite IHx; cbn [convert]; rewrite ?Id; reflexivity. }
    rewrite D, IH. destruct (numpy_draw s q). reflexivity.
  Qed.

  (** With the same seed all backends but JAX get the numbers that NumPy draws, request by request, however often the
      generator is wrapped. *)
  Theorem default_rng_same xp seed qs : xp <> JAX ->
    (forall s q, Forall (fun x => rnd64 x = x) (fst (numpy_draw s q))) -> Forall untyped qs ->
    draws numpy_draw jax_draw (default_generator numpy_rng jax_rng xp seed) qs =
      numpy_draws (numpy_rng (match seed with Some s => s | None => 42%nat end)) qs /\
    forall xp', draws numpy_draw jax_draw (make_generator numpy_rng jax_rng xp' (Some (default_generator numpy_rng jax_rng xp seed)) None) qs =
      numpy_draws (numpy_rng (match seed with Some s => s | None => 42%nat end)) qs.
  Proof.
    intros NJ Dbl Un. pose proof (fun xps s => wrapped_draws xps s qs Dbl Un) as W.
    assert (G : exists xps, default_generator numpy_rng jax_rng xp seed =
      fold_right (fun xp g => Wrapper g xp) (OfNumPy (numpy_rng (match seed with Some s => s | None => 42%nat end))) xps).
    { destruct xp; [exists []; reflexivity|contradiction|exists [Other]; reflexivity]. }
    destruct G as [xps G]. split; [rewrite G; apply W|]. intro xp'. unfold make_generator. rewrite G. exact (W (xp' :: xps) _).
  Qed.

  (** The generators of the model of point sampling, which are states of NumPy's generator, draw what the default
      generators and wrappers of this model draw: from the seed given, 42 without one, and from the generator given. *)
  Theorem point_generators_same xp seed s qs : xp <> JAX ->
    (forall s q, Forall (fun x => rnd64 x = x) (fst (numpy_draw s q))) -> Forall untyped qs ->
    numpy_draws (Model_Rng.default_rng numpy_rng seed) qs = draws numpy_draw jax_draw (default_generator numpy_rng jax_rng xp seed) qs /\
    numpy_draws (Model_Rng.generator numpy_rng None) qs = draws numpy_draw jax_draw (make_generator numpy_rng jax_rng xp None None) qs /\
    numpy_draws (Model_Rng.generator numpy_rng (Some s)) qs = draws numpy_draw jax_draw (make_generator numpy_rng jax_rng xp (Some (OfNumPy s)) None) qs.
  Proof.
    intros NJ Dbl Un. split.
    - destruct (default_rng_same xp seed qs NJ Dbl Un) as [-> _]. destruct seed; reflexivity.
    - assert (E : forall s0, numpy_draws s0 qs = draws numpy_draw jax_draw (make_generator numpy_rng jax_rng xp (Some (OfNumPy s0)) None) qs).
      { intro s0. symmetry. exact (wrapped_draws [xp] s0 qs Dbl Un). }
      split; [rewrite (E (Model_Rng.generator numpy_rng None)); destruct xp; [reflexivity|contradiction|reflexivity]|apply E].
  Qed.

  (** With JAX the numbers are those of JAX's generator with the given seed, from the default generator and from the
      wrapper that makes its own. *)
  Fixpoint jax_draws (k : K) (qs : list (request P Z)) : list (list R) :=
    match qs with [] => [] | q :: qs => let '(v, k) := jax_draw k q in v :: jax_draws k qs end.
  Theorem default_rng_jax seed qs :
    (forall k q, Forall (fun x => rnd64 x = x) (fst (jax_draw k q))) -> Forall untyped qs ->
    draws numpy_draw jax_draw (default_generator numpy_rng jax_rng JAX seed) qs =
      jax_draws (jax_rng (match seed with Some s => s | None => 42%nat end)) qs /\
    draws numpy_draw jax_draw (make_generator numpy_rng jax_rng JAX None seed) qs =
      jax_draws (jax_rng (match seed with Some s => s | None => 42%nat end)) qs.
  Proof.
    intros Dbl Un. unfold default_generator, make_generator.
    assert (Id : forall s q, map rnd64 (fst (jax_draw s q)) = fst (jax_draw s q)).
    { intros s q. specialize (Dbl s q). induction Dbl as [|x l Hx _ IH]; [reflexivity|]. cbn [map]. rewrite Hx, IH. reflexivity. }
    change seed_default with 42%nat. generalize (jax_rng (match seed with Some s => s | None => 42%nat end)). intro k. split.
    - clear Un. revert k. induction qs as [|q qs IH]; intro k; [reflexivity|]. cbn [draws draw jax_draws].
      destruct (jax_draw k q) as [v k']. rewrite IH. reflexivity.
    - revert k. induction Un as [|q qs Uq _ IH]; intro k; [reflexivity|]. cbn [draws jax_draws].
      assert (D : draw numpy_draw jax_draw (Wrapper (OfJAX k) JAX) q = (fst (jax_draw k q), Wrapper (OfJAX (snd (jax_draw k q))) JAX)).
      { destruct q as [z [d|]|l c z|l z|z [d|]|l h z|m pv z]; try contradiction; cbn [draw convert];
          match goal with |- context [jax_draw k ?r] => specialize (Id k r); destruct (jax_draw k r) end; cbn [fst snd] in *; change (convert Float64) with rnd64; rewrite ?Id; reflexivity. }
      rewrite D, IH. destruct (jax_draw k q). reflexivity.
  Qed.

  (** For backends other than NumPy and JAX, doubles are drawn from the half-open unit interval. *)
  Theorem random_range seed size d : (forall s, Forall unit_double (fst (numpy_draw s (Random size None)))) ->
    d = None \/ d = Some Float64 ->
    Forall (fun x => 0 <= x < 1) (fst (draw numpy_draw jax_draw (default_generator numpy_rng jax_rng Other seed) (Random size d))).
  Proof.
    intros U Hd. cbn [default_generator draw]. set (s := numpy_rng _). specialize (U s).
    destruct (numpy_draw s (Random size None)) as [v s']. cbn [fst] in *.
    assert (E : (match d with Some d => d | None => Float64 end) = Float64) by (destruct Hd as [->| ->]; reflexivity). rewrite E. change (convert Float64) with rnd64.
    induction U as [|x l Ux _ IH]; [constructor|]. cbn [map]. constructor; [|exact IH].
    rewrite (unit_double_64 x Ux). destruct Ux as (k & Hk & ->). assert (0 < 2 ^ 53) by (apply pow_lt; lra).
    assert (IZR k < 2 ^ 53). { replace (2 ^ 53) with (IZR (2 ^ 53)) by (rewrite <- (pow_two 53) by lia; reflexivity). apply IZR_lt. lia. }
    assert (0 <= IZR k) by (apply (IZR_le 0); lia). split.
    - apply Rmult_le_pos; [assumption|]. apply Rlt_le, Rinv_0_lt_compat. assumption.
    - apply (Rmult_lt_reg_r (2 ^ 53)); [assumption|]. unfold Rdiv. rewrite Rmult_assoc, Rinv_l by lra. lra.
  Qed.
End Generator.
Print Assumptions default_rng_same.
Print Assumptions point_generators_same.
Print Assumptions default_rng_jax.
Print Assumptions random_range.

(** In single precision the number one can be drawn, contrary to the documentation: just when NumPy draws one of the
    2^28 largest doubles below one. *)
Theorem random_single k : (0 <= k < 2 ^ 53)%Z ->
  0 <= rnd32 (IZR k / 2 ^ 53) <= 1 /\ (rnd32 (IZR k / 2 ^ 53) = 1 <-> (2 ^ 53 - 2 ^ 28 <= k)%Z).
Proof.
  intro Hk. set (x := IZR k / 2 ^ 53).
  assert (P53 : 2 ^ 53 = IZR (2 ^ 53)) by (rewrite <- (pow_two 53) by lia; reflexivity).
  assert (P24 : 2 ^ 24 = IZR (2 ^ 24)) by (rewrite <- (pow_two 24) by lia; reflexivity).
  assert (Kx : IZR k = x * IZR (2 ^ 53)) by (unfold x; rewrite P53; field; apply IZR_neq; lia).
  assert (B : 0 <= IZR k < IZR (2 ^ 53)) by (split; [apply (IZR_le 0); lia|apply IZR_lt; lia]).
  cbn in Kx, B. assert (X : 0 <= x < 1) by lra.
  assert (V : Valid_exp fexp32) by (apply FLT_exp_valid; reflexivity).
  assert (R1 : rnd32 1 = 1).
  { apply round_generic; [apply valid_rnd_N|]. apply generic_format_FLT. apply (FLT_spec radix2 (-149) 24 _ (Float radix2 1 0)); cbn; [unfold F2R; cbn; lra|lia|lia]. }
  assert (R0 : rnd32 0 = 0) by (apply round_0, valid_rnd_N).
  assert (Rg : 0 <= rnd32 x <= 1).
  { split; [rewrite <- R0|rewrite <- R1]; apply round_le; try apply valid_rnd_N; try exact V; lra. }
  split; [exact Rg|]. split.
  - intro E. apply Z.le_ngt. intro L.
    (* rounded down to at most the number before one *)
    assert (L' : IZR k <= IZR (2 ^ 53 - 2 ^ 28 - 1)) by (apply IZR_le; lia). cbn in L'.
    assert (Lx : x <= IZR (2 ^ 53 - 2 ^ 28 - 1) / IZR (2 ^ 53)).
    { apply (Rmult_le_reg_r (IZR (2 ^ 53))); [apply IZR_lt; lia|]. change (IZR (2 ^ 53)) with 9007199254740992 at 1. rewrite <- Kx. unfold Rdiv. rewrite Rmult_assoc, Rinv_l by (apply IZR_neq; lia).
      rewrite Rmult_1_r. apply IZR_le. lia. }
    assert (M : rnd32 x <= rnd32 (IZR (2 ^ 53 - 2 ^ 28 - 1) / IZR (2 ^ 53))) by (apply round_le; [exact V|apply valid_rnd_N|exact Lx]).
    rewrite (round_32 (IZR (2 ^ 53 - 2 ^ 28 - 1) / IZR (2 ^ 53))) in M by (cbn; lra).
    assert (Q : (ZnearestE (IZR (2 ^ 53 - 2 ^ 28 - 1) / IZR (2 ^ 53) * 2 ^ 24) <= 2 ^ 24 - 1)%Z).
    { assert (F : Zfloor (IZR (2 ^ 53 - 2 ^ 28 - 1) / IZR (2 ^ 53) * 2 ^ 24) = (2 ^ 24 - 1)%Z) by (apply Zfloor_imp; cbn; lra).
      unfold Znearest. rewrite F. rewrite Rcompare_Lt; [lia|]. cbn. lra. }
    apply IZR_le in Q. rewrite E in M. cbn in M, Q. lra.
  - intro L.
    assert (L' : IZR (2 ^ 53 - 2 ^ 28) <= IZR k) by (apply IZR_le; exact L). cbn in L'.
    rewrite round_32 by lra. rewrite (nearest_bounds (x * 2 ^ 24) (2 ^ 24)); [rewrite P24; field; apply IZR_neq; lia|reflexivity|].
    cbn. lra.
Qed.
Print Assumptions random_single.

(** So the documented half-open interval is not that of single precision: for a generator whose next double is the
    largest below one. *)
Theorem random_range_refuted : exists (numpy_draw : unit -> request unit nat -> list R * unit),
  (forall s q, Forall unit_double (fst (numpy_draw s q))) /\
  fst (draw numpy_draw (fun (k : unit) _ => ([], k)) (default_generator (fun _ => tt) (fun _ => tt) Other None) (Random 1%nat (Some Float32))) = [1].
Proof.
  exists (fun s _ => ([IZR (2 ^ 53 - 1) / 2 ^ 53], s)). split.
  - intros s q. constructor; [|constructor]. exists (2 ^ 53 - 1)%Z. split; [lia|reflexivity].
  - cbn [default_generator draw fst map convert]. f_equal. apply (proj2 (random_single (2 ^ 53 - 1) ltac:(lia))). lia.
Qed.
Print Assumptions random_range_refuted.

(** One half and one quarter are drawn as they are, in either precision; the largest double below one is not. *)
Example random_example :
  let numpy_draw := fun (s : unit) (_ : request unit nat) => ([IZR (2 ^ 52) / 2 ^ 53; IZR (2 ^ 53 - 1) / 2 ^ 53], s) in
  let g := default_generator (K := unit) (fun _ => tt) (fun _ => tt) Other (Some 7%nat) in
  let jax_draw := fun (k : unit) (_ : request unit nat) => ([], k) in
  fst (draw numpy_draw jax_draw g (Random 2%nat None)) = [1 / 2; 1 - / 2 ^ 53] /\
  fst (draw numpy_draw jax_draw g (Random 2%nat (Some Float32))) = [1 / 2; 1].
Proof.
  intros numpy_draw g jax_draw.
  assert (H1 : unit_double (IZR (2 ^ 52) / 2 ^ 53)) by (exists (2 ^ 52)%Z; split; [lia|reflexivity]).
  assert (H2 : unit_double (IZR (2 ^ 53 - 1) / 2 ^ 53)) by (exists (2 ^ 53 - 1)%Z; split; [lia|reflexivity]).
  split; cbn [g numpy_draw default_generator draw fst map convert].
  - rewrite (unit_double_64 _ H1), (unit_double_64 _ H2). f_equal; [cbn; lra|]. f_equal. cbn. lra.
  - rewrite (proj2 (proj2 (random_single (2 ^ 53 - 1) ltac:(lia))) ltac:(lia)). f_equal.
    rewrite round_32 by (cbn; lra). replace (IZR (2 ^ 52) / 2 ^ 53 * 2 ^ 24) with (IZR (2 ^ 23)) by (cbn; lra).
    rewrite (Zrnd_IZR ZnearestE). cbn. lra.
Qed.

(** A generator that counts up from its seed: two draws with seed 7 and two with the default. *)
Example point_generators_example :
  let count := fun (s : nat) (_ : request unit nat) => ([IZR (Z.of_nat s)], S s) in
  let qs := [Random 1%nat None; Random 1%nat None] in
  numpy_draws count (Model_Rng.default_rng (fun s => s) (Some 7%nat)) qs = [[7]; [8]] /\
  numpy_draws count (Model_Rng.default_rng (fun s => s) None) qs = [[42]; [43]].
Proof. split; reflexivity. Qed.
