(** Theorems about the redshift weight functions (C70). *)
From Coq Require Import Reals Lra Psatz.
From Coquelicot Require Import Coquelicot.
From Verif Require Import Model_Weights Spec_Weights Proof_Weights.
Open Scope R_scope.

(** C70: the integral of the distance weight over any redshift range is the comoving
    distance between its ends, in Hubble distances. *)
Theorem distance_weight_uniform cosmo a b :
  0 < hubble_distance cosmo -> expansion (H_over_H0 cosmo) ->
  distance_of (hubble_distance cosmo) (H_over_H0 cosmo) (comoving_distance cosmo) ->
  -1 < a -> -1 < b ->
  is_RInt (distance_weight cosmo) a b
    ((comoving_distance cosmo b - comoving_distance cosmo a) / hubble_distance cosmo).
Proof.
  intros Hh H D Ha Hb. rewrite (distance_difference _ _ _ a b H D Ha Hb).
  assert (I : is_RInt (distance_weight cosmo) a b (RInt (fun x => / H_over_H0 cosmo x) a b)).
  { apply (is_RInt_ext (fun x => / H_over_H0 cosmo x)).
    - intros x _. unfold distance_weight, Rdiv. symmetry. apply Rmult_1_l.
    - apply (RInt_correct (V:=R_CompleteNormedModule)), inv_E_integrable; assumption. }
  revert I. generalize (RInt (fun x => / H_over_H0 cosmo x) a b : R). intros r I.
  replace (hubble_distance cosmo * r / hubble_distance cosmo) with r; [exact I|].
  change R in r. field. lra.
Qed.
Print Assumptions distance_weight_uniform.

(** The integral of the volume weight is the volume of the shell between the two
    redshifts, in units of [4 pi] cubic Hubble distances; in flat and in curved space. *)
Theorem volume_weight_uniform cosmo (S : R -> R) a b :
  0 < hubble_distance cosmo -> expansion (H_over_H0 cosmo) ->
  distance_of (hubble_distance cosmo) (H_over_H0 cosmo) (comoving_distance cosmo) ->
  (forall y, continuous S y) ->
  (forall z, transverse_comoving_distance cosmo z = S (comoving_distance cosmo z)) ->
  -1 < a -> -1 < b ->
  is_RInt (volume_weight cosmo) a b
    ((volume S (comoving_distance cosmo b) - volume S (comoving_distance cosmo a)) /
     (4 * PI * hubble_distance cosmo ^ 3)).
Proof.
  intros Hh H D C T Ha Hb. pose proof PI_RGT_0 as P.
  pose proof (shell_volume _ _ _ S a b H D C Ha Hb) as V.
  apply (is_RInt_scal _ a b (/ (4 * PI * hubble_distance cosmo ^ 3))) in V.
  replace ((volume S (comoving_distance cosmo b) - volume S (comoving_distance cosmo a)) /
     (4 * PI * hubble_distance cosmo ^ 3)) with
    (scal (/ (4 * PI * hubble_distance cosmo ^ 3))
      (volume S (comoving_distance cosmo b) - volume S (comoving_distance cosmo a)))
    by (unfold scal; simpl; unfold mult; simpl; unfold Rdiv; ring).
  eapply is_RInt_ext; [|exact V]. intros z [Hz _].
  assert (-1 < z).
  { destruct (Rle_dec a b); [rewrite Rmin_left in Hz|rewrite Rmin_right in Hz]; lra. }
  destruct (H z H0) as [Ez _].
  unfold scal. simpl. unfold mult. simpl. unfold volume_weight. rewrite T. field.
  repeat split; lra.
Qed.
Print Assumptions volume_weight_uniform.

(** In flat space the volume is that of a ball. *)
Theorem volume_weight_flat cosmo a b :
  0 < hubble_distance cosmo -> expansion (H_over_H0 cosmo) ->
  distance_of (hubble_distance cosmo) (H_over_H0 cosmo) (comoving_distance cosmo) ->
  (forall z, transverse_comoving_distance cosmo z = comoving_distance cosmo z) ->
  -1 < a -> -1 < b ->
  is_RInt (volume_weight cosmo) a b
    ((comoving_distance cosmo b ^ 3 - comoving_distance cosmo a ^ 3) / (3 * hubble_distance cosmo ^ 3)).
Proof.
  intros Hh H D T Ha Hb. pose proof PI_RGT_0 as P.
  pose proof (volume_weight_uniform cosmo (fun y => y) a b Hh H D (fun y => continuous_id y) T Ha Hb) as V.
  rewrite !volume_flat in V.
  replace ((comoving_distance cosmo b ^ 3 - comoving_distance cosmo a ^ 3) / (3 * hubble_distance cosmo ^ 3))
    with ((4 * PI / 3 * comoving_distance cosmo b ^ 3 - 4 * PI / 3 * comoving_distance cosmo a ^ 3) /
       (4 * PI * hubble_distance cosmo ^ 3)); [exact V|].
  field. split; lra.
Qed.
Print Assumptions volume_weight_flat.

(** The density weight gives the mass of a shell when matter is a fixed share of the
    critical density, that is without a cosmological constant or curvature. *)
Theorem density_weight_matter_only cosmo (S : R -> R) share a b :
  0 < hubble_distance cosmo -> expansion (H_over_H0 cosmo) ->
  distance_of (hubble_distance cosmo) (H_over_H0 cosmo) (comoving_distance cosmo) ->
  (forall y, continuous S y) ->
  (forall z, transverse_comoving_distance cosmo z = S (comoving_distance cosmo z)) ->
  (forall z, Omega_m cosmo z = share) ->
  -1 < a -> -1 < b ->
  is_RInt (density_weight cosmo) a b
    (critical_density0 cosmo * share *
     (volume S (comoving_distance cosmo b) - volume S (comoving_distance cosmo a)) /
     (4 * PI * hubble_distance cosmo ^ 3)).
Proof.
  intros Hh H D C T M Ha Hb.
  pose proof (volume_weight_uniform cosmo S a b Hh H D C T Ha Hb) as V.
  apply (is_RInt_scal _ a b (critical_density0 cosmo * share)) in V.
  replace (critical_density0 cosmo * share *
     (volume S (comoving_distance cosmo b) - volume S (comoving_distance cosmo a)) /
     (4 * PI * hubble_distance cosmo ^ 3)) with
    (scal (critical_density0 cosmo * share)
      ((volume S (comoving_distance cosmo b) - volume S (comoving_distance cosmo a)) /
       (4 * PI * hubble_distance cosmo ^ 3)))
    by (unfold scal; simpl; unfold mult; simpl; unfold Rdiv; ring).
  eapply is_RInt_ext; [|exact V]. intros z _.
  unfold scal. simpl. unfold mult. simpl. unfold density_weight, volume_weight, Rdiv. rewrite M. ring.
Qed.
Print Assumptions density_weight_matter_only.

(** In flat space with three tenths of matter and a cosmological constant, the density
    weight is not the mass of shells: it is neither proportional to the volume, as mass
    is with the constant comoving density of matter, nor to the volume times the matter
    density at that redshift, which grows with the cube of one plus redshift. *)
Theorem density_weight_matter_refuted :
  exists cosmo Om,
    0 < hubble_distance cosmo /\ 0 < Om < 1 /\
    H_over_H0 cosmo = matter_lambda_E Om /\ expansion (H_over_H0 cosmo) /\
    distance_of (hubble_distance cosmo) (H_over_H0 cosmo) (comoving_distance cosmo) /\
    (forall z, transverse_comoving_distance cosmo z = comoving_distance cosmo z) /\
    Omega_m cosmo = matter_share Om /\ 0 < critical_density0 cosmo /\
    (forall c, exists z, 0 <= z /\ density_weight cosmo z <> c * volume_weight cosmo z) /\
    (forall c, exists z, 0 <= z /\ density_weight cosmo z <> c * (1 + z) ^ 3 * volume_weight cosmo z).
Proof.
  set (Om := 3 / 10). set (E := matter_lambda_E Om).
  set (dc := fun z => 1 * RInt (fun x => / E x) 0 z).
  set (cosmo := {| hubble_distance := 1; H_over_H0 := E; comoving_distance := dc;
                   transverse_comoving_distance := dc; critical_density0 := 1;
                   Omega_m := matter_share Om |}).
  assert (O : 0 < Om < 1) by (unfold Om; lra).
  assert (X : expansion E) by (apply matter_lambda_expansion; lra).
  assert (D : distance_of 1 E dc) by (intros z _; reflexivity).
  assert (W : forall z, 0 < z -> 0 < volume_weight cosmo z).
  { intros z Hz. unfold volume_weight. simpl. pose proof (distance_positive 1 E dc z Rlt_0_1 X D Hz) as P.
    destruct (X z) as [Q _]; [lra|].
    apply Rdiv_lt_0_compat; [|exact Q]. rewrite Rmult_1_r. apply Rmult_lt_0_compat; lra. }
  assert (Y : forall z, density_weight cosmo z = matter_share Om z * volume_weight cosmo z).
  { intro z. unfold density_weight, volume_weight, Rdiv. simpl. ring. }
  assert (M : forall z, -1 < z -> matter_share Om z = Om * (1 + z) ^ 3 / (Om * (1 + z) ^ 3 + (1 - Om))).
  { intros z Hz. unfold matter_share, matter_lambda_E. rewrite pow2_sqrt; [reflexivity|].
    apply Rlt_le, matter_lambda_pos; lra. }
  assert (M1 : matter_share Om 1 = 24 / 31) by (rewrite M by lra; unfold Om; field).
  assert (M2 : matter_share Om 2 = 81 / 88) by (rewrite M by lra; unfold Om; field).
  pose proof (W 1 ltac:(lra)) as W1. pose proof (W 2 ltac:(lra)) as W2.
  exists cosmo, Om. split; [apply Rlt_0_1|]. split; [exact O|]. split; [reflexivity|].
  split; [exact X|]. split; [exact D|]. split; [reflexivity|]. split; [reflexivity|].
  split; [apply Rlt_0_1|]. split; intro c.
  - destruct (Req_dec c (24 / 31)) as [->|N].
    + exists 2. split; [lra|]. rewrite Y, M2. intro F. apply Rmult_eq_reg_r in F; lra.
    + exists 1. split; [lra|]. rewrite Y, M1. intro F. apply Rmult_eq_reg_r in F; lra.
  - destruct (Req_dec c (3 / 31)) as [->|N].
    + exists 2. split; [lra|]. rewrite Y, M2. intro F. apply Rmult_eq_reg_r in F; lra.
    + exists 1. split; [lra|]. rewrite Y, M1. intro F. apply Rmult_eq_reg_r in F; lra.
Qed.
Print Assumptions density_weight_matter_refuted.

(** The weights of an empty universe, in which the expansion rate is constant: the
    volume between redshifts one and two is seven thirds. *)
Example volume_weight_example :
  let cosmo := {| hubble_distance := 2; H_over_H0 := fun _ => 1; comoving_distance := fun z => 2 * z;
                  transverse_comoving_distance := fun z => 2 * z; critical_density0 := 1;
                  Omega_m := fun _ => 0 |} in
  is_RInt (distance_weight cosmo) 1 2 1 /\ is_RInt (volume_weight cosmo) 1 2 (7 / 3).
Proof.
  intro cosmo.
  assert (X : expansion (H_over_H0 cosmo)) by (intros z _; split; [apply Rlt_0_1|apply continuous_const]).
  assert (D : distance_of (hubble_distance cosmo) (H_over_H0 cosmo) (comoving_distance cosmo)).
  { intros z _. simpl. rewrite RInt_const. unfold scal. simpl. unfold mult. simpl. field. }
  split.
  - replace 1 with ((comoving_distance cosmo 2 - comoving_distance cosmo 1) / hubble_distance cosmo) at 2
      by (simpl; field).
    apply distance_weight_uniform; auto; simpl; lra.
  - replace (7 / 3) with ((comoving_distance cosmo 2 ^ 3 - comoving_distance cosmo 1 ^ 3) /
      (3 * hubble_distance cosmo ^ 3)) by (simpl; field).
    apply volume_weight_flat; auto; simpl; lra.
Qed.
