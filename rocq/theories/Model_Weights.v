(** Model of the redshift weight functions (C70): glass/shells.py:81-180.

    A cosmology is what glass/cosmology.py:10-44 asks of it, reduced to the functions that
    the weights use; reals stand for floating-point numbers. *)
From Coq Require Import Reals.
Open Scope R_scope.

Record cosmology := {
  hubble_distance : R;
  H_over_H0 : R -> R;
  comoving_distance : R -> R;
  transverse_comoving_distance : R -> R;
  critical_density0 : R;
  Omega_m : R -> R }.

(** [DistanceWeight.__call__], glass/shells.py:96-110 *)
Definition distance_weight (cosmo : cosmology) (z : R) : R := 1 / H_over_H0 cosmo z.

(** [VolumeWeight.__call__], glass/shells.py:127-143 *)
Definition volume_weight (cosmo : cosmology) (z : R) : R :=
  (transverse_comoving_distance cosmo z / hubble_distance cosmo) ^ 2 / H_over_H0 cosmo z.

(** [DensityWeight.__call__], glass/shells.py:160-180 *)
Definition density_weight (cosmo : cosmology) (z : R) : R :=
  critical_density0 cosmo * Omega_m cosmo z *
  (transverse_comoving_distance cosmo z / hubble_distance cosmo) ^ 2 / H_over_H0 cosmo z.
