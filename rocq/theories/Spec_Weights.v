(** Vocabulary for distances and volumes in an expanding universe. *)
From Coq Require Import Reals.
From Coquelicot Require Import Coquelicot.
Open Scope R_scope.

(** [E] is an expansion rate, relative to today's, and [dc] the comoving distance that
    belongs to it: the integral of the Hubble distance [dh] over [E]. *)
Definition expansion (E : R -> R) : Prop :=
  forall z, -1 < z -> 0 < E z /\ continuous E z.
Definition distance_of (dh : R) (E dc : R -> R) : Prop :=
  forall z, -1 < z -> dc z = dh * RInt (fun x => / E x) 0 z.

(** The volume inside comoving radius [x] when spheres of that radius have area
    [4 pi S(x)^2]: [S(x) = x] in flat space, a sine or hyperbolic sine in curved space. *)
Definition volume (S : R -> R) (x : R) : R := RInt (fun y => 4 * PI * S y ^ 2) 0 x.

(** Matter and a cosmological constant in flat space: the expansion rate and the share of
    matter in the critical density at redshift [z]. *)
Definition matter_lambda_E (Om z : R) : R := sqrt (Om * (1 + z) ^ 3 + (1 - Om)).
Definition matter_share (Om z : R) : R := Om * (1 + z) ^ 3 / (matter_lambda_E Om z) ^ 2.
