(** Vocabulary for statements about lensing. *)
From Coq Require Import Reals Lra List.
From Coquelicot Require Import Complex.
From Verif Require Import Spec_Numeric Spec_Windows Model_Windows Model_Lensing.
Import ListNotations.
Local Open Scope R_scope.

(** States and memory after calls of [add_plane], with or without exceptions, between which the caller
    may create arrays and write into any array. *)
Inductive history (cosmo : cosmology) : planes -> list (list R) -> Prop :=
| history_new h : history cosmo new_planes h
| history_plane st h d z w st' h' e : history cosmo st h -> add_plane cosmo st h d z w = (st', h', e) -> history cosmo st' h'
| history_alloc st h v : history cosmo st h -> history cosmo st (h ++ [v])
| history_write st h a v : history cosmo st h -> (a < length h)%nat -> history cosmo st (store h a v).

(** A space of constant curvature: flat, or with a radius of curvature. *)
Inductive geometry := Flat | Closed (r : R) | Open (r : R).

(** The transverse distance that belongs to the comoving distance [x]. *)
Definition transverse (g : geometry) (x : R) : R :=
  match g with
  | Flat => x
  | Closed r => r * sin (x / r)
  | Open r => r * sinh (x / r)
  end.

(** The distances of the cosmology are those of a space of constant curvature, with comoving distance
    [chi]; in a closed space, objects are not behind the antipode. *)
Record has_geometry (cosmo : cosmology) (g : geometry) (chi : R -> R) : Prop :=
  { chi_zero : chi 0 = 0;
    chi_increasing : forall z z', 0 <= z -> z < z' -> chi z < chi z';
    radius : match g with Flat => True | Closed r => 0 < r /\ forall z, 0 <= z -> chi z < r * PI | Open r => 0 < r end;
    to_here : forall z, distance_to cosmo z = transverse g (chi z);
    between : forall z z', distance_between cosmo z z' = transverse g (chi z' - chi z);
    hubble : hubble_distance cosmo <> 0 }.

(** The lensing by matter in a plane at [z], with weight [w], of a source at [z']. *)
Definition lensing_efficiency (cosmo : cosmology) (z w z' : R) : R :=
  3 * Omega_m0 cosmo / 2 * (distance_to cosmo z / hubble_distance cosmo)
  * (distance_between cosmo z z' / distance_to cosmo z') * ((1 + z) / H_over_H0 cosmo z) * w.

(** The integral of a window divided by its value at the effective redshift. *)
Definition lens_weight (w : window) (v : R) : Prop :=
  exists g a b t, interpolates g (za w) (wa w) /\ passes_through g (za w) (wa w) /\
    starts_with (za w) a /\ ends_with (za w) b /\ integral g a b t /\ v = t / g (zeff w).

(** Every coefficient of order [l] multiplied by [c l]. *)
Definition filtered (c : nat -> R) (alm : list (list C)) : list (list C) :=
  map (fun l => map (Cmult (RtoC (c l))) (nth l alm [])) (seq 0 (length alm)).
