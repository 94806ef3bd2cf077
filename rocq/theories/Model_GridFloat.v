(** Binary64 model of grids and bins with a given spacing (C71): glass/shells.py:879-880 and
    glass/observations.py:259-264.

    Numbers are reals rounded after every operation, without overflow; NumPy is the
    backend. *)
From Coq Require Import ZArith Reals List.
From Flocq Require Import Core.
From Verif Require Import Base Model_SpectraFloat Model_Windows.
Open Scope R_scope.

(** [np.arange(start, stop, step)] for doubles: the number of points is the ceiling of the
    rounded quotient; the first point is [start], the second [start + step], and the
    others are [start + i * delta] with [delta] the difference of the first two. The
    integers [i] are exact. *)
Definition arange_float (start stop step : R) : list R :=
  let n := Z.to_nat (Zceil (rnd64 (rnd64 (stop - start) / step))) in
  let second := rnd64 (start + step) in
  let delta := rnd64 (second - start) in
  map (fun i => match i with
                | O => start
                | S O => second
                | _ => rnd64 (start + rnd64 (INR i * delta))
                end) (seq 0 n).

(** [_uniform_grid(start, stop, step=step)], glass/shells.py:879-880, which is
    [redshift_grid(zmin, zmax, dz=dz)], 887-916. *)
Definition redshift_grid_float (zmin zmax dz : R) : list R :=
  arange_float zmin (rnd64 (zmax + dz)) dz.

(** [xp.nextafter(x, y)]: the neighbour of the double [x] in the direction of [y]. *)
Definition nextafter_float (x y : R) : R :=
  match Rcompare x y with
  | Lt => succ radix2 fexp64 x
  | Eq => x
  | Gt => pred radix2 fexp64 x
  end.

(** [fixed_zbins(zmin, zmax, dz=dz)], glass/observations.py:259-269 *)
Definition fixed_zbins_float (zmin zmax dz : R) : list (R * R) :=
  pairwise (arange_float zmin (nextafter_float (rnd64 (zmax + dz)) zmax) dz).
