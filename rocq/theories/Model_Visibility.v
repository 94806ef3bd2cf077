(** Model of the stripes of [glass/observations.py] and [glass/healpix.py]: which pixels the
    mask of a strip contains, and which directions of the sky a visibility map blocks. *)
From Coq Require Import Reals.
From Verif Require Import Base.
Local Open Scope R_scope.

(** glass/healpix.py:390 [output[indices] = 1], an assignment to a NumPy array, which raises
    IndexError for a pixel outside of the map. *)
Fixpoint put_ones (indices : list nat) (output : list R) : result (list R) :=
  match indices with
  | [] => Ok output
  | i :: rest =>
      if (i <? length output)%nat then put_ones rest (firstn i output ++ [1] ++ skipn (i + 1) output)
      else Err IndexError
  end.

(** glass/healpix.py:359-395 [query_strip].  [healpy_strip] is [healpy.query_strip], which gives
    the numbers of pixels; [int64] and [dtype] convert the values of the mask, [dtype] is
    Python's [None] by default. *)
Definition query_strip {A} (healpy_strip : nat -> R -> R -> list nat) (int64 : R -> A)
    (nside : nat) (thetas : R * R) (dtype : option (R -> A)) : result (list A) :=
  let output := repeat 0 (12 * nside * nside) in
  let indices := healpy_strip nside (fst thetas) (snd thetas) in
  do output <- put_ones indices output;
  match dtype with
  | None => Ok (map int64 output)
  | Some cast => Ok (map cast output)
  end.

(** [healpy.query_strip], as the HEALPix library computes it: pixels are selected by the height
    [z] of their centre, compared with the cosines of the two angles.  The first angle is
    excluded and the second included.  If the first angle is not the smaller one, pixels
    above the second and below the first are selected. *)
Definition strip (t1 t2 z : R) : bool :=
  if Rlt_dec t1 t2 then
    (if Rle_dec (cos t2) z then true else false) && (if Rlt_dec z (cos t1) then true else false)
  else
    (if Rle_dec (cos t2) z then true else false) || (if Rlt_dec z (cos t1) then true else false).

(** Directions, as vectors of length one. *)
Record direction := { dx : R; dy : R; dz : R }.

(** glass/observations.py:51-101 [vmap_galactic_ecliptic] in the limit of small pixels: maps are
    functions of the direction.  [galactic_of] gives the galactic coordinates of a direction
    in equatorial coordinates and [equatorial_of] the equatorial coordinates of one in
    ecliptic coordinates; [Rotator(coord="GC")] and [Rotator(coord="CE")] look up the value of
    a map there (healpy's letters are G for galactic, C for celestial, that is, equatorial, and
    E for ecliptic coordinates).  The check of the length of the stripes is in
    [Model_Observations]. *)
Definition strip_map (s : R * R) (v : direction) : R :=
  if strip (fst s) (snd s) (dz v) then 1 else 0.
Definition rotate (f : direction -> direction) (m : direction -> R) (v : direction) : R := m (f v).
Definition vmap (galactic_of equatorial_of : direction -> direction) (galactic ecliptic : R * R)
    : direction -> R :=
  let m := fun _ => 1 in
  let m := fun v => m v * (1 - strip_map galactic v) in
  let m := rotate galactic_of m in
  let m := fun v => m v * (1 - strip_map ecliptic v) in
  rotate equatorial_of m.

(** glass/observations.py:53-54, the default stripes. *)
Definition default_galactic : R * R := (30, 90).
Definition default_ecliptic : R * R := (20, 80).

(** The equatorial coordinates of a direction in ecliptic coordinates: both systems share the
    first axis and differ by the obliquity [eps]. *)
Definition from_ecliptic (eps : R) (v : direction) : direction :=
  {| dx := dx v; dy := dy v * cos eps - dz v * sin eps; dz := dy v * sin eps + dz v * cos eps |}.
