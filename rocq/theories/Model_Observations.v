(** Model of [glass/observations.py]: source distributions, tomographic bins and visibility;
    of [distribute] in [glass/shells.py]; and of [lognormal_shift_hilbert2011] in
    [glass/fields.py].  Floats are real numbers, see DESIGN.md. *)
From Coq Require Import Reals Lra.
From Verif Require Import Base Model_Numeric Model_Windows Model_Galaxies.
Local Open Scope R_scope.

(** * Source distributions *)

(** [nz /= trapezoid(nz, z, axis=-1)[..., newaxis]], glass/observations.py:146 and 211, for one row.
    A vanishing total gives NaN in NumPy, here ZeroDivisionError. *)
Definition normalise (z nz : list R) : result (list R) :=
  do t <- trapezoid nz z;
  if Req_EM_T t 0 then Err ZeroDivisionError else Ok (map (fun f => f / t) nz).

(** [nz *= norm], glass/observations.py:148-149 and 213-214, for an array with rows along the
    last axis: an array [norm] has to fit the last axis, since the result is stored in place. *)
Definition apply_norm (norm : option (arr R)) (rows : list (list R)) : result (list (list R)) :=
  match norm with
  | None => Ok rows
  | Some (Sc c) => Ok (map (map (fun f => f * c)) rows)
  | Some (Ar [c]) => Ok (map (map (fun f => f * c)) rows)
  | Some (Ar l) =>
      mapM (fun row => if Nat.eqb (length l) (length row)
                       then Ok (map (fun p => fst p * snd p) (combine row l))
                       else Err ValueError) rows
  end.

(** The rows of an array of parameters; a scalar stands for one row without leading axis. *)
Definition rows_of {A} (a : arr A) : list A := match a with Sc x => [x] | Ar l => l end.

(** glass/observations.py:104-150 [gaussian_nz] for a one-dimensional grid and scalar or one-dimensional
    parameters. *)
Definition gaussian_nz (z : list R) (mean sigma : arr R) (norm : option (arr R)) : result (list (list R)) :=
  do params <- amap2 pair mean sigma;
  do rows <- mapM (fun p => normalise z (map (fun x => exp (- (((x - fst p) / snd p) ^ 2) / 2)) z)) (rows_of params);
  apply_norm norm rows.

(** glass/observations.py:153-215 [smail_nz], likewise.  Powers of a negative redshift are NaN in
    NumPy, here an error. *)
Definition smail_pz (x z_mode alpha beta : R) : result R :=
  do a <- fpow x alpha;
  do b <- fpow (x / z_mode) beta;
  Ok (a * exp (- alpha / beta * b)).
Definition smail_nz (z : list R) (z_mode alpha beta : arr R) (norm : option (arr R)) : result (list (list R)) :=
  do ab <- amap2 pair alpha beta;
  do params <- amap2 pair z_mode ab;
  do rows <- mapM (fun p => do pz <- mapM (fun x => smail_pz x (fst p) (fst (snd p)) (snd (snd p))) z;
                            normalise z pz) (rows_of params);
  apply_norm norm rows.

(** * Tomographic bins *)

(** glass/observations.py:218-269 [fixed_zbins].  [nextafter x y] is the next float after [x] towards [y];
    an argument here, since there is no such real number. *)
Definition fixed_zbins (nextafter : R -> R -> R) (zmin zmax : R) (nbins : option nat) (dz : option R)
    : result (list (R * R)) :=
  do edges <- match nbins, dz with
              | Some n, None => Ok (linspace zmin zmax (n + 1) true)
              | None, Some dz => arange zmin (nextafter (zmax + dz) zmax) dz
              | _, _ => Err ValueError
              end;
  Ok (pairwise edges).

(** glass/observations.py:272-306 [equal_dens_zbins].  A vanishing total gives NaN in NumPy, here
    ZeroDivisionError. *)
Definition equal_dens_zbins (z nz : list R) (nbins : nat) : result (list (R * R)) :=
  do cdf <- cumulative_trapezoid nz z;
  do t <- last_of cdf;
  if Req_EM_T t 0 then Err ZeroDivisionError
  else
    let cdf := map (fun c => c / t) cdf in
    do edges <- mapM (fun u => interp u cdf z None None) (linspace 0 1 (nbins + 1) true);
    Ok (pairwise edges).

(** glass/observations.py:309-372 [tomo_nz_gausserr]; [erf] is [math.erf]. *)
Definition tomo_nz_gausserr (erf : R -> R) (z nz : list R) (sigma_0 : R) (zbins : list (R * R))
    : result (list (list R)) :=
  if Nat.eqb (length z) (length nz) then
    Ok (map (fun bin =>
          map (fun p =>
            let '(z, n) := p in
            let sz := sqrt 2 * sigma_0 * (1 + z) in
            (erf ((z - fst bin) / sz) - erf ((z - snd bin) / sz)) / (1 + erf (z / sz)) * n)
            (combine z nz)) zbins)
  else Err ValueError.

(** * Visibility *)

(** glass/observations.py:51-101 [vmap_galactic_ecliptic].  Stripes are lists of numbers, to see
    the check of their length; [query_strip] gives the map of the stripe (one inside) and
    [rotate] the rotated map for the two changes of coordinates. *)
Definition mask (strip m : list R) : list R := map (fun p => fst p * (1 - snd p)) (combine m strip).
Definition vmap_galactic_ecliptic (query_strip : nat -> list R -> list R) (rotate_gc rotate_ce : list R -> list R)
    (nside : nat) (galactic ecliptic : list R) : result (list R) :=
  if Nat.eqb (length galactic) 2 then
    if Nat.eqb (length ecliptic) 2 then
      let m := repeat 1 (12 * nside * nside) in
      let m := mask (query_strip nside galactic) m in
      let m := rotate_gc m in
      let m := mask (query_strip nside ecliptic) m in
      Ok (rotate_ce m)
    else Err TypeError
  else Err TypeError.

(** * Shells of given redshifts *)

(** [xp.argmax] of a non-empty row: the first position of the largest entry. *)
Fixpoint argmax_from (best k i : nat) (row : list nat) : nat :=
  match row with
  | [] => k
  | x :: row => if Nat.ltb best x then argmax_from x i (i + 1) row else argmax_from best k (i + 1) row
  end.
Definition argmax (row : list nat) : nat :=
  match row with [] => 0%nat | x :: row => argmax_from x 0 1 row end.

(** glass/shells.py:1064-1084, the row of probabilities for one redshift: outside first, then the shells. *)
Definition shell_weights (shells : list window) (z : R) : result (list R) :=
  do w <- mapM (fun s => interp z (za s) (wa s) (Some 0) (Some 0)) shells;
  let wnorm := total w in
  let outside := if Req_EM_T wnorm 0 then true else false in
  let w := map (fun x => x / (if outside then 1 else wnorm)) w in
  Ok ((if outside then 1 else 0) :: w).

Section Distribute.
  Context {S : Type}.
  (** [xrng.multinomial(1, weights)] for a list of rows. *)
  Variable multinomial : S -> list (list R) -> list (list nat) * S.

  (** glass/shells.py:1053-1099, the loop over batches, here of a given size. *)
  Fixpoint distribute_loop (batch fuel : nat) (redshifts : list R) (shells : list window) (s : S)
      : result (list Z * S) :=
    match redshifts with
    | [] => Ok ([], s)
    | _ =>
        match fuel with
        | O => Err OutOfFuel
        | Datatypes.S fuel =>
            match shells with
            | [] => Err ValueError
            | _ =>
                do weights <- mapM (shell_weights shells) (firstn batch redshifts);
                let '(counts, s) := multinomial s weights in
                let index := map (fun row => (Z.of_nat (argmax row) - 1)%Z) counts in
                do r <- distribute_loop batch fuel (skipn batch redshifts) shells s;
                let '(rest, s) := r in
                Ok (index ++ rest, s)
            end
        end
    end.

  (** glass/shells.py:1015-1106 [distribute] for a flat array of redshifts; in the code [batch] is 1000. *)
  Definition distribute (batch : nat) (redshifts : list R) (shells : list window) (s : S) : result (list Z * S) :=
    distribute_loop batch (length redshifts) redshifts shells s.
End Distribute.

(** * Lognormal shift *)

(** glass/fields.py:965-982 [lognormal_shift_hilbert2011]. *)
Definition lognormal_shift (z : R) : R :=
  z * (8 / 1000 + z * (29 / 1000 + z * (- (79 / 10000) + z * (65 / 100000)))).
