(** Model of [glass/points.py] (bias, expected counts, uniform positions, weights,
    displacements) and of [deflect] in [glass/lensing.py].  The sampling of positions from
    counts is in Model_Batch.v and Model_Rng.v.  Floats are real numbers, see DESIGN.md. *)
From Coq Require Import Reals Lra.
From Coquelicot Require Import Complex.
From Verif Require Import Base Model_Numeric Model_Arrays Model_Effective Model_Windows Model_Galaxies Model_Rng.
Local Open Scope R_scope.

(** glass/points.py:72 [ARCMIN2_SPHERE]: [60**6 // 100 / math.pi]. *)
Definition ARCMIN2_SPHERE : R := IZR (60 ^ 6 / 100) / PI.

(** * Bias *)

(** glass/points.py:75-112 [effective_bias].  A vanishing norm gives NaN in NumPy, here
    ZeroDivisionError. *)
Definition effective_bias (z bz : list R) (w : window) : result R :=
  do norm <- trapezoid (wa w) (za w);
  do p <- trapezoid_product (z, bz) [(za w, wa w)];
  fdiv p norm.

(** glass/points.py:115-134 [linear_bias]. *)
Definition linear_bias (delta : list R) (b : R) : result (list R) := Ok (map (fun d => b * d) delta).

(** glass/points.py:137-160 [loglinear_bias].  NumPy gives infinity or NaN for a density contrast of
    -1 with a bias that is not positive, and NaN below -1; here an error. *)
Definition loglinear_bias (delta : list R) (b : R) : result (list R) :=
  mapM (fun d => if Rlt_dec (-1) d then Ok (exp (ln (1 + d) * b) - 1)
                 else if Req_EM_T d (-1) then (if Rlt_dec 0 b then Ok (-1) else Err ValueError)
                 else Err ValueError) delta.

(** * Expected counts *)

(** glass/points.py:252-288 [_compute_expected_count] for one population. *)
Definition expected_count (ngal : R) (remove_monopole : bool) (n : list R) : result (list R) :=
  do n <- (if remove_monopole
           then do mean <- fdiv (total n) (INR (length n)); Ok (map (fun x => x - mean) n)
           else Ok n);
  let n := map (fun x => x + 1) n in
  do area <- fdiv ARCMIN2_SPHERE (INR (length n));
  Ok (map (fun x => x * (area * ngal)) n).

(** glass/points.py:291-316 [_apply_visibility]: multiplication in place, so that only a map of the
    same size or a single number fits. *)
Definition apply_visibility (n : list R) (vis : option (list R)) : result (list R) :=
  match vis with
  | None => Ok n
  | Some [v] => Ok (map (fun x => x * v) n)
  | Some l => if Nat.eqb (length l) (length n) then Ok (map (fun p => fst p * snd p) (combine n l))
              else Err ValueError
  end.

(** glass/points.py:344-345, the clipping in [_sample_number_galaxies]. *)
Definition clip_zero (n : list R) : list R := map (fun x => Rmax 0 x) n.

(** glass/points.py:163-211 [_broadcast_inputs], 214-249 [_compute_density_contrast] and 518-536, the
    expected counts of all populations:
    [delta] and [vis] have pixels along the last axis.  In the code the counts of a population are
    sampled before those of the next one are computed, so that an error can come after some
    positions; here it comes first. *)
Definition expected_counts (bias_model : list R -> R -> result (list R)) (ngal delta : array R)
    (bias vis : option (array R)) (remove_monopole : bool) : result (list (list R)) :=
  do r <- broadcast_leading_axes ([(ngal, 0%nat); (delta, 1%nat)]
            ++ match bias with Some b => [(b, 0%nat)] | None => [] end
            ++ match vis with Some v => [(v, 1%nat)] | None => [] end);
  let '(dims, arrs) := r in
  do ngal <- index arrs 0;
  do delta <- index arrs 1;
  do bias <- match bias with Some _ => do b <- index arrs 2; Ok (Some b) | None => Ok None end;
  do vis <- match vis with Some _ => do v <- index arrs (length arrs - 1); Ok (Some v) | None => Ok None end;
  let row a k := row_at a k (last (ashape a) 0%nat) in
  mapM (fun k =>
    do n <- match bias with None => Ok (row delta k) | Some b => bias_model (row delta k) (aget b k) end;
    do n <- expected_count (aget ngal k) remove_monopole n;
    do n <- apply_visibility n (option_map (fun v => row v k) vis);
    Ok (clip_zero n)) (ndindex dims).

(** glass/points.py:443-540 [positions_from_delta]; a bias model that is not callable is [None]. *)
Definition positions_from_delta {S U P} (mk : nat -> S) (poisson : S -> list R -> list nat * S)
    (random : S -> nat -> list U * S) (ring2ang : nat -> nat -> U -> P) (npix2nside : nat -> result nat)
    (fuel batch : nat) (bias_model : option (list R -> R -> result (list R))) (ngal delta : array R)
    (bias vis : option (array R)) (remove_monopole : bool) (rng : option S)
    : result (list (list (list P)) * S) :=
  match bias_model with
  | None => Err TypeError
  | Some bias_model =>
      do lams <- expected_counts bias_model ngal delta bias vis remove_monopole;
      positions_from_lams mk poisson random ring2ang npix2nside fuel batch rng lams
  end.

(** * Uniform positions *)

(** Degrees and radians (NumPy). *)
Definition degrees (x : R) : R := x * (180 / PI).
Definition radians (x : R) : R := x * (PI / 180).

Section Uniform.
  Context {S : Type}.
  (** [xrng.poisson(lam)] for the flattened array, and [xrng.uniform(low, high, size=n)]. *)
  Variable poisson : S -> list R -> list nat * S.
  Variable uniform : S -> R -> R -> nat -> list R * S.

  (** glass/points.py:590-607, the loop: one longitude column, one latitude column and the counts for
      each index. *)
  Fixpoint uniform_loop (dims : list nat) (ks : list (list nat)) (counts : list nat) (s : S)
      : list (list R * list R * array nat) * S :=
    match ks, counts with
    | k :: ks, n :: counts =>
        let '(lon, s) := uniform s (-180) 180 n in
        let '(x, s) := uniform s (-1) 1 n in
        let lat := map (fun x => degrees (asin x)) x in
        let count := {| ashape := dims; aget := fun i => if list_eq_dec Nat.eq_dec i k then n else 0%nat |} in
        let '(rest, s) := uniform_loop dims ks counts s in
        ((lon, lat, count) :: rest, s)
    | _, _ => ([], s)
    end.

  (** glass/points.py:543-607 [uniform_positions]; a scalar is an array without axes. *)
  Definition uniform_positions (ngal : array R) (s : S) : list (list R * list R * array nat) * S :=
    let ks := ndindex (ashape ngal) in
    let '(counts, s) := poisson s (map (fun k => ARCMIN2_SPHERE * aget ngal k) ks) in
    uniform_loop (ashape ngal) ks counts s.
End Uniform.

(** * Weights *)

(** [xp.sum(a, axis=0)] and division by it. *)
Definition sum_first (a : array R) : array R :=
  {| ashape := tl (ashape a);
     aget := fun i => total (map (fun j => aget a (j :: i)) (seq 0 (hd 0%nat (ashape a)))) |}.
Definition normalise_first (a : array R) : array R :=
  {| ashape := ashape a; aget := fun i => aget a i / aget (sum_first a) (tl i) |}.

(** glass/points.py:610-651 [position_weights].  Without axes there is no first axis to sum over
    (numpy.AxisError, a ValueError).  A vanishing sum gives NaN in NumPy; here division by zero is some
    number, so no theorem speaks about this case. *)
Definition position_weights (densities : array R) (bias : option (array R)) : result (array R) :=
  match bias with
  | None => match ashape densities with [] => Err ValueError | _ => Ok (normalise_first densities) end
  | Some b =>
      do l <- broadcast_first [densities; b];
      match l with
      | [d; b] => match ashape d with
                  | [] => Err ValueError
                  | _ => Ok {| ashape := ashape d; aget := fun i => aget (normalise_first d) i * aget b i |}
                  end
      | _ => Err RuntimeError
      end
  end.

(** * Displacements *)

(** [xp.hypot] and [xp.atan2], the latter without signed zeros. *)
Definition hypot (x y : R) : R := sqrt (x * x + y * y).
Definition atan2 (y x : R) : R :=
  if Rlt_dec 0 x then atan (y / x)
  else if Rlt_dec x 0 then (if Rle_dec 0 y then atan (y / x) + PI else atan (y / x) - PI)
  else if Rlt_dec 0 y then PI / 2 else if Rlt_dec y 0 then - (PI / 2) else 0.

(** glass/points.py:699-716 and glass/lensing.py:741-765: the displaced latitude and the change of
    longitude, in radians. *)
Definition navigate (t alpha1 alpha2 : R) : R * R :=
  let ct := sin t in let st := cos t in
  let a := hypot alpha1 alpha2 in
  let g := atan2 alpha2 alpha1 in
  let ca := cos a in let sa := sin a in
  let cg := cos g in let sg := sin g in
  (atan2 (ct * ca + st * sa * cg) (hypot (ct * sa - st * ca * cg) (st * sg)),
   atan2 (sa * sg) (st * ca - ct * sa * cg)).

(** glass/points.py:654-716 [displace] for one position and a complex displacement; arrays are
    treated element by element, and a real array of two rows is the same as a complex one. *)
Definition displace (lon lat : R) (alpha : C) : R * R :=
  let t := lat / 180 * PI in
  let '(tp, d) := navigate t (fst alpha) (snd alpha) in
  (lon + d / PI * 180, tp / PI * 180).

(** glass/lensing.py:687-765 [deflect], likewise. *)
Definition deflect (lon lat : R) (alpha : C) : R * R :=
  let t := radians lat in
  let '(tp, d) := navigate t (fst alpha) (snd alpha) in
  (lon - degrees d, degrees tp).

(** glass/points.py:719-770 [displacement] for one pair of positions. *)
Definition displacement (from_lon from_lat to_lon to_lat : R) : C :=
  let a := radians from_lat in
  let b := radians to_lat in
  let g := radians (to_lon - from_lon) in
  let sa := sin a in let ca := cos a in
  let sb := sin b in let cb := cos b in
  let sg := sin g in let cg := cos g in
  let r := atan2 (hypot (cb * sg) (ca * sb - sa * cb * cg)) (sa * sb + ca * cb * cg) in
  let x := atan2 (cb * sg) (ca * sb - sa * cb * cg) in
  (r * cos x, r * sin x).
