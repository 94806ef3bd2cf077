(** Model of [glass/galaxies.py]: sampling of redshifts, lensed shapes, photometric
    redshifts and intrinsic alignments.  Floats are real numbers, see DESIGN.md. *)
From Coq Require Import Reals Lra.
From Coquelicot Require Import Complex.
From Verif Require Import Base Model_Numeric Model_Arrays Model_Effective Model_Windows.
Local Open Scope R_scope.

Section Draw.
  Context {S : Type}.
  (** [xrng.uniform(0.0, 1.0, size=n)]: external, with the generator's state. *)
  Variable uniform : S -> nat -> list R * S.

  (** glass/galaxies.py:51-89 [_draw_nz].  A vanishing total divides by zero; NumPy then returns
      NaN with a warning, here ZeroDivisionError. *)
  Definition draw_nz (count : nat) (z nz : list R) (s : S) : result (list R * S) :=
    do cdf <- cumulative_trapezoid nz z;
    do t <- last_of cdf;
    if Req_EM_T t 0 then Err ZeroDivisionError
    else
      let cdf := map (fun c => c / t) cdf in
      let '(us, s) := uniform s count in
      do zs <- mapM (fun u => interp u cdf z None None) us;
      Ok (zs, s).

  (** One row of an array with the given leading index: [z_out] at the leading index [k]. *)
  Definition row_at {V} (a : array V) (k : list nat) (n : nat) : list V :=
    map (fun j => aget a (k ++ [j])) (seq 0 n).

  (** glass/galaxies.py:244-263, the loop over the leading axes.  The pre-allocated output is filled
      from the left without gaps; here the parts are concatenated. *)
  Fixpoint draw_rows (count : array (nat * R)) (z nz : array (nat * R)) (nz_len z_len : nat)
      (ks : list (list nat)) (s : S) : result (list R * S) :=
    match ks with
    | [] => Ok ([], s)
    | k :: ks =>
        do r <- draw_nz (fst (aget count k)) (map snd (row_at z k z_len)) (map snd (row_at nz k nz_len)) s;
        let '(zs, s) := r in
        do r <- draw_rows count z nz nz_len z_len ks s;
        let '(rest, s) := r in
        Ok (zs ++ rest, s)
    end.

  (** glass/galaxies.py:188-268 [redshifts_from_nz].  The three arrays are broadcast together;
      to give them a common element type, an element is a count and a float of which only
      one is used.  The result has one entry per sampled redshift, so the assertion in line 266
      always holds.  The warning is not modelled. *)
  Definition redshifts_from_nz (count : array nat) (z nz : array R) (s : S) : result (list R * S) :=
    let c := {| ashape := ashape count; aget := fun i => (aget count i, 0) |} in
    let x := {| ashape := ashape z; aget := fun i => (0%nat, aget z i) |} in
    let y := {| ashape := ashape nz; aget := fun i => (0%nat, aget nz i) |} in
    do r <- broadcast_leading_axes [(c, 0%nat); (x, 1%nat); (y, 1%nat)];
    match r with
    | (dims, [c; x; y]) =>
        draw_rows c x y (last (ashape y) 0%nat) (last (ashape x) 0%nat) (ndindex dims) s
    | _ => Err RuntimeError
    end.

  (** glass/galaxies.py:92-119 [redshifts]: the window's samples as source distribution. *)
  Definition redshifts (n : array nat) (w : window) (s : S) : result (list R * S) :=
    redshifts_from_nz n
      {| ashape := [length (za w)]; aget := fun i => nth (hd 0%nat i) (za w) 0 |}
      {| ashape := [length (wa w)]; aget := fun i => nth (hd 0%nat i) (wa w) 0 |} s.

  (** Labels of tomographic bins and their equality; [unique] lists the distinct values of
      an array ([xp.unique_all], in whatever order), [argsort] returns a sorting permutation,
      stable or not. *)
  Context {L : Type} (eqb : L -> L -> bool) (unique : list L -> list L) (argsort : list nat -> list nat).

  (** [list.index(x)]. *)
  Fixpoint position (x : L) (l : list L) : result nat :=
    match l with
    | [] => Err ValueError
    | y :: l => if eqb y x then Ok 0%nat else do k <- position x l; Ok (k + 1)%nat
    end.
  (** [bin_count] of [unique_all]. *)
  Definition occurrences (x : L) (bins : list L) : nat := length (filter (eqb x) bins).

  (** glass/galaxies.py:164-168, the list of runs. *)
  Fixpoint draw_runs (keys : list L) (values : list (list R)) (z : list R) (bins labels : list L) (s : S)
      : result (list (list R) * S) :=
    match labels with
    | [] => Ok ([], s)
    | x :: labels =>
        do i <- position x keys;
        do nz <- index values i;
        do r <- draw_nz (occurrences x bins) z nz s;
        let '(run, s) := r in
        do r <- draw_runs keys values z bins labels s;
        let '(runs, s) := r in
        Ok (run :: runs, s)
    end.

  (** glass/galaxies.py:122-185 [redshifts_from_bins] for a flat array of labels (other shapes are
      flattened by [unique_all] and restored at the end).  [xp.concat] of no arrays is a
      ValueError. *)
  Definition redshifts_from_bins (bins : list L) (z : list R) (nz_dict : list (L * list R)) (s : S)
      : result (list R * S) :=
    let labels := unique bins in
    do index <- mapM (fun x => position x labels) bins;
    do r <- draw_runs (map fst nz_dict) (map snd nz_dict) z bins labels s;
    let '(runs, s) := r in
    match runs with
    | [] => Err ValueError
    | _ =>
        let flat := concat runs in
        let order := argsort (argsort index) in
        do out <- mapM (fun k => Base.index flat k) order;
        Ok (out, s)
    end.
End Draw.

(** * Lensed shapes *)

(** NumPy broadcasting of two one-dimensional arrays. *)
Definition bzip {A B D} (f : A -> B -> D) (x : list A) (y : list B) : result (list D) :=
  if Nat.eqb (length x) (length y) then Ok (map (fun p => f (fst p) (snd p)) (combine x y))
  else match x, y with
       | [a], _ => Ok (map (f a) y)
       | _, [b] => Ok (map (fun a => f a b) x)
       | _, _ => Err ValueError
       end.

(** [x[i:j]]. *)
Definition slice {A} (i j : nat) (l : list A) : list A := firstn (j - i) (skipn i l).
(** [x[i:j] = v] for [i <= j <= len(x)]: the values must fit, or be a single one. *)
Definition set_slice {A} (i j : nat) (l v : list A) : result (list A) :=
  if Nat.eqb (length v) (j - i) then Ok (firstn i l ++ v ++ skipn j l)
  else match v with
       | [a] => Ok (firstn i l ++ repeat a (j - i) ++ skipn j l)
       | _ => Err ValueError
       end.

(** glass/galaxies.py:329-334, the loop over slices of [chunk] = 10,000 objects from [i] on.
    [ang2pix] is healpy's [ang2pix(nside, lon, lat, lonlat=True)]. *)
Fixpoint lens_loop (ang2pix : R -> R -> nat) (chunk fuel i size : nat) (lon lat : list R)
    (kappa gamma1 gamma2 : list R) (k : list R) (g : list C) : result (list R * list C) :=
  match fuel with
  | O => Err OutOfFuel
  | S fuel =>
      if Nat.leb size i then Ok (k, g)
      else
        let upper := Nat.min size (i + chunk) in
        do ipix <- bzip ang2pix (slice i upper lon) (slice i upper lat);
        do ks <- mapM (index kappa) ipix;
        do g1 <- mapM (index gamma1) ipix;
        do g2 <- mapM (index gamma2) ipix;
        do k <- set_slice i upper k ks;
        do g <- set_slice i upper g (combine g1 g2);
        lens_loop ang2pix chunk fuel (i + chunk) size lon lat kappa gamma1 gamma2 k g
  end.

(** [(eps + g) / (1 + conj(g) * eps)], glass/galaxies.py:341. *)
Definition lensed (eps g : C) : C := Cdiv (Cplus eps g) (Cplus (RtoC 1) (Cmult (Cconj g) eps)).

(** The size of the broadcast of one-dimensional arrays, [xp.broadcast_arrays(...)[0].size]. *)
Definition bsize (a b : nat) : result nat :=
  if Nat.eqb a b then Ok a else if Nat.eqb a 1 then Ok b else if Nat.eqb b 1 then Ok a else Err ValueError.

(** glass/galaxies.py:271-347 [galaxy_shear] for one-dimensional arrays of objects and maps; the
    number of objects per step, 10,000 in the code, is the argument [chunk].  Where [kappa] is
    one, or the denominator vanishes, NumPy gives NaN or infinity; here division by zero is
    some number, so no theorem speaks about this case. *)
Definition galaxy_shear (ang2pix : nat -> R -> R -> nat) (npix2nside : nat -> result nat) (chunk : nat)
    (lon lat : list R) (eps : list C) (kappa gamma1 gamma2 : list R) (reduced_shear : bool)
    : result (list C) :=
  do npix <- bsize (length kappa) (length gamma1);
  do npix <- bsize npix (length gamma2);
  do nside <- npix2nside npix;
  do size <- bsize (length lon) (length lat);
  do size <- bsize size (length eps);
  do r <- lens_loop (ang2pix nside) chunk (size + 1) 0 size lon lat kappa gamma1 gamma2
            (repeat 0 size) (repeat (RtoC 0) size);
  let '(k, g) := r in
  if reduced_shear then
    let g := map (fun p => Cdiv (snd p) (RtoC (1 - fst p))) (combine k g) in
    bzip lensed eps g
  else bzip Cplus eps g.

(** * Photometric redshifts *)

(** A scalar or a one-dimensional array. *)
Inductive arr (A : Type) := Sc (x : A) | Ar (l : list A).
Arguments Sc {A}. Arguments Ar {A}.

Definition amap2 {A B D} (f : A -> B -> D) (a : arr A) (b : arr B) : result (arr D) :=
  match a, b with
  | Sc x, Sc y => Ok (Sc (f x y))
  | Sc x, Ar l => Ok (Ar (map (f x) l))
  | Ar l, Sc y => Ok (Ar (map (fun x => f x y) l))
  | Ar l, Ar m => do r <- bzip f l m; Ok (Ar r)
  end.
(** The [n] entries of a scalar or of an array of this size. *)
Definition entries {A} (n : nat) (a : arr A) : result (list A) :=
  match a with
  | Sc x => Ok (repeat x n)
  | Ar l => if Nat.eqb (length l) n then Ok l else Err ValueError
  end.

(** [zphot < lower or zphot > upper]; an absent upper bound is infinite. *)
Definition outside (lo : R) (up : option R) (x : R) : bool :=
  ltb x lo || match up with Some u => ltb u x | None => false end.
Definition below (lo : R) (up : option R) : bool :=
  match up with Some u => ltb lo u | None => true end.

Section Photometric.
  Context {S : Type}.
  (** [xrng.normal(z, sigma)] for arrays of the shape of the result, here lists. *)
  Variable normal : S -> list R -> list R -> list R * S.

  (** glass/galaxies.py:450-453, the rejection loop: entries outside are replaced by the new draw. *)
  Fixpoint redraw (fuel : nat) (zs sigmas : list R) (lo : list R) (up : list (option R))
      (zphot : list R) (s : S) : result (list R * S) :=
    let trunc := map (fun p => outside (fst (fst p)) (snd (fst p)) (snd p)) (combine (combine lo up) zphot) in
    if existsb (fun b => b) trunc then
      match fuel with
      | O => Err OutOfFuel
      | Datatypes.S fuel =>
          let '(new, s) := normal s zs sigmas in
          redraw fuel zs sigmas lo up
            (map (fun p : bool * (R * R) => if fst p then fst (snd p) else snd (snd p)) (combine trunc (combine new zphot))) s
      end
    else Ok (zphot, s).

  (** glass/galaxies.py:350-455 [gaussian_phz] for scalars and one-dimensional arrays.  A scalar result
      is an array of one entry here; its loop (lines 445-447) is the array loop for one entry.
      Bounds that do not have the size of the result are rejected here; the code rejects
      them if both bounds are arrays, and otherwise broadcasts them (not modelled). *)
  Definition gaussian_phz (fuel : nat) (z sigma_0 : arr R) (lower upper : option (arr R)) (s : S)
      : result (list R * S) :=
    do sigma <- amap2 (fun z s0 => (1 + z) * s0) z sigma_0;
    let n := match sigma with Sc _ => 1%nat | Ar l => length l end in
    let lower := match lower with None => Sc 0 | Some l => l end in
    let upper := match upper with
                 | None => Sc (@None R)
                 | Some (Sc u) => Sc (Some u)
                 | Some (Ar l) => Ar (map Some l)
                 end in
    do zs <- match z with Ar [x] => Ok (repeat x n) | _ => entries n z end;
    do sigmas <- entries n sigma;
    do lo <- entries n lower;
    do up <- entries n upper;
    let '(zphot, s) := normal s zs sigmas in
    if forallb (fun p => below (fst p) (snd p)) (combine lo up)
    then redraw fuel zs sigmas lo up zphot s
    else Err ValueError.
End Photometric.

(** * Intrinsic alignments *)

(** Python's [x ** y] for floats: 1 for [y = 0], whatever [x]; ZeroDivisionError for a negative
    power of zero; complex results for negative bases are not modelled (an error here). *)
Definition fpow (x y : R) : result R :=
  if Req_EM_T y 0 then Ok 1
  else if Req_EM_T x 0 then (if Rlt_dec 0 y then Ok 0 else Err ZeroDivisionError)
  else if Rlt_dec 0 x then Ok (Rpower x y)
  else Err TypeError.
Definition fdiv (x y : R) : result R := if Req_EM_T y 0 then Err ZeroDivisionError else Ok (x / y).

(** The attributes of the cosmology that are used. *)
Record nla_cosmology := { h : R; critical_density0 : R; Omega_m0 : R; growth_factor : R -> R }.

(** glass/galaxies.py:458-544 [_kappa_ia_nla] for a map [delta]. *)
Definition kappa_ia_nla (cosmo : nla_cosmology) (delta : list R) (zeff a_ia z0 eta lbar l0 beta : R)
    : result (list R) :=
  do c1 <- fdiv (5 / 10 ^ 14) (h cosmo * h cosmo);
  let rho_c1 := c1 * critical_density0 cosmo in
  let prefactor := - a_ia * rho_c1 * Omega_m0 cosmo in
  do inverse_linear_growth <- fdiv 1 (growth_factor cosmo zeff);
  do zratio <- fdiv (1 + zeff) (1 + z0);
  do redshift_dependence <- fpow zratio eta;
  do lratio <- fdiv lbar l0;
  do luminosity_dependence <- fpow lratio beta;
  let f_nla := prefactor * inverse_linear_growth * redshift_dependence * luminosity_dependence in
  Ok (map (fun d => d * f_nla) delta).
