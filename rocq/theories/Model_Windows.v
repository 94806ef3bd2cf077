(** Radial windows, restriction of functions to windows, partitions by
    restriction, and redshift grids (/repo/glass/shells.py). *)
From Coq Require Import Reals Lra String.
From Flocq Require Import Core.Raux Core.Generic_fmt Core.Round_NE.
From Verif Require Import Base Model_Numeric.
Local Open Scope R_scope.

(** [xp.linspace(start, stop, num, endpoint=...)] as used in
    /repo/glass/shells.py:344,408-413,478-482,882: [num] values with
    equal steps; with [endpoint] the last value is [stop].  NumPy's
    zero division for a single value with end point is avoided by the
    factor zero. *)
Definition linspace (start stop : R) (num : nat) (endpoint : bool) : list R :=
  let div := if endpoint then (num - 1)%nat else num in
  map (fun k => start + INR k * ((stop - start) / INR div)) (seq 0 num).

(** /repo/glass/shells.py:183-280 [RadialWindow].  [zeff] is a real
    number: the value [nan] is only used by the class as "not given". *)
Record window := Window { za : list R; wa : list R; zeff : R }.

(** /repo/glass/shells.py:266-280 [_calculate_zeff], for a window with
    samples; without samples the result is [nan], here an error. *)
Definition calculate_zeff (z w : list R) : result R :=
  match z with
  | [] => Err ValueError
  | _ => do a <- trapezoid (map (fun p => fst p * snd p) (combine z w)) z;
         do b <- trapezoid w z; Ok (a / b)
  end.

(** /repo/glass/shells.py:247-255 [RadialWindow.__post_init__]: an
    effective redshift that was not given is computed. *)
Definition radial_window (z w : list R) (ze : option R) : result window :=
  match ze with
  | Some v => Ok (Window z w v)
  | None => do v <- calculate_zeff z w; Ok (Window z w v)
  end.

(** [int(max(xp.round(q), 2))] (/repo/glass/shells.py:343,406,476):
    rounding half to even, at least two. *)
Definition samples (q : R) : nat := Z.to_nat (Z.max (ZnearestE q) 2).

(** [w *= weight(z)] or [weight(z)] with the default [ones_like]
    (/repo/glass/shells.py:339-340,414-415,484-485). *)
Definition apply_weight (weight : option (R -> R)) (z : list R) : list R :=
  match weight with Some f => map f z | None => map (fun _ => 1) z end.

(** The body of the loop over bins of [tophat_windows]
    (/repo/glass/shells.py:342-347). *)
Definition tophat_window (dz : R) (weight : option (R -> R)) (zmin zmax : R) :
    result window :=
  let z := linspace zmin zmax (samples ((zmax - zmin) / dz)) true in
  let w := apply_weight weight z in
  do a <- trapezoid (map (fun p => fst p * snd p) (combine w z)) z;
  do b <- trapezoid w z;
  Ok (Window z w (a / b)).

(** [itertools.pairwise(l)]. *)
Definition pairwise {A} (l : list A) : list (A * A) := combine l (tl l).
(** [zip(l, l[1:], l[2:])]. *)
Definition triples {A} (l : list A) : list (A * A * A) :=
  combine (combine l (tl l)) (tl (tl l)).

(** /repo/glass/shells.py:283-348 [tophat_windows]: the windows and
    whether the warning about the first redshift is given. *)
Definition tophat_windows (zbins : list R) (dz : R) (weight : option (R -> R)) :
    result (list window * bool) :=
  if Nat.ltb (length zbins) 2 then Err ValueError
  else
    do z0 <- index zbins 0;
    do ws <- mapM (fun p => tophat_window dz weight (fst p) (snd p)) (pairwise zbins);
    Ok (ws, if Req_EM_T z0 0 then false else true).

(** The body of the loop of [linear_windows] and [cubic_windows]
    (/repo/glass/shells.py:405-416,475-486); [shape] maps the linear
    ramp [u] to the window: [u] itself, or [u**2 * (3 - 2*u)]. *)
Definition node_window (shape : R -> R) (dz : R) (weight : option (R -> R))
    (zmin zmid zmax : R) : window :=
  let n := (samples ((zmid - zmin) / dz) - 1)%nat in
  let m := samples ((zmax - zmid) / dz) in
  let z := linspace zmin zmid n false ++ linspace zmid zmax m true in
  let w := map shape (linspace 0 1 n false ++ linspace 1 0 m true) in
  Window z (map (fun p => fst p * snd p) (combine w (apply_weight weight z))) zmid.

Definition linear_shape (u : R) : R := u.
Definition cubic_shape (u : R) : R := u * u * (3 - 2 * u).

(** /repo/glass/shells.py:351-417 [linear_windows] and 420-487
    [cubic_windows], which differ only in the shape.  Without a weight
    function the code does not multiply; here it multiplies by one. *)
Definition node_windows (shape : R -> R) (zgrid : list R) (dz : R)
    (weight : option (R -> R)) : result (list window * bool) :=
  if Nat.ltb (length zgrid) 3 then Err ValueError
  else
    do z0 <- index zgrid 0;
    Ok (map (fun t => let '(zmin, zmid, zmax) := t in
               node_window shape dz weight zmin zmid zmax) (triples zgrid),
        if Req_EM_T z0 0 then false else true).
Definition linear_windows := node_windows linear_shape.
Definition cubic_windows := node_windows cubic_shape.

(** /repo/glass/shells.py:490-541 [restrict(z, f, w)] for a function
    with values along one axis. *)
Definition restrict (z f : list R) (w : window) : result (list R * list R) :=
  do lo <- first_of (za w); do hi <- last_of (za w);
  let z' := filter (fun v => ltb lo v && ltb v hi) z in
  let zr := union1d (za w) z' in
  do a <- mapM (fun v => interp v z f (Some 0) (Some 0)) zr;
  do b <- mapM (fun v => interp v (za w) (wa w) None None) zr;
  Ok (zr, map (fun p => fst p * snd p) (combine a b)).

(** /repo/glass/shells.py:812-840 [partition_restrict]. *)
Definition partition_restrict (z f : list R) (shells : list window) : result (list R) :=
  mapM (fun w => do r <- restrict z f w; trapezoid (snd r) (fst r)) shells.

(** /repo/glass/shells.py:652-661 [partition]: dispatch on the method;
    the least-squares methods are arguments here. *)
Definition partition (lstsq nnls : list R -> list R -> list window -> result (list R))
    (z f : list R) (shells : list window) (method : string) : result (list R) :=
  if String.eqb method "lstsq" then lstsq z f shells
  else if String.eqb method "nnls" then nnls z f shells
  else if String.eqb method "restrict" then partition_restrict z f shells
  else Err ValueError.

(** /repo/glass/shells.py:954-1012 [combine] at one redshift, for weights
    without further axes; [zip(..., strict=False)] stops at the shorter
    sequence. *)
Definition combine_windows (z : R) (weights : list R) (shells : list window) : result R :=
  do vs <- mapM (fun p => let '(w, x) := p in
                  do t <- trapezoid (wa w) (za w);
                  do v <- interp z (za w) (map (fun y => y / t) (wa w)) (Some 0) (Some 0);
                  Ok (x * v)) (combine shells weights);
  Ok (total vs).

(** [xp.arange(start, stop, step)] (/repo/glass/shells.py:880):
    [ceil((stop - start) / step)] values. *)
Definition arange (start stop step : R) : result (list R) :=
  if Req_EM_T step 0 then Err ZeroDivisionError
  else Ok (map (fun k => start + INR k * step)
             (seq 0 (Z.to_nat (Zceil ((stop - start) / step))))).

(** /repo/glass/shells.py:843-884 [_uniform_grid]; [num] is a natural
    number of steps. *)
Definition uniform_grid (start stop : R) (step : option R) (num : option nat) :
    result (list R) :=
  match step, num with
  | Some s, None => arange start (stop + s) s
  | None, Some n => Ok (linspace start stop (n + 1) true)
  | _, _ => Err ValueError
  end.

(** /repo/glass/shells.py:887-916 [redshift_grid]. *)
Definition redshift_grid (zmin zmax : R) (dz : option R) (num : option nat) :
    result (list R) := uniform_grid zmin zmax dz num.

(** /repo/glass/shells.py:919-951 [distance_grid]; the cosmology's
    comoving distance and its inverse are arguments. *)
Definition distance_grid (dc idc : R -> R) (zmin zmax : R) (dx : option R)
    (num : option nat) : result (list R) :=
  do x <- uniform_grid (dc zmin) (dc zmax) dx num; Ok (map idc x).
