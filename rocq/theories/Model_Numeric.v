(** Linear interpolation and trapezoidal integration: the numerical
    helpers on which window functions, redshift distributions and biases
    are built.  Samples are real numbers, see DESIGN.md. *)
From Coq Require Import Reals Lra.
From Verif Require Import Base.
Local Open Scope R_scope.

(** [(a <= b)] and [(a < b)] on floats (/repo/glass/arraytools.py:187-188,
    /repo/glass/shells.py:531), as tests on reals. *)
Definition leb (a b : R) : bool := if Rle_dec a b then true else false.
Definition ltb (a b : R) : bool := if Rlt_dec a b then true else false.

(** The loop of [np.interp] for one abscissa [x] (reached from
    /repo/glass/_array_api_utils.py:190-199): [x0] is the last sample
    point known to be at most [x], [f0] its value, and the remaining
    samples follow.  The interval searched for is the last one whose
    left end is at most [x].  NumPy finds it by bisection, which on a
    sorted grid gives the same interval as this scan. *)
Fixpoint interp_scan (x0 f0 : R) (rest : list (R * R)) (right x : R) : R :=
  match rest with
  | [] => if ltb x0 x then right else f0
  | (x1, f1) :: rest' =>
      if leb x1 x then interp_scan x1 f1 rest' right x
      else (f1 - f0) / (x1 - x0) * (x - x0) + f0
  end.

(** [last] value of a non-empty list of samples, for the default of
    [right] in [np.interp]. *)
Fixpoint last_value (f0 : R) (rest : list (R * R)) : R :=
  match rest with [] => f0 | (_, f1) :: rest' => last_value f1 rest' end.

(** /repo/glass/_array_api_utils.py:151-216 [interp] for one abscissa,
    as delegated to [np.interp]: the arrays [x_points] and [y_points]
    must have the same non-zero length, [left] and [right] default to
    the first and last value.  Arrays of abscissae are handled entry by
    entry, and arrays with several axes slice by slice
    (/repo/glass/arraytools.py:147-155 [ndinterp]).  [period] is never
    given in this package and is not modelled. *)
Definition interp (x : R) (x_points y_points : list R)
    (left right : option R) : result R :=
  if Nat.eqb (length x_points) (length y_points) then
    match combine x_points y_points with
    | [] => Err ValueError
    | (x0, f0) :: rest =>
        if ltb x x0 then Ok (match left with Some v => v | None => f0 end)
        else Ok (interp_scan x0 f0 rest
                   (match right with Some v => v | None => last_value f0 rest end) x)
    end
  else Err ValueError.

(** The terms summed by the trapezoidal rule, [(y[1:] + y[:-1]) * 0.5 *
    diff(x)] (/repo/glass/arraytools.py:223; [np.trapezoid] sums the
    same terms). *)
Fixpoint trapezoids (pts : list (R * R)) : list R :=
  match pts with
  | (x0, f0) :: (((x1, f1) :: _) as pts') =>
      (f1 + f0) * (1 / 2) * (x1 - x0) :: trapezoids pts'
  | _ => []
  end.

(** [xp.sum] of a list of floats, as used by [np.trapezoid]. *)
Fixpoint total (l : list R) : R :=
  match l with [] => 0 | a :: l' => a + total l' end.

(** [xp.cumulative_sum(..., include_initial=True)]
    (/repo/glass/arraytools.py:222-226). *)
Fixpoint cumulative_sum (acc : R) (l : list R) : list R :=
  match l with [] => [acc] | a :: l' => acc :: cumulative_sum (acc + a) l' end.

(** /repo/glass/_array_api_utils.py:104-148 [trapezoid(y, x)] along one
    axis.  Arrays of different lengths raise ValueError; the broadcasting
    of a single sample interval against a longer [y] is not modelled. *)
Definition trapezoid (y x : list R) : result R :=
  if Nat.eqb (length y) (length x) then Ok (total (trapezoids (combine x y)))
  else Err ValueError.

(** /repo/glass/arraytools.py:197-226 [cumulative_trapezoid(f, x)] along
    one axis, with the same simplification. *)
Definition cumulative_trapezoid (f x : list R) : result (list R) :=
  if Nat.eqb (length f) (length x)
  then Ok (cumulative_sum 0 (trapezoids (combine x f)))
  else Err ValueError.

(** Insertion of one value into a sorted list without repetition: the
    effect of sorting and removing duplicates in [xpx.union1d]. *)
Fixpoint insert (a : R) (l : list R) : list R :=
  match l with
  | [] => [a]
  | b :: l' =>
      if ltb a b then a :: l else if ltb b a then b :: insert a l' else l
  end.

(** [xpx.union1d(a, b)] (used in /repo/glass/arraytools.py:186-189 and
    /repo/glass/shells.py:532,698,768): the sorted distinct values of
    both arrays. *)
Definition union1d (a b : list R) : list R := fold_right insert [] (a ++ b).

(** [x[(x >= lo) & (x <= hi)]] (/repo/glass/arraytools.py:187-188). *)
Definition between (lo hi : R) (l : list R) : list R :=
  filter (fun v => leb lo v && leb v hi) l.

(** [x[0]] and [x[-1]]. *)
Definition first_of (l : list R) : result R :=
  match l with [] => Err IndexError | a :: _ => Ok a end.
Definition last_of (l : list R) : result R :=
  match l with [] => Err IndexError | a :: l' => Ok (last l' a) end.

(** The loop of [trapezoid_product] building the common grid
    (/repo/glass/arraytools.py:183-190). *)
Fixpoint product_grid (x : list R) (ff : list (list R * list R)) : result (list R) :=
  match ff with
  | [] => Ok x
  | (x', _) :: ff' =>
      do lo' <- first_of x'; do hi' <- last_of x';
      do lo <- first_of x; do hi <- last_of x;
      product_grid (union1d (between lo' hi' x) (between lo hi x')) ff'
  end.

(** [y *= interp(x, *f_)] over the arguments
    (/repo/glass/arraytools.py:192-193). *)
Fixpoint product_values (x y : list R) (ff : list (list R * list R)) : result (list R) :=
  match ff with
  | [] => Ok y
  | (x', f') :: ff' =>
      do v <- mapM (fun a => interp a x' f' None None) x;
      product_values x (map (fun p => fst p * snd p) (combine y v)) ff'
  end.

(** /repo/glass/arraytools.py:158-194 [trapezoid_product] for functions
    sampled along one axis. *)
Definition trapezoid_product (f : list R * list R) (ff : list (list R * list R)) :
    result R :=
  do x <- product_grid (fst f) ff;
  do y0 <- mapM (fun a => interp a (fst f) (snd f) None None) x;
  do y <- product_values x y0 ff;
  trapezoid y x.
