(** Normal numbers that are known to be inside an interval, and what is expected of samples of them. *)
From Coq Require Import Reals List.
From Coquelicot Require Import Coquelicot.
From Verif Require Import Base Model_Galaxies Spec_Gauss Spec_Uniform Spec_Photoz Spec_Shapes.
Import ListNotations.
Local Open Scope R_scope.

(** One for numbers between two bounds, otherwise zero; each bound may be missing. *)
Definition between (lo up : option R) (v : R) : R :=
  match lo with Some l => if Rle_dec l v then 1 else 0 | None => 1 end *
  match up with Some u => if Rle_dec v u then 1 else 0 | None => 1 end.

(** For a normal number with mean [x] and standard deviation [s]: the probability [p] to be between the bounds, and
    the expected value [m] of the function [f] if it is. *)
Definition truncated (x s : R) (lo up : option R) (f : R -> R) (p m : R) : Prop :=
  mean (fun u => between lo up (x + s * u)) p /\ 0 < p /\
  mean (fun u => f (x + s * u) * between lo up (x + s * u)) (m * p).

(** The product of functions of entries, one function for each entry; zero if the numbers differ, or if there is an
    error. *)
Fixpoint times {A} (f : list (A -> R)) (l : list A) : R :=
  match f, l with
  | [], [] => 1
  | f :: fs, x :: l => f x * times fs l
  | _, _ => 0
  end.
Definition times_of {A S} (f : list (A -> R)) (r : result (list A * S)) : R :=
  match r with Ok (out, _) => times f out | Err _ => 0 end.

(** An object with a true redshift, the bounds for its photometric redshift, a function of the latter, the probability
    to be between the bounds and the expected value of the function if it is. *)
Record object := { true_z : R; error_0 : R; lowest : R; highest : option R; question : R -> R; chance : R; answer : R }.
Definition answered (o : object) : Prop :=
  match highest o with Some u => lowest o < u | None => True end /\
  truncated (true_z o) ((1 + true_z o) * error_0 o) (Some (lowest o)) (highest o) (question o) (chance o) (answer o).

(** An argument that is a scalar or an array has the given entries. *)
Definition holds {A} (a : arr A) (l : list A) : Prop := match a with Sc x => Forall (eq x) l | Ar l' => l' = l end.
Definition lower_bounds (b : option (arr R)) (l : list R) : Prop := match b with None => Forall (eq 0) l | Some a => holds a l end.
Definition upper_bounds (b : option (arr R)) (l : list (option R)) : Prop :=
  match b with
  | None => Forall (eq None) l
  | Some (Sc x) => Forall (eq (Some x)) l
  | Some (Ar l') => map Some l' = l
  end.

(** A galaxy is an ellipsoid with [log (1 - B/A) = e] and [1 - C/B = c] that is seen from the direction with polar angle
    of cosine [u] and azimuth [phi], and turned by the angle [t / 2] on the sky.  This is its ellipticity, unless it
    looks like a point. *)
Definition galaxy (e c u phi t : R) (o : option C) : Prop :=
  exists q, apparent_ratio (1 - exp e) ((1 - c) * (1 - exp e)) u phi q /\
    o = option_map (fun q => ((1 - q) / (1 + q) * cos t, (1 - q) / (1 + q) * sin t)) q.

(** A population of galaxies, with normal distributions for the two axis ratios that are truncated to [B <= A] and
    [0 <= C <= B], with probabilities of being in range, and directions [u, phi] that are uniform on the sphere: a
    function of the ellipticity and what is expected of it. *)
Record population := { flat : R; flat_sd : R; thin : R; thin_sd : R; ask : option C -> R;
  flat_chance : R; thin_chance : R; expected : R }.
Definition expects (g : population) : Prop :=
  exists (v : R -> R -> list R -> R) (h : R -> R -> R) (w : R -> R),
    (forall e c a b t o, e <= 0 -> 0 <= c <= 1 -> 0 < a < 1 -> 0 < b < 1 -> 0 < t < 1 ->
      galaxy e c (2 * a - 1) (2 * PI * b) (2 * PI * t) o -> v e c [a; b; t] = ask g o) /\
    (forall e c, e <= 0 -> 0 <= c <= 1 -> umeans 3 (v e c) (h e c)) /\
    (forall e, e <= 0 -> truncated (thin g) (thin_sd g) (Some 0) (Some 1) (h e) (thin_chance g) (w e)) /\
    truncated (flat g) (flat_sd g) None (Some 0) w (flat_chance g) (expected g).

(** A component of the ellipticity, the first if [b]. *)
Definition part (b : bool) (o : option C) : R := match o with Some e => component b e | None => 0 end.

(** A source of normal and uniform numbers: the state has a list of standard normal numbers and a list of numbers
    that are uniform between 0 and 1; each is used up once. *)
Definition some_normal (s : list R * list R) (m sd : list R) : list R * (list R * list R) :=
  let '(x, n) := standard (fst s) m sd in (x, (n, snd s)).
Definition some_uniform (s : list R * list R) (lo hi : R) (n : nat) : list R * (list R * list R) :=
  let '(x, u) := ranges (snd s) lo hi n in (x, (fst s, u)).
(** The expected value of a function of [n] normal and [m] uniform numbers, all of them independent. *)
Definition both (n m : nat) (f : list R * list R -> R) (v : R) : Prop :=
  exists h, (forall u, length u = n -> umeans m (fun w => f (u, w)) (h u)) /\ means n h v.
