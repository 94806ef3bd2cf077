(** Poisson numbers and random points. *)
From Coq Require Import Reals List Arith Factorial.
From Coquelicot Require Import Coquelicot.
From Verif Require Import Base Model_Arrays Spec_Points Spec_Uniform Spec_Disc.
Import ListNotations.
Local Open Scope R_scope.

(** The probability that a Poisson number with mean [lam] is [n]. *)
Definition poisson_chance (lam : R) (n : nat) : R := exp (- lam) * lam ^ n / INR (fact n).
(** The expected value of a function of a Poisson number, and of one of independent Poisson numbers with the given means. *)
Definition poisson_mean (lam : R) (f : nat -> R) (m : R) : Prop := is_series (fun n => poisson_chance lam n * f n) m.
Fixpoint counts_mean (lams : list R) (f : list nat -> R) (m : R) : Prop :=
  match lams with
  | [] => f [] = m
  | lam :: lams => exists g, (forall n, counts_mean lams (fun l => f (n :: l)) (g n)) /\ poisson_mean lam g m
  end.

(** A source of counts: the state is a list of counts with the means that they were drawn for, each of which is used up
    once, and only for this mean. *)
Definition counts_of (s : list (R * nat)) (lams : list R) : list nat * list (R * nat) :=
  (map (fun p => if Req_EM_T (fst p) (fst (snd p)) then snd (snd p) else 0%nat) (combine lams s), skipn (length lams) s).

(** A source of counts and of uniform numbers, see [ranges]. *)
Definition counts_first (s : list (R * nat) * list R) (lams : list R) : list nat * (list (R * nat) * list R) :=
  let '(n, rest) := counts_of (fst s) lams in (n, (rest, snd s)).
Definition ranges_second (s : list (R * nat) * list R) (lo hi : R) (n : nat) : list R * (list (R * nat) * list R) :=
  let '(x, rest) := ranges (snd s) lo hi n in (x, (fst s, rest)).
(** The expected value of a function of Poisson numbers, and of two uniform numbers for each that is counted. *)
Definition points_mean (lams : list R) (f : list (R * nat) * list R -> R) (m : R) : Prop :=
  exists g, (forall ns, length ns = length lams -> umeans (2 * list_sum ns) (fun us => f (combine lams ns, us)) (g ns)) /\ counts_mean lams g m.

(** The mean over the sphere of a function of longitude and latitude in degrees. *)
Definition sphere_mean (h : R -> R -> R) (m : R) : Prop :=
  exists g : R -> R, (forall l, -180 < l < 180 -> is_RInt (fun b => h l b * cos (angle b)) (-90) 90 (g l)) /\
    is_RInt g (-180) 180 (m * (4 * PI * (180 / PI) ^ 2)).
(** A function of latitude that is continuous apart from some jumps: a sum of continuous functions, each of which is
    restricted to its own interval. *)
Definition patched (f : R -> R) : Prop :=
  exists ps : list (R * R * (R -> R)),
    (forall c s, In (c, s) ps -> -90 <= fst c <= snd c /\ snd c <= 90 /\ forall x : R, continuous s x) /\
    forall x, -90 < x < 90 -> f x = fold_right Rplus 0 (map (fun p => hit (fst p) x * snd p x) ps).

(** The product over all points of the values of a function, with one function for each population. *)
Fixpoint marks {N} (hs : list (R -> R -> R)) (out : list (list R * list R * N)) : R :=
  match hs, out with
  | [], [] => 1
  | h :: hs, (lon, lat, _) :: out => product (map (fun p => h (fst p) (snd p)) (combine lon lat)) * marks hs out
  | _, _ => 0
  end.

(** A range of longitudes and one of latitudes; the points inside; their number; no point is in two regions; the fraction
    of the sphere that it covers. *)
Definition region := ((R * R) * (R * R))%type.
Definition in_region (r : region) (p : R * R) : bool :=
  if Req_EM_T (hit (fst r) (fst p) * hit (snd r) (snd p)) 1 then true else false.
Definition number_in (r : region) (lon lat : list R) : nat := length (filter (in_region r) (combine lon lat)).
Definition proper (r : region) : Prop :=
  -180 <= fst (fst r) <= snd (fst r) /\ snd (fst r) <= 180 /\ -90 <= fst (snd r) <= snd (snd r) /\ snd (snd r) <= 90.
Definition apart (rs : list region) : Prop :=
  forall i j r r' p, nth_error rs i = Some r -> nth_error rs j = Some r' -> in_region r p = true -> in_region r' p = true -> i = j.
Definition covers (r : region) (p : R) : Prop :=
  exists h, is_RInt cos (angle (fst (snd r))) (angle (snd (snd r))) h /\ p = (angle (snd (fst r)) - angle (fst (fst r))) * h / (4 * PI).

(** The product over the points of all populations, for points in pixels: [h] is a list of values of pixels for each
    population. *)
Fixpoint pixel_marks {P} (pixel : P -> nat) (h : list (list R)) (pos : list (list (list P))) : R :=
  match h, pos with
  | [], [] => 1
  | w :: h, p :: pos => product (map (fun x => nth (pixel x) w 0) (concat p)) * pixel_marks pixel h pos
  | _, _ => 0
  end.
(** The number of points, of all populations, in some of the pixels. *)
Definition number_at {P} (pixel : P -> nat) (A : nat -> bool) (pos : list (list (list P))) : nat :=
  length (filter A (map pixel (concat (concat pos)))).
(** The values of pixels that describe points which are kept with a probability [v], and have the value [x] if they are kept. *)
Definition thinned (v w : list R) : list R := map (fun '(v, x) => 1 - v + v * x) (combine v w).
