(** Galaxies with pixels and redshifts. *)
From Coq Require Import Reals List.
From Verif Require Import Base Model_Windows Model_Catalogue Spec_Numeric Spec_Galaxies Spec_Points Spec_Uniform Spec_Disc Spec_Poisson.
Import ListNotations.
Local Open Scope R_scope.

(** The expected value of a function of Poisson numbers, and of one uniform number for each that is counted. *)
Definition galaxies_mean (lams : list R) (f : list (R * nat) * list R -> R) (m : R) : Prop :=
  exists g, (forall ns, length ns = length lams -> umeans (list_sum ns) (fun us => f (combine lams ns, us)) (g ns)) /\ counts_mean lams g m.
(** The source of these uniform numbers, see [units]. *)
Definition units_second (s : list (R * nat) * list R) (n : nat) : list R * (list (R * nat) * list R) :=
  let '(x, rest) := units (snd s) n in (x, (fst s, rest)).

(** Between [a] and [b], [f] is a step function, and [m] is its expected value for the distribution function [F]. *)
Definition stepped (F : R -> R) (a b : R) (f : R -> R) (m : R) : Prop :=
  exists cs : list ((R * R) * R),
    Forall (fun c => a <= fst (fst c) <= snd (fst c) /\ snd (fst c) <= b) cs /\
    (forall x, a <= x < b -> f x = fold_right Rplus 0 (map (fun c => snd c * hit (fst c) x) cs)) /\
    m = fold_right Rplus 0 (map (fun c => snd c * (F (snd (fst c)) - F (fst (fst c)))) cs).

(** The product over all galaxies of a function of pixel and redshift, with one function for each shell. *)
Fixpoint galaxy_marks {P} (pixel : P -> nat) (hs : list (nat -> R -> R)) (cat : list (list (list (P * R)))) : R :=
  match hs, cat with
  | [], [] => 1
  | h :: hs, g :: cat => product (map (fun p => h (pixel (fst p)) (snd p)) (concat g)) * galaxy_marks pixel hs cat
  | _, _ => 0
  end.
(** The number of galaxies in some of the pixels, and in a range of redshifts. *)
Definition galaxies_in {P} (pixel : P -> nat) (A : nat -> bool) (c : R * R) (cat : list (list (list (P * R)))) : nat :=
  length (filter (fun p => andb (A (pixel (fst p))) (if Req_EM_T (hit c (snd p)) 1 then true else false)) (concat (concat cat))).

(** The numbers of galaxies that are expected in the pixels: the contrast is multiplied with the bias if there is one, the
    visibility is one if there is no map, and negative numbers are replaced by zero. *)
Definition expected_in (m : nat) (n : R) (delta : list R) (bias : option R) (vis : option (list R)) (lam : list R) : Prop :=
  length delta = m /\ length lam = m /\
  forall i d, nth_error delta i = Some d -> forall v, match vis with None => v = 1 | Some l => nth_error l i = Some v end ->
    nth_error lam i = Some (Rmax 0 (expected_points m n (match bias with None => d | Some b => b * d end) v)).

(** A shell together with the numbers of galaxies that are expected in its pixels, a function of pixel and redshift which
    is a step function of redshift, and the expected values of this function for galaxies in each of the pixels, with
    redshifts that are distributed like the window function. *)
Record slice := { slice_layer : layer; slice_means : list R; slice_mark : nat -> R -> R; slice_values : list R }.
Definition described (m : nat) (bias : option R) (vis : option (list R)) (s : slice) : Prop :=
  let l := slice_layer s in let w := radial l in
  expected_in m (density l) (contrast l) bias vis (slice_means s) /\
  distribution (za w) (wa w) /\ length (slice_values s) = m /\
  exists F a b, cumulative_distribution F (za w) (wa w) /\ starts_with (za w) a /\ ends_with (za w) b /\
    forall i e, nth_error (slice_values s) i = Some e -> stepped F a b (slice_mark s i) e.

(** The fraction of a distribution between [a] and [b], with the distribution function [F], that is in the range [c]. *)
Definition share (F : R -> R) (a b : R) (c : R * R) : R :=
  if Rle_dec (Rmax a (fst c)) (Rmin b (snd c)) then F (Rmin b (snd c)) - F (Rmax a (fst c)) else 0.
(** The sum over some of the pixels. *)
Definition sum_over (A : nat -> bool) (lam : list R) : R := fold_right Rplus 0 (map (fun i => if A i then nth i lam 0 else 0) (seq 0 (length lam))).
