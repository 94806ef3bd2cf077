(** Vocabulary for maps of sums over galaxies. *)
From Coq Require Import Reals List Arith Permutation Sorted.
From Coquelicot Require Import Coquelicot.
From Verif Require Import Base Spec_Gauss Spec_Poisson.
Import ListNotations.
Local Open Scope R_scope.

(** Indices that put any list in ascending order, each of which occurs once. *)
Definition sorts (argsort : list nat -> list nat) : Prop :=
  forall l, Permutation (argsort l) (seq 0 (length l)) /\ StronglySorted le (map (fun i => nth i l 0%nat) (argsort l)).

(** The values of the galaxies in pixel [p], and the sum of complex numbers. *)
Definition at_pixel {A} (pixels : list nat) (values : list A) (p : nat) : list A :=
  map snd (filter (fun x => Nat.eqb (fst x) p) (combine pixels values)).
Definition csum (l : list C) : C := fold_right Cplus (RtoC 0) l.

(** The expected value of a function of the numbers of galaxies in pixels, which are independent Poisson numbers with the
    given means, and of two normal numbers for each galaxy. *)
Definition galaxies_mean (lams : list R) (f : list nat -> list R -> R) (m : R) : Prop :=
  exists G, (forall ns, length ns = length lams -> means (2 * list_sum ns) (f ns) (G ns)) /\ counts_mean lams G m.

(** Entry [p] of the map of shears that is returned. *)
Definition shear_at (p : nat) (r : result (list nat * list C)) : C :=
  match r with Ok (_, she) => nth p she (RtoC 0) | Err _ => RtoC 0 end.
Definition number_at_pixel (p : nat) (r : result (list nat * list C)) : nat :=
  match r with Ok (num, _) => nth p num 0%nat | Err _ => 0%nat end.

(** The expected value of a function of a Poisson number of galaxies, two uniform numbers for the position and two normal
    numbers for the shape of each of them. *)
Definition catalogue_mean (lam : R) (f : list (R * nat) * list R -> list R -> R) (m : R) : Prop :=
  exists G, (forall n us, length us = (2 * n)%nat -> means (2 * n) (f ([(lam, n)], us)) (G ([(lam, n)], us))) /\ points_mean [lam] G m.
(** One for positions in pixel [p]. *)
Definition in_pixel (pixel : R -> R -> nat) (p : nat) (l b : R) : R := if Nat.eqb (pixel l b) p then 1 else 0.
