(** Vocabulary for the signals of a simulation: maps that are made from the maps of all shells. *)
From Coq Require Import Reals List.
From Verif Require Import Base Model_Arrays Spec_Gauss Spec_Maps Spec_Points.
Import ListNotations.
Local Open Scope R_scope.

(** A simulation makes [K] maps, and maps number [i] and [j] have the correlation function [xi i j], at certain angles. *)
Definition maps_correlation (N npix : nat) (maps : list R -> list (list R) * option exn) (cosine : nat -> nat -> R) (angles : R -> Prop)
    (K : nat) (xi : nat -> nat -> R -> R) : Prop :=
  (forall u, length (fst (maps u)) = K) /\
  forall i j, (i < K)%nat -> (j < K)%nat -> exists xi', map_correlation N npix maps cosine i j xi' /\ forall x, angles x -> xi' x = xi i j x.

(** What is made of the maps of a simulation with random numbers [u]. *)
Definition signal (maps : list R -> list (list R) * option exn) (f : list (list R) -> result (list R)) (u : list R) : result (list R) :=
  match maps u with
  | (ms, None) => f ms
  | (_, Some e) => Err e
  end.

(** [xi] is the correlation function of two signals of the same simulation, at certain angles: for each pair of pixels
    with such an angle in between, the expected product of the values is the value of [xi] at the cosine of the angle. *)
Definition signal_correlation (N npix : nat) (s s' : list R -> result (list R)) (cosine : nat -> nat -> R) (angles : R -> Prop) (xi : R -> R) : Prop :=
  exists value value' : nat -> list R -> R,
    (forall u, s u = Ok (map (fun p => value p u) (seq 0 npix)) /\ s' u = Ok (map (fun p => value' p u) (seq 0 npix))) /\
    forall p q, (p < npix)%nat -> (q < npix)%nat -> angles (cosine p q) -> forall m,
      means N (fun u => value p u * value' q u) m <-> m = xi (cosine p q).

(** The density contrast of galaxies: their number in a pixel, in units of the number in a pixel without contrast. *)
Definition number_contrast (npix : nat) (ngal : list R) (counts : list R) : list R :=
  map (fun x => x / (fold_right Rplus 0 ngal * (sphere_area / INR npix)) - 1) counts.

(** The densities of one population in all shells: a column of an array. *)
Definition column (a : array R) (n : nat) (x : list nat) : list R := map (fun s => aget a (s :: x)) (seq 0 n).
(** A number, as an array without axes. *)
Definition scalar (b : R) : array R := {| ashape := []; aget := fun _ => b |}.
