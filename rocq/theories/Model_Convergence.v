(** Model of the loops of the examples that make one map from all shells: the mean convergence of galaxies, and their
    expected numbers. *)
From Coq Require Import Reals List.
From Verif Require Import Base Model_Numeric Model_Arrays Model_Windows Model_Points Model_Lensing.
Import ListNotations.
Local Open Scope R_scope.

(** examples/1-basic/lensing.ipynb:163-180, the loop over shells, without the shear.  Every map of the generator is a new
    array, at the end of the memory.  Addition fails for a map of another size; NumPy would also accept a map of one
    pixel. *)
Fixpoint add_convergence (cosmo : cosmology) (ngal : list R) (shells : list window) (i : nat) (matter : list (list R))
    (st : planes) (h : heap) (kappa_bar : list R) : result (list R) :=
  match matter with
  | [] => Ok kappa_bar
  | delta :: matter =>
      do w <- index shells i;
      match add_window cosmo st (h ++ [delta]) (length h) w with
      | (_, _, Some e) => Err e
      | (st, h, None) =>
          do kappa_i <- match kappa st with Some a => Ok (load h a) | None => Err TypeError end;
          do n <- index ngal i;
          if Nat.eqb (length kappa_i) (length kappa_bar)
          then add_convergence cosmo ngal shells (i + 1) matter st h (map (fun p => fst p + n * snd p) (combine kappa_bar kappa_i))
          else Err ValueError
      end
  end.

(** examples/1-basic/lensing.ipynb:121, 158 and 182-183: the mean of the convergence over the galaxies.  A vanishing
    total gives NaN in NumPy; here division by zero is some number, so no theorem speaks about this case. *)
Definition mean_convergence (cosmo : cosmology) (ngal : list R) (shells : list window) (npix : nat) (matter : list (list R))
    : result (list R) :=
  do kappa_bar <- add_convergence cosmo ngal shells 0 matter new_planes [] (repeat 0 npix);
  Ok (map (fun x => x / total ngal) kappa_bar).

(** examples/1-basic/density.ipynb:145-151 and, with bias, examples/2-advanced/stage_4_galaxies.ipynb:230-243: the numbers
    of galaxies that [positions_from_delta] expects in the pixels, added up over the shells. *)
Fixpoint add_counts (bias : option R) (ngal : list R) (i : nat) (matter : list (list R)) (counts : list R) : result (list R) :=
  match matter with
  | [] => Ok counts
  | delta :: matter =>
      do n <- index ngal i;
      do lams <- expected_counts linear_bias {| ashape := []; aget := fun _ => n |}
                   {| ashape := [length delta]; aget := fun x => nth (hd 0%nat x) delta 0 |}
                   (option_map (fun b => {| ashape := []; aget := fun _ => b |}) bias) None false;
      do lam <- index lams 0;
      if Nat.eqb (length lam) (length counts)
      then add_counts bias ngal (i + 1) matter (map (fun p => fst p + snd p) (combine counts lam))
      else Err ValueError
  end.
Definition galaxy_counts (bias : option R) (ngal : list R) (npix : nat) (matter : list (list R)) : result (list R) :=
  add_counts bias ngal 0 matter (repeat 0 npix).
