(** Model of the main loop of examples/2-advanced/cosmic_shear.ipynb. *)
From Coq Require Import Reals List Arith.
From Coquelicot Require Import Coquelicot.
From Verif Require Import Base Model_Arrays Model_Galaxies Model_Shapes Model_Points Model_ShearMap.
Import ListNotations.

Section Loop.
  (** The state of the one random number generator, and its methods. *)
  Context {T : Type}.
  Variable poisson : T -> list R -> list nat * T.
  Variable uniform : T -> R -> R -> nat -> list R * T.
  Variable standard_normal : T -> nat -> list R * T.
  Variable argsort : list nat -> list nat.
  Variable ang2pix : nat -> R -> R -> nat.
  Variable npix2nside : nat -> result nat.
  (** examples/2-advanced/cosmic_shear.ipynb:182-186, of shell [i]: the next matter field is drawn, and added to the lensing
      planes; returns maps of the convergence and the two components of shear.  The planes are part of the state. *)
  Variable lens : nat -> T -> result (list R * list R * list R * T).

  (** examples/2-advanced/cosmic_shear.ipynb:189-208, the loop over batches of positions. *)
  Fixpoint observe_batches (chunk nside : nat) (sigma_e : R) (kappa gamma1 gamma2 : list R) (batches : list (list R * list R * array nat))
      (maps : list nat * list C) (s : T) : result ((list nat * list C) * T) :=
    match batches with
    | [] => Ok (maps, s)
    | (lon, lat, count) :: batches =>
        do e <- ellipticity_intnorm standard_normal count {| ashape := []; aget := fun _ => sigma_e |} s;
        do gal_she <- galaxy_shear ang2pix npix2nside chunk lon lat (fst e) kappa gamma1 gamma2 true;
        do maps <- add_shears argsort (map (fun '(x, y) => ang2pix nside x y) (combine lon lat)) gal_she maps;
        observe_batches chunk nside sigma_e kappa gamma1 gamma2 batches maps (snd e)
    end.

  (** examples/2-advanced/cosmic_shear.ipynb:182-208, the loop over shells from number [i] on, with [ngal] the numbers of
      galaxies per square arc minute of these shells.  [ngal[i]] is a single number, for which the generator
      [uniform_positions] yields one batch; so it does not matter that it is run to the end here before the batch is used. *)
  Fixpoint observe_shells (chunk nside : nat) (sigma_e : R) (i : nat) (ngal : list R) (maps : list nat * list C) (s : T)
      : result ((list nat * list C) * T) :=
    match ngal with
    | [] => Ok (maps, s)
    | n :: ngal =>
        do l <- lens i s;
        let '(kappa, gamma1, gamma2, s) := l in
        let '(batches, s) := uniform_positions poisson uniform {| ashape := []; aget := fun _ => n |} s in
        do r <- observe_batches chunk nside sigma_e kappa gamma1 gamma2 batches maps s;
        observe_shells chunk nside sigma_e (S i) ngal (fst r) (snd r)
    end.

  (** examples/2-advanced/cosmic_shear.ipynb:176-208, from maps of zeros. *)
  Definition simulate_shears (chunk nside npix : nat) (sigma_e : R) (ngal : list R) (s : T) : result ((list nat * list C) * T) :=
    observe_shells chunk nside sigma_e 0 ngal (repeat 0 npix, repeat (RtoC 0) npix) s.
End Loop.
