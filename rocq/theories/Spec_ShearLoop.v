(** Vocabulary for simulations of galaxies in shells. *)
From Coq Require Import Reals List Arith.
From Coquelicot Require Import Coquelicot.
From Verif Require Import Base Spec_Points Spec_Poisson Spec_Unbiased Spec_ShearMap.
Import ListNotations.
Local Open Scope R_scope.

(** The galaxies of one shell: maps of the convergence and the components of shear, positions in degrees, and intrinsic shapes. *)
Record shell := { convergence : list R; shear1 : list R; shear2 : list R; places : list (R * R); shapes : list C }.

(** The reduced shear of a pixel, and the observed shapes of the galaxies in it. *)
Definition reduced (h : shell) (p : nat) : C := Cdiv (nth p (shear1 h) 0, nth p (shear2 h) 0) (RtoC (1 - nth p (convergence h) 0)).
Definition observed (pixel : R -> R -> nat) (h : shell) (p : nat) : list C :=
  map (sheared (reduced h p)) (at_pixel (map (fun x => pixel (fst x) (snd x)) (places h)) (shapes h) p).

(** An intrinsically normal shape: two normal numbers times a scale, with their modulus [r] replaced by [tanh (r / 2)]. *)
Definition intrinsic (scale x y : R) : C :=
  let e : C := (scale * x, scale * y) in Cmult e (RtoC (tanh (Cmod e / 2) / Cmod e)).

Section Drawn.
  Context {T : Type}.
  Variable poisson : T -> list R -> list nat * T.
  Variable uniform : T -> R -> R -> nat -> list R * T.
  Variable standard_normal : T -> nat -> list R * T.
  Variable lens : nat -> T -> result (list R * list R * list R * T).
  (** The intrinsic shape of a galaxy as a function of two normal numbers. *)
  Variable shape_of : R -> R -> C.

  (** The random numbers behind the galaxies of shells from number [i] on, for given densities: the lensing maps of the shell, a
      Poisson number with the area of the sphere times the density as mean, longitudes and sines of latitudes, and two normal numbers
      for each shape, drawn one after another from the same generator. *)
  Inductive drawn_shells : nat -> list R -> T -> list shell -> T -> Prop :=
  | drawn_none i s : drawn_shells i [] s [] s
  | drawn_shell i density densities s kappa gamma1 gamma2 n lon x re im s1 s2 s3 s4 s5 s6 rest s7 :
      lens i s = Ok (kappa, gamma1, gamma2, s1) -> poisson s1 [sphere_area * density] = ([n], s2) ->
      uniform s2 (-180) 180 n = (lon, s3) -> uniform s3 (-1) 1 n = (x, s4) ->
      standard_normal s4 n = (re, s5) -> standard_normal s5 n = (im, s6) ->
      drawn_shells (S i) densities s6 rest s7 ->
      drawn_shells i (density :: densities) s
        ({| convergence := kappa; shear1 := gamma1; shear2 := gamma2;
            places := combine lon (map (fun x => asin x * (180 / PI)) x);
            shapes := map (fun p => shape_of (fst p) (snd p)) (combine re im) |} :: rest) s7.
End Drawn.
