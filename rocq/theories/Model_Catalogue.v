(** Model of the loop that makes a catalogue in the examples: positions and redshifts of the galaxies in every shell. *)
From Coq Require Import Reals List.
From Verif Require Import Base Model_Arrays Model_Windows Model_Galaxies Model_Rng Model_Points.
Import ListNotations.
Local Open Scope R_scope.

(** What belongs to one shell: the number density [ngal[i]], the matter map [delta_i], and the window [shells[i]]. *)
Record layer := { density : R; contrast : list R; radial : window }.

Section Catalogue.
  Context {S U P : Type}.
  Variable mk : nat -> S.
  Variable poisson : S -> list R -> list nat * S.
  Variable random : S -> nat -> list U * S.
  Variable uniform : S -> nat -> list R * S.
  Variable ring2ang : nat -> nat -> U -> P.
  Variable npix2nside : nat -> result nat.
  Variables fuel batch : nat.

  (** examples/1-basic/density.ipynb:147 and examples/2-advanced/stage_4_galaxies.ipynb:245: redshifts for every batch of
      positions, as many as there are positions. *)
  Fixpoint with_redshifts (w : window) (batches : list (list P)) (s : S) : result (list (list (P * R)) * S) :=
    match batches with
    | [] => Ok ([], s)
    | b :: batches =>
        do r <- redshifts uniform {| ashape := []; aget := fun _ => length b |} w s;
        let '(zs, s) := r in
        do r <- with_redshifts w batches s;
        let '(rest, s) := r in Ok (combine b zs :: rest, s)
    end.

  (** examples/2-advanced/stage_4_galaxies.ipynb:230-245, and examples/1-basic/density.ipynb:140-147 without bias and
      visibility: the loop over shells, with one population of galaxies.  The Poisson numbers of a shell are drawn before
      its first batch, and positions inside of pixels are drawn from another generator, so that it makes no difference
      that all batches of the shell come before their redshifts here.  Shapes, lensing and photometric redshifts are left out. *)
  Fixpoint catalogue (bias : option R) (vis : option (list R)) (layers : list layer) (s : S)
      : result (list (list (list (P * R))) * S) :=
    match layers with
    | [] => Ok ([], s)
    | l :: layers =>
        do r <- positions_from_delta mk poisson random ring2ang npix2nside fuel batch (Some linear_bias)
                  {| ashape := []; aget := fun _ => density l |}
                  {| ashape := [length (contrast l)]; aget := fun i => nth (hd 0%nat i) (contrast l) 0 |}
                  (option_map (fun b => {| ashape := []; aget := fun _ => b |}) bias)
                  (option_map (fun v => {| ashape := [length v]; aget := fun i => nth (hd 0%nat i) v 0 |}) vis)
                  false (Some s);
        let '(pos, s) := r in
        do r <- with_redshifts (radial l) (concat pos) s;
        let '(g, s) := r in
        do r <- catalogue bias vis layers s;
        let '(rest, s) := r in Ok (g :: rest, s)
    end.
End Catalogue.
