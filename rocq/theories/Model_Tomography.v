(** Model of the example for photometric redshifts: a sample of galaxies, and the true redshifts in a photometric bin. *)
From Coq Require Import Reals List ZArith.
From Verif Require Import Base Model_Numeric Model_Arrays Model_Galaxies.
Import ListNotations.
Local Open Scope R_scope.

(** examples/1-basic/photoz.ipynb:37 [ARCMIN2_SPHERE = 60**6 // 100 / np.pi]. *)
Definition arcmin2_sphere : R := IZR (60 ^ 6 / 100) / PI.

Section Sample.
  Context {S : Type}.
  Variable poisson : S -> list R -> list nat * S.
  Variable uniform : S -> nat -> list R * S.
  Variable normal : S -> list R -> list R -> list R * S.

  (** examples/1-basic/photoz.ipynb:53 and 72-78: the number of galaxies, their true redshifts, and their photometric
      redshifts.  [fuel] limits how often the loop of [gaussian_phz] is repeated. *)
  Definition photoz_sample (fuel : nat) (z dndz : list R) (sigma_0 : R) (s : S) : result (list R * list R * S) :=
    do ngal <- trapezoid dndz z;
    let '(counts, s) := poisson s [ngal * arcmin2_sphere] in
    do n <- index counts 0;
    do r <- redshifts_from_nz uniform {| ashape := []; aget := fun _ => n |}
              {| ashape := [length z]; aget := fun i => nth (hd 0%nat i) z 0 |}
              {| ashape := [length dndz]; aget := fun i => nth (hd 0%nat i) dndz 0 |} s;
    let '(ztrue, s) := r in
    do r <- gaussian_phz normal fuel (Ar ztrue) (Sc sigma_0) None None s;
    let '(zphot, s) := r in Ok (ztrue, zphot, s).
End Sample.

(** examples/1-basic/photoz.ipynb:170 [ztrue[(z1 <= zphot) & (zphot < z2)]]. *)
Definition in_bin (bin : R * R) (ztrue zphot : list R) : list R :=
  map fst (filter (fun p => leb (fst bin) (snd p) && ltb (snd p) (snd bin)) (combine ztrue zphot)).
