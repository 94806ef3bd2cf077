(** Vocabulary for the generator of Gaussian modes. *)
From Verif Require Import RSum.
Local Open Scope nat_scope.

(** Real and imaginary part of element [g] of an array of complex numbers. *)
Definition re (z : list (R * R)) (g : nat) : R := fst (nth g z (0%R, 0%R)).
Definition im (z : list (R * R)) (g : nat) : R := snd (nth g z (0%R, 0%R)).

(** Mode ([l],[m]), stored at GLASS index [g], of the field with coefficients [c]: real and imaginary part are
    mixtures of the real and imaginary parts of the variates number 0, ..., N-1; for m = 0 the imaginary part
    vanishes and the real part mixes both. *)
Definition mixed (N : nat) (c : nat -> R) (draws : nat -> list (R * R)) (g m : nat) : R * R :=
  let x := rsum N (fun q => (c q * re (draws q) g)%R) in
  let y := rsum N (fun q => (c q * im (draws q) g)%R) in
  if m =? 0 then ((x + y)%R, 0%R) else (x, y).

(** Coefficients of the real part of such a mode over the 2N standard normals consisting of the N real
    parts followed by the N imaginary parts. *)
Definition real_part_coefficients (N : nat) (c : nat -> R) (m q : nat) : R :=
  if q <? N then c q else if m =? 0 then c (q - N) else 0%R.
