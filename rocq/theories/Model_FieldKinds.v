(** Model of [glass/fields.py]: the kinds of fields for a sequence of shells. *)
From Coq Require Import Reals List.
From Verif Require Import Base Model_Spectra Model_Fields Model_Windows Model_Transform.
Import ListNotations.
Local Open Scope R_scope.

(** glass/fields.py:697-713 [gaussian_fields]. *)
Definition gaussian_fields (shells : list window) : list transformation := map (fun _ => Normal) shells.

(** glass/fields.py:716-740 [lognormal_fields]; [None] is a shift that is not given.  The function returns a value
    for every redshift. *)
Definition lognormal_fields (shells : list window) (shift : option (R -> R)) : list transformation :=
  let shift := match shift with None => fun _ => 1 | Some shift => shift end in
  map (fun shell => Lognormal (shift (zeff shell))) shells.

(** glass/fields.py:303-331 [lognormal_gls]; the warnings are listed, as for [solve_gaussian_spectra]. *)
Definition lognormal_gls {A} (zero : A) (is_zero : A -> bool) (solve : list A -> transformation -> transformation -> nat -> option A -> result (list A * nat))
    (cls : list (list A)) (shift : R) : result (list (list A) * list (nat * nat)) :=
  do n <- nfields_from_nspectra (length cls);
  solve_gaussian_spectra zero is_zero solve (repeat (Lognormal shift) n) cls.

(** glass/fields.py:888-894: a transformation applied to every pixel of a map. *)
Definition pixels (t : transformation) (m : list R) (var : R) : result (list R) := Ok (map (fun x => call t x var) m).
