(** Observed shapes and the reduced shear. *)
From Coq Require Import Reals List.
From Coquelicot Require Import Coquelicot.
From Verif Require Import Base Spec_Uniform.
Local Open Scope R_scope.

(** The shape that is observed for an intrinsic ellipticity [e] under the reduced shear [g]. *)
Definition sheared (g e : C) : C := Cdiv (Cplus e g) (Cplus (RtoC 1) (Cmult (Cconj g) e)).

(** A component of an observed shape, in excess of that of the reduced shear, if there is a shape. *)
Definition excess (b : bool) (g : C) (o : option C) : R :=
  match o with Some e => component b (sheared g e) - component b g | None => 0 end.

(** A component of entry [i] of what is returned. *)
Definition entry_of (b : bool) (i : nat) (r : result (list C)) : R :=
  match r with Ok out => match nth_error out i with Some e => component b e | None => 0 end | Err _ => 0 end.
(** One if something is returned, otherwise zero. *)
Definition returned {A} (r : result A) : R := match r with Ok _ => 1 | Err _ => 0 end.
