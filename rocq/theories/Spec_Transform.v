(** Vocabulary for transformed Gaussian fields and their spectra. *)
From Coq Require Import Reals Lra List.
From Verif Require Import Base Model_Transform.
Import ListNotations.
Local Open Scope R_scope.

(** The scale of a transformation is positive. *)
Definition proper (t : transformation) : Prop :=
  match t with Normal => True | Lognormal l => 0 < l | SquaredNormal a l => 0 <= a /\ 0 < l end.

(** The Gaussian variance that a transformation is made for: only squared normal fields are made for one. *)
Definition variance (t : transformation) (v : R) : Prop :=
  match t with SquaredNormal a _ => v = 1 - a ^ 2 | _ => True end.

(** Pairs of classes that can be combined. *)
Definition supported (t1 t2 : transformation) : Prop :=
  match t1, t2 with
  | SquaredNormal _ _, SquaredNormal _ _ => True
  | SquaredNormal _ _, _ | _, SquaredNormal _ _ => False
  | _, _ => True
  end.

(** Gaussian correlations to which the inverse goes back. *)
Definition invertible_at (t1 t2 : transformation) (x : R) : Prop :=
  match t1, t2 with SquaredNormal a _, SquaredNormal a' _ => - (a * a') <= x | _, _ => True end.

(** Transformed correlations that have an inverse. *)
Definition attained (t1 t2 : transformation) (y : R) : Prop :=
  match t1, t2 with
  | Lognormal l, Lognormal l' => - (l * l') < y
  | SquaredNormal a l, SquaredNormal a' l' => - (2 * l * l' * (a * a') ^ 2) <= y
  | _, _ => True
  end.

(** Transformed correlations below all that can be attained. *)
Definition unattainable (t1 t2 : transformation) (y : R) : Prop :=
  match t1, t2 with
  | Lognormal l, Lognormal l' => y < - (l * l')
  | SquaredNormal a l, SquaredNormal a' l' => y < - (2 * l * l' * (a * a') ^ 2)
  | _, _ => False
  end.

(** [expects f m]: under the joint distribution of two random numbers, the function [f] of them has the expected
    value [m].  They are jointly normal with mean zero, variances [v1] and [v2] and covariance [c].  This lists the
    facts about expected values that are used: linearity, moments, exponentials. *)
Record jointly_normal (expects : (R -> R -> R) -> R -> Prop) (v1 v2 c : R) : Prop := {
  expects_ext f g m : (forall x y, f x y = g x y) -> expects f m -> expects g m;
  expects_lin f g a b m m' : expects f m -> expects g m' -> expects (fun x y => a * f x y + b * g x y) (a * m + b * m');
  expects_one : expects (fun _ _ => 1) 1;
  expects_x : expects (fun x _ => x) 0;
  expects_y : expects (fun _ y => y) 0;
  expects_xx : expects (fun x _ => x ^ 2) v1;
  expects_yy : expects (fun _ y => y ^ 2) v2;
  expects_xy : expects (fun x y => x * y) c;
  expects_xxy : expects (fun x y => x ^ 2 * y) 0;
  expects_xyy : expects (fun x y => x * y ^ 2) 0;
  expects_xxyy : expects (fun x y => x ^ 2 * y ^ 2) (v1 * v2 + 2 * c ^ 2);
  expects_exp s t : expects (fun x y => exp (s * x + t * y)) (exp ((s ^ 2 * v1 + 2 * s * t * c + t ^ 2 * v2) / 2));
  expects_x_exp t : expects (fun x y => x * exp (t * y)) (t * c * exp (t ^ 2 * v2 / 2));
  expects_exp_y t : expects (fun x y => exp (t * x) * y) (t * c * exp (t ^ 2 * v1 / 2))
}.

(** * Spectra *)

(** The transformed spectrum of the Gaussian spectrum [g]: from spectrum to correlations, the function [c] for each
    of them, and back; the spectrum is padded by zeros. *)
Definition realised (cltocorr corrtocl : list R -> list R) (c : R -> R) (g : list R) (pad : nat) : list R :=
  corrtocl (map c (cltocorr (g ++ repeat 0 pad))).

(** The spectrum [rl] agrees with [cl] up to the relative error [e], entry by entry; the first entry does not count
    if [free]. *)
Definition agrees (free : bool) (cl rl : list num) (e : R) : Prop :=
  forall i c, nth_error cl i = Some c -> (free = true -> i <> O) ->
    exists x r, c = Some x /\ nth_error rl i = Some (Some r) /\ Rabs (r - x) <= e * Rabs x.
