(** Vocabulary for random ellipticities. *)
From Coq Require Import Reals Lra List.
From Coquelicot Require Import Complex.
From Verif Require Import Base Model_Arrays Spec_Arrays Spec_Galaxies Spec_Points.
Import ListNotations.
Local Open Scope R_scope.

(** The solid ellipsoid with semi-axes 1, [zeta] and [xi] along the coordinate axes. *)
Definition ellipsoid (zeta xi : R) (p : vec) : Prop :=
  exists x y z, x ^ 2 + y ^ 2 + z ^ 2 <= 1 /\ p = (x, zeta * y, xi * z).

(** The extent [h] of a body from the origin in the direction [m]. *)
Definition extent (body : vec -> Prop) (m : vec) (h : R) : Prop := is_lub (fun r => exists p, body p /\ r = dot m p) h.

(** Unit vectors at right angles to the line of sight [n]. *)
Definition in_sky (n m : vec) : Prop := dot m m = 1 /\ dot m n = 0.

(** From the direction [n], the body has the largest extent [a] and the smallest extent [b]: if it looks
    like an ellipse, these are the semi-axes of the ellipse. *)
Definition looks (body : vec -> Prop) (n : vec) (a b : R) : Prop :=
  (exists m, in_sky n m /\ extent body m a) /\
  (exists m, in_sky n m /\ extent body m b) /\
  forall m h, in_sky n m -> extent body m h -> b <= h <= a.

(** The line of sight with polar angle of cosine [u] and azimuth [phi]. *)
Definition sight (u phi : R) : vec := (sqrt (1 - u ^ 2) * cos phi, sqrt (1 - u ^ 2) * sin phi, u).

(** The ellipse's axis ratio; [None] if there is no extent at all. *)
Definition apparent_ratio (zeta xi u phi : R) (q : option R) : Prop :=
  exists a b, looks (ellipsoid zeta xi) (sight u phi) a b /\ 0 <= b <= a /\
    match q with Some q => 0 < a /\ q * a = b | None => a = 0 end.

(** * Rejection sampling *)

(** Those of the indices [idx] whose values are not acceptable. *)
Inductive sifted {V} (ok : V -> Prop) : list nat -> list V -> list nat -> Prop :=
| sifted_nil : sifted ok [] [] []
| sifted_ok i v idx vals rest : ok v -> sifted ok idx vals rest -> sifted ok (i :: idx) (v :: vals) rest
| sifted_not i v idx vals rest : ~ ok v -> sifted ok idx vals rest -> sifted ok (i :: idx) (v :: vals) (i :: rest).

(** [rejection ok draw s idx out s']: values are drawn for all indices [idx] at once, then for those that
    got no acceptable value, and so on until there are none; [out] has the accepted value of every index. *)
Inductive rejection {S V} (ok : V -> Prop) (draw : S -> list nat -> list V -> S -> Prop)
    : S -> list nat -> list V -> S -> Prop :=
| last_round s idx out vals s' : draw s idx vals s' -> sifted ok idx vals [] ->
    Forall2 (fun i v => nth_error out i = Some v) idx vals -> rejection ok draw s idx out s'
| more_rounds s idx out vals rest s1 s' : draw s idx vals s1 -> sifted ok idx vals rest -> rest <> [] ->
    Forall2 (fun i v => ok v -> nth_error out i = Some v) idx vals ->
    rejection ok draw s1 rest out s' -> rejection ok draw s idx out s'.

(** The entries of an array at the given indices. *)
Definition entries_at {A} (l : list A) (idx : list nat) (vals : list A) : Prop :=
  Forall2 (fun i v => nth_error l i = Some v) idx vals.

(** Normal values for the indices [idx], with means and deviations from the given arrays. *)
Definition normals_at {S} (normal : S -> list R -> list R -> list R * S) (mean sd : list R)
    (s : S) (idx : list nat) (vals : list R) (s' : S) : Prop :=
  exists m d, entries_at mean idx m /\ entries_at sd idx d /\ normal s m d = (vals, s').

(** Complex normal values: first all real parts are drawn, then all imaginary parts. *)
Definition complex_normals {S} (standard_normal : S -> nat -> list R * S) (sigma : R)
    (s : S) (n : nat) (vals : list C) (s' : S) : Prop :=
  exists re im s1, standard_normal s n = (re, s1) /\ standard_normal s1 n = (im, s') /\
    length vals = n /\
    forall k x y, nth_error re k = Some x -> nth_error im k = Some y -> nth_error vals k = Some (sigma * x, sigma * y).

(** [in_turn step s args vals s']: one step after the other, passing on the state. *)
Inductive in_turn {S A B} (step : S -> A -> B -> S -> Prop) : S -> list A -> list B -> S -> Prop :=
| in_turn_nil s : in_turn step s [] [] s
| in_turn_cons s a args v vals s1 s2 :
    step s a v s1 -> in_turn step s1 args vals s2 -> in_turn step s (a :: args) (v :: vals) s2.

(** The pairs of elements of two arrays that are broadcast to a common shape, in the order in which the last
    index varies fastest. *)
Definition paired {A B} (a : array A) (b : array B) (l : list (A * B)) : Prop :=
  exists dims ks, is_broadcast [ashape a; ashape b] dims /\ row_major dims ks /\
    Forall2 (fun k p => element_for a k (fst p) /\ element_for b k (snd p)) ks l.

(** The ellipticity [e] has the (complex) logarithmic axis ratio [eta]: they have the same direction, and
    the axis ratio [(1 - |e|) / (1 + |e|)] is [exp (- |eta|)]. *)
Definition log_axis_ratio (e eta : C) : Prop :=
  Cmod e < 1 /\ (1 - Cmod e) / (1 + Cmod e) = exp (- Cmod eta) /\
  Cmult (RtoC (Cmod eta)) e = Cmult (RtoC (Cmod e)) eta.

(** Complex number with modulus [r] and argument [t]. *)
Definition from_polar (r t : R) : C := (r * cos t, r * sin t).

(** The ellipticities [out] have the moduli of [epsilon] times [f], and the arguments [t]. *)
Definition reoriented (epsilon : list C) (f : R) (t : list R) (out : list (option C)) : Prop :=
  length out = length epsilon /\
  forall i e a, nth_error epsilon i = Some e -> nth_error t i = Some a ->
    nth_error out i = Some (Some (from_polar (f * Cmod e) a)).
