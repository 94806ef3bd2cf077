(** Vocabulary for positions on the sphere, expected counts and weights. *)
From Coq Require Import Reals Lra List.
From Verif Require Import Base Model_Arrays Spec_Arrays Spec_Galaxies.
Import ListNotations.
Local Open Scope R_scope.

(** Vectors in space. *)
Notation vec := (R * R * R)%type.
Definition vscale (c : R) (v : vec) : vec := let '(x, y, z) := v in (c * x, c * y, c * z).
Definition vplus (v w : vec) : vec := let '(x, y, z) := v in let '(x', y', z') := w in (x + x', y + y', z + z').
Definition dot (v w : vec) : R := let '(x, y, z) := v in let '(x', y', z') := w in x * x' + y * y' + z * z'.

(** The unit vector of a position in degrees, and the unit vectors that point north and east from
    there; east is the direction of increasing longitude. *)
Definition angle (deg : R) : R := deg * PI / 180.
Definition position (p : R * R) : vec :=
  let l := angle (fst p) in let b := angle (snd p) in (cos b * cos l, cos b * sin l, sin b).
Definition north (p : R * R) : vec :=
  let l := angle (fst p) in let b := angle (snd p) in (- (sin b * cos l), - (sin b * sin l), cos b).
Definition east (p : R * R) : vec :=
  let l := angle (fst p) in (- sin l, cos l, 0).

(** Where one arrives from [p] on the great circle that starts in the direction [bearing] (in radians,
    from north through east), after the angular distance [a]. *)
Definition along_great_circle (p : R * R) (a bearing : R) : vec :=
  vplus (vscale (cos a) (position p))
        (vscale (sin a) (vplus (vscale (cos bearing) (north p)) (vscale (sin bearing) (east p)))).

(** The area of the sphere in square arc minutes. *)
Definition sphere_area : R := 4 * PI * (60 * 180 / PI) ^ 2.

(** The mean of a list of numbers. *)
Definition mean_of (l : list R) : R := fold_right Rplus 0 l / INR (length l).

(** The number of points expected in a pixel, for [npix] pixels of equal area. *)
Definition expected_points (npix : nat) (density contrast visibility : R) : R :=
  density * (sphere_area / INR npix) * (1 + contrast) * visibility.

(** The inputs that belong to the population [k]: number density [N], contrast of every pixel [G] after
    biasing, visibility of every pixel [V] (one if there is no map). *)
Definition population (bias_model : list R -> R -> result (list R)) (ngal delta : array R)
    (bias vis : option (array R)) (ld lv : list nat) (m : nat) (k : list nat) (N : R) (G V : list R) : Prop :=
  element_for ngal k N /\ length G = m /\ length V = m /\
  (exists D, row_for delta ld m k D /\
    match bias with
    | None => G = D
    | Some b => exists B, element_for b k B /\ bias_model D B = Ok G
    end) /\
  match vis with None => V = repeat 1 m | Some v => row_for v lv m k V end.

(** Entries along the first axis. *)
Definition first_axis (a : array R) (n : nat) (i : list nat) : list R := map (fun j => aget a (j :: i)) (seq 0 n).
