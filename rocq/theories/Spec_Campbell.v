(** Sums over random points. *)
From Coq Require Import Reals List.
From Verif Require Import Base.
Import ListNotations.
Local Open Scope R_scope.

(** The sum over all points of a function of longitude and latitude. *)
Definition sum_over {N} (h : R -> R -> R) (out : list (list R * list R * N)) : R :=
  fold_right Rplus 0 (map (fun p => h (fst p) (snd p)) (concat (map (fun '(lon, lat, _) => combine lon lat) out))).
