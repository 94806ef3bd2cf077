(** Model of a complete simulation of maps: [generate] with [_generate_grf], and the solver with the arguments it is
    called with. *)
From Coq Require Import Reals List ZArith.
From Verif Require Import Base Model_Spectra Model_Fields Model_Iternorm Model_Transform Model_FieldKinds.
Import ListNotations.
Local Open Scope R_scope.

(** glass/fields.py:839-894 [generate], with the maps of [_generate_grf] (lines 334-429).  [draws] are the arrays of
    complex normal numbers, [alm2map] is [hp.alm2map] for the given nside. *)
Definition simulate (cltovar : list R -> result R) (alm2map : list C2 -> list R) (draws : nat -> list C2)
    (fields : list transformation) (gls : list (list R)) (ncorr : option nat) : trace (list R) :=
  generate 0 cltovar pixels
    (fun gls ncorr => let t := generate_grf alm2map draws gls ncorr in (map fst (fst t), snd t)) fields gls ncorr.

(** glass/fields.py:823: [glass.grf.solve(cl, t1, t2, pad=pad, monopole=monopole)], of which the Gaussian spectrum and
    the info flag (glass/grf/_solver.py:115-117, 142-143) are used; the other arguments have default values. *)
Definition solver (cltocorr corrtocl : list R -> list R) (fuel : nat) (cltol gltol : R) (maxiter : nat)
    (cl : list num) (t1 t2 : transformation) (pad : nat) (monopole : option num) : result (list num * nat) :=
  let monopole := match monopole with Some (Some m) => Some m | _ => None end in
  do r <- solve cltocorr corrtocl t1 t2 fuel cl (Z.of_nat pad) None cltol gltol maxiter monopole;
  let '(gl, _, (i1, i2)) := r in
  Ok (gl, ((if i1 then 1 else 0) + (if i2 then 2 else 0))%nat).
(** [cl[0] == 0] *)
Definition vanishes (x : num) : bool := match x with Some x => if Req_EM_T x 0 then true else false | None => false end.
