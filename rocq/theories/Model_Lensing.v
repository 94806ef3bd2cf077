(** Model of [glass/lensing.py]: lensing maps from convergence, and the multi-plane convergence.
    Floats are real numbers, see DESIGN.md. *)
From Coq Require Import Reals Lra.
From Coquelicot Require Import Complex.
From Verif Require Import Base Model_Numeric Model_Arrays Model_Effective Model_Windows Model_Galaxies.
Local Open Scope R_scope.

(** * Lensing maps from convergence *)

(** Harmonic coefficients: for [l] = 0, 1, ... the coefficients of all [m]. *)
Notation alms := (list (list C)).

(** [hp.almxfl(alm, fl)]. *)
Definition almxfl (alm : alms) (fl : list R) : alms :=
  map (fun p => map (Cmult (RtoC (snd p))) (fst p)) (combine alm fl).
(** [xp.zeros_like(alm)]. *)
Definition zeros_like (alm : alms) : alms := map (map (fun _ => RtoC 0)) alm.
(** [ell = xp.arange(lmax + 1)]. *)
Definition arange_ell (lmax : nat) : list R := map INR (seq 0 (lmax + 1)).

(** A map of real or of complex numbers. *)
Inductive sky := RealMap (m : list R) | ComplexMap (m : list C).

Section Maps.
  (** healpy: resolution of a map, transforms and pixel windows. *)
  Variable get_nside : list R -> result nat.
  Variable map2alm : nat -> list R -> alms.
  Variable alm2map : nat -> nat -> alms -> list R.
  Variable alm2map_spin : nat -> nat -> nat -> alms -> alms -> list R * list R.
  Variable pixwin : nat -> nat -> list R * list R.

  (** glass/lensing.py:330 and 361, [alpha[0] + 1j * alpha[1]]. *)
  Definition complex_map (p : list R * list R) : list C := combine (fst p) (snd p).

  (** [pw2 / pw0] and multiplication of factors. *)
  Definition ratio (p : list R * list R) : list R := map (fun q => snd q / fst q) (combine (fst p) (snd p)).
  Definition times (a b : list R) : list R := map (fun q => fst q * snd q) (combine a b).

  (** glass/lensing.py:185-371 [from_convergence]. *)
  Definition from_convergence (kappa : list R) (lmax : option nat)
      (potential deflection shear discretized : bool) : result (list sky) :=
    if negb (potential || deflection || shear) then Ok []
    else
      do nside <- get_nside kappa;
      let lmax := match lmax with Some l => l | None => (3 * nside - 1)%nat end in
      let alm := map2alm lmax kappa in
      let ell := arange_ell lmax in
      let fl := map (fun a => if Rlt_dec 0 a then -2 / (a * (a + 1)) else 0) ell in
      let alm := almxfl alm fl in
      let results := if potential then [RealMap (alm2map nside lmax alm)] else [] in
      if negb (deflection || shear) then Ok results
      else
        let blm := zeros_like alm in
        let fl := map (fun a => sqrt (a * (a + 1))) ell in
        let alm := almxfl alm fl in
        let results := if deflection
                       then results ++ [ComplexMap (complex_map (alm2map_spin nside 1 lmax alm blm))]
                       else results in
        if negb shear then Ok results
        else
          let fl := map (fun a => if Rlt_dec 0 a then sqrt ((a - 1) * (a + 2)) else 0) ell in
          let fl := map (fun f => f / 2) fl in
          let fl := if discretized then times fl (ratio (pixwin nside lmax)) else fl in
          let alm := almxfl alm fl in
          Ok (results ++ [ComplexMap (complex_map (alm2map_spin nside 2 lmax alm blm))]).

  (** glass/lensing.py:374-428 [shear_from_convergence]: the maps of the two components. *)
  Definition shear_from_convergence (kappa : list R) (lmax : option nat) (discretized : bool)
      : result (list R * list R) :=
    do nside <- get_nside kappa;
    let lmax := match lmax with Some l => l | None => (3 * nside - 1)%nat end in
    let alm := map2alm lmax kappa in
    let blm := zeros_like alm in
    let ell := arange_ell lmax in
    let fl := map (fun a => sqrt ((a + 2) * (a + 1) * a * (a - 1))) ell in
    let fl := map (fun p => snd p / Rmax (fst p * (fst p + 1)) 1) (combine ell fl) in
    let fl := map (fun f => f * -1) fl in
    let fl := if discretized then times fl (ratio (pixwin nside lmax)) else fl in
    let alm := almxfl alm fl in
    Ok (alm2map_spin nside 2 lmax alm blm).
End Maps.

(** * Multi-plane convergence *)

(** The cosmology: distances from here to a redshift and between two redshifts, [H_over_H0]. *)
Record cosmology := { Omega_m0 : R; hubble_distance : R; H_over_H0 : R -> R;
                      distance_to : R -> R; distance_between : R -> R -> R }.

(** Arrays in memory, one-dimensional, found by their address. *)
Notation heap := (list (list R)).
Definition store (h : heap) (a : nat) (v : list R) : heap := firstn a h ++ [v] ++ skipn (a + 1) h.
Definition load (h : heap) (a : nat) : list R := nth a h [].

(** An attribute that holds nothing, the scalar zero, or an array. *)
Inductive plane := NoPlane | ZeroPlane | At (a : nat).

(** glass/lensing.py:434-454, the attributes of [MultiPlaneConvergence]. *)
Record planes := { z2 : R; z3 : R; x3 : R; w3 : R; r23 : R; delta3 : plane;
                   kappa2 : option nat; kappa3 : option nat }.
Definition new_planes : planes :=
  {| z2 := 0; z3 := 0; x3 := 0; w3 := 0; r23 := 1; delta3 := NoPlane; kappa2 := None; kappa3 := None |}.

(** glass/lensing.py:474-487 [_initialise_inputs]. *)
Definition initialise (st : planes) : planes :=
  match delta3 st with
  | NoPlane => {| z2 := z2 st; z3 := z3 st; x3 := x3 st; w3 := w3 st; r23 := r23 st; delta3 := ZeroPlane;
                  kappa2 := kappa2 st; kappa3 := kappa3 st |}
  | _ => st
  end.

(** [kappa += f * delta] in place: the sizes have to agree, or [delta] has one entry. *)
Definition plus_scaled (kappa : list R) (f : R) (delta : list R) : result (list R) :=
  match delta with
  | [d] => Ok (map (fun k => k + f * d) kappa)
  | _ => if Nat.eqb (length delta) (length kappa)
         then Ok (map (fun p => fst p + f * snd p) (combine kappa delta)) else Err ValueError
  end.

(** glass/lensing.py:511-586 [add_plane] for a mass plane at address [delta]: the new attributes and
    memory, and the exception if there is one. *)
Definition add_plane (cosmo : cosmology) (st : planes) (h : heap) (delta : nat) (zsrc wlens : R)
    : planes * heap * option exn :=
  let st := initialise st in
  if Rle_dec zsrc (z3 st) then (st, h, Some ValueError)
  else
    let delta2 := delta3 st in
    let z1 := z2 st in
    let z2' := z3 st in
    let w2 := w3 st in
    let x2 := x3 st in
    let x3' := distance_to cosmo zsrc / hubble_distance cosmo in
    let r12 := r23 st in
    let r13 := distance_between cosmo z1 zsrc / (hubble_distance cosmo * x3') in
    let r23' := distance_between cosmo z2' zsrc / (hubble_distance cosmo * x3') in
    let t := r13 / r12 in
    let f := 3 * Omega_m0 cosmo / 2 in
    let f := f * (x2 * r23') in
    let f := f * ((1 + z2') / H_over_H0 cosmo z2') in
    let f := f * w2 in
    (* new arrays for the convergence, in the first call *)
    let '(h, k2, k3) :=
      match kappa2 st, kappa3 st with
      | Some k2, Some k3 => (h, k2, k3)
      | _, _ => let zeros := map (fun _ => 0) (load h delta) in (h ++ [zeros; zeros], length h, (length h + 1)%nat)
      end in
    (* swap *)
    let '(k2, k3) := (k3, k2) in
    let st' := {| z2 := z2'; z3 := zsrc; x3 := x3'; w3 := wlens; r23 := r23'; delta3 := At delta;
                  kappa2 := Some k2; kappa3 := Some k3 |} in
    let h := store h k3 (map (fun k => k * (1 - t)) (load h k3)) in
    let h := store h k3 (map (fun p => fst p + t * snd p) (combine (load h k3) (load h k2))) in
    match delta2 with
    | At a => match plus_scaled (load h k3) f (load h a) with
              | Ok v => (st', store h k3 v, None)
              | Err e => (st', h, Some e)
              end
    | _ => (st', store h k3 (map (fun k => k + f * 0) (load h k3)), None)
    end.

(** glass/lensing.py:489-509 [add_window]. *)
Definition add_window (cosmo : cosmology) (st : planes) (h : heap) (delta : nat) (w : window)
    : planes * heap * option exn :=
  let st := initialise st in
  match (do t <- trapezoid (wa w) (za w); do v <- interp (zeff w) (za w) (wa w) None None; Ok (t / v)) with
  | Err e => (st, h, Some e)
  | Ok lens_weight => add_plane cosmo st h delta (zeff w) lens_weight
  end.

(** Several planes one after the other, up to an exception. *)
Fixpoint add_planes (cosmo : cosmology) (st : planes) (h : heap) (l : list (nat * R * R))
    : planes * heap * option exn :=
  match l with
  | [] => (st, h, None)
  | (delta, z, w) :: l =>
      match add_plane cosmo st h delta z w with
      | (st, h, None) => add_planes cosmo st h l
      | r => r
      end
  end.

Fixpoint add_windows (cosmo : cosmology) (st : planes) (h : heap) (l : list (nat * window))
    : planes * heap * option exn :=
  match l with
  | [] => (st, h, None)
  | (delta, w) :: l =>
      match add_window cosmo st h delta w with
      | (st, h, None) => add_windows cosmo st h l
      | r => r
      end
  end.

(** The property [kappa], glass/lensing.py:593-596: the array itself, not a copy. *)
Definition kappa (st : planes) : option nat := kappa3 st.
(** The properties [zsrc], [delta] and [wlens], glass/lensing.py:588-591 and 598-606. *)
Definition current_zsrc (st : planes) : R := z3 st.
Definition current_delta (st : planes) : plane := delta3 st.
Definition current_wlens (st : planes) : R := w3 st.

(** * Matrix and weights *)

(** [xp.eye(n)[i, :]]. *)
Definition unit_row (n i : nat) : list R := map (fun j => if Nat.eqb j i then 1 else 0) (seq 0 n).

(** glass/lensing.py:609-635 [multi_plane_matrix]: row [i] is still the one of the unit matrix when it is
    copied. *)
Fixpoint matrix_rows (cosmo : cosmology) (n i : nat) (shells : list window) (st : planes) (h : heap)
    : result (list (list R)) :=
  match shells with
  | [] => Ok []
  | w :: shells =>
      let delta := length h in
      match add_window cosmo st (h ++ [unit_row n i]) delta w with
      | (_, _, Some e) => Err e
      | (st, h, None) =>
          do row <- match kappa st with Some a => Ok (load h a) | None => Err TypeError end;
          do rows <- matrix_rows cosmo n (i + 1) shells st h;
          Ok (row :: rows)
      end
  end.
Definition multi_plane_matrix (shells : list window) (cosmo : cosmology) : result (list (list R)) :=
  matrix_rows cosmo (length shells) 0 shells new_planes [].

(** [xp.matmul(mat.T, weights)]: contracts the last axis of the one with the last but one of the
    other, or its only one. *)
Definition entry (mat : list (list R)) (i j : nat) : R := nth j (nth i mat []) 0.
Definition matmul_transposed (n : nat) (mat : list (list R)) (weights : array R) : result (array R) :=
  match rev (ashape weights) with
  | [k] => if Nat.eqb k n
           then Ok {| ashape := [n]; aget := fun i => total (map (fun s => entry mat s (hd 0%nat i) * aget weights [s]) (seq 0 n)) |}
           else Err ValueError
  | c :: k :: lead =>
      if Nat.eqb k n
      then Ok {| ashape := rev lead ++ [n; c];
                 aget := fun i => let i' := firstn (length lead) i in
                   let j := nth (length lead) i 0%nat in let q := nth (length lead + 1) i 0%nat in
                   total (map (fun s => entry mat s j * aget weights (i' ++ [s; q])) (seq 0 n)) |}
      else Err ValueError
  | [] => Err ValueError
  end.

(** glass/lensing.py:638-684 [multi_plane_weights].  A vanishing sum gives NaN in NumPy; here division by
    zero is some number, so no theorem speaks about this case. *)
Definition multi_plane_weights (weights : array R) (shells : list window) (cosmo : cosmology) : result (array R) :=
  match ashape weights with
  | [] => Err ValueError
  | n :: _ =>
      if Nat.eqb n (length shells) then
        let weights := {| ashape := ashape weights;
                          aget := fun i => aget weights i / total (map (fun s => aget weights (s :: tl i)) (seq 0 n)) |} in
        do mat <- multi_plane_matrix shells cosmo;
        matmul_transposed (length shells) mat weights
      else Err ValueError
  end.
