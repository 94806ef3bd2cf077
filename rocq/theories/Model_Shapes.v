(** Model of [glass/shapes.py]: sampling of galaxy ellipticities.  Floats are real numbers, see DESIGN.md;
    a number that NumPy computes as NaN is [None]. *)
From Coq Require Import Reals Lra.
From Coquelicot Require Import Complex.
From Verif Require Import Base Model_Numeric Model_Arrays Model_Effective.
Local Open Scope R_scope.

(** NumPy's [sqrt] and division; infinities count as NaN here. *)
Definition nsqrt (x : R) : option R := if Rlt_dec x 0 then None else Some (sqrt x).
Definition ndiv (x y : R) : option R := if Req_EM_T y 0 then None else Some (x / y).
Definition obind {A B} (x : option A) (f : A -> option B) : option B := match x with Some a => f a | None => None end.

(** glass/shapes.py:101-126, one entry of [triaxial_axis_ratio], for the two uniform numbers [u] in
    [-1, 1] and [phi] in [0, 2 pi]. *)
Definition axis_ratio (zeta xi u phi : R) : option R :=
  let cos2_theta := u * u in
  let sin2_theta := 1 - cos2_theta in
  let cos2_phi := cos phi * cos phi in
  let sin2_phi := 1 - cos2_phi in
  let z2m1 := zeta * zeta - 1 in
  let x2 := xi * xi in
  let a := (1 + z2m1 * sin2_phi) * cos2_theta + x2 * sin2_theta in
  let b2 := 4 * (z2m1 * z2m1) * cos2_theta * sin2_phi * cos2_phi in
  let c := 1 + z2m1 * cos2_phi in
  obind (nsqrt ((a - c) * (a - c) + b2)) (fun d => obind (ndiv (a + c - d) (a + c + d)) nsqrt).

(** Complex numbers of given modulus and argument, [r * xp.exp(1j * t)]. *)
Definition polar_complex (r t : R) : C := (r * cos t, r * sin t).

Section Shapes.
  Context {S : Type}.
  (** The generator: [normal(mean, sd)] for arrays, [uniform(low, high, n)], [standard_normal(n)]. *)
  Variable normal : S -> list R -> list R -> list R * S.
  Variable uniform : S -> R -> R -> nat -> list R * S.
  Variable standard_normal : S -> nat -> list R * S.

  (** glass/shapes.py:56-126 [triaxial_axis_ratio] for arrays [zeta] and [xi] of the shape of the result. *)
  Definition triaxial_axis_ratio (zeta xi : list R) (s : S) : list (option R) * S :=
    let n := length zeta in
    let '(u, s) := uniform s (-1) 1 n in
    let '(phi, s) := uniform s 0 (2 * PI) n in
    (map (fun p => axis_ratio (fst (fst p)) (snd (fst p)) (fst (snd p)) (snd (snd p)))
       (combine (combine zeta xi) (combine u phi)), s).

  (** [a[bad]], and [a] with [new] in the places [bad]. *)
  Definition pick {A} (bad : list bool) (a : list A) : list A := map snd (filter fst (combine bad a)).
  Fixpoint overwrite {A} (bad : list bool) (a new : list A) : list A :=
    match bad, a with
    | true :: bad, _ :: a => match new with v :: new => v :: overwrite bad a new | [] => [] end
    | false :: bad, x :: a => x :: overwrite bad a new
    | _, _ => []
    end.

  (** glass/shapes.py:202-207, [while xp.any(bad := ...)]: entries that [reject] holds of are drawn again. *)
  Fixpoint redraw_normal (reject : R -> bool) (fuel : nat) (mean sd x : list R) (s : S) : result (list R * S) :=
    let bad := map reject x in
    if existsb (fun b => b) bad then
      match fuel with
      | O => Err OutOfFuel
      | Datatypes.S fuel =>
          let '(new, s) := normal s (pick bad mean) (pick bad sd) in
          redraw_normal reject fuel mean sd (overwrite bad x new) s
      end
    else Ok (x, s).

  (** glass/shapes.py:129-220 [ellipticity_ryden04] for arrays that are broadcast to a common size. *)
  Definition ellipticity_ryden04 (fuel : nat) (mu sigma gamma sigma_gamma : list R) (s : S)
      : result (list (option C) * S) :=
    let '(eps, s) := normal s mu sigma in
    do r <- redraw_normal (fun e => ltb 0 e) fuel mu sigma eps s;
    let '(eps, s) := r in
    let '(gam, s) := normal s gamma sigma_gamma in
    do r <- redraw_normal (fun g => ltb g 0 || ltb 1 g) fuel gamma sigma_gamma gam s;
    let '(gam, s) := r in
    let zeta := map (fun e => - (exp e - 1)) eps in
    let xi := map (fun p => (1 - fst p) * snd p) (combine gam zeta) in
    let '(q, s) := triaxial_axis_ratio zeta xi s in
    let '(t, s) := uniform s 0 (2 * PI) (length q) in
    Ok (map (fun p => option_map (fun q => Cmult (polar_complex 1 (snd p)) (RtoC ((1 - q) / (1 + q)))) (fst p)) (combine q t), s).

  (** glass/shapes.py:48-53 [_populate_random_complex_array]. *)
  Definition random_complex (n : nat) (s : S) : list C * S :=
    let '(re, s) := standard_normal s n in
    let '(im, s) := standard_normal s n in
    (combine re im, s).

  (** glass/shapes.py:273-281, one population: the rejection loop. *)
  Fixpoint redraw_complex (fuel : nat) (sigma : R) (e : list C) (s : S) : result (list C * S) :=
    let r := map (fun e => ltb 1 (Cmod e)) e in
    if existsb (fun b => b) r then
      match fuel with
      | O => Err OutOfFuel
      | Datatypes.S fuel =>
          let '(new, s) := random_complex (length (filter (fun b => b) r)) s in
          redraw_complex fuel sigma (overwrite r e (map (fun x => Cmult x (RtoC sigma)) new)) s
      end
    else Ok (e, s).

  (** glass/shapes.py:272-283, the loop over populations.  The pre-allocated output is filled from the left
      without gaps; here the parts are concatenated. *)
  Fixpoint gaussian_populations (fuel : nat) (l : list (nat * R)) (s : S) : result (list C * S) :=
    match l with
    | [] => Ok ([], s)
    | (n, sigma) :: l =>
        let '(e, s) := random_complex n s in
        do r <- redraw_complex fuel sigma (map (fun x => Cmult x (RtoC sigma)) e) s;
        let '(e, s) := r in
        do r <- gaussian_populations fuel l s;
        let '(rest, s) := r in
        Ok (e ++ rest, s)
    end.

  (** [xp.broadcast_arrays(count, sigma)], and the pairs of entries in the order of [ndindex]. *)
  Definition populations (count : array nat) (sigma : array R) : result (list (nat * R)) :=
    do dims <- broadcast_shapes [ashape count; ashape sigma];
    do c <- broadcast_to count dims;
    do g <- broadcast_to sigma dims;
    Ok (map (fun k => (aget c k, aget g k)) (ndindex dims)).

  (** glass/shapes.py:223-285 [ellipticity_gaussian]. *)
  Definition ellipticity_gaussian (fuel : nat) (count : array nat) (sigma : array R) (s : S) : result (list C * S) :=
    do l <- populations count sigma;
    gaussian_populations fuel l s.

  (** glass/shapes.py:349-355, from normal to intrinsically normal. *)
  Definition shrink (e : C) : C :=
    let r := sqrt (fst e * fst e + snd e * snd e) in
    Cmult e (RtoC (if Rlt_dec 0 r then tanh (r / 2) / r else 1)).
  (** glass/shapes.py:337-340. *)
  Definition sigma_eta (sigma : R) : R := sigma * sqrt ((8 + 5 * (sigma * sigma)) / (2 - 4 * (sigma * sigma))).

  (** glass/shapes.py:346-360, the loop over populations. *)
  Fixpoint intnorm_populations (l : list (nat * R)) (s : S) : list C * S :=
    match l with
    | [] => ([], s)
    | (n, sigma) :: l =>
        let '(e, s) := random_complex n s in
        let e := map (fun x => shrink (Cmult x (RtoC (sigma_eta sigma)))) e in
        let '(rest, s) := intnorm_populations l s in
        (e ++ rest, s)
    end.

  (** glass/shapes.py:288-362 [ellipticity_intnorm]. *)
  Definition ellipticity_intnorm (count : array nat) (sigma : array R) (s : S) : result (list C * S) :=
    do l <- populations count sigma;
    if forallb (fun p => leb 0 (snd p) && ltb (snd p) (sqrt (1 / 2))) l
    then Ok (intnorm_populations l s)
    else Err ValueError.

  (** [xp.mean]; of no values it is NaN. *)
  Definition nmean (l : list R) : option R := ndiv (total l) (INR (length l)).

  (** glass/shapes.py:400-420, the factor to the moduli: nothing, a number or NaN. *)
  Definition resample_factor (r : list R) (varg vargamma : option R) : result (option R) :=
    match vargamma, varg with
    | Some _, Some _ => Err ValueError
    | Some vargamma, None =>
        let vare := nmean (map (fun r => r ^ 2) r) in
        match vare with
        | Some vare => if Rlt_dec vare vargamma then Err ValueError
                       else Ok (obind (ndiv vargamma vare) (fun x => nsqrt (1 - x)))
        | None => Ok None
        end
    | None, Some varg =>
        let vare := nmean (map (fun r => r ^ 2) r) in
        match vare with
        | Some vare =>
            if Rlt_dec vare varg then Err ValueError
            else
              let eve4 := nmean (map (fun r => r ^ 4) r) in
              Ok (obind eve4 (fun eve4 =>
                  obind (nsqrt (((1 - 2 * varg) * vare) ^ 2 + 4 * varg * eve4 * (vare - varg))) (fun root =>
                  obind (ndiv (root - (1 - 2 * varg) * vare) (2 * varg * eve4)) nsqrt)))
        | None => Ok None
        end
    | None, None => Ok (Some 1)
    end.

  (** glass/shapes.py:365-423 [resample_shapes] for a flat array. *)
  Definition resample_shapes (epsilon : list C) (varg vargamma : option R) (s : S) : result (list (option C) * S) :=
    let r := map (fun e : C => sqrt (fst e * fst e + snd e * snd e)) epsilon in
    do f <- resample_factor r varg vargamma;
    let '(t, s) := uniform s 0 (2 * PI) (length r) in
    Ok (map (fun p => option_map (fun f => polar_complex (fst p * f) (snd p)) f) (combine r t), s).
End Shapes.
