(** Vocabulary for simulated maps: spherical harmonics, correlation functions, random numbers. *)
From Coq Require Import Reals List.
From Verif Require Import Base RSum Spec_Spectra Spec_Gauss.
Import ListNotations.
Local Open Scope R_scope.

(** Legendre polynomials, by Bonnet's recurrence [(l + 2) P_(l+2) = (2 l + 3) x P_(l+1) - (l + 1) P_l]; the pair is
    [P_l, P_(l+1)]. *)
Fixpoint legendre_pair (l : nat) (x : R) : R * R :=
  match l with
  | O => (1, x)
  | S l => let '(a, b) := legendre_pair l x in (b, ((2 * INR l + 3) * x * b - (INR l + 1) * a) / (INR l + 2))
  end.
Definition legendre (l : nat) (x : R) : R := fst (legendre_pair l x).

(** The angular correlation function that belongs to an angular power spectrum with [n] modes, at angles with the
    cosine [x]. *)
Definition correlation (n : nat) (cl : nat -> R) (x : R) : R :=
  rsum n (fun l => (2 * INR l + 1) / (4 * PI) * cl l * legendre l x).

(** [Y l m p] is the complex number (as a pair) that the spherical harmonic of degree [l] and order [m] has at the centre
    of pixel [p].  For a real field the modes with negative [m] are the complex conjugates, up to sign, of those with
    positive [m], so that a map is twice the real part of the sum over positive [m], plus the sum of those with [m = 0]. *)
Definition synthesis (n : nat) (Y : nat -> nat -> nat -> R * R) (a : nat -> nat -> R * R) (p : nat) : R :=
  rsum n (fun l => rsum (S l) (fun m =>
    (if (m =? 0)%nat then 1 else 2) * (fst (a l m) * fst (Y l m p) - snd (a l m) * snd (Y l m p)))).

(** [alm2map] makes a map of [npix] pixels from modes in HEALPix order. *)
Definition synthesises (n npix : nat) (Y : nat -> nat -> nat -> R * R) (alm2map : list (R * R) -> list R) : Prop :=
  forall alm a, (forall h l m, in_healpix_alm_order n h l m -> nth_error alm h = Some (a l m)) ->
    alm2map alm = map (synthesis n Y a) (seq 0 npix).

(** The addition theorem of spherical harmonics: the sum over all orders of one degree, of the product of the harmonic
    in one pixel and the complex conjugate in another one, is a Legendre polynomial of the cosine of the angle between
    the pixels. *)
Definition harmonics (n npix : nat) (Y : nat -> nat -> nat -> R * R) (cosine : nat -> nat -> R) : Prop :=
  (forall p, cosine p p = 1) /\
  forall l p q, (l < n)%nat -> (p < npix)%nat -> (q < npix)%nat ->
    rsum (S l) (fun m => if (m =? 0)%nat then fst (Y l m p) * fst (Y l m q)
                         else 2 * (fst (Y l m p) * fst (Y l m q) + snd (Y l m p) * snd (Y l m q)))
    = (2 * INR l + 1) / (4 * PI) * legendre l (cosine p q).

(** The random numbers of the fields: for each field in turn [t] complex numbers, from successive real numbers. *)
Definition variates (t : nat) (u : list R) (i : nat) : list (R * R) :=
  map (fun g => (nth (2 * (i * t + g)) u 0, nth (2 * (i * t + g) + 1) u 0)) (seq 0 t).

(** [xi] is the correlation function of maps number [i] and [j]: for each pair of pixels, the expected product of their
    values is the value of [xi] at the cosine of the angle between them.  [maps u] is the simulation with the [N]
    random numbers [u]. *)
Definition map_correlation (N npix : nat) (maps : list R -> list (list R) * option exn) (cosine : nat -> nat -> R) (i j : nat) (xi : R -> R) : Prop :=
  exists value value' : nat -> list R -> R,
    (forall u, exists ms, maps u = (ms, None) /\ nth_error ms i = Some (map (fun p => value p u) (seq 0 npix)) /\
       nth_error ms j = Some (map (fun p => value' p u) (seq 0 npix))) /\
    forall p q, (p < npix)%nat -> (q < npix)%nat -> forall m,
      means N (fun u => value p u * value' q u) m <-> m = xi (cosine p q).

(** The transform from a spectrum to its correlations at given nodes, which depend on the number of modes. *)
Definition legendre_transform (nodes : nat -> list R) (cltocorr : list R -> list R) : Prop :=
  forall cl, cltocorr cl = map (correlation (length cl) (fun l => nth l cl 0)) (nodes (length cl)).
