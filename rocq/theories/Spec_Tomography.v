(** Samples of galaxies with true and photometric redshifts. *)
From Coq Require Import Reals List.
From Coquelicot Require Import Coquelicot.
From Verif Require Import Base Spec_Gauss Spec_Uniform Spec_Photoz Spec_Poisson.
Import ListNotations.
Local Open Scope R_scope.

(** A source of counts, of numbers that are uniform between 0 and 1, and of standard normal numbers; each is used up once. *)
Definition draws := (list (R * nat) * list R * list R)%type.
Definition draw_counts (s : draws) (lams : list R) : list nat * draws :=
  let '(n, rest) := counts_of (fst (fst s)) lams in (n, (rest, snd (fst s), snd s)).
Definition draw_units (s : draws) (n : nat) : list R * draws :=
  let '(x, rest) := units (snd (fst s)) n in (x, (fst (fst s), rest, snd s)).
Definition draw_normals (s : draws) (m sd : list R) : list R * draws :=
  let '(x, rest) := standard (snd s) m sd in (x, (fst s, rest)).

(** The expected value of a function of a Poisson number with mean [lam], and for each that is counted, of one uniform
    number and of [rounds] standard normal numbers. *)
Definition sample_mean (lam : R) (rounds : nat) (f : draws -> R) (m : R) : Prop :=
  exists (g : nat -> list R -> R) (h : nat -> R),
    (forall n u, length u = n -> Forall (fun x => 0 < x < 1) u -> means (n * rounds) (fun x => f ([(lam, n)], u, x)) (g n u)) /\
    (forall n, umeans n (g n) (h n)) /\ poisson_mean lam h m.

(** The integral of [f] over the range of the grid [z], weighted with a density that is constant between two points of the
    grid, the average of the samples [nz] at these two points. *)
Fixpoint weighted (z nz : list R) (f : R -> R) (v : R) : Prop :=
  match z, nz with
  | a :: ((b :: _) as z'), x :: ((y :: _) as nz') =>
      exists c w, is_RInt f a b c /\ weighted z' nz' f w /\ v = (x + y) / 2 * c + w
  | _, _ => v = 0
  end.

(** A range of true redshifts and a range of photometric redshifts, and how many galaxies are in both. *)
Definition ranges_of := ((R * R) * (R * R))%type.
Definition in_ranges (c : ranges_of) (p : R * R) : bool :=
  if Req_EM_T (hit (fst c) (fst p) * hit (snd c) (snd p)) 1 then true else false.
Definition number_of (c : R * R) (l : list R) : nat := length (filter (fun x => if Req_EM_T (hit c x) 1 then true else false) l).
(** No pair of redshifts belongs to two of the cells. *)
Definition separate (cs : list ranges_of) : Prop :=
  forall i j c d p, nth_error cs i = Some c -> nth_error cs j = Some d -> in_ranges c p = true -> in_ranges d p = true -> i = j.
