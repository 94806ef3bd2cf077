(** Vocabulary for expected values over galaxies in shells. *)
From Coq Require Import Reals List Arith.
From Coquelicot Require Import Coquelicot.
From Verif Require Import Base Spec_Disc Spec_Gauss Spec_Poisson Spec_ShearMap.
Import ListNotations.
Local Open Scope R_scope.

(** The random numbers of the galaxies of one shell: a Poisson number, with the mean that it is drawn for; uniform numbers; normal
    numbers. *)
Definition shell_numbers := ((list (R * nat) * list R) * list R)%type.

(** The expected value of a function of the random numbers of shells with the given expected numbers of galaxies, which are
    independent: two uniform and two normal numbers for each galaxy. *)
Fixpoint shells_mean (lams : list R) (f : list shell_numbers -> R) (m : R) : Prop :=
  match lams with
  | [] => f [] = m
  | lam :: lams => exists G,
      (forall n us l, length us = (2 * n)%nat -> length l = (2 * n)%nat ->
        shells_mean lams (fun rest => f ((([(lam, n)], us), l) :: rest)) (G ([(lam, n)], us) l)) /\
      catalogue_mean lam G m
  end.

(** A generator with the random numbers of the current shell, and those of all that follow.  Its methods are those of the current
    shell; the next field takes it to the next shell. *)
Definition shells_state := (shell_numbers * list shell_numbers)%type.
Definition shell_poisson (s : shells_state) (lams : list R) : list nat * shells_state :=
  let '(n, p) := counts_first (fst (fst s)) lams in (n, ((p, snd (fst s)), snd s)).
Definition shell_uniform (s : shells_state) (lo hi : R) (n : nat) : list R * shells_state :=
  let '(x, p) := ranges_second (fst (fst s)) lo hi n in (x, ((p, snd (fst s)), snd s)).
Definition shell_normal (s : shells_state) (n : nat) : list R * shells_state :=
  let '(x, l) := numbers (snd (fst s)) n in (x, ((fst (fst s), l), snd s)).
Definition shell_maps (maps : list (list R * list R * list R)) (i : nat) (s : shells_state) : result (list R * list R * list R * shells_state) :=
  match nth_error maps i, snd s with
  | Some m, c :: rest => Ok (m, (c, rest))
  | _, _ => Err IndexError
  end.
