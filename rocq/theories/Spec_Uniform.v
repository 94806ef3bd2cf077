(** Uniform random numbers: expected values as integrals. *)
From Coq Require Import Reals List.
From Coquelicot Require Import Coquelicot.
From Verif Require Import Base.
Import ListNotations.
Local Open Scope R_scope.

(** The expected value of a function of [n] independent numbers that are uniform between 0 and 1. *)
Fixpoint umeans (n : nat) (f : list R -> R) (m : R) : Prop :=
  match n with
  | O => f [] = m
  | S n => exists g, (forall u, 0 < u < 1 -> umeans n (fun l => f (u :: l)) (g u)) /\ is_RInt g 0 1 m
  end.

(** Sources of uniform numbers, between 0 and 1 or in a given range; the state is a list of numbers between 0 and 1,
    each of which is used up once. *)
Definition units (s : list R) (n : nat) : list R * list R := (firstn n s, skipn n s).
Definition ranges (s : list R) (lo hi : R) (n : nat) : list R * list R :=
  (map (fun u => lo + (hi - lo) * u) (firstn n s), skipn n s).

(** One if every number is in its own interval, otherwise zero. *)
Definition hit (c : R * R) (x : R) : R := if Rle_dec (fst c) x then if Rlt_dec x (snd c) then 1 else 0 else 0.
Fixpoint hits (cells : list (R * R)) (xs : list R) : R :=
  match cells, xs with
  | [], [] => 1
  | c :: cells, x :: xs => hit c x * hits cells xs
  | _, _ => 0
  end.

(** A component of a complex number, the first if [b]. *)
Definition component (b : bool) (e : C) : R := if b then fst e else snd e.
(** The component of entry [i] of what is returned. *)
Definition component_of {S} (b : bool) (i : nat) (r : result (list (option C) * S)) : R :=
  match r with
  | Ok (out, _) => match nth_error out i with Some (Some e) => component b e | _ => 0 end
  | Err _ => 0
  end.
