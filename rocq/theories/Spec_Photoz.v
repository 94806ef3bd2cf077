(** The distribution of random redshifts. *)
From Coq Require Import Reals List.
From Verif Require Import Base.
Import ListNotations.
Local Open Scope R_scope.

(** A source of normal random numbers with given means and standard deviations; its state is a list of standard normal
    numbers, of which one is used up for each. *)
Definition standard (s zs sigmas : list R) : list R * list R :=
  (map (fun p => fst (fst p) + snd (fst p) * snd p) (combine (combine zs sigmas) s), skipn (length zs) s).

(** One if a number was returned that lies in [a, b), otherwise zero. *)
Definition lands {S} (a b : R) (r : result (list R * S)) : R :=
  match r with
  | Ok ([v], _) => if Rle_dec a v then if Rlt_dec v b then 1 else 0 else 0
  | _ => 0
  end.
