(** Normal numbers inside the unit disc. *)
From Coq Require Import Reals List.
From Coquelicot Require Import Coquelicot.
From Verif Require Import Base Spec_Gauss.
Import ListNotations.
Local Open Scope R_scope.

(** A source of normal numbers: the state is a list of them, each of which is used up once. *)
Definition numbers (s : list R) (n : nat) : list R * list R := (firstn n s, skipn n s).

(** One for complex numbers up to a modulus, otherwise zero. *)
Definition inside (r : R) (e : C) : R := if Rle_dec (Cmod e) r then 1 else 0.

(** The expected value of a function of a complex number with independent normal components with standard deviation
    [sigma], if the function counts only inside the unit disc. *)
Definition in_disc (sigma : R) (f : C -> R) (m : R) : Prop :=
  means 2 (fun l => let e := (sigma * nth 0 l 0, sigma * nth 1 l 0) in f e * inside 1 e) m.
(** The probability to be inside the unit disc. *)
Definition disc_chance (sigma : R) : R := 1 - exp (- (1 / (2 * sigma ^ 2))).

(** The product of the numbers in a list, and that of functions of entries, one function for each entry; zero if the
    numbers differ. *)
Definition product (l : list R) : R := fold_right Rmult 1 l.
Fixpoint each (f : list (C -> R)) (e : list C) : R :=
  match f, e with
  | [], [] => 1
  | f :: fs, x :: e => f x * each fs e
  | _, _ => 0
  end.
(** The same for what is returned; nothing is counted if there is an error. *)
Definition each_of {S} (f : list (C -> R)) (r : result (list C * S)) : R :=
  match r with Ok (out, _) => each f out | Err _ => 0 end.

(** The scale of every object, for pairs of a number of objects and their scale. *)
Definition scales (pops : list (nat * R)) : list R := concat (map (fun p => repeat (snd p) (fst p)) pops).
