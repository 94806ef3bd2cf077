(** Model of the least-squares partitions of functions over shells in [glass/shells.py]. *)
From Coq Require Import Reals List Arith.
From Verif Require Import Base RSum Model_Numeric Model_Arrays Model_Windows Model_Nnls.
Import ListNotations.
Local Open Scope R_scope.

(** glass/_array_api_utils.py:219-251 [gradient], that is [np.gradient], of an array with one axis: central differences, one-sided
    at the ends; fewer than two values are an error. *)
Definition central (z : list R) : result (list R) :=
  let n := length z in let at_ := fun i => nth i z 0 in
  if (n <? 2)%nat then Err ValueError
  else Ok (map (fun i => if (i =? 0)%nat then at_ 1%nat - at_ 0%nat
                         else if (i =? n - 1)%nat then at_ i - at_ (i - 1)%nat
                         else (at_ (i + 1)%nat - at_ (i - 1)%nat) / 2) (seq 0 n)).

(** glass/shells.py:695-698 and 765-768, the union of all grids. *)
Definition fit_grid (z : list R) (shells : list window) : list R := fold_left (fun zp w => union1d zp (za w)) shells z.

(** glass/shells.py:693 and 763, 714 and 786. *)
Definition multiplier (sumtol : R) : R := 1 / Rmax sumtol (1 / 10000).

(** glass/shells.py:707-709, 715 (777-781, 787): a row of the window matrix.  If the integral is zero the code carries on
    with values that are not numbers; here it is an error. *)
Definition window_row (zp dz : list R) (mult : R) (w : window) : result (list R) :=
  do v <- mapM (fun x => interp x (za w) (wa w) (Some 0) (Some 0)) zp;
  do t <- trapezoid v zp;
  if Req_EM_T t 0 then Err ZeroDivisionError
  else Ok (map (fun p => fst p / t * snd p) (combine v dz) ++ [mult]).

(** glass/shells.py:712-713, 716 (784-785, 788), a row of the targets. *)
Definition target_row (zp dz : list R) (mult : R) (z f : list R) : result (list R) :=
  do v <- mapM (fun x => interp x z f (Some 0) (Some 0)) zp;
  do t <- trapezoid f z;
  Ok (map (fun p => fst p * snd p) (combine v dz) ++ [mult * t]).

(** glass/shells.py:690-720 and 760-792: number of equations, window matrix and targets.  [fs] are the functions along the
    leading axes of [fz], flattened.  [xp.stack] needs at least one shell. *)
Definition fit_system (z : list R) (fs : list (list R)) (shells : list window) (sumtol : R) :
    result (nat * (nat -> nat -> R) * list (nat -> R)) :=
  let zp := fit_grid z shells in
  do dz <- central zp;
  match shells with
  | [] => Err ValueError
  | _ =>
      do a <- mapM (window_row zp dz (multiplier sumtol)) shells;
      do b <- mapM (target_row zp dz (multiplier sumtol) z) fs;
      Ok ((length zp + 1)%nat, fun i j => nth i (nth j a []) 0, map (fun r i => nth i r 0) b)
  end.

Section Solvers.
  (** [np.linalg.lstsq] of a system with the given numbers of rows and columns, for one column of the right-hand side
      (glass/_array_api_utils.py:254-308). *)
  Variable lstsq : nat -> nat -> (nat -> nat -> R) -> (nat -> R) -> nat -> R.
  (** [xp.linalg.qr] of a matrix with the given numbers of rows and columns, thin. *)
  Variable qr : nat -> nat -> (nat -> nat -> R) -> (nat -> nat -> R) * (nat -> nat -> R).
  (** [xp.linalg.solve], see [Model_Nnls]. *)
  Variable solve : nat -> (nat -> nat -> R) -> (nat -> R) -> option (nat -> R).

  (** glass/shells.py:664-732 [partition_lstsq]: for each shell the weights of the functions. *)
  Definition partition_lstsq (z : list R) (fs : list (list R)) (shells : list window) (sumtol : R) : result (list (list R)) :=
    do s <- fit_system z fs shells sumtol;
    let '(m, a, bs) := s in
    let n := length shells in
    Ok (map (fun j => map (fun b => lstsq m n a b j) bs) (seq 0 n)).

  (** glass/shells.py:735-809 [partition_nnls], with how each of the calls of [nnls] ended. *)
  Definition partition_nnls (fuel : nat) (z : list R) (fs : list (list R)) (shells : list window) (sumtol : R) : result (list (list R) * list ending) :=
    do s <- fit_system z fs shells sumtol;
    let '(m, a, bs) := s in
    let n := length shells in
    let k := Nat.min m n in
    let q := fst (qr m n a) in let r := snd (qr m n a) in
    do xs <- mapM (fun b => nnls solve fuel [k; n] [k] r (fun i => rsum m (fun j => q j i * b j)) 0 None) bs;
    Ok (map (fun j => map (fun x => fst x j) xs) (seq 0 n), map snd xs).
End Solvers.
