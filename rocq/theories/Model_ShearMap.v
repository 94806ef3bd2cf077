(** Model of the maps of galaxy numbers and shears in examples/2-advanced/cosmic_shear.ipynb. *)
From Coq Require Import Reals List Arith.
From Coquelicot Require Import Coquelicot.
From Verif Require Import Base Model_Arrays Model_Galaxies Model_Shapes.
Import ListNotations.

(** examples/2-advanced/cosmic_shear.ipynb:206, [np.unique] with [return_index] and [return_counts] for an array in
    ascending order, whose first entry has the index [i]: every value that occurs, with the index where it occurs first,
    and how often it occurs. *)
Fixpoint unique_sorted (i : nat) (l : list nat) : list (nat * nat * nat) :=
  match l with
  | [] => []
  | x :: l =>
      match unique_sorted (S i) l with
      | [] => [(x, i, 1)]
      | (y, start, count) :: rest =>
          if x =? y then (x, i, S count) :: rest else (x, i, 1) :: (y, start, count) :: rest
      end
  end.

(** examples/2-advanced/cosmic_shear.ipynb:208, [np.split] at ascending indices, for an array whose first entry has the
    index [pos]. *)
Fixpoint split_at {A} (pos : nat) (l : list A) (indices : list nat) : list (list A) :=
  match indices with
  | [] => [l]
  | j :: indices => firstn (j - pos) l :: split_at j (skipn (j - pos) l) indices
  end.

(** examples/2-advanced/cosmic_shear.ipynb:207-208, [m[pix] += values]: entries are read, added, and written one after
    another; IndexError for a pixel outside of the map.  There are as many values as pixels, apart from the single sum, of
    nothing, for no galaxies at all, which NumPy broadcasts to no pixels. *)
Fixpoint put {A} (pix : list nat) (values m : list A) : list A :=
  match pix, values with
  | p :: pix, v :: values => put pix values (firstn p m ++ [v] ++ skipn (S p) m)
  | _, _ => m
  end.
Definition add_at {A} (plus : A -> A -> A) (zero : A) (pix : list nat) (values m : list A) : result (list A) :=
  if forallb (fun p => p <? length m) pix then
    Ok (put pix (map (fun '(p, v) => plus (nth p m zero) v) (combine pix values)) m)
  else Err IndexError.

(** examples/2-advanced/cosmic_shear.ipynb:205-208, for the pixels and the shears of galaxies.  [argsort] is
    [np.argsort], which is not stable.  Numbers of galaxies, which are floats in the code, are natural numbers. *)
Definition add_shears (argsort : list nat -> list nat) (gal_pix : list nat) (gal_she : list C) (maps : list nat * list C)
    : result (list nat * list C) :=
  let s := argsort gal_pix in
  let u := unique_sorted 0 (map (fun i => nth i gal_pix 0) s) in
  let pix := map (fun x => fst (fst x)) u in
  let start := map (fun x => snd (fst x)) u in
  let count := map snd u in
  do num <- add_at Nat.add 0 pix count (fst maps);
  let sums := map (fold_right Cplus (RtoC 0)) (split_at 0 (map (fun i => nth i gal_she (RtoC 0)) s) (tl start)) in
  do she <- add_at Cplus (RtoC 0) pix sums (snd maps);
  Ok (num, she).

Section Observe.
  Context {S : Type}.
  Variable standard_normal : S -> nat -> list R * S.
  Variable argsort : list nat -> list nat.
  Variable ang2pix : nat -> R -> R -> nat.
  Variable npix2nside : nat -> result nat.

  (** examples/2-advanced/cosmic_shear.ipynb:189-208, the galaxies at the positions of one batch: ellipticities are drawn,
      sheared, and added to the maps.  [hp.ang2pix] is the function that [galaxy_shear] uses, for the same [nside]. *)
  Definition observe (chunk nside : nat) (sigma_e : R) (lon lat kappa gamma1 gamma2 : list R) (maps : list nat * list C) (s : S)
      : result (list nat * list C) :=
    do e <- ellipticity_intnorm standard_normal {| ashape := []; aget := fun _ => length lon |} {| ashape := []; aget := fun _ => sigma_e |} s;
    do gal_she <- galaxy_shear ang2pix npix2nside chunk lon lat (fst e) kappa gamma1 gamma2 true;
    add_shears argsort (map (fun '(x, y) => ang2pix nside x y) (combine lon lat)) gal_she maps.
End Observe.
