(** Model of the batched sampling of points in pixels: [glass/points.py]. *)
From Verif Require Import Base.

Definition list_sum (l : list nat) : nat := fold_right Nat.add 0 l.

(** [xp.cumulative_sum] of a one-dimensional array. *)
Fixpoint cumsum_from (s : nat) (l : list nat) : list nat :=
  match l with [] => [] | x :: xs => (s + x) :: cumsum_from (s + x) xs end.
Definition cumsum (l : list nat) : list nat := cumsum_from 0 l.

(** [q[-1]]: IndexError on an empty array. *)
Definition last_item (q : list nat) : result nat :=
  match rev q with [] => Err IndexError | x :: _ => Ok x end.

(** [xp.searchsorted(q, v, side="right")] of a sorted array: the number of leading
    items that are not greater than [v].  [v] is a possibly negative integer. *)
Fixpoint searchsorted_right (q : list nat) (v : Z) : nat :=
  match q with
  | [] => 0
  | x :: xs => if (Z.of_nat x <=? v)%Z then S (searchsorted_right xs v) else 0
  end.

(** Python slice [l[a:b]] with natural bounds. *)
Definition slice {A} (l : list A) (a b : nat) : list A := firstn (b - a) (skipn a l).

(** [xp.repeat(xp.arange(start, stop), n[start:stop])]; the two arrays must have
    equal length (ValueError otherwise). *)
Definition repeat_range (start stop : nat) (ns : list nat) : result (list nat) :=
  if length ns =? stop - start
  then Ok (flat_map (fun '(i, c) => repeat i c) (combine (seq start (stop - start)) ns))
  else Err ValueError.

(** glass/points.py:396 [step = 1_000]; kept as a parameter of the loop so that
    the theorems hold for every positive step. *)
Definition pixel_step : nat := 1000.

(** glass/points.py:398-437: the [while count:] loop.  State: [start], [stop],
    [size], [count].  [fuel] bounds the number of iterations; running out is the
    separate outcome [Err OutOfFuel].  Each batch is the list of pixel indices
    [ipix] handed to [hp.randang] (external), so its length is the reported count.
    The final [assert] (line 440) is a branch. *)
Fixpoint sample_loop (fuel step batch : nat) (n : list nat)
    (start stop size count : nat) : result (list (list nat)) :=
  match fuel with
  | 0 => Err OutOfFuel
  | S fuel =>
    if count =? 0 then
      if list_sum (skipn stop n) =? 0 then Ok [] else Err AssertionError
    else
      let npix := length n in
      let q := cumsum (slice n stop (Nat.min npix (stop + step))) in
      do qlast <- last_item q;
      if size + qlast <? Nat.min batch count then
        sample_loop fuel step batch n start (stop + step) (size + qlast) count
      else
        let stop := stop + searchsorted_right q (Z.of_nat batch - Z.of_nat size) in
        let stop := if stop =? start then stop + 1 else stop in
        do ipix <- repeat_range start stop (slice n start stop);
        do rest <- sample_loop fuel step batch n stop stop 0 (count - length ipix);
        Ok (ipix :: rest)
  end.

(** glass/points.py:351-440 [_sample_galaxies_per_pixel] without the conversion of
    pixel indices to random angles.  [npix2nside] (external) may raise. *)
Definition sample_galaxies_per_pixel (npix2nside : nat -> result nat)
    (fuel batch : nat) (n : list nat) : result (list (list nat)) :=
  let count := list_sum n in
  if count =? 0 then Ok []
  else
    do _nside <- npix2nside (length n);
    sample_loop fuel pixel_step batch n 0 0 0 count.
