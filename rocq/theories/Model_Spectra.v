(** Model of the ordering of two-point functions: [glass/fields.py]. *)
From Verif Require Import Base.

(** glass/fields.py:70-81 [_inv_triangle_number].
    Simplification: [math.floor(math.sqrt(2 * T))] is taken in exact arithmetic
    here (integer square root); [Model_SpectraFloat] has the binary64 version. *)
Definition inv_triangle_number (t : nat) : result nat :=
  let n := Nat.sqrt (2 * t) in
  if negb (n * (n + 1) / 2 =? t) then Err ValueError else Ok n.

(** glass/fields.py:84-98 [nfields_from_nspectra]: re-raises ValueError. *)
Definition nfields_from_nspectra (nspectra : nat) : result nat :=
  match inv_triangle_number nspectra with
  | Ok n => Ok n
  | Err ValueError => Err ValueError
  | Err e => Err e
  end.

(** glass/fields.py:578 [int((2 * k + 0.25) ** 0.5 - 0.5)] in exact arithmetic:
    sqrt(2k+1/4) - 1/2 = (sqrt(8k+1) - 1)/2.  The floating point evaluation is
    treated in [Model_SpectraFloat]. *)
Definition row_of_counter (k : nat) : nat := (Nat.sqrt (8 * k + 1) - 1) / 2.

(** glass/fields.py:563-581 [enumerate_spectra].  The generator is modelled by
    the list of what it yields.  [j = i*(i+3)//2 - k] is an integer in Python; the
    natural subtraction used here never truncates (proved as part of
    [enumerate_spectra_order]). *)
Definition enumerate_spectra {A} (entries : list A) : list (nat * nat * A) :=
  map (fun '(k, cl) => let i := row_of_counter k in
                       let j := i * (i + 3) / 2 - k in (i, j, cl))
      (enum entries).

(** glass/_array_api_utils.py:533-566 [tril_indices] with k=0, m=None, as the list of
    (row, column) pairs in the row-major order documented there. *)
Definition tril_indices (n : nat) : list (nat * nat) :=
  flat_map (fun i => map (fun j => (i, j)) (seq 0 (S i))) (seq 0 n).

(** glass/fields.py:584-604 [spectra_indices]: [xp.stack([i, i - j]).T]. *)
Definition spectra_indices (n : nat) : list (nat * nat) :=
  map (fun '(i, j) => (i, i - j)) (tril_indices n).

(** glass/fields.py:525-560 [getcl].  [zero] is the padding value of [xpx.pad].
    Indices are natural numbers (negative Python indices are not modelled). *)
Definition getcl {A} (zero : A) (cls : list (list A)) (i j : nat)
    (lmax : option nat) : result (list A) :=
  let '(i, j) := if i <? j then (j, i) else (i, j) in
  do cl <- index cls (i * (i + 1) / 2 + i - j);
  match lmax with
  | None => Ok cl
  | Some lm =>
      if lm + 1 <? length cl then Ok (firstn (lm + 1) cl)
      else Ok (cl ++ repeat zero (lm + 1 - length cl))
  end.

(** Python dictionary keyed by index pairs, as an association list searched from
    the most recent binding. *)
Definition pair_eqb (p q : nat * nat) : bool :=
  (fst p =? fst q) && (snd p =? snd q).

Fixpoint dict_get (d : list ((nat * nat) * nat)) (key : nat * nat) : result nat :=
  match d with
  | [] => Err KeyError
  | (k, v) :: d' => if pair_eqb k key then Ok v else dict_get d' key
  end.

(** A dict comprehension inserts in order, later insertions override. *)
Definition dict_of (kvs : list ((nat * nat) * nat)) : list ((nat * nat) * nat) :=
  rev kvs.

(** glass/fields.py:915 and 938: [(i + k, i) for k in range(n) for i in range(n - k)]. *)
Definition healpix_pairs (n : nat) : list (nat * nat) :=
  flat_map (fun k => map (fun i => (i + k, i)) (seq 0 (n - k))) (seq 0 n).

(** glass/fields.py:897-917 [glass_to_healpix_spectra]. *)
Definition glass_to_healpix_spectra {A} (spectra : list A) : result (list A) :=
  do n <- nfields_from_nspectra (length spectra);
  let comb := dict_of (map (fun '(pos, idx) => (idx, pos)) (enum (spectra_indices n))) in
  mapM (fun p => do k <- dict_get comb p; index spectra k) (healpix_pairs n).

(** Python [list.index]: first position, ValueError when absent. *)
Fixpoint list_index (l : list (nat * nat)) (x : nat * nat) : result nat :=
  match l with
  | [] => Err ValueError
  | y :: l' => if pair_eqb y x then Ok 0 else do k <- list_index l' x; Ok (S k)
  end.

(** glass/fields.py:920-940 [healpix_to_glass_spectra]. *)
Definition healpix_to_glass_spectra {A} (spectra : list A) : result (list A) :=
  do n <- nfields_from_nspectra (length spectra);
  let comb := healpix_pairs n in
  mapM (fun p => do k <- list_index comb p; index spectra k) (spectra_indices n).

(** glass/fields.py:943-962 [_glass_to_healpix_alm]; fancy indexing raises
    IndexError for an index out of range. *)
Definition glass_to_healpix_alm {A} (alm : list A) : result (list A) :=
  do n <- inv_triangle_number (length alm);
  let ell := seq 0 n in
  do out <- mapM (fun m => mapM (fun l => index alm (l * (l + 1) / 2 + m)) (skipn m ell)) ell;
  Ok (concat out).

(** glass/harmonics.py:17-47 [multalm]: [alm * xp.repeat(bl, xp.arange(bl.size) + 1)].
    [mul] is the product of a coefficient and a real.  NumPy broadcasting of the
    product: equal lengths, or one of the two of length one; anything else raises
    ValueError. *)
Definition repeat_counts {A} (bl : list A) : list A :=
  flat_map (fun '(l, b) => repeat b (l + 1)) (enum bl).

Definition broadcast_mul {A B C} (mul : A -> B -> C) (xs : list A) (ys : list B)
    : result (list C) :=
  if length xs =? length ys then Ok (map (fun '(x, y) => mul x y) (combine xs ys))
  else match xs, ys with
       | [x], _ => Ok (map (fun y => mul x y) ys)
       | _, [y] => Ok (map (fun x => mul x y) xs)
       | _, _ => Err ValueError
       end.

Definition multalm {A B} (mul : A -> B -> A) (alm : list A) (bl : list B)
    : result (list A) :=
  broadcast_mul mul alm (repeat_counts bl).

(** glass/fields.py:239-300 [discretized_cls].  [pixwin] is the result of
    [hp.pixwin(nside, lmax=lmax)] (external); [None] stands for [nside is None].
    [mulpw c p] is [c * p ** 2]. *)
Definition discretized_cls {A P} (mulpw : A -> P -> A) (cls : list (list A))
    (lmax ncorr : option nat) (pixwin : option (list P)) : result (list (list A)) :=
  match cls with
  | [] => Ok []
  | _ =>
    do cls <- match ncorr with
              | None => Ok cls
              | Some nc =>
                  do n <- nfields_from_nspectra (length cls);
                  mapM (fun '(i, j) =>
                          if j <=? nc then index cls (i * (i + 1) / 2 + j) else Ok [])
                       (tril_indices n)
              end;
    Ok (map (fun cl =>
          if 0 <? length cl then
            let cl := match lmax with None => cl | Some lm => firstn (lm + 1) cl end in
            match pixwin with
            | None => cl
            | Some pw =>
                let n := Nat.min (length cl) (length pw) in
                map (fun '(c, p) => mulpw c p) (combine (firstn n cl) (firstn n pw))
            end
          else cl) cls)
  end.
