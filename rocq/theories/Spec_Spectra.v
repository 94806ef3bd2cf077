(** Vocabulary for the statements about spectra orderings.
    [docs/reference/fields.rst:15-45] fixes the order: within block [i] (which
    starts after all entries of the first [i] fields, i.e. at the triangle number
    of [i]) come (i,i), (i,i-1), ..., (i,0). *)
From Coq Require Import Arith List.

(** Position [k] of the "Christmas tree" order describes fields ([i],[j]). *)
Definition in_order (k i j : nat) : Prop :=
  j <= i /\ 2 * k = i * (i + 1) + 2 * (i - j).

(** [t] is the [n]-th triangle number. *)
Definition triangle (n t : nat) : Prop := 2 * t = n * (n + 1).

(** HEALPix "new" order for [n] fields: diagonal after diagonal; diagonal [d]
    has [n - d] entries (d,0), (d+1,1), ..., so that position [h] describes
    ([i],[j]) iff [h] is the number of entries on the diagonals before [i-j], plus [j]. *)
Fixpoint diagonals_before (n d : nat) : nat :=
  match d with 0 => 0 | S d' => diagonals_before n d' + (n - d') end.
Definition in_healpix_order (n h i j : nat) : Prop :=
  j <= i /\ i < n /\ h = diagonals_before n (i - j) + j.

(** HEALPix index of mode ([l],[m]) when modes up to degree [n-1] are stored
    (healpy's [Alm.getidx]: m*(2*lmax+1-m)/2 + l with lmax = n-1). *)
Definition in_healpix_alm_order (n h l m : nat) : Prop :=
  m <= l < n /\ 2 * h = m * (2 * n - 1 - m) + 2 * l.

(** GLASS index of mode ([l],[m]): 00, 10, 11, 20, 21, 22, ... *)
Definition in_glass_alm_order (g l m : nat) : Prop :=
  m <= l /\ 2 * g = l * (l + 1) + 2 * m.

(** An optional upper limit. *)
Definition within (x : nat) (limit : option nat) : bool :=
  match limit with None => true | Some b => x <=? b end.

(** Value of mode [l] after multiplication with an optional pixel window: absent
    when either the spectrum or the window does not reach [l]. *)
Definition smoothed {A P : Type} (mulpw : A -> P -> A) (pixwin : option (list P))
    (cl : list A) (l : nat) : option A :=
  match pixwin with
  | None => nth_error cl l
  | Some pw => match nth_error cl l, nth_error pw l with
               | Some c, Some p => Some (mulpw c p) | _, _ => None end
  end.
