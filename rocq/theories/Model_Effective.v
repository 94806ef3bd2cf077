(** Model of [effective_cls] in [glass/fields.py]. *)
From Verif Require Import RSum Model_Spectra Model_Fields Model_Arrays.
Local Open Scope nat_scope.

(** [numpy.ndindex(shape)]: all multi-indices, last axis fastest. *)
Fixpoint ndindex (s : list nat) : list (list nat) :=
  match s with
  | [] => [[]]
  | d :: s => flat_map (fun i => map (cons i) (ndindex s)) (seq 0 d)
  end.

(** [itertools.combinations_with_replacement(l, 2)] and [itertools.product(l, l')]. *)
Fixpoint combinations2 {A} (l : list A) : list (A * A) :=
  match l with [] => [] | x :: r => map (fun y => (x, y)) (x :: r) ++ combinations2 r end.
Definition product {A B} (l : list A) (l' : list B) : list (A * B) :=
  flat_map (fun x => map (fun y => (x, y)) l') l.

(** glass/fields.py:525-560 [getcl] with [lmax = k - 1]; [k] is a natural number, so
    that [lmax = -1], which [effective_cls] passes when all spectra are empty, is covered. *)
Definition getcl_modes (cls : list (list R)) (i j k : nat) : result (list R) :=
  do cl <- getcl 0%R cls i j None;
  Ok (if k <? length cl then firstn k cl else cl ++ repeat 0%R (k - length cl)).

(** glass/fields.py:685-689, the [sum] over a generator expression: Python's [sum]
    starts from 0, here from a zero vector of the right size. *)
Fixpoint add_terms (cls : list (list R)) (k : nat) (w1 w2 : nat -> R) (terms : list (nat * nat))
    (acc : list R) : result (list R) :=
  match terms with
  | [] => Ok acc
  | (a, b) :: terms =>
      do cl <- getcl_modes cls a b k;
      add_terms cls k w1 w2 terms
        (map (fun '(s, x) => (s + w1 a * w2 b * x)%R) (combine acc cl))
  end.

(** The output array, indexed by all axes but the last: [None] is memory that [xp.empty]
    has left uninitialised. *)
Definition store := list nat -> option (list R).
Definition put (out : store) (i : list nat) (v : list R) : store :=
  fun i' => if list_eq_dec Nat.eq_dec i' i then Some v else out i'.

(** glass/fields.py:683-692, the loop over pairs of multi-indices. *)
Fixpoint fill_out (cls : list (list R)) (n k : nat) (weights1 weights2 : array R) (same : bool)
    (pairs : list (list nat * list nat)) (out : store) : result store :=
  match pairs with
  | [] => Ok out
  | (j1, j2) :: pairs =>
      do cl <- add_terms cls k (fun i => aget weights1 (i :: j1)) (fun i => aget weights2 (i :: j2))
                 (product (seq 0 n) (seq 0 n)) (repeat 0%R k);
      let out := put out (j1 ++ j2) cl in
      let out := if same && (if list_eq_dec Nat.eq_dec j1 j2 then false else true)
                 then put out (j2 ++ j1) cl else out in
      fill_out cls n k weights1 weights2 same pairs out
  end.

(** glass/fields.py:607-693 [effective_cls]: shape of the result and its contents.
    [weights2 = None] also stands for passing the very same array twice.  [lmax] is not
    negative if given. *)
Definition effective_cls (cls : list (list R)) (weights1 : array R) (weights2 : option (array R))
    (lmax : option nat) : result (list nat * store) :=
  do n <- nfields_from_nspectra (length cls);
  let k := match lmax with None => max_length (map (@length R) cls) | Some lm => lm + 1 end in
  let same := match weights2 with None => true | Some _ => false end in
  let weights2 := match weights2 with None => weights1 | Some w => w end in
  match ashape weights1, ashape weights2 with
  | n1 :: s1, n2 :: s2 =>
      if negb ((n1 =? n) && (n2 =? n)) then Err ValueError
      else
        let pairs := if same then combinations2 (ndindex s1) else product (ndindex s1) (ndindex s2) in
        do out <- fill_out cls n k weights1 weights2 same pairs (fun _ => None);
        Ok (s1 ++ s2 ++ [k], out)
  | _, _ => Err ValueError
  end.
