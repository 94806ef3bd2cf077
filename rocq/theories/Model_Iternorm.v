(** Model of the iterative normal sampler: [iternorm] and [_generate_grf] in [glass/fields.py]. *)
From Verif Require Import RSum Model_Spectra Model_Fields.
Local Open Scope nat_scope.

(** An array of shape (lead, width): its shape and its elements.  The leading axes of a
    stack are one axis here. *)
Record stack := { lead : nat; width : nat; el : nat -> nat -> R }.

Definition negative (x : R) : bool := if Rlt_dec x 0 then true else false.

(** State of the loop of [iternorm] between iterations: the number [n] of slices,
    the size and elements of the stack of square matrices [m], the vectors [a] and the
    standard deviations [s]. *)
Record iter_state := {
  st_n : nat; st_k : nat;
  st_m : nat -> nat -> nat -> R; st_a : nat -> nat -> R; st_s : nat -> R }.

(** glass/fields.py:147-166: the matrix [m] with a zero column and the new row appended;
    size k+1. *)
Definition extend (k : nat) (m : nat -> nat -> R) (a : nat -> R) (s : R) : nat -> nat -> R :=
  let atm := fun e => rsum k (fun b => (a b * m b e)%R) in
  let u := if Rlt_dec 0 s then 1%R else 0%R in
  let s1 := if Rlt_dec 0 s then s else 1%R in
  fun b e =>
    if b <? k then (if e <? k then m b e else 0%R)
    else ((if e <? k then - atm e else u) / s1)%R.

(** glass/fields.py:168-188: cut the matrix (of size [size] at least [k]) down, compute
    [a], [s] and the output. *)
Definition finish (n k size : nat) (m : nat -> nat -> nat -> R) (row : stack)
    : result (iter_state * stack) :=
  let m' := fun l b e => m l (b + (size - k)) (e + (size - k)) in
  let c := fun l e => el row l (k - e) in                       (* row[..., :0:-1] *)
  let a := fun l b => rsum k (fun e => (m' l b e * c l e)%R) in
  let s2 := fun l => (el row l 0 - rsum k (fun b => a l b * a l b))%R in
  if existsb (fun l => negative (s2 l)) (seq 0 n) then Err ValueError
  else
    let s := fun l => sqrt (s2 l) in
    Ok ({| st_n := n; st_k := k; st_m := m'; st_a := a; st_s := s |},
        {| lead := n; width := k + 1; el := fun l b => if b <? k then a l b else s l |}).

(** One iteration, glass/fields.py:122-188.  [None] is the state before the first
    row.  When a row is wider than the previous one by more than one, the slice in line 169
    has a negative start and the product in line 176 has mismatched sizes: NumPy raises
    ValueError. *)
Definition iter_step (st : option iter_state) (row : stack) : result (iter_state * stack) :=
  if width row =? 0 then Err ValueError
  else
    let k := width row - 1 in
    match st with
    | None => finish (lead row) k k (fun _ _ _ => 0%R) row
    | Some st =>
        if negb (lead row =? st_n st) then Err ValueError
        else if st_k st + 1 <? k then Err ValueError
        else finish (st_n st) k (st_k st + 1)
               (fun l => extend (st_k st) (st_m st l) (st_a st l) (st_s st l)) row
    end.

(** glass/fields.py:101-188 [iternorm]; the covariance rows come from an iterator that
    may itself raise. *)
Fixpoint iter_rows (st : option iter_state) (rows : list stack) (e : option exn) : trace stack :=
  match rows with
  | [] => ([], e)
  | row :: rows =>
      match iter_step st row with
      | Err x => ([], Some x)
      | Ok (st', w) => yield_then w (iter_rows (Some st') rows e)
      end
  end.
Definition iternorm (cov : trace stack) : trace stack := iter_rows None (fst cov) (snd cov).

(** * The generator of modes *)

(** A complex number. *)
Notation C2 := (R * R)%type.
Definition scale (z : C2) (x : R) : C2 := ((fst z * x)%R, (snd z * x)%R).
Definition cadd (z w : C2) : C2 := ((fst z + fst w)%R, (snd z + snd w)%R).

(** Elementwise sum of two arrays of equal size (ValueError otherwise; broadcasting of
    length one arrays is not used by this code). *)
Definition vadd (x y : list C2) : result (list C2) :=
  if length x =? length y then Ok (map (fun '(a, b) => cadd a b) (combine x y)) else Err ValueError.

(** glass/fields.py:420 [sum(multalm(z, w[..., i + mis]) for i, z in enumerate(y))]; Python's [sum]
    starts from 0, and y is never empty (it contains the variate just drawn). *)
Fixpoint sum_alm (w : stack) (mis : nat) (y : list (nat * list C2)) : result (list C2) :=
  match y with
  | [] => Ok []
  | [(i, z)] => multalm scale z (map (fun l => el w l (i + mis)) (seq 0 (lead w)))
  | (i, z) :: y =>
      do t <- multalm scale z (map (fun l => el w l (i + mis)) (seq 0 (lead w)));
      do r <- sum_alm w mis y;
      vadd t r
  end.

(** glass/fields.py:422-425: reorder and make the m = 0 modes real. *)
Definition finish_alm (n : nat) (alm : list C2) : result (list C2) :=
  do alm <- glass_to_healpix_alm alm;
  Ok (map (fun z => ((fst z + snd z)%R, 0%R)) (firstn n alm) ++ skipn n alm).

(** glass/fields.py:404-429, the loop over the rows of [iternorm].  [draws] is the sequence of
    arrays of complex standard normals [xrng.standard_normal((z_size, 2)) @ [1, 1j]], one per
    iteration; [y] is the deque, oldest first. *)
Fixpoint grf_loop {M} (alm2map : list C2 -> M) (n : nat) (draws : nat -> list C2)
    (i : nat) (y : list (list C2)) (ws : list stack) (e : option exn) : trace (M * list (list C2)) :=
  match ws with
  | [] => ([], e)
  | w :: ws =>
      let y := y ++ [draws i] in
      let y := skipn (length y - width w) y in
      let mis := width w - length y in
      match (do alm <- sum_alm w mis (enum y); finish_alm n alm) with
      | Err x => ([], Some x)
      | Ok alm => yield_then (alm2map alm, y) (grf_loop alm2map n draws (i + 1) y ws e)
      end
  end.

(** A covariance array of [cls2cov] (list of columns) as a stack. *)
Definition stack_of_columns (nl : nat) (cols : list (list R)) : stack :=
  {| lead := nl; width := length cols; el := fun l j => nth l (nth j cols []) 0%R |}.

(** glass/fields.py:334-429 [_generate_grf].  Each yielded map is shown together with the
    content of the deque at that time.  The rows of [cls2cov] are consumed one at a time,
    so its reuse of one array has no effect (theorem [cls2cov_lazy_rows]).  An empty list of
    spectra fails earlier in the code, when the array namespace is looked up (line 377); here it
    fails with "all gls are empty". *)
Definition generate_grf {M} (alm2map : list C2 -> M) (draws : nat -> list C2)
    (gls : list (list R)) (ncorr : option nat) : trace (M * list (list C2)) :=
  match nfields_from_nspectra (length gls) with
  | Err e => ([], Some e)
  | Ok ngrf =>
      let ncorr := match ncorr with Some c => c | None => ngrf - 1 end in
      let n := max_length (map (@length R) gls) in
      if n =? 0 then ([], Some ValueError)
      else
        let cov := cls2cov 0%R (fun x => (x / 2)%R) negative gls n ngrf ncorr in
        let rows := (map (stack_of_columns n) (fst cov), snd cov) in
        let ws := iternorm rows in
        grf_loop alm2map n draws 0 [] (fst ws) (snd ws)
  end.
