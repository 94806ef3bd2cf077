(** Model of the covariance and spectra bookkeeping in [glass/fields.py]. *)
From Verif Require Import Base Model_Spectra.

(** What a Python generator produces when it is run to its end: the values yielded
    and the exception that ended it, if any. *)
Definition trace (A : Type) : Type := list A * option exn.
Definition yield_then {A} (x : A) (t : trace A) : trace A := (x :: fst t, snd t).

Fixpoint set_item {A} (l : list A) (i : nat) (x : A) : list A :=
  match l, i with
  | [], _ => []
  | _ :: l', 0 => x :: l'
  | y :: l', S i' => y :: set_item l' i' x
  end.

(** * cls2cov (glass/fields.py:191-236)

    The array [cov] of shape (nl, nc+1) is a list of its nc+1 columns.  [half x] is
    [x / 2], [neg x] is [x < 0]. *)
Section Cls2cov.
  Context {A : Type} (zero : A) (half : A -> A) (neg : A -> bool).

  (** lines 233-234: [cov[:n, i] = cl; cov[n:, i] = 0.0].  A spectrum longer than
      [nl] does not fit (ValueError), except that NumPy broadcasts one of length one
      into zero rows. *)
  Definition put_column (nl : nat) (cov : list (list A)) (i : nat) (cl : list A)
      : result (list (list A)) :=
    let n := length cl in
    if n <=? nl then Ok (set_item cov i (cl ++ repeat zero (nl - n)))
    else if n =? 1 then Ok cov
    else Err ValueError.

  (** lines 228-234, the inner loop *)
  Fixpoint fill_row (nl : nat) (cov : list (list A)) (items : list (nat * list A))
      : result (list (list A)) :=
    match items with
    | [] => Ok cov
    | (i, cl) :: items =>
        if (i =? 0) && existsb neg cl then Err ValueError
        else do cov <- put_column nl cov i cl; fill_row nl cov items
    end.

  (** lines 226-236, the outer loop from field [j] on, [rem] fields to go *)
  Fixpoint cov_rows (cls : list (list A)) (nl nc rem j stop : nat) (cov : list (list A))
      : trace (list (list A)) :=
    match rem with
    | 0 => ([], None)
    | S rem =>
        let start := stop in
        let stop := stop + j + 1 in
        match fill_row nl cov (enum (firstn (nc + 1) (firstn (stop - start) (skipn start cls)))) with
        | Err e => ([], Some e)
        | Ok cov =>
            let cov := map (map half) cov in
            yield_then cov (cov_rows cls nl nc rem (j + 1) stop cov)
        end
    end.

  Definition cls2cov (cls : list (list A)) (nl nf nc : nat) : trace (list (list A)) :=
    cov_rows cls nl nc nf 0 0 (repeat (repeat zero nl) (nc + 1)).

  (** The same with NumPy's in-place updates: the heap maps addresses to arrays, the
      generator allocates one array, updates it through its address and yields the address.
      [xpx.at(cov)[...].set] and [cov /= 2] both update a NumPy array in place.
      The result records the heap at the time of each yield together with the address.
      (JAX arrays are immutable; there each step makes a new array.) *)
  Definition heap := list (list (list A)).
  Fixpoint cov_rows_heap (cls : list (list A)) (nl nc rem j stop : nat) (addr : nat) (h : heap)
      : trace (heap * nat) :=
    match rem with
    | 0 => ([], None)
    | S rem =>
        let start := stop in
        let stop := stop + j + 1 in
        match nth_error h addr with
        | None => ([], Some RuntimeError)      (* unreachable: dangling address *)
        | Some cov =>
            match fill_row nl cov (enum (firstn (nc + 1) (firstn (stop - start) (skipn start cls)))) with
            | Err e => ([], Some e)
            | Ok cov =>
                let h := set_item h addr (map (map half) cov) in
                yield_then (h, addr) (cov_rows_heap cls nl nc rem (j + 1) stop addr h)
            end
        end
    end.
  Definition cls2cov_heap (h : heap) (cls : list (list A)) (nl nf nc : nat) : trace (heap * nat) :=
    let addr := length h in
    let h := h ++ [repeat (repeat zero nl) (nc + 1)] in
    cov_rows_heap cls nl nc nf 0 0 addr h.
End Cls2cov.

(** * cov_from_spectra and regularized_spectra *)
Section Covariance.
  Context {A : Type} (zero : A).

  (** An array of shape (k, n, n): shape and elements. *)
  Record cube := { ck : nat; cn : nat; cget : nat -> nat -> nat -> A }.

  (** [cov[:size, i, j] = v] with [len(v) = size]; IndexError outside the array. *)
  Definition cset (c : cube) (i j : nat) (v : list A) : result cube :=
    if (i <? cn c) && (j <? cn c) then
      Ok {| ck := ck c; cn := cn c;
            cget := fun l a b =>
              if (a =? i) && (b =? j) then
                match nth_error v l with Some x => x | None => cget c l a b end
              else cget c l a b |}
    else Err IndexError.

  (** Python [max(..., default=0)] of lengths. *)
  Definition max_length (l : list nat) : nat := fold_right Nat.max 0 l.

  (** [cl.shape[0]]; [None] entries have no attribute [shape]. *)
  Definition shape0 (cl : option (list A)) : result nat :=
    match cl with Some c => Ok (length c) | None => Err AttributeError end.

  Fixpoint fill_cube (c : cube) (items : list (nat * nat * option (list A))) : result cube :=
    match items with
    | [] => Ok c
    | (i, j, cl) :: items =>
        match cl with
        | None => Err AttributeError
        | Some cl =>
            let size := Nat.min (ck c) (length cl) in
            do c <- cset c i j (firstn size cl);
            do c <- cset c j i (firstn size cl);
            fill_cube c items
        end
    end.

  (** glass/fields.py:985-1032 [cov_from_spectra].  Spectra are one-dimensional, so the
      reshape is the identity.  [spectra[0]] on an empty list is an IndexError. *)
  Definition cov_from_spectra (spectra : list (option (list A))) (lmax : option nat) : result cube :=
    do n <- nfields_from_nspectra (length spectra);
    do k <- match lmax with
            | None => do ls <- mapM shape0 spectra; Ok (max_length ls)
            | Some lm => Ok (lm + 1)
            end;
    do first <- index spectra 0;
    do _ <- shape0 first;                      (* spectra[0].dtype *)
    fill_cube {| ck := k; cn := n; cget := fun _ _ _ => zero |} (enumerate_spectra spectra).

  (** glass/fields.py:1109-1110: [[cov[:, i, j] for i, j in spectra_indices(n)]] *)
  Definition read_out (c : cube) : list (list A) :=
    map (fun '(i, j) => map (fun l => cget c l i j) (seq 0 (ck c))) (spectra_indices (cn c)).

  (** glass/fields.py:1055-1110 [regularized_spectra] with the regularisation of the
      stack of matrices as a parameter. *)
  Definition regularized_spectra (method : cube -> result cube)
      (spectra : list (option (list A))) (lmax : option nat) : result (list (list A)) :=
    do cov <- cov_from_spectra spectra lmax;
    do cov <- method cov;
    Ok (read_out cov).
End Covariance.
Arguments cube A : clear implicits.

(** * Gaussian spectra *)
Section Gaussian.
  Context {F A : Type} (zero : A) (is_zero : A -> bool).

  (** glass/fields.py:743-775 [compute_gaussian_spectra]; [compute cl t1 t2] is
      [glass.grf.compute] and may raise. *)
  Definition compute_gaussian_spectra (compute : list A -> F -> F -> result (list A))
      (fields : list F) (spectra : list (list A)) : result (list (list A)) :=
    let n := length fields in
    if negb (length spectra =? n * (n + 1) / 2) then Err ValueError
    else mapM (fun '(i, j, cl) =>
           if 0 <? length cl then
             do t1 <- index fields i; do t2 <- index fields j; compute cl t1 t2
           else Ok (map (fun _ => zero) cl)) (enumerate_spectra spectra).

  (** glass/fields.py:778-836 [solve_gaussian_spectra]; [solve cl t1 t2 pad monopole]
      is [glass.grf.solve]: Gaussian spectrum and info flag.  The result also lists
      the warnings (field indices). *)
  Fixpoint solve_all (solve : list A -> F -> F -> nat -> option A -> result (list A * nat))
      (fields : list F) (items : list (nat * nat * list A))
      : result (list (list A) * list (nat * nat)) :=
    match items with
    | [] => Ok ([], [])
    | (i, j, cl) :: items =>
        do r <- (if 0 <? length cl then
                   do t1 <- index fields i; do t2 <- index fields j;
                   do c0 <- index cl 0;
                   let pad := 2 * length cl in
                   let monopole := if is_zero c0 then Some zero else None in
                   do s <- solve cl t1 t2 pad monopole;
                   let '(gl, info) := s in
                   Ok (gl, if info =? 0 then [(i, j)] else [])
                 else Ok (map (fun _ => zero) cl, []));
        do rest <- solve_all solve fields items;
        let '(gl, w) := r in let '(gls, ws) := rest in
        Ok (gl :: gls, w ++ ws)
    end.
  Definition solve_gaussian_spectra (solve : list A -> F -> F -> nat -> option A -> result (list A * nat))
      (fields : list F) (spectra : list (list A)) : result (list (list A) * list (nat * nat)) :=
    let n := length fields in
    if negb (length spectra =? n * (n + 1) / 2) then Err ValueError
    else if length spectra =? 0 then Ok ([], [])
    else solve_all solve fields (enumerate_spectra spectra).
End Gaussian.

(** * generate *)
Section Generate.
  Context {A M T : Type}.   (* numbers of spectra, maps, transformations *)

  (** Python [zip(fields, grf, variances, strict=True)]: the map generator is advanced
      after the field and before the variance; [variances] is a lazy generator that may
      raise.  Exhaustion of one but not all iterators is a ValueError. *)
  Fixpoint transform_all (apply : T -> M -> A -> result M) (fields : list T) (grf : trace M)
      (vars : list (result A)) : trace M :=
    match fields with
    | [] =>
        match fst grf with
        | _ :: _ => ([], Some ValueError)
        | [] => match snd grf with
                | Some e => ([], Some e)
                | None => match vars with
                          | [] => ([], None)
                          | Err e :: _ => ([], Some e)
                          | Ok _ :: _ => ([], Some ValueError)
                          end
                end
        end
    | t :: fields =>
        match fst grf with
        | [] => ([], Some (match snd grf with Some e => e | None => ValueError end))
        | x :: xs =>
            match vars with
            | [] => ([], Some ValueError)
            | Err e :: _ => ([], Some e)
            | Ok v :: vars =>
                match apply t x v with
                | Err e => ([], Some e)
                | Ok y => yield_then y (transform_all apply fields (xs, snd grf) vars)
                end
            end
        end
    end.

  (** glass/fields.py:839-894 [generate].  [generate_grf gls ncorr] is the trace of
      [_generate_grf] for the given nside and random stream; [cltovar] is external. *)
  Definition generate (zero : A) (cltovar : list A -> result A) (apply : T -> M -> A -> result M)
      (generate_grf : list (list A) -> option nat -> trace M)
      (fields : list T) (gls : list (list A)) (ncorr : option nat) : trace M :=
    let n := length fields in
    if negb (length gls =? n * (n + 1) / 2) then ([], Some ValueError)
    else
      let variances := map (fun i => do cl <- getcl zero gls i i None; cltovar cl) (seq 0 n) in
      transform_all apply fields (generate_grf gls ncorr) variances.

  (** glass/fields.py:432-482 [generate_gaussian] and 485-522 [generate_lognormal]: the
      list of equal transformations, then [generate]. *)
  Definition generate_same (zero : A) cltovar apply generate_grf (t : T)
      (gls : list (list A)) (ncorr : option nat) : trace M :=
    match nfields_from_nspectra (length gls) with
    | Err e => ([], Some e)
    | Ok n => generate zero cltovar apply generate_grf (repeat t n) gls ncorr
    end.
End Generate.
