(** Model of the covariance matrices in [glass/algorithm.py].
    Floats are real numbers; a matrix of size [n] is a function of row and column, a stack of matrices is an array of
    them by leading multi-index.  [None] is a matrix with entries that are not numbers. *)
From Coq Require Import Reals List Arith.
From Verif Require Import Base RSum Model_Numeric Model_Arrays Model_Effective.
Import ListNotations.
Local Open Scope R_scope.

Notation mat := (nat -> nat -> R).
Notation stack := (array (option mat)).

(** Binary operation with broadcasting of the leading axes. *)
Definition binary (f : mat -> mat -> mat) (a b : stack) : result stack :=
  do s <- broadcast2 (ashape a) (ashape b);
  do a <- broadcast_to a s;
  do b <- broadcast_to b s;
  Ok {| ashape := s; aget := fun i => match aget a i, aget b i with Some A, Some B => Some (f A B) | _, _ => None end |}.
Definition elementwise (f : mat -> option mat) (a : stack) : stack :=
  {| ashape := ashape a; aget := fun i => match aget a i with Some A => f A | None => None end |}.

(** [xp.reshape] of the leading axes: the elements in the order of [ndindex]; ValueError if the numbers of elements
    differ. *)
Fixpoint position (k : list nat) (l : list (list nat)) : nat :=
  match l with [] => 0 | x :: l => if list_eq_dec Nat.eq_dec k x then 0 else S (position k l) end.
Definition reshape (a : stack) (s : shape) : result stack :=
  if (length (ndindex (ashape a)) =? length (ndindex s))%nat
  then Ok {| ashape := s; aget := fun k => aget a (nth (position k (ndindex s)) (ndindex (ashape a)) []) |}
  else Err ValueError.

(** Largest of the first [n] numbers, [n > 0]. *)
Fixpoint largest (n : nat) (w : nat -> R) : R :=
  match n with O => 0 | 1%nat => w O | S m => Rmax (largest m w) (w m) end.

(** Frobenius norm [xp.linalg.matrix_norm]. *)
Definition frob (n : nat) (A : mat) : R := sqrt (rsum n (fun i => rsum n (fun j => A i j ^ 2))).

Section Covariance.
  (** [xp.linalg.eigh]: eigenvalues and, in columns, eigenvectors. *)
  Variable eigh : nat -> mat -> (nat -> R) * mat.
  (** [xp.finfo(dtype).eps]. *)
  Variable eps : R.

  (** glass/algorithm.py:134-149 of a single matrix; NaN from the square root of a negative number, which gets into
      all entries of the product. *)
  Definition clip_matrix (n : nat) (rtol : option R) (A : mat) : option mat :=
    let '(w, v) := eigh n A in
    let rtol := match rtol with Some r => r | None => INR n * eps end in
    let c := rtol * largest n w in
    let w := fun k => Rmax (w k) c in
    if forallb (fun k => leb 0 (w k)) (seq 0 n)
    then
      let v := fun i k => sqrt (w k) * v i k in
      Some (fun i j => rsum n (fun k => v i k * v j k))
    else None.

  (** glass/algorithm.py:111-149 [cov_clip]; without rows there is no largest eigenvalue, a ValueError. *)
  Definition cov_clip (n : nat) (cov : stack) (rtol : option R) : result stack :=
    if (n =? 0)%nat then Err ValueError else Ok (elementwise (clip_matrix n rtol) cov).

  Definition minus (A B : mat) : mat := fun i j => A i j - B i j.
  (** glass/algorithm.py:213 *)
  Definition unit_diagonal (X : mat) : mat := fun i j =>
    let d := if (i =? j)%nat then 1 else 0 in (1 - d) * X i j + d.
  (** glass/algorithm.py:216 *)
  Definition converged (n : nat) (tol : R) (y x : stack) : bool :=
    forallb (fun i => match aget y i, aget x i with
                      | Some Y, Some X => leb (frob n (minus Y X)) (tol * frob n Y)
                      | _, _ => false
                      end) (ndindex (ashape y)).

  (** glass/algorithm.py:202-217, the loop; the result with whether it was ended by [break]. *)
  Fixpoint nearcorr_loop (niter n : nat) (tol : R) (y ds : stack) : result (stack * bool) :=
    match niter with
    | O => Ok (y, false)
    | S niter =>
        do r <- binary minus y ds;
        do x <- cov_clip n r None;
        do ds <- binary minus x r;
        let y := elementwise (fun X => Some (unit_diagonal X)) x in
        if converged n tol y x then Ok (y, true) else nearcorr_loop niter n tol y ds
    end.

  (** glass/algorithm.py:152-231 [nearcorr] for matrices with [m] rows and [n] columns; the second result is false if
      there is a warning.  The correction [ds] has the shape of the input, while [y] is flattened. *)
  Definition nearcorr (m n : nat) (a : stack) (tol : option R) (niter : nat) : result (stack * bool) :=
    if negb (m =? n)%nat then Err ValueError
    else if (n =? 0)%nat then Err ValueError
    else
      let tol := match tol with Some t => t | None => INR n * eps end in
      do y <- reshape a [length (ndindex (ashape a))];
      let ds := elementwise (fun _ => Some (fun _ _ => 0)) a in
      do r <- nearcorr_loop niter n tol y ds;
      do y <- reshape (fst r) (ashape a);
      Ok (y, snd r).

  (** glass/algorithm.py:234-277 [cov_nearest]. *)
  Definition cov_nearest (n : nat) (cov : stack) (tol : option R) (niter : nat) : result (stack * bool) :=
    if existsb (fun i => match aget cov i with
                         | Some A => existsb (fun k => ltb (A k k) 0) (seq 0 n)
                         | None => false
                         end) (ndindex (ashape cov))
    then Err ValueError
    else
      let norm := fun (A : mat) (i j : nat) => sqrt (A j j) * sqrt (A i i) in
      let corr := elementwise (fun A => Some (fun i j => A i j / (if ltb 0 (norm A i j) then norm A i j else 1))) cov in
      do r <- nearcorr n n corr tol niter;
      do b <- binary (fun Y A => fun i j => Y i j * norm A i j) (fst r) cov;
      Ok (b, snd r).
End Covariance.
