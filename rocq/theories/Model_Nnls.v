(** Model of the non-negative least squares solver in [glass/algorithm.py].
    Floats are real numbers; vectors are functions of the index, matrices functions of row and column. *)
From Coq Require Import Reals List Arith Bool.
From Verif Require Import Base RSum Model_Numeric Model_Arrays.
Import ListNotations.
Local Open Scope R_scope.

(** The indices of the true entries of a mask, [xp.nonzero(q)[0]], and how many there are before [j]. *)
Definition selected (n : nat) (q : nat -> bool) : list nat := filter q (seq 0 n).
Definition rank (q : nat -> bool) (j : nat) : nat := length (selected j q).

(** glass/algorithm.py:88, the index of the first largest entry of [w] among the given indices. *)
Fixpoint first_max (w : nat -> R) (best : nat) (l : list nat) : nat :=
  match l with [] => best | j :: l => first_max w (if ltb (w best) (w j) then j else best) l end.

(** Least of a list of numbers that is not empty. *)
Fixpoint least (r : R) (l : list R) : R := match l with [] => r | x :: l => least (Rmin r x) l end.

(** How the outer loop ended: all variables in use (line 84), the gradient below the tolerance (line 90) or [maxiter]
    iterations.  The code does not return it. *)
Inductive ending := Everything | Tolerance | Limit.

Section Nnls.
  (** [xp.linalg.solve] for a system of the given size; [None] for a singular matrix. *)
  Variable solve : nat -> (nat -> nat -> R) -> (nat -> R) -> option (nat -> R).

  (** glass/algorithm.py:86 *)
  Definition gradient (m n : nat) (a : nat -> nat -> R) (b x : nat -> R) (j : nat) : R :=
    rsum m (fun i => (b i - rsum n (fun k => a i k * x k)) * a i j).

  (** glass/algorithm.py:97-99; [None] if the matrix is singular.  The solution is in the order of the selected
      columns. *)
  Definition restricted (m n : nat) (a : nat -> nat -> R) (b : nat -> R) (q : nat -> bool) : option (nat -> R) :=
    let l := selected n q in
    let aq := fun i k => a i (nth k l O) in
    solve (length l) (fun k k' => rsum m (fun i => aq i k * aq i k')) (fun k => rsum m (fun i => b i * aq i k)).

  (** glass/algorithm.py:92-107, the inner loop and the update after it.  LinAlgError, a ValueError, for a singular
      matrix.  If some [xq = sq] (only for both zero), the step [alpha] and with it [x[q]] is not a number: comparisons
      are false from there on, [q] and [sq] stay the same and the loop does not end, as without [fuel]. *)
  Fixpoint inner (fuel m n : nat) (a : nat -> nat -> R) (b : nat -> R) (q : nat -> bool) (x : nat -> R) : result ((nat -> bool) * (nat -> R)) :=
    match fuel with
    | O => Err OutOfFuel
    | S fuel =>
        match restricted m n a b q with
        | None => Err ValueError
        | Some s =>
            let sq := fun j => s (rank q j) in
            match filter (fun j => leb (sq j) 0) (selected n q) with
            | [] => Ok (q, fun j => if q j then sq j else 0)
            | t :: ts =>
                if existsb (fun j => if Req_EM_T (x j - sq j) 0 then true else false) (t :: ts) then Err OutOfFuel
                else
                  let ratio := fun j => x j / (x j - sq j) in
                  let alpha := - least (ratio t) (map ratio ts) in
                  let x := fun j => if q j then x j + alpha * (sq j - x j) else x j in
                  inner fuel m n a b (fun j => if leb (x j) 0 then false else q j) x
            end
        end
    end.

  (** glass/algorithm.py:82-107, the outer loop. *)
  Fixpoint outer (maxiter fuel m n : nat) (a : nat -> nat -> R) (b : nat -> R) (tol : R) (q : nat -> bool) (x : nat -> R) : result ((nat -> R) * ending) :=
    match maxiter with
    | O => Ok (x, Limit)
    | S maxiter =>
        match selected n (fun j => negb (q j)) with
        | [] => Ok (x, Everything)
        | j :: l =>
            let w := gradient m n a b x in
            let k := first_max w j l in
            if leb (w k) tol then Ok (x, Tolerance)
            else
              do s <- inner fuel m n a b (fun j => if (j =? k)%nat then true else q j) x;
              outer maxiter fuel m n a b tol (fst s) (snd s)
        end
    end.

  (** glass/algorithm.py:21-108 [nnls] for arrays of the given shapes; only entries inside the shape are meant. *)
  Definition nnls (fuel : nat) (sa sb : shape) (a : nat -> nat -> R) (b : nat -> R) (tol : R) (maxiter : option nat) : result ((nat -> R) * ending) :=
    match sa, sb with
    | [m; n], [m'] =>
        if (m =? m')%nat
        then outer (match maxiter with Some k => k | None => 3 * n end) fuel m n a b tol (fun _ => false) (fun _ => 0)
        else Err ValueError
    | _, _ => Err ValueError
    end.
End Nnls.
