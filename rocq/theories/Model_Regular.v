(** Model of the regularisation of angular power spectra in [glass/fields.py]: the matrices of [Model_Fields] with the
    methods of [Model_Cov]. *)
From Coq Require Import String Reals List Arith.
From Verif Require Import Base Model_Numeric Model_Arrays Model_Spectra Model_Fields Model_Cov.
Import ListNotations.
Local Open Scope R_scope.

Section Regular.
  Variable eigh : nat -> mat -> (nat -> R) * mat.
  Variable eps : R.

  (** The array of shape (k, n, n) as a stack of matrices with one leading axis. *)
  Definition stack_of (c : cube R) : stack := {| ashape := [ck c]; aget := fun i => match i with [l] => Some (cget c l) | _ => None end |}.
  (** Back, [None] for entries that are not numbers. *)
  Definition cube_of (k n : nat) (s : stack) : cube (option R) :=
    {| ck := k; cn := n; cget := fun l i j => match aget s [l] with Some M => Some (M i j) | None => None end |}.

  (** glass/fields.py:1035-1052 [check_posdef_spectra]; [eigvalsh] are the eigenvalues of [eigh]. *)
  Definition check_posdef_spectra (spectra : list (option (list R))) : result bool :=
    do cov <- cov_from_spectra 0 spectra None;
    Ok (forallb (fun l => forallb (fun k => leb 0 (fst (eigh (cn cov) (cget cov l)) k)) (seq 0 (cn cov))) (seq 0 (ck cov))).

  (** glass/fields.py:1055-1110 [regularized_spectra], with the keyword arguments of the methods: [rtol] of clip, [tol]
      and [niter] of nearest.  The second result is false if there is a warning. *)
  Definition regularize (method : string) (rtol tol : option R) (niter : nat) (spectra : list (option (list R))) (lmax : option nat) :
      result (list (list (option R)) * bool) :=
    if String.eqb method "clip" then
      do cov <- cov_from_spectra 0 spectra lmax;
      do s <- cov_clip eigh eps (cn cov) (stack_of cov) rtol;
      Ok (read_out (cube_of (ck cov) (cn cov) s), true)
    else if String.eqb method "nearest" then
      do cov <- cov_from_spectra 0 spectra lmax;
      do s <- cov_nearest eigh eps (cn cov) (stack_of cov) tol niter;
      Ok (read_out (cube_of (ck cov) (cn cov) (fst s)), snd s)
    else Err ValueError.
End Regular.
