(** Model of [glass/grf]: transformations of Gaussian random fields and the solver for their spectra.
    Floats are real numbers, see DESIGN.md; [None] is a float that is not finite (NaN or infinite). *)
From Coq Require Import Reals Lra ZArith.
From Verif Require Import Base Model_Numeric.
Local Open Scope R_scope.

Notation num := (option R).

(** glass/grf/_transformations.py:14, 62, 141: the classes. *)
Inductive transformation :=
| Normal
| Lognormal (lamda : R)
| SquaredNormal (a lamda : R).

(** The methods [__call__], lines 26-28, 83-89, 170-175. *)
Definition call (t : transformation) (x var : R) : R :=
  match t with
  | Normal => x
  | Lognormal lamda =>
      let x := exp (x - var / 2) - 1 in
      if Req_EM_T lamda 1 then x else lamda * x
  | SquaredNormal a lamda =>
      let x := (x - a) ^ 2 - 1 in
      if Req_EM_T lamda 1 then x else lamda * x
  end.

(** The methods [corr], lines 30-38, 91-105, 177-188, applied to each entry; [None] is [NotImplemented]. *)
Definition corr_method (self other : transformation) : option (R -> num) :=
  match self, other with
  | Normal, Normal => Some (fun x => Some x)
  | Lognormal l, Lognormal l' => Some (fun x => Some (l * l' * (exp x - 1)))
  | Lognormal l, Normal => Some (fun x => Some (l * x))
  | SquaredNormal a l, SquaredNormal a' l' =>
      let aa := a * a' in let ll := l * l' in Some (fun x => Some (2 * ll * x * (x + 2 * aa)))
  | _, _ => None
  end.

(** Division, [log1p] and [sqrt], where the result is finite.  No difference is made between infinite values and NaN,
    so what becomes of the infinite value of [log1p] at -1 is not followed. *)
Definition divide (x y : R) : num := if Req_EM_T y 0 then None else Some (x / y).
Definition log1p (x : R) : num := if Rle_dec x (-1) then None else Some (ln (1 + x)).
Definition root (x : R) : num := if Rlt_dec x 0 then None else Some (sqrt x).
Definition nbind (x : num) (f : R -> num) : num := match x with Some x => f x | None => None end.

(** The methods [icorr], lines 40-48, 107-121, 190-203. *)
Definition icorr_method (self other : transformation) : option (R -> num) :=
  match self, other with
  | Normal, Normal => Some (fun x => Some x)
  | Lognormal l, Lognormal l' => Some (fun x => nbind (divide x (l * l')) log1p)
  | Lognormal l, Normal => Some (fun x => divide x l)
  | SquaredNormal a l, SquaredNormal a' l' =>
      let aa := a * a' in let ll := l * l' in
      Some (fun x => nbind (divide x (2 * ll)) (fun y => nbind (root (y + aa ^ 2)) (fun r => Some (r - aa))))
  | _, _ => None
  end.

(** The methods [dcorr], lines 50-58, 123-137, 205-216. *)
Definition dcorr_method (self other : transformation) : option (R -> num) :=
  match self, other with
  | Normal, Normal => Some (fun x => Some (1 + 0 * x))
  | Lognormal l, Lognormal l' => Some (fun x => Some (l * l' * exp x))
  | Lognormal l, Normal => Some (fun x => Some (l + 0 * x))
  | SquaredNormal a l, SquaredNormal a' l' =>
      let aa := a * a' in let ll := l * l' in Some (fun x => Some (4 * ll * (x + aa)))
  | _, _ => None
  end.

(** glass/grf/_core.py:79-86, 105-112, 131-138: try the method of either object. *)
Definition dispatch {T F} (method : T -> T -> option F) (t1 t2 : T) : result F :=
  match method t1 t2 with
  | Some f => Ok f
  | None => match method t2 t1 with Some f => Ok f | None => Err NotImplementedError end
  end.

(** glass/grf/_core.py:63-86 [corr], 89-112 [icorr], 115-138 [dcorr]. *)
Definition corr := dispatch corr_method.
Definition icorr := dispatch icorr_method.
Definition dcorr := dispatch dcorr_method.

(** * Arrays with entries that may not be finite *)
Definition apply (f : R -> num) (x : list num) : list num := map (fun v => nbind v f) x.
Definition zip (f : R -> R -> num) (x y : list num) : list num :=
  map (fun p => nbind (fst p) (fun a => nbind (snd p) (fun b => f a b))) (combine x y).
Definition sub (x y : list num) := zip (fun a b => Some (a - b)) x y.
Definition add (x y : list num) := zip (fun a b => Some (a + b)) x y.
Definition quot (x y : list num) := zip divide x y.
(** [np.pad(x, (0, pad))] *)
Definition padded (x : list num) (pad : nat) : list num := x ++ repeat (Some 0) pad.
(** [x[0] = v]; IndexError for an empty array. *)
Definition set_first (x : list num) (v : num) : result (list num) :=
  match x with [] => Err IndexError | _ :: x => Ok (v :: x) end.

(** Relative errors: finite, infinite or NaN, and [<=] on them. *)
Inductive err := Fin (e : R) | Infinite | NaN.
Definition err_le (a b : err) : bool :=
  match a, b with
  | Fin x, Fin y => leb x y
  | Fin _, Infinite | Infinite, Infinite => true
  | _, _ => false
  end.
(** [max] for two entries: NaN wins. *)
Definition err_max (a b : err) : err :=
  match a, b with
  | NaN, _ | _, NaN => NaN
  | Infinite, _ | _, Infinite => Infinite
  | Fin x, Fin y => Fin (Rmax x y)
  end.
Fixpoint err_maximum (l : list err) : err :=
  match l with [] => Fin 0 | [e] => e | e :: l => err_max e (err_maximum l) end.

(** glass/grf/_solver.py:20-23 [_relerr]; the maximum of an empty array is a ValueError.  Dividing by an entry
    of [x] that is not finite is taken to give NaN: in [solve] the dividend is not finite then either. *)
Definition relerr (dx x : list num) : result err :=
  match dx with
  | [] => Err ValueError
  | _ =>
      Ok (err_maximum (map (fun p =>
        match fst p, snd p with
        | Some d, Some v =>
            if Req_EM_T d 0 then Fin 0
            else if Req_EM_T v 0 then Infinite else Fin (Rabs (d / v))
        | Some d, None => if Req_EM_T d 0 then Fin 0 else NaN
        | None, _ => NaN
        end) (combine dx x)))
  end.

Section Solver.
  (** [transformcl.cltocorr] and [transformcl.corrtocl], for arrays of finite numbers.  They are linear: with one
      entry that is not finite, all results are taken to be not finite. *)
  Variables cltocorr corrtocl : list R -> list R.
  Definition finite (x : list num) : option (list R) :=
    fold_right (fun v r => match v, r with Some v, Some r => Some (v :: r) | _, _ => None end) (Some []) x.
  Definition lifted (f : list R -> list R) (x : list num) : list num :=
    match finite x with Some x => map Some (f x) | None => map (fun _ => None) x end.

  Variables t1 t2 : transformation.

  (** glass/grf/_core.py:141-179 [compute] with [t2] given. *)
  Definition compute (cl : list num) : result (list num) :=
    do f <- icorr t1 t2;
    Ok (lifted corrtocl (apply f (lifted cltocorr cl))).

  (** glass/grf/_solver.py:107-112 and 133-138: the correlations of [gl], the realised spectrum, its residual and
      the error. *)
  Definition evaluate (cl gl : list num) (pad : nat) (monopole : option R) : result (list num * list num * list num * err) :=
    let gt := lifted cltocorr (padded gl pad) in
    do f <- corr t1 t2;
    let rl := lifted corrtocl (apply f gt) in
    let fl := sub (firstn (length cl) rl) cl in
    do fl <- match monopole with Some _ => set_first fl (Some 0) | None => Ok fl end;
    do e <- relerr fl cl;
    Ok (gt, rl, fl, e).

  (** glass/grf/_solver.py:131-141, [while True]: halve the step until the error does not increase.  With floats the
      step eventually underflows, which real numbers do not. *)
  Fixpoint halve (fuel : nat) (cl gl xl : list num) (pad : nat) (monopole : option R) (clerr : err)
      : result (list num * list num * (list num * list num * list num * err)) :=
    match fuel with
    | O => Err OutOfFuel
    | S fuel =>
        let gl_ := add gl xl in
        do r <- evaluate cl gl_ pad monopole;
        if err_le (snd r) clerr then Ok (gl_, xl, r)
        else halve fuel cl gl (apply (fun x => Some (x / 2)) xl) pad monopole clerr
    end.

  (** glass/grf/_solver.py:117-146, the loop; bits 1 and 2 of [info] are two Booleans. *)
  Fixpoint iterate (maxiter fuel : nat) (cl gl : list num) (r : list num * list num * list num * err) (pad : nat)
      (monopole : option R) (cltol gltol : R) (info2 : bool) : result (list num * list num * (bool * bool)) :=
    let '(gt, rl, fl, clerr) := r in
    match maxiter with
    | O => Ok (gl, rl, (false, info2))
    | S maxiter =>
        let info1 := err_le clerr (Fin cltol) in
        if info1 || info2 then Ok (gl, rl, (info1, info2))
        else
          let ft := lifted cltocorr (padded fl pad) in
          do d <- dcorr t1 t2;
          let dt := apply d gt in
          let xl := apply (fun x => Some (- x)) (firstn (length cl) (lifted corrtocl (quot ft dt))) in
          do xl <- match monopole with Some _ => set_first xl (Some 0) | None => Ok xl end;
          do h <- halve fuel cl gl xl pad monopole clerr;
          let '(gl_, xl, r_) := h in
          do e <- relerr xl gl;
          iterate maxiter fuel cl gl_ r_ pad monopole cltol gltol (err_le e (Fin gltol))
    end.

  (** glass/grf/_solver.py:27-148 [solve] with [t2] given; [info] is returned as its two bits. *)
  Definition solve (fuel : nat) (cl : list num) (pad : Z) (initial : option (list num)) (cltol gltol : R) (maxiter : nat)
      (monopole : option R) : result (list num * list num * (bool * bool)) :=
    let n := length cl in
    if (pad <? 0)%Z then Err ValueError
    else
      let pad := Z.to_nat pad in
      do gl <- match initial with
               | None => compute cl
               | Some g => Ok (firstn n g ++ repeat (Some 0) (n - length g))
               end;
      do gl <- match monopole with Some m => set_first gl (Some m) | None => Ok gl end;
      do r <- evaluate cl gl pad monopole;
      iterate maxiter fuel cl gl r pad monopole cltol gltol false.
End Solver.
