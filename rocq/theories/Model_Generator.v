(** Model of the random generators of [glass/rng.py] for all array backends.

    External are the generators of NumPy, with states [S], and of glass.jax, with states [K] (modelled in [Model_Jax]):
    they answer requests with values and a next state. *)
From Coq Require Import Reals ZArith List.
From Flocq Require Import Core.
From Verif Require Import Base Model_SpectraFloat.
Import ListNotations.

Inductive backend := NumPy | JAX | Other.
Inductive dtype := Float32 | Float64.

(** Single precision: 24 bits; infinities are not modelled. *)
Definition fexp32 := FLT_exp (-149) 24.
Definition rnd32 (x : R) : R := round radix2 fexp32 ZnearestE x.
(** [xp.asarray(values, dtype=dtype)] *)
Definition convert (d : dtype) (x : R) : R := match d with Float32 => rnd32 x | Float64 => rnd64 x end.

Section Generators.
  Context {S K P Z : Type}.
  (** The calls of methods, with parameters in [P] and sizes in [Z]. *)
  Inductive request :=
  | Random (size : Z) (d : option dtype)
  | Normal (loc scale : P) (size : Z)
  | Poisson (lam : P) (size : Z)
  | StandardNormal (size : Z) (d : option dtype)
  | Uniform (low high : P) (size : Z)
  | Multinomial (n pvals : P) (size : Z).

  Variable numpy_rng : nat -> S.
  Variable jax_rng : nat -> K.
  Variable numpy_draw : S -> request -> list R * S.
  Variable jax_draw : K -> request -> list R * K.

  (** A generator, and the wrapper, whose slots are the generator and the backend. *)
  Inductive generator :=
  | OfNumPy (s : S)
  | OfJAX (k : K)
  | Wrapper (rng : generator) (xp : backend).

  (** glass/rng.py:18 *)
  Definition seed_default : nat := 42.

  (** glass/rng.py:21-55 [default_rng]. *)
  Definition default_generator (xp : backend) (seed : option nat) : generator :=
    let seed := match seed with Some s => s | None => seed_default end in
    match xp with
    | JAX => OfJAX (jax_rng seed)
    | _ => let rng := OfNumPy (numpy_rng seed) in
           match xp with NumPy => rng | _ => Wrapper rng xp end
    end.

  (** glass/rng.py:73-104 [Generator.__init__]. *)
  Definition make_generator (xp : backend) (rng : option generator) (seed : option nat) : generator :=
    let seed := match seed with Some s => s | None => seed_default end in
    Wrapper (match rng with
             | None => match xp with JAX => OfJAX (jax_rng seed) | _ => OfNumPy (numpy_rng seed) end
             | Some rng => rng
             end) xp.

  (** glass/rng.py:106-247, the methods: [random] and [standard_normal] keep the type to themselves, asking for doubles
      and converting them; the others leave the type as it is. *)
  Fixpoint draw (g : generator) (q : request) : list R * generator :=
    match g with
    | OfNumPy s => let '(v, s) := numpy_draw s q in (v, OfNumPy s)
    | OfJAX k => let '(v, k) := jax_draw k q in (v, OfJAX k)
    | Wrapper g xp =>
        match q with
        | Random size d =>
            let d := match d with Some d => d | None => Float64 end in
            let '(v, g) := draw g (Random size None) in (map (convert d) v, Wrapper g xp)
        | StandardNormal size d =>
            let d := match d with Some d => d | None => Float64 end in
            let '(v, g) := draw g (StandardNormal size None) in (map (convert d) v, Wrapper g xp)
        | q => let '(v, g) := draw g q in (v, Wrapper g xp)
        end
    end.

  (** A number of requests, one after the other. *)
  Fixpoint draws (g : generator) (qs : list request) : list (list R) :=
    match qs with
    | [] => []
    | q :: qs => let '(v, g) := draw g q in v :: draws g qs
    end.
End Generators.
Arguments request : clear implicits.
Arguments generator : clear implicits.
