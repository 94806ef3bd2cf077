(** Model of the sampling methods of [glass.jax.Generator] (C69): glass/jax.py:27-68 and
    107-112, 128-224.

    Not modelled: dtypes. Sizes are natural numbers; a Python [int] and a tuple of one
    integer are distinguished. Sampled numbers are arbitrary functions of the key, the
    requested shape and the multi-index; reals stand for floating-point numbers. *)
From Coq Require Import Reals.
From Verif Require Import Base Model_Arrays Model_Jax.

(** The argument [size]: [None], an integer, or a tuple. *)
Inductive size_arg := NoSize | Length (n : nat) | Tuple (s : shape).

Fixpoint shape_eqb (s t : shape) : bool :=
  match s, t with
  | [], [] => true
  | a :: s, b :: t => (a =? b) && shape_eqb s t
  | _, _ => false
  end.

(** [_shape(shape, *bcast)], glass/jax.py:27-68, from the shapes of the [bcast] arrays.
    [jnp.broadcast_shapes] of no shapes is [()], so the conditional of line 55 is the
    same as broadcasting the empty list. An empty tuple is falsy. *)
Definition out_shape (size : size_arg) (bcast : list shape) : result shape :=
  do bcast_shape <- broadcast_shapes bcast;
  match size with
  | NoSize => Ok bcast_shape
  | _ =>
      let explicit_shape := match size with Length n => [n] | Tuple s => s | NoSize => [] end in
      if negb (shape_eqb bcast_shape []) && negb (shape_eqb explicit_shape bcast_shape)
      then Err ValueError
      else Ok explicit_shape
  end.

(** [self.__key], glass/jax.py:107-112: the key for this call and the new state. *)
Definition next_key (k : key) : key * key :=
  (nth 0 (jax_split k 2) [], nth 1 (jax_split k 2) []).

(** Elementwise operation on two arrays, broadcast together. *)
Definition zip_arrays {U V W} (f : U -> V -> W) (a : array U) (b : array V) : result (array W) :=
  do s <- broadcast2 (ashape a) (ashape b);
  do a <- broadcast_to a s;
  do b <- broadcast_to b s;
  Ok {| ashape := s; aget := fun i => f (aget a i) (aget b i) |}.

(** The samplers of [jax.random]: standard normal, standard uniform, Poisson with a
    mean, and multinomial with counts and probabilities of each category. *)
Record samplers := {
  normal_bits : key -> shape -> list nat -> R;
  uniform_bits : key -> shape -> list nat -> R;
  poisson_bits : key -> shape -> R -> list nat -> nat;
  multinomial_bits : key -> shape -> nat -> (nat -> R) -> list nat -> nat }.

Section Draws.
  Context (J : samplers).

  Definition jax_normal (k : key) (s : shape) : array R :=
    {| ashape := s; aget := normal_bits J k s |}.
  Definition jax_uniform (k : key) (s : shape) : array R :=
    {| ashape := s; aget := uniform_bits J k s |}.

  (** [random], glass/jax.py:128-138, and [standard_normal], 168-178. The new state comes
      with every result, also with an error: arguments are evaluated in order, the key
      first. *)
  Definition random (k : key) (size : size_arg) : key * result (array R) :=
    let '(state, key) := next_key k in
    (state, do s <- out_shape size []; Ok (jax_uniform key s)).
  Definition standard_normal (k : key) (size : size_arg) : key * result (array R) :=
    let '(state, key) := next_key k in
    (state, do s <- out_shape size []; Ok (jax_normal key s)).

  (** [normal], glass/jax.py:140-152 *)
  Definition normal (k : key) (loc scale : array R) (size : size_arg) : key * result (array R) :=
    let '(state, key) := next_key k in
    (state,
     do s <- out_shape size [ashape loc; ashape scale];
     do x <- zip_arrays Rmult scale (jax_normal key s);
     zip_arrays Rplus loc x).

  (** [poisson], glass/jax.py:154-166: [jax.random.poisson] broadcasts the mean to the
      shape. *)
  Definition poisson (k : key) (lam : array R) (size : size_arg) : key * result (array nat) :=
    let '(state, key) := next_key k in
    (state,
     do s <- out_shape size [ashape lam];
     do l <- broadcast_to lam s;
     Ok {| ashape := s; aget := fun i => poisson_bits J key s (aget l i) i |}).

  (** [uniform], glass/jax.py:180-198: [jax.random.uniform] computes
      [max(low, u (high - low) + low)], broadcasting to the shape. *)
  Definition uniform (k : key) (low high : array R) (size : size_arg) : key * result (array R) :=
    let '(state, key) := next_key k in
    (state,
     do s <- out_shape size [ashape low; ashape high];
     do lo <- broadcast_to low s;
     do hi <- broadcast_to high s;
     Ok {| ashape := s;
           aget := fun i => Rmax (aget lo i) (uniform_bits J key s i * (aget hi i - aget lo i) + aget lo i) |}).

  (** [multinomial], glass/jax.py:200-224. [pvals[..., 0]] fails on a scalar; an empty
      last axis is not covered. [jax.random.multinomial] takes the full shape, by default
      that of [pvals], and broadcasts the counts to all axes but the last and the
      probabilities to all. Here the key is taken after the shape is known. *)
  Definition multinomial (k : key) (n : array nat) (pvals : array R) (size : size_arg)
    : key * result (array nat) :=
    match ashape pvals with
    | [] => (k, Err IndexError)
    | _ =>
        match out_shape size [ashape n; removelast (ashape pvals)] with
        | Err e => (k, Err e)
        | Ok batch_shape =>
            let s := match batch_shape with
                     | [] => ashape pvals
                     | _ => batch_shape ++ [last (ashape pvals) 0]
                     end in
            let '(state, key) := next_key k in
            (state,
             do m <- broadcast_to n (removelast s);
             do p <- broadcast_to pvals s;
             Ok {| ashape := s;
                   aget := fun i => multinomial_bits J key s (aget m (removelast i))
                                      (fun c => aget p (removelast i ++ [c])) i |})
        end
    end.
End Draws.
