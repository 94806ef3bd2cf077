(** Model of [glass.jax.Generator] (glass/jax.py:81-128) and its use by several threads. *)
From Verif Require Import Base.

(** A JAX key.  [jax.random.split] is idealised as collision-free: keys are paths
    in a tree, [split k n] returns the children 0 .. n-1 of [k].  (Equal prefixes for
    different [n], which is what JAX's partitionable generator produces and the worst
    case for key reuse.)  The head of the path is the youngest split. *)
Definition key := list nat.
Definition jax_split (k : key) (n : nat) : list key := map (fun i => i :: k) (seq 0 n).

(** The methods that touch the key.  Every sampling method (random, normal, poisson,
    standard_normal, uniform, multinomial; glass/jax.py:130-224) evaluates
    [self.__key] exactly once and is represented by [Draw].
    [Split g p] is [split(size)] with [math.prod(shape) = p]; the keys it returns are
    handed to the user.  [Spawn g c] is [spawn(n_children)]. *)
Inductive op := Draw (g : nat) | Split (g p : nat) | Spawn (g c : nat).
Definition op_gen (o : op) : nat :=
  match o with Draw g => g | Split g _ => g | Spawn g _ => g end.

(** glass/jax.py:105-110 [__key], 112-118 [split], 120-124 [spawn]: the number of
    keys requested from [jax.random.split] and what is done with them.  The result is
    (new value of [self.key], keys given out or used by a sampler, keys of new generators). *)
Definition use_key (o : op) (k : key) : key * list key * list key :=
  match o with
  | Draw _ =>                       (* self.key, key = jax.random.split(self.key) *)
      match jax_split k 2 with
      | [k0; k1] => (k0, [k1], [])
      | _ => (k, [], [])            (* unreachable: split returns two keys *)
      end
  | Split _ p =>                    (* keys = split(self.key, 1 + prod); self.key = keys[0]; keys[1:] *)
      match jax_split k (1 + p) with
      | k0 :: ks => (k0, ks, [])
      | [] => (k, [], [])           (* unreachable *)
      end
  | Spawn _ c =>                    (* self.key, *keys = split(self.key, num=n_children + 1) *)
      match jax_split k (c + 1) with
      | k0 :: ks => (k0, [], ks)
      | [] => (k, [], [])           (* unreachable *)
      end
  end.

(** One generator object: its key and the holder of its lock. *)
Record gen := { gkey : key; gowner : option nat }.

(** Where a thread is inside a method: before [with self.lock], inside it before
    reading [self.key], or after reading it and before storing the new key. *)
Inductive phase := Idle | Entered | HasRead (k : key).
Record thread := { prog : list op; ph : phase }.
Record config := { gens : list gen; threads : list thread; used : list key }.

Fixpoint set_nth {A} (l : list A) (i : nat) (x : A) : list A :=
  match l, i with
  | [], _ => []
  | _ :: l', 0 => x :: l'
  | y :: l', S i' => y :: set_nth l' i' x
  end.

(** One atomic step of thread [t].  [locking] says whether [with self.lock] has
    any effect; the code has [locking = true].  A thread that waits for the lock, has
    finished, or names a generator that does not exist does not move. *)
Definition step (locking : bool) (c : config) (t : nat) : config :=
  match nth_error (threads c) t with
  | None => c
  | Some th =>
    match prog th with
    | [] => c
    | o :: rest =>
      match nth_error (gens c) (op_gen o) with
      | None => c
      | Some g =>
        match ph th with
        | Idle =>
            if locking then
              match gowner g with
              | Some _ => c
              | None =>
                  {| gens := set_nth (gens c) (op_gen o) {| gkey := gkey g; gowner := Some t |};
                     threads := set_nth (threads c) t {| prog := prog th; ph := Entered |};
                     used := used c |}
              end
            else
              {| gens := gens c;
                 threads := set_nth (threads c) t {| prog := prog th; ph := Entered |};
                 used := used c |}
        | Entered =>
            {| gens := gens c;
               threads := set_nth (threads c) t {| prog := prog th; ph := HasRead (gkey g) |};
               used := used c |}
        | HasRead k =>
            let '(k', out, children) := use_key o k in
            {| gens := set_nth (gens c) (op_gen o)
                         {| gkey := k'; gowner := if locking then None else gowner g |}
                       ++ map (fun ck => {| gkey := ck; gowner := None |}) children;
               threads := set_nth (threads c) t {| prog := rest; ph := Idle |};
               used := used c ++ out |}
        end
      end
    end
  end.

Definition run (locking : bool) (c : config) (schedule : list nat) : config :=
  fold_left (step locking) schedule c.

(** A fresh generator (glass/jax.py:100-103) used by threads with the given programs. *)
Definition start (seed : key) (progs : list (list op)) : config :=
  {| gens := [{| gkey := seed; gowner := None |}];
     threads := map (fun p => {| prog := p; ph := Idle |}) progs;
     used := [] |}.
