(** Model of the default random generators: [glass/rng.py], [glass/healpix.py:398-432],
    and their use in [glass/points.py].

    The NumPy generator is external: its states form a type [S], [mk seed] is
    [np.random.default_rng(seed)], and every sampling method maps a state to values and
    a next state. *)
From Verif Require Import Base Model_Batch.

Section Rng.
  Context {S L U P : Type}.
  Variable mk : nat -> S.                             (* np.random.default_rng(seed=...) *)
  Variable poisson : S -> list L -> list nat * S.     (* rng.poisson(lam) *)
  Variable random : S -> nat -> list U * S.           (* the [n] offsets drawn by healpix.randang *)
  Variable ring2ang : nat -> nat -> U -> P.           (* pixel and offset to lon, lat (healpix) *)
  Variable npix2nside : nat -> result nat.

  (** glass/rng.py:18 *)
  Definition SEED : nat := 42.

  (** glass/rng.py:73-104 [Generator.__init__] and 21-55 [default_rng] for the NumPy
      backend: the generator passed in is used itself, otherwise a new one is made.
      The conversion of results to the array backend is not modelled. *)
  Definition generator (rng : option S) : S :=
    match rng with Some s => s | None => mk SEED end.
  Definition default_rng (seed : option nat) : S :=
    mk (match seed with Some s => s | None => SEED end).

  (** glass/healpix.py:426-431 [randang]: a default generator is made at each call;
      healpix.randang draws one offset pair per pixel index. *)
  Definition randang (nside : nat) (ipix : list nat) : list P :=
    let uv := fst (random (default_rng None) (length ipix)) in
    map (fun '(i, u) => ring2ang nside i u) (combine ipix uv).

  (** glass/points.py:351-440 with the conversion of each batch to angles. *)
  Definition sample_positions (fuel batch : nat) (n : list nat) : result (list (list P)) :=
    do bs <- sample_galaxies_per_pixel npix2nside fuel batch n;
    if list_sum n =? 0 then Ok []
    else
      do nside <- npix2nside (length n);
      Ok (map (randang nside) bs).

  (** glass/points.py:524-540, the loop over populations: the expected counts [lams]
      of each population are given; [xrng] is threaded through the Poisson draws. *)
  Fixpoint positions_loop (fuel batch : nat) (s : S) (lams : list (list L))
      : result (list (list (list P)) * S) :=
    match lams with
    | [] => Ok ([], s)
    | lam :: lams =>
        let '(n, s) := poisson s lam in
        do b <- sample_positions fuel batch n;
        do r <- positions_loop fuel batch s lams;
        let '(bs, s) := r in Ok (b :: bs, s)
    end.

  Definition positions_from_lams (fuel batch : nat) (rng : option S) (lams : list (list L))
      : result (list (list (list P)) * S) :=
    positions_loop fuel batch (generator rng) lams.

  (** The Poisson counts drawn for each population, in order. *)
  Fixpoint counts_loop (s : S) (lams : list (list L)) : list (list nat) :=
    match lams with
    | [] => []
    | lam :: lams => let '(n, s) := poisson s lam in n :: counts_loop s lams
    end.
End Rng.
