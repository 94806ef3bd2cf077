(** Model of the thin wrappers of [glass/healpix.py]: which arguments reach healpy and healpix, and in which array library
    the result is. *)
From Coq Require Import String.
From Verif Require Import Base Model_Arrays Model_Backend.

(** Constants of Python. *)
Inductive constant := None_ | False_ | True_.

Section Wrappers.
  (** Contents of arrays, and values that are not arrays or containers, among them [None], [False] and [True]. *)
  Variable D A : Type.
  Notation V := (val backend D A).
  Variable const : constant -> A.
  (** The rows of an array, over which Python iterates, and [int(x)]. *)
  Variable rows : D -> list D.
  Variable int_ : V -> result A.
  (** The functions of the packages healpy and healpix, with positional and keyword arguments; the arrays they return are
      NumPy's. *)
  Variable healpy healpix : string -> list V -> list (string * V) -> result V.

  (** How Python binds a call to parameters (Python reference, 6.3.4): [names] can be given by position or by keyword and
      have to be given, [options] are only given by keyword and have defaults.  The result has the values of all of them,
      in this order. *)
  Definition keyword (k : string) (kwargs : list (string * V)) : option V :=
    option_map snd (find (fun kv => String.eqb (fst kv) k) kwargs).
  Definition bind_arguments (names : list string) (options : list (string * V)) (args : list V) (kwargs : list (string * V))
      : result (list V * list (string * V)) :=
    let missing := skipn (length args) names in
    if Nat.ltb (length names) (length args) then Err TypeError
    else if negb (forallb (fun kv => existsb (String.eqb (fst kv)) (missing ++ map fst options)) kwargs) then Err TypeError
    else
      do rest <- mapM (fun k => match keyword k kwargs with Some v => Ok v | None => Err TypeError end) missing;
      Ok (args ++ rest, map (fun kd => (fst kd, match keyword (fst kd) kwargs with Some v => v | None => snd kd end)) options).

  (** A function with these parameters and this body.  None of them has a parameter [xp]. *)
  Definition python_function (names : list string) (options : list (string * V)) (body : list V -> list (string * V) -> result V)
      (args : list V) (kwargs : list (string * V)) (xp : xp_arg backend) : result V :=
    match xp with
    | Some _ => Err TypeError
    | None => do p <- bind_arguments names options args kwargs; body (fst p) (snd p)
    end.
  Definition decorated names options body : list V -> list (string * V) -> xp_arg backend -> result V :=
    numpy_fallback backend_eqb NumPy (python_function names options body).

  (** [list(outputs)].  Dictionaries, of which it lists the keys, are left out. *)
  Definition to_list (v : V) : result V :=
    match v with
    | Tup l | Lst l | OtherSeq l => Ok (Lst l)
    | Arr b d => Ok (Lst (map (Arr b) (rows d)))
    | _ => Err TypeError
    end.
  (** [x, y, z = v] and the tuple of the three. *)
  Definition unpack_three (v : V) : result V :=
    do l <- to_list v;
    match l with Lst [x; y; z] => Ok (Tup [x; y; z]) | _ => Err ValueError end.

  (** glass/healpix.py:38-78 [alm2map]. *)
  Definition alm2map := decorated ["alms"; "nside"]%string
    [("inplace", Atom (const False_)); ("lmax", Atom (const None_)); ("pixwin", Atom (const False_)); ("pol", Atom (const True_))]%string
    (healpy "alm2map"%string).
  (** glass/healpix.py:81-108 [alm2map_spin]. *)
  Definition alm2map_spin := decorated ["alms"; "nside"; "spin"; "lmax"]%string []
    (fun args kwargs => do outputs <- healpy "alm2map_spin" args kwargs; to_list outputs)%string.
  (** glass/healpix.py:111-140 [almxfl]. *)
  Definition almxfl := decorated ["alm"; "fl"]%string [("inplace", Atom (const False_))]%string (healpy "almxfl"%string).
  (** glass/healpix.py:143-177 [ang2pix]. *)
  Definition ang2pix := decorated ["nside"; "theta"; "phi"]%string [("lonlat", Atom (const False_))]%string (healpix "ang2pix"%string).
  (** glass/healpix.py:180-211 [ang2vec]. *)
  Definition ang2vec := decorated ["theta"; "phi"]%string [("lonlat", Atom (const False_))]%string
    (fun args kwargs => do v <- healpix "ang2vec" args kwargs; unpack_three v)%string.
  (** glass/healpix.py:214-229 [get_nside]. *)
  Definition get_nside := decorated ["m"]%string []
    (fun args kwargs => do n <- healpy "get_nside" args kwargs; do i <- int_ n; Ok (Atom i))%string.
  (** glass/healpix.py:279-293 [npix2nside], without decorator. *)
  Definition npix2nside (npix : V) : result V := do n <- healpix "npix2nside"%string [npix] []; do i <- int_ n; Ok (Atom i).
  (** glass/healpix.py:296-310 [nside2npix], without decorator. *)
  Definition nside2npix (nside : V) : result V := do n <- healpix "nside2npix"%string [nside] []; do i <- int_ n; Ok (Atom i).
  (** glass/healpix.py:438-471 [Rotator]: [coord] is an attribute of the object [self], which is the first argument of the
      method and not an array.  [rotate] is [rotate_map_pixel] of healpy's object with these coordinates. *)
  Definition rotate_map_pixel (rotate : A -> V -> result V) (coord : A) (args : list V) :=
    decorated ["self"; "m"]%string []
      (fun args _ => match args with [_; m] => rotate coord m | _ => Err TypeError end) (Atom coord :: args).
End Wrappers.
