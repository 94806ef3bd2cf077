(** Model of the wrappers in [glass/_array_api_utils.py] that choose the array library, and of
    two functions of [glass/healpix.py] and [glass/lensing.py] that depend on this choice. *)
From Coq Require Import String.
From Verif Require Import Base Model_Arrays.

(** The array libraries that the wrappers tell apart by their name.  NumPy is imported on line 26
    of glass/_array_api_utils.py, so that [default_xp] (lines 56-87) always returns it. *)
Inductive backend := NumPy | Jax | Other (n : nat).
Definition backend_eqb (a b : backend) : bool :=
  match a, b with
  | NumPy, NumPy | Jax, Jax => true
  | Other m, Other n => Nat.eqb m n
  | _, _ => false
  end.

Section Wrappers.
  (** Contents of arrays, and all values that are not arrays or containers. *)
  Variable D A : Type.
  Notation V := (val backend D A).
  (** The contents of the array that [asarray] makes of a value without backend, and of a
      sequence of arrays, which it stacks. *)
  Variable of_atom : A -> D.
  Variable stack : list D -> D.

  (** [xp.asarray(v)] for the library [b].  Containers hold arrays of any library, anything else
      in a container is converted first; dictionaries raise TypeError. *)
  Fixpoint contents (v : V) : option D :=
    match v with
    | Arr _ d => Some d
    | Atom a => Some (of_atom a)
    | Tup l | Lst l | OtherSeq l =>
        option_map stack
          ((fix all (l : list V) : option (list D) :=
             match l with
             | [] => Some []
             | x :: r => match contents x, all r with Some d, Some ds => Some (d :: ds) | _, _ => None end
             end) l)
    | Dct _ => None
    end.
  Definition asarray (b : backend) (v : V) : result V :=
    match contents v with Some d => Ok (Arr b d) | None => Err TypeError end.

  (** [array_api_compat.array_namespace(...)]: the common library of all arrays; other values
      (numbers and Python's [None]) are skipped. *)
  Definition backends (v : V) : list backend := match v with Arr b _ => [b] | _ => [] end.
  Definition namespace (args : list V) : result backend :=
    array_namespace backend_eqb (flat_map backends args).

  (** The functions of the libraries, and [glass.jax.trapezoid]. *)
  Variable lib : string -> backend -> list V -> result V.
  Variable jax_trapezoid : list V -> result V.

  (** glass/_array_api_utils.py:124-139 [trapezoid]; [options] are the other arguments, which are
      numbers and passed on. *)
  Definition trapezoid (y x : V) (options : list V) : result V :=
    do xp <- namespace [y; x];
    match xp with
    | Jax => jax_trapezoid (y :: x :: options)
    | NumPy => lib "trapezoid" NumPy (y :: x :: options)
    | Other _ =>
        do y_dxp <- asarray NumPy y;
        do x_dxp <- asarray NumPy x;
        do result_dxp <- lib "trapezoid" NumPy (y_dxp :: x_dxp :: options);
        asarray xp result_dxp
    end.

  (** glass/_array_api_utils.py:183-209 [interp]. *)
  Definition interp (x x_points y_points : V) (options : list V) : result V :=
    do xp <- namespace [x; x_points; y_points];
    match xp with
    | NumPy | Jax => lib "interp" xp (x :: x_points :: y_points :: options)
    | Other _ =>
        do x_dxp <- asarray NumPy x;
        do x_points_dxp <- asarray NumPy x_points;
        do y_points_dxp <- asarray NumPy y_points;
        do result_dxp <- lib "interp" NumPy (x_dxp :: x_points_dxp :: y_points_dxp :: options);
        asarray xp result_dxp
    end.

  (** [f.__array_namespace__()]: values that are not arrays have no such attribute. *)
  Definition own_namespace (v : V) : result backend :=
    match v with Arr b _ => Ok b | _ => Err AttributeError end.

  (** glass/_array_api_utils.py:236-245 [gradient]. *)
  Definition gradient (f : V) : result V :=
    do xp <- own_namespace f;
    match xp with
    | NumPy | Jax => lib "gradient" xp [f]
    | Other _ =>
        do f_dxp <- asarray NumPy f;
        do result_dxp <- lib "gradient" NumPy [f_dxp];
        asarray xp result_dxp
    end.

  (** glass/_array_api_utils.py:298-308 [linalg_lstsq]: each of the four parts of the result is
      converted. *)
  Definition linalg_lstsq (a b rcond : V) : result V :=
    do xp <- namespace [a; b];
    match xp with
    | NumPy | Jax => lib "linalg.lstsq" xp [a; b; rcond]
    | Other _ =>
        do a_dxp <- asarray NumPy a;
        do b_dxp <- asarray NumPy b;
        do result_dxp <- lib "linalg.lstsq" NumPy [a_dxp; b_dxp; rcond];
        match result_dxp with
        | Tup l => do r <- mapM (asarray xp) l; Ok (Tup r)
        | _ => Err TypeError
        end
    end.

  (** glass/_array_api_utils.py:335-345 [einsum]. *)
  Definition einsum (subscripts : V) (operands : list V) : result V :=
    do xp <- namespace operands;
    match xp with
    | NumPy | Jax => lib "einsum" xp (subscripts :: operands)
    | Other _ =>
        do operands_dxp <- mapM (asarray NumPy) operands;
        do result_dxp <- lib "einsum" NumPy (subscripts :: operands_dxp);
        asarray xp result_dxp
    end.

  (** glass/_array_api_utils.py:390-404 [apply_along_axis].  The function is a method of a library,
      [func], to which the inputs are given first: NumPy's [apply_along_axis] is called with
      this partial application, here passed as the list of its inputs. *)
  Variable apply_lib : backend -> (list V -> result V) -> V -> V -> result V.
  Definition apply_along_axis (func : list V -> result V) (func_inputs : list V) (axis arr : V) : result V :=
    do xp <- namespace (arr :: func_inputs);
    match xp with
    | NumPy | Jax => apply_lib xp (fun slice => func (func_inputs ++ slice)) axis arr
    | Other _ =>
        do inputs_dxp <- mapM (asarray NumPy) func_inputs;
        do r <- apply_lib NumPy (fun slice => func (inputs_dxp ++ slice)) axis arr;
        asarray xp r
    end.

  (** glass/_array_api_utils.py:466-473 and 495-502, [radians] and [degrees]: the array of another
      library is given to NumPy's function as it is, which converts it. *)
  Definition angle_function (name : string) (arr : V) : result V :=
    do xp <- own_namespace arr;
    match xp with
    | NumPy | Jax => lib name xp [arr]
    | Other _ => do r <- lib name NumPy [arr]; asarray xp r
    end.
  Definition radians := angle_function "radians".
  Definition degrees := angle_function "degrees".

  (** glass/_array_api_utils.py:436-444, 524-530 and 558-566, [vectorize], [ndindex] and
      [tril_indices], where the caller names the library [xp].  Only the last one converts
      NumPy's result. *)
  Definition vectorize (pyfunc : list V) (xp : backend) (args : list V) : result V :=
    lib "vectorize" NumPy (pyfunc ++ args).
  Definition ndindex (shape : V) (xp : backend) : result V := lib "ndindex" NumPy [shape].
  Definition tril_indices (options : list V) (xp : backend) : result V :=
    match xp with
    | NumPy | Jax => lib "tril_indices" xp options
    | Other _ =>
        do r <- lib "tril_indices" NumPy options;
        match r with
        | Tup l => do r <- mapM (asarray xp) l; Ok (Tup r)
        | _ => Err TypeError
        end
    end.

  (** glass/lensing.py:403-428 [shear_from_convergence], as far as it matters for the libraries:
      the wrappers of [glass/healpix.py] are decorated by [numpy_fallback], the factors [fl] and the
      B-modes are NumPy arrays ([np.zeros_like], [np.arange], [np.sqrt], and [xp=np] in
      [pixwin]).  [healpy] has the library's own functions, which see NumPy arrays;
      the in-place product changes [alm] itself, here a new value. *)
  Variable healpy : string -> list V -> result V.
  Variable factors : V -> result D.     (* [fl], from the resolution of the map *)
  Variable zeros : D -> D.
  Definition hp (name : string) (args : list V) : result V :=
    numpy_fallback backend_eqb NumPy (fun args _ _ => healpy name args) args [] None.
  Definition shear_from_convergence (kappa : V) : result V :=
    do nside <- hp "get_nside" [kappa];
    do alm <- hp "map2alm" [kappa];
    do fl <- factors nside;
    match alm with
    | Arr b a =>
        let blm := Arr NumPy (zeros a) in
        do alm <- hp "almxfl" [alm; Arr NumPy fl];
        hp "alm2map_spin" [Lst [alm; blm]; nside]
    | _ => Err TypeError
    end.
End Wrappers.

(** glass/healpix.py:31-35 [_get_healpy_datapath]; [env] is the value of HEALPY_DATAPATH. *)
Definition get_healpy_datapath (is_dir : string -> bool) (env : option string) : result (option string) :=
  match env with
  | Some path => if negb (is_dir path) then Err ValueError else Ok env
  | None => Ok env
  end.

(** glass/healpix.py:313-356 [pixwin]: [healpy_pixwin] gets the data path, [nside], [lmax] and
    [pol], and returns one array or, for [pol], a tuple of two. *)
Definition pixwin {D A} is_dir env (healpy_pixwin : option string -> nat -> option nat -> bool -> result (val backend D A))
    (of_atom : A -> D) (stack : list D -> D)
    (nside : nat) (lmax : option nat) (pol : bool) (xp : option backend) : result (val backend D A) :=
  let xp := match xp with None => NumPy | Some b => b end in
  do path <- get_healpy_datapath is_dir env;
  do output <- healpy_pixwin path nside lmax pol;
  if pol then
    match output with
    | Tup l => do r <- mapM (asarray D A of_atom stack xp) l; Ok (Tup r)
    | _ => Err TypeError
    end
  else asarray D A of_atom stack xp output.

(** glass/healpix.py:233-276 [map2alm], inside of its decorator. *)
Definition map2alm {D A} is_dir env (healpy_map2alm : option string -> bool -> val backend D A -> result (val backend D A))
    (maps : val backend D A) (use_pixel_weights : bool) : result (val backend D A) :=
  do path <- get_healpy_datapath is_dir env;
  healpy_map2alm path use_pixel_weights maps.
