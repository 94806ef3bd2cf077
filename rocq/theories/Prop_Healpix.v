(** Claims about the wrappers for healpy and healpix (C94). *)
From Coq Require Import String List Lia PeanoNat Bool.
From Verif Require Import Base Model_Arrays Model_Backend Model_Healpix Spec_Fallback Spec_Healpix.
From Verif Require Import Proof_Arrays Proof_Fallback.
Import ListNotations.

Section Calls.
  Context {D A : Type}.
  Notation V := (val backend D A).

  Lemma keyword_in k (kwargs : list (string * V)) v : keyword D A k kwargs = Some v -> In (k, v) kwargs.
  Proof.
    unfold keyword. destruct (find _ kwargs) as [[k' v']|] eqn:E; [|discriminate]. intros [= <-]. apply find_some in E. destruct E as [I E].
    apply String.eqb_eq in E. cbn in E. subst k'. exact I.
  Qed.
  Lemma keyword_none k (kwargs : list (string * V)) : keyword D A k kwargs = None -> ~ In k (map fst kwargs).
  Proof.
    unfold keyword. destruct (find _ kwargs) as [[k' v']|] eqn:E; [discriminate|]. intros _ I. apply in_map_iff in I. destruct I as ([k' v] & <- & I).
    apply (find_none _ _ E) in I. cbn in I. rewrite String.eqb_refl in I. discriminate.
  Qed.
  Lemma keyword_given k (kwargs : list (string * V)) v : NoDup (map fst kwargs) -> In (k, v) kwargs -> keyword D A k kwargs = Some v.
  Proof.
    intros N I. destruct (keyword D A k kwargs) as [w|] eqn:E; [|exfalso; apply (keyword_none _ _ E), (in_map fst _ _ I)].
    apply keyword_in in E. f_equal. clear - N E I. induction kwargs as [|[k' u] kwargs IH]; [destruct I|]. inversion N as [|? ? Nk N']; subst.
    destruct E as [E|E], I as [I|I]; try (injection E as -> ->); try (injection I as -> ->); try congruence.
    - exfalso. apply Nk. exact (in_map fst _ _ I).
    - exfalso. apply Nk. exact (in_map fst _ _ E).
    - exact (IH N' I E).
  Qed.

  Lemma atoms_kept (kwargs : list (string * V)) : Forall (fun kv => exists a, snd kv = Atom a) kwargs ->
    map (fun kv => (fst kv, to_numpy NumPy (snd kv))) kwargs = kwargs /\ flat_map (fun kv => collect (snd kv)) kwargs = [].
  Proof.
    induction 1 as [|[k v] kwargs [a E] _ [IH1 IH2]]; [auto|]. cbn in E. subst v. cbn. rewrite IH1, IH2. auto.
  Qed.
  Lemma filled_given (options kwargs : list (string * V)) :
    options_given options kwargs (map (fun kd => (fst kd, match keyword D A (fst kd) kwargs with Some v => v | None => snd kd end)) options).
  Proof.
    unfold options_given. induction options as [|[k d] options IH]; cbn [map]; constructor; [|exact IH]. cbn [fst snd]. split; [reflexivity|].
    destruct (keyword D A k kwargs) as [v|] eqn:E; [left; exact (keyword_in _ _ _ E)|right; split; [exact (keyword_none _ _ E)|reflexivity]].
  Qed.
  Lemma bind_all names options args (kwargs : list (string * V)) : length args = length names -> (forall k, In k (map fst kwargs) -> In k (map fst options)) ->
    bind_arguments D A names options args kwargs =
    Ok (args, map (fun kd => (fst kd, match keyword D A (fst kd) kwargs with Some v => v | None => snd kd end)) options).
  Proof.
    intros L K. unfold bind_arguments. rewrite L, Nat.ltb_irrefl, skipn_all. cbn [app mapM bind]. rewrite app_nil_r.
    replace (forallb _ kwargs) with true; [reflexivity|]. symmetry. apply forallb_forall. intros kv I. apply existsb_exists. exists (fst kv).
    split; [apply K, in_map, I|apply String.eqb_refl].
  Qed.
  Lemma back_returned b (r : result V) : returned b r (do v <- r; Ok (convert_back backend_eqb NumPy b v)).
  Proof.
    destruct r as [v|e]; cbn [bind returned]; [|reflexivity]. pose proof (convert_back_converted backend_eqb NumPy b v) as K.
    intro p. specialize (K p). destruct (reach p v) as [x|], (reach p _) as [y|]; try exact K.
    unfold node_converted in *. destruct x, y; try exact K. destruct K as [-> ->]. split; [|reflexivity]. destruct b0; reflexivity.
  Qed.

  (** A call with arrays of one library. *)
  Lemma decorated_call names options body b args (kwargs : list (string * V)) : length args = length names -> options_known options kwargs ->
    flat_map collect args <> [] -> Forall (fun c => c = b) (flat_map collect args) ->
    exists passed, options_given options kwargs passed /\
      decorated D A names options body args kwargs None = (do v <- body (map (to_numpy NumPy) args) passed; Ok (convert_back backend_eqb NumPy b v)).
  Proof.
    intros L (N & K & At) Ne Al. destruct (atoms_kept kwargs At) as [E1 E2]. eexists. split; [apply filled_given|].
    unfold decorated, numpy_fallback. rewrite E2, app_nil_r. destruct (flat_map collect args) as [|c l] eqn:E; [contradiction|].
    pose proof (Forall_inv Al) as Eb. apply Forall_inv_tail in Al. rename Al into Al'. cbn in Eb. subst c.
    assert (Na : array_namespace backend_eqb (b :: l) = Ok b).
    { unfold array_namespace. replace (forallb (backend_eqb b) l) with true; [reflexivity|]. symmetry. apply forallb_forall. intros x I.
      rewrite Forall_forall in Al'. rewrite (Al' x I). destruct b; cbn; auto. apply Nat.eqb_refl. }
    rewrite Na, E1. cbn [bind python_function]. unfold python_function. rewrite (bind_all _ _ _ _ (eq_trans (map_length _ _) L) K). reflexivity.
  Qed.
  Lemma too_many names options body (args : list V) kwargs xp : length names < length args ->
    decorated D A names options body args kwargs xp = Err TypeError.
  Proof.
    intro L. assert (P : forall a k x, length a = length args -> python_function D A names options body a k x = Err TypeError).
    { intros a k x E. unfold python_function, bind_arguments. destruct x; [reflexivity|]. rewrite E. apply Nat.ltb_lt in L. rewrite L. reflexivity. }
    unfold decorated, numpy_fallback. destruct (flat_map collect args ++ _) as [|c l]; [apply P; reflexivity|].
    destruct (match xp with Some (Some b) => Ok b | _ => array_namespace backend_eqb (c :: l) end) as [ns|e] eqn:E; cbn [bind].
    - rewrite P by apply map_length. reflexivity.
    - destruct xp as [[b|]|]; [discriminate|unfold array_namespace in E; destruct (forallb _ _); congruence|unfold array_namespace in E; destruct (forallb _ _); congruence].
  Qed.
  Lemma unknown_name names options body (args : list V) kwargs k xp : length args = length names -> In k (map fst kwargs) -> ~ In k (map fst options) ->
    decorated D A names options body args kwargs xp = Err TypeError.
  Proof.
    intros L I Nk.
    assert (P : forall a kw x, length a = length args -> map fst kw = map fst kwargs -> python_function D A names options body a kw x = Err TypeError).
    { intros a kw x E F. unfold python_function, bind_arguments. destruct x; [reflexivity|]. rewrite E, L, Nat.ltb_irrefl, skipn_all. cbn [app].
      replace (forallb _ kw) with false; [reflexivity|]. symmetry. apply not_true_is_false. intro H. rewrite forallb_forall in H.
      rewrite <- F in I. apply in_map_iff in I. destruct I as (kv & Ek & I). specialize (H kv I). apply existsb_exists in H. destruct H as (k' & I' & E').
      apply String.eqb_eq in E'. apply Nk. rewrite <- Ek, E'. exact I'. }
    unfold decorated, numpy_fallback. destruct (flat_map collect args ++ _) as [|c l]; [apply P; reflexivity|].
    destruct (match xp with Some (Some b) => Ok b | _ => array_namespace backend_eqb (c :: l) end) as [ns|e] eqn:E; cbn [bind].
    - rewrite P; [reflexivity|apply map_length|rewrite map_map; reflexivity].
    - destruct xp as [[b|]|]; [discriminate|unfold array_namespace in E; destruct (forallb _ _); congruence|unfold array_namespace in E; destruct (forallb _ _); congruence].
  Qed.
End Calls.

Section Claims.
  Context {D A : Type}.
  Notation V := (val backend D A).
  Variable const : constant -> A.
  Variable rows : D -> list D.
  Variable int_ : V -> result A.
  Variable healpy healpix : string -> list V -> list (string * V) -> result V.

  Lemma back_array b (d : D) : convert_back backend_eqb NumPy b (Arr NumPy d : V) = Arr b d.
  Proof. reflexivity. Qed.

  (** C94 *)

  (** Maps from harmonic coefficients: the options that are given, and the defaults of the others, reach healpy together
      with a NumPy array; the map that it returns becomes an array of the library of the coefficients. *)
  Theorem alm2map_call b d n kwargs :
    let defaults := [("inplace", Atom (const False_)); ("lmax", Atom (const None_)); ("pixwin", Atom (const False_)); ("pol", Atom (const True_))]%string in
    options_known defaults kwargs -> exists passed, options_given defaults kwargs passed /\
      returned b (healpy "alm2map"%string [Arr NumPy d; Atom n] passed) (alm2map D A const healpy [Arr b d; Atom n] kwargs None).
  Proof.
    intros defaults K. destruct (decorated_call ["alms"; "nside"]%string defaults (healpy "alm2map"%string) b [Arr b d; Atom n] kwargs eq_refl K) as (passed & G & R);
      [discriminate|repeat constructor|].
    exists passed. split; [exact G|]. unfold alm2map. fold defaults. rewrite R. apply back_returned.
  Qed.

  (** The same for the product with a function of the multipole; both arrays have to be of one library. *)
  Theorem almxfl_call b alm fl kwargs : let defaults := [("inplace", Atom (const False_))]%string in
    options_known defaults kwargs -> exists passed, options_given defaults kwargs passed /\
      returned b (healpy "almxfl"%string [Arr NumPy alm; Arr NumPy fl] passed) (almxfl D A const healpy [Arr b alm; Arr b fl] kwargs None).
  Proof.
    intros defaults K. destruct (decorated_call ["alm"; "fl"]%string defaults (healpy "almxfl"%string) b [Arr b alm; Arr b fl] kwargs eq_refl K) as (passed & G & R);
      [discriminate|repeat constructor|].
    exists passed. split; [exact G|]. unfold almxfl. fold defaults. rewrite R. apply back_returned.
  Qed.
  Theorem almxfl_mixed b b' alm fl kwargs : b <> b' -> almxfl D A const healpy [Arr b alm; Arr b' fl] kwargs None = Err TypeError.
  Proof.
    intro H. unfold almxfl, decorated, numpy_fallback. cbn [flat_map collect app array_namespace forallb].
    assert (E : backend_eqb b b' = false).
    { apply not_true_is_false. intro E. apply H. destruct b as [| |m], b' as [| |m']; try discriminate; try reflexivity. apply Nat.eqb_eq in E. congruence. }
    rewrite E. reflexivity.
  Qed.

  (** Pixels and vectors of positions. *)
  Theorem ang2pix_call b n theta phi kwargs : let defaults := [("lonlat", Atom (const False_))]%string in
    options_known defaults kwargs -> exists passed, options_given defaults kwargs passed /\
      returned b (healpix "ang2pix"%string [Atom n; Arr NumPy theta; Arr NumPy phi] passed)
        (ang2pix D A const healpix [Atom n; Arr b theta; Arr b phi] kwargs None).
  Proof.
    intros defaults K. destruct (decorated_call ["nside"; "theta"; "phi"]%string defaults (healpix "ang2pix"%string) b [Atom n; Arr b theta; Arr b phi] kwargs eq_refl K)
      as (passed & G & R); [discriminate|repeat constructor|].
    exists passed. split; [exact G|]. unfold ang2pix. fold defaults. rewrite R. apply back_returned.
  Qed.
  Theorem ang2vec_call b theta phi kwargs : let defaults := [("lonlat", Atom (const False_))]%string in
    options_known defaults kwargs -> exists passed, options_given defaults kwargs passed /\
      forall x y z, healpix "ang2vec"%string [Arr NumPy theta; Arr NumPy phi] passed = Ok (Tup [Arr NumPy x; Arr NumPy y; Arr NumPy z]) ->
        ang2vec D A const rows healpix [Arr b theta; Arr b phi] kwargs None = Ok (Tup [Arr b x; Arr b y; Arr b z]).
  Proof.
    intros defaults K.
    destruct (decorated_call ["theta"; "phi"]%string defaults (fun args kw => do v <- healpix "ang2vec"%string args kw; unpack_three D A rows v) b [Arr b theta; Arr b phi] kwargs eq_refl K)
      as (passed & G & R); [discriminate|repeat constructor|].
    exists passed. split; [exact G|]. intros x y z H. unfold ang2vec. fold defaults. rewrite R. cbn [map to_numpy]. rewrite H. reflexivity.
  Qed.

  (** Maps from coefficients with spin, which are given as a list of two: the result is a list of two maps, also when
      healpy returns a tuple or one array with two rows. *)
  Theorem alm2map_spin_call b alm blm n spin lmax m1 m2 r :
    healpy "alm2map_spin"%string [Lst [Arr NumPy alm; Arr NumPy blm]; Atom n; Atom spin; Atom lmax] [] = Ok r ->
    r = Lst [Arr NumPy m1; Arr NumPy m2] \/ r = Tup [Arr NumPy m1; Arr NumPy m2] \/ (exists d, r = Arr NumPy d /\ rows d = [m1; m2]) ->
    alm2map_spin D A rows healpy [Lst [Arr b alm; Arr b blm]; Atom n; Atom spin; Atom lmax] [] None = Ok (Lst [Arr b m1; Arr b m2]).
  Proof.
    intros H Hr.
    destruct (decorated_call ["alms"; "nside"; "spin"; "lmax"]%string [] (fun args kw => do v <- healpy "alm2map_spin"%string args kw; to_list D A rows v) b
      [Lst [Arr b alm; Arr b blm]; Atom n; Atom spin; Atom lmax] [] eq_refl) as (passed & G & R).
    - split; [constructor|]. split; [intros k []|constructor].
    - discriminate.
    - repeat constructor.
    - unfold alm2map_spin. rewrite R. inversion G; subst. cbn [map to_numpy]. rewrite H. destruct Hr as [->|[->|(d & -> & Er)]]; cbn; rewrite ?Er; reflexivity.
  Qed.

  (** Numbers are the same in all libraries. *)
  Theorem get_nside_call b m n i : healpy "get_nside"%string [Arr NumPy m] [] = Ok n -> int_ n = Ok i ->
    get_nside D A int_ healpy [Arr b m] [] None = Ok (Atom i).
  Proof.
    intros H Hi. destruct (decorated_call ["m"]%string [] (fun args kw => do n <- healpy "get_nside"%string args kw; do i <- int_ n; Ok (Atom i)) b [Arr b m] [] eq_refl) as (passed & G & R).
    - split; [constructor|]. split; [intros k []|constructor].
    - discriminate.
    - repeat constructor.
    - unfold get_nside. rewrite R. inversion G; subst. cbn [map to_numpy]. rewrite H. cbn [bind]. rewrite Hi. reflexivity.
  Qed.

  (** Numbers of pixels and resolutions reach the package as they are, and integers are returned; exceptions pass. *)
  Theorem pixel_numbers_call v n i e :
    (healpix "npix2nside"%string [v] [] = Ok n -> int_ n = Ok i -> npix2nside D A int_ healpix v = Ok (Atom i)) /\
    (healpix "nside2npix"%string [v] [] = Ok n -> int_ n = Ok i -> nside2npix D A int_ healpix v = Ok (Atom i)) /\
    (healpix "npix2nside"%string [v] [] = Err e -> npix2nside D A int_ healpix v = Err e) /\
    (healpix "nside2npix"%string [v] [] = Err e -> nside2npix D A int_ healpix v = Err e).
  Proof.
    unfold npix2nside, nside2npix. split; [|split; [|split]].
    - intros -> H. cbn [bind]. rewrite H. reflexivity.
    - intros -> H. cbn [bind]. rewrite H. reflexivity.
    - intros ->. reflexivity.
    - intros ->. reflexivity.
  Qed.

  (** Rotated maps; the rotator has the coordinates it was made with. *)
  Theorem rotate_call rotate coord b m : returned b (rotate coord (Arr NumPy m)) (rotate_map_pixel D A rotate coord [Arr b m] [] None).
  Proof.
    destruct (decorated_call ["self"; "m"]%string [] (fun (args : list V) (_ : list (string * V)) => match args with [_; m] => rotate coord m | _ => Err TypeError end) b [Atom coord; Arr b m] [] eq_refl) as (passed & G & R).
    - split; [constructor|]. split; [intros k []|constructor].
    - discriminate.
    - repeat constructor.
    - unfold rotate_map_pixel. rewrite R. apply back_returned.
  Qed.

  (** Options cannot be given by position, and other names are rejected. *)
  Theorem options_by_keyword (args : list V) kwargs xp :
    (2 < length args -> alm2map D A const healpy args kwargs xp = Err TypeError) /\
    (2 < length args -> almxfl D A const healpy args kwargs xp = Err TypeError) /\
    (3 < length args -> ang2pix D A const healpix args kwargs xp = Err TypeError) /\
    (2 < length args -> ang2vec D A const rows healpix args kwargs xp = Err TypeError) /\
    forall k, In k (map fst kwargs) ->
      (length args = 2 -> ~ In k ["inplace"; "lmax"; "pixwin"; "pol"]%string -> alm2map D A const healpy args kwargs xp = Err TypeError) /\
      (length args = 2 -> k <> "inplace"%string -> almxfl D A const healpy args kwargs xp = Err TypeError) /\
      (length args = 3 -> k <> "lonlat"%string -> ang2pix D A const healpix args kwargs xp = Err TypeError) /\
      (length args = 2 -> k <> "lonlat"%string -> ang2vec D A const rows healpix args kwargs xp = Err TypeError).
  Proof.
    split; [intro L; apply too_many; exact L|]. split; [intro L; apply too_many; exact L|]. split; [intro L; apply too_many; exact L|]. split; [intro L; apply too_many; exact L|]. intros k I.
    repeat split; intros L N; apply (unknown_name _ _ _ _ _ k); try assumption; cbn; intuition congruence.
  Qed.

  (** The documentation of [ang2pix] and [ang2vec] has a parameter [xp].  With arrays, [xp] is the library of the result;
      without arrays, as for a single position, it is rejected. *)
  Theorem ang2pix_xp b b' n theta phi kwargs : let defaults := [("lonlat", Atom (const False_))]%string in
    options_known defaults kwargs -> exists passed, options_given defaults kwargs passed /\
      returned b' (healpix "ang2pix"%string [Atom n; Arr NumPy theta; Arr NumPy phi] passed)
        (ang2pix D A const healpix [Atom n; Arr b theta; Arr b phi] kwargs (Some (Some b'))).
  Proof.
    intros defaults K. destruct (decorated_call ["nside"; "theta"; "phi"]%string defaults (healpix "ang2pix"%string) b' [Atom n; Arr b' theta; Arr b' phi] kwargs eq_refl K)
      as (passed & G & R); [discriminate|repeat constructor|].
    exists passed. split; [exact G|]. replace (ang2pix D A const healpix [Atom n; Arr b theta; Arr b phi] kwargs (Some (Some b')))
      with (ang2pix D A const healpix [Atom n; Arr b' theta; Arr b' phi] kwargs None).
    - unfold ang2pix. fold defaults. rewrite R. apply back_returned.
    - destruct K as (_ & _ & At). destruct (atoms_kept kwargs At) as [E1 E2]. unfold ang2pix, decorated, numpy_fallback. cbn [flat_map collect app]. rewrite E1, E2.
      cbn [app map to_numpy array_namespace forallb]. replace (backend_eqb b' b') with true; [reflexivity|]. destruct b'; cbn; auto. symmetry. apply Nat.eqb_refl.
  Qed.
  Theorem ang2pix_xp_refuted b n theta phi :
    ang2pix D A const healpix [Atom n; Atom theta; Atom phi] [] (Some b) = Err TypeError /\
    ang2vec D A const rows healpix [Atom theta; Atom phi] [] (Some b) = Err TypeError /\
    ang2pix D A const healpix [Atom n; Atom theta; Atom phi] [] None = healpix "ang2pix"%string [Atom n; Atom theta; Atom phi] [("lonlat", Atom (const False_))]%string.
  Proof. split; [reflexivity|]. split; reflexivity. Qed.
End Claims.
Print Assumptions alm2map_call.
Print Assumptions almxfl_call.
Print Assumptions almxfl_mixed.
Print Assumptions ang2pix_call.
Print Assumptions ang2vec_call.
Print Assumptions alm2map_spin_call.
Print Assumptions get_nside_call.
Print Assumptions pixel_numbers_call.
Print Assumptions rotate_call.
Print Assumptions options_by_keyword.
Print Assumptions ang2pix_xp.
Print Assumptions ang2pix_xp_refuted.

Definition example_const (c : constant) : string := match c with None_ => "None" | False_ => "False" | True_ => "True" end.
(** Arrays with numbers as contents, and texts as other values.  The packages describe their call by a number. *)
Definition example_package (name : string) (args : list (val backend nat string)) (kwargs : list (string * val backend nat string))
    : result (val backend nat string) :=
  match args, kwargs with
  | [Arr NumPy d; Atom "8"%string], [("inplace", Atom "False"); ("lmax", Atom "20"); ("pixwin", Atom "False"); ("pol", Atom "False")]%string =>
      Ok (Arr NumPy (d + 1))
  | [Atom "8"%string; Arr NumPy t; Arr NumPy p], [("lonlat", Atom "True")]%string => Ok (Arr NumPy (t + p))
  | [Arr NumPy t; Arr NumPy p], [("lonlat", Atom "False")]%string => Ok (Tup [Arr NumPy t; Arr NumPy p; Arr NumPy (t * p)])
  | [Arr NumPy a; Arr NumPy f], [("inplace", Atom "False")]%string => Ok (Arr NumPy (a * f))
  | [Lst [Arr NumPy a; Arr NumPy b]; _; _; _], [] => Ok (Arr NumPy (a + b))
  | [Arr NumPy d], [] => Ok (Atom "8"%string)
  | _, _ => Err ValueError
  end.
Example alm2map_example :
  alm2map nat string example_const example_package [Arr Jax 5; Atom "8"%string] [("pol", Atom "False"); ("lmax", Atom "20")]%string None = Ok (Arr Jax 6) /\
  alm2map nat string example_const example_package [Arr Jax 5; Atom "8"%string] [("lmax", Atom "20")]%string None = Err ValueError.
Proof. split; reflexivity. Qed.
Example ang2pix_example :
  ang2pix nat string example_const example_package [Atom "8"%string; Arr (Other 2) 3; Arr (Other 2) 4] [("lonlat", Atom "True")]%string None = Ok (Arr (Other 2) 7) /\
  ang2pix nat string example_const example_package [Atom "8"%string; Arr (Other 2) 3; Arr (Other 2) 4] [("lonlat", Atom "True")]%string (Some (Some Jax)) = Ok (Arr Jax 7) /\
  ang2vec nat string example_const (fun d => [d; d]) example_package [Arr (Other 2) 3; Arr (Other 2) 4] [] None = Ok (Tup [Arr (Other 2) 3; Arr (Other 2) 4; Arr (Other 2) 12]).
Proof. repeat split; reflexivity. Qed.
Example almxfl_example :
  almxfl nat string example_const example_package [Arr Jax 3; Arr Jax 4] [] None = Ok (Arr Jax 12) /\
  almxfl nat string example_const example_package [Arr Jax 3; Arr NumPy 4] [] None = Err TypeError /\
  almxfl nat string example_const example_package [Arr Jax 3; Arr Jax 4; Atom "True"%string] [] None = Err TypeError.
Proof. repeat split; reflexivity. Qed.
Example alm2map_spin_example :
  alm2map_spin nat string (fun d => [d; d + 1]) example_package [Lst [Arr Jax 3; Arr Jax 4]; Atom "8"; Atom "2"; Atom "20"]%string [] None = Ok (Lst [Arr Jax 7; Arr Jax 8]).
Proof. reflexivity. Qed.
Example rotate_example :
  rotate_map_pixel nat string (fun c m => match c, m with "GC"%string, Arr NumPy d => Ok (Arr NumPy (d + 100)) | _, _ => Err ValueError end) "GC" [Arr Jax 7] [] None = Ok (Arr Jax 107) /\
  get_nside nat string (fun v => match v with Atom a => Ok a | _ => Err TypeError end) example_package [Arr Jax 192] [] None = Ok (Atom "8"%string).
Proof. split; reflexivity. Qed.
(** A package for maps of 12 [nside]^2 pixels, for numbers up to 8. *)
Definition example_pixels (name : string) (args : list (val backend nat nat)) (kwargs : list (string * val backend nat nat)) : result (val backend nat nat) :=
  match name, args with
  | "nside2npix"%string, [Atom n] => Ok (Atom (12 * n * n))
  | "npix2nside"%string, [Atom p] => match find (fun n => Nat.eqb (12 * n * n) p) (seq 1 8) with Some n => Ok (Atom n) | None => Err ValueError end
  | _, _ => Err TypeError
  end.
Example pixel_numbers_example : let int_ := fun v : val backend nat nat => match v with Atom a => Ok a | _ => Err TypeError end in
  npix2nside nat nat int_ example_pixels (Atom 48) = Ok (Atom 2) /\ nside2npix nat nat int_ example_pixels (Atom 2) = Ok (Atom 48) /\
  npix2nside nat nat int_ example_pixels (Atom 50) = Err ValueError.
Proof. repeat split; reflexivity. Qed.
