(** Theorems about the wrappers that choose the array library (C84). *)
From Coq Require Import String.
From Verif Require Import Base Model_Arrays Model_Backend Spec_Backend Spec_Arrays Proof_Arrays Prop_Arrays.

Lemma backend_eqb_spec a b : backend_eqb a b = true <-> a = b.
Proof.
  destruct a, b; cbn; split; intro H; try discriminate; try reflexivity.
  - apply Nat.eqb_eq in H. congruence.
  - injection H as ->. apply Nat.eqb_refl.
Qed.
Lemma backend_eqb_refl a : backend_eqb a a = true.
Proof. apply backend_eqb_spec. reflexivity. Qed.

Lemma mapM_asarray {D A} (of_atom : A -> D) stack b c ds :
  mapM (asarray D A of_atom stack b) (map (Arr c) ds) = Ok (map (Arr b) ds).
Proof. induction ds as [|d ds IH]; [reflexivity|]. cbn [map mapM asarray contents bind]. rewrite IH. reflexivity. Qed.

Lemma namespace_same {D A} b (ds : list D) (rest : list (val backend D A)) :
  ds <> [] -> flat_map (backends D A) rest = [] -> namespace D A (map (Arr b) ds ++ rest) = Ok b.
Proof.
  intros Hd Hr. unfold namespace. rewrite flat_map_app, Hr, app_nil_r.
  assert (E : flat_map (backends D A) (map (Arr b) ds) = repeat b (List.length ds)).
  { clear. induction ds as [|d ds IH]; [reflexivity|]. cbn. rewrite IH. reflexivity. }
  rewrite E. destruct ds as [|d ds]; [congruence|]. cbn.
  assert (F : forallb (backend_eqb b) (repeat b (List.length ds)) = true).
  { apply forallb_forall. intros c Hc. apply repeat_spec in Hc. subst. apply backend_eqb_refl. }
  rewrite F. reflexivity.
Qed.

Ltac same_library b ds A :=
  let N := fresh "N" in
  pose proof (namespace_same (A:=A) b ds [] ltac:(discriminate) eq_refl) as N;
  rewrite app_nil_r in N; cbn [map] in N; rewrite N; cbn [bind].

(** C84 *)

(** For each function: if NumPy and JAX return the outcome [r] for arrays of given contents, then
    so does the wrapper for arrays of any library, as an array of this library. *)
Theorem trapezoid_any_library {D A} of_atom stack lib jax b (y x : D) (options : list (val backend D A)) r :
  lib "trapezoid"%string NumPy (Arr NumPy y :: Arr NumPy x :: options) = array_of NumPy r ->
  jax (Arr Jax y :: Arr Jax x :: options) = array_of Jax r ->
  trapezoid D A of_atom stack lib jax (Arr b y) (Arr b x) options = array_of b r.
Proof.
  intros Hn Hj. unfold trapezoid.
  same_library b [y; x] A.
  destruct b; [exact Hn|exact Hj|]. cbn [asarray contents bind]. rewrite Hn. destruct r; reflexivity.
Qed.
Print Assumptions trapezoid_any_library.

Theorem interp_any_library {D A} of_atom stack lib b (x xp yp : D) (options : list (val backend D A)) r :
  (forall c, c = NumPy \/ c = Jax ->
     lib "interp"%string c (Arr c x :: Arr c xp :: Arr c yp :: options) = array_of c r) ->
  interp D A of_atom stack lib (Arr b x) (Arr b xp) (Arr b yp) options = array_of b r.
Proof.
  intro H. unfold interp.
  same_library b [x; xp; yp] A.
  destruct b; [apply H; auto|apply H; auto|]. cbn [asarray contents bind]. rewrite H by auto. destruct r; reflexivity.
Qed.
Print Assumptions interp_any_library.

(** The array of abscissae may be a number, which is not an array. *)
Theorem interp_number {D A} of_atom stack lib n x (xp yp : D) (options : list (val backend D A)) r :
  lib "interp"%string NumPy (Arr NumPy (of_atom x) :: Arr NumPy xp :: Arr NumPy yp :: options) = array_of NumPy r ->
  interp D A of_atom stack lib (Atom x) (Arr (Other n) xp) (Arr (Other n) yp) options = array_of (Other n) r.
Proof.
  intro H. unfold interp, namespace. cbn [flat_map backends app array_namespace forallb].
  rewrite backend_eqb_refl. cbn [andb bind asarray contents]. rewrite H. destruct r; reflexivity.
Qed.
Print Assumptions interp_number.

Theorem gradient_any_library {D A} of_atom stack lib b (f : D) r :
  (forall c, c = NumPy \/ c = Jax -> lib "gradient"%string c [Arr (A:=A) c f] = array_of c r) ->
  gradient D A of_atom stack lib (Arr b f) = array_of b r.
Proof.
  intro H. unfold gradient. cbn [own_namespace bind].
  destruct b; [apply H; auto|apply H; auto|]. cbn [asarray contents bind]. rewrite H by auto. destruct r; reflexivity.
Qed.
Print Assumptions gradient_any_library.

(** NumPy's gradient of an array with several axes is a tuple of arrays, one for each axis.  With
    other libraries the wrapper stacks them into one array. *)
Theorem gradient_axes_refuted {D A} of_atom stack lib n (f : D) ds :
  lib "gradient"%string NumPy [Arr (A:=A) NumPy f] = Ok (Tup (map (Arr NumPy) ds)) ->
  gradient D A of_atom stack lib (Arr NumPy f) = Ok (Tup (map (Arr NumPy) ds)) /\
  gradient D A of_atom stack lib (Arr (Other n) f) = Ok (Arr (Other n) (stack ds)).
Proof.
  intro H. unfold gradient. cbn [own_namespace bind asarray contents]. rewrite H. split; [reflexivity|].
  cbn [bind]. unfold asarray. cbn [contents].
  match goal with |- context [option_map stack (?F (map _ ds))] =>
    assert (E : F (map (Arr NumPy) ds) = Some ds) end.
  { clear. induction ds as [|d ds IH]; [reflexivity|]. cbn. cbn in IH. rewrite IH. reflexivity. }
  rewrite E. reflexivity.
Qed.
Print Assumptions gradient_axes_refuted.

Theorem einsum_any_library {D A} of_atom stack lib b subscripts (ds : list D) r :
  ds <> [] ->
  (forall c, c = NumPy \/ c = Jax -> lib "einsum"%string c (subscripts :: map (Arr (A:=A) c) ds) = array_of c r) ->
  einsum D A of_atom stack lib subscripts (map (Arr b) ds) = array_of b r.
Proof.
  intros Hd H. unfold einsum. pose proof (namespace_same b ds (A:=A) [] Hd eq_refl) as N. rewrite app_nil_r in N.
  rewrite N. cbn [bind]. destruct b; [apply H; auto|apply H; auto|].
  rewrite mapM_asarray. cbn [bind]. rewrite H by auto. destruct r; reflexivity.
Qed.
Print Assumptions einsum_any_library.

(** Least squares: the four parts of the result become arrays of the library, also the rank, which NumPy
    returns as a number. *)
Theorem lstsq_any_library {D A} of_atom stack lib b (a y : D) (rcond : val backend D A) r :
  (forall c, c = NumPy \/ c = Jax -> lib "linalg.lstsq"%string c [Arr c a; Arr c y; rcond] = arrays_of c r) ->
  linalg_lstsq D A of_atom stack lib (Arr b a) (Arr b y) rcond = arrays_of b r.
Proof.
  intro H. unfold linalg_lstsq.
  same_library b [a; y] A.
  destruct b; [apply H; auto|apply H; auto|]. cbn [asarray contents bind]. rewrite H by auto.
  destruct r as [ds|e]; [|reflexivity]. cbn [arrays_of bind]. rewrite mapM_asarray. reflexivity.
Qed.
Print Assumptions lstsq_any_library.

Theorem lstsq_rank_refuted {D A} of_atom stack lib n (a y : D) (rcond : val backend D A) x res rank s :
  lib "linalg.lstsq"%string NumPy [Arr NumPy a; Arr NumPy y; rcond] =
    Ok (Tup [Arr NumPy x; Arr NumPy res; Atom rank; Arr NumPy s]) ->
  linalg_lstsq D A of_atom stack lib (Arr (Other n) a) (Arr (Other n) y) rcond =
    Ok (Tup [Arr (Other n) x; Arr (Other n) res; Arr (Other n) (of_atom rank); Arr (Other n) s]).
Proof.
  intro H. unfold linalg_lstsq.
  same_library (Other n) [a; y] A. cbn [asarray contents bind]. rewrite H. reflexivity.
Qed.
Print Assumptions lstsq_rank_refuted.

(** The function sees arrays of one library: its inputs and the slices that NumPy or JAX take from the
    array.  [slices] is what the library computes of the function given as a partial
    application; NumPy accepts arrays of other libraries here. *)
Theorem apply_along_axis_any_library {D A} of_atom stack apply_lib b func (ins : list D) axis (arr : D) r :
  (forall c, c = NumPy \/ c = Jax -> forall b', c = b' \/ (c = NumPy /\ exists n, b' = Other n) ->
     apply_lib c (fun slice => func (map (Arr (A:=A) c) ins ++ slice)) axis (Arr b' arr) = array_of c r) ->
  apply_along_axis D A of_atom stack apply_lib func (map (Arr b) ins) axis (Arr b arr) = array_of b r.
Proof.
  intro H. unfold apply_along_axis. pose proof (namespace_same b (arr :: ins) (A:=A) [] ltac:(discriminate) eq_refl) as N.
  rewrite app_nil_r in N. cbn [map] in N. rewrite N. cbn [bind].
  destruct b; [apply H; auto|apply H; auto|]. rewrite mapM_asarray. cbn [bind].
  rewrite (H NumPy) by eauto. destruct r; reflexivity.
Qed.
Print Assumptions apply_along_axis_any_library.

Theorem angles_any_library {D A} of_atom stack lib b (x : D) :
  let computes name r := forall c b', c = NumPy \/ c = Jax -> c = b' \/ (c = NumPy /\ exists n, b' = Other n) ->
     lib name c [Arr (A:=A) b' x] = array_of c r in
  (forall r, computes "radians"%string r -> radians D A of_atom stack lib (Arr b x) = array_of b r) /\
  (forall r, computes "degrees"%string r -> degrees D A of_atom stack lib (Arr b x) = array_of b r).
Proof.
  intro computes. assert (G : forall name r, computes name r -> angle_function D A of_atom stack lib name (Arr b x) = array_of b r).
  { intros name r H. unfold angle_function. cbn [own_namespace bind].
    destruct b; [apply H; auto|apply H; auto|]. rewrite (H NumPy) by eauto. destruct r; reflexivity. }
  split; intros r H; apply G, H.
Qed.
Print Assumptions angles_any_library.

(** The library named by the caller determines the result of [tril_indices], but not that of a function made by
    [vectorize], whose results are NumPy arrays. *)
Theorem tril_indices_any_library {D A} of_atom stack lib b (options : list (val backend D A)) r :
  (forall c, c = NumPy \/ c = Jax -> lib "tril_indices"%string c options = arrays_of c r) ->
  tril_indices D A of_atom stack lib options b = arrays_of b r.
Proof.
  intro H. unfold tril_indices. destruct b; [apply H; auto|apply H; auto|]. rewrite H by auto.
  destruct r as [ds|e]; [|reflexivity]. cbn [arrays_of bind]. rewrite mapM_asarray. reflexivity.
Qed.
Print Assumptions tril_indices_any_library.

Theorem vectorize_library_refuted {D A} lib pyfunc (args : list (val backend D A)) d xp :
  lib "vectorize"%string NumPy (pyfunc ++ args) = Ok (Arr NumPy d) -> xp <> NumPy ->
  exists b, vectorize D A lib pyfunc xp args = Ok (Arr b d) /\ b <> xp.
Proof. intros H Hx. exists NumPy. split; [exact H|congruence]. Qed.
Print Assumptions vectorize_library_refuted.

(** Arrays of two different libraries are rejected. *)
Theorem wrappers_reject_mixed {D A} of_atom stack lib jax apply_lib func a b (x y z : D) (v : val backend D A) options :
  a <> b ->
  trapezoid D A of_atom stack lib jax (Arr a x) (Arr b y) options = Err TypeError /\
  interp D A of_atom stack lib (Arr a x) (Arr a y) (Arr b z) options = Err TypeError /\
  linalg_lstsq D A of_atom stack lib (Arr a x) (Arr b y) v = Err TypeError /\
  einsum D A of_atom stack lib v [Arr a x; Arr b y] = Err TypeError /\
  apply_along_axis D A of_atom stack apply_lib func [Arr a x] v (Arr b y) = Err TypeError.
Proof.
  intro H. assert (E : forall c d, c <> d -> backend_eqb c d = false).
  { intros c d Hc. destruct (backend_eqb c d) eqn:E; [|reflexivity]. apply backend_eqb_spec in E. congruence. }
  unfold trapezoid, interp, linalg_lstsq, einsum, apply_along_axis, namespace.
  cbn [flat_map backends app array_namespace forallb]. rewrite backend_eqb_refl, (E a b), (E b a) by congruence.
  cbn [andb bind]. repeat (split; [reflexivity|]). reflexivity.
Qed.
Print Assumptions wrappers_reject_mixed.

(** The abscissae of [trapezoid] are optional, and NumPy's function accepts their absence ([None]).  With
    other libraries the wrapper makes an array of [None], without axes, on which NumPy raises
    ValueError. *)
Theorem trapezoid_default_refuted {D A} (of_atom : A -> D) stack lib jax n (y : D) none d options :
  lib "trapezoid"%string NumPy (Arr NumPy y :: Atom none :: options) = Ok (Arr NumPy d) ->
  lib "trapezoid"%string NumPy (Arr NumPy y :: Arr NumPy (of_atom none) :: options) = Err ValueError ->
  trapezoid D A of_atom stack lib jax (Arr NumPy y) (Atom none) options = Ok (Arr NumPy d) /\
  trapezoid D A of_atom stack lib jax (Arr (Other n) y) (Atom none) options = Err ValueError.
Proof.
  intros H1 H2. unfold trapezoid, namespace. cbn [flat_map backends app array_namespace forallb bind asarray contents].
  rewrite H1, H2. split; reflexivity.
Qed.
Print Assumptions trapezoid_default_refuted.

(** The deprecated function for the shear uses NumPy for its factors: a convergence map of any
    other library is rejected, although every HEALPix function accepts it. *)
Theorem shear_other_library_refuted {D A} healpy factors zeros b (kappa alm fl : D) (nside : A) :
  healpy "get_nside"%string [Arr NumPy kappa] = Ok (Atom nside) ->
  healpy "map2alm"%string [Arr NumPy kappa] = Ok (Arr NumPy alm) ->
  factors (Atom nside) = Ok fl -> b <> NumPy ->
  shear_from_convergence D A healpy factors zeros (Arr b kappa) = Err TypeError.
Proof.
  intros Hn Ha Hf Hb. unfold shear_from_convergence, hp, numpy_fallback at 1.
  cbn [flat_map collect app array_namespace forallb bind map to_numpy]. rewrite Hn. cbn [bind convert_back].
  unfold numpy_fallback at 1.
  cbn [flat_map collect app array_namespace forallb bind map to_numpy]. rewrite Ha. cbn [bind convert_back backend_eqb].
  rewrite Hf. cbn [bind].
  rewrite (fallback_mixed_rejected backend_eqb NumPy _ b NumPy (Arr b alm) (Arr NumPy fl) [] [] alm fl []); [reflexivity| |reflexivity|reflexivity].
  destruct (backend_eqb b NumPy) eqn:E; [|reflexivity]. apply backend_eqb_spec in E. contradiction.
Qed.
Print Assumptions shear_other_library_refuted.

(** With NumPy it transforms the multiplied modes. *)
Theorem shear_numpy {D A} healpy factors zeros (kappa alm fl alm' : D) (nside : A) r :
  healpy "get_nside"%string [Arr NumPy kappa] = Ok (Atom nside) ->
  healpy "map2alm"%string [Arr NumPy kappa] = Ok (Arr NumPy alm) ->
  factors (Atom nside) = Ok fl ->
  healpy "almxfl"%string [Arr NumPy alm; Arr NumPy fl] = Ok (Arr NumPy alm') ->
  healpy "alm2map_spin"%string [Lst [Arr NumPy alm'; Arr NumPy (zeros alm)]; Atom nside] = arrays_of NumPy r ->
  shear_from_convergence D A healpy factors zeros (Arr NumPy kappa) = arrays_of NumPy r.
Proof.
  intros Hn Ha Hf Hx Hs. unfold shear_from_convergence, hp, numpy_fallback at 1.
  cbn [flat_map collect app array_namespace forallb bind map to_numpy]. rewrite Hn. cbn [bind convert_back].
  unfold numpy_fallback at 1.
  cbn [flat_map collect app array_namespace forallb bind map to_numpy]. rewrite Ha. cbn [bind convert_back backend_eqb].
  rewrite Hf. cbn [bind]. unfold numpy_fallback at 1.
  cbn [flat_map collect app array_namespace forallb bind map to_numpy backend_eqb andb]. rewrite Hx. cbn [bind convert_back backend_eqb].
  unfold numpy_fallback.
  cbn [flat_map collect app array_namespace forallb bind map to_numpy backend_eqb andb]. rewrite Hs.
  destruct r as [ds|e]; [|reflexivity]. cbn [arrays_of bind convert_back]. do 2 f_equal. rewrite map_map. reflexivity.
Qed.
Print Assumptions shear_numpy.

(** HEALPix functions that may need data files: a data path that is not a directory raises ValueError, whatever
    else is given; otherwise the pixel window is passed on with this path, as one array or a pair of arrays of the
    library that is asked for. *)
Theorem pixwin_datapath {D A} is_dir env healpy_pixwin of_atom stack nside lmax pol xp :
  ((exists p, env = Some p /\ is_dir p = false) ->
     pixwin (D:=D) (A:=A) is_dir env healpy_pixwin of_atom stack nside lmax pol xp = Err ValueError) /\
  ((forall p, env = Some p -> is_dir p = true) ->
     let b := match xp with None => NumPy | Some b => b end in
     (forall r, pol = false -> healpy_pixwin env nside lmax false = array_of NumPy r ->
        pixwin (D:=D) (A:=A) is_dir env healpy_pixwin of_atom stack nside lmax pol xp = array_of b r) /\
     (forall r, pol = true -> healpy_pixwin env nside lmax true = arrays_of NumPy r ->
        pixwin (D:=D) (A:=A) is_dir env healpy_pixwin of_atom stack nside lmax pol xp = arrays_of b r)).
Proof.
  split.
  - intros (p & -> & Hp). unfold pixwin, get_healpy_datapath. rewrite Hp. reflexivity.
  - intros Hd b. assert (E : get_healpy_datapath is_dir env = Ok env).
    { unfold get_healpy_datapath. destruct env as [p|]; [|reflexivity]. rewrite (Hd p eq_refl). reflexivity. }
    unfold pixwin. fold b. rewrite E. cbn [bind]. split; intros r -> Hr; rewrite Hr; destruct r as [d|e]; try reflexivity.
    cbn [arrays_of bind]. rewrite mapM_asarray. reflexivity.
Qed.
Print Assumptions pixwin_datapath.

(** [map2alm] checks the path also when it does not use pixel weights, the only data that it could
    load. *)
Theorem map2alm_datapath {D A} is_dir env f (maps : val backend D A) weights :
  map2alm is_dir env f maps weights = Err ValueError <->
  (exists p, env = Some p /\ is_dir p = false) \/
  ((forall p, env = Some p -> is_dir p = true) /\ f env weights maps = Err ValueError).
Proof.
  unfold map2alm, get_healpy_datapath. destruct env as [p|]; [destruct (is_dir p) eqn:E|]; cbn [negb bind].
  - split; [intro H; right; split; [intros q [= <-]; exact E|exact H]|].
    intros [(q & [= <-] & Hq)|[_ H]]; [congruence|exact H].
  - split; [intros _; left; eauto|reflexivity].
  - split; [intro H; right; split; [discriminate|exact H]|]. intros [(q & Hq & _)|[_ H]]; [discriminate|exact H].
Qed.
Print Assumptions map2alm_datapath.

(** Numbers in place of arrays: a library whose [einsum] adds everything up. *)
Example einsum_example :
  einsum nat nat (fun x => x) (fun l => 0)
    (fun _ b args => Ok (Arr b (fold_right (fun v n => match v with Arr _ d => d + n | _ => n end) 0 args)))
    (Atom 7) [Arr (Other 3) 4; Arr (Other 3) 5] = Ok (Arr (Other 3) 9).
Proof. reflexivity. Qed.

(** A library that tells the two conversions apart. *)
Example angles_example :
  let lib := fun (name : string) (b : backend) args =>
    match args with [Arr _ x] => Ok (Arr b (if String.eqb name "degrees" then 180 * x else x)) | _ => Err TypeError end in
  degrees nat nat (fun _ => 0) (fun _ => 0) lib (Arr (Other 1) 2) = Ok (Arr (Other 1) 360) /\
  radians nat nat (fun _ => 0) (fun _ => 0) lib (Arr Jax 2) = Ok (Arr Jax 2).
Proof. split; reflexivity. Qed.

Example trapezoid_example :
  let lib := fun (_ : string) (_ : backend) args =>
    match args with [Arr _ y; Arr _ 0] => Err ValueError | Arr _ y :: _ => Ok (Arr NumPy (2 * y)) | _ => Err TypeError end in
  trapezoid nat nat (fun _ => 0) (fun _ => 0) lib (lib ""%string Jax) (Arr (Other 1) 4) (Arr (Other 1) 1) [] = Ok (Arr (Other 1) 8) /\
  trapezoid nat nat (fun _ => 0) (fun _ => 0) lib (lib ""%string Jax) (Arr NumPy 4) (Atom 9) [] = Ok (Arr NumPy 8) /\
  trapezoid nat nat (fun _ => 0) (fun _ => 0) lib (lib ""%string Jax) (Arr (Other 1) 4) (Atom 9) [] = Err ValueError.
Proof. repeat split; reflexivity. Qed.

Example shear_example :
  shear_from_convergence nat nat
    (fun name args => if String.eqb name "get_nside" then Ok (Atom 1)
                      else if String.eqb name "alm2map_spin" then Ok (Tup args) else Ok (Arr NumPy 5))
    (fun _ => Ok 2) (fun _ => 0) (Arr Jax 4) = Err TypeError.
Proof. reflexivity. Qed.

Example pixwin_example :
  pixwin (D:=nat) (A:=nat) (fun _ => true) (Some "data"%string) (fun p _ _ _ => match p with Some _ => Ok (Tup [Arr NumPy 1; Arr NumPy 2]) | None => Err KeyError end)
    (fun x => x) (fun _ => 0) 8 None true (Some Jax) = Ok (Tup [Arr Jax 1; Arr Jax 2]).
Proof. reflexivity. Qed.
