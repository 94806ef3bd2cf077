(** Theorems about lensing: maps from convergence, and the convergence of many planes. *)
From Coq Require Import Reals Lra Psatz.
From Coquelicot Require Import Coquelicot.
From Verif Require Import Base RSum Model_Numeric Model_Arrays Model_Effective Model_Windows Model_Galaxies Model_Lensing
  Spec_Numeric Spec_Windows Spec_Lensing Proof_Numeric Proof_Windows Proof_Arrays Proof_Galaxies Proof_Points Proof_Lensing.
Local Open Scope R_scope.

(** C42 *)

(** After any number of planes at increasing redshifts, the convergence is, in each pixel, the sum of the
    matter in all earlier planes times the efficiency with which they lens a source in the last plane.
    This holds in every space of constant curvature.  The memory of the caller is not changed. *)
Theorem convergence_sum cosmo g chi h m l d z w :
  has_geometry cosmo g chi ->
  increasing (0 :: map (fun p => snd (fst p)) (l ++ [(d, z, w)])) ->
  (forall d' z' w', In (d', z', w') (l ++ [(d, z, w)]) -> (d' < length h)%nat /\ length (nth d' h []) = m) ->
  exists st h' k, add_planes cosmo new_planes h (l ++ [(d, z, w)]) = (st, h', None) /\
    kappa st = Some k /\ z3 st = z /\ length (nth k h' []) = m /\
    (forall a, (a < length h)%nat -> nth a h' [] = nth a h []) /\
    forall i, nth i (nth k h' []) 0 =
      sum_of (map (fun '(d', z', w') => lensing_efficiency cosmo z' w' z * nth i (nth d' h []) 0) l).
Proof.
  intros G I A.
  destruct (add_planes_tracks cosmo (l ++ [(d, z, w)]) new_planes h m (fun _ => pixel0) (length h)
    (tracks_new h m) ltac:(split; discriminate) ltac:(lia) A I) as (st & h' & E & T & O & F & K).
  destruct K as [k K]; [intro X; apply app_eq_nil in X; destruct X; discriminate|].
  destruct (tracks_kappa _ _ _ _ _ T K) as (Lk & _ & Vk).
  assert (N : forall i,
    let m := map (fun p : nat * R * R => (snd (fst p), snd p, nth i (load h (fst (fst p))) 0)) in
    pk3 (nexts cosmo pixel0 (m (l ++ [(d, z, w)]))) = lensed cosmo (m l) z /\ pz3 (nexts cosmo pixel0 (m (l ++ [(d, z, w)]))) = z).
  { intro i. cbv zeta. rewrite map_app. cbn [map fst snd]. apply (nexts_lensed cosmo g chi G).
    rewrite map_app in I |- *. cbn [map fst snd] in I |- *. rewrite map_map. cbn [fst]. exact I. }
  exists st, h', k. split; [exact E|]. split; [exact K|].
  split. { destruct (tr_scalars _ _ _ _ T 0%nat) as (_ & Z & _). rewrite <- Z. apply N. }
  split; [exact Lk|]. split; [exact F|]. intro i. change (nth k h' []) with (load h' k). rewrite Vk.
  rewrite (proj1 (N i)). unfold lensed. rewrite map_map. f_equal. apply map_ext. intros [[d' z'] w']. reflexivity.
Qed.
Print Assumptions convergence_sum.

(** A flat space with comoving distance [z], and a closed one: at redshift 3 two unit planes give
    1 (3 - 1) / 3 + 2 (3 - 2) / 3. *)
Definition flat_example : cosmology :=
  {| Omega_m0 := 2 / 3; hubble_distance := 1; H_over_H0 := fun z => 1 + z;
     distance_to := fun z => z; distance_between := fun z z' => z' - z |}.
Lemma flat_geometry : has_geometry flat_example Flat (fun z => z).
Proof. split; cbn; auto; lra. Qed.

Example convergence_sum_example :
  exists st h' k, add_planes flat_example new_planes [[1]; [7]] [(0%nat, 1, 1); (0%nat, 2, 1); (1%nat, 3, 1)] = (st, h', None) /\
    kappa st = Some k /\ nth k h' [] = [4 / 3].
Proof.
  destruct (convergence_sum flat_example Flat (fun z => z) [[1]; [7]] 1 [(0%nat, 1, 1); (0%nat, 2, 1)] 1 3 1 flat_geometry)
    as (st & h' & k & E & K & _ & L & _ & V).
  - cbn. repeat (apply increasing_two; [lra|]). apply increasing_one.
  - intros d z w [H|[H|[H|[]]]]; injection H as <- <- <-; cbn; split; (lia || reflexivity).
  - exists st, h', k. split; [exact E|]. split; [exact K|].
    specialize (V 0%nat). destruct (nth k h' []) as [|v [|]]; try discriminate. cbn in V. f_equal. rewrite V.
    unfold lensing_efficiency, flat_example; cbn. field.
Qed.

Lemma weight_meaning w v a b : increasing (za w) -> length (za w) = length (wa w) ->
  starts_with (za w) a -> ends_with (za w) b -> weight_of w = Ok v -> lens_weight w v.
Proof.
  intros I L Ha Hb H. assert (Hne : za w <> []) by (intros E; rewrite E in Ha; discriminate).
  unfold weight_of in H. rewrite trapezoid_ok, interp_ok in H by (auto; symmetry; exact L). cbn [bind] in H. injection H as <-.
  exists (interp_value (za w) (wa w) None None), a, b, (total (trapezoids (combine (za w) (wa w)))).
  split; [apply value_interpolates; assumption|]. split; [apply value_through; assumption|].
  split; [exact Ha|]. split; [exact Hb|].
  split; [apply trapezoids_integral; auto; [apply value_interpolates|apply value_through]; assumption|reflexivity].
Qed.

(** A window is a plane at its effective redshift, with its integral divided by its value there as
    weight. *)
Theorem window_plane cosmo st h d w a b :
  increasing (za w) -> length (za w) = length (wa w) -> starts_with (za w) a -> ends_with (za w) b ->
  exists v, lens_weight w v /\ add_window cosmo st h d w = add_plane cosmo st h d (zeff w) v.
Proof.
  intros I L Ha Hb. assert (Hne : za w <> []) by (intros E; rewrite E in Ha; discriminate).
  assert (W : exists v, weight_of w = Ok v).
  { unfold weight_of. rewrite trapezoid_ok, interp_ok by (auto; symmetry; exact L). eexists; reflexivity. }
  destruct W as [v W]. exists v. split; [exact (weight_meaning w v a b I L Ha Hb W)|].
  rewrite add_window_plane, W. reflexivity.
Qed.
Print Assumptions window_plane.

Example window_plane_example :
  (* a triangle of area 2 and height 2 *)
  let w := {| za := [0; 1; 2]; wa := [0; 2; 0]; zeff := 1 |} in
  lens_weight w 1 /\ add_window flat_example new_planes [[1]] 0 w = add_plane flat_example new_planes [[1]] 0 1 1.
Proof.
  intro w.
  assert (W : weight_of w = Ok 1).
  { unfold weight_of, w; cbn. unfold interp, trapezoid; cbn. rewrite ltb_false by lra.
    repeat (first [rewrite ltb_true by lra | rewrite ltb_false by lra | rewrite leb_true by lra | rewrite leb_false by lra]; cbn).
    f_equal. field. }
  assert (I : increasing [0; 1; 2]) by (repeat (apply increasing_two; [lra|]); apply increasing_one).
  split.
  - apply (weight_meaning w 1 0 2); [exact I| | | |exact W]; reflexivity.
  - rewrite add_window_plane, W. reflexivity.
Qed.

(** C43 *)

(** The matrix is defined when the effective redshifts increase from zero and every window has at least
    one point and as many values as points. *)
Theorem matrix_defined shells cosmo :
  increasing (0 :: map zeff shells) ->
  (forall w, In w shells -> length (za w) = length (wa w) /\ za w <> []) ->
  exists mat, multi_plane_matrix shells cosmo = Ok mat.
Proof.
  intros I W. apply (matrix_exists cosmo (length shells) shells 0 new_planes [] (fun _ => pixel0)).
  - apply tracks_new.
  - exact I.
  - intros w Hw. destruct (W w Hw) as [L Ne]. unfold weight_of.
    rewrite trapezoid_ok, interp_ok by (auto; symmetry; exact L). eexists; reflexivity.
Qed.
Print Assumptions matrix_defined.

(** The matrix is square, and zero on and above the diagonal. *)
Theorem matrix_triangular shells cosmo mat :
  multi_plane_matrix shells cosmo = Ok mat ->
  length mat = length shells /\
  forall k row, nth_error mat k = Some row -> length row = length shells /\
    forall j, (k <= j < length shells)%nat -> nth_error row j = Some 0.
Proof.
  intro H. destruct (matrix_lower cosmo (length shells) shells 0 new_planes [] (fun _ => pixel0) mat (tracks_new _ _) H) as [L A].
  - intros; split; reflexivity.
  - intros; reflexivity.
  - split; [exact L|]. intros k row Hk. destruct (A k row Hk) as [A1 A2]. split; [exact A1|].
    intros j Hj. rewrite (nth_error_nth' row 0) by lia. rewrite A2 by lia. reflexivity.
Qed.
Print Assumptions matrix_triangular.

(** Row [k] of the matrix times the matter in all planes is the convergence after plane [k], in every
    pixel, whatever the cosmology. *)
Theorem matrix_times_planes shells cosmo mat h m ds :
  multi_plane_matrix shells cosmo = Ok mat -> length ds = length shells ->
  (forall d, In d ds -> (d < length h)%nat /\ length (nth d h []) = m) ->
  forall k row, nth_error mat k = Some row ->
  exists st h' a, add_windows cosmo new_planes h (firstn (S k) (combine ds shells)) = (st, h', None) /\
    kappa st = Some a /\ length (nth a h' []) = m /\
    forall i, nth i (nth a h' []) 0 =
      sum_of (map (fun p => fst p * nth i (nth (snd p) h []) 0) (combine row ds)).
Proof.
  intros H Ld A k row Hk.
  assert (Lr := proj1 (proj2 (matrix_triangular _ _ _ H) k row Hk)).
  destruct (matrix_dual cosmo (length shells) (fun i j => nth i (load h (nth j ds 0%nat)) 0)
    shells 0 new_planes [] (fun _ => pixel0) mat (tracks_new _ _) H ltac:(lia)
    ds new_planes h m (fun _ => pixel0) (length h) (tracks_new _ _) ltac:(split; discriminate) ltac:(lia) Ld A) with (k := k) (row := row)
    as (st & h' & a & E & K & L & V).
  - intro p. apply combines_zero.
  - intros k' d p Hk'. cbn [Nat.add]. rewrite (nth_error_nth _ _ _ Hk'). reflexivity.
  - exact Hk.
  - exists st, h', a. split; [exact E|]. split; [exact K|]. split; [exact L|]. intro i.
    change (nth a h' []) with (load h' a). rewrite V. clear - Lr Ld. rewrite <- Lr. assert (Q : length row = length ds) by congruence. clear Lr Ld.
    revert ds Q. induction row as [|x row IH]; intros [|d ds] Q; try discriminate; [reflexivity|].
    cbn [length]. rewrite rsum_S_l. cbn [combine map sum_of fold_right fst snd nth]. f_equal. apply IH. cbn in Q; lia.
Qed.
Print Assumptions matrix_times_planes.

Lemma add_windows_planes cosmo : forall shells vs, Forall2 (fun w v => weight_of w = Ok v) shells vs ->
  forall ds st h, length ds = length shells ->
  add_windows cosmo st h (combine ds shells) = add_planes cosmo st h (combine (combine ds (map zeff shells)) vs).
Proof.
  induction 1 as [|w v shells vs W _ IH]; intros [|d ds] st h L; try discriminate; [reflexivity|].
  cbn [combine map add_windows add_planes]. rewrite add_window_plane, W.
  destruct (add_plane cosmo st h d (zeff w) v) as [[st' h'] [e|]]; [reflexivity|]. apply IH. cbn in L. lia.
Qed.

Lemma sum_pick (f : nat -> R) j : forall n o, (o <= j < o + n)%nat ->
  sum_of (map (fun i => f i * (if Nat.eqb j i then 1 else 0)) (seq o n)) = f j.
Proof.
  assert (Z : forall n o, (j < o)%nat -> sum_of (map (fun i => f i * (if Nat.eqb j i then 1 else 0)) (seq o n)) = 0).
  { induction n as [|n IH]; intros o Ho; [reflexivity|]. cbn [seq map sum_of fold_right].
    fold (sum_of (map (fun i => f i * (if Nat.eqb j i then 1 else 0)) (seq (S o) n))). rewrite IH by lia.
    destruct (Nat.eqb_spec j o); [lia|lra]. }
  induction n as [|n IH]; intros o Ho; [lia|]. cbn [seq map sum_of fold_right].
  fold (sum_of (map (fun i => f i * (if Nat.eqb j i then 1 else 0)) (seq (S o) n))).
  destruct (Nat.eqb_spec j o) as [->|N].
  - rewrite Z by lia. lra.
  - rewrite IH by lia. lra.
Qed.

Lemma map_combine_nth {A B} (f : A * B -> R) a b da db : length a = length b ->
  map f (combine a b) = map (fun i => f (nth i a da, nth i b db)) (seq 0 (length a)).
Proof.
  revert b. induction a as [|x a IH]; intros [|y b] L; try discriminate; [reflexivity|].
  cbn [combine map length seq nth]. f_equal. rewrite IH by (cbn in L; lia). rewrite <- seq_shift, map_map. reflexivity.
Qed.

(** The entries of the matrix below the diagonal are the efficiencies of the shells. *)
Theorem matrix_entries shells cosmo g chi mat :
  has_geometry cosmo g chi -> multi_plane_matrix shells cosmo = Ok mat ->
  increasing (0 :: map zeff shells) ->
  (forall w, In w shells -> increasing (za w) /\ length (za w) = length (wa w) /\ za w <> []) ->
  forall k j row w w', nth_error mat k = Some row -> nth_error shells j = Some w -> nth_error shells k = Some w' ->
  (j < k)%nat -> exists v, lens_weight w v /\ nth_error row j = Some (lensing_efficiency cosmo (zeff w) v (zeff w')).
Proof.
  intros G H I A k j row w w' Hk Hj Hk' Hjk. set (n := length shells).
  assert (Kn : (k < n)%nat) by (apply nth_error_Some; congruence).
  assert (W : exists vs, Forall2 (fun w v => weight_of w = Ok v) shells vs).
  { clear - A. induction shells as [|w shells IH]; [exists []; constructor|].
    destruct IH as [vs V]; [intros w' Hw'; apply A; right; exact Hw'|].
    destruct (A w (or_introl eq_refl)) as (I & L & Ne).
    eexists (_ :: vs). constructor; [|exact V]. unfold weight_of. rewrite trapezoid_ok, interp_ok by (auto; symmetry; exact L). reflexivity. }
  destruct W as [vs W]. assert (Lv := forall2_length _ _ _ W). fold n in Lv.
  set (h := map (unit_row n) (seq 0 n)).
  assert (Uh : forall i, (i < n)%nat -> nth i h [] = unit_row n i).
  { intros i Hi. unfold h. rewrite nth_indep with (d' := unit_row n 0) by (rewrite map_length, seq_length; exact Hi).
    rewrite map_nth, seq_nth by exact Hi. reflexivity. }
  assert (Lh : length h = n) by (unfold h; rewrite map_length; apply seq_length).
  assert (Lr := proj1 (proj2 (matrix_triangular _ _ _ H) k row Hk)). fold n in Lr.
  destruct (matrix_times_planes shells cosmo mat h n (seq 0 n) H (seq_length _ _)) with (k := k) (row := row)
    as (st & h' & a & E & K & L & V); [|exact Hk|].
  { intros d Hd. apply in_seq in Hd. rewrite Lh, Uh by lia. split; [lia|apply unit_row_length]. }
  (* the run over the first k + 1 windows *)
  assert (Cf : firstn (S k) (combine (seq 0 n) shells) = combine (seq 0 (S k)) (firstn (S k) shells)).
  { rewrite combine_firstn. f_equal. rewrite firstn_seq || idtac. replace n with (S k + (n - S k))%nat by lia.
    rewrite seq_app, firstn_app, seq_length, Nat.sub_diag, firstn_O, app_nil_r. apply firstn_all2. rewrite seq_length. lia. }
  set (f := fun i => (i, nth i (map zeff shells) 0, nth i vs 0)).
  assert (Fs : combine (combine (seq 0 (S k)) (map zeff (firstn (S k) shells))) (firstn (S k) vs) = map f (seq 0 k) ++ [f k]).
  { transitivity (map f (seq 0 (S k))); [|rewrite seq_S, map_app; reflexivity].
    apply nth_error_ext'. intro i. rewrite !nth_error_combine.
    destruct (Nat.lt_ge_cases i (S k)) as [Hi|Hi].
    - rewrite (nth_error_map f), !nth_error_seq. destruct (Nat.ltb_spec i (S k)); [|lia].
      rewrite nth_error_firstn. destruct (Nat.ltb_spec i (S k)); [|lia].
      rewrite (nth_error_map zeff), nth_error_firstn. destruct (Nat.ltb_spec i (S k)); [|lia].
      rewrite (nth_error_nth' shells {| za := []; wa := []; zeff := 0 |}) by (fold n; lia). rewrite (nth_error_nth' vs 0) by lia.
      cbn [option_map]. unfold f. cbn [Nat.add].
      do 3 f_equal. symmetry. apply nth_error_nth. rewrite nth_error_map.
      rewrite (nth_error_nth' shells {| za := []; wa := []; zeff := 0 |}) by (fold n; lia). reflexivity.
    - rewrite (nth_error_map f), !nth_error_seq. destruct (Nat.ltb_spec i (S k)); [lia|]. reflexivity. }
  assert (E' : add_planes cosmo new_planes h (map f (seq 0 k) ++ [f k]) = (st, h', None)).
  { rewrite <- Fs. rewrite <- E. rewrite Cf. symmetry. apply add_windows_planes.
    - clear - W. generalize (S k). induction W as [|x y l l' Hxy _ IHw]; intros [|q]; cbn [firstn]; constructor; auto.
    - rewrite seq_length, firstn_length. fold n. lia. }
  destruct (convergence_sum cosmo g chi h n (map f (seq 0 k)) k (nth k (map zeff shells) 0) (nth k vs 0) G)
    as (st2 & h2 & a2 & E2 & K2 & _ & _ & _ & V2).
  { change [(k, nth k (map zeff shells) 0, nth k vs 0)] with (map f [k]). rewrite <- map_app, <- seq_S, map_map. cbn [f fst snd].
    intros i x y Hx Hy.
    assert (Q : forall i x, nth_error (0 :: map (fun x => nth x (map zeff shells) 0) (seq 0 (S k))) i = Some x ->
      nth_error (0 :: map zeff shells) i = Some x).
    { intros [|i'] x' Hx'; [exact Hx'|]. cbn [nth_error] in Hx' |- *.
      rewrite nth_error_map, nth_error_seq in Hx'. destruct (Nat.ltb_spec i' (S k)); [|discriminate].
      cbn [option_map Nat.add] in Hx'. rewrite (nth_error_nth' (map zeff shells) 0) by (rewrite map_length; fold n; lia). exact Hx'. }
    exact (I i x y (Q _ _ Hx) (Q _ _ Hy)). }
  { intros d z v Hin. change [(k, nth k (map zeff shells) 0, nth k vs 0)] with (map f [k]) in Hin.
    rewrite <- map_app, <- seq_S in Hin. apply in_map_iff in Hin. destruct Hin as (i & Ei & Hi). apply in_seq in Hi.
    injection Ei as <- <- <-. rewrite Lh, Uh by lia. split; [lia|apply unit_row_length]. }
  change (f k) with (k, nth k (map zeff shells) 0, nth k vs 0) in E'. rewrite E' in E2. injection E2 as <- <-.
  assert (a2 = a) by congruence. subst a2.
  assert (Jn : (j < n)%nat) by lia.
  exists (nth j vs 0). 
  split.
  - destruct (A w (nth_error_In _ _ Hj)) as (Iw & Lw & Ne).
    assert (Hs : exists x, starts_with (za w) x) by (destruct (za w) as [|x l]; [contradiction|exists x; reflexivity]).
    destruct Hs as [x Hs].
    assert (He : exists y, ends_with (za w) y).
    { unfold ends_with. destruct (nth_error (za w) (length (za w) - 1)) as [y|] eqn:Ey; [exists y; reflexivity|].
      apply nth_error_None in Ey. destruct (za w); [contradiction|cbn in Ey; lia]. }
    destruct He as [y He]. apply (weight_meaning w _ x y Iw Lw Hs He).
    apply (forall2_at _ _ _ W j w (nth j vs 0)); [exact Hj|]. apply nth_error_nth'. lia.
  - rewrite (nth_error_nth' row 0) by lia. f_equal.
    assert (V1 := V j). rewrite V2 in V1. rewrite map_map in V1. cbn [f] in V1.
    rewrite (map_combine_nth _ row (seq 0 n) 0 0%nat) in V1 by (rewrite seq_length; exact Lr).
    cbn [fst snd] in V1. rewrite Lr in V1.
    assert (S1 : map (fun i => nth i row 0 * nth j (nth (nth i (seq 0 n) 0%nat) h []) 0) (seq 0 n)
               = map (fun i => nth i row 0 * (if Nat.eqb j i then 1 else 0)) (seq 0 n)).
    { apply map_ext_in. intros i Hi. apply in_seq in Hi. rewrite seq_nth by lia. cbn [Nat.add].
      rewrite Uh by lia. rewrite unit_row_nth by exact Jn. reflexivity. }
    assert (S2 : map (fun i => lensing_efficiency cosmo (nth i (map zeff shells) 0) (nth i vs 0) (nth k (map zeff shells) 0) * nth j (nth i h []) 0) (seq 0 k)
               = map (fun i => lensing_efficiency cosmo (nth i (map zeff shells) 0) (nth i vs 0) (nth k (map zeff shells) 0) * (if Nat.eqb j i then 1 else 0)) (seq 0 k)).
    { apply map_ext_in. intros i Hi. apply in_seq in Hi. rewrite Uh by lia. rewrite unit_row_nth by exact Jn. reflexivity. }
    rewrite S1, S2 in V1. rewrite !(sum_pick _ j) in V1 by lia. rewrite <- V1.
    rewrite (nth_error_nth _ _ 0 (map_nth_error zeff _ _ Hj)), (nth_error_nth _ _ 0 (map_nth_error zeff _ _ Hk')). reflexivity.
Qed.
Print Assumptions matrix_entries.

Lemma sum_seq f n : sum_of (map f (seq 0 n)) = rsum n f.
Proof.
  induction n as [|n IH]; [reflexivity|]. rewrite seq_S, map_app. cbn [rsum]. rewrite <- IH. cbn [map Nat.add].
  unfold sum_of. rewrite fold_right_app. cbn [fold_right].
  generalize (map f (seq 0 n)). induction l as [|x l IHl]; cbn [fold_right]; lra.
Qed.

Lemma total_seq f n : total (map f (seq 0 n)) = rsum n f.
Proof. rewrite total_sum. apply sum_seq. Qed.

(** For one distribution of sources over the shells, or several ones in columns: the matter in all planes
    summed with the lensing weights is the average of the convergence in the shells. *)
Theorem weights_dual weights shells cosmo rest q h m ds :
  ashape weights = length shells :: rest -> (length rest <= 1)%nat ->
  multi_plane_weights weights shells cosmo = Ok q ->
  length ds = length shells -> (forall d, In d ds -> (d < length h)%nat /\ length (nth d h []) = m) ->
  ashape q = length shells :: rest /\
  exists kappas, length kappas = length shells /\
    (forall k kap, nth_error kappas k = Some kap -> exists st h' a,
       add_windows cosmo new_planes h (firstn (S k) (combine ds shells)) = (st, h', None) /\
       kappa st = Some a /\ nth a h' [] = kap) /\
    forall x p, length x = length rest ->
      let sum := sum_of (map (fun s => aget weights (s :: x)) (seq 0 (length shells))) in
      sum <> 0 ->
      sum_of (map (fun s => aget q (s :: x) * nth p (nth (nth s ds 0%nat) h []) 0) (seq 0 (length shells))) =
      sum_of (map (fun k => aget weights (k :: x) / sum * nth p (nth k kappas []) 0) (seq 0 (length shells))).
Proof.
  intros Hs Hr H Ld A. unfold multi_plane_weights in H. rewrite Hs, Nat.eqb_refl in H.
  set (n := length shells) in *. apply bind_ok in H. destruct H as (mat & Hm & H).
  destruct (matrix_triangular _ _ _ Hm) as [Lm Lrow]. fold n in Lm, Lrow.
  assert (K : forall k, (k < n)%nat -> exists kap, (exists st h' a,
       add_windows cosmo new_planes h (firstn (S k) (combine ds shells)) = (st, h', None) /\ kappa st = Some a /\ nth a h' [] = kap) /\
       forall p, nth p kap 0 = rsum n (fun j => entry mat k j * nth p (nth (nth j ds 0%nat) h []) 0)).
  { intros k Hk. assert (Hrow : nth_error mat k = Some (nth k mat [])) by (apply nth_error_nth'; lia).
    destruct (matrix_times_planes shells cosmo mat h m ds Hm Ld A k _ Hrow) as (st & h' & a & E & Ka & _ & V).
    exists (nth a h' []). split; [exists st, h', a; auto|]. intro p. rewrite V.
    rewrite (map_combine_nth _ _ ds 0 0%nat) by (rewrite (proj1 (Lrow _ _ Hrow)); symmetry; exact Ld).
    rewrite (proj1 (Lrow _ _ Hrow)), sum_seq. reflexivity. }
  assert (Ks : exists kappas, length kappas = n /\ forall k kap, nth_error kappas k = Some kap ->
    (exists st h' a, add_windows cosmo new_planes h (firstn (S k) (combine ds shells)) = (st, h', None) /\ kappa st = Some a /\ nth a h' [] = kap) /\
    forall p, nth p kap 0 = rsum n (fun j => entry mat k j * nth p (nth (nth j ds 0%nat) h []) 0)).
  { revert K. generalize n at 1 3. intro n'. induction n' as [|n' IH]; intro K.
    - exists []. split; [reflexivity|]. intros [|k] kap Hk; discriminate.
    - destruct IH as (kappas & Lk & Vk); [intros k Hk; apply K; lia|]. destruct (K n' ltac:(lia)) as (kap & Kk).
      exists (kappas ++ [kap]). split; [rewrite app_length; cbn; lia|]. intros k kap' Hk.
      destruct (Nat.lt_ge_cases k n') as [Hl|Hl].
      + rewrite nth_error_app1 in Hk by lia. apply Vk. exact Hk.
      + assert (k = n'). { assert (k < length (kappas ++ [kap]))%nat by (apply nth_error_Some; congruence). rewrite app_length in *. cbn in *. lia. }
        subst k. rewrite nth_error_app2, Lk, Nat.sub_diag in Hk by lia. injection Hk as <-. exact Kk. }
  destruct Ks as (kappas & Lk & Vk).
  assert (Q : ashape q = n :: rest /\ forall s x, length x = length rest -> aget q (s :: x) =
    rsum n (fun k => entry mat k s * (aget weights (k :: x) / rsum n (fun k => aget weights (k :: x))))).
  { unfold matmul_transposed in H. cbn [ashape aget] in H.
    destruct rest as [|c [|]]; [| |cbn in Hr; lia]; cbn [rev app length] in H; rewrite Nat.eqb_refl in H; injection H as <-.
    - split; [reflexivity|]. intros s [|] Hx; [|discriminate]. cbn [aget hd tl]. rewrite total_seq. apply rsum_ext. intros k _.
      rewrite total_seq. reflexivity.
    - split; [reflexivity|]. intros s [|x0 [|]] Hx; try discriminate. cbn [aget firstn nth Nat.add app length tl]. rewrite total_seq.
      apply rsum_ext. intros k _. rewrite total_seq. reflexivity. }
  destruct Q as [Q1 Q2]. split; [exact Q1|]. exists kappas. split; [exact Lk|]. split; [intros k kap Hk; apply (Vk k kap Hk)|].
  intros x p Hx. cbv zeta. intros _. rewrite !sum_seq. set (W := rsum n (fun k => aget weights (k :: x))).
  transitivity (rsum n (fun s => rsum n (fun k => aget weights (k :: x) / W * (entry mat k s * nth p (nth (nth s ds 0%nat) h []) 0)))).
  - apply rsum_ext. intros s Hs'. rewrite Q2 by exact Hx. fold W. rewrite <- rsum_scal_r. apply rsum_ext. intros k _. unfold W. ring.
  - rewrite rsum_swap. apply rsum_ext. intros k Hk. rewrite rsum_scal. f_equal. symmetry. apply Vk. apply nth_error_nth'. lia.
Qed.
Print Assumptions weights_dual.

(** The number of weights has to be that of the shells, or there is an exception. *)
Theorem weights_rejected weights shells cosmo :
  (forall rest, ashape weights <> length shells :: rest) -> multi_plane_weights weights shells cosmo = Err ValueError.
Proof.
  intro H. unfold multi_plane_weights. destruct (ashape weights) as [|n rest]; [reflexivity|].
  destruct (Nat.eqb_spec n (length shells)) as [->|N]; [|reflexivity]. destruct (H rest eq_refl).
Qed.
Print Assumptions weights_rejected.

(** The documentation only asks that the first axis is that of the shells.  With two further axes there is
    an exception, although the first axis fits. *)
Theorem weights_axes_refuted :
  ~ (forall weights shells cosmo rest mat, ashape weights = length shells :: rest ->
       multi_plane_matrix shells cosmo = Ok mat -> exists q, multi_plane_weights weights shells cosmo = Ok q).
Proof.
  intro H.
  set (w := {| za := [1; 2]; wa := [1; 1]; zeff := 1 |}).
  destruct (matrix_defined [w] flat_example) as [mat Hm].
  { cbn. apply increasing_two; [lra|apply increasing_one]. }
  { intros w' [<-|[]]. split; [reflexivity|discriminate]. }
  destruct (H {| ashape := [1; 2; 1]%nat; aget := fun _ => 1 |} [w] flat_example [2; 1]%nat mat eq_refl Hm) as [q Q].
  unfold multi_plane_weights in Q. cbn [ashape length Nat.eqb] in Q. rewrite Hm in Q. discriminate.
Qed.
Print Assumptions weights_axes_refuted.

(** Shells at redshifts 1, 2 and 3 of the flat space, with weight one. *)
Definition shells_example : list window :=
  map (fun z => {| za := [z - 1 / 2; z; z + 1 / 2]; wa := [0; 2; 0]; zeff := z |}) [1; 2; 3].

Example matrix_example :
  exists mat, multi_plane_matrix shells_example flat_example = Ok mat /\
    nth 0 mat [] = [0; 0; 0] /\ nth 2 mat [] = [1 / 3; 1 / 3; 0].
Proof.
  assert (Ic : forall z, increasing [z - 1 / 2; z; z + 1 / 2]) by (intro z; repeat (apply increasing_two; [lra|]); apply increasing_one).
  assert (I : increasing (0 :: map zeff shells_example)).
  { cbn. repeat (apply increasing_two; [lra|]). apply increasing_one. }
  assert (A : forall w, In w shells_example -> increasing (za w) /\ length (za w) = length (wa w) /\ za w <> []).
  { intros w [<-|[<-|[<-|[]]]]; cbn [za wa]; split; try apply Ic; split; try reflexivity; discriminate. }
  destruct (matrix_defined shells_example flat_example I) as [mat Hm].
  { intros w Hw. destruct (A w Hw) as (_ & B & C). split; assumption. }
  exists mat. split; [exact Hm|]. destruct (matrix_triangular _ _ _ Hm) as [L T]. cbn [length shells_example map] in L, T.
  destruct mat as [|r0 [|r1 [|r2 [|]]]]; try discriminate. cbn [nth].
  assert (Wt : forall w z v, za w = [z - 1 / 2; z; z + 1 / 2] -> wa w = [0; 2; 0] -> zeff w = z -> lens_weight w v -> v = 1 / 2).
  { intros w z v Ez Ew Ef (g & a & b & t & Hi & Hp & Ha & Hb & Ht & ->). rewrite Ez, Ew in *. rewrite Ef.
    injection Ha as <-. injection Hb as <-.
    assert (Gz : g z = 2) by (apply (Hp 1%nat); reflexivity). rewrite Gz.
    assert (T1 := trapezoids_integral g _ [0; 2; 0] (z - 1 / 2) (z + 1 / 2) (Ic z) eq_refl Hi Hp eq_refl eq_refl).
    assert (Et : t = total (trapezoids (combine [z - 1 / 2; z; z + 1 / 2] [0; 2; 0]))).
    { exact (eq_trans (eq_sym (is_RInt_unique _ _ _ _ Ht)) (is_RInt_unique _ _ _ _ T1)). }
    rewrite Et. cbn. field. }
  split.
  - destruct (T 0%nat r0 eq_refl) as [L0 T0].
    destruct r0 as [|a [|b [|c [|]]]]; try discriminate.
    assert (X := T0 0%nat ltac:(lia)). assert (Y := T0 1%nat ltac:(lia)). assert (Z := T0 2%nat ltac:(lia)). cbn in X, Y, Z. congruence.
  - destruct (T 2%nat r2 eq_refl) as [L2 T2]. destruct r2 as [|a [|b [|c [|]]]]; try discriminate.
    assert (Z := T2 2%nat ltac:(lia)). cbn in Z.
    destruct (matrix_entries shells_example flat_example Flat (fun z => z) _ flat_geometry Hm I A 2 0 _ _ _ eq_refl eq_refl eq_refl ltac:(lia)) as (v & W & X).
    destruct (matrix_entries shells_example flat_example Flat (fun z => z) _ flat_geometry Hm I A 2 1 _ _ _ eq_refl eq_refl eq_refl ltac:(lia)) as (v' & W' & Y).
    apply (Wt _ 1) in W; try reflexivity. apply (Wt _ 2) in W'; try reflexivity. subst v v'.
    cbn in X, Y. injection X as ->. injection Y as ->. injection Z as ->.
    unfold lensing_efficiency, flat_example; cbn. f_equal; [field|f_equal; field].
Qed.

Example weights_example :
  (* all sources in the last of three shells: the last row of the matrix *)
  exists q, multi_plane_weights {| ashape := [3%nat]; aget := fun i => if Nat.eqb (hd 0%nat i) 2 then 5 else 0 |}
              shells_example flat_example = Ok q /\
    ashape q = [3%nat] /\ aget q [0%nat] = 1 / 3 /\ aget q [1%nat] = 1 / 3 /\ aget q [2%nat] = 0.
Proof.
  destruct matrix_example as (mat & Hm & _ & Hr). unfold multi_plane_weights. cbn [ashape length shells_example map Nat.eqb].
  fold (map (fun z => {| za := [z - 1 / 2; z; z + 1 / 2]; wa := [0; 2; 0]; zeff := z |}) [1; 2; 3]). fold shells_example.
  rewrite Hm. eexists. split; [reflexivity|]. split; [reflexivity|].
  cbn [aget matmul_transposed hd tl seq map total Nat.eqb]. unfold entry. rewrite Hr. cbn [nth].
  repeat split; field.
Qed.

(** C44 *)

(** A plane that is not behind the last one is rejected: no array is written and nothing changes, except
    that the matter plane of a new object turns from nothing to zero; and this makes no difference to any
    later call. *)
Theorem out_of_order_rejected cosmo st h d z w :
  z <= z3 st ->
  exists st', add_plane cosmo st h d z w = (st', h, Some ValueError) /\
    kappa st' = kappa st /\ kappa2 st' = kappa2 st /\ z2 st' = z2 st /\ z3 st' = z3 st /\ x3 st' = x3 st /\
    w3 st' = w3 st /\ r23 st' = r23 st /\
    (delta3 st <> NoPlane -> delta3 st' = delta3 st) /\ (delta3 st = NoPlane -> delta3 st' = ZeroPlane) /\
    forall h2 d2 z2 w2, add_plane cosmo st' h2 d2 z2 w2 = add_plane cosmo st h2 d2 z2 w2.
Proof.
  intro H. exists (initialise st).
  assert (E : z3 (initialise st) = z3 st) by (unfold initialise; destruct (delta3 st); reflexivity).
  split. { unfold add_plane. rewrite E. destruct (Rle_dec z (z3 st)); [reflexivity|lra]. }
  repeat match goal with |- _ /\ _ => split end; try (unfold initialise, kappa; destruct (delta3 st); reflexivity).
  - unfold initialise. destruct (delta3 st) eqn:Q; [congruence|intros _; exact Q|intros _; exact Q].
  - intro Q. unfold initialise. rewrite Q. reflexivity.
  - intros. apply add_plane_initialise.
Qed.
Print Assumptions out_of_order_rejected.

Lemma add_plane_accepted cosmo st h d z w st' h' : add_plane cosmo st h d z w = (st', h', None) ->
  z3 st < z /\ current_zsrc st' = z /\ current_delta st' = At d /\ current_wlens st' = w /\ exists k, kappa st' = Some k.
Proof.
  unfold add_plane. assert (E : z3 (initialise st) = z3 st) by (unfold initialise; destruct (delta3 st); reflexivity). rewrite E.
  destruct (Rle_dec z (z3 st)) as [|N]; [discriminate|]. intro H. split; [lra|].
  destruct (kappa2 (initialise st)) as [k2|], (kappa3 (initialise st)) as [k3|], (delta3 (initialise st)) as [| |a]; cbv zeta beta iota in H;
    try (destruct (plus_scaled _ _ _); [|discriminate]); injection H as <- <-; repeat split; eexists; reflexivity.
Qed.

(** The attributes describe the plane that was added last: its redshift, which is greater than all before, the array
    itself, and its weight. *)
Theorem current_plane cosmo h l d z w st' h' : add_planes cosmo new_planes h (l ++ [(d, z, w)]) = (st', h', None) ->
  current_zsrc st' = z /\ current_delta st' = At d /\ current_wlens st' = w /\ (exists k, kappa st' = Some k) /\
  0 < z /\ forall d' z' w', In (d', z', w') l -> z' < z.
Proof.
  replace 0 with (z3 new_planes) at 1 by reflexivity. generalize new_planes. revert h. induction l as [|[[d1 z1] w1] l IH]; intros h st; cbn [app add_planes].
  - destruct (add_plane cosmo st h d z w) as [[st1 h1] [e|]] eqn:E; [discriminate|]. intros [= <- <-].
    destruct (add_plane_accepted _ _ _ _ _ _ _ _ E) as (H1 & H2 & H3 & H4 & H5). repeat (split; [assumption|]). intros ? ? ? [].
  - destruct (add_plane cosmo st h d1 z1 w1) as [[st1 h1] [e|]] eqn:E; [discriminate|]. intro H.
    destruct (add_plane_accepted _ _ _ _ _ _ _ _ E) as (H1 & H2 & _). destruct (IH h1 st1 H) as (K1 & K2 & K3 & K4 & K5 & K6).
    unfold current_zsrc in H2. repeat (split; [assumption|]). split; [lra|]. intros d' z' w' [[= <- <- <-]|I]; [lra|exact (K6 _ _ _ I)].
Qed.
Print Assumptions current_plane.

Example current_plane_example : exists st h, add_planes flat_example new_planes [[1; 2]; [3; 4]] [(0%nat, 1, 1 / 2); (1%nat, 2, 1 / 3)] = (st, h, None) /\
  current_zsrc st = 2 /\ current_delta st = At 1 /\ current_wlens st = 1 / 3 /\
  current_zsrc new_planes = 0 /\ current_delta new_planes = NoPlane /\ current_wlens new_planes = 0 /\ kappa new_planes = None.
Proof.
  destruct (add_planes flat_example new_planes [[1; 2]; [3; 4]] [(0%nat, 1, 1 / 2); (1%nat, 2, 1 / 3)]) as [[st h] e] eqn:E.
  assert (e = None).
  { revert E. cbn [add_planes]. unfold add_plane. cbn [initialise new_planes delta3 z3 z2 x3 w3 r23 kappa2 kappa3].
    destruct (Rle_dec 1 0); [lra|]. cbn [initialise delta3 z3 z2 x3 w3 r23 kappa2 kappa3]. destruct (Rle_dec 2 1); [lra|]. cbn. intros [= _ _ <-]. reflexivity. }
  subst e. exists st, h. split; [reflexivity|].
  destruct (current_plane flat_example [[1; 2]; [3; 4]] [(0%nat, 1, 1 / 2)] 1%nat 2 (1 / 3) st h E) as (H1 & H2 & H3 & _). repeat split; assumption.
Qed.

(** It is not true that a rejected plane changes nothing at all. *)
Theorem rejected_unchanged_refuted :
  ~ (forall cosmo st h d z w, z <= z3 st -> fst (fst (add_plane cosmo st h d z w)) = st).
Proof.
  intro H. specialize (H flat_example new_planes [[1]] 0%nat 0 1 ltac:(cbn; lra)).
  destruct (out_of_order_rejected flat_example new_planes [[1]] 0%nat 0 1 ltac:(cbn; lra)) as (st' & E & _ & _ & _ & _ & _ & _ & _ & _ & D & _).
  rewrite E in H. cbn in H. subst st'. specialize (D eq_refl). discriminate.
Qed.
Print Assumptions rejected_unchanged_refuted.

(** Nor is it true that a call that raises leaves the state as it was.  A plane of another size than those
    before is noticed too late, by the next call: it raises, but the redshift has changed and the
    convergence is neither that of the old nor that of the new plane. *)
Theorem wrong_size_refuted :
  exists st h st' h' k, history flat_example st h /\
    add_plane flat_example st h 2 3 1 = (st', h', Some ValueError) /\
    z3 st = 2 /\ z3 st' = 3 /\ kappa st' = Some k /\ nth k h' [] = [2 / 3; 2 / 3; 2 / 3] /\
    (* what the convergence would have been, had the size been right *)
    exists st2 h2 k2, add_planes flat_example new_planes [[1; 1; 1]; [1; 1; 1]] [(0%nat, 1, 1); (1%nat, 2, 1); (1%nat, 3, 1)] = (st2, h2, None) /\
      kappa st2 = Some k2 /\ nth k2 h2 [] = [4 / 3; 4 / 3; 4 / 3].
Proof.
  (* memory: [1; 1; 1] and [1; 1] and [1; 1; 1] *)
  set (h0 := [[1; 1; 1]; [1; 1]; [1; 1; 1]]).
  destruct (add_plane flat_example new_planes h0 0 1 1) as [[st1 h1] e1] eqn:E1.
  destruct (add_plane flat_example st1 h1 1 2 1) as [[st2 h2] e2] eqn:E2.
  destruct (add_plane flat_example st2 h2 2 3 1) as [[st3 h3] e3] eqn:E3.
  assert (H2 : history flat_example st2 h2).
  { eapply history_plane; [|exact E2]. eapply history_plane; [|exact E1]. apply history_new. }
  exists st2, h2, st3, h3, 3%nat. assert (E3' := E3).
  unfold add_plane, new_planes, h0 in E1. cbn [initialise delta3 z3 z2 x3 w3 r23 kappa2 kappa3] in E1.
  destruct (Rle_dec 1 0); [lra|]. cbn in E1. injection E1 as <- <- <-.
  unfold add_plane in E2. cbn [initialise delta3 z3 z2 x3 w3 r23 kappa2 kappa3] in E2.
  destruct (Rle_dec 2 1); [lra|]. cbn in E2. injection E2 as <- <- <-.
  unfold add_plane in E3. cbn [initialise delta3 z3 z2 x3 w3 r23 kappa2 kappa3] in E3.
  destruct (Rle_dec 3 2); [lra|]. cbn in E3. injection E3 as <- <- <-.
  split; [exact H2|]. split; [exact E3'|]. split; [reflexivity|]. split; [reflexivity|]. split; [reflexivity|].
  split.
  { cbn. repeat apply f_equal2; try field; reflexivity. }
  destruct (convergence_sum flat_example Flat (fun z => z) [[1; 1; 1]; [1; 1; 1]] 3 [(0%nat, 1, 1); (1%nat, 2, 1)] 1 3 1 flat_geometry)
    as (st & h' & k & E & K & _ & L & _ & V).
  - cbn. repeat (apply increasing_two; [lra|]). apply increasing_one.
  - intros d z w [H|[H|[H|[]]]]; injection H as <- <- <-; cbn; split; (lia || reflexivity).
  - exists st, h', k. split; [exact E|]. split; [exact K|].
    assert (V0 := V 0%nat). assert (V1 := V 1%nat). assert (V3 := V 2%nat).
    destruct (nth k h' []) as [|v0 [|v1 [|v2 [|]]]]; try discriminate. cbn in V0, V1, V3. rewrite V0, V1, V3.
    unfold lensing_efficiency, flat_example; cbn. repeat apply f_equal2; try field; reflexivity.
Qed.
Print Assumptions wrong_size_refuted.

(** For every history of calls: the array [kappa] handed out is left alone by the next plane, which gives
    out another one, and holds the convergence of the second plane after that. *)
Theorem kappa_reused cosmo st h a d1 z1 w1 st1 h1 d2 z2 w2 st2 h2 :
  history cosmo st h -> kappa st = Some a ->
  add_plane cosmo st h d1 z1 w1 = (st1, h1, None) -> add_plane cosmo st1 h1 d2 z2 w2 = (st2, h2, None) ->
  nth a h1 [] = nth a h [] /\ kappa st1 <> Some a /\ kappa st2 = Some a.
Proof.
  intros H Ka E1 E2. assert (B := history_buffers _ _ _ H). assert (H1 := history_plane _ _ _ _ _ _ _ _ _ H E1).
  assert (B1 := history_buffers _ _ _ H1). unfold kappa in *.
  destruct (add_plane_buffers _ _ _ _ _ _ _ _ _ B E1) as [_ S1]. destruct (S1 (add_plane_order _ _ _ _ _ _ _ _ E1)) as [K1 F1].
  destruct (add_plane_buffers _ _ _ _ _ _ _ _ _ B1 E2) as [_ S2]. destruct (S2 (add_plane_order _ _ _ _ _ _ _ _ E2)) as [K2 F2].
  destruct B as [[_ Q]|(x & y & Q2 & Q3 & N & Lx & Ly)]; [congruence|].
  assert (y = a) by congruence. subst y. rewrite Q2, Q3 in K1. destruct K1 as [K12 K13]. rewrite K12, K13 in K2. destruct K2 as [K22 K23].
  split; [apply F1; congruence|]. split; [congruence|exact K23].
Qed.
Print Assumptions kappa_reused.

(** So one cannot keep the convergence maps of all planes without copying them. *)
Theorem kappa_kept_refuted :
  exists st h a st1 h1 st2 h2, history flat_example st h /\ kappa st = Some a /\
    add_plane flat_example st h 0 3 1 = (st1, h1, None) /\ add_plane flat_example st1 h1 0 4 1 = (st2, h2, None) /\
    nth a h [] = [1 / 2] /\ nth a h2 [] = [5 / 2].
Proof.
  assert (R : forall n, (n < 4)%nat -> exists st h' k, add_planes flat_example new_planes [[1]]
     (map (fun i => (0%nat, INR (i + 1), 1)) (seq 0 n) ++ [(0%nat, INR (n + 1), 1)]) = (st, h', None) /\
     kappa st = Some k /\ length (nth k h' []) = 1%nat /\
     nth 0 (nth k h' []) 0 = sum_of (map (fun i => INR (i + 1) * (INR (n + 1) - INR (i + 1)) / INR (n + 1)) (seq 0 n))).
  { intros n Hn. destruct (convergence_sum flat_example Flat (fun z => z) [[1]] 1 (map (fun i => (0%nat, INR (i + 1), 1)) (seq 0 n)) 0%nat (INR (n + 1)) 1 flat_geometry)
      as (st & h' & k & E & K & _ & L & _ & V).
    - change [(0%nat, INR (n + 1), 1)] with (map (fun i => (0%nat, INR (i + 1), 1)) [n]). rewrite <- map_app, <- seq_S, map_map. cbn [fst snd].
      change 0 with (INR 0) at 1. intros i x y Hx Hy.
      assert (Q : forall i x, nth_error (INR 0 :: map (fun i => INR (i + 1)) (seq 0 (S n))) i = Some x -> x = INR i).
      { intros [|i'] x' Hx'; [injection Hx' as <-; reflexivity|]. cbn [nth_error] in Hx'. rewrite nth_error_map, nth_error_seq in Hx'.
        destruct (Nat.ltb_spec i' (S n)); [|discriminate]. cbn [option_map Nat.add] in Hx'. injection Hx' as <-. f_equal. lia. }
      rewrite (Q _ _ Hx), (Q _ _ Hy). apply lt_INR. lia.
    - intros d z w Hin. change [(0%nat, INR (n + 1), 1)] with (map (fun i => (0%nat, INR (i + 1), 1)) [n]) in Hin.
      rewrite <- map_app in Hin. apply in_map_iff in Hin. destruct Hin as (i & Ei & _). injection Ei as <- <- <-. cbn. split; [lia|reflexivity].
    - exists st, h', k. split; [exact E|]. split; [exact K|]. split; [exact L|]. rewrite V, map_map. f_equal. apply map_ext.
      intro i. unfold lensing_efficiency, flat_example. cbn [Omega_m0 distance_to hubble_distance distance_between H_over_H0 nth].
      assert (0 < INR (i + 1)) by (apply lt_0_INR; lia). assert (0 < INR (n + 1)) by (apply lt_0_INR; lia). field. split; lra. }
  destruct (R 1%nat ltac:(lia)) as (st & h & a & E & K & L & V).
  destruct (R 3%nat ltac:(lia)) as (st2 & h2 & a2 & E2 & K2 & L2 & V2).
  cbn [seq map app] in E, E2. cbn [add_planes] in E, E2.
  destruct (add_plane flat_example new_planes [[1]] 0 (INR (0 + 1)) 1) as [[s0 m0] [e0|]] eqn:E0; [discriminate|].
  destruct (add_plane flat_example s0 m0 0 (INR (1 + 1)) 1) as [[s1 m1] [e1|]] eqn:E1; [discriminate|].
  injection E as <- <-.
  destruct (add_plane flat_example s1 m1 0 (INR (2 + 1)) 1) as [[s2 m2] [e2|]] eqn:E3; [discriminate|].
  destruct (add_plane flat_example s2 m2 0 (INR (3 + 1)) 1) as [[s3 m3] [e3|]] eqn:E4; [discriminate|].
  injection E2 as <- <-.
  assert (H : history flat_example s1 m1).
  { eapply history_plane; [|exact E1]. eapply history_plane; [|exact E0]. apply history_new. }
  destruct (kappa_reused _ _ _ _ _ _ _ _ _ _ _ _ _ _ H K E3 E4) as (_ & _ & Ka).
  replace (INR (2 + 1)) with 3 in E3 by (cbn; ring). replace (INR (3 + 1)) with 4 in E4 by (cbn; ring).
  exists s1, m1, a, s2, m2, s3, m3. split; [exact H|]. split; [exact K|]. split; [exact E3|]. split; [exact E4|].
  assert (a2 = a) by congruence. subst a2.
  destruct (nth a m1 []) as [|v [|]]; try discriminate. destruct (nth a m3 []) as [|v2 [|]]; try discriminate.
  cbn in V, V2. rewrite V, V2. split; f_equal; field.
Qed.
Print Assumptions kappa_kept_refuted.

Example rejected_example :
  (* a plane at redshift 2 cannot follow one at redshift 3 *)
  let st := {| z2 := 1; z3 := 3; x3 := 3; w3 := 1; r23 := 2 / 3; delta3 := At 0; kappa2 := Some 1%nat; kappa3 := Some 2%nat |} in
  add_plane flat_example st [[1]; [0]; [1 / 2]] 0 2 1 = (st, [[1]; [0]; [1 / 2]], Some ValueError).
Proof. intro st. unfold add_plane. cbn. destruct (Rle_dec 2 3); [reflexivity|lra]. Qed.

(** C45 *)

(** The factor of order [l] between convergence and potential. *)
Definition potential_factor (l : nat) : R := if Nat.eqb l 0 then 0 else -2 / (INR l * (INR l + 1)).

(** Each combination of outputs: exactly the maps that are asked for, in the order potential, deflection,
    shear, computed from the convergence by [l (l + 1) psi = -2 kappa], [alpha = sqrt (l (l + 1)) psi] and
    [2 gamma = sqrt ((l + 2) (l + 1) l (l - 1)) psi], times the ratio of pixel windows if asked for. *)
Theorem from_convergence_maps get_nside map2alm alm2map alm2map_spin pixwin kap lmax (potential deflection shear discretized : bool) nside :
  get_nside kap = Ok nside ->
  let L := match lmax with Some l => l | None => (3 * nside - 1)%nat end in
  let alm := map2alm L kap in
  let pw := pixwin nside L in
  length alm = (L + 1)%nat -> length (fst pw) = (L + 1)%nat -> length (snd pw) = (L + 1)%nat ->
  exists psi alpha gamma : nat -> R,
    (forall l, (l <= L)%nat ->
       INR l * (INR l + 1) * psi l = (if Nat.eqb l 0 then 0 else -2) /\
       (l = 0%nat -> psi l = 0) /\
       alpha l = sqrt (INR l * (INR l + 1)) * psi l /\
       2 * gamma l = sqrt ((INR l + 2) * (INR l + 1) * INR l * (INR l - 1)) * psi l *
         (if discretized then nth l (snd pw) 0 / nth l (fst pw) 0 else 1)) /\
    let no_b := filtered (fun _ => 0) alm in
    from_convergence get_nside map2alm alm2map alm2map_spin pixwin kap lmax potential deflection shear discretized =
    Ok ((if potential then [RealMap (alm2map nside L (filtered psi alm))] else [])
        ++ (if deflection then let '(a, b) := alm2map_spin nside 1%nat L (filtered alpha alm) no_b in [ComplexMap (combine a b)] else [])
        ++ (if shear then let '(a, b) := alm2map_spin nside 2%nat L (filtered gamma alm) no_b in [ComplexMap (combine a b)] else [])) /\
    shear_from_convergence get_nside map2alm alm2map_spin pixwin kap lmax discretized =
    Ok (alm2map_spin nside 2%nat L (filtered gamma alm) no_b).
Proof.
  intros Hn L alm pw La L0 L2.
  set (pix := fun l => if discretized then nth l (snd pw) 0 / nth l (fst pw) 0 else 1).
  set (psi := potential_factor).
  set (alpha := fun l => sqrt (INR l * (INR l + 1)) * psi l).
  set (gamma := fun l => sqrt ((INR l + 2) * (INR l + 1) * INR l * (INR l - 1)) / 2 * psi l * pix l).
  exists psi, alpha, gamma.
  assert (Pz : forall l, (0 < l)%nat -> 0 < INR l) by (intros; apply lt_0_INR; assumption).
  assert (P1 : forall l, (0 < l)%nat -> 1 <= INR l) by (intros l Hl; change 1 with (INR 1); apply le_INR; lia).
  split.
  { intros l _. unfold psi, potential_factor. split; [|split; [intros ->; reflexivity|split; [reflexivity|]]].
    - destruct (Nat.eqb_spec l 0) as [->|N]; [cbn; ring|]. assert (H := Pz l ltac:(lia)). field. lra.
    - unfold gamma, pix, psi, potential_factor. field. }
  cbv zeta. unfold from_convergence, shear_from_convergence. rewrite Hn. cbn [bind]. fold L. fold alm.
  assert (F1 : almxfl alm (map (fun a => if Rlt_dec 0 a then -2 / (a * (a + 1)) else 0) (arange_ell L)) = filtered psi alm).
  { apply almxfl_ext; [rewrite map_length, ell_length; congruence|]. intros l Hl.
    rewrite (ell_map (fun a => if Rlt_dec 0 a then -2 / (a * (a + 1)) else 0)) by congruence.
    unfold psi, potential_factor. destruct (Nat.eqb_spec l 0) as [->|N].
    - cbn. destruct (Rlt_dec 0 0); [lra|reflexivity].
    - assert (H := Pz l ltac:(lia)). destruct (Rlt_dec 0 (INR l)); [reflexivity|lra]. }
  assert (F2 : almxfl (filtered psi alm) (map (fun a => sqrt (a * (a + 1))) (arange_ell L)) = filtered alpha alm).
  { rewrite (almxfl_ext _ _ (fun l => sqrt (INR l * (INR l + 1)))).
    - rewrite filtered_twice. reflexivity.
    - rewrite map_length, ell_length, filtered_length. congruence.
    - intros l Hl. rewrite filtered_length in Hl. apply (ell_map (fun a => sqrt (a * (a + 1)))). congruence. }
  assert (Lr : length (ratio pw) = (L + 1)%nat) by (unfold ratio; rewrite map_length, combine_length; lia).
  assert (Nr : forall l, (l < L + 1)%nat -> nth l (ratio pw) 0 = nth l (snd pw) 0 / nth l (fst pw) 0).
  { intros l Hl. unfold ratio. rewrite zip_nth by lia. reflexivity. }
  assert (Fd : forall fl c, length fl = (L + 1)%nat -> (forall l, (l < L + 1)%nat -> nth l fl 0 = c l) ->
    length (if discretized then times fl (ratio pw) else fl) = (L + 1)%nat /\
    forall l, (l < L + 1)%nat -> nth l (if discretized then times fl (ratio pw) else fl) 0 = c l * pix l).
  { intros fl c Lf Nf. unfold pix. destruct discretized.
    - split; [unfold times; rewrite map_length, combine_length; lia|]. intros l Hl. unfold times. rewrite zip_nth by lia.
      cbn [fst snd]. rewrite Nf, Nr by exact Hl. reflexivity.
    - split; [exact Lf|]. intros l Hl. rewrite Nf by exact Hl. ring. }
  assert (Sq : forall l, sqrt ((INR l + 2) * (INR l + 1) * INR l * (INR l - 1)) =
    (if Nat.eqb l 0 then 0 else sqrt ((INR l - 1) * (INR l + 2))) * sqrt (INR l * (INR l + 1))).
  { intro l. destruct (Nat.eqb_spec l 0) as [->|N].
    - cbn. rewrite Rmult_0_l. replace ((0 + 2) * (0 + 1) * 0 * (0 - 1)) with 0 by ring. apply sqrt_0.
    - assert (H := P1 l ltac:(lia)). rewrite <- sqrt_mult_alt by (apply Rmult_le_pos; lra). f_equal. ring. }
  assert (F3 : almxfl (filtered alpha alm)
      (if discretized then times (map (fun f => f / 2) (map (fun a => if Rlt_dec 0 a then sqrt ((a - 1) * (a + 2)) else 0) (arange_ell L))) (ratio pw)
       else map (fun f => f / 2) (map (fun a => if Rlt_dec 0 a then sqrt ((a - 1) * (a + 2)) else 0) (arange_ell L))) = filtered gamma alm).
  { destruct (Fd (map (fun f => f / 2) (map (fun a => if Rlt_dec 0 a then sqrt ((a - 1) * (a + 2)) else 0) (arange_ell L)))
        (fun l => (if Nat.eqb l 0 then 0 else sqrt ((INR l - 1) * (INR l + 2))) / 2)) as [Q1 Q2].
    - rewrite !map_length. apply ell_length.
    - intros l Hl. rewrite map_map. rewrite (ell_map (fun a => (if Rlt_dec 0 a then sqrt ((a - 1) * (a + 2)) else 0) / 2)) by exact Hl.
      destruct (Nat.eqb_spec l 0) as [->|N]; [cbn; destruct (Rlt_dec 0 0); [lra|reflexivity]|].
      assert (H := Pz l ltac:(lia)). destruct (Rlt_dec 0 (INR l)); [reflexivity|lra].
    - rewrite (almxfl_ext _ _ (fun l => (if Nat.eqb l 0 then 0 else sqrt ((INR l - 1) * (INR l + 2))) / 2 * pix l)).
      + rewrite filtered_twice. apply filtered_ext. intros l _. unfold gamma, alpha. rewrite Sq. field.
      + rewrite filtered_length. congruence.
      + intros l Hl. rewrite filtered_length in Hl. apply Q2. congruence. }
  assert (F4 : almxfl alm
      (if discretized then times (map (fun f => f * -1) (map (fun p => snd p / Rmax (fst p * (fst p + 1)) 1)
          (combine (arange_ell L) (map (fun a => sqrt ((a + 2) * (a + 1) * a * (a - 1))) (arange_ell L))))) (ratio pw)
       else map (fun f => f * -1) (map (fun p => snd p / Rmax (fst p * (fst p + 1)) 1)
          (combine (arange_ell L) (map (fun a => sqrt ((a + 2) * (a + 1) * a * (a - 1))) (arange_ell L))))) = filtered gamma alm).
  { destruct (Fd (map (fun f => f * -1) (map (fun p => snd p / Rmax (fst p * (fst p + 1)) 1)
          (combine (arange_ell L) (map (fun a => sqrt ((a + 2) * (a + 1) * a * (a - 1))) (arange_ell L)))))
        (fun l => sqrt ((INR l + 2) * (INR l + 1) * INR l * (INR l - 1)) / 2 * psi l)) as [Q1 Q2].
    - rewrite !map_length, combine_length, map_length, ell_length. lia.
    - intros l Hl. rewrite map_map. rewrite zip_nth by (rewrite ?map_length, ?ell_length; lia). cbn [fst snd].
      rewrite (ell_map (fun a => sqrt ((a + 2) * (a + 1) * a * (a - 1)))) by exact Hl.
      assert (El : nth l (arange_ell L) 0 = INR l) by (rewrite <- (map_id (arange_ell L)); apply (ell_map (fun a => a)); exact Hl).
      rewrite El. unfold psi, potential_factor. destruct (Nat.eqb_spec l 0) as [->|N].
      + cbn [INR]. replace ((0 + 2) * (0 + 1) * 0 * (0 - 1)) with 0 by ring. rewrite sqrt_0. unfold Rdiv. ring.
      + assert (H := P1 l ltac:(lia)). rewrite Rmax_left by nra. field. lra.
    - apply almxfl_ext; [congruence|]. intros l Hl. rewrite La in Hl. apply (Q2 l Hl). }
  split.
  - rewrite F1. fold pw. rewrite F2, F3. rewrite zeros_again. unfold complex_map.
    destruct (alm2map_spin nside 1%nat L (filtered alpha alm) (filtered (fun _ => 0) alm)) as [a1 b1].
    destruct (alm2map_spin nside 2%nat L (filtered gamma alm) (filtered (fun _ => 0) alm)) as [a2 b2].
    destruct potential, deflection, shear; reflexivity.
  - fold pw. rewrite F4, zeros_filtered. reflexivity.
Qed.
Print Assumptions from_convergence_maps.

(** With [l] = 2 and convergence coefficient 6: potential -2, deflection -2 sqrt 6, shear -sqrt 6.  Nothing is
    computed when nothing is asked for. *)
Example from_convergence_example :
  let nside (_ : list R) := Ok 1%nat in
  let analyse (_ : nat) (_ : list R) : list (list Complex.C) := [[RtoC 1]; [RtoC 0]; [RtoC 6]] in
  let synthesis (_ _ : nat) (a : list (list Complex.C)) := map fst (nth 2 a []) in
  let spin (_ _ _ : nat) (a b : list (list Complex.C)) := (map fst (nth 2 a []), map fst (nth 2 b [])) in
  let pixwin (_ _ : nat) := ([1; 1; 1], [1; 1; 1]) in
  from_convergence nside analyse synthesis spin pixwin [0] None true false true true =
    Ok [RealMap [-2]; ComplexMap [(- sqrt 24, 0)]] /\
  shear_from_convergence nside analyse spin pixwin [0] None true = Ok ([- sqrt 24], [0]) /\
  from_convergence (fun _ => Err ValueError) analyse synthesis spin pixwin [0] None false false false true = Ok [].
Proof.
  intros. split; [|split; [|reflexivity]].
  - destruct (from_convergence_maps nside analyse synthesis spin pixwin [0] None true false true true 1 eq_refl eq_refl eq_refl eq_refl)
      as (psi & alpha & gamma & F & E & _).
    destruct (F 2%nat) as (F1 & _ & _ & F3); [cbn; lia|]. rewrite E. cbn in F1, F3 |- *.
    assert (P : psi 2%nat = - (1 / 3)) by lra. rewrite P in *.
    replace ((1 + 1 + 2) * (1 + 1 + 1) * (1 + 1) * (1 + 1 - 1)) with 24 in F3 by ring.
    assert (G : gamma 2%nat = - sqrt 24 / 6) by (replace (1 / 1) with 1 in F3 by field; lra). rewrite G.
    f_equal. apply f_equal2; [f_equal; apply f_equal2; [field|reflexivity]|].
    apply f_equal2; [|reflexivity]. f_equal. apply f_equal2; [|reflexivity]. apply f_equal2; field.
  - destruct (from_convergence_maps nside analyse synthesis spin pixwin [0] None true false true true 1 eq_refl eq_refl eq_refl eq_refl)
      as (psi & alpha & gamma & F & _ & E).
    destruct (F 2%nat) as (F1 & _ & _ & F3); [cbn; lia|]. rewrite E. cbn in F1, F3 |- *.
    assert (P : psi 2%nat = - (1 / 3)) by lra. rewrite P in *.
    replace ((1 + 1 + 2) * (1 + 1 + 1) * (1 + 1) * (1 + 1 - 1)) with 24 in F3 by ring.
    assert (G : gamma 2%nat = - sqrt 24 / 6) by (replace (1 / 1) with 1 in F3 by field; lra). rewrite G.
    unfold spin, analyse. cbn. apply (f_equal Ok). apply f_equal2; (apply f_equal2; [field|reflexivity]).
Qed.
