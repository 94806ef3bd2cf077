(** Proofs about lensing. *)
From Coq Require Import Reals Lra.
From Coquelicot Require Import Complex.
From Verif Require Import Base RSum Model_Numeric Model_Arrays Model_Effective Model_Windows Model_Galaxies
  Model_Lensing Spec_Numeric Spec_Windows Spec_Lensing Proof_Numeric Proof_Windows.
Local Open Scope R_scope.

(** * Memory *)

Lemma store_length h a v : (a < length h)%nat -> length (store h a v) = length h.
Proof. intro H. unfold store. rewrite !app_length, firstn_length, skipn_length. cbn. lia. Qed.

Lemma load_store h a v : (a < length h)%nat -> load (store h a v) a = v.
Proof.
  intro H. unfold load, store. rewrite app_nth2; rewrite firstn_length; [|lia].
  replace (a - Nat.min a (length h))%nat with 0%nat by lia. reflexivity.
Qed.

Lemma load_other h a b v : (a < length h)%nat -> a <> b -> load (store h a v) b = load h b.
Proof.
  intros H N. unfold load.
  assert (nth_error (store h a v) b = nth_error h b).
  { unfold store. destruct (Nat.lt_ge_cases b a) as [L|L].
    - rewrite nth_error_app1 by (rewrite firstn_length; lia). rewrite nth_error_firstn. destruct (Nat.ltb_spec b a); [reflexivity|lia].
    - rewrite nth_error_app2 by (rewrite firstn_length; lia). rewrite firstn_length.
      replace (b - Nat.min a (length h))%nat with (S (b - a - 1)) by lia. cbn.
      rewrite nth_error_skipn. f_equal. lia. }
  destruct (nth_error h b) eqn:E.
  - rewrite (nth_error_nth _ _ _ H0), (nth_error_nth _ _ _ E). reflexivity.
  - apply nth_error_None in E, H0. rewrite !nth_overflow by lia. reflexivity.
Qed.

Lemma load_app h l a : (a < length h)%nat -> load (h ++ l) a = load h a.
Proof. intro H. unfold load. apply app_nth1. exact H. Qed.

(** * The recurrence in one pixel *)

Record pixel := { pz2 : R; pz3 : R; px3 : R; pw3 : R; pr23 : R; pk2 : R; pk3 : R; pd : R }.
Definition pixel0 := {| pz2 := 0; pz3 := 0; px3 := 0; pw3 := 0; pr23 := 1; pk2 := 0; pk3 := 0; pd := 0 |}.

Definition next_x (cosmo : cosmology) (z : R) := distance_to cosmo z / hubble_distance cosmo.
Definition next_r (cosmo : cosmology) (z2 z : R) :=
  distance_between cosmo z2 z / (hubble_distance cosmo * next_x cosmo z).
Definition next_f (cosmo : cosmology) (z2 x2 w2 z : R) :=
  3 * Omega_m0 cosmo / 2 * (x2 * next_r cosmo z2 z) * ((1 + z2) / H_over_H0 cosmo z2) * w2.

Definition next (cosmo : cosmology) (p : pixel) (z w d : R) : pixel :=
  let t := next_r cosmo (pz2 p) z / pr23 p in
  {| pz2 := pz3 p; pz3 := z; px3 := next_x cosmo z; pw3 := w; pr23 := next_r cosmo (pz3 p) z;
     pk2 := pk3 p;
     pk3 := pk2 p * (1 - t) + t * pk3 p + next_f cosmo (pz3 p) (px3 p) (pw3 p) z * pd p;
     pd := d |}.

(** The attributes and memory hold, in each of the [m] pixels, the state [P i]. *)
Record tracks (st : planes) (h : heap) (m : nat) (P : nat -> pixel) : Prop :=
  { tr_scalars : forall i, pz2 (P i) = z2 st /\ pz3 (P i) = z3 st /\ px3 (P i) = x3 st /\
      pw3 (P i) = w3 st /\ pr23 (P i) = r23 st;
    tr_memory :
      (kappa2 st = None /\ kappa3 st = None /\ (delta3 st = NoPlane \/ delta3 st = ZeroPlane) /\
       forall i, pk2 (P i) = 0 /\ pk3 (P i) = 0 /\ pd (P i) = 0) \/
      (exists a b d, kappa2 st = Some a /\ kappa3 st = Some b /\ delta3 st = At d /\
        a <> b /\ d <> a /\ d <> b /\
        (a < length h)%nat /\ (b < length h)%nat /\ (d < length h)%nat /\
        length (load h a) = m /\ length (load h b) = m /\ length (load h d) = m /\
        forall i, nth i (load h a) 0 = pk2 (P i) /\ nth i (load h b) 0 = pk3 (P i) /\
                  nth i (load h d) 0 = pd (P i)) }.

Lemma tracks_new h m : tracks new_planes h m (fun _ => pixel0).
Proof. split; [intro i; cbn; repeat split|]. left. repeat split; auto. Qed.

Lemma tracks_app st h m P l : tracks st h m P -> tracks st (h ++ l) m P.
Proof.
  intros [S M]. split; [exact S|]. destruct M as [M|M]; [left; exact M|right].
  destruct M as (a & b & d & M1 & M2 & M3 & N1 & N2 & N3 & L1 & L2 & L3 & K1 & K2 & K3 & V).
  exists a, b, d. rewrite !app_length. rewrite !load_app by assumption.
  repeat match goal with |- _ /\ _ => split end; try assumption; lia.
Qed.

Lemma nth_zip (f : R -> R -> R) a b i : length a = length b -> f 0 0 = 0 ->
  nth i (map (fun p => f (fst p) (snd p)) (combine a b)) 0 = f (nth i a 0) (nth i b 0).
Proof.
  intros L F. revert b i L. induction a as [|x a IH]; intros [|y b] [|i] L; cbn in *; try discriminate;
    try (symmetry; exact F); try reflexivity. apply IH. lia.
Qed.

Lemma nth_map0 (f : R -> R) a i : f 0 = 0 -> nth i (map f a) 0 = f (nth i a 0).
Proof. intro F. revert i. induction a as [|x a IH]; intros [|i]; cbn; try (symmetry; exact F); try reflexivity. apply IH. Qed.

Lemma plus_scaled_ok k f d : length d = length k -> exists v, plus_scaled k f d = Ok v /\
  length v = length k /\ forall i, nth i v 0 = nth i k 0 + f * nth i d 0.
Proof.
  intro L. unfold plus_scaled.
  assert (G : length (map (fun p => fst p + f * snd p) (combine k d)) = length k /\
    forall i, nth i (map (fun p => fst p + f * snd p) (combine k d)) 0 = nth i k 0 + f * nth i d 0).
  { split; [rewrite map_length, combine_length; lia|]. intro i.
    rewrite (nth_zip (fun a b => a + f * b)) by (first [lra | symmetry; exact L]). reflexivity. }
  destruct d as [|x [|y d]].
  - rewrite L, Nat.eqb_refl. eexists; split; [reflexivity|exact G].
  - destruct k as [|k0 [|k1 k]]; try discriminate. eexists; split; [reflexivity|]. split; [reflexivity|].
    intros [|[|i]]; cbn; lra.
  - rewrite L, Nat.eqb_refl. eexists; split; [reflexivity|exact G].
Qed.

(** One plane: the recurrence in every pixel, and only the older of the two convergences is written. *)
Lemma add_plane_tracks cosmo st h m P d z w : tracks st h m P -> z3 st < z ->
  (d < length h)%nat -> length (load h d) = m -> kappa2 st <> Some d -> kappa3 st <> Some d ->
  exists st' h', add_plane cosmo st h d z w = (st', h', None) /\
    tracks st' h' m (fun i => next cosmo (P i) z w (nth i (load h d) 0)) /\
    (length h <= length h')%nat /\
    (forall a, (a < length h)%nat -> kappa2 st <> Some a -> load h' a = load h a) /\
    z3 st' = z /\
    match kappa2 st, kappa3 st with
    | Some a, Some b => kappa2 st' = Some b /\ kappa3 st' = Some a
    | _, _ => kappa2 st' = Some (length h + 1)%nat /\ kappa3 st' = Some (length h)
    end.
Proof.
  intros [S M] Hz Hd Hm N2 N3. unfold add_plane.
  assert (Iz3 : z3 (initialise st) = z3 st) by (unfold initialise; destruct (delta3 st); reflexivity).
  assert (Iz2 : z2 (initialise st) = z2 st) by (unfold initialise; destruct (delta3 st); reflexivity).
  assert (Iw3 : w3 (initialise st) = w3 st) by (unfold initialise; destruct (delta3 st); reflexivity).
  assert (Ix3 : x3 (initialise st) = x3 st) by (unfold initialise; destruct (delta3 st); reflexivity).
  assert (Ir : r23 (initialise st) = r23 st) by (unfold initialise; destruct (delta3 st); reflexivity).
  assert (Ik2 : kappa2 (initialise st) = kappa2 st) by (unfold initialise; destruct (delta3 st); reflexivity).
  assert (Ik3 : kappa3 (initialise st) = kappa3 st) by (unfold initialise; destruct (delta3 st); reflexivity).
  rewrite Iz3, Iz2, Iw3, Ix3, Ir, Ik2, Ik3. destruct (Rle_dec z (z3 st)) as [?|_]; [lra|].
  fold (next_x cosmo z). fold (next_r cosmo (z2 st) z). fold (next_r cosmo (z3 st) z).
  set (t := next_r cosmo (z2 st) z / r23 st).
  change (3 * Omega_m0 cosmo / 2 * (x3 st * next_r cosmo (z3 st) z) * ((1 + z3 st) / H_over_H0 cosmo (z3 st)) * w3 st)
    with (next_f cosmo (z3 st) (x3 st) (w3 st) z).
  set (f := next_f cosmo (z3 st) (x3 st) (w3 st) z).
  assert (Sc : forall i v, next cosmo (P i) z w v =
    {| pz2 := z3 st; pz3 := z; px3 := next_x cosmo z; pw3 := w; pr23 := next_r cosmo (z3 st) z;
       pk2 := pk3 (P i); pk3 := pk2 (P i) * (1 - t) + t * pk3 (P i) + f * pd (P i); pd := v |}).
  { intros i v. destruct (S i) as (E1 & E2 & E3 & E4 & E5). unfold next. rewrite E1, E2, E3, E4, E5. reflexivity. }
  destruct M as [(M2 & M3 & MD & V)|(a & b & d0 & M2 & M3 & MD & Nab & Nda & Ndb & La & Lb & Ld & Ka & Kb & Kd & V)].
  - rewrite M2, ?M3.
    assert (ID : delta3 (initialise st) = ZeroPlane)
      by (destruct MD as [MD|MD]; unfold initialise; rewrite MD; [reflexivity|exact MD]).
    rewrite ID. set (zeros := map (fun _ => 0) (load h d)).
    assert (Zn : forall i, nth i zeros 0 = 0) by (intro i; unfold zeros; rewrite (nth_map0 (fun _ => 0)); reflexivity).
    assert (Zl : length zeros = m) by (unfold zeros; rewrite map_length; exact Hm).
    set (h0 := h ++ [zeros; zeros]).
    assert (L0 : length h0 = (length h + 2)%nat) by (unfold h0; rewrite app_length; reflexivity).
    assert (B0 : load h0 (length h) = zeros)
      by (unfold load, h0; rewrite app_nth2 by lia; rewrite Nat.sub_diag; reflexivity).
    assert (B1 : load h0 (length h + 1) = zeros)
      by (unfold load, h0; rewrite app_nth2 by lia; replace (length h + 1 - length h)%nat with 1%nat by lia; reflexivity).
    eexists _, _; split; [reflexivity|].
    set (h1 := store h0 (length h) _).
    assert (L1 : length h1 = length h0) by (unfold h1; apply store_length; lia).
    set (h2 := store h1 (length h) _).
    assert (L2 : length h2 = length h0) by (unfold h2; rewrite store_length; lia).
    set (h3 := store h2 (length h) _).
    assert (L3 : length h3 = length h0) by (unfold h3; rewrite store_length; lia).
    assert (O : forall c, c <> length h -> load h3 c = load h0 c).
    { intros c Nc. unfold h3. rewrite load_other by lia. unfold h2. rewrite load_other by lia. unfold h1. apply load_other; lia. }
    assert (E3 : load h3 (length h) = map (fun k => k + f * 0) (load h2 (length h))) by (unfold h3; apply load_store; lia).
    assert (E2 : load h2 (length h) = map (fun p => fst p + t * snd p) (combine (load h1 (length h)) (load h1 (length h + 1))))
      by (unfold h2; apply load_store; lia).
    assert (E1 : load h1 (length h) = map (fun k => k * (1 - t)) zeros)
      by (unfold h1; rewrite load_store, B0 by lia; reflexivity).
    assert (E1' : load h1 (length h + 1) = zeros) by (unfold h1; rewrite load_other, B1 by lia; reflexivity).
    repeat match goal with |- _ /\ _ => split end.
    + split; [intro i; rewrite Sc; cbn; repeat split|]. right.
      exists (length h + 1)%nat, (length h), d. cbn [kappa2 kappa3 delta3].
      assert (Lk : length (load h3 (length h)) = m).
      { rewrite E3, map_length, E2, map_length, combine_length, E1, E1', map_length, Zl. lia. }
      rewrite (O (length h + 1)%nat), (O d) by lia. rewrite B1.
      assert (Dh : load h0 d = load h d) by (unfold h0; apply load_app; exact Hd).
      rewrite Dh, L3, L0.
      repeat match goal with |- _ /\ _ => split end; try reflexivity; try lia; try assumption.
      intro i. rewrite Sc. cbn [pk2 pk3 pd]. destruct (V i) as (V1 & V2 & V3).
      repeat match goal with |- _ /\ _ => split end.
      * rewrite Zn, V2. reflexivity.
      * rewrite E3, (nth_map0 (fun k => k + f * 0)) by lra. rewrite E2, (nth_zip (fun a b => a + t * b)).
        -- rewrite E1, E1', (nth_map0 (fun k => k * (1 - t))) by lra. rewrite Zn, V1, V2, V3. lra.
        -- rewrite E1, E1', map_length. reflexivity.
        -- lra.
      * reflexivity.
    + rewrite L3, L0. lia.
    + intros c Hc _. rewrite O by lia. unfold h0. apply load_app. exact Hc.
    + reflexivity.
    + reflexivity.
    + reflexivity.
  - rewrite M2, ?M3.
    assert (ID : initialise st = st) by (unfold initialise; rewrite MD; reflexivity). rewrite ID, MD.
    set (h1 := store h a _).
    assert (L1 : length h1 = length h) by (unfold h1; apply store_length; lia).
    set (h2 := store h1 a _).
    assert (L2 : length h2 = length h) by (unfold h2; rewrite store_length; lia).
    assert (O : forall c, c <> a -> load h2 c = load h c).
    { intros c Nc. unfold h2. rewrite load_other by lia. unfold h1. apply load_other; lia. }
    assert (E1 : load h1 a = map (fun k => k * (1 - t)) (load h a)) by (unfold h1; apply load_store; lia).
    assert (E1' : load h1 b = load h b) by (unfold h1; apply load_other; assumption).
    assert (E2 : load h2 a = map (fun p => fst p + t * snd p) (combine (load h1 a) (load h1 b)))
      by (unfold h2; apply load_store; lia).
    assert (Lk : length (load h2 a) = m).
    { rewrite E2, map_length, combine_length, E1, E1', map_length. lia. }
    rewrite (O d0) by assumption.
    destruct (plus_scaled_ok (load h2 a) f (load h d0)) as (v & Ev & Lv & Nv); [lia|].
    rewrite Ev. eexists _, _; split; [reflexivity|]. set (h3 := store h2 a v).
    assert (L3 : length h3 = length h) by (unfold h3; rewrite store_length; lia).
    assert (E3 : load h3 a = v) by (unfold h3; apply load_store; lia).
    assert (O3 : forall c, c <> a -> load h3 c = load h c)
      by (intros c Nc; unfold h3; rewrite load_other by (try lia; congruence); apply O; exact Nc).
    assert (Nd : d <> a) by congruence. assert (Nd' : d <> b) by congruence.
    repeat match goal with |- _ /\ _ => split end.
    + split; [intro i; rewrite Sc; cbn; repeat split|]. right.
      exists b, a, d. cbn [kappa2 kappa3 delta3]. rewrite (O3 b), (O3 d), E3, L3 by congruence.
      repeat match goal with |- _ /\ _ => split end; try reflexivity; try lia; try assumption; try congruence.
      intro i. rewrite Sc. cbn [pk2 pk3 pd]. destruct (V i) as (V1 & V2 & V3).
      repeat match goal with |- _ /\ _ => split end; [exact V2| |reflexivity].
      rewrite Nv, E2, (nth_zip (fun a b => a + t * b)).
      * rewrite E1, E1', (nth_map0 (fun k => k * (1 - t))) by lra. rewrite V1, V2, V3. reflexivity.
      * rewrite E1, E1', map_length. congruence.
      * lra.
    + lia.
    + intros c Hc Nc. apply O3. congruence.
    + reflexivity.
    + reflexivity.
    + reflexivity.
Qed.

(** * Several planes *)

Fixpoint nexts (cosmo : cosmology) (p : pixel) (l : list (R * R * R)) : pixel :=
  match l with [] => p | (z, w, d) :: l => nexts cosmo (next cosmo p z w d) l end.

Definition owned (st : planes) (n : nat) : Prop :=
  (forall a, kappa2 st = Some a -> (n <= a)%nat) /\ (forall a, kappa3 st = Some a -> (n <= a)%nat).

Lemma add_plane_owned cosmo st h m P d z w n : tracks st h m P -> owned st n -> (n <= length h)%nat -> z3 st < z ->
  (d < length h)%nat -> length (load h d) = m -> kappa2 st <> Some d -> kappa3 st <> Some d ->
  exists st' h', add_plane cosmo st h d z w = (st', h', None) /\
    tracks st' h' m (fun i => next cosmo (P i) z w (nth i (load h d) 0)) /\
    owned st' n /\ (length h <= length h')%nat /\
    (forall a, (a < n)%nat -> load h' a = load h a) /\ z3 st' = z /\ (exists k, kappa3 st' = Some k).
Proof.
  intros T [O2 O3] Hn Hz Hd Hm N2 N3.
  destruct (add_plane_tracks cosmo st h m P d z w T Hz Hd Hm N2 N3) as (st' & h' & E & T' & L & F & Z & K).
  exists st', h'. split; [exact E|]. split; [exact T'|].
  assert (K' : exists a b, kappa2 st' = Some a /\ kappa3 st' = Some b /\ (n <= a)%nat /\ (n <= b)%nat).
  { destruct (kappa2 st) as [a|] eqn:E2; destruct (kappa3 st) as [b|] eqn:E3; destruct K as [K2 K3].
    - exists b, a. repeat split; auto.
    - eexists _, _. repeat split; eauto; lia.
    - eexists _, _. repeat split; eauto; lia.
    - eexists _, _. repeat split; eauto; lia. }
  destruct K' as (a & b & K2 & K3 & Ha & Hb).
  repeat match goal with |- _ /\ _ => split end; try assumption.
  - split; intros c Hc; congruence.
  - intros c Hc. apply F; [lia|]. intro Q. apply O2 in Q. lia.
  - exists b. exact K3.
Qed.

Lemma add_planes_tracks cosmo l : forall st h m P n, tracks st h m P -> owned st n -> (n <= length h)%nat ->
  (forall d z w, In (d, z, w) l -> (d < n)%nat /\ length (load h d) = m) ->
  increasing (z3 st :: map (fun p => snd (fst p)) l) ->
  exists st' h', add_planes cosmo st h l = (st', h', None) /\
    tracks st' h' m (fun i => nexts cosmo (P i) (map (fun p => (snd (fst p), snd p, nth i (load h (fst (fst p))) 0)) l)) /\
    owned st' n /\ (forall a, (a < n)%nat -> load h' a = load h a) /\
    (l <> [] -> exists k, kappa3 st' = Some k).
Proof.
  induction l as [|[[d z] w] l IH]; intros st h m P n T O Hn A I.
  - exists st, h. cbn. repeat match goal with |- _ /\ _ => split end; auto; try apply O. congruence.
  - destruct (A d z w (or_introl eq_refl)) as [Hd Hm]. cbn [add_planes].
    assert (Hz : z3 st < z) by (apply (I 0%nat); reflexivity).
    destruct (add_plane_owned cosmo st h m P d z w n T O Hn Hz) as (st1 & h1 & E & T1 & O1 & L1 & F1 & Z1 & K1);
      [lia|exact Hm| | |].
    { intro Q. apply (proj1 O) in Q. lia. }
    { intro Q. apply (proj2 O) in Q. lia. }
    rewrite E.
    destruct (IH st1 h1 m _ n T1 O1) as (st2 & h2 & E2 & T2 & O2 & F2 & K2).
    + lia.
    + intros d' z' w' Hin. destruct (A d' z' w' (or_intror Hin)) as [Q1 Q2]. split; [exact Q1|]. rewrite F1; assumption.
    + rewrite Z1. intros i a b Ha Hb. apply (I (S i)); assumption.
    + exists st2, h2. split; [exact E2|]. split.
      * cbn [map nexts fst snd].
        assert (Q : forall i, map (fun p : nat * R * R => (snd (fst p), snd p, nth i (load h (fst (fst p))) 0)) l
                      = map (fun p => (snd (fst p), snd p, nth i (load h1 (fst (fst p))) 0)) l).
        { intro i. apply map_ext_in. intros [[d' z'] w'] Hin. cbn. rewrite F1; [reflexivity|].
          apply (A d' z' w'). right. exact Hin. }
        destruct T2 as [S2 M2]. split.
        -- intro i. rewrite Q. apply S2.
        -- destruct M2 as [(M & M' & M'' & V)|(a & b & c & M)].
           ++ left. repeat match goal with |- _ /\ _ => split end; try assumption. intro i. rewrite Q. apply V.
           ++ right. exists a, b, c. destruct M as (M1 & M2 & M3 & N1 & N2 & N3 & Q1 & Q2 & Q3 & Q4 & Q5 & Q6 & V).
              repeat match goal with |- _ /\ _ => split end; try assumption. intro i. rewrite Q. apply V.
      * split; [exact O2|]. split; [intros a Ha; rewrite F2, F1 by assumption; reflexivity|].
        intros _. destruct l as [|q l]; [|apply K2; discriminate]. cbn in E2. injection E2 as <- <-. exact K1.
Qed.

(** * The sum over lens planes *)

Section Geometry.
  Variables (cosmo : cosmology) (g : geometry) (chi : R -> R).
  Hypothesis G : has_geometry cosmo g chi.

  Lemma chi_pos z : 0 < z -> 0 < chi z.
  Proof. intro H. rewrite <- (chi_zero _ _ _ G). apply (chi_increasing _ _ _ G); lra. Qed.

  Lemma sinh_pos x : 0 < x -> 0 < sinh x.
  Proof. intro H. unfold sinh. assert (exp (- x) < exp x) by (apply exp_increasing; lra). lra. Qed.

  Lemma transverse_pos z z' : 0 <= z -> z < z' -> 0 < transverse g (chi z' - chi z).
  Proof.
    intros Hz H. assert (C := chi_increasing _ _ _ G z z' Hz H). assert (Rd := radius _ _ _ G).
    assert (C0 : 0 <= chi z).
    { destruct Hz as [Hz|<-]; [left; apply chi_pos; exact Hz|right; symmetry; apply (chi_zero _ _ _ G)]. }
    destruct g as [|r|r]; cbn in *.
    - lra.
    - destruct Rd as [Hr B]. apply Rmult_lt_0_compat; [exact Hr|]. apply sin_gt_0.
      + apply Rdiv_lt_0_compat; lra.
      + apply Rmult_lt_reg_l with r; [exact Hr|]. replace (r * ((chi z' - chi z) / r)) with (chi z' - chi z) by (field; lra).
        assert (B' := B z' ltac:(lra)). lra.
    - apply Rmult_lt_0_compat; [exact Rd|]. apply sinh_pos. apply Rdiv_lt_0_compat; lra.
  Qed.

  Lemma distance_pos z : 0 < z -> 0 < distance_to cosmo z.
  Proof.
    intro H. rewrite (to_here _ _ _ G). replace (chi z) with (chi z - chi 0) by (rewrite (chi_zero _ _ _ G); lra).
    apply transverse_pos; lra.
  Qed.

  Lemma transverse0 : transverse g 0 = 0.
  Proof. destruct g as [|r|r]; cbn; [lra| |]; unfold Rdiv; rewrite Rmult_0_l; [rewrite sin_0|rewrite sinh_0]; lra. Qed.

  (** [sin(x - y) sin(z - w)]-type identity: the distances between four points on a line. *)
  Lemma sinh_minus a b : sinh (a - b) = sinh a * cosh b - cosh a * sinh b.
  Proof.
    unfold sinh, cosh. replace (- (a - b)) with (- a + b) by lra. replace (a - b) with (a + - b) by lra.
    rewrite !exp_plus. field.
  Qed.

  Lemma transverse_ptolemy a b c d :
    transverse g (d - a) * transverse g (c - b) =
    transverse g (c - a) * transverse g (d - b) - transverse g (b - a) * transverse g (d - c).
  Proof.
    destruct g as [|r|r]; cbn [transverse].
    - lra.
    - unfold Rdiv. rewrite !Rmult_minus_distr_r. rewrite !sin_minus.
      set (A := a * / r); set (B := b * / r); set (C := c * / r); set (D := d * / r).
      assert (H : forall x, cos x * cos x = 1 - sin x * sin x) by (intro x; generalize (sin2_cos2 x); unfold Rsqr; lra).
      generalize (H A) (H B) (H C) (H D).
      set (sa := sin A); set (ca := cos A); set (sb := sin B); set (cb := cos B); set (sc := sin C); set (cc := cos C);
      set (sd := sin D); set (cd := cos D). intros H1 H2 H3 H4. ring.
    - unfold Rdiv. rewrite !Rmult_minus_distr_r. rewrite !sinh_minus. ring.
  Qed.

  (** The three-term recurrence of the ratios of distances. *)
  Lemma ratio_recurrence a b c d : 0 <= a -> 0 < b -> b < c -> c < d ->
    let r x y := distance_between cosmo x y / distance_to cosmo y in
    r a d = (1 - r b d / r b c) * r a b + r b d / r b c * r a c.
  Proof.
    intros Ha Hb Hc Hd. cbv zeta.
    assert (P1 := transverse_ptolemy (chi a) (chi b) (chi c) (chi d)).
    assert (P2 := transverse_ptolemy 0 (chi b) (chi c) (chi d)).
    rewrite !Rminus_0_r in P2. rewrite <- !(between _ _ _ G) in P1. rewrite <- !(between _ _ _ G), <- !(to_here _ _ _ G) in P2.
    assert (N1 := distance_pos b ltac:(lra)). assert (N2 := distance_pos c ltac:(lra)).
    assert (N3 := distance_pos d ltac:(lra)).
    assert (N4 : 0 < distance_between cosmo b c) by (rewrite (between _ _ _ G); apply transverse_pos; lra).
    set (t := distance_between cosmo b d / distance_to cosmo d / (distance_between cosmo b c / distance_to cosmo c)).
    assert (T : 1 - t = - (distance_between cosmo c d * distance_to cosmo b / (distance_to cosmo d * distance_between cosmo b c))).
    { unfold t. field_simplify_eq; [lra|]. repeat split; lra. }
    rewrite T. unfold t. field_simplify_eq; [|repeat split; lra]. nra.
  Qed.

  Definition lensed (l : list (R * R * R)) (z : R) : R :=
    sum_of (map (fun p => lensing_efficiency cosmo (fst (fst p)) (snd (fst p)) z * snd p) l).

  Lemma lensed_app l m z : lensed (l ++ m) z = lensed l z + lensed m z.
  Proof.
    unfold lensed, sum_of. rewrite map_app, fold_right_app.
    induction l as [|q l IH]; cbn; [lra|]. rewrite IH. lra.
  Qed.

  Lemma lensed_recurrence l b c d : (forall z w v, In (z, w, v) l -> 0 <= z) -> 0 < b -> b < c -> c < d ->
    let r x y := distance_between cosmo x y / distance_to cosmo y in
    lensed l d = (1 - r b d / r b c) * lensed l b + r b d / r b c * lensed l c.
  Proof.
    intros A Hb Hc Hd. cbv zeta. induction l as [|[[z w] v] l IH]; [unfold lensed; cbn; lra|].
    assert (IH' := IH (fun z w v H => A z w v (or_intror H))). clear IH.
    change ((z, w, v) :: l) with ([(z, w, v)] ++ l). rewrite !lensed_app, IH'.
    assert (Q := ratio_recurrence z b c d (A z w v (or_introl eq_refl)) Hb Hc Hd). cbv zeta in Q.
    unfold lensed at 1 4 6. unfold sum_of, lensing_efficiency. cbn [map fold_right fst snd].
    set (t := distance_between cosmo b d / distance_to cosmo d / (distance_between cosmo b c / distance_to cosmo c)) in *.
    rewrite Q. ring.
  Qed.

  Lemma next_r_ratio z2 z : 0 < z -> next_r cosmo z2 z = distance_between cosmo z2 z / distance_to cosmo z.
  Proof.
    intro H. unfold next_r, next_x. assert (P := distance_pos z H). assert (N := hubble _ _ _ G). field. split; lra.
  Qed.

  Record sums (front : list (R * R * R)) (p : pixel) : Prop :=
    { s_front : forall z w v, In (z, w, v) front -> 0 < z /\ 0 < pz2 p;
      s_order : 0 <= pz2 p < pz3 p;
      s_x : px3 p = distance_to cosmo (pz3 p) / hubble_distance cosmo;
      s_r : pr23 p = distance_between cosmo (pz2 p) (pz3 p) / distance_to cosmo (pz3 p);
      s_k2 : pk2 p = lensed front (pz2 p);
      s_k3 : pk3 p = lensed front (pz3 p) }.

  Lemma next_sums front p z w d : sums front p -> pz3 p < z ->
    sums (front ++ [(pz3 p, pw3 p, pd p)]) (next cosmo p z w d).
  Proof.
    intros [F O X Rr K2 K3] Hz. split; cbn [pz2 pz3 px3 pr23 pk2 pk3 pd next].
    - intros z' w' v' Hin. apply in_app_iff in Hin. destruct Hin as [Hin|[E|[]]].
      + destruct (F z' w' v' Hin). lra.
      + injection E as <- <- <-. lra.
    - lra.
    - reflexivity.
    - apply next_r_ratio. lra.
    - rewrite lensed_app, K3. unfold lensed at 3, sum_of, lensing_efficiency. cbn [map fold_right fst snd].
      rewrite (between _ _ _ G (pz3 p)). replace (chi (pz3 p) - chi (pz3 p)) with 0 by lra. rewrite transverse0.
      replace (0 / distance_to cosmo (pz3 p)) with 0 by (unfold Rdiv; ring). ring.
    - rewrite lensed_app. unfold lensed at 2, sum_of, lensing_efficiency. cbn [map fold_right fst snd].
      rewrite <- (next_r_ratio (pz3 p) z) by lra. unfold next_f. rewrite X.
      replace (pk2 p * (1 - next_r cosmo (pz2 p) z / pr23 p) + next_r cosmo (pz2 p) z / pr23 p * pk3 p) with (lensed front z); [ring|].
      destruct front as [|[[z' w'] v'] front].
      + rewrite K2, K3. unfold lensed; cbn. ring.
      + destruct (F z' w' v' (or_introl eq_refl)) as [_ P2].
        rewrite (lensed_recurrence _ (pz2 p) (pz3 p) z); [| |lra|lra|lra].
        * rewrite K2, K3, Rr, next_r_ratio by lra. ring.
        * intros z'' w'' v'' Hin. destruct (F _ _ _ Hin). lra.
  Qed.

  Lemma nexts_sums l : forall front p, sums front p -> increasing (pz3 p :: map (fun q => fst (fst q)) l) ->
    exists w d, front ++ [(pz3 p, pw3 p, pd p)] ++ l = (removelast (front ++ [(pz3 p, pw3 p, pd p)] ++ l)) ++ [(pz3 (nexts cosmo p l), w, d)] /\
      sums (removelast (front ++ [(pz3 p, pw3 p, pd p)] ++ l)) (nexts cosmo p l).
  Proof.
    induction l as [|[[z w] d] l IH]; intros front p Sm I.
    - cbn [nexts app]. rewrite removelast_last. exists (pw3 p), (pd p). split; [reflexivity|exact Sm].
    - cbn [nexts]. assert (Hz : pz3 p < z) by (apply (I 0%nat); reflexivity).
      destruct (IH _ _ (next_sums front p z w d Sm Hz)) as (w' & d' & E & Sm').
      { cbn [next pz3]. intros i a b Ha Hb. apply (I (S i)); assumption. }
      cbn [next pz3 pw3 pd] in E, Sm'. rewrite <- !app_assoc in E, Sm'. cbn [app] in E, Sm' |- *.
      exists w', d'. split; [exact E|exact Sm'].
  Qed.

  Lemma first_sums z w d : 0 < z -> sums [] (next cosmo pixel0 z w d).
  Proof.
    intro H. split; cbn [pz2 pz3 px3 pr23 pk2 pk3 pd next pixel0].
    - intros ? ? ? [].
    - lra.
    - reflexivity.
    - apply next_r_ratio. lra.
    - reflexivity.
    - unfold lensed; cbn. ring.
  Qed.

  (** The convergence of all planes: the last one does not contribute. *)
  Lemma nexts_lensed l z w d : increasing (0 :: map (fun q => fst (fst q)) (l ++ [(z, w, d)])) ->
    pk3 (nexts cosmo pixel0 (l ++ [(z, w, d)])) = lensed l z /\ pz3 (nexts cosmo pixel0 (l ++ [(z, w, d)])) = z.
  Proof.
    intro I. destruct l as [|[[z1 w1] d1] l].
    - cbn [app nexts] in *. assert (Hz : 0 < z) by (apply (I 0%nat); reflexivity).
      split; [exact (s_k3 _ _ (first_sums z w d Hz))|reflexivity].
    - assert (Hz : 0 < z1) by (apply (I 0%nat); reflexivity).
      cbn [app nexts].
      destruct (nexts_sums (l ++ [(z, w, d)]) [] _ (first_sums z1 w1 d1 Hz)) as (w' & d' & E & Sm).
      { cbn [next pz3]. intros i a b Ha Hb. apply (I (S i)); assumption. }
      cbn [next pz3 pw3 pd app] in E, Sm.
      change ((z1, w1, d1) :: l ++ [(z, w, d)]) with (((z1, w1, d1) :: l) ++ [(z, w, d)]) in E, Sm.
      rewrite removelast_last in E, Sm. apply app_inj_tail in E. destruct E as [_ E].
      assert (Ez : z = pz3 (nexts cosmo (next cosmo pixel0 z1 w1 d1) (l ++ [(z, w, d)]))) by congruence.
      split; [|symmetry; exact Ez]. rewrite (s_k3 _ _ Sm), <- Ez. reflexivity.
  Qed.
End Geometry.

(** * Windows, the matrix and its dual *)

Definition weight_of (w : window) : result R :=
  do t <- trapezoid (wa w) (za w); do v <- interp (zeff w) (za w) (wa w) None None; Ok (t / v).

Lemma initialise_twice st : initialise (initialise st) = initialise st.
Proof. unfold initialise. destruct (delta3 st) eqn:E; cbn; rewrite ?E; reflexivity. Qed.

Lemma add_plane_initialise cosmo st h d z w : add_plane cosmo (initialise st) h d z w = add_plane cosmo st h d z w.
Proof. unfold add_plane. rewrite initialise_twice. reflexivity. Qed.

Lemma add_window_plane cosmo st h d w :
  add_window cosmo st h d w =
  match weight_of w with
  | Err e => (initialise st, h, Some e)
  | Ok v => add_plane cosmo st h d (zeff w) v
  end.
Proof.
  unfold add_window, weight_of. destruct (do t <- trapezoid (wa w) (za w); _) as [v|e]; [|reflexivity].
  apply add_plane_initialise.
Qed.

Lemma add_plane_order cosmo st h d z w st' h' : add_plane cosmo st h d z w = (st', h', None) -> z3 st < z.
Proof.
  unfold add_plane. intro H. replace (z3 (initialise st)) with (z3 st) in H
    by (unfold initialise; destruct (delta3 st); reflexivity).
  destruct (Rle_dec z (z3 st)); [discriminate|lra].
Qed.

(** The state [p] is the combination of the states [Q j] with coefficients [c j]. *)
Record combines (n : nat) (c : nat -> R) (p : pixel) (Q : nat -> pixel) : Prop :=
  { c_scalars : forall j, pz2 (Q j) = pz2 p /\ pz3 (Q j) = pz3 p /\ px3 (Q j) = px3 p /\ pw3 (Q j) = pw3 p /\
      pr23 (Q j) = pr23 p;
    c_k2 : pk2 p = rsum n (fun j => c j * pk2 (Q j));
    c_k3 : pk3 p = rsum n (fun j => c j * pk3 (Q j));
    c_d : pd p = rsum n (fun j => c j * pd (Q j)) }.

Lemma combines_next cosmo n c p Q z w d e : combines n c p Q -> d = rsum n (fun j => c j * e j) ->
  combines n c (next cosmo p z w d) (fun j => next cosmo (Q j) z w (e j)).
Proof.
  intros [Sc K2 K3 D] Hd. split; cbn [next pz2 pz3 px3 pw3 pr23 pk2 pk3 pd].
  - intro j. destruct (Sc j) as (E1 & E2 & E3 & E4 & E5). rewrite E2. repeat split; reflexivity.
  - exact K3.
  - set (t := next_r cosmo (pz2 p) z / pr23 p). set (f := next_f cosmo (pz3 p) (px3 p) (pw3 p) z).
    rewrite K2, K3, D. rewrite <- rsum_scal_r, <- !rsum_scal, <- !rsum_plus. apply rsum_ext. intros j _.
    destruct (Sc j) as (E1 & E2 & E3 & E4 & E5). rewrite E1, E2, E3, E4, E5. fold t f. ring.
  - exact Hd.
Qed.

Lemma combines_zero n c : combines n c pixel0 (fun _ => pixel0).
Proof.
  split; [intro j; cbn; repeat split| | |]; cbn; symmetry; apply rsum_zero; intros; ring.
Qed.

Lemma unit_row_length n i : length (unit_row n i) = n.
Proof. unfold unit_row. rewrite map_length. apply seq_length. Qed.

Lemma unit_row_nth n i j : (j < n)%nat -> nth j (unit_row n i) 0 = if Nat.eqb j i then 1 else 0.
Proof.
  intro H. unfold unit_row. set (f := fun j => if Nat.eqb j i then 1 else 0). rewrite nth_indep with (d' := f 0%nat)
    by (rewrite map_length, seq_length; exact H).
  rewrite map_nth, seq_nth by exact H. reflexivity.
Qed.

Lemma tracks_kappa st h m P k : tracks st h m P -> kappa3 st = Some k ->
  length (load h k) = m /\ (k < length h)%nat /\ forall i, nth i (load h k) 0 = pk3 (P i).
Proof.
  intros [_ M] K. destruct M as [(M2 & M3 & _)|(a & b & d & M1 & M2 & M3 & N1 & N2 & N3 & Q1 & Q2 & Q3 & Q4 & Q5 & Q6 & V)].
  - congruence.
  - assert (k = b) by congruence. subst k. repeat split; try assumption. intro i. apply V.
Qed.

Lemma tracks_buffers st h m P a : tracks st h m P -> kappa2 st = Some a \/ kappa3 st = Some a -> (a < length h)%nat.
Proof.
  intros [_ M] K. destruct M as [(M2 & M3 & _)|(x & y & d & M1 & M2 & M3 & N1 & N2 & N3 & Q1 & Q2 & Q3 & _)].
  - destruct K; congruence.
  - destruct K as [K|K]; [assert (a = x) by congruence|assert (a = y) by congruence]; subst; assumption.
Qed.

(** One row of the matrix. *)
Lemma matrix_row cosmo n i w shells st h Q rows : tracks st h n Q ->
  matrix_rows cosmo n i (w :: shells) st h = Ok rows ->
  exists v st' h' row rows', weight_of w = Ok v /\ z3 st < zeff w /\ rows = row :: rows' /\ length row = n /\
    tracks st' h' n (fun j => next cosmo (Q j) (zeff w) v (nth j (unit_row n i) 0)) /\
    (forall j, nth j row 0 = pk3 (next cosmo (Q j) (zeff w) v (nth j (unit_row n i) 0))) /\
    matrix_rows cosmo n (i + 1) shells st' h' = Ok rows'.
Proof.
  intros T H. cbn [matrix_rows] in H. rewrite add_window_plane in H.
  destruct (weight_of w) as [v|e] eqn:W; [|discriminate].
  destruct (add_plane cosmo st (h ++ [unit_row n i]) (length h) (zeff w) v) as [[st' h'] [e|]] eqn:E; [discriminate|].
  assert (Hz := add_plane_order _ _ _ _ _ _ _ _ E).
  assert (Lu : load (h ++ [unit_row n i]) (length h) = unit_row n i).
  { unfold load. rewrite app_nth2 by lia. rewrite Nat.sub_diag. reflexivity. }
  destruct (add_plane_tracks cosmo st (h ++ [unit_row n i]) n Q (length h) (zeff w) v) as (st1 & h1 & E1 & T1 & L & F & Z & K).
  - apply tracks_app. exact T.
  - exact Hz.
  - rewrite app_length. cbn. lia.
  - rewrite Lu. apply unit_row_length.
  - intro C. assert (B := tracks_buffers _ _ _ _ _ T (or_introl C)). lia.
  - intro C. assert (B := tracks_buffers _ _ _ _ _ T (or_intror C)). lia.
  - rewrite E in E1. injection E1 as <- <-. rewrite Lu in T1.
    apply bind_ok in H. destruct H as (row & Hr & H). apply bind_ok in H. destruct H as (rows' & Hr' & H).
    injection H as <-. unfold kappa in Hr. destruct (kappa3 st') as [k|] eqn:Ek; [|discriminate].
    injection Hr as <-. destruct (tracks_kappa _ _ _ _ _ T1 Ek) as (Lk & _ & Vk).
    exists v, st', h', (load h' k), rows'. repeat split; try assumption; try apply T1.
Qed.

Lemma matrix_lower cosmo n : forall shells i st h Q rows, tracks st h n Q ->
  matrix_rows cosmo n i shells st h = Ok rows ->
  (forall j, (i <= S j)%nat -> pk2 (Q j) = 0 /\ pk3 (Q j) = 0) -> (forall j, (i <= j < n)%nat -> pd (Q j) = 0) ->
  length rows = length shells /\
  forall k row, nth_error rows k = Some row -> length row = n /\ forall j, (i + k <= j < n)%nat -> nth j row 0 = 0.
Proof.
  induction shells as [|w shells IH]; intros i st h Q rows T H Z D.
  - injection H as <-. split; [reflexivity|]. intros [|k] row Hk; discriminate.
  - destruct (matrix_row _ _ _ _ _ _ _ _ _ T H) as (v & st' & h' & row & rows' & W & Hz & -> & Lr & T' & V & H').
    assert (V' : forall j, (i <= j < n)%nat -> nth j row 0 = 0).
    { intros j Hj. rewrite V. cbn [next pk3]. destruct (Z j) as [-> ->]; [lia|]. rewrite D by lia. ring. }
    destruct (IH (i + 1)%nat st' h' _ rows' T' H') as [L A].
    + intros j Hj. split; [cbn [next pk2]; apply Z; lia|]. rewrite <- (V j).
      destruct (Nat.lt_ge_cases j n) as [Hn|Hn]; [apply V'; lia|apply nth_overflow; lia].
    + intros j Hj. cbn [next pd]. rewrite unit_row_nth by lia. destruct (Nat.eqb_spec j i); [lia|reflexivity].
    + split; [cbn; lia|]. intros [|k] row' Hk.
      * injection Hk as <-. split; [exact Lr|]. intros j Hj. apply V'. lia.
      * destruct (A k row' Hk) as [A1 A2]. split; [exact A1|]. intros j Hj. apply A2. lia.
Qed.

Lemma matrix_dual cosmo n c : forall shells i st h Q rows, tracks st h n Q ->
  matrix_rows cosmo n i shells st h = Ok rows -> (i + length shells <= n)%nat ->
  forall ds st2 h2 m P base, tracks st2 h2 m P -> owned st2 base -> (base <= length h2)%nat ->
  length ds = length shells -> (forall d, In d ds -> (d < base)%nat /\ length (load h2 d) = m) ->
  (forall p, combines n (c p) (P p) Q) ->
  (forall k d p, nth_error ds k = Some d -> c p (i + k)%nat = nth p (load h2 d) 0) ->
  forall k row, nth_error rows k = Some row ->
  exists st' h' a, add_windows cosmo st2 h2 (firstn (S k) (combine ds shells)) = (st', h', None) /\
    kappa st' = Some a /\ length (load h' a) = m /\
    forall p, nth p (load h' a) 0 = rsum n (fun j => nth j row 0 * c p j).
Proof.
  induction shells as [|w shells IH]; intros i st h Q rows T H Hi ds st2 h2 m P base T2 O Hb Hl A C Cd k row Hk.
  { injection H as <-. destruct k; discriminate. }
  destruct ds as [|d ds]; [discriminate|].
  destruct (matrix_row _ _ _ _ _ _ _ _ _ T H) as (v & st' & h' & row0 & rows' & W & Hz & -> & Lr & T' & V & H').
  destruct (A d (or_introl eq_refl)) as [Hd Hm].
  assert (Z2 : z3 st2 = z3 st).
  { destruct (tr_scalars _ _ _ _ T2 0%nat) as (_ & S1 & _). destruct (tr_scalars _ _ _ _ T 0%nat) as (_ & S2 & _).
    destruct (c_scalars _ _ _ _ (C 0%nat) 0%nat) as (_ & S3 & _). congruence. }
  destruct (add_plane_owned cosmo st2 h2 m P d (zeff w) v base T2 O Hb) as (st3 & h3 & E & T3 & O3 & L3 & F3 & Z3 & (a & Ka)).
  { lra. } { lia. } { exact Hm. }
  { intro X. apply (proj1 O) in X. lia. } { intro X. apply (proj2 O) in X. lia. }
  cbn [combine firstn add_windows]. rewrite add_window_plane, W, E.
  assert (C' : forall p, combines n (c p) (next cosmo (P p) (zeff w) v (nth p (load h2 d) 0))
            (fun j => next cosmo (Q j) (zeff w) v (nth j (unit_row n i) 0))).
  { intro p. apply combines_next; [apply C|]. rewrite (rsum_single n i).
    - rewrite unit_row_nth by (cbn in Hi; lia). rewrite Nat.eqb_refl.
      rewrite <- (Cd 0%nat d p eq_refl). replace (i + 0)%nat with i by lia. ring.
    - cbn in Hi; lia.
    - intros j Hj Nj. rewrite unit_row_nth by lia. destruct (Nat.eqb_spec j i); [lia|ring]. }
  destruct k as [|k].
  - injection Hk as <-. cbn [firstn add_windows]. exists st3, h3, a. split; [reflexivity|].
    destruct (tracks_kappa _ _ _ _ _ T3 Ka) as (Lk & _ & Vk).
    split; [exact Ka|]. split; [exact Lk|]. intro p. rewrite Vk. rewrite (c_k3 _ _ _ _ (C' p)).
    apply rsum_ext. intros j _. rewrite V. ring.
  - cbn [nth_error] in Hk.
    destruct (IH (i + 1)%nat st' h' _ rows' T' H' ltac:(cbn in Hi; lia) ds st3 h3 m _ base T3 O3 ltac:(lia)) with (k := k) (row := row)
      as (st4 & h4 & a4 & E4 & R4).
    + cbn in Hl. lia.
    + intros d' Hin. destruct (A d' (or_intror Hin)) as [Q1 Q2]. rewrite F3 by exact Q1. split; assumption.
    + exact C'.
    + intros k' d' p Hk'. rewrite F3 by (apply (A d'); right; apply (nth_error_In _ _ Hk')).
      rewrite <- (Cd (S k') d' p Hk'). f_equal. lia.
    + exact Hk.
    + exists st4, h4, a4. split; [exact E4|exact R4].
Qed.

(** The matrix exists when the redshifts increase and the windows have weights. *)
Lemma matrix_exists cosmo n : forall shells i st h Q, tracks st h n Q ->
  increasing (z3 st :: map zeff shells) -> (forall w, In w shells -> exists v, weight_of w = Ok v) ->
  exists rows, matrix_rows cosmo n i shells st h = Ok rows.
Proof.
  induction shells as [|w shells IH]; intros i st h Q T I W; [exists []; reflexivity|].
  cbn [matrix_rows]. rewrite add_window_plane. destruct (W w (or_introl eq_refl)) as [v Hv]. rewrite Hv.
  destruct (add_plane_owned cosmo st (h ++ [unit_row n i]) n Q (length h) (zeff w) v 0) as (st1 & h1 & E1 & T1 & O1 & L1 & _ & Z1 & (a & Ka)).
  - apply tracks_app. exact T.
  - split; intros; lia.
  - lia.
  - apply (I 0%nat); reflexivity.
  - rewrite app_length. cbn. lia.
  - unfold load. rewrite app_nth2, Nat.sub_diag by lia. apply unit_row_length.
  - intro C. assert (B := tracks_buffers _ _ _ _ _ T (or_introl C)). lia.
  - intro C. assert (B := tracks_buffers _ _ _ _ _ T (or_intror C)). lia.
  - rewrite E1. unfold kappa. rewrite Ka. cbn [bind].
    destruct (IH (i + 1)%nat st1 h1 _ T1) as [rows Hr].
    + rewrite Z1. intros k x y Hx Hy. apply (I (S k)); assumption.
    + intros w' Hin. apply W. right. exact Hin.
    + rewrite Hr. cbn [bind]. eexists; reflexivity.
Qed.

(** * Any sequence of calls *)

Definition buffers (st : planes) (h : heap) : Prop :=
  (kappa2 st = None /\ kappa3 st = None) \/
  (exists a b, kappa2 st = Some a /\ kappa3 st = Some b /\ a <> b /\ (a < length h)%nat /\ (b < length h)%nat).

Lemma add_plane_buffers cosmo st h d z w st' h' e : buffers st h -> add_plane cosmo st h d z w = (st', h', e) ->
  buffers st' h' /\
  (z3 st < z ->
   match kappa2 st, kappa3 st with
   | Some a, Some b => kappa2 st' = Some b /\ kappa3 st' = Some a
   | _, _ => True
   end /\
   forall a, (a < length h)%nat -> kappa2 st <> Some a -> load h' a = load h a).
Proof.
  intros B H. unfold add_plane in H.
  assert (Iz3 : z3 (initialise st) = z3 st) by (unfold initialise; destruct (delta3 st); reflexivity).
  assert (Ik2 : kappa2 (initialise st) = kappa2 st) by (unfold initialise; destruct (delta3 st); reflexivity).
  assert (Ik3 : kappa3 (initialise st) = kappa3 st) by (unfold initialise; destruct (delta3 st); reflexivity).
  destruct (Rle_dec z (z3 (initialise st))) as [L|L].
  - injection H as <- <- <-. split; [unfold buffers; rewrite Ik2, Ik3; exact B|]. rewrite Iz3 in L. lra.
  - set (f := 3 * Omega_m0 cosmo / 2 * _ * _ * _) in H. clearbody f.
    set (t := _ / r23 (initialise st)) in H. clearbody t.
    rewrite Ik2, Ik3 in H. destruct B as [[B2 B3]|(a & b & B2 & B3 & N & La & Lb)].
    + rewrite B2 in H |- *. set (zeros := map (fun _ => 0) (load h d)) in H.
      set (h0 := h ++ [zeros; zeros]) in H.
      assert (L0 : length h0 = (length h + 2)%nat) by (unfold h0; rewrite app_length; reflexivity).
      set (h1 := store h0 (length h) _) in H.
      assert (L1 : length h1 = length h0) by (unfold h1; apply store_length; lia).
      set (h2 := store h1 (length h) _) in H.
      assert (L2 : length h2 = length h0) by (unfold h2; rewrite store_length; lia).
      assert (F : forall a, (a < length h)%nat -> load h2 a = load h a).
      { intros a Ha. unfold h2. rewrite load_other by lia. unfold h1. rewrite load_other by lia. apply load_app. exact Ha. }
      assert (R : kappa2 st' = Some (length h + 1)%nat /\ kappa3 st' = Some (length h) /\ length h' = length h0 /\
        forall a, (a < length h)%nat -> load h' a = load h a).
      { assert (F' : forall v c, (c < length h)%nat -> load (store h2 (length h) v) c = load h c)
          by (intros v c Hc; rewrite load_other by lia; apply F; exact Hc).
        destruct (delta3 (initialise st)) as [| |a].
        - injection H as <- <- <-. repeat split; [rewrite store_length; lia|apply F'].
        - injection H as <- <- <-. repeat split; [rewrite store_length; lia|apply F'].
        - destruct (plus_scaled _ f (load h2 a)) as [v|e']; injection H as <- <- <-; repeat split;
            try assumption; [rewrite store_length; lia|apply F']. }
      destruct R as (R2 & R3 & Rl & Rf). split.
      * right. exists (length h + 1)%nat, (length h). repeat split; try assumption; lia.
      * intros _. split; [exact I|]. intros a Ha _. apply Rf. exact Ha.
    + rewrite B2, B3 in H |- *.
      set (h1 := store h a _) in H.
      assert (L1 : length h1 = length h) by (unfold h1; apply store_length; lia).
      set (h2 := store h1 a _) in H.
      assert (L2 : length h2 = length h) by (unfold h2; rewrite store_length; lia).
      assert (F : forall c, c <> a -> load h2 c = load h c).
      { intros c Hc. unfold h2. rewrite load_other by lia. unfold h1. apply load_other; lia. }
      assert (R : kappa2 st' = Some b /\ kappa3 st' = Some a /\ length h' = length h /\ forall c, c <> a -> load h' c = load h c).
      { assert (F' : forall v c, c <> a -> load (store h2 a v) c = load h c)
          by (intros v c Hc; rewrite load_other by lia; apply F; exact Hc).
        destruct (delta3 (initialise st)) as [| |x].
        - injection H as <- <- <-. repeat split; [rewrite store_length; lia|apply F'].
        - injection H as <- <- <-. repeat split; [rewrite store_length; lia|apply F'].
        - destruct (plus_scaled _ f (load h2 x)) as [v|e']; injection H as <- <- <-; repeat split;
            try assumption; [rewrite store_length; lia|apply F']. }
      destruct R as (R2 & R3 & Rl & Rf). split.
      * right. exists b, a. repeat split; try assumption; try lia; congruence.
      * intros _. split; [split; assumption|]. intros c Hc Nc. apply Rf. congruence.
Qed.

Lemma history_buffers cosmo st h : history cosmo st h -> buffers st h.
Proof.
  induction 1 as [h|st h d z w st' h' e H IH E|st h v H IH|st h a v H IH Ha].
  - left. split; reflexivity.
  - exact (proj1 (add_plane_buffers _ _ _ _ _ _ _ _ _ IH E)).
  - destruct IH as [B|(a & b & B2 & B3 & N & La & Lb)]; [left; exact B|right].
    exists a, b. rewrite app_length. repeat split; try assumption; lia.
  - destruct IH as [B|(x & y & B2 & B3 & N & La & Lb)]; [left; exact B|right].
    exists x, y. rewrite store_length by exact Ha. repeat split; assumption.
Qed.

(** * Filters *)

Lemma filtered_ext c d alm : (forall l, (l < length alm)%nat -> c l = d l) -> filtered c alm = filtered d alm.
Proof. intro H. apply map_ext_in. intros l Hl. apply in_seq in Hl. rewrite H by lia. reflexivity. Qed.

Lemma filtered_length c alm : length (filtered c alm) = length alm.
Proof. unfold filtered. rewrite map_length. apply seq_length. Qed.

Lemma filtered_nth c alm l : (l < length alm)%nat -> nth l (filtered c alm) [] = map (Cmult (RtoC (c l))) (nth l alm []).
Proof.
  intro H. unfold filtered. set (f := fun l => _). rewrite nth_indep with (d' := f 0%nat) by (rewrite map_length, seq_length; exact H).
  rewrite map_nth, seq_nth by exact H. reflexivity.
Qed.

Lemma filtered_twice c d alm : filtered c (filtered d alm) = filtered (fun l => c l * d l) alm.
Proof.
  unfold filtered at 1. rewrite filtered_length. apply map_ext_in. intros l Hl. apply in_seq in Hl.
  rewrite filtered_nth by lia. rewrite map_map. apply map_ext. intro x. rewrite RtoC_mult. apply Cmult_assoc.
Qed.

Lemma almxfl_filtered alm fl : length fl = length alm -> almxfl alm fl = filtered (fun l => nth l fl 0) alm.
Proof.
  revert fl. induction alm as [|r alm IH]; intros [|f fl] L; try discriminate; [reflexivity|].
  unfold almxfl in *. cbn [combine map fst snd]. rewrite IH by (cbn in L; lia).
  unfold filtered. cbn [length seq map nth]. f_equal. rewrite <- seq_shift, map_map. reflexivity.
Qed.

Lemma almxfl_ext alm fl c : length fl = length alm -> (forall l, (l < length alm)%nat -> nth l fl 0 = c l) ->
  almxfl alm fl = filtered c alm.
Proof. intros L H. rewrite almxfl_filtered by exact L. apply filtered_ext. exact H. Qed.

Lemma zeros_filtered alm : zeros_like alm = filtered (fun _ => 0) alm.
Proof.
  unfold zeros_like, filtered. induction alm as [|r alm IH]; [reflexivity|].
  cbn [map length seq nth]. f_equal.
  - apply map_ext. intro x. symmetry. apply Cmult_0_l.
  - rewrite IH, <- seq_shift, map_map. reflexivity.
Qed.

Lemma zeros_again c alm : zeros_like (filtered c alm) = filtered (fun _ => 0) alm.
Proof. rewrite zeros_filtered, filtered_twice. apply filtered_ext. intros; ring. Qed.

Lemma ell_length L : length (arange_ell L) = (L + 1)%nat.
Proof. unfold arange_ell. rewrite map_length. apply seq_length. Qed.

Lemma ell_map (f : R -> R) L l : (l < L + 1)%nat -> nth l (map f (arange_ell L)) 0 = f (INR l).
Proof.
  intro H. unfold arange_ell. rewrite map_map. set (k := fun x => _).
  rewrite nth_indep with (d' := k 0%nat) by (rewrite map_length, seq_length; exact H).
  rewrite map_nth, seq_nth by exact H. reflexivity.
Qed.

Lemma zip_nth (f : R * R -> R) : forall a b l, (l < length a)%nat -> length a = length b ->
  nth l (map f (combine a b)) 0 = f (nth l a 0, nth l b 0).
Proof.
  induction a as [|x a IH]; intros [|y b] [|l] H L; cbn in *; try lia; try reflexivity. apply IH; lia.
Qed.
