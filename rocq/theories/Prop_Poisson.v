(** Claims about the distribution of random points (C87). *)
From Coq Require Import Reals Lra Lia List Factorial.
From Coquelicot Require Import Coquelicot.
From Verif Require Import Base Model_Numeric Model_Arrays Model_Effective Model_Galaxies Model_Rng Model_Points.
From Verif Require Import Spec_Disc Spec_Arrays Spec_Points Spec_Uniform Spec_Poisson.
From Verif Require Import Proof_Galaxies Proof_Points Proof_Uniform Proof_Poisson Prop_Points.
Import ListNotations.
Local Open Scope R_scope.

(** C87 *)

(** Expected values over Poisson numbers, and over points, are determined; the Poisson probabilities add up to one, and
    [lam] is the mean and the variance. *)
Theorem counts_expected_unique lams f m m' : counts_mean lams f m -> counts_mean lams f m' -> m = m'.
Proof. apply counts_unique. Qed.
Print Assumptions counts_expected_unique.
Theorem points_expected_unique lams f m m' : points_mean lams f m -> points_mean lams f m' -> m = m'.
Proof.
  intros (g & G & M) (g' & G' & M'). apply (counts_unique lams g); [exact M|]. eapply counts_ext; [exact M'| |reflexivity].
  intros ns L. apply (umeans_unique _ _ _ _ (G' ns L) (G ns L)).
Qed.
Print Assumptions points_expected_unique.
Theorem poisson_moments lam :
  poisson_mean lam (fun _ => 1) 1 /\ poisson_mean lam (fun n => INR n) lam /\ poisson_mean lam (fun n => (INR n - lam) ^ 2) lam.
Proof.
  split; [apply poisson_const|]. split; [apply poisson_number|].
  pose proof (poisson_plus _ _ _ _ _ (poisson_square lam) (poisson_scal _ _ _ (-2 * lam) (poisson_number lam))) as H.
  pose proof (poisson_plus _ _ _ _ _ H (poisson_const lam (lam ^ 2))) as K.
  eapply poisson_ext; [exact K| |]; [intro n; cbn beta|]; ring.
Qed.
Print Assumptions poisson_moments.

(** Uniform positions of all populations form independent Poisson processes with the given densities: the expected
    product of the values of a function at all points is what it is for these processes, whichever functions of the
    position are taken. *)
Theorem uniform_positions_process ngal : exists ks, row_major (ashape ngal) ks /\
  forall hs ms, length hs = length ks ->
  Forall2 (fun h m => (forall l, -180 < l < 180 -> patched (h l)) /\ sphere_mean h m) hs ms ->
  points_mean (map (fun k => sphere_area * aget ngal k) ks)
    (fun s => marks hs (fst (uniform_positions counts_first ranges_second ngal s)))
    (exp (fold_right Rplus 0 (map (fun '(k, m) => sphere_area * aget ngal k * (m - 1)) (combine ks ms)))).
Proof.
  exists (ndindex (ashape ngal)). split; [apply ndindex_row_major|]. intros hs ms L H.
  set (ks := ndindex (ashape ngal)) in *. set (lams := map (fun k => sphere_area * aget ngal k) ks).
  assert (Ll : length lams = length hs) by (unfold lams; rewrite map_length; congruence).
  assert (Lm : length ms = length hs) by (clear - H; induction H; cbn; congruence).
  exists (powers ms). split.
  - intros ns Ln. eapply umeans_ext; [|apply (loop_mean (ashape ngal) hs ms ks ns [] H); congruence].
    intros us _ _. cbn beta. unfold uniform_positions. fold ks. rewrite sphere_area_eq. fold lams. unfold counts_first. cbn [fst snd].
    rewrite <- (app_nil_r (combine lams ns)), counts_given by exact Ln. reflexivity.
  - eapply counts_ext; [apply (counts_powers lams ms); congruence|reflexivity|]. f_equal. unfold lams.
    assert (Lk : length ms = length ks) by congruence. clearbody ks. clear - Lk. revert ms Lk.
    induction ks as [|k ks IH]; intros [|m ms] L; try discriminate; cbn [map shifted combine fold_right]; [reflexivity|].
    rewrite IH by (injection L; auto). reflexivity.
Qed.
Print Assumptions uniform_positions_process.

(** ** Regions *)
Lemma hit_values c x : hit c x = 0 \/ hit c x = 1.
Proof. unfold hit. destruct (Rle_dec _ _); [destruct (Rlt_dec _ _)|]; auto. Qed.
Lemma in_region_hit r p : hit (fst r) (fst p) * hit (snd r) (snd p) = if in_region r p then 1 else 0.
Proof.
  unfold in_region. destruct (hit_values (fst r) (fst p)) as [E|E], (hit_values (snd r) (snd p)) as [F|F]; rewrite E, F; destruct (Req_EM_T _ 1); lra.
Qed.
Lemma hit_integral (s : R -> R) lo hi a b (v : R) : lo <= a -> a <= b -> b <= hi -> is_RInt s a b v -> is_RInt (fun x => hit (a, b) x * s x) lo hi v.
Proof.
  intros Ha Hab Hb V.
  assert (Z : forall p q, is_RInt (fun _ => 0) p q 0).
  { intros p q. pose proof (is_RInt_const (V := R_NormedModule) p q 0) as K.
    match type of K with is_RInt _ _ _ ?x => assert (X : x = 0) by (change ((q - p) * 0 = 0); ring); rewrite X in K end. exact K. }
  set (g := fun x => hit (a, b) x * s x).
  assert (K0 : is_RInt g lo a 0).
  { eapply is_RInt_ext; [|apply Z]. intros w Hw. rewrite Rmin_left, Rmax_right in Hw by lra. unfold g, hit. cbn [fst snd].
    destruct (Rle_dec a w); [lra|]. reqring. }
  assert (K1 : is_RInt g a b v).
  { eapply is_RInt_ext; [|exact V]. intros w Hw. rewrite Rmin_left, Rmax_right in Hw by lra. unfold g, hit. cbn [fst snd].
    destruct (Rle_dec a w); [|lra]. destruct (Rlt_dec w b); [|lra]. reqring. }
  assert (K2 : is_RInt g b hi 0).
  { eapply is_RInt_ext; [|apply Z]. intros w Hw. rewrite Rmin_left, Rmax_right in Hw by lra. unfold g, hit. cbn [fst snd].
    destruct (Rle_dec a w); [|reqring]. destruct (Rlt_dec w b); [lra|]. reqring. }
  pose proof (is_RInt_Chasles (V := R_NormedModule) _ _ _ _ _ _ (is_RInt_Chasles (V := R_NormedModule) _ _ _ _ _ _ K0 K1) K2) as K.
  match type of K with is_RInt _ _ _ ?x => assert (X : x = v) by (change (0 + v + 0 = v); ring); rewrite X in K end. exact K.
Qed.
Lemma rint_sum {X} (l : list X) (f : X -> R -> R) a b (v : X -> R) : (forall x, In x l -> is_RInt (f x) a b (v x)) ->
  is_RInt (fun t => fold_right Rplus 0 (map (fun x => f x t) l)) a b (fold_right Rplus 0 (map v l)).
Proof.
  induction l as [|x l IH]; intro H; cbn [map fold_right].
  - pose proof (is_RInt_const (V := R_NormedModule) a b 0) as K.
    match type of K with is_RInt _ _ _ ?x => assert (X0 : x = 0) by (change ((b - a) * 0 = 0); ring); rewrite X0 in K end. exact K.
  - apply rint_plus; [apply H; left; reflexivity|]. apply IH. intros; apply H; right; assumption.
Qed.
Lemma cos_integral a b : is_RInt (fun x => cos (angle x)) a b ((sin (angle b) - sin (angle a)) * (180 / PI)).
Proof.
  pose proof PI_neq0 as PP.
  assert (E : (sin (angle b) - sin (angle a)) * (180 / PI) = minus (sin (angle b) * (180 / PI)) (sin (angle a) * (180 / PI))).
  { unfold minus, plus, opp; cbn. ring. }
  rewrite E. apply (is_RInt_derive (V := R_CompleteNormedModule) (fun x => sin (angle x) * (180 / PI)) (fun x => cos (angle x))).
  - intros x _. unfold angle. auto_derive; [exact I|]. change (x * PI * / 180) with (x * PI / 180). field. exact PP.
  - intros x _. apply (ex_derive_continuous (V := R_NormedModule)). unfold angle. auto_derive. exact I.
Qed.

Lemma regions_total rs ps : Forall2 covers rs ps -> forall zs, length zs = length rs ->
  fold_right Rplus 0 (map (fun rz : region * R => (snd (fst (fst rz)) - fst (fst (fst rz))) *
    ((snd rz - 1) * ((sin (angle (snd (snd (fst rz)))) - sin (angle (fst (snd (fst rz))))) * (180 / PI)))) (combine rs zs)) =
  fold_right Rplus 0 (map (fun pz => fst pz * (snd pz - 1)) (combine ps zs)) * (4 * PI * (180 / PI) ^ 2).
Proof.
  pose proof PI_neq0 as PP.
  induction 1 as [|[lo [a b]] p rs ps (h & Ih & ->) _ IH]; intros [|z zs] Ez; try discriminate; cbn [combine map fold_right fst snd] in *; [ring|].
  rewrite IH by (injection Ez; auto). rewrite Rmult_plus_distr_r. f_equal.
  assert (Eh : h = sin (angle b) - sin (angle a)).
  { apply (rint_unique cos (angle a) (angle b)); [exact Ih|].
    apply (is_RInt_derive (V := R_CompleteNormedModule) sin cos).
    - intros. auto_derive; [exact I|ring].
    - intros w _. apply (ex_derive_continuous (V := R_NormedModule)). auto_derive. exact I. }
  rewrite Eh. set (q := sin (angle b) - sin (angle a)). clearbody q. unfold angle. field. exact PP.
Qed.

Definition term (l b : R) (rz : region * R) : R := hit (fst (fst rz)) l * hit (snd (fst rz)) b * (snd rz - 1).
Lemma region_product rs p : forall zs, length zs = length rs -> apart rs ->
  1 + fold_right Rplus 0 (map (term (fst p) (snd p)) (combine rs zs)) = product (map (fun rz => if in_region (fst rz) p then snd rz else 1) (combine rs zs)).
Proof.
  induction rs as [|r rs IH]; intros [|z zs] L A; try discriminate; cbn [combine map fold_right]; [cbn; ring|].
  change (product (?x :: ?l)) with (x * product l).
  unfold product at 1. cbn [fold_right]. fold (product (map (fun rz => if in_region (fst rz) p then snd rz else 1) (combine rs zs))).
  assert (A' : apart rs) by (intros i j r1 r2 q I J; intros; assert (S i = S j) by (eapply (A (S i) (S j)); eauto); lia).
  unfold term at 1. cbn [fst snd]. rewrite in_region_hit. destruct (in_region r p) eqn:E.
  - assert (N : forall r', In r' rs -> in_region r' p = false).
    { intros r' I. apply In_nth_error in I as (j & J). destruct (in_region r' p) eqn:E'; [|reflexivity].
      assert (0 = S j)%nat by (apply (A 0%nat (S j) r r' p); auto). discriminate. }
    rewrite <- IH by (auto || (injection L; auto)).
    assert (Z : fold_right Rplus 0 (map (term (fst p) (snd p)) (combine rs zs)) = 0).
    { clear - N. revert zs. induction rs as [|r' rs IH]; intros [|z zs]; cbn [combine map fold_right]; try reflexivity.
      rewrite IH by (intros; apply N; right; assumption). unfold term. cbn [fst snd]. rewrite in_region_hit, (N r' (or_introl eq_refl)). ring. }
    rewrite Z. ring.
  - rewrite <- IH by (auto || (injection L; auto)). ring.
Qed.

Section Regions.
  Variables (rs : list region) (zs ps : list R).
  Hypothesis Hp : Forall proper rs.
  Hypothesis Hc : Forall2 covers rs ps.
  Hypothesis Hz : length zs = length rs.

  Definition mark (l b : R) : R := 1 + fold_right Rplus 0 (map (term l b) (combine rs zs)).

  Lemma mark_patched l : patched (mark l).
  Proof.
    exists (((-90, 90), fun _ => 1) :: map (fun rz => (snd (fst rz), fun _ => hit (fst (fst rz)) l * (snd rz - 1))) (combine rs zs)).
    split.
    - intros c s [E|E].
      + injection E as <- <-. cbn. split; [lra|]. split; [lra|]. intro x. apply continuous_const.
      + apply in_map_iff in E as ([r z] & E & I). injection E as <- <-. apply in_combine_l in I.
        pose proof (proj1 (Forall_forall _ _) Hp r I) as (_ & _ & H1 & H2). cbn [fst snd].
        split; [exact H1|]. split; [exact H2|]. intro x. apply continuous_const.
    - intros x Hx. unfold mark. cbn [map fold_right fst snd]. f_equal.
      + unfold hit. cbn [fst snd]. destruct (Rle_dec (-90) x); [|lra]. destruct (Rlt_dec x 90); [ring|lra].
      + rewrite map_map. f_equal. apply map_ext. intros [r z]. unfold term. cbn [fst snd]. ring.
  Qed.

  Lemma mark_mean : sphere_mean mark (1 + fold_right Rplus 0 (map (fun pz => fst pz * (snd pz - 1)) (combine ps zs))).
  Proof.
    pose proof PI_RGT_0 as PP. unfold sphere_mean, mark.
    set (k := 180 / PI).
    exists (fun l => 2 * k + fold_right Rplus 0 (map (fun rz => hit (fst (fst rz)) l * ((snd rz - 1) * ((sin (angle (snd (snd (fst rz)))) - sin (angle (fst (snd (fst rz))))) * k))) (combine rs zs))).
    assert (One : is_RInt (fun b => cos (angle b)) (-90) 90 (2 * k)).
    { replace (2 * k) with ((sin (angle 90) - sin (angle (-90))) * (180 / PI)); [apply cos_integral|].
      unfold angle. replace (90 * PI / 180) with (PI / 2) by field. replace (-90 * PI / 180) with (- (PI / 2)) by field. rewrite sin_neg, sin_PI2. unfold k. field. lra. }
    split.
    - intros l Hl.
      assert (K : is_RInt (fun b => fold_right Rplus 0 (map (fun rz => term l b rz * cos (angle b)) (combine rs zs))) (-90) 90
        (fold_right Rplus 0 (map (fun rz => hit (fst (fst rz)) l * ((snd rz - 1) * ((sin (angle (snd (snd (fst rz)))) - sin (angle (fst (snd (fst rz))))) * k))) (combine rs zs)))).
      { apply (rint_sum (combine rs zs) (fun rz b => term l b rz * cos (angle b))). intros [[lo [a b]] z] I. apply in_combine_l in I.
        pose proof (proj1 (Forall_forall _ _) Hp _ I) as (_ & _ & H1 & H2). cbn [fst snd] in *.
        pose proof (rint_scal _ (hit lo l * (z - 1)) _ _ _ (hit_integral _ (-90) 90 a b _ ltac:(lra) ltac:(lra) ltac:(lra) (cos_integral a b))) as K'.
        fold k in K'. rewrite <- Rmult_assoc. eapply is_RInt_ext; [|exact K']. intros x _. unfold term. cbn [fst snd]. reqring. }
      eapply is_RInt_ext; [|exact (rint_plus _ _ _ _ _ _ One K)]. intros b _. cbn beta.
      match goal with |- ?x = ?y => change (@eq R x y) end. rewrite Rmult_plus_distr_r, Rmult_1_l. f_equal.
      clear K. induction (combine rs zs) as [|rz l' IH]; cbn [map fold_right]; [ring|]. rewrite IH. ring.
    - assert (K1 : is_RInt (fun _ => 2 * k) (-180) 180 (720 * k)).
      { pose proof (is_RInt_const (V := R_NormedModule) (-180) 180 (2 * k)) as KK.
        match type of KK with is_RInt _ _ _ ?x => assert (X : x = 720 * k) by (change ((180 - -180) * (2 * k) = 720 * k); ring); rewrite X in KK end. exact KK. }
      pose proof (rint_sum (combine rs zs) (fun rz l => hit (fst (fst rz)) l * ((snd rz - 1) * ((sin (angle (snd (snd (fst rz)))) - sin (angle (fst (snd (fst rz))))) * k))) (-180) 180
        (fun rz => (snd (fst (fst rz)) - fst (fst (fst rz))) * ((snd rz - 1) * ((sin (angle (snd (snd (fst rz)))) - sin (angle (fst (snd (fst rz))))) * k)))) as K2.
      match type of K2 with ?P -> _ => assert (K3 : P) end.
      { clear K2. intros [[[a1 b1] la] z] I. cbn [fst snd]. apply in_combine_l in I.
        pose proof (proj1 (Forall_forall _ _) Hp _ I) as (H1 & H2 & _). cbn [fst snd] in *.
        apply hit_integral; [lra|lra|lra|]. exact (is_RInt_const (V := R_NormedModule) a1 b1 _). }
      pose proof (rint_plus _ _ _ _ _ _ K1 (K2 K3)) as K4.
      match type of K4 with is_RInt _ _ _ ?x => match goal with |- is_RInt _ _ _ ?y => assert (X : x = y); [|rewrite X in K4; exact K4] end end.
      etransitivity; [|symmetry; apply Rmult_plus_distr_r]. apply (f_equal2 Rplus); [unfold k; field; lra|].
      apply (regions_total rs ps Hc zs Hz).
  Qed.

  Hypothesis Ha : apart rs.
  Lemma mark_product p : mark (fst p) (snd p) = product (map (fun rz => if in_region (fst rz) p then snd rz else 1) (combine rs zs)).
  Proof.
    unfold mark. apply region_product; assumption.
  Qed.
  Lemma marks_numbers lon lat : product (map (fun p => mark (fst p) (snd p)) (combine lon lat)) =
    product (map (fun '(r, z) => z ^ number_in r lon lat) (combine rs zs)).
  Proof.
    unfold number_in. induction (combine lon lat) as [|p pts IH].
    - cbn. induction (combine rs zs) as [|[r z] l IH]; [reflexivity|]. unfold product in *. cbn [map fold_right]. rewrite <- IH. cbn. ring.
    - unfold product at 1. cbn [map fold_right]. fold (product (map (fun p => mark (fst p) (snd p)) pts)). rewrite IH, mark_product.
      clear. induction (combine rs zs) as [|[r z] l IH]; cbn [map]; unfold product in *; cbn [fold_right fst snd]; [ring|].
      rewrite <- IH. cbn [filter]. destruct (in_region r p); cbn [length pow]; ring.
  Qed.
End Regions.

(** The numbers of points in regions that do not overlap are independent Poisson numbers, with the mean that is expected
    from the density and the area of each region: they have the same generating function. *)
Theorem uniform_positions_regions ngal rs zs ps ms : Forall proper rs -> apart rs -> Forall2 covers rs ps -> length zs = length rs ->
  Forall2 (fun pz m => poisson_mean (sphere_area * ngal * fst pz) (fun n => snd pz ^ n) m) (combine ps zs) ms ->
  points_mean [sphere_area * ngal]
    (fun s => match uniform_positions counts_first ranges_second {| ashape := []; aget := fun _ => ngal |} s with
       | ([(lon, lat, _)], _) => product (map (fun '(r, z) => z ^ number_in r lon lat) (combine rs zs)) | _ => 0 end)
    (product ms).
Proof.
  intros Hp Ha Hc Hz Hm. destruct (uniform_positions_process {| ashape := []; aget := fun _ => ngal |}) as (ks & Hk & H).
  assert (Ek : ks = [[]]) by (apply (row_major_unique [] ks); [exact Hk|exact (ndindex_row_major [])]). subst ks.
  destruct (H [mark rs zs] [1 + fold_right Rplus 0 (map (fun pz => fst pz * (snd pz - 1)) (combine ps zs))] eq_refl) as (g & G & M).
  { constructor; [|constructor]. split; [intros l _; apply mark_patched; exact Hp|apply mark_mean; assumption]. }
  exists g. split.
  - intros ns L. eapply umeans_ext; [|apply (G ns L)]. intros us Lu _. cbn beta. cbn [map] in *.
    destruct ns as [|n [|? ?]]; try discriminate.
    unfold uniform_positions. cbn. rewrite Rmult_1_r. apply marks_numbers; assumption.
  - cbn [map aget] in M. eapply counts_ext; [exact M|reflexivity|]. cbn [combine map fold_right].
    replace (1 + fold_right Rplus 0 (map (fun pz => fst pz * (snd pz - 1)) (combine ps zs)) - 1) with (fold_right Rplus 0 (map (fun pz => fst pz * (snd pz - 1)) (combine ps zs))) by ring.
    rewrite Rplus_0_r. clear - Hm. induction Hm as [|[p z] m l ms H _ IH]; cbn [map fold_right fst snd].
    + rewrite Rmult_0_r. apply exp_0.
    + unfold product in *. cbn [fold_right]. rewrite <- IH, Rmult_plus_distr_l, exp_plus. f_equal.
      apply (poisson_unique (sphere_area * ngal * p) (fun n => z ^ n)); [|exact H].
      eapply poisson_ext; [apply poisson_power|reflexivity|]. f_equal. cbn [fst snd]. ring.
Qed.
Print Assumptions uniform_positions_regions.

(** Eight points are expected on the sphere: the chance that there is none with longitude and latitude between 0 and 90. *)
Example uniform_positions_regions_example :
  points_mean [sphere_area * (8 / sphere_area)]
    (fun s => match uniform_positions counts_first ranges_second {| ashape := []; aget := fun _ => 8 / sphere_area |} s with
       | ([(lon, lat, _)], _) => if Nat.eq_dec (number_in ((0, 90), (0, 90)) lon lat) 0 then 1 else 0 | _ => 0 end)
    (exp (-1)).
Proof.
  pose proof PI_RGT_0 as PP. assert (Hs : 0 < sphere_area).
  { unfold sphere_area. apply Rmult_lt_0_compat; [lra|]. apply pow_lt. apply Rdiv_lt_0_compat; lra. }
  destruct (uniform_positions_regions (8 / sphere_area) [((0, 90), (0, 90))] [0] [1 / 8] [exp (-1)]) as (g & G & M).
  - repeat constructor; cbn; lra.
  - intros [|[|i]] [|[|j]] r r' p Hr Hr'; try discriminate. reflexivity.
  - constructor; [|constructor]. exists 1. cbn [fst snd]. split.
    + replace (angle 0) with 0 by (unfold angle; field). replace (angle 90) with (PI / 2) by (unfold angle; field).
      replace 1 with (sin (PI / 2) - sin 0) by (rewrite sin_PI2, sin_0; ring).
      apply (is_RInt_derive (V := R_CompleteNormedModule) sin cos).
      * intros. auto_derive; [exact I|ring].
      * intros w _. apply (ex_derive_continuous (V := R_NormedModule)). auto_derive. exact I.
    + unfold angle. field. lra.
  - reflexivity.
  - constructor; [|constructor]. cbn [fst snd]. eapply poisson_ext; [apply poisson_power|reflexivity|]. f_equal. field. lra.
  - exists g. split; [|eapply counts_ext; [exact M|reflexivity|unfold product; cbn; ring]].
    intros ns L. eapply umeans_ext; [|apply (G ns L)]. intros us _ _. cbn beta.
    destruct (uniform_positions counts_first ranges_second _ _) as [[|[[lon lat] c] [|]] s']; try reflexivity. cbn [combine map product fold_right].
    destruct (Nat.eq_dec _ 0) as [E|N]; [rewrite E; cbn; ring|]. rewrite pow_i by lia. ring.
Qed.

(** ** Points in pixels *)
Lemma thin_row v : forall a lam w, length v = length a -> length lam = length a -> length w = length a ->
  (forall i x y, nth_error v i = Some x -> nth_error a i = Some y -> nth_error lam i = Some (x * y)) -> shifted lam w = shifted a (thinned v w).
Proof.
  unfold thinned. induction v as [|x v IH]; intros [|y a] [|l lam] [|z w] L1 L2 L3 H; try discriminate; cbn [combine map shifted]; [reflexivity|].
  rewrite (IH a lam w) by (try (injection L1; injection L2; injection L3; auto; fail); intros i; exact (H (S i))).
  pose proof (H 0%nat x y eq_refl eq_refl) as E. injection E as ->. ring.
Qed.

Section Delta.
  Context {U P : Type}.
  Variable mk : nat -> list (R * nat).
  Variable random : list (R * nat) -> nat -> list U * list (R * nat).
  Variable ring2ang : nat -> nat -> U -> P.
  Variable npix2nside : nat -> result nat.
  Variable pixel : P -> nat.
  Variables nside m fuel batch : nat.
  Hypothesis Hr : forall s n, length (fst (random s n)) = n.
  Hypothesis Hx : forall i u, pixel (ring2ang nside i u) = i.
  Hypothesis Hn : npix2nside m = Ok nside.
  Hypothesis Hf : (2 * m < fuel)%nat.
  Hypothesis Hm : (0 < m)%nat.
  Variables (bias_model : list R -> R -> result (list R)) (ngal delta : array R) (bias : option (array R)) (rm : bool) (ld lv dims : list nat).
  Variables (N : list nat -> R) (G : list nat -> list R).
  Hypothesis Ed : ashape delta = ld ++ [m].
  Let positions vis s := positions_from_delta mk counts_of random ring2ang npix2nside fuel batch (Some bias_model) ngal delta bias vis rm (Some s).
  (** The mean that is expected of each pixel, for the visibilities [V]. *)
  Definition pixel_means (V : list nat -> list R) (ks : list (list nat)) (lams : list (list R)) : Prop :=
    Forall2 (fun k lam => length lam = m /\
      forall i g v, nth_error (G k) i = Some g -> nth_error (V k) i = Some v ->
        nth_error lam i = Some (Rmax 0 (expected_points m (N k) (g - if rm then mean_of (G k) else 0) v))) ks lams.
  Definition excess (lams h : list (list R)) : R :=
    fold_right Rplus 0 (map (fun '(lam, x) => lam * (x - 1)) (combine (concat lams) (concat h))).

  Lemma excess_shifted lams h : excess lams h = shifted (concat lams) (concat h).
  Proof.
    unfold excess. generalize (concat lams) (concat h). induction l as [|a l IH]; intros [|x r]; cbn [combine map fold_right shifted]; [reflexivity..|].
    rewrite IH. reflexivity.
  Qed.
  Lemma means_lengths V ks lams : pixel_means V ks lams -> Forall (fun lam => length lam = m) lams.
  Proof. induction 1 as [|k lam ks lams [L _] _ IH]; constructor; assumption. Qed.
  Lemma rows_length (h lams : list (list R)) : Forall (fun w => length w = m) h -> Forall (fun w => length w = m) lams -> length h = length lams -> length (concat h) = length (concat lams).
  Proof.
    intro H. revert lams. induction H as [|w h Hw _ IH]; intros [|l lams] F L; try discriminate; [reflexivity|].
    apply Forall_cons_iff in F as [F1 F2]. cbn [concat]. rewrite !app_length, (IH lams) by (auto || (injection L; auto)). congruence.
  Qed.

  Lemma positions_law vis lams : expected_counts bias_model ngal delta bias vis rm = Ok lams -> Forall (fun lam => length lam = m) lams ->
    (forall h, length h = length lams -> Forall (fun w => length w = m) h ->
      counts_mean (concat lams) (fun ns => match positions vis (combine (concat lams) ns) with Ok (pos, _) => pixel_marks pixel h pos | Err _ => 0 end)
        (exp (excess lams h))) /\
    forall A j, counts_mean (concat lams)
      (fun ns => match positions vis (combine (concat lams) ns) with Ok (pos, _) => if Nat.eq_dec (number_at pixel A pos) j then 1 else 0 | Err _ => 0 end)
      (poisson_chance (chosen Rplus 0 (concat (map (fun _ => map A (seq 0 m)) lams)) (concat lams)) j).
  Proof.
    intros E F. split.
    - intros h Lh Fh. rewrite excess_shifted.
      eapply counts_ext; [apply (counts_powers (concat lams) (concat h)); apply rows_length; assumption| |reflexivity].
      intros ns L. unfold positions, positions_from_delta. rewrite E. cbn [bind]. unfold positions_from_lams, generator.
      destruct (loop_pixels mk random ring2ang npix2nside pixel nside m fuel batch Hr Hx Hn Hf (fun _ => true) lams F ns L) as (pos & s' & Q & M & _).
      rewrite Q, M by assumption. reflexivity.
    - intros A j. eapply counts_ext; [apply (counts_chosen (concat lams) (concat (map (fun _ => map A (seq 0 m)) lams)) j)| |reflexivity].
      + clear - F. induction F as [|lam lams L _ IH]; cbn [map concat]; [reflexivity|]. rewrite !app_length, IH, map_length, seq_length, L. reflexivity.
      + intros ns L. unfold positions, positions_from_delta. rewrite E. cbn [bind]. unfold positions_from_lams, generator.
        destruct (loop_pixels mk random ring2ang npix2nside pixel nside m fuel batch Hr Hx Hn Hf A lams F ns L) as (pos & s' & Q & _ & M).
        rewrite Q, M by assumption. reflexivity.
  Qed.

  (** The numbers of points in pixels are independent Poisson numbers, with the means that are expected from density,
      contrast and visibility: the expected product of the values of a function of the pixel at all points is what it is
      for these numbers. *)
  Theorem positions_process vis V :
    (forall v, vis = Some v -> ashape v = lv ++ [m]) ->
    is_broadcast ([ashape ngal; ld] ++ match bias with Some b => [ashape b] | None => [] end ++ match vis with Some _ => [lv] | None => [] end) dims ->
    (forall k, inside dims k -> population bias_model ngal delta bias vis ld lv m k (N k) (G k) (V k)) ->
    exists ks lams, row_major dims ks /\ pixel_means V ks lams /\
      forall h, length h = length ks -> Forall (fun w => length w = m) h ->
        counts_mean (concat lams) (fun ns => match positions vis (combine (concat lams) ns) with Ok (pos, _) => pixel_marks pixel h pos | Err _ => 0 end)
          (exp (excess lams h)).
  Proof.
    intros Ev Hb H. destruct (expected_counts_formula bias_model ngal delta bias vis rm ld lv m dims N G V Hm Ed Ev Hb H) as (ks & lams & Hk & El & F).
    exists ks, lams. split; [exact Hk|]. split; [exact F|]. intros h Lh. apply positions_law; [exact El|apply (means_lengths V ks), F|].
    rewrite <- (forall2_length _ _ _ F). exact Lh.
  Qed.

  (** The number of points of all populations in any set of pixels is a Poisson number, with the sum of the expected
      numbers as its mean. *)
  Theorem positions_number vis V :
    (forall v, vis = Some v -> ashape v = lv ++ [m]) ->
    is_broadcast ([ashape ngal; ld] ++ match bias with Some b => [ashape b] | None => [] end ++ match vis with Some _ => [lv] | None => [] end) dims ->
    (forall k, inside dims k -> population bias_model ngal delta bias vis ld lv m k (N k) (G k) (V k)) ->
    exists ks lams, row_major dims ks /\ pixel_means V ks lams /\
      forall A j, counts_mean (concat lams)
        (fun ns => match positions vis (combine (concat lams) ns) with Ok (pos, _) => if Nat.eq_dec (number_at pixel A pos) j then 1 else 0 | Err _ => 0 end)
        (poisson_chance (fold_right Rplus 0 (map (fun lam => fold_right Rplus 0 (map (fun i => if A i then nth i lam 0 else 0) (seq 0 m))) lams)) j).
  Proof.
    intros Ev Hb H. destruct (expected_counts_formula bias_model ngal delta bias vis rm ld lv m dims N G V Hm Ed Ev Hb H) as (ks & lams & Hk & El & F).
    exists ks, lams. split; [exact Hk|]. split; [exact F|]. intros A j. pose proof (means_lengths V ks lams F) as FL.
    destruct (positions_law vis lams El FL) as [_ K]. eapply counts_ext; [apply (K A j)|reflexivity|]. f_equal.
    clear - FL. induction FL as [|lam lams L _ IH]; cbn [map concat fold_right]; [reflexivity|].
    rewrite (chosen_app Rplus 0 (fun x y z => eq_sym (Rplus_assoc x y z)) Rplus_0_l) by (rewrite map_length, seq_length; congruence). rewrite IH. f_equal.
    clear IH. subst m. induction lam as [|x lam IH] in A |- *; cbn [length seq map chosen fold_right nth]; [reflexivity|]. f_equal.
    rewrite <- seq_shift, !map_map. exact (IH (fun i => A (S i))).
  Qed.

  (** Visibility is the probability that a point is kept: the points with a visibility map have the same distribution as
      those without, each of which is kept with the probability that the map has for its pixel. *)
  Theorem visibility_thins v V :
    ashape v = lv ++ [m] ->
    is_broadcast ([ashape ngal; ld] ++ match bias with Some b => [ashape b] | None => [] end) dims ->
    is_broadcast ([ashape ngal; ld] ++ match bias with Some b => [ashape b] | None => [] end ++ [lv]) dims ->
    (forall k, inside dims k -> population bias_model ngal delta bias (Some v) ld lv m k (N k) (G k) (V k) /\ Forall (fun x => 0 <= x) (V k)) ->
    exists ks all visible, row_major dims ks /\ pixel_means (fun _ => repeat 1 m) ks all /\ pixel_means V ks visible /\
      forall h, length h = length ks -> Forall (fun w => length w = m) h -> exists e,
        counts_mean (concat visible) (fun ns => match positions (Some v) (combine (concat visible) ns) with Ok (pos, _) => pixel_marks pixel h pos | Err _ => 0 end) e /\
        counts_mean (concat all) (fun ns => match positions None (combine (concat all) ns) with
          Ok (pos, _) => pixel_marks pixel (map (fun '(k, w) => thinned (V k) w) (combine ks h)) pos | Err _ => 0 end) e.
  Proof.
    intros Ev Hb Hb' H.
    destruct (positions_process (Some v) V) as (ks & visible & Hk & Fv & Lv); [intros ? [= <-]; exact Ev|exact Hb'|intros k Ik; apply H, Ik|].
    destruct (positions_process None (fun _ => repeat 1 m)) as (ks' & all & Hk' & Fa & La); [discriminate|rewrite app_nil_r; exact Hb| |].
    { intros k Ik. destruct (H k Ik) as [(H1 & H2 & H3 & H4 & _) _]. split; [exact H1|]. split; [exact H2|]. split; [apply repeat_length|]. split; [exact H4|reflexivity]. }
    assert (ks' = ks) by (apply (row_major_unique dims); assumption). subst ks'.
    exists ks, all, visible. split; [exact Hk|]. split; [exact Fa|]. split; [exact Fv|]. intros h Lh Fh.
    exists (exp (excess visible h)). split; [apply Lv; assumption|].
    assert (Q : forall k, In k ks -> length (V k) = m /\ length (G k) = m /\ Forall (fun x => 0 <= x) (V k)).
    { intros k Ik. apply Hk in Ik. destruct (H k Ik) as [(_ & H2 & H3 & _) H4]. auto. }
    assert (E : excess visible h = excess all (map (fun '(k, w) => thinned (V k) w) (combine ks h)) /\
                Forall (fun w => length w = m) (map (fun '(k, w) => thinned (V k) w) (combine ks h))).
    { rewrite !excess_shifted. clear - Fv Fa Lh Fh Q. unfold pixel_means in *. revert visible all h Fv Fa Lh Fh.
      induction ks as [|k ks IH]; intros visible all h Fv Fa Lh Fh; destruct h as [|w h]; try discriminate; inversion Fv as [|? lam ? visible' X1 Fv']; subst;
        inversion Fa as [|? a ? all' X2 Fa']; subst; [split; [reflexivity|constructor]|]. destruct X1 as [L1 F1], X2 as [L2 F2].
      apply Forall_cons_iff in Fh as [Lw Fh].
      destruct (IH ltac:(intros; apply Q; right; assumption) visible' all' h Fv' Fa') as [I1 I2]; [injection Lh; auto|exact Fh|].
      destruct (Q k (or_introl eq_refl)) as (LV & LG & PV). cbn [combine map concat].
      assert (Lt : length (thinned (V k) w) = length a) by (unfold thinned; rewrite map_length, combine_length; lia).
      split; [|constructor; [lia|exact I2]].
      rewrite !shifted_app by congruence. rewrite I1. f_equal.
      assert (S1 : forall i x y, nth_error (V k) i = Some x -> nth_error a i = Some y -> nth_error lam i = Some (x * y)).
      { intros i x y Vi Ai. destruct (nth_error (G k) i) as [g|] eqn:Gi; [|apply nth_error_None in Gi; assert (i < length (V k))%nat by (apply nth_error_Some; congruence); lia].
        rewrite (F1 i g x Gi Vi). assert (Ri : nth_error (repeat 1 m) i = Some 1) by (apply nth_error_repeat; rewrite <- L2; apply nth_error_Some; congruence).
        rewrite (F2 i g 1 Gi Ri) in Ai. injection Ai as <-. f_equal. unfold expected_points.
        pose proof (proj1 (Forall_forall _ _) PV x (nth_error_In _ _ Vi)) as Px. rewrite <- RmaxRmult by exact Px. f_equal; ring. }
      apply thin_row; congruence || exact S1. }
    rewrite (proj1 E). apply La; [|exact (proj2 E)]. rewrite map_length, combine_length. lia.
  Qed.
End Delta.
Print Assumptions positions_process.
Print Assumptions positions_number.
Print Assumptions visibility_thins.

(** Two pixels, one of which is twice as dense and half visible, each with half a point expected: the chance that there
    is no point at all is that of a Poisson number with mean one. *)
Example positions_number_example :
  let positions s := positions_from_delta (fun _ => []) counts_of (fun s n => (repeat tt n, s)) (fun _ i (_ : unit) => i) (fun _ => Ok 1%nat) 5 100
    (Some linear_bias) {| ashape := []; aget := fun _ => 1 / sphere_area |}
    {| ashape := [2%nat]; aget := fun i => match i with [0%nat] => 1 | _ => 0 end |} None
    (Some {| ashape := [2%nat]; aget := fun i => match i with [0%nat] => 1 / 2 | _ => 1 end |}) false (Some s) in
  counts_mean [1 / 2; 1 / 2] (fun ns => match positions (combine [1 / 2; 1 / 2] ns) with
    | Ok (pos, _) => if Nat.eq_dec (number_at (fun i => i) (fun _ => true) pos) 0 then 1 else 0 | Err _ => 0 end) (exp (-1)).
Proof.
  intro positions. pose proof PI_RGT_0 as PP. assert (Hs : 0 < sphere_area).
  { unfold sphere_area. apply Rmult_lt_0_compat; [lra|]. apply pow_lt. apply Rdiv_lt_0_compat; lra. }
  destruct (positions_number (fun _ => []) (fun s n => (repeat tt n, s)) (fun _ i (_ : unit) => i) (fun _ => Ok 1%nat) (fun i => i) 1 2 5 100
    (fun s n => repeat_length tt n) (fun i u => eq_refl) eq_refl ltac:(lia) ltac:(lia) linear_bias {| ashape := []; aget := fun _ => 1 / sphere_area |}
    {| ashape := [2%nat]; aget := fun i => match i with [0%nat] => 1 | _ => 0 end |} None false [] [] []
    (fun _ => 1 / sphere_area) (fun _ => [1; 0]) eq_refl
    (Some {| ashape := [2%nat]; aget := fun i => match i with [0%nat] => 1 / 2 | _ => 1 end |}) (fun _ => [1 / 2; 1])) as (ks & lams & Hk & F & L).
  - intros v [= <-]. reflexivity.
  - split; [repeat constructor|]. split; [left; reflexivity|]. intro k. split; [|left; destruct k; reflexivity].
    intros s [<-|[<-|[<-|[]]]]; left; destruct k; reflexivity.
  - intros k Hi. inversion Hi; subst. split; [|split; [reflexivity|split; [reflexivity|split]]].
    + exists []. split; [|reflexivity]. split; [reflexivity|]. intros k Lk. cbn in Lk. lia.
    + exists [1; 0]. split; [|reflexivity]. exists []. split; [split; [reflexivity|intros k Lk; cbn in Lk; lia]|]. split; [reflexivity|].
      intros [|[|i]] Li; [reflexivity|reflexivity|lia].
    + exists []. split; [split; [reflexivity|intros k Lk; cbn in Lk; lia]|]. split; [reflexivity|]. intros [|[|i]] Li; [reflexivity|reflexivity|lia].
  - assert (Ek : ks = [[]]) by (apply (row_major_unique [] ks); [exact Hk|exact (ndindex_row_major [])]). subst ks.
    inversion F as [|? lam ? rest [Ll Fl] F']; subst. inversion F'; subst.
    destruct lam as [|a [|b [|]]]; try discriminate.
    pose proof (Fl 0%nat 1 (1 / 2) eq_refl eq_refl) as E0. pose proof (Fl 1%nat 0 1 eq_refl eq_refl) as E1. cbn in E0, E1. assert (E0' := f_equal (fun o => match o with Some x => x | None => 0 end) E0). assert (E1' := f_equal (fun o => match o with Some x => x | None => 0 end) E1). cbn beta iota in E0', E1'. clear E0 E1. rename E0' into E0, E1' into E1.
    unfold expected_points in E0, E1. 
    assert (X : forall x y, y = x / 2 -> 0 <= x -> Rmax 0 y = x / 2) by (intros x y -> Px; apply Rmax_right; lra).
    assert (Qa : a = 1 / 2) by (rewrite E0; apply X; [cbn; field; lra|lra]). assert (Qb : b = 1 / 2) by (rewrite E1; apply X; [cbn; field; lra|lra]).
    clear E0 E1 Fl F. subst a b.
    eapply counts_ext; [apply (L (fun _ => true) 0%nat)|reflexivity|].
    unfold poisson_chance. cbn. replace (- (1 / 2 + (1 / 2 + 0) + 0)) with (-1) by field. field.
Qed.
