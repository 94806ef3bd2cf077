(** Expected values of functions of Poisson numbers and of random points. *)
From Coq Require Import Reals Lra Lia List Factorial.
From Coquelicot Require Import Coquelicot.
From Verif Require Import Base Model_Numeric Model_Arrays Model_Batch Model_Rng Model_Points.
From Verif Require Import Spec_Batch Proof_Batch Proof_Rng Spec_Points Spec_Uniform Spec_Disc Spec_Poisson Proof_Uniform.
Import ListNotations.
Local Open Scope R_scope.

(** * Poisson numbers *)
Lemma series_eq (a b : nat -> R) (x y : R) : is_series a x -> (forall n, a n = b n) -> x = y -> is_series b y.
Proof. intros H E <-. apply (is_series_ext a); assumption. Qed.
Lemma series_unique (a : nat -> R) (x y : R) : is_series a x -> is_series a y -> x = y.
Proof. intros H H'. rewrite <- (is_series_unique _ _ H). apply is_series_unique. exact H'. Qed.
Lemma series_scal (c : R) (a : nat -> R) (x : R) : is_series a x -> is_series (fun n => c * a n) (c * x).
Proof. intro H. exact (is_series_scal (V := R_NormedModule) c a x H). Qed.
Lemma series_plus (a b : nat -> R) (x y : R) : is_series a x -> is_series b y -> is_series (fun n => a n + b n) (x + y).
Proof. intros H H'. exact (is_series_plus (V := R_NormedModule) a b x y H H'). Qed.

Lemma exp_series (x : R) : is_series (fun n => x ^ n / INR (fact n)) (exp x).
Proof.
  pose proof (is_exp_Reals x) as H. unfold is_pseries in H. eapply series_eq; [exact H| |reflexivity].
  intro n. cbn beta. rewrite pow_n_pow. unfold scal. cbn. unfold mult. cbn. field. apply INR_fact_neq_0.
Qed.
Lemma poisson_power (lam x : R) : poisson_mean lam (fun n => x ^ n) (exp (lam * (x - 1))).
Proof.
  unfold poisson_mean. eapply series_eq; [apply (series_scal (exp (- lam))), (exp_series (lam * x))| |].
  - intro n. cbn beta. unfold poisson_chance. rewrite Rpow_mult_distr. field. apply INR_fact_neq_0.
  - rewrite <- exp_plus. f_equal. ring.
Qed.
Lemma poisson_const (lam c : R) : poisson_mean lam (fun _ => c) c.
Proof.
  unfold poisson_mean. pose proof (series_scal c _ _ (poisson_power lam 1)) as H. eapply series_eq; [exact H| |].
  - intro n. cbn beta. rewrite pow1. ring.
  - replace (lam * (1 - 1)) with 0 by ring. rewrite exp_0. ring.
Qed.
Lemma poisson_scal lam f m c : poisson_mean lam f m -> poisson_mean lam (fun n => c * f n) (c * m).
Proof. unfold poisson_mean. intro H. eapply series_eq; [apply (series_scal c), H| |reflexivity]. intro n. cbn beta. ring. Qed.
Lemma poisson_plus lam f g m m' : poisson_mean lam f m -> poisson_mean lam g m' -> poisson_mean lam (fun n => f n + g n) (m + m').
Proof. unfold poisson_mean. intros H H'. eapply series_eq; [apply (series_plus _ _ _ _ H H')| |reflexivity]. intro n. cbn beta. ring. Qed.
Lemma poisson_ext lam f g m m' : poisson_mean lam f m -> (forall n, f n = g n) -> m = m' -> poisson_mean lam g m'.
Proof. unfold poisson_mean. intros H E <-. eapply series_eq; [exact H| |reflexivity]. intro n. cbn beta. rewrite E. reflexivity. Qed.
Lemma poisson_unique lam f m m' : poisson_mean lam f m -> poisson_mean lam f m' -> m = m'.
Proof. apply series_unique. Qed.

(** Falling factorials. *)
Lemma poisson_shift lam f m : poisson_mean lam (fun n => f (S n)) m -> poisson_mean lam (fun n => INR n * f n) (lam * m).
Proof.
  unfold poisson_mean. intro H. apply is_series_decr_1. match goal with |- is_series ?a ?x => eapply (series_eq _ a _ x) end.
  - apply (series_scal lam), H.
  - intro n. cbn beta. unfold poisson_chance. rewrite fact_simpl, mult_INR. cbn [pow].
    pose proof (INR_fact_neq_0 n). pose proof (not_0_INR (S n) ltac:(lia)). field. auto.
  - cbn [INR]. unfold plus, opp. cbn. ring.
Qed.
Lemma poisson_number lam : poisson_mean lam (fun n => INR n) lam.
Proof.
  eapply poisson_ext; [apply (poisson_shift lam (fun _ => 1)), poisson_const| |]; [intro n; cbn beta|]; ring.
Qed.
Lemma poisson_square lam : poisson_mean lam (fun n => INR n ^ 2) (lam + lam ^ 2).
Proof.
  eapply poisson_ext; [apply (poisson_shift lam (fun n => INR n)) with (m := lam + 1)| |].
  - eapply poisson_ext; [apply poisson_plus; [apply poisson_number|apply (poisson_const lam 1)]| |reflexivity]. intro n. cbn beta. rewrite S_INR. reflexivity.
  - intro n. cbn beta. ring.
  - ring.
Qed.

(** * Lists of Poisson numbers *)
Lemma counts_ext lams : forall f g m m', counts_mean lams f m -> (forall l, length l = length lams -> f l = g l) -> m = m' -> counts_mean lams g m'.
Proof.
  induction lams as [|lam lams IH]; intros f g m m' H E <-; cbn [counts_mean] in *.
  - rewrite <- E by reflexivity. exact H.
  - destruct H as (h & Hh & M). exists h. split; [|exact M]. intro n. eapply IH; [apply Hh| |reflexivity].
    intros l L. cbn beta. apply E. cbn. lia.
Qed.
Lemma counts_unique lams : forall f m m', counts_mean lams f m -> counts_mean lams f m' -> m = m'.
Proof.
  induction lams as [|lam lams IH]; intros f m m'; cbn [counts_mean]; [congruence|].
  intros (g & G & M) (g' & G' & M'). apply (poisson_unique lam g); [exact M|].
  eapply poisson_ext; [exact M'| |reflexivity]. intro n. symmetry. apply (IH _ _ _ (G n) (G' n)).
Qed.
Lemma counts_const lams c : counts_mean lams (fun _ => c) c.
Proof. induction lams as [|lam lams IH]; cbn [counts_mean]; [reflexivity|]. exists (fun _ => c). split; [intro; exact IH|apply poisson_const]. Qed.
Lemma counts_scal lams : forall f m c, counts_mean lams f m -> counts_mean lams (fun l => c * f l) (c * m).
Proof.
  induction lams as [|lam lams IH]; intros f m c; cbn [counts_mean]; [congruence|].
  intros (g & G & M). exists (fun n => c * g n). split; [intro n; apply IH, G|apply poisson_scal, M].
Qed.
Lemma counts_plus lams : forall f g m m', counts_mean lams f m -> counts_mean lams g m' -> counts_mean lams (fun l => f l + g l) (m + m').
Proof.
  induction lams as [|lam lams IH]; intros f g m m'; cbn [counts_mean]; [congruence|].
  intros (h & H & M) (h' & H' & M'). exists (fun n => h n + h' n). split; [intro n; apply IH; auto|apply poisson_plus; assumption].
Qed.
Fixpoint powers (xs : list R) (ns : list nat) : R :=
  match xs, ns with x :: xs, n :: ns => x ^ n * powers xs ns | _, _ => 1 end.
Fixpoint shifted (lams xs : list R) : R :=
  match lams, xs with lam :: lams, x :: xs => lam * (x - 1) + shifted lams xs | _, _ => 0 end.
Lemma counts_powers lams : forall xs, length xs = length lams -> counts_mean lams (powers xs) (exp (shifted lams xs)).
Proof.
  induction lams as [|lam lams IH]; intros [|x xs] L; try discriminate; cbn [counts_mean powers shifted].
  - symmetry. apply exp_0.
  - exists (fun n => x ^ n * exp (shifted lams xs)). split.
    + intro n. apply counts_scal, IH. injection L. auto.
    + pose proof (poisson_scal lam _ _ (exp (shifted lams xs)) (poisson_power lam x)) as H. eapply poisson_ext; [exact H| |].
      * intro n. cbn beta. ring.
      * rewrite exp_plus. ring.
Qed.

(** * Changing variables *)
Lemma asin_above (x y : R) : - (PI / 2) <= y <= PI / 2 -> -1 <= x <= 1 -> (y < asin x <-> sin y < x).
Proof.
  intros Hy Hx. pose proof (asin_bound x) as B. rewrite <- (sin_asin x Hx) at 2. split; intro H.
  - apply sin_increasing_1; lra.
  - apply sin_increasing_0; lra.
Qed.
Lemma asin_below (x y : R) : - (PI / 2) <= y <= PI / 2 -> -1 <= x <= 1 -> (asin x < y <-> x < sin y).
Proof.
  intros Hy Hx. pose proof (asin_bound x) as B. rewrite <- (sin_asin x Hx) at 2. split; intro H.
  - apply sin_increasing_1; lra.
  - apply sin_increasing_0; lra.
Qed.
Lemma asin_big x : 1 <= x -> asin x = PI / 2.
Proof. intro H. unfold asin. destruct (Rle_dec x (-1)); [lra|]. destruct (Rle_dec 1 x); [reflexivity|lra]. Qed.
Lemma asin_small x : x <= -1 -> asin x = - (PI / 2).
Proof. intro H. unfold asin. destruct (Rle_dec x (-1)); [reflexivity|lra]. Qed.
Lemma asin_continuous (x : R) : continuous asin x.
Proof.
  pose proof PI_RGT_0 as PP.
  assert (K : forall e, 0 < e -> exists d, 0 < d /\ forall y, Rabs (y - x) < d -> Rabs (asin y - asin x) < e).
  { intros e He. set (e' := Rmin e (PI / 2)). assert (E1 : 0 < e') by (unfold e'; apply Rmin_glb_lt; lra).
    assert (E2 : e' <= e) by apply Rmin_l. pose proof (asin_bound x) as B.
    (* above *)
    assert (U : exists d, 0 < d /\ forall y, y - x < d -> asin y < asin x + e').
    { destruct (Rle_lt_dec (asin x + e') (PI / 2)) as [L|L].
      - assert (Hx : x < 1) by (destruct (Rle_lt_dec 1 x) as [G|G]; [rewrite (asin_big x G) in L; lra|exact G]).
        set (s := sin (asin x + e')). assert (S1 : Rmax x (-1) < s).
        { apply Rmax_lub_lt.
          - destruct (Rle_lt_dec x (-1)) as [G|G].
            + unfold s. rewrite (asin_small x G) in *. apply Rle_lt_trans with (sin (- (PI / 2))).
              * rewrite sin_neg, sin_PI2. lra.
              * apply sin_increasing_1; lra.
            + rewrite <- (sin_asin x) at 1 by lra. apply sin_increasing_1; lra.
          - replace (-1) with (sin (- (PI / 2))) by (rewrite sin_neg, sin_PI2; reflexivity). apply sin_increasing_1; lra. }
        exists (s - x). pose proof (Rmax_l x (-1)). pose proof (Rmax_r x (-1)). split; [lra|]. intros y Hy.
        assert (s <= 1) by (unfold s; apply SIN_bound).
        destruct (Rle_lt_dec y (-1)) as [G|G]; [rewrite (asin_small y G); lra|]. apply asin_below; [lra|lra|]. fold s. lra.
      - exists 1. split; [lra|]. intros y _. pose proof (asin_bound y). lra. }
    assert (V : exists d, 0 < d /\ forall y, x - y < d -> asin x - e' < asin y).
    { destruct (Rle_lt_dec (- (PI / 2)) (asin x - e')) as [L|L].
      - assert (Hx : -1 < x) by (destruct (Rle_lt_dec x (-1)) as [G|G]; [rewrite (asin_small x G) in L; lra|exact G]).
        set (s := sin (asin x - e')). assert (S1 : s < Rmin x 1).
        { apply Rmin_glb_lt.
          - destruct (Rle_lt_dec 1 x) as [G|G].
            + unfold s. rewrite (asin_big x G) in *. apply Rlt_le_trans with (sin (PI / 2)).
              * apply sin_increasing_1; lra.
              * rewrite sin_PI2. lra.
            + rewrite <- (sin_asin x) by lra. unfold s. apply sin_increasing_1; lra.
          - replace 1 with (sin (PI / 2)) by apply sin_PI2. apply sin_increasing_1; lra. }
        exists (x - s). pose proof (Rmin_l x 1). pose proof (Rmin_r x 1). split; [lra|]. intros y Hy.
        assert (-1 <= s) by (unfold s; apply SIN_bound).
        destruct (Rle_lt_dec 1 y) as [G|G]; [rewrite (asin_big y G); lra|]. apply asin_above; [lra|lra|]. fold s. lra.
      - exists 1. split; [lra|]. intros y _. pose proof (asin_bound y). lra. }
    destruct U as (d & D1 & D2), V as (d' & D1' & D2'). exists (Rmin d d'). split; [apply Rmin_glb_lt; assumption|].
    intros y Hy. pose proof (Rmin_l d d'). pose proof (Rmin_r d d'). apply Rabs_def2 in Hy.
    pose proof (D2 y ltac:(lra)). pose proof (D2' y ltac:(lra)). apply Rabs_def1; lra. }
  apply continuity_pt_filterlim. intros e He. destruct (K e He) as (d & D1 & D2). exists d. split; [exact D1|].
  intros y (_ & Hy). apply D2. exact Hy.
Qed.

(** Latitude in degrees as a function of a uniform number, and its inverse. *)
Definition lat_of (w : R) : R := degrees (asin (-1 + (1 - -1) * w)).
Definition height (b : R) : R := (1 + sin (angle b)) / 2.
Definition turn : R := 360 / PI.

Lemma angle_bounds b : -90 <= b <= 90 -> - (PI / 2) <= angle b <= PI / 2.
Proof. intro H. pose proof PI_RGT_0. unfold angle. split; nra. Qed.
Lemma degrees_angle b : degrees (angle b) = b.
Proof. unfold degrees, angle. field. apply PI_neq0. Qed.
Lemma angle_degrees x : angle (degrees x) = x.
Proof. unfold degrees, angle. field. apply PI_neq0. Qed.
Lemma angle_less a b : a < b <-> angle a < angle b.
Proof. pose proof PI_RGT_0 as PP. unfold angle. split; intro H; nra. Qed.
Lemma lat_above b w : -90 <= b <= 90 -> 0 <= w <= 1 -> (b < lat_of w <-> height b < w).
Proof.
  intros Hb Hw. unfold lat_of, height. rewrite angle_less, angle_degrees, asin_above by (try apply angle_bounds; lra). lra.
Qed.
Lemma lat_below b w : -90 <= b <= 90 -> 0 <= w <= 1 -> (lat_of w < b <-> w < height b).
Proof.
  intros Hb Hw. unfold lat_of, height. rewrite angle_less, angle_degrees, asin_below by (try apply angle_bounds; lra). lra.
Qed.
Lemma height_range b : 0 <= height b <= 1.
Proof. unfold height. pose proof (SIN_bound (angle b)). lra. Qed.
Lemma height_ends : height (-90) = 0 /\ height 90 = 1.
Proof.
  unfold height, angle. split.
  - replace (-90 * PI / 180) with (- (PI / 2)) by field. rewrite sin_neg, sin_PI2. field.
  - replace (90 * PI / 180) with (PI / 2) by field. rewrite sin_PI2. field.
Qed.
Lemma height_le a b : -90 <= a -> a <= b -> b <= 90 -> height a <= height b.
Proof.
  intros Ha Hab Hb. unfold height. assert (sin (angle a) <= sin (angle b)); [|lra].
  pose proof (angle_bounds a ltac:(lra)). pose proof (angle_bounds b ltac:(lra)). apply sin_incr_1; try lra.
  pose proof PI_RGT_0. unfold angle. nra.
Qed.
Lemma lat_continuous w : continuous lat_of w.
Proof.
  unfold lat_of, degrees. apply (continuous_mult (K := R_AbsRing) (fun w => asin (-1 + (1 - -1) * w)) (fun _ => 180 / PI)); [|apply continuous_const].
  apply (continuous_comp (fun w => -1 + (1 - -1) * w) asin); [|apply asin_continuous].
  apply (ex_derive_continuous (V := R_NormedModule)). auto_derive. exact I.
Qed.
Lemma lat_height b : -90 <= b <= 90 -> lat_of (height b) = b.
Proof.
  intro H. unfold lat_of, height. replace (-1 + (1 - -1) * ((1 + sin (angle b)) / 2)) with (sin (angle b)) by field.
  rewrite asin_sin by (apply angle_bounds; exact H). apply degrees_angle.
Qed.
Lemma height_derive b : is_derive height b (cos (angle b) / turn).
Proof. unfold height, angle, turn. auto_derive; [exact I|]. change (b * PI * / 180) with (b * PI / 180). set (c := cos _). field. apply PI_neq0. Qed.

(** The integral of a continuous function over a range of latitudes. *)
Lemma band_integral (s : R -> R) a b : -90 <= a -> a <= b -> b <= 90 -> (forall x, continuous s x) ->
  exists v : R, is_RInt (fun w => s (lat_of w)) (height a) (height b) v /\ is_RInt (fun x => s x * cos (angle x)) a b (v * turn).
Proof.
  intros Ha Hab Hb Hs. pose proof PI_RGT_0 as PP. set (f := fun w => s (lat_of w)).
  assert (Hf : forall w, continuous f w) by (intro w; apply (continuous_comp lat_of s); [apply lat_continuous|apply Hs]).
  exists (RInt f (height a) (height b)). split.
  - apply (RInt_correct (V := R_CompleteNormedModule)). apply (ex_RInt_continuous (V := R_CompleteNormedModule)). intros; apply Hf.
  - pose proof (is_RInt_comp (V := R_CompleteNormedModule) f height (fun b => cos (angle b) / turn) a b) as H.
    assert (K : is_RInt (fun y : R => scal (cos (angle y) / turn) (f (height y))) a b (RInt f (height a) (height b))).
    { apply H.
      - intros; apply Hf.
      - intros x _. split; [apply height_derive|]. apply (ex_derive_continuous (V := R_NormedModule)). unfold angle, turn. auto_derive. exact I. }
    apply (is_RInt_scal (V := R_CompleteNormedModule) _ a b turn) in K.
    match type of K with is_RInt _ _ _ ?v => replace (RInt f (height a) (height b) * turn) with v by (unfold scal; cbn; unfold mult; cbn; ring) end.
    eapply is_RInt_ext; [|exact K]. intros x Hx. rewrite Rmin_left, Rmax_right in Hx by lra.
    unfold scal; cbn; unfold mult; cbn. unfold f. rewrite lat_height by lra. unfold turn. field. apply PI_neq0.
Qed.

Ltac reqring := match goal with |- ?x = ?y => change (@eq R x y) end; ring.
Lemma patch_integral (s : R -> R) c : -90 <= fst c <= snd c -> snd c <= 90 -> (forall x : R, continuous s x) ->
  exists v : R, is_RInt (fun w => hit c (lat_of w) * s (lat_of w)) 0 1 v /\ is_RInt (fun x => hit c x * s x * cos (angle x)) (-90) 90 (v * turn).
Proof.
  destruct c as [a b]. cbn [fst snd]. intros Ha Hb Hs. destruct (band_integral s a b ltac:(lra) ltac:(lra) ltac:(lra) Hs) as (v & V1 & V2).
  exists v. destruct height_ends as [E0 E1]. pose proof (height_range a) as Ra. pose proof (height_range b) as Rb.
  pose proof (height_le a b ltac:(lra) ltac:(lra) ltac:(lra)) as Rab.
  assert (Z : forall p q, is_RInt (fun _ => 0) p q 0).
  { intros p q. pose proof (is_RInt_const (V := R_NormedModule) p q 0) as K.
    match type of K with is_RInt _ _ _ ?x => replace x with 0 in K by (unfold scal; cbn; unfold mult; cbn; ring) end. exact K. }
  split.
  - assert (K0 : is_RInt (fun w => hit (a, b) (lat_of w) * s (lat_of w)) 0 (height a) 0).
    { eapply is_RInt_ext; [|apply Z]. intros w Hw. rewrite Rmin_left, Rmax_right in Hw by lra. cbn beta.
      pose proof (proj2 (lat_below a w ltac:(lra) ltac:(lra)) ltac:(lra)). unfold hit. cbn [fst snd].
      destruct (Rle_dec a (lat_of w)); [lra|]. reqring. }
    assert (K1 : is_RInt (fun w => hit (a, b) (lat_of w) * s (lat_of w)) (height a) (height b) v).
    { eapply is_RInt_ext; [|exact V1]. intros w Hw. rewrite Rmin_left, Rmax_right in Hw by lra. cbn beta.
      pose proof (proj2 (lat_below b w ltac:(lra) ltac:(lra)) ltac:(lra)). pose proof (proj2 (lat_above a w ltac:(lra) ltac:(lra)) ltac:(lra)).
      unfold hit. cbn [fst snd]. destruct (Rle_dec a (lat_of w)); [|lra]. destruct (Rlt_dec (lat_of w) b); [|lra]. reqring. }
    assert (K2 : is_RInt (fun w => hit (a, b) (lat_of w) * s (lat_of w)) (height b) 1 0).
    { eapply is_RInt_ext; [|apply Z]. intros w Hw. rewrite Rmin_left, Rmax_right in Hw by lra. cbn beta.
      pose proof (proj2 (lat_above b w ltac:(lra) ltac:(lra)) ltac:(lra)). unfold hit. cbn [fst snd].
      destruct (Rle_dec a (lat_of w)); [|reqring]. destruct (Rlt_dec (lat_of w) b); [lra|]. reqring. }
    pose proof (is_RInt_Chasles (V := R_NormedModule) _ _ _ _ _ _ (is_RInt_Chasles (V := R_NormedModule) _ _ _ _ _ _ K0 K1) K2) as K.
    match type of K with is_RInt _ _ _ ?x => assert (X : x = v) by (change (0 + v + 0 = v); ring); rewrite X in K end. exact K.
  - set (g := fun x => hit (a, b) x * s x * cos (angle x)).
    assert (K0 : is_RInt g (-90) a 0).
    { eapply is_RInt_ext; [|apply Z]. intros w Hw. rewrite Rmin_left, Rmax_right in Hw by lra. unfold g, hit. cbn [fst snd].
      destruct (Rle_dec a w); [lra|]. reqring. }
    assert (K1 : is_RInt g a b (v * turn)).
    { eapply is_RInt_ext; [|exact V2]. intros w Hw. rewrite Rmin_left, Rmax_right in Hw by lra. unfold g, hit. cbn [fst snd].
      destruct (Rle_dec a w); [|lra]. destruct (Rlt_dec w b); [|lra]. reqring. }
    assert (K2 : is_RInt g b 90 0).
    { eapply is_RInt_ext; [|apply Z]. intros w Hw. rewrite Rmin_left, Rmax_right in Hw by lra. unfold g, hit. cbn [fst snd].
      destruct (Rle_dec a w); [|reqring]. destruct (Rlt_dec w b); [lra|]. reqring. }
    pose proof (is_RInt_Chasles (V := R_NormedModule) _ _ _ _ _ _ (is_RInt_Chasles (V := R_NormedModule) _ _ _ _ _ _ K0 K1) K2) as K.
    match type of K with is_RInt _ _ _ ?x => assert (X : x = v * turn) by (change (0 + v * turn + 0 = v * turn); ring); rewrite X in K end. exact K.
Qed.

Lemma rint_plus (f g : R -> R) (a b x y : R) : is_RInt f a b x -> is_RInt g a b y -> is_RInt (fun t => f t + g t) a b (x + y).
Proof. intros H H'. exact (is_RInt_plus (V := R_NormedModule) f g a b x y H H'). Qed.
Lemma rint_scal (f : R -> R) (c a b x : R) : is_RInt f a b x -> is_RInt (fun t => c * f t) a b (c * x).
Proof. intro H. exact (is_RInt_scal (V := R_NormedModule) f a b c x H). Qed.
Lemma rint_unique (f : R -> R) (a b x y : R) : is_RInt f a b x -> is_RInt f a b y -> x = y.
Proof. intros H H'. rewrite <- (is_RInt_unique (V := R_CompleteNormedModule) _ _ _ _ H). apply (is_RInt_unique (V := R_CompleteNormedModule)). exact H'. Qed.

Lemma patched_integral f : patched f ->
  exists v : R, is_RInt (fun w => f (lat_of w)) 0 1 v /\ is_RInt (fun x => f x * cos (angle x)) (-90) 90 (v * turn).
Proof.
  intros (ps & Hp & E).
  assert (K : exists v : R, is_RInt (fun w => fold_right Rplus 0 (map (fun p => hit (fst p) (lat_of w) * snd p (lat_of w)) ps)) 0 1 v /\
              is_RInt (fun x => fold_right Rplus 0 (map (fun p => hit (fst p) x * snd p x) ps) * cos (angle x)) (-90) 90 (v * turn)).
  { clear E. induction ps as [|[c s] ps IH]; cbn [map fold_right fst snd].
    - exists 0. split; [apply unit_const|]. eapply is_RInt_ext; [|].
      2:{ pose proof (is_RInt_const (V := R_NormedModule) (-90) 90 0) as K.
          match type of K with is_RInt _ _ _ ?x => replace x with (0 * turn) in K by (unfold scal; cbn; unfold mult; cbn; ring) end. exact K. }
      intros. cbn beta. reqring.
    - destruct IH as (v & V1 & V2); [intros; apply Hp; right; assumption|].
      destruct (Hp c s (or_introl eq_refl)) as (H1 & H2 & H3).
      destruct (patch_integral s c H1 H2 H3) as (v' & V1' & V2'). exists (v' + v). split.
      + exact (rint_plus _ _ _ _ _ _ V1' V1).
      + replace ((v' + v) * turn) with (v' * turn + v * turn) by ring.
        eapply is_RInt_ext; [|exact (rint_plus _ _ _ _ _ _ V2' V2)]. intros. cbn beta. reqring. }
  destruct K as (v & V1 & V2). exists v. destruct height_ends as [E0 E1]. split.
  - eapply is_RInt_ext; [|exact V1]. intros w Hw. rewrite Rmin_left, Rmax_right in Hw by lra. symmetry. apply E. split.
    + apply lat_above; lra.
    + apply lat_below; lra.
  - eapply is_RInt_ext; [|exact V2]. intros w Hw. rewrite Rmin_left, Rmax_right in Hw by lra. rewrite E by lra. reflexivity.
Qed.

Definition lon_of (u : R) : R := -180 + (180 - -180) * u.
Lemma sphere_units h m : (forall l, -180 < l < 180 -> patched (h l)) -> sphere_mean h m ->
  exists g : R -> R, (forall u, 0 < u < 1 -> is_RInt (fun w => h (lon_of u) (lat_of w)) 0 1 (g u)) /\ is_RInt g 0 1 m.
Proof.
  intros Hh (g & G & M). pose proof PI_RGT_0 as PP. exists (fun u => g (lon_of u) / turn). split.
  - intros u Hu. assert (Hl : -180 < lon_of u < 180) by (unfold lon_of; lra).
    destruct (patched_integral _ (Hh _ Hl)) as (v & V1 & V2). pose proof (rint_unique _ _ _ _ _ (G _ Hl) V2) as E.
    rewrite E. replace (v * turn / turn) with v; [exact V1|]. match goal with |- ?x = ?y => change (@eq R x y) end. unfold turn. field. lra.
  - pose proof (is_RInt_comp_lin (V := R_NormedModule) g 360 (-180) 0 1 (m * (4 * PI * (180 / PI) ^ 2))) as K.
    replace (360 * 0 + -180) with (-180) in K by ring. replace (360 * 1 + -180) with 180 in K by ring. specialize (K M).
    apply (rint_scal _ (/ (360 * turn))) in K.
    assert (X : / (360 * turn) * (m * (4 * PI * (180 / PI) ^ 2)) = m) by (unfold turn; field; lra).
    rewrite X in K. eapply is_RInt_ext; [|exact K]. intros u _. unfold scal; cbn; unfold mult; cbn.
    replace (360 * u + -180) with (lon_of u) by (unfold lon_of; ring). match goal with |- ?x = ?y => change (@eq R x y) end. unfold turn. field. lra.
Qed.

(** * Points *)
Lemma umeans_app n N : forall f g m, (forall u, length u = n -> Forall (fun x => 0 < x < 1) u -> umeans N (fun l => f (u ++ l)) (g u)) -> umeans n g m -> umeans (n + N) f m.
Proof.
  induction n as [|n IH]; intros f g m H M; cbn [umeans Nat.add] in *.
  - rewrite <- M. exact (H [] eq_refl ltac:(constructor)).
  - destruct M as (h & Hh & M). exists h. split; [|exact M]. intros u Hu. apply (IH _ (fun l => g (u :: l))); [|apply Hh, Hu].
    intros l L F. apply (H (u :: l)); [cbn; lia|constructor; assumption].
Qed.
Lemma prod_repeat (g : R -> R) u : product (map g u) = prod (repeat g (length u)) u.
Proof. induction u as [|x u IH]; cbn [map product fold_right length repeat prod]; [reflexivity|]. unfold product in IH. rewrite IH. reflexivity. Qed.
Lemma umeans_power n g m : is_RInt g 0 1 m -> umeans n (fun u => product (map g u)) (m ^ n).
Proof.
  intro H. pose proof (umeans_prod (repeat g n) (repeat m n)) as K. rewrite repeat_length in K.
  replace (m ^ n) with (fold_right Rmult 1 (repeat m n)).
  - apply (umeans_ext _ (prod (repeat g n))); [|apply K].
    + intros l L _. rewrite prod_repeat, L. reflexivity.
    + clear K. induction n; cbn [repeat]; constructor; auto.
  - clear K. induction n as [|n IH]; cbn [repeat fold_right pow]; [reflexivity|]. rewrite IH. reflexivity.
Qed.

Lemma pairs_mean (h : R -> R -> R) g m n : (forall u, 0 < u < 1 -> is_RInt (fun w => h (lon_of u) (lat_of w)) 0 1 (g u)) -> is_RInt g 0 1 m ->
  umeans (n + n) (fun us => product (map (fun p => h (fst p) (snd p)) (combine (map lon_of (firstn n us)) (map lat_of (firstn n (skipn n us)))))) (m ^ n).
Proof.
  intros G M. apply (umeans_app n n _ (fun u => product (map g u))); [|apply umeans_power, M].
  intros u L F.
  apply (umeans_ext _ (prod (map (fun u w => h (lon_of u) (lat_of w)) u))).
  - intros w Lw _.
    assert (E1 : firstn n (u ++ w) = u) by (rewrite <- L, firstn_app, Nat.sub_diag, firstn_all; cbn; apply app_nil_r).
    assert (E2 : skipn n (u ++ w) = w) by (rewrite <- L, skipn_app, Nat.sub_diag, skipn_all; reflexivity).
    assert (E3 : firstn n w = w) by (rewrite <- Lw; apply firstn_all).
    rewrite E1, E2, E3. clear E1 E2 E3.
    rewrite <- L in Lw. clear - Lw. revert w Lw. induction u as [|x u IH]; intros [|y w] Lw; try discriminate; [reflexivity|].
    cbn [map prod combine product fold_right fst snd]. rewrite IH by (injection Lw; auto). reflexivity.
  - rewrite <- L. replace (length u) with (length (map (fun u w => h (lon_of u) (lat_of w)) u)) by apply map_length.
    apply umeans_prod. clear - F G. induction F as [|x u Hx _ IH]; cbn [map]; constructor; auto.
Qed.

(** The loop over populations. *)
Lemma loop_mean dims (hs : list (R -> R -> R)) : forall ms ks ns rest,
  Forall2 (fun h m => (forall l, -180 < l < 180 -> patched (h l)) /\ sphere_mean h m) hs ms ->
  length ks = length hs -> length ns = length hs ->
  umeans (2 * list_sum ns) (fun us => marks hs (fst (uniform_loop ranges_second dims ks ns (rest, us)))) (powers ms ns).
Proof.
  intros ms ks ns rest H. revert ks ns. induction H as [|h m hs ms (Hh & Hm) _ IH]; intros [|k ks] [|n ns] Lk Ln; try discriminate.
  - reflexivity.
  - cbn [powers list_sum fold_right]. replace (2 * (n + fold_right Nat.add 0%nat ns))%nat with ((n + n) + 2 * list_sum ns)%nat by (unfold list_sum; lia).
    destruct (sphere_units h m Hh Hm) as (g & G & M).
    apply (umeans_app (n + n) _ _ (fun us => product (map (fun p => h (fst p) (snd p)) (combine (map lon_of (firstn n us)) (map lat_of (firstn n (skipn n us))))) * powers ms ns)).
    + intros u L _. 
      apply (umeans_ext _ (fun us => product (map (fun p => h (fst p) (snd p)) (combine (map lon_of (firstn n u)) (map lat_of (firstn n (skipn n u))))) *
               marks hs (fst (uniform_loop ranges_second dims ks ns (rest, us))))).
      * intros l _ _. cbn [uniform_loop]. unfold ranges_second at 2. unfold ranges at 1. cbn [fst snd]. unfold ranges_second at 2. unfold ranges at 1. cbn [fst snd].
        assert (E1 : firstn n (u ++ l) = firstn n u) by (rewrite firstn_app; replace (n - length u)%nat with 0%nat by lia; cbn; apply app_nil_r).
        assert (E2 : skipn n (u ++ l) = skipn n u ++ l) by (rewrite skipn_app; replace (n - length u)%nat with 0%nat by lia; reflexivity).
        assert (L2 : length (skipn n u) = n) by (rewrite skipn_length; lia).
        rewrite E1, E2.
        assert (E3 : firstn n (skipn n u ++ l) = firstn n (skipn n u)) by (rewrite firstn_app; replace (n - length (skipn n u))%nat with 0%nat by lia; cbn; apply app_nil_r).
        assert (E4 : skipn n (skipn n u ++ l) = l) by (rewrite skipn_app; replace (n - length (skipn n u))%nat with 0%nat by lia; rewrite <- L2 at 1; rewrite skipn_all; reflexivity).
        rewrite E3, E4. destruct (uniform_loop ranges_second dims ks ns (rest, l)) as [out s']. cbn [fst marks]. f_equal.
        rewrite (map_map _ (fun x => degrees (asin x))). reflexivity.
      * apply umeans_scal. apply IH; [injection Lk; auto|injection Ln; auto].
    + pose proof (umeans_scal _ _ _ (powers ms ns) (pairs_mean h g m n G M)) as K.
      rewrite Rmult_comm. eapply umeans_ext; [|exact K]. intros; cbn beta. ring.
Qed.

(** * Numbers of points *)
Lemma finite_series (a : nat -> R) N : (forall n, (N < n)%nat -> a n = 0) -> is_series a (sum_f_R0 a N).
Proof.
  intro Z. apply is_series_Reals. intros e He. exists N. intros n Hn.
  assert (E : sum_f_R0 a n = sum_f_R0 a N).
  { induction Hn as [|n Hn IH]; [reflexivity|]. cbn [sum_f_R0]. rewrite IH, Z by lia. ring. }
  rewrite E, R_dist_eq. exact He.
Qed.
Lemma poisson_convolution a b j : sum_f_R0 (fun n => poisson_chance a n * poisson_chance b (j - n)) j = poisson_chance (a + b) j.
Proof.
  unfold poisson_chance. rewrite binomial, Ropp_plus_distr, exp_plus.
  unfold Rdiv. rewrite Rmult_assoc, (Rmult_comm (sum_f_R0 _ _) (/ _)), scal_sum, scal_sum. apply sum_eq. intros i Hi. unfold Binomial.C.
  pose proof (INR_fact_neq_0 i). pose proof (INR_fact_neq_0 (j - i)). pose proof (INR_fact_neq_0 j). field. auto.
Qed.

Fixpoint chosen {B} (plus : B -> B -> B) (zero : B) (mask : list bool) (l : list B) : B :=
  match mask, l with
  | b :: mask, x :: l => plus (if b then x else zero) (chosen plus zero mask l)
  | _, _ => zero
  end.
Lemma counts_chosen lams : forall mask j, length mask = length lams ->
  counts_mean lams (fun ns => if Nat.eq_dec (chosen Nat.add 0%nat mask ns) j then 1 else 0) (poisson_chance (chosen Rplus 0 mask lams) j).
Proof.
  induction lams as [|lam lams IH]; intros [|b mask] j L; try discriminate; cbn [counts_mean chosen].
  - unfold poisson_chance. rewrite Ropp_0, exp_0. destruct (Nat.eq_dec 0 j) as [<-|N].
    + cbn. field.
    + rewrite pow_i by lia. unfold Rdiv. ring.
  - assert (L' : length mask = length lams) by (injection L; auto). destruct b.
    + exists (fun n => if le_dec n j then poisson_chance (chosen Rplus 0 mask lams) (j - n) else 0). split.
      * intro n. destruct (le_dec n j) as [Q|Q].
        -- eapply counts_ext; [apply (IH mask (j - n)%nat L')| |reflexivity]. intros ns _. cbn beta.
           destruct (Nat.eq_dec _ (j - n)), (Nat.eq_dec (n + _) j); reflexivity || lia.
        -- eapply counts_ext; [apply (counts_const lams 0)| |reflexivity]. intros ns _. cbn beta. destruct (Nat.eq_dec (n + _) j); [lia|reflexivity].
      * unfold poisson_mean. rewrite <- poisson_convolution.
        assert (F : sum_f_R0 (fun n => poisson_chance lam n * poisson_chance (chosen Rplus 0 mask lams) (j - n)) j =
                    sum_f_R0 (fun n => poisson_chance lam n * (if le_dec n j then poisson_chance (chosen Rplus 0 mask lams) (j - n) else 0)) j).
        { apply sum_eq. intros i Hi. destruct (le_dec i j); [reflexivity|lia]. }
        rewrite F. apply finite_series. intros n Hn. destruct (le_dec n j); [lia|ring].
    + exists (fun _ => poisson_chance (chosen Rplus 0 mask lams) j). split.
      * intro n. cbn [Nat.add]. exact (IH mask j L').
      * rewrite Rplus_0_l. apply poisson_const.
Qed.

(** * Points in pixels *)
Lemma powers_app xs ns : forall ys ms, length xs = length ns -> powers (xs ++ ys) (ns ++ ms) = powers xs ns * powers ys ms.
Proof.
  revert ns. induction xs as [|x xs IH]; intros [|n ns] ys ms L; try discriminate; cbn [app powers]; [ring|].
  rewrite IH by (injection L; auto). ring.
Qed.
Lemma shifted_app a xs : forall b ys, length a = length xs -> shifted (a ++ b) (xs ++ ys) = shifted a xs + shifted b ys.
Proof.
  revert xs. induction a as [|x a IH]; intros [|n xs] b ys L; try discriminate; cbn [app shifted]; [ring|].
  rewrite IH by (injection L; auto). ring.
Qed.
Lemma chosen_app {B} (plus : B -> B -> B) zero (assoc : forall x y z, plus x (plus y z) = plus (plus x y) z) (unit : forall x, plus zero x = x)
  mask l : forall mask' l', length mask = length l -> chosen plus zero (mask ++ mask') (l ++ l') = plus (chosen plus zero mask l) (chosen plus zero mask' l').
Proof.
  revert l. induction mask as [|b mask IH]; intros [|x l] mask' l' L; try discriminate; cbn [app chosen]; [symmetry; apply unit|].
  rewrite IH by (injection L; auto). apply assoc.
Qed.
Lemma product_app l l' : product (l ++ l') = product l * product l'.
Proof. unfold product. induction l as [|x l IH]; cbn [app fold_right]; [ring|]. rewrite IH. ring. Qed.
Lemma pixels_powers (f : nat -> R) n : forall i, product (map f (pixels_from i n)) = powers (map f (seq i (length n))) n.
Proof.
  induction n as [|c n IH]; intro i; cbn [pixels_from length seq map powers]; [reflexivity|].
  rewrite map_app, product_app, IH. f_equal. clear IH. unfold product. induction c as [|c IH]; cbn [repeat map fold_right pow]; [reflexivity|]. rewrite IH. reflexivity.
Qed.
Lemma pixels_chosen (A : nat -> bool) n : forall i, length (filter A (pixels_from i n)) = chosen Nat.add 0%nat (map A (seq i (length n))) n.
Proof.
  induction n as [|c n IH]; intro i; cbn [pixels_from length seq map chosen]; [reflexivity|].
  rewrite filter_app, app_length, IH. f_equal. destruct (A i) eqn:E; induction c; cbn [repeat filter]; try rewrite E; cbn [length]; auto.
Qed.
Lemma seq_nth (w : list R) : map (fun j => nth j w 0) (seq 0 (length w)) = w.
Proof.
  induction w as [|x w IH]; cbn [length seq map nth]; [reflexivity|]. f_equal. rewrite <- seq_shift, map_map. exact IH.
Qed.

Lemma combine_app {A B} (l : list A) (l' : list B) : forall r r', length l = length l' -> combine (l ++ r) (l' ++ r') = combine l l' ++ combine r r'.
Proof.
  revert l'. induction l as [|x l IH]; intros [|y l'] r r' L; try discriminate; cbn [app combine]; [reflexivity|]. rewrite IH by (injection L; auto). reflexivity.
Qed.
Lemma counts_given lam n : forall rest, length n = length lam -> counts_of (combine lam n ++ rest) lam = (n, rest).
Proof.
  intros rest L. unfold counts_of. f_equal.
  - revert n L. induction lam as [|x lam IH]; intros [|y n] L; try discriminate; cbn [combine app map fst snd]; [reflexivity|].
    destruct (Req_EM_T x x) as [_|N]; [|contradiction]. f_equal. apply IH. injection L. auto.
  - assert (E : length (combine lam n) = length lam) by (rewrite combine_length; lia). rewrite skipn_app, E, Nat.sub_diag, <- E, skipn_all. reflexivity.
Qed.

Section Pixels.
  Context {S U P : Type}.
  Variable mk : nat -> S.
  Variable random : S -> nat -> list U * S.
  Variable ring2ang : nat -> nat -> U -> P.
  Variable npix2nside : nat -> result nat.
  Variable pixel : P -> nat.
  Variables nside m fuel batch : nat.
  Hypothesis Hr : forall s n, length (fst (random s n)) = n.
  Hypothesis Hx : forall i u, pixel (ring2ang nside i u) = i.
  Hypothesis Hn : npix2nside m = Ok nside.
  Hypothesis Hf : (2 * m < fuel)%nat.

  Lemma randang_pixels b : map pixel (randang mk random ring2ang nside b) = b.
  Proof.
    unfold randang. pose proof (Hr (default_rng mk None) (length b)) as L. set (u := fst _) in *. clearbody u. rewrite map_map. revert u L.
    induction b as [|i b IH]; intros [|x u] L; try discriminate; cbn [combine map]; [reflexivity|]. rewrite Hx. f_equal. apply IH. injection L. auto.
  Qed.
  Lemma sample_pixels n : length n = m -> exists p, sample_positions mk random ring2ang npix2nside fuel batch n = Ok p /\
    map pixel (concat p) = all_points n.
  Proof.
    intro L. unfold sample_positions. destruct (sample_correct npix2nside nside batch n fuel) as (bs & E & C & _); [rewrite L; exact Hn|lia|].
    rewrite E. cbn [bind]. destruct (Nat.eqb_spec (list_sum n) 0) as [Z|Z].
    - exists []. split; [reflexivity|]. cbn. symmetry. apply length_zero_iff_nil. unfold all_points. rewrite pixels_from_length. exact Z.
    - rewrite L, Hn. cbn [bind]. eexists. split; [reflexivity|]. rewrite <- C. clear - Hr Hx. induction bs as [|b bs IH]; cbn [map concat]; [reflexivity|].
      rewrite map_app, IH, randang_pixels. reflexivity.
  Qed.

End Pixels.

Section Loop.
  Context {U P : Type}.
  Variable mk : nat -> list (R * nat).
  Variable random : list (R * nat) -> nat -> list U * list (R * nat).
  Variable ring2ang : nat -> nat -> U -> P.
  Variable npix2nside : nat -> result nat.
  Variable pixel : P -> nat.
  Variables nside m fuel batch : nat.
  Hypothesis Hr : forall s n, length (fst (random s n)) = n.
  Hypothesis Hx : forall i u, pixel (ring2ang nside i u) = i.
  Hypothesis Hn : npix2nside m = Ok nside.
  Hypothesis Hf : (2 * m < fuel)%nat.

  Lemma loop_pixels A (lams : list (list R)) : Forall (fun lam => length lam = m) lams -> forall s, length s = length (concat lams) ->
    exists pos s', positions_loop mk counts_of random ring2ang npix2nside fuel batch (combine (concat lams) s) lams = Ok (pos, s') /\
      (forall h, length h = length lams -> Forall (fun w => length w = m) h -> pixel_marks pixel h pos = powers (concat h) s) /\
      number_at pixel A pos = chosen Nat.add 0%nat (concat (map (fun _ => map A (seq 0 m)) lams)) s.
  Proof.
    induction 1 as [|lam lams L _ IH]; intros s Ls.
    - exists [], []. destruct s; [|discriminate]. split; [reflexivity|]. split; [|reflexivity].
      intros [|w h] Lh _; [reflexivity|discriminate].
    - cbn [concat] in Ls. rewrite app_length in Ls.
      set (n := firstn m s). set (s1 := skipn m s).
      assert (Ln : length n = m) by (unfold n; rewrite firstn_length; lia).
      assert (L1 : length s1 = length (concat lams)) by (unfold s1; rewrite skipn_length; lia).
      assert (Es : s = n ++ s1) by (symmetry; apply firstn_skipn).
      destruct (sample_pixels mk random ring2ang npix2nside pixel nside m fuel batch Hr Hx Hn Hf n Ln) as (p & Ep & Pp). destruct (IH s1 L1) as (pos & s' & E & M & N).
      exists (p :: pos), s'. cbn [concat positions_loop]. rewrite Es at 1. rewrite combine_app by congruence. rewrite counts_given by congruence.
      rewrite Ep. cbn [bind]. rewrite E. cbn [bind]. split; [reflexivity|]. split.
      + intros [|w h] Lh Fh; [discriminate|]. apply Forall_cons_iff in Fh as [Lw Fh]. cbn [pixel_marks concat]. rewrite Es, powers_app by congruence.
        rewrite M by (auto || (injection Lh; auto)). f_equal.
        rewrite <- (map_map pixel (fun i => nth i w 0)), Pp. unfold all_points. rewrite pixels_powers, Ln, <- Lw, seq_nth. reflexivity.
      + cbn [map concat]. rewrite Es, (chosen_app Nat.add 0%nat Nat.add_assoc Nat.add_0_l) by (rewrite map_length, seq_length; congruence).
        rewrite <- N. unfold number_at. cbn [concat]. rewrite concat_app, map_app, filter_app, app_length, Pp. f_equal.
        unfold all_points. rewrite pixels_chosen, Ln. reflexivity.
  Qed.
End Loop.
