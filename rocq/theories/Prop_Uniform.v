(** Claims about the distributions of numbers made from uniform numbers (C37, C46, C54, C79). *)
From Coq Require Import Reals Lra Lia List.
From Coquelicot Require Import Coquelicot.
From Verif Require Import Base Model_Numeric Model_Arrays Model_Galaxies Model_Points Model_Shapes.
From Verif Require Import Spec_Numeric Spec_Galaxies Spec_Points Spec_Uniform Proof_Numeric Proof_Galaxies Proof_Uniform.
Import ListNotations.
Local Open Scope R_scope.

(** ** The distribution function *)
Section Cdf.
  Variables (z nz : list R) (F : R -> R) (a b : R).
  Hypothesis D : distribution z nz.
  Hypothesis CF : cumulative_distribution F z nz.
  Hypothesis Ha : starts_with z a.
  Hypothesis Hb : ends_with z b.

  Let cs := cumulative_sum 0 (trapezoids (combine z nz)).
  Let t := total (trapezoids (combine z nz)).

  Lemma cdf_node k x c : nth_error z k = Some x -> nth_error cs k = Some c -> F x * t = c.
  Proof.
    intros Hx Hc. destruct D as (Hs & Hl & _). destruct CF as (_ & g & a' & b' & v & Hi & Hp & Ha' & Hb' & Hv & _ & H).
    pose proof (H x (nth_error_In _ _ Hx)) as I1.
    pose proof (cumulative_integral g z nz 0 k a' x c Hs Hl Hi Hp Ha' Hx Hc) as I2.
    pose proof (trapezoids_integral g z nz a' b' Hs Hl Hi Hp Ha' Hb') as I3.
    assert (E : v = t) by (eapply integral_unique; eassumption). rewrite <- E.
    rewrite <- (integral_unique _ _ _ _ _ I2 I1). ring.
  Qed.

  Lemma cs_length : length cs = length z /\ 0 < t.
  Proof.
    destruct (inverse_cdf z nz D) as (Ht & _ & Hcl & _). rewrite map_length in Hcl. split; [exact Hcl|exact Ht].
  Qed.

  Lemma cdf_nodes_le i j x y : (i <= j)%nat -> nth_error z i = Some x -> nth_error z j = Some y -> F x <= F y.
  Proof.
    intros Hij Hx Hy. destruct cs_length as [Hcl Ht].
    destruct (nth_error_same z cs i x (eq_sym Hcl) Hx) as (c & Hc).
    destruct (nth_error_same z cs j y (eq_sym Hcl) Hy) as (d & Hd).
    assert (M : nondecreasing cs).
    { apply cumulative_monotone. destruct D as (Hs & Hl & Hf & _). apply trapezoids_nonneg; auto using increasing_nondecreasing. }
    pose proof (nondecreasing_le cs M i j c d Hij Hc Hd) as L.
    rewrite <- (cdf_node _ _ _ Hx Hc), <- (cdf_node _ _ _ Hy Hd) in L. exact (Rmult_le_reg_r _ _ _ Ht L).
  Qed.

  Lemma cdf_ends : F a = 0 /\ F b = 1.
  Proof.
    destruct cs_length as [Hcl Ht]. split.
    - assert (Hc : nth_error cs 0 = Some 0) by (unfold cs; destruct (trapezoids (combine z nz)); reflexivity).
      pose proof (cdf_node 0 a 0 Ha Hc) as E. apply Rmult_integral in E. destruct E; lra.
    - destruct D as (Hs & Hl & _).
      assert (Hn : length (trapezoids (combine z nz)) = (length z - 1)%nat).
      { rewrite trapezoids_length, combine_length, <- Hl, Nat.min_id; reflexivity. }
      assert (Hc : nth_error cs (length z - 1) = Some (0 + t)) by (rewrite <- Hn; apply cumulative_last).
      pose proof (cdf_node (length z - 1) b _ Hb Hc) as E. rewrite Rplus_0_l in E. apply (Rmult_eq_reg_r t); lra.
  Qed.

  Lemma cdf_segment i c d x : nth_error z i = Some c -> nth_error z (S i) = Some d -> c <= x <= d ->
    F x * (d - c) = F c * (d - x) + F d * (x - c).
  Proof.
    intros Hc Hd Hx. destruct CF as (Hi & _).
    apply (Hi i c d (F c) (F d) x Hc Hd); [| |exact Hx]; rewrite nth_error_map'; [rewrite Hc|rewrite Hd]; reflexivity.
  Qed.

  Lemma cdf_between i c d x : nth_error z i = Some c -> nth_error z (S i) = Some d -> c <= x <= d -> F c <= F x <= F d.
  Proof.
    intros Hc Hd Hx. pose proof (cdf_segment i c d x Hc Hd Hx) as E.
    pose proof (cdf_nodes_le i (S i) c d ltac:(lia) Hc Hd) as L.
    destruct D as (Hs & _). pose proof (Hs i c d Hc Hd) as P.
    split; apply (Rmult_le_reg_r (d - c)); try lra; rewrite E.
    - assert (0 <= (F d - F c) * (x - c)) by (apply Rmult_le_pos; lra). lra.
    - assert (0 <= (F d - F c) * (d - x)) by (apply Rmult_le_pos; lra). lra.
  Qed.

  Lemma cdf_monotone x y : a <= x -> x <= y -> y <= b -> F x <= F y.
  Proof.
    intros Hx Hxy Hy. destruct D as (Hs & _).
    destruct (Req_dec x b) as [->|Nx]; [replace y with b by lra; lra|].
    destruct (locate z a b x Hs Ha Hb) as (i & c & d & Hc & Hd & Hcd); [lra|].
    pose proof (cdf_between i c d x Hc Hd ltac:(lra)) as B1.
    destruct (Rle_dec y d) as [L|L].
    - pose proof (cdf_segment i c d x Hc Hd ltac:(lra)) as E1. pose proof (cdf_segment i c d y Hc Hd ltac:(lra)) as E2.
      pose proof (cdf_nodes_le i (S i) c d ltac:(lia) Hc Hd) as M.
      apply (Rmult_le_reg_r (d - c)); [lra|]. rewrite E1, E2.
      assert (0 <= (F d - F c) * (y - x)) by (apply Rmult_le_pos; lra). lra.
    - destruct (Req_dec y b) as [->|Ny].
      + apply Rle_trans with (F d); [lra|].
        apply (cdf_nodes_le (S i) (length z - 1) d b); [|exact Hd|exact Hb].
        assert (S i < length z)%nat by (apply nth_error_Some; congruence). lia.
      + destruct (locate z a b y Hs Ha Hb) as (j & c' & d' & Hc' & Hd' & Hcd'); [lra|].
        pose proof (cdf_between j c' d' y Hc' Hd' ltac:(lra)) as B2.
        apply Rle_trans with (F d); [lra|]. apply Rle_trans with (F c'); [|lra].
        apply (cdf_nodes_le (S i) j d c'); [|exact Hd|exact Hc'].
        destruct (Nat.le_gt_cases (S i) j) as [K|K]; [exact K|exfalso].
        pose proof (nondecreasing_le z (increasing_nondecreasing _ Hs) (S j) (S i) d' d ltac:(lia) Hd' Hd). lra.
  Qed.

  Lemma drawn_below u x y : drawn_from z nz u x -> a <= y <= b -> (x < y <-> u < F y).
  Proof.
    intros (F' & CF' & <- & i & c & d & Hc & Hd & Hx & Hlt) Hy.
    assert (Same : forall w, In w z -> F' w = F w).
    { intros w Hw. apply In_nth_error in Hw as (k & Hk). destruct cs_length as [Hcl Ht].
      destruct (nth_error_same z cs k w (eq_sym Hcl) Hk) as (e & He).
      assert (E : F' w * t = e).
      { destruct D as (Hs & Hl & _). destruct CF' as (_ & g & a' & b' & v & Hi & Hp & Ha' & Hb' & Hv & _ & H).
        pose proof (H w (nth_error_In _ _ Hk)) as I1.
        pose proof (cumulative_integral g z nz 0 k a' w e Hs Hl Hi Hp Ha' Hk He) as I2.
        pose proof (trapezoids_integral g z nz a' b' Hs Hl Hi Hp Ha' Hb') as I3.
        assert (E : v = t) by (eapply integral_unique; eassumption). rewrite <- E.
        rewrite <- (integral_unique _ _ _ _ _ I2 I1). ring. }
      pose proof (cdf_node k w e Hk He) as E'. rewrite <- E' in E. apply (Rmult_eq_reg_r t); lra. }
    pose proof (Same c (nth_error_In _ _ Hc)) as Sc. pose proof (Same d (nth_error_In _ _ Hd)) as Sd.
    assert (Ex : F' x = F x).
    { destruct CF' as (Hi & _).
      assert (E : F' x * (d - c) = F' c * (d - x) + F' d * (x - c)).
      { apply (Hi i c d (F' c) (F' d) x Hc Hd); [| |lra]; rewrite nth_error_map'; [rewrite Hc|rewrite Hd]; reflexivity. }
      rewrite Sc, Sd, <- (cdf_segment i c d x Hc Hd ltac:(lra)) in E. apply (Rmult_eq_reg_r (d - c)); lra. }
    rewrite Sc, Sd in Hlt. rewrite Ex. destruct D as (Hs & _).
    pose proof (starts_min z a Hs Ha c (nth_error_In _ _ Hc)) as A1. pose proof (ends_max z b Hs Hb d (nth_error_In _ _ Hd)) as A2.
    split; intro H.
    - destruct (Rle_dec y d) as [L|L].
      + apply (Rmult_lt_reg_r (d - c)); [lra|].
        rewrite (cdf_segment i c d x Hc Hd) by lra. rewrite (cdf_segment i c d y Hc Hd) by lra.
        assert (0 < (F d - F c) * (y - x)) by (apply Rmult_lt_0_compat; lra). lra.
      + apply Rlt_le_trans with (F d); [|apply cdf_monotone; lra].
        apply (Rmult_lt_reg_r (d - c)); [lra|]. rewrite (cdf_segment i c d x Hc Hd) by lra.
        assert (0 < (F d - F c) * (d - x)) by (apply Rmult_lt_0_compat; lra). lra.
    - apply Rnot_le_lt. intro L. pose proof (cdf_monotone y x ltac:(lra) L ltac:(lra)). lra.
  Qed.
End Cdf.

(** C46, C79 *)

(** Expected values over uniform numbers are determined. *)
Theorem uniform_expected_unique n f m m' : umeans n f m -> umeans n f m' -> m = m'.
Proof. apply umeans_unique. Qed.
Print Assumptions uniform_expected_unique.

(** Redshifts drawn from a distribution are independent, each with the given distribution: for independent uniform
    numbers, the probability that every redshift is in its own interval is the product of what the distribution function
    increases by over these intervals.  At grid points the distribution function is the integral of the sampled function,
    see [cumulative_distribution]. *)
Theorem redshift_law z nz F a b cells : distribution z nz -> cumulative_distribution F z nz -> starts_with z a -> ends_with z b ->
  Forall (fun c => a <= fst c /\ fst c <= snd c /\ snd c <= b) cells ->
  umeans (length cells) (fun us => match draw_nz units (length cells) z nz us with Ok (zs, _) => hits cells zs | Err _ => 0 end)
    (fold_right Rmult 1 (map (fun c => F (snd c) - F (fst c)) cells)).
Proof.
  intros D CF Ha Hb Hc.
  set (cs' := map (fun c => c / total (trapezoids (combine z nz))) (cumulative_sum 0 (trapezoids (combine z nz)))).
  set (x := interp_value cs' z None None).
  destruct (inverse_cdf z nz D) as (Ht & Hlast & Hcl & Hne & F0 & HF0 & HI & _). fold cs' in Hcl, HI. fold x in HI.
  assert (Law : forall u y, 0 < u < 1 -> a <= y <= b -> (x u < y <-> u < F y)).
  { intros u y Hu Hy. destruct (HI u ltac:(lra)) as (E & i & c & d & H1 & H2 & H3 & H4).
    apply (drawn_below z nz F a b D CF Ha Hb); [|exact Hy]. exists F0. split; [exact HF0|]. split; [exact E|].
    exists i, c, d. auto. }
  assert (FR : forall y, a <= y <= b -> 0 <= F y <= 1).
  { intros y Hy. destruct (cdf_ends z nz F a b D CF Ha Hb) as [E0 E1].
    rewrite <- E0 at 1. rewrite <- E1. split; apply (cdf_monotone z nz F a b D CF Ha Hb); lra. }
  apply (umeans_ext _ (prod (map (fun c u => hit c (x u)) cells))).
  - intros us Hl _. unfold draw_nz, cumulative_trapezoid. destruct D as (Hs & Hln & _). rewrite <- Hln, Nat.eqb_refl. cbn [bind].
    rewrite Hlast. cbn [bind]. destruct (Req_EM_T _ 0); [lra|]. unfold units at 1. cbn beta iota. fold cs'.
    rewrite (mapM_pure _ x).
    + cbn [bind]. rewrite <- Hl, firstn_all. symmetry. apply hits_map. exact Hl.
    + intros u _. unfold x. apply interp_ok; [exact Hcl|]. intro E. rewrite E in Hcl. destruct z; [contradiction|discriminate].
  - replace (length cells) with (length (map (fun c u => hit c (x u)) cells)) by apply map_length.
    apply umeans_prod. clear - Hc Law FR. induction Hc as [|[l r] cells (H1 & H2 & H3) _ IH]; cbn [map fst snd] in *; constructor; [|exact IH].
    apply unit_hit; [exact H2|apply FR; lra|apply FR; lra| |]; intros u Hu; apply Law; lra.
Qed.
Print Assumptions redshift_law.

(** Two redshifts from a triangular distribution: the chance that the first is in the lower half and the second is less
    than half a unit above the peak. *)
Example redshift_law_example :
  umeans 2 (fun us => match draw_nz units 2 [0; 1; 2] [0; 3; 0] us with Ok (zs, _) => hits [(0, 1); (1, 3 / 2)] zs | Err _ => 0 end) (1 / 8).
Proof.
  set (F := fun x : R => x / 2).
  assert (CF : cumulative_distribution F [0; 1; 2] [0; 3; 0]).
  { assert (D : distribution [0; 1; 2] [0; 3; 0]).
    { split; [|split; [reflexivity|split]].
      - intros [|[|[|[|i]]]] x y Hx Hy; try discriminate; injection Hx as <-; injection Hy as <-; lra.
      - cbn. intros f [<-|[<-|[<-|[]]]]; lra.
      - exists 1%nat, 2%nat, 3. repeat split; try lra; try discriminate; try (left; reflexivity). }
    destruct (inverse_cdf _ _ D) as (_ & _ & _ & _ & F0 & HF0 & _).
    pose proof (cdf_node [0; 1; 2] [0; 3; 0] F0 D HF0) as N. cbn in N.
    pose proof (N 0%nat 0 _ eq_refl eq_refl) as N0. pose proof (N 1%nat 1 _ eq_refl eq_refl) as N1. pose proof (N 2%nat 2 _ eq_refl eq_refl) as N2.
    destruct HF0 as (Hi & g & a & b & v & H1 & H2 & H3 & H4 & H5 & H6 & H7). split.
    - intros [|[|[|[|i]]]] x y fx fy w Hx Hy Hfx Hfy Hw; try discriminate; injection Hx as <-; injection Hy as <-; injection Hfx as <-; injection Hfy as <-; unfold F; lra.
    - exists g, a, b, v. repeat (split; [assumption|]). intros x Hx. replace (F x) with (F0 x); [apply H7, Hx|].
      unfold F. destruct Hx as [<-|[<-|[<-|[]]]]; lra. }
  assert (D : distribution [0; 1; 2] [0; 3; 0]).
  { split; [|split; [reflexivity|split]].
    - intros [|[|[|[|i]]]] x y Hx Hy; try discriminate; injection Hx as <-; injection Hy as <-; lra.
    - cbn. intros f [<-|[<-|[<-|[]]]]; lra.
    - exists 1%nat, 2%nat, 3. repeat split; try lra; try discriminate; try (left; reflexivity). }
  pose proof (redshift_law _ _ F 0 2 [(0, 1); (1, 3 / 2)] D CF eq_refl eq_refl) as L. cbn [fold_right map fst snd length] in L.
  replace (1 / 8) with ((F 1 - F 0) * ((F (3 / 2) - F 1) * 1)) by (unfold F; field).
  apply L. repeat constructor; cbn; lra.
Qed.

(** C37, C79 *)

Lemma degree_pos : 0 < 180 / PI.
Proof. pose proof PI_RGT_0. apply Rdiv_lt_0_compat; lra. Qed.

(** Positions are independent and uniform on the sphere: for [n] positions and independent uniform numbers, the
    probability that every position is in its own range of longitudes and latitudes is the product of the areas of these
    ranges in units of the area of the sphere.  The area is an integral over the cosine of the latitude. *)
Theorem uniform_positions_law ngal lons lats areas : length lats = length lons ->
  Forall (fun c => -180 <= fst c /\ fst c <= snd c /\ snd c <= 180) lons ->
  Forall (fun c => -90 <= fst c /\ fst c <= snd c /\ snd c <= 90) lats ->
  Forall2 (fun '(l, b) area => exists h, is_RInt cos (angle (fst b)) (angle (snd b)) h /\ area = (angle (snd l) - angle (fst l)) * h)
    (combine lons lats) areas ->
  umeans (2 * length lons)
    (fun us => match uniform_positions (fun s _ => ([length lons], s)) ranges {| ashape := []; aget := fun _ => ngal |} us with
       | ([(lon, lat, _)], _) => hits lons lon * hits lats lat | _ => 0 end)
    (fold_right Rmult 1 (map (fun area => area / (4 * PI)) areas)).
Proof.
  intros Hl H1 H2 HA. pose proof PI_RGT_0 as PP. set (n := length lons) in *.
  set (x := fun u : R => -180 + (180 - -180) * u). set (y := fun u : R => degrees (asin (-1 + (1 - -1) * u))).
  set (sb := fun c : R * R => (sin (angle (snd c)) - sin (angle (fst c))) / 2).
  assert (Angle : forall d, -90 <= d <= 90 -> - (PI / 2) <= angle d <= PI / 2).
  { intros d Hd. unfold angle. split; apply (Rmult_le_reg_r (180 / PI)); try (apply Rdiv_lt_0_compat; lra).
    - replace (- (PI / 2) * (180 / PI)) with (-90) by (field; lra). replace (d * PI / 180 * (180 / PI)) with d by (field; lra). lra.
    - replace (PI / 2 * (180 / PI)) with 90 by (field; lra). replace (d * PI / 180 * (180 / PI)) with d by (field; lra). lra. }
  assert (Lat : forall u d, 0 < u < 1 -> -90 <= d <= 90 -> (y u < d <-> u < (1 + sin (angle d)) / 2)).
  { intros u d Hu Hd. pose proof (Angle d Hd) as Ad. set (v := -1 + (1 - -1) * u). assert (Hv : -1 < v < 1) by (unfold v; lra).
    assert (Ey : y u < d <-> asin v < angle d).
    { unfold y, degrees, angle. fold v. pose proof degree_pos as K. replace d with (d * PI / 180 * (180 / PI)) at 1 by (field; lra).
      split; [apply Rmult_lt_reg_r; exact K|intro; apply Rmult_lt_compat_r; assumption]. }
    rewrite Ey. pose proof (asin_bound v) as Bv.
    transitivity (v < sin (angle d)); [|unfold v; split; lra].
    rewrite <- (sin_asin v) at 2 by lra. split; intro H.
    - apply sin_increasing_1; lra.
    - apply sin_increasing_0; lra. }
  assert (Sin : forall d, 0 <= (1 + sin (angle d)) / 2 <= 1) by (intro d; pose proof (SIN_bound (angle d)); lra).
  set (fx := map (fun c u => hit c (x u)) lons). set (fy := map (fun c u => hit c (y u)) lats).
  assert (Lx : length fx = n) by apply map_length. assert (Ly : length fy = n) by (unfold fy; rewrite map_length; exact Hl).
  apply (umeans_ext _ (prod (fx ++ fy))).
  - intros us Hu _. cbn -[firstn skipn hits]. unfold ranges. cbn beta iota.
    rewrite <- (firstn_skipn n us) at 1. assert (L1 : length (firstn n us) = n) by (rewrite firstn_length; lia).
    assert (L2 : length (skipn n us) = n) by (rewrite skipn_length; lia).
    rewrite prod_app by congruence. rewrite (firstn_all2 (skipn n us)) by lia. f_equal.
    + symmetry. apply (hits_map x). exact L1.
    + rewrite map_map. symmetry. apply (hits_map y). congruence.
  - replace (2 * n)%nat with (length (fx ++ fy)) by (rewrite app_length; lia).
    set (px := map (fun c => (snd c - fst c) / 360) lons). set (py := map (fun c => (1 + sin (angle (snd c))) / 2 - (1 + sin (angle (fst c))) / 2) lats).
    assert (E : fold_right Rmult 1 (map (fun area => area / (4 * PI)) areas) = fold_right Rmult 1 (px ++ py)).
    { rewrite fold_right_app. assert (FR : forall l w, fold_right Rmult w l = fold_right Rmult 1 l * w).
      { induction l as [|e l IH]; intro w; cbn [fold_right]; [ring|]. rewrite IH. ring. }
      rewrite (FR px). unfold px, py. clear - Hl HA PP. subst n. revert lats areas Hl HA.
      induction lons as [|l lons IH]; intros [|c lats] areas Hl HA; try discriminate; cbn [combine] in HA.
      - inversion HA; subst. cbn. ring.
      - inversion HA as [|? area ? areas' Hh HA']; subst. cbv beta iota in Hh. destruct Hh as (h & Hh & ->). cbn [map fold_right]. rewrite (IH lats areas') by (injection Hl; auto || assumption).
        assert (Eh : h = sin (angle (snd c)) - sin (angle (fst c))).
        { apply (integral_unique cos (angle (fst c)) (angle (snd c))); [exact Hh|].
          apply (is_RInt_derive (V := R_CompleteNormedModule) sin cos).
          - intros. auto_derive; [exact I|ring].
          - intros w _. apply (ex_derive_continuous (V := R_NormedModule)). auto_derive. exact I. }
        rewrite Eh. unfold angle at 1 2. field. lra. }
    rewrite E. apply umeans_prod. apply Forall2_app.
    + unfold fx, px. clear - H1. induction H1 as [|[l r] lons (A1 & A2 & A3) _ IH]; cbn [map fst snd] in *; constructor; [|exact IH].
      replace ((r - l) / 360) with ((r + 180) / 360 - (l + 180) / 360) by field.
      apply unit_hit; try lra; intros u Hu; unfold x; lra.
    + unfold fy, py. clear - H2 Lat Sin. induction H2 as [|[l r] lats (A1 & A2 & A3) _ IH]; cbn [map fst snd] in *; constructor; [|exact IH].
      apply unit_hit; auto; intros u Hu; apply Lat; lra.
Qed.
Print Assumptions uniform_positions_law.

(** One position on the northern half of one quarter. *)
Example uniform_positions_law_example :
  umeans 2 (fun us => match uniform_positions (fun s _ => ([1%nat], s)) ranges {| ashape := []; aget := fun _ => 5 |} us with
       | ([(lon, lat, _)], _) => hits [(0, 90)] lon * hits [(0, 90)] lat | _ => 0 end) (1 / 8).
Proof.
  pose proof PI_RGT_0 as PP.
  pose proof (uniform_positions_law 5 [(0, 90)] [(0, 90)] [PI / 2] eq_refl) as L. cbn [length map fold_right] in L.
  replace (1 / 8) with (PI / 2 / (4 * PI) * 1) by (field; lra). apply L.
  - repeat constructor; cbn; lra.
  - repeat constructor; cbn; lra.
  - repeat constructor. cbn [fst snd]. exists 1. split.
    + replace (angle 0) with 0 by (unfold angle; field). replace (angle 90) with (PI / 2) by (unfold angle; field).
      replace 1 with (sin (PI / 2) - sin 0) by (rewrite sin_PI2, sin_0; ring).
      apply (is_RInt_derive (V := R_CompleteNormedModule) sin cos).
      * intros. auto_derive; [exact I|ring].
      * intros w _. apply (ex_derive_continuous (V := R_NormedModule)). auto_derive. exact I.
    + unfold angle. field.
Qed.

(** C54, C79 *)

(** The orientations of resampled shapes are random and independent: for independent uniform numbers, every component of
    every shape has the expected value zero; the two components of a shape are uncorrelated, with equal variance, which is
    half of the squared modulus; and components of different shapes are uncorrelated.  The moduli do not depend on the
    random numbers. *)
Theorem resample_isotropic epsilon varg vargamma us0 es rest : (length epsilon <= length us0)%nat ->
  resample_shapes ranges epsilon varg vargamma us0 = Ok (map Some es, rest) ->
  forall i e p, nth_error es i = Some e ->
  let run us := resample_shapes ranges epsilon varg vargamma us in
  umeans (length epsilon) (fun us => component_of p i (run us)) 0 /\
  umeans (length epsilon) (fun us => component_of p i (run us) ^ 2) (Cmod e ^ 2 / 2) /\
  forall j e' p', nth_error es j = Some e' -> i <> j \/ p <> p' ->
    umeans (length epsilon) (fun us => component_of p i (run us) * component_of p' j (run us)) 0.
Proof.
  intros Hu0 E0 i e p He run. set (n := length epsilon) in *. pose proof PI_RGT_0 as PP.
  set (r := map (fun e : C => sqrt (fst e * fst e + snd e * snd e)) epsilon).
  assert (Lr : length r = n) by apply map_length.
  unfold resample_shapes in E0. fold r in E0.
  destruct (resample_factor r varg vargamma) as [fo|] eqn:Ef; [|discriminate]. cbn [bind] in E0. unfold ranges in E0. cbn beta iota in E0.
  injection E0 as E0 _.
  assert (Lc : length es = n).
  { apply (f_equal (@length _)) in E0. rewrite !map_length, combine_length, map_length, firstn_length in E0. lia. }
  destruct fo as [f|].
  2:{ exfalso. destruct es as [|e1 es]; [destruct i; discriminate|]. destruct (combine _ _); discriminate. }
  set (h := fun (b : bool) (u : R) => if b then cos (2 * PI * u) else sin (2 * PI * u)).
  set (w := fun i => nth i r 0 * f).
  assert (Run : forall us k b, length us = n -> (k < n)%nat -> component_of b k (run us) = w k * h b (nth k us 0)).
  { intros us k b Hu Hk. unfold run, resample_shapes. fold r. rewrite Ef. cbn [bind]. unfold ranges. cbn beta iota. cbn [component_of].
    rewrite Lr, <- Hu, firstn_all, nth_error_map'.
    assert (Q : nth_error (combine r (map (fun u => 0 + (2 * PI - 0) * u) us)) k = Some (nth k r 0, 2 * PI * nth k us 0)).
    { clear - Lr Hu Hk. rewrite <- Lr in Hu, Hk. clear Lr. revert k us Hu Hk. induction r as [|a r0 IH]; intros k us Hu Hk; [cbn in Hk; lia|].
      destruct us as [|u us]; [discriminate|]. destruct k as [|k]; cbn [combine map nth_error nth].
      - do 2 f_equal. ring.
      - apply IH; [injection Hu; auto|cbn in Hk; lia]. }
    rewrite Q. cbn [option_map fst snd]. unfold polar_complex, component, h, w. destruct b; cbn [fst snd]; ring. }
  assert (Mod : forall k e, nth_error es k = Some e -> (k < n)%nat /\ w k ^ 2 = Cmod e ^ 2).
  { intros k e1 H. assert (Hk : (k < n)%nat) by (rewrite <- Lc; apply nth_error_Some; congruence). split; [exact Hk|].
    assert (Q : nth_error (map Some es) k = Some (Some e1)) by (rewrite nth_error_map', H; reflexivity).
    rewrite <- E0, nth_error_map' in Q. destruct (nth_error (combine r _) k) as [[a t]|] eqn:Ec; [|discriminate].
    cbn [option_map fst snd] in Q. injection Q as <-.
    assert (Ea : a = nth k r 0).
    { clear - Ec. revert k Ec. generalize (map (fun u => 0 + (2 * PI - 0) * u) (firstn (length r) us0)). induction r as [|b r0 IH]; intros [|c l] [|k] Ec; try discriminate.
      - injection Ec as ->. reflexivity.
      - exact (IH l k Ec). }
    rewrite Ea. fold (w k). unfold Cmod, polar_complex. cbn [fst snd]. rewrite pow2_sqrt.
    - pose proof (sin2_cos2 t) as T. unfold Rsqr in T. nra.
    - pose proof (pow2_ge_0 (w k * cos t)). pose proof (pow2_ge_0 (w k * sin t)). lra. }
  (* integrals of cosine and sine *)
  assert (Int : forall g G (m : R), (forall u, is_derive G u (g u)) -> (forall u, continuous g u) -> G 1 - G 0 = m -> is_RInt g 0 1 m).
  { intros g G m Hd Hc <-. apply (is_RInt_derive (V := R_CompleteNormedModule) G g); intros; auto. }
  assert (C1 : forall b u, continuous (h b) u).
  { intros b u. apply (ex_derive_continuous (V := R_NormedModule)). unfold h. destruct b; auto_derive; exact I. }
  assert (V1 : cos (2 * PI * 1) = 1 /\ sin (2 * PI * 1) = 0 /\ cos (2 * PI * 0) = 1 /\ sin (2 * PI * 0) = 0).
  { rewrite Rmult_1_r, Rmult_0_r, cos_2PI, sin_2PI, cos_0, sin_0. auto. }
  destruct V1 as (V1 & V2 & V3 & V4).
  assert (I1 : forall b, is_RInt (h b) 0 1 0).
  { intros [|].
    - apply (Int _ (fun u => sin (2 * PI * u) / (2 * PI))); [| |rewrite V2, V4; field; lra]; [|apply C1].
      intro u. unfold h. auto_derive; [exact I|field; lra].
    - apply (Int _ (fun u => - cos (2 * PI * u) / (2 * PI))); [| |rewrite V1, V3; field; lra]; [|apply C1].
      intro u. unfold h. auto_derive; [exact I|field; lra]. }
  assert (I2 : forall b, is_RInt (fun u => h b u ^ 2) 0 1 (1 / 2)).
  { intros [|].
    - apply (Int _ (fun u => u / 2 + sin (2 * PI * u) * cos (2 * PI * u) / (4 * PI))); [| |rewrite V1, V2, V3, V4; field; lra].
      + intro u. unfold h. auto_derive; [exact I|]. pose proof (sin2_cos2 (2 * PI * u)) as T. unfold Rsqr in T.
        replace (cos (2 * PI * u) ^ 2) with (1 / 2 + (cos (2 * PI * u) * cos (2 * PI * u) - sin (2 * PI * u) * sin (2 * PI * u)) / 2) by lra.
        field. lra.
      + intro u. apply (ex_derive_continuous (V := R_NormedModule)). unfold h. auto_derive. exact I.
    - apply (Int _ (fun u => u / 2 - sin (2 * PI * u) * cos (2 * PI * u) / (4 * PI))); [| |rewrite V1, V2, V3, V4; field; lra].
      + intro u. unfold h. auto_derive; [exact I|]. pose proof (sin2_cos2 (2 * PI * u)) as T. unfold Rsqr in T.
        replace (sin (2 * PI * u) ^ 2) with (1 / 2 - (cos (2 * PI * u) * cos (2 * PI * u) - sin (2 * PI * u) * sin (2 * PI * u)) / 2) by lra.
        field. lra.
      + intro u. apply (ex_derive_continuous (V := R_NormedModule)). unfold h. auto_derive. exact I. }
  assert (I3 : forall b b', b <> b' -> is_RInt (fun u => h b u * h b' u) 0 1 0).
  { assert (K : is_RInt (fun u => cos (2 * PI * u) * sin (2 * PI * u)) 0 1 0).
    { apply (Int _ (fun u => sin (2 * PI * u) ^ 2 / (4 * PI))); [| |rewrite V2, V4; field; lra].
      - intro u. auto_derive; [exact I|field; lra].
      - intro u. apply (ex_derive_continuous (V := R_NormedModule)). auto_derive. exact I. }
    intros [|] [|] N; try contradiction; [exact K|]. apply (is_RInt_ext (fun u => cos (2 * PI * u) * sin (2 * PI * u))); [|exact K].
    intros; apply Rmult_comm. }
  destruct (Mod i e He) as (Hi & Mi). split; [|split].
  - apply (umeans_ext _ (fun us => w i * h p (nth i us 0))); [intros us Hu _; symmetry; apply Run; auto|].
    pose proof (umeans_scal _ _ _ (w i) (umeans_at n i (h p) 0 Hi (I1 p))) as K. rewrite Rmult_0_r in K. exact K.
  - apply (umeans_ext _ (fun us => w i ^ 2 * (fun u => h p u ^ 2) (nth i us 0))).
    { intros us Hu _. rewrite Run by auto. ring. }
    replace (Cmod e ^ 2 / 2) with (w i ^ 2 * (1 / 2)) by (rewrite Mi; field). apply umeans_scal.
    apply (umeans_at _ i (fun u => h p u ^ 2)); auto.
  - intros j e' p' He' N. destruct (Mod j e' He') as (Hj & _). destruct (Nat.eq_dec i j) as [<-|Nij].
    + apply (umeans_ext _ (fun us => (w i * w i) * (fun u => h p u * h p' u) (nth i us 0))).
      { intros us Hu _. rewrite !Run by auto. ring. }
      assert (Np : p <> p') by (destruct N; [contradiction|assumption]).
      pose proof (umeans_scal _ _ _ (w i * w i) (umeans_at n i (fun u => h p u * h p' u) 0 Hi (I3 p p' Np))) as K.
      rewrite Rmult_0_r in K. exact K.
    + apply (umeans_ext _ (fun us => (w i * w j) * (h p (nth i us 0) * h p' (nth j us 0)))).
      { intros us Hu _. rewrite !Run by auto. ring. }
      pose proof (umeans_scal _ _ _ (w i * w j) (umeans_two n i j (h p) (h p') 0 0 Hi Hj Nij (I1 p) (I1 p'))) as K.
      rewrite !Rmult_0_r in K. exact K.
Qed.
Print Assumptions resample_isotropic.

(** One shape of modulus 1/2. *)
Example resample_isotropic_example :
  umeans 1 (fun us => component_of true 0 (resample_shapes ranges [(3 / 10, 4 / 10)] None None us) ^ 2) (1 / 8).
Proof.
  assert (E : sqrt (3 / 10 * (3 / 10) + 4 / 10 * (4 / 10)) = 1 / 2).
  { replace (3 / 10 * (3 / 10) + 4 / 10 * (4 / 10)) with ((1 / 2) ^ 2) by field. apply sqrt_pow2. lra. }
  destruct (resample_isotropic [(3 / 10, 4 / 10)] None None [0] [(1 / 2, 0)] [] (le_n 1)) with (i := 0%nat) (e := (1 / 2, 0)) (p := true) as (_ & M & _).
  - unfold resample_shapes, ranges, polar_complex. cbn [map length resample_factor bind firstn skipn combine fst snd option_map].
    replace (0 + (2 * PI - 0) * 0) with 0 by ring. rewrite E, cos_0, sin_0. do 3 f_equal. f_equal. f_equal; ring.
  - reflexivity.
  - cbn [length] in M. replace (1 / 8) with (Cmod (1 / 2, 0) ^ 2 / 2); [exact M|].
    unfold Cmod. cbn [fst snd]. rewrite pow2_sqrt; [field|]. nra.
Qed.
