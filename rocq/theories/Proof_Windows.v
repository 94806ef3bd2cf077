(** Radial windows. *)
From Coq Require Import Reals Lra String.
From Flocq Require Import Core.Raux Core.Generic_fmt Core.Round_NE.
From Coquelicot Require Import Coquelicot.
From Verif Require Import Base Model_Numeric Spec_Numeric Proof_Numeric.
From Verif Require Import Model_Windows Spec_Windows.
Local Open Scope R_scope.

Lemma total_sum l : total l = sum_of l.
Proof. induction l; cbn; [reflexivity|]. rewrite IHl; reflexivity. Qed.

Lemma samples_ge q : (2 <= samples q)%nat.
Proof. unfold samples. lia. Qed.

Lemma some_eq {A} (a b : A) : Some a = Some b -> a = b.
Proof. congruence. Qed.

(** ** Uniform grids *)
Lemma linspace_length a b n e : length (linspace a b n e) = n.
Proof. unfold linspace. rewrite map_length, seq_length. reflexivity. Qed.

Lemma linspace_nth a b n e k : (k < n)%nat ->
  nth_error (linspace a b n e) k
  = Some (a + INR k * ((b - a) / INR (if e then (n - 1)%nat else n))).
Proof.
  intros Hk. unfold linspace.
  apply (map_nth_error (fun k => a + INR k * ((b - a) / INR (if e then (n - 1)%nat else n)))).
  rewrite nth_error_seq. destruct (Nat.ltb_spec k n); [reflexivity|lia].
Qed.

Lemma linspace_steps a b n e :
  equal_steps (linspace a b n e) ((b - a) / INR (if e then (n - 1)%nat else n)).
Proof.
  intros i x y Hx Hy.
  assert (Hi : (S i < n)%nat).
  { rewrite <- (linspace_length a b n e). apply nth_error_Some; congruence. }
  rewrite linspace_nth in Hx, Hy by lia. apply some_eq in Hx, Hy. subst x y.
  rewrite S_INR. ring.
Qed.

Lemma linspace_increasing a b n e : a < b -> increasing (linspace a b n e).
Proof.
  intros Hab i x y Hx Hy. pose proof (linspace_steps a b n e i x y Hx Hy) as E.
  assert (Hi : (S i < n)%nat).
  { rewrite <- (linspace_length a b n e). apply nth_error_Some; congruence. }
  assert (0 < (b - a) / INR (if e then (n - 1)%nat else n)); [|lra].
  apply Rdiv_lt_0_compat; [lra|]. apply lt_0_INR. destruct e; lia.
Qed.

Lemma linspace_start a b n e : (0 < n)%nat -> starts_with (linspace a b n e) a.
Proof.
  intros Hn. unfold starts_with. rewrite linspace_nth by lia. f_equal. cbn [INR]. ring.
Qed.

Lemma linspace_end a b n : (2 <= n)%nat -> ends_with (linspace a b n true) b.
Proof.
  intros Hn. unfold ends_with. rewrite linspace_length, linspace_nth by lia. f_equal.
  field. apply not_0_INR. lia.
Qed.

Lemma linspace_spans a b n : a < b -> (2 <= n)%nat -> spans (linspace a b n true) a b.
Proof.
  intros. split; [|split]; [apply linspace_increasing|apply linspace_start|apply linspace_end];
    auto; lia.
Qed.

(** ** Trapezoidal rule on a window *)
Lemma trapezoid_ok y x : length y = length x ->
  trapezoid y x = Ok (total (trapezoids (combine x y))).
Proof. intros E. unfold trapezoid. rewrite E, Nat.eqb_refl. reflexivity. Qed.

Lemma map_mult_combine {A} (f g : A -> R) l :
  map (fun p => fst p * snd p) (combine (map f l) (map g l)) = map (fun x => f x * g x) l.
Proof. induction l as [|a l IH]; cbn; [reflexivity|]. rewrite IH; reflexivity. Qed.

Lemma const_interpolates c xs : interpolates (fun _ => c) xs (map (fun _ => c) xs).
Proof.
  intros i a b fa fb x Ha Hb Hfa Hfb Hx.
  rewrite (map_nth_error _ _ _ Ha) in Hfa. rewrite (map_nth_error _ _ _ Hb) in Hfb.
  injection Hfa as <-; injection Hfb as <-. ring.
Qed.

Lemma affine_integral (g : R -> R) xs a b : (forall x y t, g t * (y - x) = g x * (y - t) + g y * (t - x)) ->
  spans xs a b ->
  total (trapezoids (combine xs (map g xs))) = (g b + g a) * (1 / 2) * (b - a).
Proof.
  intros Hg (Hs & Ha & Hb).
  assert (Hab : a <= b) by (apply (starts_min _ _ Hs Ha); eapply nth_error_In; exact Hb).
  apply (integral_unique g a b).
  - apply trapezoids_integral; auto.
    + rewrite map_length; reflexivity.
    + intros i x y fx fy t Hx Hy Hfx Hfy Ht.
      rewrite (map_nth_error _ _ _ Hx) in Hfx. rewrite (map_nth_error _ _ _ Hy) in Hfy.
      injection Hfx as <-; injection Hfy as <-. apply Hg.
    + apply through_map.
  - apply integral_affine; [exact Hab|]. intros x _. apply Hg.
Qed.

Lemma weighted_total (w : R -> R) a b xs : increasing xs -> (2 <= length xs)%nat ->
  (forall x, In x xs -> a <= x <= b /\ 0 < w x) ->
  a * total (trapezoids (combine xs (map w xs)))
  < total (trapezoids (combine xs (map (fun x => w x * x) xs)))
  < b * total (trapezoids (combine xs (map w xs))) /\
  0 < total (trapezoids (combine xs (map w xs))).
Proof.
  induction xs as [|x0 xs IH]; intros Hs Hn Hx; [cbn in Hn; lia|].
  destruct xs as [|x1 xs]; [cbn in Hn; lia|].
  pose proof (Hs 0%nat x0 x1 eq_refl eq_refl) as H01.
  destruct (Hx x0 (or_introl eq_refl)) as (B0 & P0).
  destruct (Hx x1 (or_intror (or_introl eq_refl))) as (B1 & P1).
  assert (E : forall f, total (trapezoids (combine (x0 :: x1 :: xs) (map f (x0 :: x1 :: xs))))
     = (f x1 + f x0) * (1 / 2) * (x1 - x0) + total (trapezoids (combine (x1 :: xs) (map f (x1 :: xs))))) by reflexivity.
  rewrite !E. clear E. cbv beta.
  assert (S1 : a * ((w x1 + w x0) * (1 / 2) * (x1 - x0)) < (w x1 * x1 + w x0 * x0) * (1 / 2) * (x1 - x0)).
  { replace (a * ((w x1 + w x0) * (1 / 2) * (x1 - x0)))
      with ((w x1 * a + w x0 * a) * (1 / 2) * (x1 - x0)) by ring.
    apply Rmult_lt_compat_r; [lra|]. apply Rmult_lt_compat_r; [lra|].
    assert (w x1 * a < w x1 * x1) by (apply Rmult_lt_compat_l; lra).
    assert (w x0 * a <= w x0 * x0) by (apply Rmult_le_compat_l; lra). lra. }
  assert (S2 : (w x1 * x1 + w x0 * x0) * (1 / 2) * (x1 - x0) < b * ((w x1 + w x0) * (1 / 2) * (x1 - x0))).
  { replace (b * ((w x1 + w x0) * (1 / 2) * (x1 - x0)))
      with ((w x1 * b + w x0 * b) * (1 / 2) * (x1 - x0)) by ring.
    apply Rmult_lt_compat_r; [lra|]. apply Rmult_lt_compat_r; [lra|].
    assert (w x0 * x0 < w x0 * b) by (apply Rmult_lt_compat_l; lra).
    assert (w x1 * x1 <= w x1 * b) by (apply Rmult_le_compat_l; lra). lra. }
  assert (S3 : 0 < (w x1 + w x0) * (1 / 2) * (x1 - x0)) by (apply Rmult_lt_0_compat; lra).
  destruct xs as [|x2 xs].
  - cbn [map combine trapezoids total]. lra.
  - destruct IH as ((I1 & I2) & I3).
    + eapply increasing_tail; exact Hs.
    + cbn; lia.
    + intros x Hin; apply Hx; right; exact Hin.
    + rewrite !Rmult_plus_distr_l. lra.
Qed.

(** ** Tophat windows *)
Lemma nth_error_tl {A} (l : list A) k : nth_error (tl l) k = nth_error l (S k).
Proof. destruct l; [destruct k; reflexivity|reflexivity]. Qed.

Lemma pairwise_nth {A} (l : list A) k a b : nth_error l k = Some a -> nth_error l (S k) = Some b ->
  nth_error (pairwise l) k = Some (a, b).
Proof. intros Ha Hb. unfold pairwise. rewrite nth_error_combine, nth_error_tl, Ha, Hb. reflexivity. Qed.

Lemma pairwise_inv {A} (l : list A) k a b : nth_error (pairwise l) k = Some (a, b) ->
  nth_error l k = Some a /\ nth_error l (S k) = Some b.
Proof.
  unfold pairwise. rewrite nth_error_combine, nth_error_tl.
  destruct (nth_error l k), (nth_error l (S k)); try discriminate.
  intro H; injection H as -> ->; auto.
Qed.

Lemma pairwise_length {A} (l : list A) : length (pairwise l) = (length l - 1)%nat.
Proof. unfold pairwise. rewrite combine_length. destruct l; cbn [tl length]; lia. Qed.

Lemma triples_nth {A} (l : list A) k a b c : nth_error l k = Some a ->
  nth_error l (S k) = Some b -> nth_error l (S (S k)) = Some c ->
  nth_error (triples l) k = Some (a, b, c).
Proof.
  intros Ha Hb Hc. unfold triples.
  rewrite !nth_error_combine, !nth_error_tl, Ha, Hb, Hc. reflexivity.
Qed.

Lemma triples_inv {A} (l : list A) k a b c : nth_error (triples l) k = Some (a, b, c) ->
  nth_error l k = Some a /\ nth_error l (S k) = Some b /\ nth_error l (S (S k)) = Some c.
Proof.
  unfold triples. rewrite !nth_error_combine, !nth_error_tl.
  destruct (nth_error l k), (nth_error l (S k)), (nth_error l (S (S k))); try discriminate.
  intro H; injection H as -> -> ->; auto.
Qed.

Lemma triples_length {A} (l : list A) : length (triples l) = (length l - 2)%nat.
Proof. unfold triples. rewrite !combine_length. destruct l as [|? [|? l]]; cbn [tl length]; lia. Qed.

Lemma tophat_window_ok dz weight zmin zmax : exists w,
  tophat_window dz weight zmin zmax = Ok w /\
  za w = linspace zmin zmax (samples ((zmax - zmin) / dz)) true /\
  wa w = apply_weight weight (za w) /\
  zeff w = total (trapezoids (combine (za w)
             (map (fun p => fst p * snd p) (combine (wa w) (za w)))))
           / total (trapezoids (combine (za w) (wa w))).
Proof.
  unfold tophat_window.
  set (z := linspace zmin zmax (samples ((zmax - zmin) / dz)) true).
  set (w := apply_weight weight z).
  assert (Hl : length w = length z).
  { unfold w, apply_weight. destruct weight; apply map_length. }
  rewrite trapezoid_ok by (rewrite map_length, combine_length, Hl, Nat.min_id; reflexivity).
  rewrite trapezoid_ok by exact Hl. cbn [bind].
  eexists. split; [reflexivity|]. cbn [za wa zeff]. auto.
Qed.

Lemma tophat_spans dz zmin zmax : zmin < zmax ->
  spans (linspace zmin zmax (samples ((zmax - zmin) / dz)) true) zmin zmax.
Proof. intros. apply linspace_spans; [assumption|apply samples_ge]. Qed.

Lemma tophat_window_plain dz zmin zmax : zmin < zmax -> exists w,
  tophat_window dz None zmin zmax = Ok w /\ spans (za w) zmin zmax /\
  wa w = map (fun _ => 1) (za w) /\ zeff w = (zmin + zmax) / 2.
Proof.
  intros Hz. destruct (tophat_window_ok dz None zmin zmax) as (w & Hw & Hza & Hwa & Hze).
  exists w. split; [exact Hw|].
  pose proof (tophat_spans dz zmin zmax Hz) as Hs. rewrite <- Hza in Hs.
  split; [exact Hs|]. split; [exact Hwa|]. cbn [apply_weight] in Hwa.
  rewrite Hze, Hwa.
  replace (map (fun p => fst p * snd p) (combine (map (fun _ => 1) (za w)) (za w)))
    with (map (fun x : R => x) (za w)).
  2:{ rewrite <- (map_id (za w)) at 3. rewrite map_mult_combine.
      apply map_ext. intros; ring. }
  rewrite (affine_integral (fun x => x) (za w) zmin zmax) by (auto; intros; ring).
  rewrite (affine_integral (fun _ => 1) (za w) zmin zmax) by (auto; intros; ring).
  field. lra.
Qed.

Lemma tophat_window_weighted dz f zmin zmax : zmin < zmax ->
  (forall x, zmin <= x <= zmax -> 0 < f x) -> exists w,
  tophat_window dz (Some f) zmin zmax = Ok w /\ spans (za w) zmin zmax /\
  wa w = map f (za w) /\ zmin < zeff w < zmax.
Proof.
  intros Hz Hf. destruct (tophat_window_ok dz (Some f) zmin zmax) as (w & Hw & Hza & Hwa & Hze).
  exists w. split; [exact Hw|].
  pose proof (tophat_spans dz zmin zmax Hz) as Hs. rewrite <- Hza in Hs.
  split; [exact Hs|]. split; [exact Hwa|]. cbn [apply_weight] in Hwa.
  rewrite Hze, Hwa.
  replace (map (fun p => fst p * snd p) (combine (map f (za w)) (za w)))
    with (map (fun x : R => f x * x) (za w)).
  2:{ rewrite <- (map_id (za w)) at 3. rewrite map_mult_combine. reflexivity. }
  destruct Hs as (Hi & Ha & Hb).
  destruct (weighted_total f zmin zmax (za w)) as ((I1 & I2) & I3); auto.
  - rewrite Hza, linspace_length. apply samples_ge.
  - intros x Hx. pose proof (starts_min _ _ Hi Ha x Hx). pose proof (ends_max _ _ Hi Hb x Hx).
    split; [lra|]. apply Hf; lra.
  - split.
    + apply Rmult_lt_reg_r with (total (trapezoids (combine (za w) (map f (za w))))); [exact I3|].
      unfold Rdiv. rewrite Rmult_assoc, Rinv_l by lra. lra.
    + apply Rmult_lt_reg_r with (total (trapezoids (combine (za w) (map f (za w))))); [exact I3|].
      unfold Rdiv. rewrite Rmult_assoc, Rinv_l by lra. lra.
Qed.

(** ** Windows on three nodes *)
Definition weight_at (weight : option (R -> R)) (x : R) : R :=
  match weight with Some f => f x | None => 1 end.

Lemma apply_weight_map weight z : apply_weight weight z = map (weight_at weight) z.
Proof. destruct weight; reflexivity. Qed.

Section Node.
  Variables (shape : R -> R) (dz : R) (weight : option (R -> R)) (a b c : R).
  Hypotheses (Hab : a < b) (Hbc : b < c).
  Let n := (samples ((b - a) / dz) - 1)%nat.
  Let m := samples ((c - b) / dz).
  Let W := node_window shape dz weight a b c.

  Lemma node_n : (1 <= n)%nat.
  Proof. unfold n. pose proof (samples_ge ((b - a) / dz)). lia. Qed.
  Lemma node_m : (2 <= m)%nat.
  Proof. apply samples_ge. Qed.
  Lemma node_n0 : INR n <> 0.
  Proof. apply not_0_INR. pose proof node_n. lia. Qed.
  Lemma node_m0 : INR (m - 1) <> 0.
  Proof. apply not_0_INR. pose proof node_m. lia. Qed.

  Lemma node_za : za W = linspace a b n false ++ linspace b c m true.
  Proof. reflexivity. Qed.

  Lemma node_za_length : length (za W) = (n + m)%nat.
  Proof. rewrite node_za, app_length, !linspace_length. reflexivity. Qed.

  Lemma node_za_up k : (k <= n)%nat ->
    nth_error (za W) k = Some (a + INR k * ((b - a) / INR n)).
  Proof.
    intros Hk. rewrite node_za. destruct (Nat.eq_dec k n) as [->|Hne].
    - rewrite nth_error_app2 by (rewrite linspace_length; lia).
      rewrite linspace_length, Nat.sub_diag, linspace_nth by (pose proof node_m; lia).
      f_equal. pose proof node_n0. cbn [INR]. field.
      split; (exact node_m0 || assumption).
    - rewrite nth_error_app1 by (rewrite linspace_length; lia).
      rewrite linspace_nth by lia. reflexivity.
  Qed.

  Lemma node_za_down k : (k < m)%nat ->
    nth_error (za W) (n + k) = Some (b + INR k * ((c - b) / INR (m - 1))).
  Proof.
    intros Hk. rewrite node_za.
    rewrite nth_error_app2 by (rewrite linspace_length; lia).
    rewrite linspace_length. replace (n + k - n)%nat with k by lia.
    rewrite linspace_nth by lia. reflexivity.
  Qed.

  Lemma node_wa : wa W = map (fun p => fst p * snd p)
    (combine (map shape (linspace 0 1 n false ++ linspace 1 0 m true))
             (map (weight_at weight) (za W))).
  Proof. unfold W. cbn [wa node_window]. rewrite apply_weight_map. reflexivity. Qed.

  Lemma node_wa_nth k u z : nth_error (linspace 0 1 n false ++ linspace 1 0 m true) k = Some u ->
    nth_error (za W) k = Some z -> nth_error (wa W) k = Some (shape u * weight_at weight z).
  Proof.
    intros Hu Hz. rewrite node_wa.
    rewrite (map_nth_error _ _ _ (d := (shape u, weight_at weight z))); [reflexivity|].
    rewrite nth_error_combine, (map_nth_error shape _ _ Hu), (map_nth_error _ _ _ Hz). reflexivity.
  Qed.

  Lemma node_wa_up k : (k <= n)%nat ->
    nth_error (wa W) k
    = Some (shape (INR k / INR n) * weight_at weight (a + INR k * ((b - a) / INR n))).
  Proof.
    intros Hk. apply node_wa_nth; [|apply node_za_up; exact Hk].
    destruct (Nat.eq_dec k n) as [->|Hne].
    - rewrite nth_error_app2 by (rewrite linspace_length; lia).
      rewrite linspace_length, Nat.sub_diag, linspace_nth by (pose proof node_m; lia).
      f_equal. pose proof node_n0. cbn [INR]. field.
      split; (exact node_m0 || assumption).
    - rewrite nth_error_app1 by (rewrite linspace_length; lia).
      rewrite linspace_nth by lia. f_equal. field. exact node_n0.
  Qed.

  Lemma node_wa_down k : (k < m)%nat ->
    nth_error (wa W) (n + k)
    = Some (shape (1 - INR k / INR (m - 1))
            * weight_at weight (b + INR k * ((c - b) / INR (m - 1)))).
  Proof.
    intros Hk. apply node_wa_nth; [|apply node_za_down; exact Hk].
    rewrite nth_error_app2 by (rewrite linspace_length; lia).
    rewrite linspace_length. replace (n + k - n)%nat with k by lia.
    rewrite linspace_nth by lia. f_equal. field. exact node_m0.
  Qed.

  Lemma node_wa_length : length (wa W) = length (za W).
  Proof.
    rewrite node_wa, map_length, combine_length, !map_length, app_length, !linspace_length,
      node_za_length. lia.
  Qed.

  Lemma node_increasing : increasing (za W).
  Proof.
    intros i x y Hx Hy.
    assert (Hi : (S i < n + m)%nat).
    { rewrite <- node_za_length. apply nth_error_Some; congruence. }
    destruct (Nat.le_gt_cases (S i) n) as [L|L].
    - rewrite node_za_up in Hx, Hy by lia. apply some_eq in Hx, Hy. subst x y.
      rewrite S_INR. assert (0 < (b - a) / INR n); [|lra].
      apply Rdiv_lt_0_compat; [lra|]. apply lt_0_INR. pose proof node_n. lia.
    - replace i with (n + (i - n))%nat in Hx by lia.
      replace (S i) with (n + S (i - n))%nat in Hy by lia.
      rewrite node_za_down in Hx, Hy by lia. apply some_eq in Hx, Hy. subst x y.
      rewrite S_INR. assert (0 < (c - b) / INR (m - 1)); [|lra].
      apply Rdiv_lt_0_compat; [lra|]. apply lt_0_INR. pose proof node_m. lia.
  Qed.

  Lemma node_starts : starts_with (za W) a.
  Proof. unfold starts_with. rewrite node_za_up by lia. f_equal. cbn [INR]. ring. Qed.

  Lemma node_ends : ends_with (za W) c.
  Proof.
    unfold ends_with. rewrite node_za_length. pose proof node_m.
    replace (n + m - 1)%nat with (n + (m - 1))%nat by lia.
    rewrite node_za_down by lia. f_equal. field. exact node_m0.
  Qed.

  Lemma node_starts_w : shape 0 = 0 -> starts_with (wa W) 0.
  Proof.
    intros H0. unfold starts_with. rewrite node_wa_up by lia. f_equal. cbn [INR].
    replace (0 / INR n) with 0 by (field; exact node_n0). rewrite H0. ring.
  Qed.

  Lemma node_ends_w : shape 0 = 0 -> ends_with (wa W) 0.
  Proof.
    intros H0. unfold ends_with. rewrite node_wa_length, node_za_length. pose proof node_m.
    replace (n + m - 1)%nat with (n + (m - 1))%nat by lia.
    rewrite node_wa_down by lia. f_equal.
    replace (1 - INR (m - 1) / INR (m - 1)) with 0 by (field; exact node_m0). rewrite H0. ring.
  Qed.

  (** The function that [combine] and [partition] evaluate for a window. *)
  Definition window_value (w : window) (x : R) : R :=
    interp_value (za w) (wa w) (Some 0) (Some 0) x.

  Lemma node_interp x : interp x (za W) (wa W) (Some 0) (Some 0) = Ok (window_value W x).
  Proof.
    apply interp_ok; [symmetry; apply node_wa_length|].
    intros E. pose proof node_za_length as H. rewrite E in H. cbn in H.
    pose proof node_n. lia.
  Qed.

  Lemma node_outside x : shape 0 = 0 -> x <= a \/ c <= x -> window_value W x = 0.
  Proof.
    intros H0 Hx. unfold window_value.
    pose proof (eq_sym node_wa_length) as Hl. pose proof node_increasing as Hi.
    destruct Hx as [Hx|Hx].
    - destruct (Req_dec x a) as [->|Hne].
      + apply (value_through (za W) (wa W) (Some 0) (Some 0) Hi Hl 0%nat);
          [apply node_starts|apply node_starts_w; exact H0].
      + apply (value_left (za W) (wa W) (Some 0) (Some 0) x a 0 Hl);
          [apply node_starts|apply node_starts_w; exact H0|lra].
    - destruct (Req_dec x c) as [->|Hne].
      + apply (value_last (za W) (wa W) (Some 0) (Some 0)); auto using increasing_nondecreasing, node_ends.
        apply node_ends_w; exact H0.
      + apply (value_right (za W) (wa W) (Some 0) (Some 0) x c 0); auto using increasing_nondecreasing, node_ends.
        * apply node_ends_w; exact H0.
        * lra.
  Qed.

  Lemma node_mid : shape 1 = 1 -> window_value W b = weight_at weight b.
  Proof.
    intros H1. unfold window_value.
    apply (value_through (za W) (wa W) (Some 0) (Some 0) node_increasing
             (eq_sym node_wa_length) n).
    - rewrite node_za_up by lia. f_equal. field. exact node_n0.
    - rewrite node_wa_up by lia. f_equal.
      replace (INR n / INR n) with 1 by (field; exact node_n0). rewrite H1.
      replace (a + INR n * ((b - a) / INR n)) with b by (field; exact node_n0). ring.
  Qed.

  Lemma node_value_up k x : (k < n)%nat ->
    let h := (b - a) / INR n in
    a + INR k * h <= x <= a + INR (S k) * h ->
    window_value W x * h
    = shape (INR k / INR n) * weight_at weight (a + INR k * h) * (a + INR (S k) * h - x)
      + shape (INR (S k) / INR n) * weight_at weight (a + INR (S k) * h) * (x - (a + INR k * h)).
  Proof.
    intros Hk h Hx. unfold h in *.
    pose proof (value_interpolates (za W) (wa W) (Some 0) (Some 0) node_increasing
      (eq_sym node_wa_length) k _ _ _ _ x (node_za_up k ltac:(lia)) (node_za_up (S k) ltac:(lia))
      (node_wa_up k ltac:(lia)) (node_wa_up (S k) ltac:(lia)) Hx) as E.
    unfold window_value. rewrite <- E. rewrite S_INR. ring.
  Qed.

  Lemma node_value_down k x : (S k < m)%nat ->
    let h := (c - b) / INR (m - 1) in
    b + INR k * h <= x <= b + INR (S k) * h ->
    window_value W x * h
    = shape (1 - INR k / INR (m - 1)) * weight_at weight (b + INR k * h) * (b + INR (S k) * h - x)
      + shape (1 - INR (S k) / INR (m - 1)) * weight_at weight (b + INR (S k) * h)
        * (x - (b + INR k * h)).
  Proof.
    intros Hk h Hx. unfold h in *.
    pose proof (node_za_down (S k) ltac:(lia)) as Z1. pose proof (node_wa_down (S k) ltac:(lia)) as W1.
    rewrite Nat.add_succ_r in Z1, W1.
    pose proof (value_interpolates (za W) (wa W) (Some 0) (Some 0) node_increasing
      (eq_sym node_wa_length) (n + k)%nat _ _ _ _ x (node_za_down k ltac:(lia)) Z1
      (node_wa_down k ltac:(lia)) W1 Hx) as E.
    unfold window_value. rewrite <- E. rewrite S_INR. ring.
  Qed.

  Lemma node_nonneg x : shape 0 = 0 -> (forall u, 0 <= u <= 1 -> 0 <= shape u) ->
    (forall z, a <= z <= c -> 0 <= weight_at weight z) -> 0 <= window_value W x.
  Proof.
    intros H0 Hsh Hw.
    destruct (Rle_dec x a) as [L|L]; [rewrite node_outside by auto; lra|].
    destruct (Rle_dec c x) as [L'|L']; [rewrite node_outside by auto; lra|].
    destruct (locate (za W) a c x node_increasing node_starts node_ends ltac:(lra))
      as (i & p & q & Hp & Hq & Hpq).
    assert (Hwa : forall k v, nth_error (wa W) k = Some v -> 0 <= v).
    { intros k v Hv.
      assert (Hk : (k < n + m)%nat).
      { rewrite <- node_za_length, <- node_wa_length. apply nth_error_Some; congruence. }
      assert (exists z, nth_error (za W) k = Some z) as (z & Hz).
      { destruct (nth_error (za W) k) eqn:E; [eauto|].
        apply nth_error_None in E. rewrite node_za_length in E. lia. }
      assert (Hz' : a <= z <= c).
      { split; [apply (starts_min _ _ node_increasing node_starts)
               |apply (ends_max _ _ node_increasing node_ends)]; eapply nth_error_In; exact Hz. }
      destruct (Nat.le_gt_cases k n) as [L1|L1].
      - rewrite node_wa_up in Hv by lia. rewrite node_za_up in Hz by lia.
        apply some_eq in Hv, Hz. subst v. rewrite Hz.
        apply Rmult_le_pos; [|apply Hw; exact Hz']. apply Hsh.
        assert (0 < INR n) by (apply lt_0_INR; pose proof node_n; lia).
        split; [apply Rdiv_le_0_compat; [apply pos_INR|assumption]|].
        apply Rmult_le_reg_r with (INR n); [assumption|].
        unfold Rdiv. rewrite Rmult_assoc, Rinv_l, Rmult_1_r, Rmult_1_l by lra. apply le_INR; lia.
      - replace k with (n + (k - n))%nat in Hv, Hz by lia.
        rewrite node_wa_down in Hv by lia. rewrite node_za_down in Hz by lia.
        apply some_eq in Hv, Hz. subst v. rewrite Hz.
        apply Rmult_le_pos; [|apply Hw; exact Hz']. apply Hsh.
        assert (0 < INR (m - 1)) by (apply lt_0_INR; pose proof node_m; lia).
        assert (0 <= INR (k - n) / INR (m - 1) <= 1); [|lra].
        split; [apply Rdiv_le_0_compat; [apply pos_INR|assumption]|].
        apply Rmult_le_reg_r with (INR (m - 1)); [assumption|].
        unfold Rdiv. rewrite Rmult_assoc, Rinv_l, Rmult_1_r, Rmult_1_l by lra. apply le_INR; lia. }
    destruct (nth_error_same _ _ _ _ (eq_sym node_wa_length) Hp) as (fp & Hfp).
    destruct (nth_error_same _ _ _ _ (eq_sym node_wa_length) Hq) as (fq & Hfq).
    pose proof (value_interpolates (za W) (wa W) (Some 0) (Some 0) node_increasing
      (eq_sym node_wa_length) i _ _ _ _ x Hp Hq Hfp Hfq ltac:(lra)) as E.
    pose proof (Hwa _ _ Hfp). pose proof (Hwa _ _ Hfq).
    apply Rmult_le_reg_r with (q - p); [lra|]. unfold window_value. rewrite E, Rmult_0_l.
    assert (0 <= fp * (q - x)) by (apply Rmult_le_pos; lra).
    assert (0 <= fq * (x - p)) by (apply Rmult_le_pos; lra). lra.
  Qed.
End Node.

(** ** Two adjacent windows *)
Lemma grid_locate p q M x : p < q -> (0 < M)%nat -> p <= x <= q ->
  exists k, (k < M)%nat /\
    p + INR k * ((q - p) / INR M) <= x <= p + INR (S k) * ((q - p) / INR M).
Proof.
  intros Hpq HM Hx.
  assert (HM0 : 0 < INR M) by (apply lt_0_INR; lia).
  destruct (Req_dec x q) as [->|Hne].
  - exists (M - 1)%nat. split; [lia|]. replace (S (M - 1)) with M by lia.
    rewrite minus_INR by lia. cbn [INR].
    replace (p + (INR M - 1) * ((q - p) / INR M)) with (q - (q - p) / INR M) by (field; lra).
    replace (p + INR M * ((q - p) / INR M)) with q by (field; lra).
    assert (0 < (q - p) / INR M) by (apply Rdiv_lt_0_compat; lra). lra.
  - assert (Hs : spans (linspace p q (M + 1) true) p q) by (apply linspace_spans; [lra|lia]).
    destruct Hs as (Hi & Ha & Hb).
    destruct (locate _ p q x Hi Ha Hb ltac:(lra)) as (k & c & d & Hc & Hd & Hcd).
    assert (Hk : (S k < M + 1)%nat).
    { rewrite <- (linspace_length p q (M + 1) true). apply nth_error_Some; congruence. }
    rewrite linspace_nth in Hc, Hd by lia. replace (M + 1 - 1)%nat with M in * by lia.
    apply some_eq in Hc, Hd. exists k. split; [lia|]. rewrite Hc, Hd. lra.
Qed.

(** The sum of two neighbouring windows interpolates the weight. *)
Lemma adjacent_sum shape dz weight a b c d x :
  (forall u, shape u + shape (1 - u) = 1) -> a < b -> b < c -> c < d -> b <= x <= c ->
  exists p q, b <= p /\ p <= x <= q /\ q <= c /\ p < q /\
    (exists k, nth_error (za (node_window shape dz weight b c d)) k = Some p /\
               nth_error (za (node_window shape dz weight b c d)) (S k) = Some q) /\
    (window_value (node_window shape dz weight a b c) x
     + window_value (node_window shape dz weight b c d) x) * (q - p)
    = weight_at weight p * (q - x) + weight_at weight q * (x - p).
Proof.
  intros Hsh Hab Hbc Hcd Hx.
  set (M := (samples ((c - b) / dz) - 1)%nat).
  assert (HM : (0 < M)%nat) by (unfold M; pose proof (samples_ge ((c - b) / dz)); lia).
  assert (HM0 : 0 < INR M) by (apply lt_0_INR; lia).
  destruct (grid_locate b c M x Hbc HM Hx) as (k & Hk & Hxk).
  set (h := (c - b) / INR M) in *.
  assert (Hh : 0 < h) by (apply Rdiv_lt_0_compat; lra).
  exists (b + INR k * h), (b + INR (S k) * h).
  assert (0 <= INR k * h) by (apply Rmult_le_pos; [apply pos_INR|lra]).
  assert (INR (S k) * h <= c - b).
  { replace (c - b) with (INR M * h) by (unfold h; field; lra).
    apply Rmult_le_compat_r; [lra|]. apply le_INR; lia. }
  assert (Hstep : b + INR (S k) * h - (b + INR k * h) = h) by (rewrite S_INR; ring).
  split; [lra|]. split; [exact Hxk|]. split; [lra|]. split; [lra|]. split.
  - exists k. split; apply (node_za_up shape dz weight b c d); fold M; lia.
  - rewrite Hstep, Rmult_plus_distr_r.
    pose proof (node_value_down shape dz weight a b c Hab Hbc k x ltac:(unfold M in *; lia)) as Ed.
    pose proof (node_value_up shape dz weight b c d Hbc Hcd k x ltac:(fold M; lia)) as Eu.
    cbv zeta in Ed, Eu. fold M in Ed, Eu. fold h in Ed, Eu.
    rewrite (Ed Hxk), (Eu Hxk).
    pose proof (Hsh (INR k / INR M)) as S1. pose proof (Hsh (INR (S k) / INR M)) as S2.
    replace (weight_at weight (b + INR k * h) * (b + INR (S k) * h - x))
      with ((shape (INR k / INR M) + shape (1 - INR k / INR M))
            * (weight_at weight (b + INR k * h) * (b + INR (S k) * h - x)))
      by (rewrite S1; ring).
    replace (weight_at weight (b + INR (S k) * h) * (x - (b + INR k * h)))
      with ((shape (INR (S k) / INR M) + shape (1 - INR (S k) / INR M))
            * (weight_at weight (b + INR (S k) * h) * (x - (b + INR k * h))))
      by (rewrite S2; ring).
    ring.
Qed.

(** ** The whole family of windows *)
Definition family (shape : R -> R) (dz : R) (weight : option (R -> R)) (zgrid : list R) : list window :=
  map (fun t => let '(zmin, zmid, zmax) := t in
         node_window shape dz weight zmin zmid zmax) (triples zgrid).

Lemma family_before shape dz weight zgrid x : shape 0 = 0 -> increasing zgrid ->
  (forall z, In z zgrid -> x <= z) ->
  total (map (fun w => window_value w x) (family shape dz weight zgrid)) = 0.
Proof.
  intros H0. induction zgrid as [|a zgrid IH]; intros Hs Hx; [reflexivity|].
  destruct zgrid as [|b zgrid]; [reflexivity|]. destruct zgrid as [|c zgrid]; [reflexivity|].
  change (family shape dz weight (a :: b :: c :: zgrid))
    with (node_window shape dz weight a b c :: family shape dz weight (b :: c :: zgrid)).
  cbn [map total]. rewrite IH; [|eapply increasing_tail; exact Hs|intros z Hz; apply Hx; right; exact Hz].
  rewrite node_outside; auto.
  - ring.
  - apply (Hs 0%nat); reflexivity.
  - apply (Hs 1%nat); reflexivity.
  - left. apply Hx; left; reflexivity.
Qed.

Lemma family_sum shape dz weight zgrid lo hi x :
  shape 0 = 0 -> shape 1 = 1 -> (forall u, shape u + shape (1 - u) = 1) ->
  increasing zgrid -> (3 <= length zgrid)%nat ->
  nth_error zgrid 1 = Some lo -> nth_error zgrid (length zgrid - 2) = Some hi ->
  lo <= x <= hi ->
  exists p q, p <= x <= q /\
    total (map (fun w => window_value w x) (family shape dz weight zgrid)) * (q - p)
    = weight_at weight p * (q - x) + weight_at weight q * (x - p) /\
    (p < q \/ p = q /\
      total (map (fun w => window_value w x) (family shape dz weight zgrid)) = weight_at weight x).
Proof.
  intros H0 H1 Hsh. revert lo.
  induction zgrid as [|a zgrid IH]; intros lo Hs Hn Hlo Hhi Hx; [cbn in Hn; lia|].
  destruct zgrid as [|b zgrid]; [cbn in Hn; lia|]. destruct zgrid as [|c zgrid]; [cbn in Hn; lia|].
  injection Hlo as <-.
  pose proof (Hs 0%nat a b eq_refl eq_refl) as Hab. pose proof (Hs 1%nat b c eq_refl eq_refl) as Hbc.
  change (family shape dz weight (a :: b :: c :: zgrid))
    with (node_window shape dz weight a b c :: family shape dz weight (b :: c :: zgrid)).
  cbn [map total].
  destruct zgrid as [|d zgrid].
  - cbn in Hhi. injection Hhi as <-. assert (x = b) by lra; subst x.
    exists b, b. split; [lra|]. split; [ring|]. right. split; [reflexivity|].
    cbn. rewrite node_mid by assumption. ring.
  - pose proof (Hs 2%nat c d eq_refl eq_refl) as Hcd.
    destruct (Rle_dec c x) as [L|L].
    + rewrite node_outside by auto. rewrite Rplus_0_l.
      destruct (IH c) as (p & q & Hpq & E & Hd).
      * eapply increasing_tail; exact Hs.
      * cbn; lia.
      * reflexivity.
      * replace (length (a :: b :: c :: d :: zgrid) - 2)%nat
          with (S (length (b :: c :: d :: zgrid) - 2)) in Hhi by (cbn [length]; lia).
        exact Hhi.
      * lra.
      * exists p, q. auto.
    + change (family shape dz weight (b :: c :: d :: zgrid))
        with (node_window shape dz weight b c d :: family shape dz weight (c :: d :: zgrid)).
      cbn [map total]. rewrite (family_before shape dz weight (c :: d :: zgrid)); auto.
      * destruct (adjacent_sum shape dz weight a b c d x Hsh Hab Hbc Hcd ltac:(lra))
          as (p & q & Hp & Hpq & Hq & Hlt & _ & E).
        exists p, q. split; [exact Hpq|]. split; [rewrite <- E; ring|left; exact Hlt].
      * eapply increasing_tail; eapply increasing_tail; exact Hs.
      * intros z [<-|Hz]; [lra|].
        pose proof (increasing_first c (d :: zgrid)
          (increasing_tail _ _ (increasing_tail _ _ Hs)) z Hz). lra.
Qed.

(** ** Restriction *)
Lemma starts_of_min l a : increasing l -> In a l -> (forall x, In x l -> a <= x) -> starts_with l a.
Proof.
  intros Hs Ha Hmin. destruct l as [|b l]; [contradiction|].
  destruct Ha as [->|Ha]; [reflexivity|].
  pose proof (increasing_first _ _ Hs a Ha). pose proof (Hmin b (or_introl eq_refl)). lra.
Qed.

Lemma ends_of_max l a : increasing l -> In a l -> (forall x, In x l -> x <= a) -> ends_with l a.
Proof.
  intros Hs Ha Hmax. destruct l as [|b l]; [contradiction|].
  pose proof (ends_last b l) as E. unfold ends_with in E.
  pose proof (Hmax _ (nth_error_In _ _ E)) as H1.
  pose proof (ends_max _ _ Hs (ends_last b l) a Ha) as H2.
  assert (last l b = a) by lra. subst a. apply ends_last.
Qed.

Lemma first_of_ok l a : starts_with l a -> first_of l = Ok a.
Proof. intros H. apply starts_inv in H as (l' & ->). reflexivity. Qed.
Lemma last_of_ok l a : ends_with l a -> last_of l = Ok a.
Proof.
  intros H. destruct l as [|b l]; [discriminate|].
  pose proof (ends_fun _ _ _ H (ends_last b l)) as ->. reflexivity.
Qed.

Definition restrict_grid (z : list R) (w : window) (lo hi : R) : list R :=
  union1d (za w) (filter (fun v => ltb lo v && ltb v hi) z).

Lemma restrict_grid_In z w lo hi x :
  In x (restrict_grid z w lo hi) <-> In x (za w) \/ (In x z /\ lo < x < hi).
Proof.
  unfold restrict_grid. rewrite union1d_In, filter_In, andb_true_iff, !ltb_iff. intuition auto.
Qed.

Lemma restrict_grid_spans z w lo hi : spans (za w) lo hi -> spans (restrict_grid z w lo hi) lo hi.
Proof.
  intros (Hi & Ha & Hb).
  assert (Hin : forall x, In x (restrict_grid z w lo hi) -> lo <= x <= hi).
  { intros x Hx. apply restrict_grid_In in Hx as [Hx|(_ & Hx)]; [|lra].
    split; [apply (starts_min _ _ Hi Ha)|apply (ends_max _ _ Hi Hb)]; exact Hx. }
  assert (Hinc : increasing (restrict_grid z w lo hi)) by apply union1d_increasing.
  split; [exact Hinc|]. split.
  - apply starts_of_min; auto; [|intros x Hx; apply Hin; exact Hx].
    apply restrict_grid_In. left. apply nth_error_In with 0%nat; exact Ha.
  - apply ends_of_max; auto; [|intros x Hx; apply Hin; exact Hx].
    apply restrict_grid_In. left. eapply nth_error_In; exact Hb.
Qed.

Lemma restrict_ok z f w lo hi : length z = length f -> z <> [] ->
  length (za w) = length (wa w) -> spans (za w) lo hi ->
  restrict z f w = Ok (restrict_grid z w lo hi,
    map (fun x => interp_value z f (Some 0) (Some 0) x * interp_value (za w) (wa w) None None x)
        (restrict_grid z w lo hi)).
Proof.
  intros Hl Hne Hw (Hi & Ha & Hb). unfold restrict.
  rewrite (first_of_ok _ _ Ha), (last_of_ok _ _ Hb). cbn [bind].
  fold (restrict_grid z w lo hi).
  rewrite (mapM_pure _ (interp_value z f (Some 0) (Some 0)))
    by (intros; apply interp_ok; assumption).
  cbn [bind].
  rewrite (mapM_pure _ (interp_value (za w) (wa w) None None)).
  - cbn [bind]. rewrite map_mult_combine. reflexivity.
  - intros x _. apply interp_ok; [exact Hw|]. intros E. rewrite E in Ha. discriminate.
Qed.

Lemma const_value xs c l r x : xs <> [] -> increasing xs -> (forall v, l = Some v -> v = c) ->
  (forall v, r = Some v -> v = c) ->
  interp_value xs (map (fun _ => c) xs) l r x = c.
Proof.
  intros Hne Hs Hl Hr.
  assert (Hlen : length xs = length (map (fun _ : R => c) xs)) by (rewrite map_length; reflexivity).
  assert (Hfs : forall k v, nth_error (map (fun _ : R => c) xs) k = Some v -> v = c).
  { intros k v H. apply nth_error_In, in_map_iff in H as (y & <- & _). reflexivity. }
  destruct xs as [|x0 xs]; [contradiction|].
  destruct (Rlt_dec x x0) as [L|L].
  - rewrite (value_left _ _ l r x x0 c Hlen eq_refl eq_refl L). destruct l; auto.
  - pose proof (ends_last x0 xs) as E.
    destruct (nth_error_same _ _ _ _ Hlen E) as (fl & Hfl). rewrite (Hfs _ _ Hfl) in Hfl.
    destruct (Rlt_dec (last xs x0) x) as [L'|L'].
    + rewrite (value_right _ _ l r x (last xs x0) c); auto using increasing_nondecreasing.
      * destruct r; auto.
      * unfold ends_with. rewrite <- Hlen. exact Hfl.
    + destruct (Req_dec x (last xs x0)) as [->|Hn].
      * apply (value_through _ _ l r Hs Hlen _ _ _ E Hfl).
      * destruct (locate _ x0 (last xs x0) x Hs eq_refl E ltac:(lra)) as (i & p & q & Hp & Hq & Hpq).
        destruct (nth_error_same _ _ _ _ Hlen Hp) as (fp & Hfp).
        destruct (nth_error_same _ _ _ _ Hlen Hq) as (fq & Hfq).
        pose proof (value_interpolates _ _ l r Hs Hlen _ _ _ _ _ x Hp Hq Hfp Hfq ltac:(lra)) as V.
        rewrite (Hfs _ _ Hfp), (Hfs _ _ Hfq) in V.
        apply Rmult_eq_reg_r with (q - p); [|lra]. rewrite V. ring.
Qed.

(** A function that is zero outside its samples is piecewise linear on
    the samples together with a point on a side where it starts from
    zero. *)
Lemma extended z f z0 zn f0 fn A B : increasing z -> length z = length f ->
  starts_with z z0 -> ends_with z zn -> starts_with f f0 -> ends_with f fn ->
  (z0 <= A \/ f0 = 0) -> (B <= zn \/ fn = 0) ->
  exists xs fs a b, increasing xs /\ length xs = length fs /\
    interpolates (interp_value z f (Some 0) (Some 0)) xs fs /\
    starts_with xs a /\ ends_with xs b /\ a <= A /\ B <= b /\
    (forall x, In x xs -> A <= x <= B -> In x z).
Proof.
  intros Hs Hl Hz0 Hzn Hf0 Hfn HA HB.
  set (F := interp_value z f (Some 0) (Some 0)).
  assert (HF : interpolates F z f) by (apply value_interpolates; assumption).
  assert (HP : passes_through F z f) by (apply value_through; assumption).
  assert (Hz0n : z0 <= zn) by (apply (starts_min _ _ Hs Hz0); eapply nth_error_In; exact Hzn).
  (* the right end *)
  assert (R1 : exists xs fs b, increasing xs /\ length xs = length fs /\ interpolates F xs fs /\
     starts_with xs z0 /\ starts_with fs f0 /\ ends_with xs b /\ B <= b /\
     (forall x, In x xs -> A <= x <= B -> In x z)).
  { destruct HB as [HB|HB].
    - exists z, f, zn. repeat split; auto.
    - set (U := Rmax B zn + 1).
      assert (HU : zn < U /\ B < U) by (unfold U; pose proof (Rmax_l B zn); pose proof (Rmax_r B zn); lra).
      exists (z ++ [U]), (f ++ [0]), U.
      assert (Hzl : (0 < length z)%nat) by (destruct z; [discriminate|cbn; lia]).
      assert (Hi : increasing (z ++ [U])).
      { intros i x y Hx Hy. destruct (Nat.lt_ge_cases (S i) (length z)) as [L|L].
        - rewrite nth_error_app1 in Hx, Hy by lia. eapply Hs; eassumption.
        - assert (i < length z)%nat.
          { assert (S i < length (z ++ [U]))%nat by (apply nth_error_Some; congruence).
            rewrite app_length in H. cbn in H. lia. }
          rewrite nth_error_app1 in Hx by lia. rewrite nth_error_app2 in Hy by lia.
          replace (S i - length z)%nat with 0%nat in Hy by lia. injection Hy as <-.
          pose proof (ends_max _ _ Hs Hzn x (nth_error_In _ _ Hx)). lra. }
      repeat split; auto.
      + rewrite !app_length. cbn. lia.
      + intros i x y fx fy t Hx Hy Hfx Hfy Ht. destruct (Nat.lt_ge_cases (S i) (length z)) as [L|L].
        * rewrite nth_error_app1 in Hx, Hy, Hfx, Hfy by lia. eapply HF; eassumption.
        * assert (Hi' : (i < length z)%nat).
          { assert (S i < length (z ++ [U]))%nat by (apply nth_error_Some; congruence).
            rewrite app_length in H. cbn in H. lia. }
          rewrite nth_error_app1 in Hx, Hfx by lia. rewrite nth_error_app2 in Hy, Hfy by lia.
          replace (S i - length z)%nat with 0%nat in Hy by lia.
          replace (S i - length f)%nat with 0%nat in Hfy by lia.
          injection Hy as <-. injection Hfy as <-.
          assert (i = length z - 1)%nat by lia. subst i.
          assert (x = zn) by (unfold ends_with in Hzn; congruence). subst x.
          assert (fx = 0) by (unfold ends_with in Hfn; rewrite <- Hl in Hfn; congruence). subst fx.
          assert (Ft : F t = 0).
          { destruct (Req_dec t zn) as [->|Hne].
            - apply (HP (length z - 1)%nat); auto.
            - unfold F. rewrite (value_right z f (Some 0) (Some 0) t zn fn); auto using increasing_nondecreasing. lra. }
          rewrite Ft. ring.
      + unfold starts_with in *. rewrite nth_error_app1 by lia. exact Hz0.
      + unfold starts_with in *. rewrite nth_error_app1 by lia. exact Hf0.
      + unfold ends_with. rewrite app_length. cbn [length].
        replace (length z + 1 - 1)%nat with (length z) by lia.
        rewrite nth_error_app2 by lia. rewrite Nat.sub_diag. reflexivity.
      + lra.
      + intros x Hx HxB. apply in_app_iff in Hx as [Hx|[<-|[]]]; [exact Hx|]. lra. }
  destruct R1 as (xs & fs & b & Hi & Hlen & HI & Hst & Hsf & He & HBb & Hsub).
  destruct HA as [HA|HA].
  - exists xs, fs, z0, b. repeat split; auto.
  - set (L := Rmin A z0 - 1).
    assert (HL : L < z0 /\ L < A) by (unfold L; pose proof (Rmin_l A z0); pose proof (Rmin_r A z0); lra).
    exists (L :: xs), (0 :: fs), L, b. repeat split; auto.
    + apply increasing_cons; auto. intros x Hx. pose proof (starts_min _ _ Hi Hst x Hx). lra.
    + cbn; congruence.
    + intros [|i] x y fx fy t Hx Hy Hfx Hfy Ht; [|eapply (HI i); eassumption].
      change (nth_error xs 0 = Some y) in Hy. change (nth_error fs 0 = Some fy) in Hfy.
      injection Hx as <-. injection Hfx as <-.
      assert (y = z0) by (unfold starts_with in Hst; congruence). subst y.
      assert (fy = 0) by (unfold starts_with in Hsf; congruence). subst fy.
      assert (Ft : F t = 0).
      { destruct (Req_dec t z0) as [->|Hne].
        - apply (HP 0%nat); [exact Hz0|]. rewrite <- HA. exact Hf0.
        - unfold F. rewrite (value_left z f (Some 0) (Some 0) t z0 f0); auto. lra. }
      rewrite Ft. ring.
    + unfold ends_with in *. cbn [length]. destruct xs as [|x1 xs]; [discriminate|].
      cbn [length] in *. replace (S (S (length xs)) - 1)%nat with (S (S (length xs) - 1)) by lia.
      exact He.
    + lra.
    + intros x [<-|Hx] HxA; [lra|]. apply Hsub; assumption.
Qed.

Lemma value_nonneg z f x : increasing z -> length z = length f -> z <> [] ->
  (forall v, In v f -> 0 <= v) -> 0 <= interp_value z f (Some 0) (Some 0) x.
Proof.
  intros Hs Hl Hne Hf.
  destruct z as [|z0 z]; [contradiction|]. destruct f as [|f0 f]; [discriminate|].
  destruct (Rlt_dec x z0) as [L|L].
  - rewrite (value_left _ _ (Some 0) (Some 0) x z0 f0 Hl eq_refl eq_refl L). lra.
  - pose proof (ends_last z0 z) as E.
    destruct (nth_error_same _ _ _ _ Hl E) as (fl & Hfl).
    destruct (Rlt_dec (last z z0) x) as [L'|L'].
    + rewrite (value_right _ _ (Some 0) (Some 0) x (last z z0) fl); auto using increasing_nondecreasing.
      * lra.
      * unfold ends_with. rewrite <- Hl. exact Hfl.
    + destruct (Req_dec x (last z z0)) as [->|Hn].
      * rewrite (value_through _ _ (Some 0) (Some 0) Hs Hl _ _ _ E Hfl).
        apply Hf. eapply nth_error_In; exact Hfl.
      * destruct (locate _ z0 (last z z0) x Hs eq_refl E ltac:(lra)) as (i & p & q & Hp & Hq & Hpq).
        destruct (nth_error_same _ _ _ _ Hl Hp) as (fp & Hfp).
        destruct (nth_error_same _ _ _ _ Hl Hq) as (fq & Hfq).
        pose proof (value_interpolates _ _ (Some 0) (Some 0) Hs Hl _ _ _ _ _ x Hp Hq Hfp Hfq ltac:(lra)) as V.
        pose proof (Hf _ (nth_error_In _ _ Hfp)). pose proof (Hf _ (nth_error_In _ _ Hfq)).
        apply Rmult_le_reg_r with (q - p); [lra|]. rewrite V, Rmult_0_l.
        assert (0 <= fp * (q - x)) by (apply Rmult_le_pos; lra).
        assert (0 <= fq * (x - p)) by (apply Rmult_le_pos; lra). lra.
Qed.

(** ** Partition *)
Lemma total_nonneg l : (forall x, In x l -> 0 <= x) -> 0 <= total l.
Proof.
  induction l as [|a l IH]; intros H; cbn [total]; [lra|].
  pose proof (H a (or_introl eq_refl)). assert (0 <= total l) by (apply IH; intros; apply H; right; assumption).
  lra.
Qed.

Lemma partition_tile z f w e e' A B z0 zn f0 fn : increasing z -> length z = length f ->
  starts_with z z0 -> ends_with z zn -> starts_with f f0 -> ends_with f fn ->
  (z0 <= A \/ f0 = 0) -> (B <= zn \/ fn = 0) -> A <= e -> e' <= B ->
  spans (za w) e e' -> wa w = map (fun _ => 1) (za w) ->
  exists v, (do r <- restrict z f w; trapezoid (snd r) (fst r)) = Ok v /\
    is_RInt (interp_value z f (Some 0) (Some 0)) e e' v /\
    ((forall y, In y f -> 0 <= y) -> 0 <= v).
Proof.
  intros Hs Hl Hz0 Hzn Hf0 Hfn HA HB HAe HBe Hsp Hw.
  set (F := interp_value z f (Some 0) (Some 0)).
  assert (Hne : z <> []) by (intros ->; discriminate).
  assert (Hlen : length (za w) = length (wa w)) by (rewrite Hw, map_length; reflexivity).
  rewrite (restrict_ok z f w e e') by assumption. cbn [bind fst snd].
  assert (Em : map (fun x => F x * interp_value (za w) (wa w) None None x) (restrict_grid z w e e')
               = map F (restrict_grid z w e e')).
  { apply map_ext_in. intros x _. rewrite Hw, const_value.
    - ring.
    - destruct Hsp as (_ & Ha & _). intros E. rewrite E in Ha. discriminate.
    - apply Hsp.
    - discriminate.
    - discriminate. }
  fold F. rewrite Em. rewrite trapezoid_ok by apply map_length.
  eexists. split; [reflexivity|].
  pose proof (restrict_grid_spans z w e e' Hsp) as (Gi & Ga & Gb). split.
  - destruct (extended z f z0 zn f0 fn A B Hs Hl Hz0 Hzn Hf0 Hfn HA HB)
      as (xs & fs & a & b & Hi & Hlx & HI & Ha & Hb & HaA & HBb & Hsub).
    apply (refined_integral F xs fs _ a b e e'); auto; try lra.
    intros x Hx Hxe. apply restrict_grid_In.
    pose proof (Hsub x Hx ltac:(lra)) as Hz.
    destruct (Req_dec x e) as [->|N1].
    + left. destruct Hsp as (_ & Hst & _). apply nth_error_In with 0%nat. exact Hst.
    + destruct (Req_dec x e') as [->|N2].
      * left. destruct Hsp as (_ & _ & Hen). eapply nth_error_In. exact Hen.
      * right. split; [exact Hz|lra].
  - intros Hpos. apply total_nonneg. apply trapezoids_nonneg.
    + apply increasing_nondecreasing; exact Gi.
    + rewrite map_length; reflexivity.
    + intros y Hy. apply in_map_iff in Hy as (x & <- & _). apply value_nonneg; assumption.
Qed.

Lemma tiles_le es ws : tiles es ws -> forall e0 en, starts_with es e0 -> ends_with es en -> e0 <= en.
Proof.
  induction 1 as [e|e e' es w ws Hlt Hsp Hw Ht IH]; intros e0 en Hs He.
  - unfold starts_with, ends_with in *; cbn in *. injection Hs as <-; injection He as <-. lra.
  - injection Hs as <-. specialize (IH e' en eq_refl). apply Rle_trans with e'; [lra|]. apply IH.
    unfold ends_with in *. cbn [length] in *.
    replace (S (S (length es)) - 1)%nat with (S (S (length es) - 1)) in He by lia. exact He.
Qed.

Lemma partition_tiles z f es ws A B z0 zn f0 fn e0 en : increasing z -> length z = length f ->
  starts_with z z0 -> ends_with z zn -> starts_with f f0 -> ends_with f fn ->
  (z0 <= A \/ f0 = 0) -> (B <= zn \/ fn = 0) ->
  tiles es ws -> starts_with es e0 -> ends_with es en -> A <= e0 -> en <= B ->
  exists vs, partition_restrict z f ws = Ok vs /\
    is_RInt (interp_value z f (Some 0) (Some 0)) e0 en (sum_of vs) /\
    Forall2 (fun p v => is_RInt (interp_value z f (Some 0) (Some 0)) (fst p) (snd p) v)
            (pairwise es) vs /\
    ((forall y, In y f -> 0 <= y) -> forall v, In v vs -> 0 <= v).
Proof.
  intros Hs Hl Hz0 Hzn Hf0 Hfn HA HB Ht. revert e0.
  induction Ht as [e|e e' es w ws Hlt Hsp Hw Ht IH]; intros e0 Hst Hen HAe HBe.
  - exists []. injection Hst as <-. injection Hen as <-. repeat split.
    + cbn. apply (is_RInt_point (V := R_NormedModule)).
    + constructor.
    + intros _ v [].
  - injection Hst as <-.
    assert (Hen' : ends_with (e' :: es) en).
    { unfold ends_with in *. cbn [length] in *.
      replace (S (S (length es)) - 1)%nat with (S (S (length es) - 1)) in Hen by lia. exact Hen. }
    pose proof (tiles_le _ _ Ht e' en eq_refl Hen') as Hle.
    destruct (IH e' eq_refl Hen' ltac:(lra) HBe) as (vs & Hvs & Hint & Hf2 & Hpos).
    destruct (partition_tile z f w e e' A B z0 zn f0 fn) as (v & Hv & Hiv & Hpv); auto; [lra|].
    exists (v :: vs). repeat split.
    + unfold partition_restrict in *. cbn [mapM]. rewrite Hv, Hvs. reflexivity.
    + exact (is_RInt_Chasles (V := R_NormedModule) _ e e' en v (sum_of vs) Hiv Hint).
    + cbn. constructor; assumption.
    + intros H y [<-|Hy]; [auto|]. apply Hpos; assumption.
Qed.

Lemma tophat_tiles dz zbins ws : increasing zbins -> zbins <> [] ->
  mapM (fun p => tophat_window dz None (fst p) (snd p)) (pairwise zbins) = Ok ws ->
  tiles zbins ws.
Proof.
  revert ws. induction zbins as [|a zbins IH]; intros ws Hs Hne H; [contradiction|].
  destruct zbins as [|b zbins].
  - cbn in H. injection H as <-. constructor.
  - change (pairwise (a :: b :: zbins)) with ((a, b) :: pairwise (b :: zbins)) in H.
    cbn [mapM fst snd] in H.
    pose proof (Hs 0%nat a b eq_refl eq_refl) as Hab.
    destruct (tophat_window_plain dz a b Hab) as (w & Hw & Hsp & Hwa & _).
    rewrite Hw in H. cbn [bind] in H.
    apply bind_ok in H as (ws' & Hws & H). injection H as <-.
    constructor; auto. apply IH; auto; [eapply increasing_tail; exact Hs|discriminate].
Qed.

(** ** Combination *)
Lemma trapezoids_scale xs ws t :
  total (trapezoids (combine xs (map (fun y => y / t) ws)))
  = total (trapezoids (combine xs ws)) / t.
Proof.
  revert ws. induction xs as [|x0 xs IH]; intros ws; [cbn; unfold Rdiv; ring|].
  destruct ws as [|w0 ws]; [cbn; unfold Rdiv; ring|].
  destruct xs as [|x1 xs]; [destruct ws; cbn; unfold Rdiv; ring|].
  destruct ws as [|w1 ws]; [cbn; unfold Rdiv; ring|].
  specialize (IH (w1 :: ws)). cbn [map combine trapezoids total] in *. rewrite IH.
  unfold Rdiv. ring.
Qed.

Lemma integral_const (c a b : R) : is_RInt (fun _ => c) a b ((b - a) * c).
Proof. apply (is_RInt_const (V := R_NormedModule)). Qed.

Lemma integral_zero (a b : R) : is_RInt (fun _ => 0) a b 0.
Proof.
  pose proof (integral_const 0 a b) as H. replace ((b - a) * 0) with 0 in H by ring. exact H.
Qed.

Lemma window_integral za ws lo hi A B : spans za lo hi -> length za = length ws ->
  A <= lo -> hi <= B ->
  is_RInt (interp_value za ws (Some 0) (Some 0)) A B (total (trapezoids (combine za ws))).
Proof.
  intros (Hs & Ha & Hb) Hl HA HB.
  set (F := interp_value za ws (Some 0) (Some 0)).
  assert (Hlohi : lo <= hi) by (apply (starts_min _ _ Hs Ha); eapply nth_error_In; exact Hb).
  destruct (nth_error_same _ _ _ _ Hl Ha) as (f0 & Hf0).
  destruct (nth_error_same _ _ _ _ Hl Hb) as (fn & Hfn).
  assert (I1 : is_RInt F A lo 0).
  { apply (is_RInt_ext (V := R_NormedModule) (fun _ => 0)).
    - intros x Hx. rewrite Rmin_left, Rmax_right in Hx by lra.
      unfold F. rewrite (value_left za ws (Some 0) (Some 0) x lo f0); auto. lra.
    - apply integral_zero. }
  assert (I2 : is_RInt F lo hi (total (trapezoids (combine za ws)))).
  { apply trapezoids_integral; auto; [apply value_interpolates|apply value_through]; assumption. }
  assert (I3 : is_RInt F hi B 0).
  { apply (is_RInt_ext (V := R_NormedModule) (fun _ => 0)).
    - intros x Hx. rewrite Rmin_left, Rmax_right in Hx by lra.
      unfold F. rewrite (value_right za ws (Some 0) (Some 0) x hi fn); auto using increasing_nondecreasing.
      + unfold ends_with. rewrite <- Hl. exact Hfn.
      + lra.
    - apply integral_zero. }
  pose proof (is_RInt_Chasles (V := R_NormedModule) _ _ _ _ _ _ I1
                (is_RInt_Chasles (V := R_NormedModule) _ _ _ _ _ _ I2 I3)) as I.
  unfold plus in I; cbn in I. rewrite Rplus_0_l, Rplus_0_r in I. exact I.
Qed.

Lemma combine_integral A B shells : forall weights, length weights = length shells ->
  (forall w, In w shells -> exists lo hi t, spans (za w) lo hi /\ A <= lo /\ hi <= B /\
     length (za w) = length (wa w) /\ trapezoid (wa w) (za w) = Ok t /\ t <> 0) ->
  exists h, (forall x, combine_windows x weights shells = Ok (h x)) /\
    is_RInt h A B (sum_of weights).
Proof.
  induction shells as [|w shells IH]; intros weights Hlen H.
  - destruct weights; [|discriminate]. exists (fun _ => 0). split; [reflexivity|].
    cbn. apply integral_zero.
  - destruct weights as [|x0 weights]; [discriminate|].
    destruct (IH weights) as (h & Hh & Ih); [cbn in Hlen; lia|intros; apply H; right; assumption|].
    destruct (H w (or_introl eq_refl)) as (lo & hi & t & Hsp & HA & HB & Hl & Ht & Ht0).
    assert (Hne : za w <> []).
    { destruct Hsp as (_ & Ha & _). intros E. rewrite E in Ha. discriminate. }
    set (V := interp_value (za w) (map (fun y => y / t) (wa w)) (Some 0) (Some 0)).
    exists (fun x => x0 * V x + h x). split.
    + intros x. specialize (Hh x). unfold combine_windows in *. cbn [combine mapM].
      rewrite Ht. cbn [bind].
      rewrite interp_ok by (rewrite ?map_length; assumption). cbn [bind]. fold V.
      apply bind_ok in Hh as (vs & Hvs & Hh). rewrite Hvs. cbn [bind]. injection Hh as Hh.
      cbn [total]. rewrite Hh. reflexivity.
    + assert (Iv : is_RInt V A B 1).
      { replace 1 with (total (trapezoids (combine (za w) (map (fun y => y / t) (wa w))))).
        - apply (window_integral _ _ lo hi); auto. rewrite map_length. exact Hl.
        - rewrite trapezoids_scale. rewrite trapezoid_ok in Ht by auto. injection Ht as ->.
          field. exact Ht0. }
      pose proof (is_RInt_plus (V := R_NormedModule) _ _ _ _ _ _
        (is_RInt_scal (V := R_NormedModule) _ _ _ x0 _ Iv) Ih) as I.
      unfold plus, scal in I; cbn in I. unfold mult in I; cbn in I. rewrite Rmult_1_r in I.
      exact I.
Qed.
