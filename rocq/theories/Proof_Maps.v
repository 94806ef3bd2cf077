(** Lemmas about simulated maps. *)
From Coq Require Import Reals Lra Lia List Arith.
From Verif Require Import RSum Spec_Spectra Spec_Iternorm Spec_Grf Spec_Gauss Spec_Maps.
Import ListNotations.
Local Open Scope R_scope.

Lemma legendre_one l x : x = 1 -> legendre_pair l x = (1, 1).
Proof.
  intros ->. induction l as [|l IH]; [reflexivity|]. cbn [legendre_pair]. rewrite IH. f_equal.
  pose proof (pos_INR l). field. lra.
Qed.

(** Sums over pairs [m <= l]. *)
Fixpoint tri (n : nat) : nat := match n with O => O | S n => (tri n + S n)%nat end.
Lemma tri_triangle n : triangle n (tri n).
Proof. unfold triangle. induction n as [|n IH]; [reflexivity|]. cbn [tri]. lia. Qed.
Lemma tri_unique n t : triangle n t -> t = tri n.
Proof. intro H. pose proof (tri_triangle n). unfold triangle in *. lia. Qed.
Lemma rsum_tri n f : rsum (tri n) f = rsum n (fun l => rsum (S l) (fun m => f (tri l + m)%nat)).
Proof.
  induction n as [|n IH]; [reflexivity|]. cbn [tri]. rewrite rsum_split, IH. reflexivity.
Qed.
Lemma tri_glass l m : (m <= l)%nat -> in_glass_alm_order (tri l + m) l m.
Proof. intro H. split; [exact H|]. pose proof (tri_triangle l). unfold triangle in *. lia. Qed.
Lemma healpix_index n l m : (m <= l < n)%nat -> exists h, in_healpix_alm_order n h l m.
Proof.
  intro H. unfold in_healpix_alm_order.
  assert (E : exists k, (m * (2 * n - 1 - m) = 2 * k)%nat).
  { destruct (Nat.Even_or_Odd m) as [(k & ->)|(k & ->)].
    - exists (k * (2 * n - 1 - 2 * k))%nat. lia.
    - replace (2 * n - 1 - (2 * k + 1))%nat with (2 * (n - 1 - k))%nat by lia. exists ((2 * k + 1) * (n - 1 - k))%nat. lia. }
  destruct E as (k & E). exists (k + l)%nat. split; [exact H|]. lia.
Qed.

(** The pair that an index belongs to. *)
Fixpoint pair_of (g : nat) : nat * nat :=
  match g with
  | O => (0, 0)%nat
  | S g => let '(l, m) := pair_of g in if (m =? l)%nat then (S l, 0%nat) else (l, S m)
  end.
Lemma pair_of_tri l : forall m, (m <= l)%nat -> pair_of (tri l + m) = (l, m).
Proof.
  induction l as [|l IHl].
  - intros m H. replace m with 0%nat by lia. reflexivity.
  - induction m as [|m IHm]; intro H.
    + cbn [tri]. replace (tri l + S l + 0)%nat with (S (tri l + l)) by lia. cbn [pair_of]. rewrite IHl by lia.
      rewrite Nat.eqb_refl. reflexivity.
    + replace (tri (S l) + S m)%nat with (S (tri (S l) + m)) by lia. cbn [pair_of]. rewrite IHm by lia.
      destruct (Nat.eqb_spec m (S l)); [lia|reflexivity].
Qed.

(** Sums over all random numbers: over fields, numbers of a field, and the two parts of a number. *)
Lemma rsum_pairs n f : rsum (2 * n) f = rsum n (fun g => f (2 * g)%nat + f (2 * g + 1)%nat).
Proof.
  induction n as [|n IH]; [reflexivity|]. replace (2 * S n)%nat with (S (S (2 * n))) by lia. cbn [rsum]. rewrite IH.
  replace (S (2 * n)) with (2 * n + 1)%nat by lia. ring.
Qed.
Lemma rsum_blocks k t f : rsum (k * t) f = rsum k (fun q => rsum t (fun g => f (q * t + g)%nat)).
Proof.
  induction k as [|k IH]; [reflexivity|]. replace (S k * t)%nat with (k * t + t)%nat by lia. rewrite rsum_split, IH. reflexivity.
Qed.

(** Factor of random number [x] in the value of one pixel, if the field has the coefficients [coef l q]. *)
Definition weight (n : nat) (Y : nat -> nat -> nat -> R * R) (coef : nat -> nat -> R) (p x : nat) : R :=
  let t := tri n in
  let q := (x / 2 / t)%nat in
  let '(l, m) := pair_of ((x / 2) mod t) in
  coef l q * (if (m =? 0)%nat then fst (Y l m p)
              else if (x mod 2 =? 0)%nat then 2 * fst (Y l m p) else - (2 * snd (Y l m p))).

Lemma weight_even n Y coef p q l m : (m <= l < n)%nat ->
  weight n Y coef p (2 * (q * tri n + (tri l + m))) = coef l q * (if (m =? 0)%nat then fst (Y l m p) else 2 * fst (Y l m p)).
Proof.
  intro H. unfold weight.
  assert (B : (tri l + m < tri n)%nat).
  { pose proof (tri_triangle n). pose proof (tri_triangle l). unfold triangle in *. nia. }
  set (g := (tri l + m)%nat) in *. set (t := tri n) in *.
  replace (2 * (q * t + g) / 2)%nat with (q * t + g)%nat by (rewrite (Nat.mul_comm 2), Nat.div_mul; lia).
  replace ((q * t + g) mod t)%nat with g by (rewrite Nat.add_comm, Nat.mod_add, Nat.mod_small; lia).
  replace ((q * t + g) / t)%nat with q by (rewrite Nat.add_comm, Nat.div_add, Nat.div_small; lia).
  unfold g at 1. rewrite pair_of_tri by lia.
  replace ((2 * (q * t + g)) mod 2)%nat with 0%nat by (rewrite Nat.mul_comm, Nat.mod_mul; lia). reflexivity.
Qed.
Lemma weight_odd n Y coef p q l m : (m <= l < n)%nat ->
  weight n Y coef p (2 * (q * tri n + (tri l + m)) + 1) = coef l q * (if (m =? 0)%nat then fst (Y l m p) else - (2 * snd (Y l m p))).
Proof.
  intro H. unfold weight.
  assert (B : (tri l + m < tri n)%nat).
  { pose proof (tri_triangle n). pose proof (tri_triangle l). unfold triangle in *. nia. }
  set (g := (tri l + m)%nat) in *. set (t := tri n) in *.
  replace ((2 * (q * t + g) + 1) / 2)%nat with (q * t + g)%nat
    by (rewrite (Nat.add_comm (2 * (q * t + g)) 1), (Nat.mul_comm 2), Nat.div_add by lia; reflexivity).
  replace ((q * t + g) mod t)%nat with g by (rewrite Nat.add_comm, Nat.mod_add, Nat.mod_small; lia).
  replace ((q * t + g) / t)%nat with q by (rewrite Nat.add_comm, Nat.div_add, Nat.div_small; lia).
  unfold g at 1. rewrite pair_of_tri by lia.
  replace ((2 * (q * t + g) + 1) mod 2)%nat with 1%nat by (rewrite (Nat.add_comm (2 * (q * t + g)) 1), (Nat.mul_comm 2), Nat.mod_add by lia; reflexivity). reflexivity.
Qed.

Lemma variates_re t u i g : (g < t)%nat -> re (variates t u i) g = nth (2 * (i * t + g)) u 0.
Proof.
  intro H. unfold re, variates.
  set (f := fun g => _). rewrite (nth_indep (map f (seq 0 t)) _ (f 0%nat)) by (rewrite map_length, seq_length; exact H).
  rewrite (map_nth f), seq_nth by exact H. reflexivity.
Qed.
Lemma variates_im t u i g : (g < t)%nat -> im (variates t u i) g = nth (2 * (i * t + g) + 1) u 0.
Proof.
  intro H. unfold im, variates.
  set (f := fun g => _). rewrite (nth_indep (map f (seq 0 t)) _ (f 0%nat)) by (rewrite map_length, seq_length; exact H).
  rewrite (map_nth f), seq_nth by exact H. reflexivity.
Qed.
Lemma variates_length t u i : length (variates t u i) = t.
Proof. unfold variates. rewrite map_length, seq_length. reflexivity. Qed.

(** A sum over all random numbers, in terms of fields and modes. *)
Lemma rsum_numbers K n f : rsum (2 * (K * tri n)) f =
  rsum n (fun l => rsum (S l) (fun m => rsum K (fun q =>
    f (2 * (q * tri n + (tri l + m)))%nat + f (2 * (q * tri n + (tri l + m)) + 1)%nat))).
Proof.
  rewrite rsum_pairs, rsum_blocks.
  rewrite (rsum_ext K _ (fun q => rsum n (fun l => rsum (S l) (fun m =>
    f (2 * (q * tri n + (tri l + m)))%nat + f (2 * (q * tri n + (tri l + m)) + 1)%nat)))) by (intros q _; apply rsum_tri).
  rewrite rsum_swap. apply rsum_ext. intros l _. apply rsum_swap.
Qed.

(** The value of a pixel is the combination of all random numbers with these factors. *)
Lemma pixel_combination K n Y coef p u :
  synthesis n Y (fun l m => mixed K (coef l) (variates (tri n) u) (tri l + m) m) p =
  combination (2 * (K * tri n)) (weight n Y coef p) u.
Proof.
  unfold synthesis, combination. rewrite rsum_numbers. apply rsum_ext. intros l Hl. apply rsum_ext. intros m Hm.
  assert (B : (tri l + m < tri n)%nat).
  { pose proof (tri_triangle n). pose proof (tri_triangle l). unfold triangle in *. nia. }
  assert (E1 : rsum K (fun q => coef l q * re (variates (tri n) u q) (tri l + m)) =
    rsum K (fun q => coef l q * nth (2 * (q * tri n + (tri l + m))) u 0))
    by (apply rsum_ext; intros q _; rewrite variates_re by exact B; reflexivity).
  assert (E2 : rsum K (fun q => coef l q * im (variates (tri n) u q) (tri l + m)) =
    rsum K (fun q => coef l q * nth (2 * (q * tri n + (tri l + m)) + 1) u 0))
    by (apply rsum_ext; intros q _; rewrite variates_im by exact B; reflexivity).
  unfold mixed. rewrite E1, E2.
  symmetry. transitivity (rsum K (fun q =>
    (if (m =? 0)%nat then fst (Y l m p) else 2 * fst (Y l m p)) * (coef l q * nth (2 * (q * tri n + (tri l + m))) u 0) +
    (if (m =? 0)%nat then fst (Y l m p) else - (2 * snd (Y l m p))) * (coef l q * nth (2 * (q * tri n + (tri l + m)) + 1) u 0))).
  - apply rsum_ext. intros q _. rewrite weight_even, weight_odd by lia. ring.
  - rewrite rsum_plus, !rsum_scal. destruct (m =? 0)%nat; cbn [fst snd]; ring.
Qed.

(** The covariance of two pixels. *)
Lemma pixel_covariance K n Y coef coef' (c : nat -> R) p p' :
  (forall l, (l < n)%nat -> covariance K (coef l) (coef' l) = c l / 2) ->
  covariance (2 * (K * tri n)) (weight n Y coef p) (weight n Y coef' p') =
  rsum n (fun l => c l * rsum (S l) (fun m => if (m =? 0)%nat then fst (Y l m p) * fst (Y l m p')
                         else 2 * (fst (Y l m p) * fst (Y l m p') + snd (Y l m p) * snd (Y l m p')))).
Proof.
  intro H. unfold covariance. rewrite rsum_numbers. apply rsum_ext. intros l Hl. rewrite <- rsum_scal.
  apply rsum_ext. intros m Hm.
  rewrite (rsum_ext K _ (fun q => ((if (m =? 0)%nat then fst (Y l m p) else 2 * fst (Y l m p)) * (if (m =? 0)%nat then fst (Y l m p') else 2 * fst (Y l m p')) +
      (if (m =? 0)%nat then fst (Y l m p) else - (2 * snd (Y l m p))) * (if (m =? 0)%nat then fst (Y l m p') else - (2 * snd (Y l m p')))) * (coef l q * coef' l q)))
    by (intros q _; rewrite !weight_even, !weight_odd by lia; ring).
  rewrite rsum_scal. change (rsum K (fun q => coef l q * coef' l q)) with (covariance K (coef l) (coef' l)).
  rewrite H by exact Hl. destruct (m =? 0)%nat; field.
Qed.

(** Correlation functions. *)
Lemma correlation_ext n f g x : (forall l, (l < n)%nat -> f l = g l) -> correlation n f x = correlation n g x.
Proof. intro H. unfold correlation. apply rsum_ext. intros l Hl. rewrite H by exact Hl. reflexivity. Qed.
Lemma correlation_nth n g x : (length g <= n)%nat ->
  correlation n (fun l => nth l g 0) x = correlation (length g) (fun l => nth l g 0) x.
Proof.
  intro H. unfold correlation. apply rsum_truncate; [exact H|]. intros l Hl. rewrite nth_overflow by lia. ring.
Qed.
Lemma nth_zeros (g : list R) pad l : nth l (g ++ repeat 0 pad) 0 = nth l g 0.
Proof.
  destruct (Nat.ltb_spec l (length g)) as [H|H]; [apply app_nth1; exact H|].
  rewrite app_nth2, (nth_overflow g) by lia. apply nth_repeat.
Qed.

(** Maps exist: the sum of spherical harmonics itself. *)
Definition summed (n npix : nat) (Y : nat -> nat -> nat -> R * R) (alm : list (R * R)) : list R :=
  map (synthesis n Y (fun l m => nth (m * (2 * n - 1 - m) / 2 + l) alm (0, 0))) (seq 0 npix).
Lemma summed_synthesises n npix Y : synthesises n npix Y (summed n npix Y).
Proof.
  intros alm a H. unfold summed. apply map_ext. intro p. unfold synthesis. apply rsum_ext. intros l Hl. apply rsum_ext. intros m Hm.
  destruct (healpix_index n l m ltac:(lia)) as (h & Hh). pose proof (H h l m Hh) as E. destruct Hh as (_ & Hh).
  replace (m * (2 * n - 1 - m) / 2 + l)%nat with h.
  - rewrite (nth_error_nth _ _ _ E). reflexivity.
  - set (x := (m * (2 * n - 1 - m))%nat) in *. clearbody x. assert (K : x = ((h - l) * 2)%nat) by lia. rewrite K, Nat.div_mul by lia. lia.
Qed.

(** The spherical harmonics of degrees zero and one, at the colatitudes [theta] and longitudes [phi]. *)
Definition sphere (theta phi : nat -> R) (l m p : nat) : R * R :=
  match l, m with
  | O, _ => (/ sqrt (4 * PI), 0)
  | _, O => (sqrt (3 / (4 * PI)) * cos (theta p), 0)
  | _, _ => (- (sqrt (3 / (8 * PI)) * sin (theta p)) * cos (phi p), - (sqrt (3 / (8 * PI)) * sin (theta p)) * sin (phi p))
  end.
Definition separation (theta phi : nat -> R) (p q : nat) : R :=
  cos (theta p) * cos (theta q) + sin (theta p) * sin (theta q) * cos (phi p - phi q).
Lemma sphere_harmonics n npix theta phi : (n <= 2)%nat -> harmonics n npix (sphere theta phi) (separation theta phi).
Proof.
  intro Hn. pose proof PI_RGT_0 as HP. split.
  - intro p. unfold separation. replace (phi p - phi p) with 0 by ring. rewrite cos_0.
    pose proof (sin2_cos2 (theta p)) as E. unfold Rsqr in E. lra.
  - intros l p q Hl _ _. assert (Hc : (l = 0 \/ l = 1)%nat) by lia. destruct Hc as [-> | ->]; unfold sphere; cbn [rsum Nat.eqb fst snd INR].
    + unfold legendre. cbn [legendre_pair fst].
      assert (E : / sqrt (4 * PI) * / sqrt (4 * PI) = / (4 * PI)).
      { rewrite <- Rinv_mult, sqrt_sqrt by lra. reflexivity. }
      transitivity (/ sqrt (4 * PI) * / sqrt (4 * PI)); [ring|]. rewrite E. field. lra.
    + unfold legendre. cbn [legendre_pair fst snd]. unfold separation. rewrite cos_minus.
      assert (A : sqrt (3 / (4 * PI)) * sqrt (3 / (4 * PI)) = 3 / (4 * PI)).
      { apply sqrt_sqrt. apply Rlt_le, Rdiv_lt_0_compat; lra. }
      assert (B : sqrt (3 / (8 * PI)) * sqrt (3 / (8 * PI)) = 3 / (8 * PI)).
      { apply sqrt_sqrt. apply Rlt_le, Rdiv_lt_0_compat; lra. }
      transitivity (sqrt (3 / (4 * PI)) * sqrt (3 / (4 * PI)) * (cos (theta p) * cos (theta q)) +
        2 * (sqrt (3 / (8 * PI)) * sqrt (3 / (8 * PI))) * (sin (theta p) * sin (theta q) * (cos (phi p) * cos (phi q) + sin (phi p) * sin (phi q)))); [ring|].
      rewrite A, B. field. lra.
Qed.
