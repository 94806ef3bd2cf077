(** Claims about tomographic bins with the error function (C52, C75). *)
From Coq Require Import Reals Lra Lia List.
From Coquelicot Require Import Coquelicot.
From Verif Require Import Base Model_Numeric Model_Observations Spec_Observations Spec_Gauss Spec_Erf Proof_Gauss Proof_Erf Prop_Observations.
Import ListNotations.
Local Open Scope R_scope.

(** C52, C75 *)

(** The error function is increasing, odd, and has the limit one; these are the facts that make it a probability. *)
Theorem erf_function : (forall x y, x < y -> erf x < erf y) /\ (forall x, -1 < erf x < 1) /\ (forall x, erf (- x) = - erf x) /\
  is_lim erf p_infty 1.
Proof. split; [exact erf_increasing|]. split; [exact erf_bounds|]. split; [exact erf_odd|exact erf_lim]. Qed.
Print Assumptions erf_function.

(** The distribution in a bin is that of all sources times a probability: that a normal random number, with the
    redshift as mean and a standard deviation that grows with redshift, falls into the bin, given that it is not
    negative. *)
Theorem tomo_probability z nz sigma_0 bins rows : 0 < sigma_0 -> (forall x, In x z -> -1 < x) ->
  tomo_nz_gausserr erf z nz sigma_0 bins = Ok rows ->
  length z = length nz /\
  Forall2 (fun bin row => length row = length z /\
      forall i x n v, nth_error z i = Some x -> nth_error nz i = Some n -> nth_error row i = Some v ->
        exists q, bell_above x (sigma_0 * (1 + x)) 0 q /\ 0 < q /\
          v = bell_between x (sigma_0 * (1 + x)) (fst bin) (snd bin) / q * n) bins rows.
Proof.
  intros Hs Hz. unfold tomo_nz_gausserr. destruct (Nat.eqb_spec (length z) (length nz)) as [Hl|]; [|discriminate]. intros [= <-].
  split; [exact Hl|]. induction bins as [|(a & b) bins IH]; [constructor|]. cbn [map]. constructor; [|exact IH]. clear IH. cbn [fst snd].
  split; [rewrite map_length, combine_length, Hl; apply Nat.min_id|].
  intros i x n v Hx Hn Hv.
  assert (E : nth_error (combine z nz) i = Some (x, n)).
  { clear - Hx Hn. revert z nz Hx Hn. induction i as [|i IH]; intros [|y z] [|m nz]; cbn; intros Hx Hn; try discriminate.
    - congruence.
    - apply IH; assumption. }
  rewrite nth_error_map, E in Hv. cbn [option_map] in Hv. injection Hv as <-.
  pose proof (Hz x (nth_error_In _ _ Hx)) as P. set (s := sigma_0 * (1 + x)). assert (Ps : 0 < s) by (apply Rmult_lt_0_compat; lra).
  exists ((1 + erf ((x - 0) / (sqrt 2 * s))) * (sqrt PI * sqrt 2 * s / 2)). split; [apply bell_above_erf; exact Ps|].
  assert (P2 : 0 < sqrt 2) by (apply sqrt_lt_R0; lra). destruct root_pi as [PP _].
  pose proof (erf_bounds ((x - 0) / (sqrt 2 * s))) as B.
  assert (K : 0 < sqrt PI * sqrt 2 * s / 2).
  { apply Rmult_lt_0_compat; [|lra]. apply Rmult_lt_0_compat; [apply Rmult_lt_0_compat; lra|lra]. }
  split; [apply Rmult_lt_0_compat; lra|].
  rewrite bell_erf by exact Ps. replace (sqrt 2 * sigma_0 * (1 + x)) with (sqrt 2 * s) by (unfold s; ring).
  rewrite Rminus_0_r in *. field. lra.
Qed.
Print Assumptions tomo_probability.

(** With the error function the assumptions of [tomo_bounded] hold.  A bin that begins at redshift zero has more of the
    sources, the further it extends; in the limit it has all of them. *)
Theorem tomo_complete z nz sigma_0 : 0 < sigma_0 -> (forall x, In x z -> -1 < x) -> (forall n, In n nz -> 0 <= n) ->
  length z = length nz -> forall eps, 0 < eps -> exists m, forall b, m < b ->
    exists row, tomo_nz_gausserr erf z nz sigma_0 [(0, b)] = Ok [row] /\ Forall2 (fun v n => (1 - eps) * n <= v <= n) row nz.
Proof.
  intros Hs Hz Hn Hl eps He.
  assert (M : exists m, 0 <= m /\ forall b, m < b -> forall x, In x z ->
    1 - eps <= (erf ((x - 0) / (sqrt 2 * sigma_0 * (1 + x))) - erf ((x - b) / (sqrt 2 * sigma_0 * (1 + x)))) / (1 + erf (x / (sqrt 2 * sigma_0 * (1 + x)))) <= 1).
  { clear Hn Hl nz. induction z as [|x z IH]; [exists 0; split; [lra|]; intros ? ? ? []|].
    destruct IH as (m & M0 & Hm); [intros; apply Hz; right; assumption|].
    pose proof (Hz x (or_introl eq_refl)) as Hx. set (s := sqrt 2 * sigma_0 * (1 + x)).
    assert (Ps : 0 < s) by (apply Rmult_lt_0_compat; [apply Rmult_lt_0_compat; [apply sqrt_lt_R0; lra|lra]|lra]).
    set (d := 1 + erf (x / s)). assert (Pd : 0 < d) by (unfold d; pose proof (erf_bounds (x / s)); lra).
    pose proof erf_lim as L. apply is_lim_spec in L. destruct (L (mkposreal (eps * d) (Rmult_lt_0_compat _ _ He Pd))) as [t Ht]. cbn [pos] in Ht.
    exists (Rmax m (x + t * s)). split; [eapply Rle_trans; [exact M0|apply Rmax_l]|].
    intros b Hb y [<-|Hy]; [|apply Hm; [eapply Rle_lt_trans; [apply Rmax_l|exact Hb]|exact Hy]].
    assert (Hb' : t < (b - x) / s).
    { apply (Rmult_lt_reg_r s); [lra|]. replace ((b - x) / s * s) with (b - x) by (field; lra). pose proof (Rmax_r m (x + t * s)). lra. }
    specialize (Ht _ Hb'). apply Rabs_def2 in Ht. fold s. fold d. rewrite Rminus_0_r.
    replace ((x - b) / s) with (- ((b - x) / s)) by (field; lra). rewrite erf_odd.
    pose proof (erf_bounds ((b - x) / s)). replace (erf (x / s)) with (d - 1) by (unfold d; ring).
    split; apply (Rmult_le_reg_r d); try lra; unfold Rdiv; rewrite Rmult_assoc, Rinv_l by lra; lra. }
  destruct M as (m & M0 & Hm). exists m. intros b Hb. unfold tomo_nz_gausserr. rewrite Hl, Nat.eqb_refl. cbn [map]. eexists. split; [reflexivity|].
  cbn [fst snd]. specialize (Hm b Hb). clear Hz Hb. revert nz Hn Hl Hm.
  induction z as [|x z IH]; intros [|n nz] Hn Hl Hm; try discriminate; [constructor|]. cbn [combine map]. constructor.
  - specialize (Hm x (or_introl eq_refl)). pose proof (Hn n (or_introl eq_refl)). split; [apply Rmult_le_compat_r; lra|].
    rewrite <- (Rmult_1_l n) at 2. apply Rmult_le_compat_r; lra.
  - apply IH; [intros; apply Hn; right; assumption|cbn in Hl; lia|intros; apply Hm; right; assumption].
Qed.
Print Assumptions tomo_complete.

(** Sources at the common edge of two bins, which are symmetric about it: half of the difference to the error function
    is in each of them. *)
Example tomo_probability_example : exists v,
  tomo_nz_gausserr erf [1] [6] (/ (2 * sqrt 2)) [(0, 1); (1, 2)] = Ok [[v]; [v]] /\
  v = erf 1 / (1 + erf 1) * 6 /\ 0 < v < 3 /\
  exists q, bell_above 1 (/ (2 * sqrt 2) * (1 + 1)) 0 q /\ v = bell_between 1 (/ (2 * sqrt 2) * (1 + 1)) 0 1 / q * 6.
Proof.
  assert (H2 : 0 < sqrt 2) by (apply sqrt_lt_R0; lra).
  assert (E : sqrt 2 * / (2 * sqrt 2) * (1 + 1) = 1) by (field; lra).
  assert (E0 : erf 0 = 0). { pose proof (erf_odd 0) as K. rewrite Ropp_0 in K. lra. }
  assert (R1 : tomo_nz_gausserr erf [1] [6] (/ (2 * sqrt 2)) [(0, 1); (1, 2)] = Ok [[erf 1 / (1 + erf 1) * 6]; [erf 1 / (1 + erf 1) * 6]]).
  { unfold tomo_nz_gausserr. cbn [length Nat.eqb combine map fst snd]. rewrite E.
    replace ((1 - 0) / 1) with 1 by field. replace ((1 - 1) / 1) with 0 by field. replace ((1 - 2) / 1) with (- (1)) by field.
    replace (1 / 1) with 1 by field. rewrite erf_odd, E0, Rminus_0_r. replace (0 - - erf 1) with (erf 1) by ring. reflexivity. }
  exists (erf 1 / (1 + erf 1) * 6). split; [exact R1|]. split; [reflexivity|]. split.
  - assert (P : 0 < erf 1) by (rewrite <- E0; apply erf_increasing; lra). pose proof (erf_bounds 1). split.
    + apply Rmult_lt_0_compat; [apply Rdiv_lt_0_compat; lra|lra].
    + apply (Rmult_lt_reg_r (1 + erf 1)); [lra|]. replace (erf 1 / (1 + erf 1) * 6 * (1 + erf 1)) with (erf 1 * 6) by (field; lra). lra.
  - assert (Hs : 0 < / (2 * sqrt 2)) by (apply Rinv_0_lt_compat; lra).
    destruct (tomo_probability _ _ _ _ _ Hs (fun x (H : In x [1]) => match H with or_introl e => ltac:(rewrite <- e; lra) | or_intror f => match f with end end) R1) as (_ & F).
    inversion F as [|? ? ? ? (_ & H) _]; subst. destruct (H 0%nat 1 6 _ eq_refl eq_refl eq_refl) as (q & Q1 & _ & Q2). exists q. split; [exact Q1|exact Q2].
Qed.
