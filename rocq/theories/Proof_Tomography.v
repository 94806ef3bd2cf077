(** Lemmas for samples of galaxies with true and photometric redshifts. *)
From Coq Require Import Reals Lra Lia List.
From Coquelicot Require Import Coquelicot.
From Verif Require Import Base Model_Numeric Model_Arrays Model_Galaxies Model_Tomography.
From Verif Require Import Spec_Numeric Spec_Gauss Spec_Erf Spec_Galaxies Spec_Points Spec_Uniform Spec_Photoz Spec_Poisson Spec_Truncated Spec_Tomography.
From Verif Require Import Proof_Numeric Proof_Gauss Proof_Erf Proof_Galaxies Proof_Uniform Proof_Fit Proof_Poisson Prop_Truncated.
Import ListNotations.
Local Open Scope R_scope.

Lemma sphere_arcmin2 : arcmin2_sphere = sphere_area.
Proof.
  unfold arcmin2_sphere, sphere_area. replace (60 ^ 6 / 100)%Z with 466560000%Z by reflexivity. pose proof PI_RGT_0. field. lra.
Qed.

(** ** Weighted integrals *)
Lemma weighted_lin z : forall nz f g v w (a b : R), weighted z nz f v -> weighted z nz g w -> weighted z nz (fun x => a * f x + b * g x) (a * v + b * w).
Proof.
  induction z as [|x z IH]; intros nz f g v w a b.
  - cbn [weighted]. intros -> ->. ring.
  - destruct z as [|y z]; [cbn [weighted]; intros -> ->; ring|]. destruct nz as [|n nz]; [cbn [weighted]; intros -> ->; ring|].
    destruct nz as [|n' nz]; [cbn [weighted]; intros -> ->; ring|].
    intros (c & v' & C1 & V & ->) (d & w' & D & W & ->). exists (a * c + b * d), (a * v' + b * w'). split; [|split; [apply IH; assumption|ring]].
    exact (rint_plus _ _ _ _ _ _ (rint_scal f a _ _ _ C1) (rint_scal g b _ _ _ D)).
Qed.
Lemma weighted_eq z : forall nz f g v w, increasing z -> weighted z nz f v ->
  (forall x lo hi, In lo z -> In hi z -> lo < x < hi -> f x = g x) -> v = w -> weighted z nz g w.
Proof.
  induction z as [|x z IH]; intros nz f g v w Hz H E <-; [exact H|].
  destruct z as [|y z]; [exact H|]. destruct nz as [|n nz]; [exact H|]. destruct nz as [|n' nz]; [exact H|].
  destruct H as (c & v' & C1 & V & ->). pose proof (Hz 0%nat x y eq_refl eq_refl) as Hxy.
  exists c, v'. split; [|split; [|reflexivity]].
  - eapply is_RInt_ext; [|exact C1]. intros t Ht. rewrite Rmin_left, Rmax_right in Ht by lra.
    apply (E t x y); [left; reflexivity|right; left; reflexivity|lra].
  - apply (IH (n' :: nz) f g v' v' (increasing_tail _ _ Hz) V); [|reflexivity]. intros t a b Ha Hb Ht. apply (E t a b); [right; exact Ha|right; exact Hb|exact Ht].
Qed.
Lemma weighted_one z : forall nz, length z = length nz -> weighted z nz (fun _ => 1) (total (trapezoids (combine z nz))).
Proof.
  induction z as [|x z IH]; intros nz L; [reflexivity|]. destruct nz as [|n nz]; [discriminate|].
  destruct z as [|y z], nz as [|n' nz]; try discriminate; [reflexivity|].
  change (weighted (x :: y :: z) (n :: n' :: nz) (fun _ => 1) ((n' + n) * (1 / 2) * (y - x) + total (trapezoids (combine (y :: z) (n' :: nz))))).
  exists (y - x), (total (trapezoids (combine (y :: z) (n' :: nz)))).
  split; [|split; [apply IH; cbn in L; cbn; lia|field]].
  pose proof (is_RInt_const (V := R_NormedModule) x y 1) as K.
  match type of K with is_RInt _ _ _ ?v => assert (Z : v = y - x) by (change ((y - x) * 1 = y - x); ring); rewrite Z in K end. exact K.
Qed.
Lemma weighted_unique z : forall nz f v w, weighted z nz f v -> weighted z nz f w -> v = w.
Proof.
  induction z as [|x z IH]; intros nz f v w; [cbn; congruence|].
  destruct z as [|y z]; [cbn; congruence|]. destruct nz as [|n nz]; [cbn; congruence|]. destruct nz as [|n' nz]; [cbn; congruence|].
  intros (c & v' & C1 & V & ->) (d & w' & D & W & ->). rewrite (rint_unique _ _ _ _ _ C1 D), (IH _ _ _ _ V W). reflexivity.
Qed.
(** A function that is integrable everywhere. *)
Lemma weighted_exists z : forall nz (f : R -> R), increasing z -> (forall a b, In a z -> In b z -> a < b -> ex_RInt f a b) -> exists v, weighted z nz f v.
Proof.
  induction z as [|x z IH]; intros nz f Hz H; [exists 0; reflexivity|].
  destruct z as [|y z]; [exists 0; reflexivity|]. destruct nz as [|n nz]; [exists 0; reflexivity|]. destruct nz as [|n' nz]; [exists 0; reflexivity|].
  destruct (IH (n' :: nz) f (increasing_tail _ _ Hz)) as (w & W); [intros a b Ha Hb; apply H; right; assumption|].
  destruct (H x y) as (c & C1); [left; reflexivity|right; left; reflexivity|exact (Hz 0%nat x y eq_refl eq_refl)|].
  exists ((n + n') / 2 * c + w), c, w. auto.
Qed.
Lemma weighted_le z : forall nz f g v w, increasing z -> (forall y, In y nz -> 0 <= y) -> weighted z nz f v -> weighted z nz g w ->
  (forall x lo hi, In lo z -> In hi z -> lo < x < hi -> f x <= g x) -> v <= w.
Proof.
  induction z as [|x z IH]; intros nz f g v w Hz Hn; [cbn; lra|].
  destruct z as [|y z]; [cbn; lra|]. destruct nz as [|n nz]; [cbn; lra|]. destruct nz as [|n' nz]; [cbn; lra|].
  intros (c & v' & C1 & V & ->) (d & w' & D & W & ->) H. pose proof (Hz 0%nat x y eq_refl eq_refl) as Hxy.
  assert (Le : c <= d).
  { apply (is_RInt_le f g x y); [lra|exact C1|exact D|]. intros t Ht. apply (H t x y); [left; reflexivity|right; left; reflexivity|exact Ht]. }
  assert (v' <= w').
  { apply (IH (n' :: nz) f g); [exact (increasing_tail _ _ Hz)|intros; apply Hn; right; assumption|exact V|exact W|].
    intros t lo hi Hlo Hhi. apply (H t lo hi); right; assumption. }
  pose proof (Hn n (or_introl eq_refl)). pose proof (Hn n' (or_intror (or_introl eq_refl))).
  apply Rplus_le_compat; [|assumption]. apply Rmult_le_compat_l; lra.
Qed.

(** ** Integrals over uniform numbers *)
Lemma ltb_false x y : y <= x -> ltb x y = false.
Proof. intro H. unfold ltb. destruct (Rlt_dec x y); [lra|reflexivity]. Qed.
Lemma scan_integral (t : R) (G : R -> R) : 0 < t -> forall z nz x0 n0 acc v right,
  (forall y, In y (n0 :: nz) -> 0 <= y) -> increasing (x0 :: z) -> length z = length nz -> weighted (x0 :: z) (n0 :: nz) G v ->
  let cs := map (fun c => c / t) (cumulative_sum acc (trapezoids (combine (x0 :: z) (n0 :: nz)))) in
  is_RInt (fun u => G (interp_scan (acc / t) x0 (tl (combine cs (x0 :: z))) right u)) (acc / t) ((acc + total (trapezoids (combine (x0 :: z) (n0 :: nz)))) / t) (v / t).
Proof.
  intro Ht. induction z as [|x1 z IH]; intros [|n1 nz] x0 n0 acc v right Hn Hz L W; try discriminate.
  - cbn [weighted] in W. rewrite W. cbn. rewrite Rplus_0_r. replace (0 / t) with 0 by (field; lra). apply (is_RInt_point (V := R_NormedModule)).
  - destruct W as (c & w & C1 & W & ->). cbv zeta. pose proof (Hz 0%nat x0 x1 eq_refl eq_refl) as Hx.
    change (trapezoids (combine (x0 :: x1 :: z) (n0 :: n1 :: nz))) with ((n1 + n0) * (1 / 2) * (x1 - x0) :: trapezoids ((x1, n1) :: combine z nz)).
    set (T := trapezoids ((x1, n1) :: combine z nz)). set (d := (n1 + n0) * (1 / 2) * (x1 - x0)). cbn [total cumulative_sum map combine tl].
    assert (Hd : 0 <= d).
    { unfold d. pose proof (Hn n0 (or_introl eq_refl)). pose proof (Hn n1 (or_intror (or_introl eq_refl))). apply Rmult_le_pos; lra. }
    set (acc' := acc + d). assert (Ha : acc / t <= acc' / t) by (apply Rmult_le_compat_r; [left; apply Rinv_0_lt_compat; exact Ht|unfold acc'; lra]).
    assert (Hn' : forall y, In y (n1 :: nz) -> 0 <= y) by (intros; apply Hn; right; assumption).
    specialize (IH nz x1 n1 acc' w right Hn' (increasing_tail _ _ Hz) ltac:(injection L; auto) W). cbv zeta in IH. cbn [combine] in IH. fold T in IH.
    assert (Hb : acc' / t <= (acc' + total T) / t).
    { apply Rmult_le_compat_r; [left; apply Rinv_0_lt_compat; exact Ht|]. assert (0 <= total T); [|lra].
      unfold T. change ((x1, n1) :: combine z nz) with (combine (x1 :: z) (n1 :: nz)).
      pose proof (weighted_le (x1 :: z) (n1 :: nz) (fun _ => 0 * 1 + 0 * 1) (fun _ => 1) (0 * total (trapezoids (combine (x1 :: z) (n1 :: nz))) + 0 * total (trapezoids (combine (x1 :: z) (n1 :: nz)))) (total (trapezoids (combine (x1 :: z) (n1 :: nz)))) (increasing_tail _ _ Hz) Hn') as K.
      assert (K1 : weighted (x1 :: z) (n1 :: nz) (fun _ => 1) (total (trapezoids (combine (x1 :: z) (n1 :: nz))))) by (apply weighted_one; cbn in *; lia).
      specialize (K (weighted_lin _ _ _ _ _ _ 0 0 K1 K1) K1 ltac:(intros; cbn beta; lra)). lra. }
    replace (acc + (d + total T)) with (acc' + total T) by (unfold acc'; ring).
    assert (E : exists rest, map (fun c0 => c0 / t) (cumulative_sum acc' T) = acc' / t :: rest).
    { destruct T; cbn; eexists; reflexivity. }
    destruct E as (rest & Er). rewrite Er in *. cbn [combine tl] in *.
    assert (K1 : is_RInt (fun u => G (interp_scan (acc / t) x0 ((acc' / t, x1) :: combine rest z) right u)) (acc / t) (acc' / t) ((n0 + n1) / 2 * c / t)).
    { destruct (Req_dec d 0) as [Ed|Ed].
      - assert (E0 : n0 + n1 = 0) by (apply (Rmult_eq_reg_r ((x1 - x0) / 2)); [unfold d in Ed; lra|lra]).
        replace (acc' / t) with (acc / t) by (unfold acc'; rewrite Ed, Rplus_0_r; reflexivity). rewrite E0.
        match goal with |- is_RInt _ _ _ ?v => replace v with 0 by (field; lra) end. apply (is_RInt_point (V := R_NormedModule)).
      - set (k := (x1 - x0) / (acc' / t - acc / t)).
        assert (Pk : acc' / t - acc / t = d / t) by (unfold acc'; field; lra). assert (Pd : 0 < d / t) by (apply Rdiv_lt_0_compat; lra).
        assert (K : is_RInt G (k * (acc / t) + (x0 - k * (acc / t))) (k * (acc' / t) + (x0 - k * (acc / t))) c).
        { replace (k * (acc / t) + (x0 - k * (acc / t))) with x0 by ring.
          replace (k * (acc' / t) + (x0 - k * (acc / t))) with x1 by (transitivity (k * (acc' / t - acc / t) + x0); [unfold k; rewrite Pk; field; lra|ring]). exact C1. }
        apply (is_RInt_comp_lin (V := R_NormedModule)) in K.
        assert (Pkk : 0 < k) by (apply Rdiv_lt_0_compat; lra).
        apply (rint_scal _ (/ k)) in K.
        replace ((n0 + n1) / 2 * c / t) with (/ k * c).
        2:{ unfold k. rewrite Pk. unfold d. assert (n0 + n1 <> 0) by (intro Q; apply Ed; unfold d; rewrite Rplus_comm, Q; ring). field. repeat split; lra. }
        eapply is_RInt_ext; [|exact K]. intros u Hu. rewrite Rmin_left, Rmax_right in Hu by lra. cbn beta.
        change (/ k * (k * G (k * u + (x0 - k * (acc / t)))) = G (interp_scan (acc / t) x0 ((acc' / t, x1) :: combine rest z) right u)).
        cbn [interp_scan]. unfold leb. destruct (Rle_dec (acc' / t) u); [lra|]. rewrite <- Rmult_assoc, Rinv_l, Rmult_1_l by lra. f_equal. fold k. ring. }
    assert (K2 : is_RInt (fun u => G (interp_scan (acc / t) x0 ((acc' / t, x1) :: combine rest z) right u)) (acc' / t) ((acc' + total T) / t) (w / t)).
    { eapply is_RInt_ext; [|exact IH]. intros u Hu. rewrite Rmin_left, Rmax_right in Hu by lra. cbn [interp_scan].
      unfold leb. destruct (Rle_dec (acc' / t) u); [reflexivity|lra]. }
    pose proof (is_RInt_Chasles (V := R_NormedModule) _ _ _ _ _ _ K1 K2) as K.
    match type of K with is_RInt _ _ _ ?v => replace v with (((n0 + n1) / 2 * c + w) / t) in K end; [exact K|].
    change (((n0 + n1) / 2 * c + w) / t = (n0 + n1) / 2 * c / t + w / t). field. lra.
Qed.

(** The function by which uniform numbers become redshifts. *)
Lemma redshift_integral z nz : distribution z nz ->
  let t := total (trapezoids (combine z nz)) in
  exists x : R -> R, 0 < t /\
    (forall (S : Type) (uniform : S -> nat -> list R * S) n s, draw_nz uniform n z nz s = Ok (map x (fst (uniform s n)), snd (uniform s n))) /\
    (forall u, 0 < u < 1 -> exists a b, In a z /\ In b z /\ a <= x u < b) /\
    forall G v, weighted z nz G v -> is_RInt (fun u => G (x u)) 0 1 (v / t).
Proof.
  cbv zeta. intro D. set (t := total (trapezoids (combine z nz))).
  set (cs' := map (fun c => c / t) (cumulative_sum 0 (trapezoids (combine z nz)))).
  set (x := interp_value cs' z None None). exists x.
  destruct (inverse_cdf z nz D) as (Ht & Hlast & Hcl & Hne & F0 & HF0 & HI & _). fold t in Ht, Hlast, Hcl, HI. fold cs' in Hcl, HI. fold x in HI.
  destruct D as (Hz & Hl & Hp & _). split; [exact Ht|]. split; [|split].
  - intros S uniform n s. unfold draw_nz, cumulative_trapezoid. rewrite <- Hl, Nat.eqb_refl. cbn [bind].
    rewrite Hlast. cbn [bind]. destruct (Req_EM_T _ 0); [lra|]. destruct (uniform s n) as [us s'] eqn:E. fold cs'. cbn [fst snd].
    rewrite (mapM_pure _ x); [reflexivity|]. intros u _. unfold x. apply interp_ok; [exact Hcl|]. intro E0. rewrite E0 in Hcl. destruct z; [contradiction|discriminate].
  - intros u Hu. destruct (HI u ltac:(lra)) as (_ & i & c & d & H1 & H2 & H3 & _). exists c, d. eauto using nth_error_In.
  - intros G v W. destruct z as [|x0 z]; [contradiction|]. destruct nz as [|n0 nz]; [discriminate|].
    pose proof (scan_integral t G Ht z nz x0 n0 0 v (match None with Some v => v | None => last_value x0 (tl (combine cs' (x0 :: z))) end) Hp Hz ltac:(injection Hl; auto) W) as K.
    cbv zeta in K. fold cs' in K. fold t in K. replace (0 / t) with 0 in K by (field; lra). replace ((0 + t) / t) with 1 in K by (field; lra).
    eapply is_RInt_ext; [|exact K]. intros u Hu. rewrite Rmin_left, Rmax_right in Hu by lra. cbn beta. f_equal.
    unfold x, interp_value. assert (E : exists rest, cs' = 0 :: rest).
    { unfold cs'. exists (map (fun c => c / t) (tl (cumulative_sum 0 (trapezoids (combine (x0 :: z) (n0 :: nz)))))). destruct (trapezoids _); cbn; f_equal; unfold Rdiv; ring. }
    destruct E as (rest & ->). cbn [combine tl]. rewrite ltb_false by lra. reflexivity.
Qed.
