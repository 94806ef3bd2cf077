(** Claims about maps of the shears of uniform galaxies (C96). *)
From Coq Require Import Reals Lra Lia List Arith.
From Coquelicot Require Import Coquelicot.
From Verif Require Import Base Model_Numeric Model_Arrays Model_Galaxies Model_Shapes Model_Points Model_ShearMap.
From Verif Require Import Spec_Gauss Spec_Uniform Spec_Disc Spec_Shapes Spec_Points Spec_Poisson Spec_Unbiased Spec_Campbell Spec_ShearMap.
From Verif Require Import Proof_Normals Proof_Uniform Proof_Poisson Proof_Intnorm Proof_ShearMap.
From Verif Require Import Prop_Disc Prop_Poisson Prop_Campbell Prop_ShearMap.
Import ListNotations.
Local Open Scope R_scope.

Lemma points_lin lams f g a b x y : points_mean lams f a -> points_mean lams g b -> points_mean lams (fun s => x * f s + y * g s) (x * a + y * b).
Proof.
  intros (F & HF & CF) (G & HG & CG). exists (fun ns => x * F ns + y * G ns). split.
  - intros ns L. apply umeans_plus; apply umeans_scal; [apply HF, L|apply HG, L].
  - apply counts_plus; apply counts_scal; assumption.
Qed.
Lemma points_ext lam f g m m' : points_mean [lam] f m -> (forall n us, length us = (2 * n)%nat -> f ([(lam, n)], us) = g ([(lam, n)], us)) -> m = m' -> points_mean [lam] g m'.
Proof.
  intros (F & HF & CF) E <-. exists F. split; [|exact CF]. intros [|n [|]] L; try discriminate. eapply umeans_ext; [|apply (HF [n] L)].
  intros us Lu _. cbn [combine list_sum fold_right] in *. apply E. lia.
Qed.
Lemma zero_mean : sphere_mean (fun _ _ => 0) 0.
Proof.
  assert (Z : forall p q : R, is_RInt (fun _ => 0) p q 0).
  { intros p q. pose proof (is_RInt_const (V := R_NormedModule) p q 0) as K.
    match type of K with is_RInt _ _ _ ?x => assert (X : x = 0) by (change ((q - p) * 0 = 0); ring); rewrite X in K end. exact K. }
  exists (fun _ => 0). replace (0 * (4 * PI * (180 / PI) ^ 2)) with 0 by (symmetry; apply Rmult_0_l). split; [intros l _; apply (is_RInt_ext (fun _ => 0)); [|apply Z]; intros; symmetry; apply Rmult_0_l|apply Z].
Qed.
Lemma zero_patched : patched (fun _ => 0).
Proof. exists []. split; [intros c s []|reflexivity]. Qed.
Lemma count_sum {N} pixel p (lon lat : list R) (c : N) :
  INR (count_occ Nat.eq_dec (map (fun '(x, y) => pixel x y) (combine lon lat)) p) = sum_over (in_pixel pixel p) [(lon, lat, c)].
Proof.
  unfold sum_over. cbn [map concat]. rewrite app_nil_r. induction (combine lon lat) as [|[x y] l IH]; [reflexivity|]. cbn [map fold_right fst snd]. rewrite count_cons, plus_INR, IH.
  unfold in_pixel. destruct (Nat.eqb (pixel x y) p); reflexivity.
Qed.

(** C96 *)

(** The same for galaxies from [uniform_positions]: for pixels of any shape, the expected number of galaxies is their area times the
    density, and the moments of the map of shears that is made from them are those of galaxies with Poisson numbers in pixels. *)
Theorem uniform_shear_map argsort ang2pix npix2nside chunk nside sigma kappa gamma1 gamma2 ngal (fraction : nat -> R) :
  sorts argsort -> (0 < chunk)%nat -> length gamma1 = length kappa -> length gamma2 = length kappa -> npix2nside (length kappa) = Ok nside ->
  (forall x y, (ang2pix nside x y < length kappa)%nat) -> 0 < sigma < sqrt (1 / 2) ->
  (forall p, (p < length kappa)%nat -> (forall l, -180 < l < 180 -> patched (in_pixel (ang2pix nside) p l)) /\ sphere_mean (in_pixel (ang2pix nside) p) (fraction p)) ->
  let g p := Cdiv (nth p gamma1 0, nth p gamma2 0) (RtoC (1 - nth p kappa 0)) in
  (forall p, (p < length kappa)%nat -> Cmod (g p) < 1) ->
  let map_at p s l := match uniform_positions counts_first ranges_second {| ashape := []; aget := fun _ => ngal |} s with
    | ([(lon, lat, _)], _) => shear_at p (observe numbers argsort ang2pix npix2nside chunk nside sigma lon lat
        kappa gamma1 gamma2 (repeat 0%nat (length kappa), repeat (RtoC 0) (length kappa)) l)
    | _ => RtoC 0 end in
  let lam p := sphere_area * ngal * fraction p in
  forall p c, (p < length kappa)%nat ->
    catalogue_mean (sphere_area * ngal) (fun s l => component c (map_at p s l)) (lam p * component c (g p)) /\
    forall d, exists V,
      means 2 (fun l => each_of [fun e => component c (sheared (g p) e) * component d (sheared (g p) e)]
        (ellipticity_intnorm numbers (scalar 1%nat) (scalar sigma) l)) V /\
      forall q, (q < length kappa)%nat ->
        catalogue_mean (sphere_area * ngal) (fun s l => component c (map_at p s l) * component d (map_at q s l))
          (lam p * component c (g p) * (lam q * component d (g q)) + if Nat.eqb p q then lam p * V else 0).
Proof.
  intros Hso Hc H1 H2 Hn Hp Hs Hfr g Hg map_at lam p c Hpp. fold (one_population ngal) in map_at.
  set (points := fun s => fst (uniform_positions counts_first ranges_second (one_population ngal) s)).
  set (N := fun p s => sum_over (in_pixel (ang2pix nside) p) (points s)).
  assert (Prod : forall p q, (p < length kappa)%nat -> (q < length kappa)%nat ->
    (forall l, -180 < l < 180 -> patched (fun x => in_pixel (ang2pix nside) p l x * in_pixel (ang2pix nside) q l x)) /\
    sphere_mean (fun l x => in_pixel (ang2pix nside) p l x * in_pixel (ang2pix nside) q l x) (if Nat.eqb p q then fraction p else 0)).
  { clear p c Hpp. intros p q Hpp Hq. destruct (Hfr p Hpp) as [A (gg & B1 & B2)].
    assert (E : forall l x, in_pixel (ang2pix nside) p l x * in_pixel (ang2pix nside) q l x = if Nat.eqb p q then in_pixel (ang2pix nside) p l x else 0).
    { intros l x. unfold in_pixel. destruct (Nat.eqb_spec (ang2pix nside l x) p) as [->|]; destruct (Nat.eqb p q) eqn:Eq; try ring. }
    destruct (Nat.eqb p q); split.
    - intros l Hl. destruct (A l Hl) as (ps & A1 & A2). exists ps. split; [exact A1|]. intros x Hx. rewrite E. apply A2, Hx.
    - exists gg. split; [|exact B2]. intros l Hl. eapply is_RInt_ext; [|apply (B1 l Hl)]. intros x _. cbn beta. rewrite E. reflexivity.
    - intros l _. destruct zero_patched as (ps & A1 & A2). exists ps. split; [exact A1|]. intros x Hx. rewrite E. apply A2, Hx.
    - destruct zero_mean as (g0 & Z1 & Z2). exists g0. split; [|exact Z2]. intros l Hl. eapply is_RInt_ext; [|apply (Z1 l Hl)]. intros x _. cbn beta. rewrite E. reflexivity. }
  assert (M1 : forall p, (p < length kappa)%nat -> points_mean [sphere_area * ngal] (N p) (lam p)).
  { clear p c Hpp. intros p Hpp. destruct (Hfr p Hpp) as [A B], (Prod p p Hpp Hpp) as [A' B'].
    apply (proj1 (uniform_positions_sums ngal _ _ _ _ _ A B A B A' B')). }
  assert (M2 : forall p q, (p < length kappa)%nat -> (q < length kappa)%nat -> points_mean [sphere_area * ngal] (fun s => N p s * N q s) (lam p * lam q + if Nat.eqb p q then lam p else 0)).
  { clear p c Hpp. intros p q Hpp Hq. destruct (Hfr p Hpp) as [A B], (Hfr q Hq) as [A2 B2], (Prod p q Hpp Hq) as [A' B'].
    eapply points_ext; [apply (proj2 (uniform_positions_sums ngal _ _ _ _ _ A B A2 B2 A' B'))|reflexivity|]. unfold lam. destruct (Nat.eqb p q); ring. }
  assert (Dr : forall n us, length us = (2 * n)%nat -> exists lon lat, length lon = n /\ length lat = n /\
    (forall p, N p ([(sphere_area * ngal, n)], us) = INR (count_occ Nat.eq_dec (map (fun '(x, y) => ang2pix nside x y) (combine lon lat)) p)) /\
    forall p l, map_at p ([(sphere_area * ngal, n)], us) l = shear_at p (observe numbers argsort ang2pix npix2nside chunk nside sigma lon lat
        kappa gamma1 gamma2 (repeat 0%nat (length kappa), repeat (RtoC 0) (length kappa)) l)).
  { intros n us L. destruct (drawn ngal n us ltac:(lia)) as (lon & lat & ct & s' & E & _ & L1 & L2 & _). exists lon, lat. split; [exact L1|]. split; [exact L2|].
    split; [intro p0; unfold N, points; rewrite E; symmetry; apply (count_sum (ang2pix nside))|]. intros p0 l. unfold map_at. rewrite E. reflexivity. }
  split.
  - exists (fun s => component c (g p) * N p s + 0 * N p s). split.
    + intros n us L. destruct (Dr n us L) as (lon & lat & L1 & L2 & EN & EM). rewrite EN, <- L1.
      eapply means_eq; [apply (observe_first argsort ang2pix npix2nside chunk nside sigma kappa gamma1 gamma2 Hso Hc H1 H2 Hn Hp Hs lon lat p c ltac:(congruence) Hpp (Hg p Hpp))| |].
      * intro l. cbn beta. rewrite L1, EM. reflexivity.
      * fold (g p). ring.
    + eapply points_ext; [apply (points_lin [sphere_area * ngal] _ _ _ _ (component c (g p)) 0 (M1 p Hpp) (M1 p Hpp))|reflexivity|ring].
  - intro d. destruct (sheared_product (sigma_eta sigma) (g p) c d (proj1 (eta_square sigma Hs)) (Hg p Hpp)) as [V HV]. exists V. split.
    { apply (intnorm_single (scalar 1%nat) (scalar sigma) sigma Hs (scalar_paired 1%nat sigma)). exact HV. }
    intros q Hq. set (W := if Nat.eqb p q then V - component c (g p) * component d (g p) else 0).
    exists (fun s => component c (g p) * component d (g q) * (N p s * N q s) + W * N p s). split.
    + intros n us L. destruct (Dr n us L) as (lon & lat & L1 & L2 & EN & EM). rewrite !EN, <- L1.
      eapply means_eq; [apply (observe_second argsort ang2pix npix2nside chunk nside sigma kappa gamma1 gamma2 Hso Hc H1 H2 Hn Hp Hs lon lat p q c d V ltac:(congruence) Hpp Hq (Hg p Hpp) (Hg q Hq) HV)| |].
      * intro l. cbn beta. rewrite L1, !EM. reflexivity.
      * fold (g p) (g q). unfold W. destruct (Nat.eqb p q); ring.
    + eapply points_ext; [apply (points_lin [sphere_area * ngal] _ _ _ _ (component c (g p) * component d (g q)) W (M2 p q Hpp Hq) (M1 p Hpp))|reflexivity|].
      unfold W. destruct (Nat.eqb_spec p q) as [<-|]; ring.
Qed.
Print Assumptions uniform_shear_map.

(** The two hemispheres as pixels, with 8 galaxies on average, and the reduced shears 1/10 and (1/5) / (1 - 1/2). *)
Definition hemispheres (_ : nat) (_ b : R) : nat := if Rle_dec 0 b then 1%nat else 0%nat.
Lemma south p : (p < 2)%nat -> exists r, proper r /\ covers r (1 / 2) /\ forall l b, -180 < l < 180 -> -90 < b < 90 -> in_pixel (hemispheres 1) p l b = in_patch r l b.
Proof.
  intro Hp. pose proof PI_RGT_0 as PP.
  assert (D : forall a b, is_RInt cos a b (sin b - sin a)).
  { intros a b. apply (is_RInt_derive (V := R_CompleteNormedModule) sin cos).
    - intros. auto_derive; [exact I|ring].
    - intros w _. apply (ex_derive_continuous (V := R_NormedModule)). auto_derive. exact I. }
  destruct p as [|[|p]]; [| |lia].
  - exists ((-180, 180), (-90, 0)). split; [unfold proper; cbn; lra|]. split.
    + exists (sin (angle 0) - sin (angle (-90))). split; [apply D|]. cbn [fst snd]. replace (angle 0) with 0 by (unfold angle; field). replace (angle (-90)) with (- (PI / 2)) by (unfold angle; field).
      rewrite sin_neg, sin_PI2, sin_0. unfold angle. field. lra.
    + intros l b Hl Hb. unfold in_pixel, hemispheres, in_patch, hit. cbn [fst snd]. destruct (Rle_dec (-180) l), (Rlt_dec l 180), (Rle_dec (-90) b), (Rlt_dec b 0), (Rle_dec 0 b); cbn [Nat.eqb]; lra.
  - exists ((-180, 180), (0, 90)). split; [unfold proper; cbn; lra|]. split.
    + exists (sin (angle 90) - sin (angle 0)). split; [apply D|]. cbn [fst snd]. replace (angle 0) with 0 by (unfold angle; field). replace (angle 90) with (PI / 2) by (unfold angle; field).
      rewrite sin_PI2, sin_0. unfold angle. field. lra.
    + intros l b Hl Hb. unfold in_pixel, hemispheres, in_patch, hit. cbn [fst snd]. destruct (Rle_dec (-180) l), (Rlt_dec l 180), (Rle_dec 0 b), (Rlt_dec b 90); cbn [Nat.eqb]; lra.
Qed.
Example uniform_shear_map_example :
  let map_at p s l := match uniform_positions counts_first ranges_second {| ashape := []; aget := fun _ => 8 / sphere_area |} s with
    | ([(lon, lat, _)], _) => shear_at p (observe numbers insertion hemispheres (fun _ => Ok 1%nat) 5 1 (1 / 4) lon lat
        [0; 1 / 2] [1 / 10; 1 / 5] [0; 0] ([0; 0]%nat, [RtoC 0; RtoC 0]) l)
    | _ => RtoC 0 end in
  catalogue_mean (sphere_area * (8 / sphere_area)) (fun s l => component true (map_at 1%nat s l)) (8 / 5) /\
  catalogue_mean (sphere_area * (8 / sphere_area)) (fun s l => component true (map_at 0%nat s l) * component true (map_at 1%nat s l)) (16 / 25).
Proof.
  intro map_at. assert (Hs : 1 / 4 < sqrt (1 / 2)) by (rewrite <- (sqrt_square (1 / 4)) by lra; apply sqrt_lt_1; lra).
  pose proof PI_RGT_0 as PP. assert (Ha : 0 < sphere_area).
  { unfold sphere_area. apply Rmult_lt_0_compat; [lra|]. apply pow_lt. apply Rdiv_lt_0_compat; lra. }
  assert (G : forall p, (p < 2)%nat -> Cdiv (nth p [1 / 10; 1 / 5] 0, nth p [0; 0] 0) (RtoC (1 - nth p [0; 1 / 2] 0)) = RtoC (if Nat.eqb p 0 then 1 / 10 else 2 / 5)).
  { intros [|[|p]] Hp; [| |lia]; cbn [nth Nat.eqb]; unfold Cdiv, Cinv, Cmult, RtoC; cbn [fst snd]; f_equal; field; lra. }
  pose proof (uniform_shear_map insertion hemispheres (fun _ => Ok 1%nat) 5 1 (1 / 4) [0; 1 / 2] [1 / 10; 1 / 5] [0; 0] (8 / sphere_area) (fun _ => 1 / 2) insertion_sorts
    ltac:(lia) eq_refl eq_refl eq_refl) as M.
  specialize (M ltac:(intros x y; unfold hemispheres; destruct (Rle_dec 0 y); cbn; lia) ltac:(lra)).
  match type of M with ?P -> _ => assert (F : P) end.
  { intros p Hp. destruct (south p Hp) as (r & Pr & Cr & E). split.
    - intros l Hl. destruct (patch_patched r l Pr) as (ps & A & B). exists ps. split; [exact A|]. intros x Hx. rewrite E by assumption. apply B, Hx.
    - destruct (patch_mean r _ Pr Cr) as (g & A & B). exists g. split; [|exact B]. intros l Hl. eapply is_RInt_ext; [|apply (A l Hl)].
      intros x Hx. rewrite Rmin_left, Rmax_right in Hx by lra. rewrite E by assumption. reflexivity. }
  specialize (M F). clear F.
  specialize (M ltac:(intros p Hp; cbn beta; rewrite G by exact Hp; rewrite Cmod_R; destruct (Nat.eqb p 0); rewrite Rabs_right; lra)). cbv zeta beta in M. split.
  - destruct (M 1%nat true ltac:(cbn; lia)) as [M1 _]. rewrite (G 1%nat ltac:(lia)) in M1. cbn [Nat.eqb nth] in M1. unfold component in M1 at 2. unfold RtoC in M1 at 4. cbn [fst] in M1.
    replace (8 / 5) with (sphere_area * (8 / sphere_area) * (1 / 2) * (2 / 5)) by (field; lra). exact M1.
  - destruct (M 0%nat true ltac:(cbn; lia)) as [_ M2]. destruct (M2 true) as (V & _ & M3). specialize (M3 1%nat ltac:(cbn; lia)).
    rewrite (G 0%nat ltac:(lia)), (G 1%nat ltac:(lia)) in M3. cbn [Nat.eqb nth] in M3.
    replace (16 / 25) with (sphere_area * (8 / sphere_area) * (1 / 2) * component true (RtoC (1 / 10)) * (sphere_area * (8 / sphere_area) * (1 / 2) * component true (RtoC (2 / 5))) + 0)
      by (unfold component, RtoC; cbn [fst]; field; lra). exact M3.
Qed.
