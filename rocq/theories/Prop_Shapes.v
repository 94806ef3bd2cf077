(** Claims about random ellipticities (C53, C54). *)
From Coq Require Import Reals Lra Psatz.
From Coquelicot Require Import Complex.
From Verif Require Import Base Model_Numeric Model_Arrays Model_Effective Model_Shapes
  Spec_Arrays Spec_Galaxies Spec_Points Spec_Shapes Proof_Arrays Proof_Galaxies Proof_Points Proof_Shapes.
Local Open Scope R_scope.

(** C53 *)

(** The axis ratio is that of the shadow of the ellipsoid along a line of sight whose polar angle has the first
    uniform numbers as cosine, and whose azimuth is the second.  It is between zero and one, and it is a number
    unless the body is seen as a point, which takes [zeta = 0]. *)
Theorem triaxial_axis_ratios {S} (uniform : S -> R -> R -> nat -> list R * S) zeta xi s u s1 phi s2 :
  length xi = length zeta ->
  uniform s (-1) 1 (length zeta) = (u, s1) -> length u = length zeta -> Forall (fun x => -1 <= x <= 1) u ->
  uniform s1 0 (2 * PI) (length zeta) = (phi, s2) -> length phi = length zeta ->
  exists q, triaxial_axis_ratio uniform zeta xi s = (q, s2) /\ length q = length zeta /\
    forall i z x v p, nth_error zeta i = Some z -> nth_error xi i = Some x ->
      nth_error u i = Some v -> nth_error phi i = Some p ->
      exists r, nth_error q i = Some r /\ apparent_ratio z x v p r /\
        (forall r', apparent_ratio z x v p r' -> r' = r) /\
        match r with Some r => 0 <= r <= 1 | None => z = 0 end.
Proof.
  intros Lx E1 L1 Hu E2 L2. unfold triaxial_axis_ratio. rewrite E1, E2. eexists. split; [reflexivity|].
  split; [rewrite map_length, !combine_length; lia|].
  intros i z x v p Hz Hx Hv Hp. exists (axis_ratio z x v p).
  assert (A : apparent_ratio z x v p (axis_ratio z x v p)).
  { apply axis_ratio_ok. rewrite Forall_forall in Hu. apply Hu. eapply nth_error_In. exact Hv. }
  split; [|split; [exact A|]].
  - rewrite nth_error_map', !nth_error_combine, Hz, Hx, Hv, Hp. reflexivity.
  - split; [intros r' H; eapply apparent_ratio_unique; [exact H|exact A]|].
    destruct (axis_ratio z x v p) as [r|] eqn:E; [eapply apparent_ratio_range; exact A|].
    destruct (Req_EM_T z 0) as [Z|Z]; [exact Z|]. exfalso. exact (apparent_ratio_some _ _ _ _ _ Z A eq_refl).
Qed.
Print Assumptions triaxial_axis_ratios.

(** A disc of thickness one half, seen at the polar angle of 60 degrees. *)
Example triaxial_axis_ratios_example :
  axis_ratio 1 (1 / 2) (1 / 2) 0 = Some (sqrt 7 / 4) /\
  apparent_ratio 1 (1 / 2) (1 / 2) 0 (Some (sqrt 7 / 4)).
Proof.
  assert (E : axis_ratio 1 (1 / 2) (1 / 2) 0 = Some (sqrt 7 / 4)).
  { unfold axis_ratio. rewrite cos_0. unfold nsqrt, ndiv.
    set (A := (1 + (1 * 1 - 1) * (1 - 1 * 1)) * (1 / 2 * (1 / 2)) + 1 / 2 * (1 / 2) * (1 - 1 / 2 * (1 / 2))).
    assert (HA : A = 7 / 16) by (unfold A; field). rewrite HA. clear A HA.
    set (X := (7 / 16 - (1 + (1 * 1 - 1) * (1 * 1))) * (7 / 16 - (1 + (1 * 1 - 1) * (1 * 1))) +
      4 * ((1 * 1 - 1) * (1 * 1 - 1)) * (1 / 2 * (1 / 2)) * (1 - 1 * 1) * (1 * 1)).
    assert (HX : X = 9 / 16 * (9 / 16)) by (unfold X; field). rewrite HX. clear X HX.
    destruct (Rlt_dec (9 / 16 * (9 / 16)) 0) as [L|_]; [exfalso; lra|]. cbn [obind]. rewrite sqrt_square by lra.
    destruct (Req_EM_T _ 0) as [L|_]; [exfalso; lra|]. cbn [obind].
    replace ((7 / 16 + (1 + (1 * 1 - 1) * (1 * 1)) - 9 / 16) / (7 / 16 + (1 + (1 * 1 - 1) * (1 * 1)) + 9 / 16)) with (7 / (4 * 4)) by field.
    destruct (Rlt_dec (7 / (4 * 4)) 0) as [L|_]; [exfalso; lra|]. f_equal.
    rewrite sqrt_div by lra. rewrite sqrt_square by lra. reflexivity. }
  split; [exact E|]. rewrite <- E. apply axis_ratio_ok. lra.
Qed.

(** What [ellipticity_ryden04] returns, and from which random numbers.  The logarithms [eps] and the numbers
    [gam] are normal, and drawn again only where they are out of range.  The ellipsoid with semi-axes 1, [zeta]
    and [xi] is seen as an ellipse; its axis ratio [q] gives the modulus and a uniform number the phase. *)
Theorem ryden04_shapes {S} (normal : S -> list R -> list R -> list R * S) (uniform : S -> R -> R -> nat -> list R * S)
    mu sigma gamma sigma_gamma n s out s' :
  (forall s m d, length (fst (normal s m d)) = length m) ->
  (forall s lo hi n, lo <= hi -> length (fst (uniform s lo hi n)) = n /\ Forall (fun x => lo <= x <= hi) (fst (uniform s lo hi n))) ->
  length mu = n -> length sigma = n -> length gamma = n -> length sigma_gamma = n ->
  ((exists fuel, ellipticity_ryden04 normal uniform fuel mu sigma gamma sigma_gamma s = Ok (out, s')) <->
   exists eps s1 gam s2 u s3 phi s4 t,
     length eps = n /\ rejection (fun e => e <= 0) (normals_at normal mu sigma) s (seq 0 n) eps s1 /\
     length gam = n /\ rejection (fun g => 0 <= g <= 1) (normals_at normal gamma sigma_gamma) s1 (seq 0 n) gam s2 /\
     uniform s2 (-1) 1 n = (u, s3) /\ uniform s3 0 (2 * PI) n = (phi, s4) /\ uniform s4 0 (2 * PI) n = (t, s') /\
     length out = n /\
     forall i e g v p a, nth_error eps i = Some e -> nth_error gam i = Some g ->
       nth_error u i = Some v -> nth_error phi i = Some p -> nth_error t i = Some a ->
       exists q, apparent_ratio (1 - exp e) ((1 - g) * (1 - exp e)) v p q /\
         nth_error out i = Some (option_map (fun q => from_polar ((1 - q) / (1 + q)) a) q)).
Proof.
  intros Hn Hu L1 L2 L3 L4. assert (HPI : 0 <= 2 * PI) by (pose proof PI_RGT_0; lra).
  assert (O1 : forall v, v <= 0 <-> ltb 0 v = false) by (intro v; unfold ltb; destruct (Rlt_dec 0 v); split; intros; try lra; congruence).
  assert (O2 : forall v, 0 <= v <= 1 <-> ltb v 0 || ltb 1 v = false).
  { intro v. unfold ltb. destruct (Rlt_dec v 0), (Rlt_dec 1 v); cbn; split; intros; try lra; congruence. }
  set (body := fun (eps gam : list R) s =>
    let zeta := map (fun e => - (exp e - 1)) eps in
    let xi := map (fun p => (1 - fst p) * snd p) (combine gam zeta) in
    let '(q, s) := triaxial_axis_ratio uniform zeta xi s in
    let '(t, s) := uniform s 0 (2 * PI) (length q) in
    (map (fun p : option R * R => option_map (fun q => Cmult (polar_complex 1 (snd p)) (RtoC ((1 - q) / (1 + q)))) (fst p)) (combine q t), s)).
  assert (Body : forall eps gam s2, length eps = n -> length gam = n ->
    (body eps gam s2 = (out, s') <->
     exists u s3 phi s4 t, uniform s2 (-1) 1 n = (u, s3) /\ uniform s3 0 (2 * PI) n = (phi, s4) /\ uniform s4 0 (2 * PI) n = (t, s') /\
     length out = n /\
     forall i e g v p a, nth_error eps i = Some e -> nth_error gam i = Some g ->
       nth_error u i = Some v -> nth_error phi i = Some p -> nth_error t i = Some a ->
       exists q, apparent_ratio (1 - exp e) ((1 - g) * (1 - exp e)) v p q /\
         nth_error out i = Some (option_map (fun q => from_polar ((1 - q) / (1 + q)) a) q))).
  { intros eps gam s2 Le Lg. unfold body. cbv zeta.
    set (zeta := map (fun e => - (exp e - 1)) eps). set (xi := map _ (combine gam zeta)).
    assert (Lz : length zeta = n) by (unfold zeta; rewrite map_length; exact Le).
    assert (Lx : length xi = length zeta) by (unfold xi; rewrite map_length, combine_length; lia).
    destruct (uniform s2 (-1) 1 n) as [u s3] eqn:E1. destruct (Hu s2 (-1) 1 n ltac:(lra)) as [Lu Fu]. rewrite E1 in Lu, Fu. cbn [fst] in Lu, Fu.
    destruct (uniform s3 0 (2 * PI) n) as [phi s4] eqn:E2. destruct (Hu s3 0 (2 * PI) n HPI) as [Lp Fp]. rewrite E2 in Lp, Fp. cbn [fst] in Lp, Fp.
    destruct (uniform s4 0 (2 * PI) n) as [t s5] eqn:E3. destruct (Hu s4 0 (2 * PI) n HPI) as [Lt Ft]. rewrite E3 in Lt, Ft. cbn [fst] in Lt, Ft.
    destruct (triaxial_axis_ratios uniform zeta xi s2 u s3 phi s4) as (q & Eq & Lq & Hq); try assumption; try (rewrite Lz; assumption).
    rewrite Eq, Lq, Lz, E3.
    set (res := map (fun p : option R * R => option_map (fun q => Cmult (polar_complex 1 (snd p)) (RtoC ((1 - q) / (1 + q)))) (fst p)) (combine q t)).
    assert (Lr : length res = n) by (unfold res; rewrite map_length, combine_length; lia).
    assert (Hres : forall i e g v p a, nth_error eps i = Some e -> nth_error gam i = Some g ->
       nth_error u i = Some v -> nth_error phi i = Some p -> nth_error t i = Some a ->
       exists q, apparent_ratio (1 - exp e) ((1 - g) * (1 - exp e)) v p q /\
         (forall q', apparent_ratio (1 - exp e) ((1 - g) * (1 - exp e)) v p q' -> q' = q) /\
         nth_error res i = Some (option_map (fun q => from_polar ((1 - q) / (1 + q)) a) q)).
    { intros i e g v p a He Hg Hv Hp Ha.
      assert (Hz : nth_error zeta i = Some (1 - exp e)) by (unfold zeta; rewrite nth_error_map', He; cbn [option_map]; f_equal; ring).
      assert (Hxi : nth_error xi i = Some ((1 - g) * (1 - exp e))) by (unfold xi; rewrite nth_error_map', nth_error_combine, Hg, Hz; reflexivity).
      destruct (Hq i _ _ _ _ Hz Hxi Hv Hp) as (r & Er & Ar & Ur & _). exists r. split; [exact Ar|]. split; [exact Ur|].
      unfold res. rewrite nth_error_map', nth_error_combine, Er, Ha. cbn [option_map fst snd]. f_equal.
      destruct r as [r|]; [|reflexivity]. cbn [option_map]. f_equal. unfold polar_complex, from_polar, Cmult, RtoC. cbn [fst snd]. f_equal; ring. }
    split.
    - intros [= <- <-]. exists u, s3, phi, s4, t. repeat (split; [first [reflexivity | assumption]|]).
      intros i e g v p a He Hg Hv Hp Ha. destruct (Hres i e g v p a He Hg Hv Hp Ha) as (r & ? & _ & ?). eauto.
    - intros (u' & s3' & phi' & s4' & t' & [= <- <-] & F2 & F3 & Lo & Ho). rewrite E2 in F2. injection F2 as <- <-. rewrite E3 in F3. injection F3 as <- <-.
      f_equal. apply nth_error_ext'. intro i. destruct (Nat.lt_ge_cases i n) as [Q|Q].
      + assert (G : forall l : list R, length l = n -> exists x, nth_error l i = Some x).
        { intros l Ll. destruct (nth_error l i) eqn:K; [eauto|]. apply nth_error_None in K. lia. }
        destruct (G eps Le) as [e He], (G gam Lg) as [g Hg], (G u Lu) as [v Hv], (G phi Lp) as [p Hp], (G t Lt) as [a Ha].
        destruct (Hres i e g v p a He Hg Hv Hp Ha) as (r & _ & Ur & ->). destruct (Ho i e g v p a He Hg Hv Hp Ha) as (r' & Ar' & ->).
        rewrite (Ur _ Ar'). reflexivity.
      + rewrite (proj2 (nth_error_None res i)), (proj2 (nth_error_None out i)) by lia. reflexivity. }
  assert (Run : forall fuel, ellipticity_ryden04 normal uniform fuel mu sigma gamma sigma_gamma s =
    (let '(eps, s) := normal s mu sigma in
     do r <- redraw_normal normal (fun e => ltb 0 e) fuel mu sigma eps s;
     let '(eps, s) := r in
     let '(gam, s) := normal s gamma sigma_gamma in
     do r <- redraw_normal normal (fun g => ltb g 0 || ltb 1 g) fuel gamma sigma_gamma gam s;
     let '(gam, s) := r in Ok (body eps gam s))).
  { intro fuel. unfold ellipticity_ryden04, body. destruct (normal s mu sigma) as [x s1]. 
    destruct (redraw_normal _ _ _ _ _ _ _) as [[eps s2]|]; cbn [bind]; [|reflexivity].
    destruct (normal s2 gamma sigma_gamma) as [y s3].
    destruct (redraw_normal normal (fun g => ltb g 0 || ltb 1 g) _ _ _ _ _) as [[gam s4]|]; cbn [bind]; [|reflexivity].
    destruct (triaxial_axis_ratio _ _ _ _) as [q s5]. destruct (uniform _ _ _ _). reflexivity. }
  clearbody body. destruct (normal s mu sigma) as [x0 t0] eqn:E0. split.
  - intros (fuel & H). rewrite Run in H.
    destruct (redraw_normal normal (fun e => ltb 0 e) _ _ _ _ _) as [[eps s1]|] eqn:R1; cbn [bind] in H; [|discriminate].
    destruct (normal s1 gamma sigma_gamma) as [y0 t1] eqn:E1.
    destruct (redraw_normal normal (fun g => ltb g 0 || ltb 1 g) _ _ _ _ _) as [[gam s2]|] eqn:R2; cbn [bind] in H; [|discriminate].
    injection H as H.
    destruct (proj1 (normal_rejection normal Hn mu sigma n L1 L2 _ _ O1 s x0 t0 eps s1 E0) (ex_intro _ fuel R1)) as [Le He].
    destruct (proj1 (normal_rejection normal Hn gamma sigma_gamma n L3 L4 _ _ O2 s1 y0 t1 gam s2 E1) (ex_intro _ fuel R2)) as [Lg Hg].
    apply Body in H; [|assumption|assumption]. destruct H as (u & s3 & phi & s4 & t & H).
    exists eps, s1, gam, s2, u, s3, phi, s4, t. repeat (split; [assumption|]). exact H.
  - intros (eps & s1 & gam & s2 & u & s3 & phi & s4 & t & Le & He & Lg & Hg & H).
    destruct (proj2 (normal_rejection normal Hn mu sigma n L1 L2 _ _ O1 s x0 t0 eps s1 E0) (conj Le He)) as [f1 R1].
    destruct (normal s1 gamma sigma_gamma) as [y0 t1] eqn:E1.
    destruct (proj2 (normal_rejection normal Hn gamma sigma_gamma n L3 L4 _ _ O2 s1 y0 t1 gam s2 E1) (conj Lg Hg)) as [f2 R2].
    exists (Nat.max f1 f2). rewrite Run.
    assert (Q1 : redraw_normal normal (fun e => ltb 0 e) (Nat.max f1 f2) mu sigma x0 t0 = Ok (eps, s1))
      by exact (redraw_normal_more _ _ _ (Nat.max f1 f2) _ _ _ _ _ (Nat.le_max_l f1 f2) R1). rewrite Q1. cbn [bind]. rewrite E1.
    rewrite (redraw_normal_more _ _ _ (Nat.max f1 f2) _ _ _ _ _ (Nat.le_max_r f1 f2) R2). cbn [bind]. f_equal.
    apply Body; [assumption|assumption|]. exists u, s3, phi, s4, t. exact H.
Qed.
Print Assumptions ryden04_shapes.

Lemma cmod_polar r t : 0 <= r -> Cmod (from_polar r t) = r.
Proof.
  intro H. unfold Cmod, from_polar. cbn [fst snd].
  replace ((r * cos t) ^ 2 + (r * sin t) ^ 2) with (r * r * (sin t * sin t + cos t * cos t)) by ring.
  rewrite sc1, Rmult_1_r. apply sqrt_square. exact H.
Qed.

(** The results are in the unit disc. *)
Theorem ryden04_disc {S} (normal : S -> list R -> list R -> list R * S) (uniform : S -> R -> R -> nat -> list R * S)
    fuel mu sigma gamma sigma_gamma s out s' e :
  (forall s m d, length (fst (normal s m d)) = length m) ->
  (forall s lo hi n, lo <= hi -> length (fst (uniform s lo hi n)) = n /\ Forall (fun x => lo <= x <= hi) (fst (uniform s lo hi n))) ->
  length sigma = length mu -> length gamma = length mu -> length sigma_gamma = length mu ->
  ellipticity_ryden04 normal uniform fuel mu sigma gamma sigma_gamma s = Ok (out, s') -> In (Some e) out -> Cmod e <= 1.
Proof.
  intros Hn Hu L2 L3 L4 H He. assert (HPI : 0 <= 2 * PI) by (pose proof PI_RGT_0; lra). apply In_nth_error in He. destruct He as [i Hi].
  assert (H' : exists fuel, ellipticity_ryden04 normal uniform fuel mu sigma gamma sigma_gamma s = Ok (out, s')) by eauto.
  clear H. rename H' into H. apply (ryden04_shapes normal uniform mu sigma gamma sigma_gamma (length mu)) in H; auto.
  destruct H as (eps & s1 & gam & s2 & u & s3 & phi & s4 & t & Le & _ & Lg & _ & E1 & E2 & E3 & Lo & H).
  assert (Q : (i < length mu)%nat) by (rewrite <- Lo; apply nth_error_Some; congruence).
  assert (G : forall l : list R, length l = length mu -> exists x, nth_error l i = Some x).
  { intros l Ll. destruct (nth_error l i) eqn:K; [eauto|]. apply nth_error_None in K. lia. }
  destruct (Hu s2 (-1) 1 (length mu) ltac:(lra)) as [Lu _]. rewrite E1 in Lu.
  destruct (Hu s3 0 (2 * PI) (length mu) HPI) as [Lp _]. rewrite E2 in Lp.
  destruct (Hu s4 0 (2 * PI) (length mu) HPI) as [Lt _]. rewrite E3 in Lt. cbn [fst] in *.
  destruct (G eps Le) as [a1 H1], (G gam Lg) as [a2 H2], (G u Lu) as [a3 H3], (G phi Lp) as [a4 H4], (G t Lt) as [a5 H5].
  destruct (H i _ _ _ _ _ H1 H2 H3 H4 H5) as (q & A & Eo). rewrite Hi in Eo. injection Eo as Eo.
  destruct q as [q|]; [|discriminate]. injection Eo as ->. apply apparent_ratio_range in A.
  assert (0 <= (1 - q) / (1 + q) <= 1).
  { split; [apply Rmult_le_pos; [lra|apply Rlt_le, Rinv_0_lt_compat; lra]|].
    apply (Rmult_le_reg_r (1 + q)); [lra|]. replace ((1 - q) / (1 + q) * (1 + q)) with (1 - q) by (field; lra). lra. }
  rewrite cmod_polar; lra.
Qed.
Print Assumptions ryden04_disc.

(** It does not always return numbers: [eps = 0] is in range, gives a body without extent in two directions, and
    seen along the third that is a point. *)
Definition constant_normal (s : unit) (m d : list R) : list R * unit := (m, s).
Definition constant_uniform (s : unit) (lo hi : R) (n : nat) : list R * unit := (repeat (if Rlt_dec lo 0 then if Rlt_dec 0 hi then 0 else lo else lo) n, s).

Theorem ryden04_number_refuted :
  ellipticity_ryden04 constant_normal constant_uniform 0 [0] [0] [1 / 2] [0] tt = Ok ([None], tt).
Proof.
  unfold ellipticity_ryden04, constant_normal, constant_uniform. cbn [redraw_normal map existsb].
  unfold ltb. destruct (Rlt_dec 0 0) as [L|_]; [exfalso; lra|]. cbn [orb bind].
  destruct (Rlt_dec (1 / 2) 0) as [L|_]; [exfalso; lra|]. destruct (Rlt_dec 1 (1 / 2)) as [L|_]; [exfalso; lra|]. cbn [orb bind].
  unfold triaxial_axis_ratio. cbn [length repeat combine map fst snd].
  destruct (Rlt_dec (-1) 0) as [_|L]; [|exfalso; lra]. destruct (Rlt_dec 0 1) as [_|L]; [|exfalso; lra]. destruct (Rlt_dec 0 0) as [L|_]; [exfalso; lra|].
  assert (E : axis_ratio (- (exp 0 - 1)) ((1 - 1 / 2) * - (exp 0 - 1)) 0 0 = None).
  { rewrite exp_0. destruct (axis_ratio _ _ 0 0) as [q|] eqn:E; [|reflexivity]. exfalso.
    assert (A : apparent_ratio (- (1 - 1)) ((1 - 1 / 2) * - (1 - 1)) 0 0 (Some q)) by (rewrite <- E; apply axis_ratio_ok; lra).
    destruct A as (a & b & ((m & [U O] & M) & _ & _) & _ & P & _). destruct m as [[x y] z].
    rewrite (extent_unique _ _ _ _ M (extent_ellipsoid _ _ x y z)) in P.
    unfold sight in O. cbn [dot] in O. rewrite cos_0, sin_0 in O. replace (1 - 0 ^ 2) with 1 in O by ring. rewrite sqrt_1 in O.
    assert (x = 0) by lra. subst x. replace (0 ^ 2 + (- (1 - 1)) ^ 2 * y ^ 2 + ((1 - 1 / 2) * - (1 - 1)) ^ 2 * z ^ 2) with 0 in P by field.
    rewrite sqrt_0 in P. lra. }
  rewrite E. reflexivity.
Qed.
Print Assumptions ryden04_number_refuted.

(** It does not always end: no number of rounds is enough if the mean is positive and there is no scatter. *)
Theorem ryden04_ends_refuted : forall fuel,
  ellipticity_ryden04 constant_normal constant_uniform fuel [1] [0] [1 / 2] [0] tt = Err OutOfFuel.
Proof.
  intro fuel. unfold ellipticity_ryden04. unfold constant_normal at 1.
  assert (E : redraw_normal constant_normal (fun e => ltb 0 e) fuel [1] [0] [1] tt = Err OutOfFuel).
  { assert (K : ltb 0 1 = true) by (unfold ltb; destruct (Rlt_dec 0 1) as [_|L]; [reflexivity|lra]).
    induction fuel as [|fuel IH]; cbn [redraw_normal map existsb]; rewrite K; cbn [orb]; [reflexivity|].
    unfold pick. cbn [combine filter fst map snd constant_normal overwrite].
    exact IH. }
  rewrite E. reflexivity.
Qed.
Print Assumptions ryden04_ends_refuted.

(** A proper case. *)
Example ryden04_example : exists e,
  ellipticity_ryden04 constant_normal constant_uniform 0 [-1] [0] [1 / 2] [0] tt = Ok ([Some e], tt) /\ Cmod e <= 1.
Proof.
  assert (H : exists out s', ellipticity_ryden04 constant_normal constant_uniform 0 [-1] [0] [1 / 2] [0] tt = Ok ([out], s') /\ out <> None).
  { unfold ellipticity_ryden04, constant_normal, constant_uniform. cbn [redraw_normal map existsb].
    unfold ltb. destruct (Rlt_dec 0 (-1)) as [L|_]; [exfalso; lra|]. cbn [orb bind].
    destruct (Rlt_dec (1 / 2) 0) as [L|_]; [exfalso; lra|]. destruct (Rlt_dec 1 (1 / 2)) as [L|_]; [exfalso; lra|]. cbn [orb bind].
    unfold triaxial_axis_ratio. cbn [length repeat combine map fst snd].
    destruct (Rlt_dec (-1) 0) as [_|L]; [|exfalso; lra]. destruct (Rlt_dec 0 1) as [_|L]; [|exfalso; lra]. destruct (Rlt_dec 0 0) as [L|_]; [exfalso; lra|].
    eexists. eexists. split; [reflexivity|].
    assert (Z : - (exp (-1) - 1) <> 0).
    { assert (exp (-1) < exp 0) by (apply exp_increasing; lra). rewrite exp_0 in *. lra. }
    pose proof (apparent_ratio_some _ ((1 - 1 / 2) * - (exp (-1) - 1)) 0 0 _ Z (axis_ratio_ok _ _ 0 0 ltac:(lra))) as K.
    destruct (axis_ratio _ _ 0 0); [discriminate|contradiction]. }
  destruct H as ([e|] & [] & H & K); [|contradiction]. exists e. split; [exact H|].
  eapply (ryden04_disc constant_normal constant_uniform); [| | | | |exact H|left; reflexivity]; try reflexivity.
  intros s lo hi n L. unfold constant_uniform. cbn [fst]. split; [apply repeat_length|].
  apply Forall_forall. intros x Hx. apply repeat_spec in Hx. subst x. destruct (Rlt_dec lo 0), (Rlt_dec 0 hi); lra.
Qed.

(** The normal ellipticities: for every pair of a count and a scale, in the order in which the last index of the
    arrays varies fastest, that many values are drawn; those outside the unit disc are drawn again. *)
Definition gaussian_population {S} (standard_normal : S -> nat -> list R * S) (s : S) (p : nat * R) (e : list C) (s' : S) : Prop :=
  length e = fst p /\
  rejection (fun e => Cmod e <= 1) (fun s idx => complex_normals standard_normal (snd p) s (length idx)) s (seq 0 (fst p)) e s'.

Theorem gaussian_shapes {S} (standard_normal : S -> nat -> list R * S) count sigma s out s' :
  (forall s n, length (fst (standard_normal s n)) = n) ->
  ((exists fuel, ellipticity_gaussian standard_normal fuel count sigma s = Ok (out, s')) <->
   exists pops parts, paired count sigma pops /\
     in_turn (gaussian_population standard_normal) s pops parts s' /\ out = concat parts).
Proof.
  intro Hn. unfold ellipticity_gaussian.
  assert (More : forall f f' l s r, (f <= f')%nat -> gaussian_populations standard_normal f l s = Ok r ->
    gaussian_populations standard_normal f' l s = Ok r).
  { clear. intros f f' l. induction l as [|[n g] l IH]; intros s r L H; cbn [gaussian_populations] in *; [exact H|].
    destruct (random_complex _ _ _) as [e s1].
    destruct (redraw_complex standard_normal f g _ s1) as [[e' s2]|] eqn:E; cbn [bind] in H; [|discriminate].
    rewrite (redraw_complex_more _ _ _ _ _ _ _ L E). cbn [bind].
    destruct (gaussian_populations standard_normal f l s2) as [[rest s3]|] eqn:E2; cbn [bind] in H; [|discriminate].
    rewrite (IH _ _ L E2). exact H. }
  assert (Main : forall l s out s', (exists fuel, gaussian_populations standard_normal fuel l s = Ok (out, s')) <->
    exists parts, in_turn (gaussian_population standard_normal) s l parts s' /\ out = concat parts).
  { clear s out s'. induction l as [|[n g] l IH]; intros s out s'.
    - split.
      + intros (fuel & H). cbn in H. injection H as <- <-. exists []. split; [constructor|reflexivity].
      + intros (parts & H & ->). inversion H; subst. exists 0%nat. reflexivity.
    - destruct (random_complex standard_normal n s) as [e s1] eqn:Er. split.
      + intros (fuel & H). cbn [gaussian_populations] in H. rewrite Er in H.
        destruct (redraw_complex standard_normal fuel g _ s1) as [[e' s2]|] eqn:E; cbn [bind] in H; [|discriminate].
        destruct (gaussian_populations standard_normal fuel l s2) as [[rest s3]|] eqn:E2; cbn [bind] in H; [|discriminate].
        injection H as <- <-.
        destruct (proj1 (IH s2 rest s3) (ex_intro _ fuel E2)) as (parts & Hp & ->).
        exists (e' :: parts). split; [|reflexivity]. econstructor; [|exact Hp].
        exact (proj1 (complex_rejection standard_normal Hn g n s e s1 e' s2 Er) (ex_intro _ fuel E)).
      + intros (parts & H & ->). inversion H as [|? ? ? e' ps s2 ? Hs Ht]; subst.
        destruct (proj2 (complex_rejection standard_normal Hn g n s e s1 e' s2 Er) Hs) as [f1 R1].
        destruct (proj2 (IH s2 (concat ps) s') (ex_intro _ ps (conj Ht eq_refl))) as [f2 R2].
        exists (Nat.max f1 f2). cbn [gaussian_populations]. rewrite Er.
        rewrite (redraw_complex_more _ _ _ _ _ _ _ (Nat.le_max_l f1 f2) R1). cbn [bind].
        rewrite (More _ _ _ _ _ (Nat.le_max_r f1 f2) R2). reflexivity. }
  split.
  - intros (fuel & H). destruct (populations count sigma) as [l|] eqn:Ep; cbn [bind] in H; [|discriminate].
    destruct (proj1 (Main l s out s') (ex_intro _ fuel H)) as (parts & ? & ?).
    exists l, parts. split; [apply populations_iff; exact Ep|]. auto.
  - intros (l & parts & Hp & H). apply populations_iff in Hp. rewrite Hp. cbn [bind]. apply Main. eauto.
Qed.
Print Assumptions gaussian_shapes.

(** In particular there are as many as asked for, all in the unit disc. *)
Theorem gaussian_disc {S} (standard_normal : S -> nat -> list R * S) fuel count sigma s out s' :
  (forall s n, length (fst (standard_normal s n)) = n) ->
  ellipticity_gaussian standard_normal fuel count sigma s = Ok (out, s') ->
  Forall (fun e => Cmod e <= 1) out /\
  exists pops, paired count sigma pops /\ length out = list_sum (map fst pops).
Proof.
  intros Hn H. assert (H' : exists fuel, ellipticity_gaussian standard_normal fuel count sigma s = Ok (out, s')) by eauto.
  apply gaussian_shapes in H'; [|exact Hn]. destruct H' as (pops & parts & Hp & Ht & ->).
  clear H. assert (G : Forall (fun e => Cmod e <= 1) (concat parts) /\ length (concat parts) = list_sum (map fst pops)).
  { clear Hp. induction Ht as [s|s p pops e parts s1 s2 [L Hs] Ht [IH1 IH2]]; [split; [constructor|reflexivity]|].
    cbn [concat map list_sum fold_right]. split.
    - apply Forall_app. split; [|exact IH1]. apply Forall_forall. intros v Hv. apply In_nth_error in Hv. destruct Hv as [i Hi].
      destruct (rejection_ok _ _ _ _ _ _ Hs i) as (w & Hw & K).
      { apply in_seq. split; [lia|]. cbn. rewrite <- L. apply nth_error_Some. congruence. }
      rewrite Hi in Hw. injection Hw as ->. exact K.
    - rewrite app_length, IH2. unfold list_sum. rewrite L. reflexivity. }
  destruct G. split; [assumption|]. exists pops. auto.
Qed.
Print Assumptions gaussian_disc.

(** Two populations; the first value of the first one is rejected once. *)
Definition counting_normal (s n : nat) : list R * nat :=
  (map (fun k => match k with 0%nat => 3 | _ => 1 / 2 end) (seq s n), (s + n)%nat).
Example gaussian_example :
  ellipticity_gaussian counting_normal 1 {| ashape := [2%nat]; aget := fun _ => 1%nat |}
    {| ashape := [1%nat]; aget := fun _ => 1 |} 0%nat = Ok ([(1 / 2, 1 / 2); (1 / 2, 1 / 2)], 6%nat).
Proof.
  unfold ellipticity_gaussian. cbn -[counting_normal gaussian_populations].
  assert (B : ltb 1 (Cmod (Cmult (3, 1 / 2) (RtoC 1))) = true).
  { apply Proof_Numeric.ltb_true. unfold Cmult, RtoC, Cmod. cbn [fst snd].
    rewrite <- sqrt_1 at 1. apply sqrt_lt_1; lra. }
  assert (G : ltb 1 (Cmod (Cmult (1 / 2, 1 / 2) (RtoC 1))) = false).
  { apply Proof_Numeric.ltb_false. unfold Cmult, RtoC, Cmod. cbn [fst snd].
    apply Rle_trans with (sqrt 1); [apply sqrt_le_1; lra|rewrite sqrt_1; lra]. }
  assert (E : Cmult (1 / 2, 1 / 2) (RtoC 1) = (1 / 2, 1 / 2)) by (unfold Cmult, RtoC; cbn [fst snd]; f_equal; field).
  unfold populations. cbn [broadcast_shapes ashape bind broadcast2]. cbn -[gaussian_populations Rdiv].
  cbn [gaussian_populations]. unfold random_complex, counting_normal.
  cbn [combine map seq Nat.add redraw_complex existsb]. rewrite !B. cbn [orb filter length].
  unfold random_complex. cbn [combine map seq Nat.add overwrite existsb].
  cbn [redraw_complex map existsb]. rewrite !G. cbn [orb bind]. rewrite E. cbn [redraw_complex].
  cbn [Nat.add]. rewrite !G. cbn [orb bind app]. rewrite E. reflexivity.
Qed.

(** Intrinsically normal ellipticities: their logarithmic axis ratios are normal, with a scale from a fit. *)
Definition intnorm_population {S} (standard_normal : S -> nat -> list R * S) (s : S) (p : nat * R) (e : list C) (s' : S) : Prop :=
  exists scale etas, 0 <= scale /\ scale ^ 2 * (2 - 4 * snd p ^ 2) = snd p ^ 2 * (8 + 5 * snd p ^ 2) /\
    complex_normals standard_normal scale s (fst p) etas s' /\ Forall2 log_axis_ratio e etas.

Theorem intnorm_shapes {S} (standard_normal : S -> nat -> list R * S) count sigma s pops :
  (forall s n, length (fst (standard_normal s n)) = n) ->
  paired count sigma pops -> Forall (fun p => 0 <= snd p < sqrt (1 / 2)) pops ->
  exists out s' parts, ellipticity_intnorm standard_normal count sigma s = Ok (out, s') /\ out = concat parts /\
    in_turn (intnorm_population standard_normal) s pops parts s' /\
    length out = list_sum (map fst pops) /\ Forall (fun e => Cmod e < 1) out.
Proof.
  intros Hn Hp Hs. unfold ellipticity_intnorm. apply populations_iff in Hp. rewrite Hp. cbn [bind].
  replace (forallb _ pops) with true.
  2:{ symmetry. apply forallb_forall. intros p Q. rewrite Forall_forall in Hs. specialize (Hs p Q).
      rewrite Proof_Numeric.leb_true, Proof_Numeric.ltb_true by lra. reflexivity. }
  assert (G : exists out s' parts, intnorm_populations standard_normal pops s = (out, s') /\ out = concat parts /\
    in_turn (intnorm_population standard_normal) s pops parts s' /\
    length out = list_sum (map fst pops) /\ Forall (fun e => Cmod e < 1) out).
  { clear Hp. revert s. induction Hs as [|[n g] pops Hg Hs IH]; intro s; cbn [intnorm_populations].
    - exists [], s, []. repeat split; constructor.
    - destruct (random_complex standard_normal n s) as [e s1] eqn:Er.
      destruct (IH s1) as (out & s' & parts & Ei & -> & Ht & Lo & Hd). rewrite Ei.
      pose proof (scaled_spec standard_normal Hn s n e s1 Er (sigma_eta g)) as Q.
      set (part := map (fun x => shrink (Cmult x (RtoC (sigma_eta g)))) e).
      assert (F : Forall2 log_axis_ratio part (map (fun x => Cmult x (RtoC (sigma_eta g))) e)).
      { unfold part. clear. induction e; cbn; constructor; [apply shrink_spec|exact IHe]. }
      exists (part ++ concat parts), s', (part :: parts). split; [reflexivity|]. split; [reflexivity|]. split; [|split].
      + econstructor; [|exact Ht]. cbn [snd fst] in *.
        assert (U : g * g < 1 / 2).
        { pose proof (sqrt_sqrt (1 / 2) ltac:(lra)). pose proof (sqrt_pos (1 / 2)). nra. }
        assert (U0 : 0 <= (8 + 5 * (g * g)) / (2 - 4 * (g * g))).
        { apply Rmult_le_pos; [nra|]. apply Rlt_le, Rinv_0_lt_compat. lra. }
        exists (sigma_eta g), (map (fun x => Cmult x (RtoC (sigma_eta g))) e). split; [|split; [|split; [exact Q|exact F]]].
        * unfold sigma_eta. apply Rmult_le_pos; [lra|apply sqrt_pos].
        * unfold sigma_eta. cbn [snd]. replace ((g * sqrt ((8 + 5 * (g * g)) / (2 - 4 * (g * g)))) ^ 2)
            with (g ^ 2 * (sqrt ((8 + 5 * (g * g)) / (2 - 4 * (g * g))) * sqrt ((8 + 5 * (g * g)) / (2 - 4 * (g * g))))) by ring.
          rewrite sqrt_sqrt by exact U0. field. lra.
      + rewrite app_length, Lo. cbn [map fst list_sum fold_right]. unfold part. rewrite map_length.
        destruct Q as (_ & _ & _ & _ & _ & L & _). rewrite map_length in L. rewrite L. reflexivity.
      + apply Forall_app. split; [|exact Hd]. unfold part. apply Forall_forall. intros v Hv. apply in_map_iff in Hv.
        destruct Hv as (x & <- & _). apply shrink_spec. }
  destruct G as (out & s' & parts & -> & H). exists out, s', parts. split; [reflexivity|exact H].
Qed.
Print Assumptions intnorm_shapes.

(** The scale is refused outside the interval from 0 to the square root of one half. *)
Theorem intnorm_rejected {S} (standard_normal : S -> nat -> list R * S) count sigma s pops :
  paired count sigma pops -> Exists (fun p => snd p < 0 \/ sqrt (1 / 2) <= snd p) pops ->
  ellipticity_intnorm standard_normal count sigma s = Err ValueError.
Proof.
  intros Hp H. unfold ellipticity_intnorm. apply populations_iff in Hp. rewrite Hp. cbn [bind].
  replace (forallb _ pops) with false; [reflexivity|]. symmetry. apply Exists_exists in H. destruct H as (p & Hi & K).
  destruct (forallb _ pops) eqn:E; [|reflexivity]. rewrite forallb_forall in E. specialize (E p Hi).
  apply andb_prop in E. destruct E as [E1 E2]. unfold leb in E1. unfold ltb in E2.
  destruct (Rle_dec 0 (snd p)); [|discriminate]. destruct (Rlt_dec (snd p) (sqrt (1 / 2))); [|discriminate]. lra.
Qed.
Print Assumptions intnorm_rejected.

Example intnorm_example : exists e s', ellipticity_intnorm counting_normal {| ashape := [1%nat]; aget := fun _ => 2%nat |}
    {| ashape := []; aget := fun _ => 1 / 2 |} 0%nat = Ok (e, s') /\ length e = 2%nat /\ Forall (fun e => Cmod e < 1) e.
Proof.
  destruct (intnorm_shapes counting_normal {| ashape := [1%nat]; aget := fun _ => 2%nat |}
    {| ashape := []; aget := fun _ => 1 / 2 |} 0%nat [(2%nat, 1 / 2)]) as (e & s' & parts & H & _ & _ & L & F).
  - intros s n. unfold counting_normal. cbn [fst]. rewrite map_length, seq_length. reflexivity.
  - apply populations_iff. reflexivity.
  - constructor; [|constructor]. cbn [snd]. split; [lra|].
    rewrite <- (sqrt_square (1 / 2)) at 1 by lra. apply sqrt_lt_1; lra.
  - exists e, s'. auto.
Qed.

(** C54 *)

Section Resample.
  Context {S : Type} (uniform : S -> R -> R -> nat -> list R * S).
  Variables (epsilon : list C) (s s1 : S) (t : list R).
  Hypothesis Hu : uniform s 0 (2 * PI) (length epsilon) = (t, s1).
  Hypothesis Lt : length t = length epsilon.

  Lemma moduli : map (fun e : C => sqrt (fst e * fst e + snd e * snd e)) epsilon = map Cmod epsilon.
  Proof. apply map_ext. intro e. apply modulus_eq. Qed.

  Lemma resample_run varg vargamma f : resample_factor (map Cmod epsilon) varg vargamma = Ok (Some f) ->
    exists out, resample_shapes uniform epsilon varg vargamma s = Ok (out, s1) /\ reoriented epsilon f t out.
  Proof.
    intro H. unfold resample_shapes. rewrite moduli, H. cbn [bind]. rewrite map_length, Hu. eexists. split; [reflexivity|].
    split; [rewrite map_length, combine_length, map_length; lia|].
    intros i e a He Ha. rewrite nth_error_map', nth_error_combine, nth_error_map', He, Ha. cbn [option_map fst snd].
    f_equal. f_equal. unfold polar_complex, from_polar. f_equal; ring.
  Qed.

  Lemma resample_nan varg vargamma : resample_factor (map Cmod epsilon) varg vargamma = Ok None ->
    resample_shapes uniform epsilon varg vargamma s = Ok (repeat None (length epsilon), s1).
  Proof.
    intro H. unfold resample_shapes. rewrite moduli, H. cbn [bind]. rewrite map_length, Hu. f_equal. f_equal.
    cbn [option_map]. rewrite <- Lt. clear - Lt. revert t Lt. induction epsilon as [|e l IH]; intros [|a t] L; try discriminate; [reflexivity|].
    cbn in L |- *. f_equal. apply IH. lia.
  Qed.
End Resample.

Lemma total_fold l : total l = fold_right Rplus 0 l.
Proof. induction l as [|x l IH]; cbn; [reflexivity|]. rewrite <- IH. reflexivity. Qed.

Lemma nmean_ok l : l <> [] -> nmean l = Some (mean_of l).
Proof.
  intro H. unfold nmean, ndiv, mean_of. destruct (Req_EM_T (INR (length l)) 0) as [E|E].
  - exfalso. destruct l; [contradiction|]. apply (not_0_INR (length (r :: l))); [discriminate|exact E].
  - rewrite total_fold. reflexivity.
Qed.

Lemma mean_lin {A} (l : list A) (f g : A -> R) a b :
  mean_of (map (fun x => a * f x + b * g x) l) = a * mean_of (map f l) + b * mean_of (map g l).
Proof.
  unfold mean_of. rewrite !map_length.
  assert (E : fold_right Rplus 0 (map (fun x => a * f x + b * g x) l) =
    a * fold_right Rplus 0 (map f l) + b * fold_right Rplus 0 (map g l)).
  { induction l as [|x l IH]; cbn; [ring|]. rewrite IH. ring. }
  rewrite E. unfold Rdiv. ring.
Qed.

Lemma mean_one {A} (l : list A) : l <> [] -> mean_of (map (fun _ => 1) l) = 1.
Proof.
  intro H. unfold mean_of. rewrite map_length.
  assert (E : fold_right Rplus 0 (map (fun _ : A => 1) l) = INR (length l)).
  { clear H. induction l as [|x l IH]; [reflexivity|]. cbn [map fold_right length]. rewrite IH, S_INR. ring. }
  rewrite E. unfold Rdiv. apply Rinv_r. apply not_0_INR. destruct l; [contradiction|discriminate].
Qed.

Lemma mean_nonneg {A} (l : list A) f : (forall x, 0 <= f x) -> 0 <= mean_of (map f l).
Proof.
  intro H. unfold mean_of.
  assert (E : 0 <= fold_right Rplus 0 (map f l)) by (induction l as [|x l IH]; cbn; [lra|specialize (H x); lra]).
  destruct (Req_EM_T (INR (length (map f l))) 0) as [Z|Z].
  - rewrite Z. unfold Rdiv. rewrite Rinv_0. lra.
  - apply Rmult_le_pos; [exact E|]. apply Rlt_le, Rinv_0_lt_compat. pose proof (pos_INR (length (map f l))). lra.
Qed.

(** The moments of the moduli. *)
Definition moment (k : nat) (epsilon : list C) : R := mean_of (map (fun e => Cmod e ^ k) epsilon).

(** Numbers in a list of values that may be NaN. *)
Definition numbers (out : list (option C)) (es : list C) : Prop := out = map Some es.

Lemma reoriented_numbers epsilon f t out : 0 <= f -> length t = length epsilon -> reoriented epsilon f t out ->
  exists es, numbers out es /\ Forall2 (fun e e' => Cmod e' = f * Cmod e) epsilon es.
Proof.
  intros Hf L [Lo H]. exists (map (fun p => from_polar (f * Cmod (fst p)) (snd p)) (combine epsilon t)). split.
  - unfold numbers. apply nth_error_ext'. intro i. rewrite !nth_error_map', nth_error_combine.
    destruct (nth_error epsilon i) as [e|] eqn:E.
    + destruct (nth_error t i) as [a|] eqn:Ea; [rewrite (H i e a E Ea); reflexivity|].
      exfalso. apply nth_error_None in Ea. assert (i < length epsilon)%nat by (apply nth_error_Some; congruence). lia.
    + apply nth_error_None in E. cbn. apply nth_error_None. lia.
  - clear H Lo out. revert t L. induction epsilon as [|e l IH]; intros [|a t] L; try discriminate; [constructor|].
    cbn [combine map fst snd]. constructor; [|apply IH; cbn in L; lia].
    apply cmod_polar. apply Rmult_le_pos; [exact Hf|apply Cmod_ge_0].
Qed.

Lemma reoriented_mean epsilon es f (F : R -> R) : Forall2 (fun e e' => Cmod e' = f * Cmod e) epsilon es ->
  mean_of (map (fun e => F (Cmod e)) es) = mean_of (map (fun e => F (f * Cmod e)) epsilon).
Proof.
  intro H. f_equal. induction H as [|e e' l l' E H IH]; [reflexivity|]. cbn. rewrite E, IH. reflexivity.
Qed.

(** Without a variance, only the orientations change. *)
Theorem resample_orientations {S} (uniform : S -> R -> R -> nat -> list R * S) epsilon s s1 t :
  uniform s 0 (2 * PI) (length epsilon) = (t, s1) -> length t = length epsilon ->
  exists out, resample_shapes uniform epsilon None None s = Ok (out, s1) /\ reoriented epsilon 1 t out.
Proof. intros Hu Lt. apply resample_run; auto. Qed.
Print Assumptions resample_orientations.

(** With the variance of the shear, all moduli shrink by the same factor, and the second moment is less by that variance. *)
Theorem resample_vargamma {S} (uniform : S -> R -> R -> nat -> list R * S) epsilon s s1 t v :
  uniform s 0 (2 * PI) (length epsilon) = (t, s1) -> length t = length epsilon ->
  0 < moment 2 epsilon -> 0 <= v <= moment 2 epsilon ->
  exists out f es, resample_shapes uniform epsilon None (Some v) s = Ok (out, s1) /\ reoriented epsilon f t out /\
    0 <= f <= 1 /\ numbers out es /\ moment 2 es = moment 2 epsilon - v.
Proof.
  intros Hu Lt Hp Hv. set (V := moment 2 epsilon) in *.
  assert (Hne : epsilon <> []). { intros ->. unfold V, moment, mean_of in Hp. cbn in Hp. unfold Rdiv in Hp. rewrite Rmult_0_l in Hp. lra. }
  assert (Hq : 0 <= v / V <= 1).
  { split; [apply Rmult_le_pos; [lra|apply Rlt_le, Rinv_0_lt_compat; lra]|].
    apply (Rmult_le_reg_r V); [lra|]. replace (v / V * V) with v by (field; lra). lra. }
  set (f := sqrt (1 - v / V)).
  assert (E : resample_factor (map Cmod epsilon) None (Some v) = Ok (Some f)).
  { unfold resample_factor. rewrite map_map. rewrite nmean_ok by (destruct epsilon; [contradiction|discriminate]).
    change (mean_of (map (fun x => Cmod x ^ 2) epsilon)) with V. destruct (Rlt_dec V v) as [L|_]; [lra|].
    unfold ndiv. destruct (Req_EM_T V 0) as [Z|_]; [lra|]. cbn [obind]. unfold nsqrt. destruct (Rlt_dec (1 - v / V) 0) as [L|_]; [lra|]. reflexivity. }
  destruct (resample_run uniform epsilon s s1 t Hu Lt _ _ f E) as (out & Ho & Hr).
  assert (Hf : 0 <= f) by apply sqrt_pos.
  destruct (reoriented_numbers _ _ _ _ Hf Lt Hr) as (es & Hn & H2).
  exists out, f, es. split; [exact Ho|]. split; [exact Hr|]. split; [split; [exact Hf|]|split; [exact Hn|]].
  - rewrite <- sqrt_1. apply sqrt_le_1; lra.
  - unfold moment. rewrite (reoriented_mean epsilon es f (fun r => r ^ 2) H2).
    rewrite (map_ext _ (fun e => f ^ 2 * (Cmod e ^ 2) + 0 * 0)) by (intro; ring).
    rewrite (mean_lin epsilon (fun e => Cmod e ^ 2) (fun _ => 0)). change (mean_of (map (fun e => Cmod e ^ 2) epsilon)) with V.
    replace (f ^ 2) with (f * f) by ring. unfold f. rewrite sqrt_sqrt by lra. field. lra.
Qed.
Print Assumptions resample_vargamma.

(** With the variance [v] of the reduced shear, all moduli shrink by the same factor so that adding the contribution
    [v (1 - r^2)^2] of the shear to the squared modulus restores the second moment. *)
Theorem resample_varg {S} (uniform : S -> R -> R -> nat -> list R * S) epsilon s s1 t v :
  uniform s 0 (2 * PI) (length epsilon) = (t, s1) -> length t = length epsilon ->
  0 < v <= moment 2 epsilon ->
  exists out f es, resample_shapes uniform epsilon (Some v) None s = Ok (out, s1) /\ reoriented epsilon f t out /\
    0 <= f <= 1 /\ numbers out es /\
    mean_of (map (fun e => Cmod e ^ 2 + v * (1 - Cmod e ^ 2) ^ 2) es) = moment 2 epsilon.
Proof.
  intros Hu Lt Hv. set (V := moment 2 epsilon) in *. set (W := moment 4 epsilon).
  assert (Hne : epsilon <> []). { intros ->. unfold V, moment, mean_of in Hv. cbn in Hv. unfold Rdiv in Hv. rewrite Rmult_0_l in Hv. lra. }
  assert (HW : V * V <= W).
  { pose proof (mean_nonneg epsilon (fun e => (Cmod e ^ 2 - V) ^ 2) (fun e => pow2_ge_0 _)) as N.
    rewrite (map_ext _ (fun e => 1 * (Cmod e ^ 4) + 1 * ((- 2 * V) * (Cmod e ^ 2) + (V * V) * 1))) in N by (intro; ring).
    rewrite (mean_lin epsilon (fun e => Cmod e ^ 4)), (mean_lin epsilon (fun e => Cmod e ^ 2) (fun _ => 1)), mean_one in N by exact Hne.
    change (mean_of (map (fun e => Cmod e ^ 4) epsilon)) with W in N. change (mean_of (map (fun e => Cmod e ^ 2) epsilon)) with V in N. lra. }
  assert (HP : 0 <= W - 2 * V + 1).
  { pose proof (mean_nonneg epsilon (fun e => (Cmod e ^ 2 - 1) ^ 2) (fun e => pow2_ge_0 _)) as N.
    rewrite (map_ext _ (fun e => 1 * (Cmod e ^ 4) + 1 * ((- 2) * (Cmod e ^ 2) + 1 * 1))) in N by (intro; ring).
    rewrite (mean_lin epsilon (fun e => Cmod e ^ 4)), (mean_lin epsilon (fun e => Cmod e ^ 2) (fun _ => 1)), mean_one in N by exact Hne.
    change (mean_of (map (fun e => Cmod e ^ 4) epsilon)) with W in N. change (mean_of (map (fun e => Cmod e ^ 2) epsilon)) with V in N. lra. }
  assert (W0 : 0 < W) by nra. set (B := (1 - 2 * v) * V). 
  assert (HvW : 0 < v * W) by (apply Rmult_lt_0_compat; lra).
  assert (HX : 0 <= 4 * v * W * (V - v)) by (apply Rmult_le_pos; [lra|lra]).
  assert (Hdisc : 0 <= B ^ 2 + 4 * v * W * (V - v)) by (pose proof (pow2_ge_0 B); lra).
  set (root := sqrt (B ^ 2 + 4 * v * W * (V - v))).
  assert (Hroot : root * root = B ^ 2 + 4 * v * W * (V - v)) by (apply sqrt_sqrt; exact Hdisc).
  assert (Rpos : 0 <= root) by apply sqrt_pos.
  assert (RB : B <= root).
  { destruct (Rle_lt_dec B 0) as [L|L]; [lra|]. apply Rsqr_incr_0_var; [unfold Rsqr; rewrite Hroot; lra|exact Rpos]. }
  set (x := (root - B) / (2 * v * W)).
  assert (Hx : 0 <= x) by (apply Rmult_le_pos; [lra|apply Rlt_le, Rinv_0_lt_compat; lra]).
  assert (Hx1 : x <= 1).
  { apply (Rmult_le_reg_r (2 * v * W)); [lra|]. unfold x. replace ((root - B) / (2 * v * W) * (2 * v * W)) with (root - B) by (field; lra).
    assert (root <= B + 2 * v * W); [|lra]. 
    assert (N0 : 0 <= v * (W - 2 * V + 1)) by (apply Rmult_le_pos; lra).
    assert (Q : 0 <= B + 2 * v * W).
    { unfold B. destruct (Rle_lt_dec v (1 / 2)) as [L|L].
      - assert (0 <= (1 - 2 * v) * V) by (apply Rmult_le_pos; lra). lra.
      - replace ((1 - 2 * v) * V + 2 * v * W) with (V * 1 + 2 * v * (W - V)) by ring.
        assert (1 / 2 < V) by lra.
        assert (v * (2 * (W - V) + 1) >= 0 \/ v * (2 * (W - V) + 1) < 0) as [K|K] by lra; [|nra]. nra. }
    apply Rsqr_incr_0_var; [|exact Q]. unfold Rsqr. rewrite Hroot.
    replace ((B + 2 * v * W) * (B + 2 * v * W)) with (B ^ 2 + 4 * v * W * (B + v * W)) by ring.
    apply Rplus_le_compat_l. apply Rmult_le_compat_l; [lra|]. unfold B. lra. }
  assert (Eq : v * W * (x * x) + B * x - (V - v) = 0).
  { assert (Er : root = 2 * v * W * x + B) by (unfold x; field; lra). rewrite Er in Hroot.
    assert (4 * v * W * (v * W * (x * x) + B * x - (V - v)) = 0) as K by (ring_simplify; ring_simplify in Hroot; lra).
    apply Rmult_integral in K. lra. }
  set (f := sqrt x). assert (Hf : 0 <= f) by apply sqrt_pos.
  assert (Ff : f * f = x) by (apply sqrt_sqrt; exact Hx).
  assert (E : resample_factor (map Cmod epsilon) (Some v) None = Ok (Some f)).
  { unfold resample_factor. rewrite !map_map. rewrite !nmean_ok by (destruct epsilon; [contradiction|discriminate]).
    change (mean_of (map (fun x => Cmod x ^ 2) epsilon)) with V. change (mean_of (map (fun x => Cmod x ^ 4) epsilon)) with W.
    destruct (Rlt_dec V v) as [L|_]; [lra|]. cbn [obind]. fold B. unfold nsqrt at 1.
    destruct (Rlt_dec (B ^ 2 + 4 * v * W * (V - v)) 0) as [L|_]; [lra|]. cbn [obind]. fold root.
    unfold ndiv. destruct (Req_EM_T (2 * v * W) 0) as [Z|_]; [lra|]. cbn [obind]. fold x. unfold nsqrt. destruct (Rlt_dec x 0) as [L|_]; [lra|]. reflexivity. }
  destruct (resample_run uniform epsilon s s1 t Hu Lt _ _ f E) as (out & Ho & Hr).
  destruct (reoriented_numbers _ _ _ _ Hf Lt Hr) as (es & Hn & H2).
  exists out, f, es. split; [exact Ho|]. split; [exact Hr|]. split; [split; [exact Hf|]|split; [exact Hn|]].
  - rewrite <- sqrt_1. apply sqrt_le_1; lra.
  - rewrite (reoriented_mean epsilon es f (fun r => r ^ 2 + v * (1 - r ^ 2) ^ 2) H2).
    rewrite (map_ext _ (fun e => (v * (f * f) ^ 2) * (Cmod e ^ 4) + 1 * (((1 - 2 * v) * (f * f)) * (Cmod e ^ 2) + v * 1))) by (intro; ring).
    rewrite (mean_lin epsilon (fun e => Cmod e ^ 4)), (mean_lin epsilon (fun e => Cmod e ^ 2) (fun _ => 1)), mean_one by exact Hne.
    change (mean_of (map (fun e => Cmod e ^ 4) epsilon)) with W. change (mean_of (map (fun e => Cmod e ^ 2) epsilon)) with V.
    rewrite Ff. unfold B in Eq. lra.
Qed.
Print Assumptions resample_varg.

(** Both variances together, or one that is larger than the second moment, are refused. *)
Theorem resample_rejected {S} (uniform : S -> R -> R -> nat -> list R * S) epsilon s varg vargamma :
  (varg <> None /\ vargamma <> None) \/
  (epsilon <> [] /\ exists v, moment 2 epsilon < v /\ (varg = Some v \/ vargamma = Some v)) ->
  resample_shapes uniform epsilon varg vargamma s = Err ValueError.
Proof.
  intro H. unfold resample_shapes. rewrite moduli.
  assert (E : resample_factor (map Cmod epsilon) varg vargamma = Err ValueError); [|rewrite E; reflexivity].
  destruct H as [[H1 H2]|(Hne & v & Hv & H)]; [destruct varg, vargamma; try contradiction; reflexivity|].
  unfold resample_factor. rewrite !map_map. rewrite !nmean_ok by (destruct epsilon; [contradiction|discriminate]).
  change (mean_of (map (fun x => Cmod x ^ 2) epsilon)) with (moment 2 epsilon).
  destruct H as [-> | ->]; [destruct vargamma; [reflexivity|]|destruct varg; [reflexivity|]];
    (destruct (Rlt_dec (moment 2 epsilon) v) as [L|L]; [reflexivity|contradiction]).
Qed.
Print Assumptions resample_rejected.

(** A reduced shear without variance is no special case of the formula: nothing would have to be changed, but
    all results are NaN. *)
Theorem resample_varg_zero_refuted {S} (uniform : S -> R -> R -> nat -> list R * S) epsilon s s1 t :
  epsilon <> [] -> uniform s 0 (2 * PI) (length epsilon) = (t, s1) -> length t = length epsilon ->
  resample_shapes uniform epsilon (Some 0) None s = Ok (repeat None (length epsilon), s1).
Proof.
  intros Hne Hu Lt. apply (resample_nan uniform epsilon s s1 t Hu Lt).
  unfold resample_factor. rewrite !map_map. rewrite !nmean_ok by (destruct epsilon; [contradiction|discriminate]).
  assert (N : 0 <= mean_of (map (fun x => Cmod x ^ 2) epsilon)) by (apply mean_nonneg; intro; apply pow2_ge_0).
  destruct (Rlt_dec _ 0) as [L|_]; [lra|]. cbn [obind]. f_equal.
  destruct (nsqrt _) as [root|]; [|reflexivity]. cbn [obind]. unfold ndiv.
  destruct (Req_EM_T _ 0) as [_|Z]; [reflexivity|]. exfalso. apply Z. ring.
Qed.
Print Assumptions resample_varg_zero_refuted.

(** Round shapes and no variance: NaN as well. *)
Theorem resample_round_refuted {S} (uniform : S -> R -> R -> nat -> list R * S) n s s1 t :
  uniform s 0 (2 * PI) n = (t, s1) -> length t = n ->
  resample_shapes uniform (repeat (RtoC 0) n) None (Some 0) s = Ok (repeat None n, s1).
Proof.
  intros Hu Lt. rewrite <- (repeat_length (RtoC 0) n) at 2. destruct n as [|n].
  { unfold resample_shapes. cbn [repeat map length resample_factor]. unfold nmean, ndiv at 1. cbn [length INR].
    destruct (Req_EM_T 0 0) as [_|K]; [|contradiction]. cbn [bind]. rewrite Hu. reflexivity. }
  apply (resample_nan uniform (repeat (RtoC 0) (Datatypes.S n)) s s1 t); rewrite ?repeat_length; try assumption.
  unfold resample_factor. rewrite map_map. rewrite nmean_ok by discriminate.
  assert (Z : mean_of (map (fun x => Cmod x ^ 2) (repeat (RtoC 0) (Datatypes.S n))) = 0).
  { unfold mean_of. assert (E : forall k, fold_right Rplus 0 (map (fun x => Cmod x ^ 2) (repeat (RtoC 0) k)) = 0).
    { induction k as [|k IH]; cbn [repeat map fold_right]; [reflexivity|]. rewrite IH, Cmod_0. ring. }
    rewrite E. unfold Rdiv. ring. }
  rewrite Z. destruct (Rlt_dec 0 0) as [L|_]; [lra|]. unfold ndiv. destruct (Req_EM_T 0 0) as [_|K]; [reflexivity|contradiction].
Qed.
Print Assumptions resample_round_refuted.

(** Two shapes with the squared moduli 1/4 and 3/4, and one quarter of variance. *)
Example resample_example : exists out f es,
  resample_shapes constant_uniform [(1 / 2, 0); (1 / 2, sqrt (1 / 2))] None (Some (1 / 4)) tt = Ok (out, tt) /\
  reoriented [(1 / 2, 0); (1 / 2, sqrt (1 / 2))] f [0; 0] out /\ 0 <= f <= 1 /\ numbers out es /\ moment 2 es = 1 / 4.
Proof.
  assert (E : moment 2 [(1 / 2, 0); (1 / 2, sqrt (1 / 2))] = 1 / 2).
  { unfold moment, mean_of, Cmod. cbn [map fold_right length INR fst snd].
    pose proof (sqrt_sqrt (1 / 2) ltac:(lra)) as K. set (h := sqrt (1 / 2)) in *.
    replace (sqrt ((1 / 2) ^ 2 + 0 ^ 2) ^ 2) with (sqrt ((1 / 2) ^ 2 + 0 ^ 2) * sqrt ((1 / 2) ^ 2 + 0 ^ 2)) by ring.
    replace (sqrt ((1 / 2) ^ 2 + h ^ 2) ^ 2) with (sqrt ((1 / 2) ^ 2 + h ^ 2) * sqrt ((1 / 2) ^ 2 + h ^ 2)) by ring.
    rewrite !sqrt_sqrt by nra. lra. }
  destruct (resample_vargamma constant_uniform [(1 / 2, 0); (1 / 2, sqrt (1 / 2))] tt tt [0; 0] (1 / 4)) as (out & f & es & H1 & H2 & H3 & H4 & H5).
  - unfold constant_uniform. destruct (Rlt_dec 0 0) as [L|_]; [exfalso; lra|]. reflexivity.
  - reflexivity.
  - rewrite E. lra.
  - rewrite E. lra.
  - exists out, f, es. rewrite E in H5. repeat (split; [assumption|]). rewrite H5. lra.
Qed.
