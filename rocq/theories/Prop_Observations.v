(** Theorems about source distributions, tomographic bins, visibility, assignment to shells and
    the lognormal shift. *)
From Coq Require Import Reals Lra Psatz.
From Flocq Require Import Core.Raux.
From Coquelicot Require Import Coquelicot.
From Verif Require Import Base Model_Numeric Model_Windows Model_Galaxies Model_Observations
  Spec_Numeric Spec_Windows Spec_Galaxies Spec_Rng Spec_Observations Proof_Numeric Proof_Windows Proof_Galaxies
  Proof_Observations Prop_Windows.
Local Open Scope R_scope.

Lemma mapM_rows {A} (f : A -> result (list R)) (P : A -> list R -> Prop) l :
  (forall x, In x l -> exists r, f x = Ok r /\ P x r) -> exists rows, mapM f l = Ok rows /\ Forall2 P l rows.
Proof.
  induction l as [|x l IH]; intro H; [exists []; split; [reflexivity|constructor]|].
  destruct (H x (or_introl eq_refl)) as (r & E & Hr). destruct IH as (rows & Er & Hf); [intros; apply H; right; assumption|].
  exists (r :: rows). cbn [mapM]. rewrite E. cbn [bind]. rewrite Er. split; [reflexivity|constructor; assumption].
Qed.

Lemma map_one (l : list R) : map (fun y => y * 1) l = l.
Proof. rewrite <- (map_id l) at 2. apply map_ext. intro; ring. Qed.

Ltac same := apply f_equal; repeat first [apply (f_equal2 (@cons _))|apply (f_equal2 (@pair _ _))]; first [reflexivity|field].

(** C50 *)

(** Each row of [gaussian_nz] is a Gaussian with the mean and width of this row, with integral one
    or the given number. *)
Theorem gaussian_nz_normalised z means sigmas norm :
  increasing z -> (2 <= length z)%nat -> length means = length sigmas ->
  exists rows, gaussian_nz z (Ar means) (Ar sigmas) (option_map Sc norm) = Ok rows /\
    Forall2 (fun p nz => normalised_to (fun x => exp (- ((x - fst p) / snd p) ^ 2 / 2)) z nz
                           match norm with None => 1 | Some c => c end)
      (combine means sigmas) rows.
Proof.
  intros Hi H2 Hl. unfold gaussian_nz. cbn [amap2]. unfold bzip. rewrite Hl, Nat.eqb_refl. cbn [bind rows_of].
  assert (Ep : map (fun p : R * R => (fst p, snd p)) (combine means sigmas) = combine means sigmas).
  { rewrite <- (map_id (combine means sigmas)) at 2. apply map_ext. intros []; reflexivity. }
  rewrite Ep.
  destruct (mapM_rows (fun p => normalise z (map (fun x => exp (- (((x - fst p) / snd p) ^ 2) / 2)) z))
    (fun p nz => forall c, normalised_to (fun x => exp (- ((x - fst p) / snd p) ^ 2 / 2)) z (map (fun y => y * c) nz) c)
    (combine means sigmas)) as (rows & Er & Hf).
  - intros p _. apply (normalise_spec (fun x => exp (- ((x - fst p) / snd p) ^ 2 / 2))); auto.
    + intros. apply Rlt_le, exp_pos.
    + destruct z as [|x z]; [cbn in H2; lia|]. exists x. split; [left; reflexivity|apply exp_pos].
  - rewrite Er. cbn [bind]. destruct norm as [c|]; cbn [option_map apply_norm].
    + exists (map (map (fun f => f * c)) rows). split; [reflexivity|]. clear - Hf. induction Hf; cbn; constructor; auto.
    + exists rows. split; [reflexivity|]. clear - Hf. induction Hf as [|p nz l l' H _ IH]; constructor; auto.
      specialize (H 1). rewrite map_one in H. exact H.
Qed.
Print Assumptions gaussian_nz_normalised.

Example gaussian_nz_example : exists a,
  gaussian_nz [0; 2] (Ar [1]) (Ar [3]) (Some (Sc 5)) = Ok [[a; a]] /\ (a + a) / 2 * 2 = 5.
Proof.
  set (e := exp (- ((0 - 1) / 3) ^ 2 / 2)).
  assert (E : exp (- ((2 - 1) / 3) ^ 2 / 2) = e) by (unfold e; f_equal; field).
  pose proof (exp_pos (- ((0 - 1) / 3) ^ 2 / 2)) as Hp. fold e in Hp.
  exists (e / ((e + e) * (1 / 2) * (2 - 0) + 0) * 5). split; [|field; lra].
  unfold gaussian_nz. cbn [amap2]. unfold bzip. cbn [length Nat.eqb combine map fst snd bind rows_of mapM].
  rewrite E. fold e. unfold normalise, trapezoid. cbn [length Nat.eqb combine trapezoids total bind].
  destruct (Req_EM_T _ 0); [lra|]. reflexivity.
Qed.

Lemma bzip_repeat_l {A B D} (f : A -> B -> D) a y : bzip f [a] y = bzip f (repeat a (length y)) y.
Proof.
  unfold bzip. rewrite repeat_length, Nat.eqb_refl. cbn [length].
  assert (E : Ok (map (f a) y) = Ok (map (fun p : A * B => f (fst p) (snd p)) (combine (repeat a (length y)) y))).
  { f_equal. induction y as [|b y IH]; cbn; [reflexivity|]. f_equal. exact IH. }
  destruct (Nat.eqb_spec 1 (length y)) as [L|L]; [|exact E]. rewrite <- L. reflexivity.
Qed.

Lemma bzip_repeat_r {A B D} (f : A -> B -> D) x b : bzip f x [b] = bzip f x (repeat b (length x)).
Proof.
  unfold bzip. rewrite repeat_length, Nat.eqb_refl. cbn [length].
  assert (E : Ok (map (fun a => f a b) x) = Ok (map (fun p : A * B => f (fst p) (snd p)) (combine x (repeat b (length x))))).
  { f_equal. induction x as [|a x IH]; cbn; [reflexivity|]. f_equal. exact IH. }
  destruct (Nat.eqb_spec (length x) 1) as [L|L]; [rewrite L; reflexivity|]. destruct x as [|a [|a' x]]; [exact E|cbn in L; lia|exact E].
Qed.

(** Means and widths of equal numbers, or one for all; any other numbers are rejected. *)
Theorem gaussian_nz_broadcast z means sigmas : increasing z -> (2 <= length z)%nat ->
  (length means = length sigmas \/ length means = 1%nat \/ length sigmas = 1%nat ->
   exists rows, gaussian_nz z (Ar means) (Ar sigmas) None = Ok rows /\
     length rows = (if length means =? 1 then length sigmas else length means)%nat /\
     forall i nz, nth_error rows i = Some nz -> exists m s,
       nth_error means (if length means =? 1 then 0 else i)%nat = Some m /\
       nth_error sigmas (if length sigmas =? 1 then 0 else i)%nat = Some s /\
       normalised_to (fun x => exp (- ((x - m) / s) ^ 2 / 2)) z nz 1) /\
  (length means <> length sigmas -> length means <> 1%nat -> length sigmas <> 1%nat ->
   gaussian_nz z (Ar means) (Ar sigmas) None = Err ValueError).
Proof.
  intros Hi H2. split.
  - set (n := (if length means =? 1 then length sigmas else length means)%nat). intro H.
    set (ms := if (length means =? 1)%nat then repeat (hd 0 means) n else means).
    set (ss := if (length sigmas =? 1)%nat then repeat (hd 0 sigmas) n else sigmas).
    assert (Lm : length ms = n) by (unfold ms, n; destruct (length means =? 1)%nat; [apply repeat_length|reflexivity]).
    assert (Ls : length ss = n).
    { unfold ss, n. destruct (Nat.eqb_spec (length sigmas) 1); [apply repeat_length|]. destruct (Nat.eqb_spec (length means) 1); lia. }
    assert (E : bzip (@pair R R) means sigmas = bzip pair ms ss).
    { unfold ms, ss, n. destruct (Nat.eqb_spec (length means) 1) as [L1|L1]; destruct (Nat.eqb_spec (length sigmas) 1) as [L2|L2].
      - rewrite L2. destruct means as [|m [|]]; try discriminate. destruct sigmas as [|s [|]]; try discriminate. reflexivity.
      - destruct means as [|m [|]]; try discriminate. apply bzip_repeat_l.
      - destruct sigmas as [|s [|]]; try discriminate. apply bzip_repeat_r.
      - reflexivity. }
    destruct (gaussian_nz_normalised z ms ss None Hi H2 ltac:(lia)) as (rows & Er & F). exists rows.
    split; [unfold gaussian_nz in *; cbn [amap2] in *; rewrite E; exact Er|].
    assert (Fn : forall i p r, nth_error (combine ms ss) i = Some p -> nth_error rows i = Some r -> normalised_to (fun x => exp (- ((x - fst p) / snd p) ^ 2 / 2)) z r 1).
    { clear - F. induction F as [|p r l l' H _ IH]; intros [|i] p' r' Hp Hr; try discriminate; [injection Hp as <-; injection Hr as <-; exact H|exact (IH i p' r' Hp Hr)]. }
    assert (Lr : length rows = n) by (transitivity (length (combine ms ss)); [clear - F; induction F; cbn; congruence|rewrite combine_length; lia]).
    split; [exact Lr|]. intros i nz Hn. assert (Li : (i < n)%nat) by (rewrite <- Lr; apply nth_error_Some; congruence).
    destruct (nth_error ms i) as [m|] eqn:Em; [|apply nth_error_None in Em; lia]. destruct (nth_error ss i) as [s|] eqn:Es; [|apply nth_error_None in Es; lia].
    exists m, s. split; [|split].
    + unfold ms in Em. destruct (Nat.eqb_spec (length means) 1) as [L|L]; [|exact Em]. rewrite nth_error_repeat', (proj2 (Nat.ltb_lt _ _) Li) in Em.
      destruct means as [|m' [|]]; try discriminate. exact Em.
    + unfold ss in Es. destruct (Nat.eqb_spec (length sigmas) 1) as [L|L]; [|exact Es]. rewrite nth_error_repeat', (proj2 (Nat.ltb_lt _ _) Li) in Es.
      destruct sigmas as [|s' [|]]; try discriminate. exact Es.
    + apply (Fn i (m, s) nz); [rewrite nth_error_combine, Em, Es; reflexivity|exact Hn].
  - intros N1 N2 N3. unfold gaussian_nz. cbn [amap2]. unfold bzip. destruct (Nat.eqb_spec (length means) (length sigmas)); [contradiction|].
    destruct means as [|m [|m' means]]; destruct sigmas as [|s [|s' sigmas]]; cbn [length] in *; try lia; reflexivity.
Qed.
Print Assumptions gaussian_nz_broadcast.

Example gaussian_nz_broadcast_example : gaussian_nz [0; 2] (Ar [1; 2]) (Ar [3; 4; 5]) None = Err ValueError /\
  exists rows, gaussian_nz [0; 2] (Ar [1; 2; 3]) (Ar [3]) None = Ok rows /\ length rows = 3%nat.
Proof.
  assert (I : increasing [0; 2]) by (apply increasing_two; [lra|apply increasing_one]). split.
  - apply (gaussian_nz_broadcast [0; 2] [1; 2] [3; 4; 5] I); cbn; lia.
  - destruct (proj1 (gaussian_nz_broadcast [0; 2] [1; 2; 3] [3] I ltac:(cbn; lia))) as (rows & E & L & _); [cbn; auto|]. exists rows. split; [exact E|exact L].
Qed.

(** The same for [smail_nz] on a grid of non-negative redshifts. *)
Theorem smail_nz_normalised z modes alpha beta norm :
  increasing z -> (2 <= length z)%nat -> (forall x, In x z -> 0 <= x) ->
  (forall m, In m modes -> 0 < m) -> 0 < alpha -> 0 < beta ->
  exists rows, smail_nz z (Ar modes) (Sc alpha) (Sc beta) (option_map Sc norm) = Ok rows /\
    Forall2 (fun m nz => normalised_to
        (fun x => if Req_EM_T x 0 then 0 else exp (alpha * ln x) * exp (- alpha / beta * exp (beta * ln (x / m)))) z nz
        match norm with None => 1 | Some c => c end)
      modes rows.
Proof.
  intros Hi H2 Hz Hm Ha Hb. unfold smail_nz. cbn [amap2 bind rows_of].
  assert (Hx : forall m x, 0 < m -> 0 <= x -> smail_pz x m alpha beta =
    Ok (if Req_EM_T x 0 then 0 else exp (alpha * ln x) * exp (- alpha / beta * exp (beta * ln (x / m))))).
  { intros m x Pm Px. unfold smail_pz, fpow. destruct (Req_EM_T alpha 0); [lra|]. destruct (Req_EM_T beta 0); [lra|].
    destruct (Req_EM_T x 0) as [->|Nx].
    - destruct (Rlt_dec 0 alpha); [|lra]. cbn [bind].
      destruct (Req_EM_T (0 / m) 0) as [_|N]; [|exfalso; apply N; field; lra].
      destruct (Rlt_dec 0 beta); [|lra]. cbn [bind]. f_equal. ring.
    - destruct (Rlt_dec 0 x); [|lra]. cbn [bind].
      assert (0 < x / m) by (apply Rdiv_lt_0_compat; lra).
      destruct (Req_EM_T (x / m) 0); [lra|]. destruct (Rlt_dec 0 (x / m)); [|lra]. reflexivity. }
  edestruct (mapM_rows (fun p : R * (R * R) => do pz <- mapM (fun x => smail_pz x (fst p) (fst (snd p)) (snd (snd p))) z;
                            normalise z pz)
    (fun p nz => forall c, normalised_to (fun x => if Req_EM_T x 0 then 0 else exp (alpha * ln x) * exp (- alpha / beta * exp (beta * ln (x / fst p)))) z (map (fun y => y * c) nz) c)
    (map (fun x => (x, (alpha, beta))) modes)) as (rows & Er & Hf).
  - intros p Hp. apply in_map_iff in Hp as (m & <- & Hin). cbn [fst snd].
    rewrite (mapM_pure _ (fun x => if Req_EM_T x 0 then 0 else exp (alpha * ln x) * exp (- alpha / beta * exp (beta * ln (x / m)))))
      by (intros; apply Hx; auto).
    cbn [bind].
    apply (normalise_spec (fun x => if Req_EM_T x 0 then 0 else exp (alpha * ln x) * exp (- alpha / beta * exp (beta * ln (x / m))))); auto.
    + intros x _. destruct (Req_EM_T x 0); [lra|]. apply Rlt_le, Rmult_lt_0_compat; apply exp_pos.
    + destruct z as [|a [|b z]]; [cbn in H2; lia|cbn in H2; lia|].
      exists b. split; [right; left; reflexivity|]. pose proof (Hi 0%nat a b eq_refl eq_refl).
      pose proof (Hz a (or_introl eq_refl)). destruct (Req_EM_T b 0); [lra|]. apply Rmult_lt_0_compat; apply exp_pos.
  - rewrite Er. cbn [bind]. destruct norm as [c|]; cbn [option_map apply_norm].
    + exists (map (map (fun f => f * c)) rows). split; [reflexivity|].
      clear - Hf. revert rows Hf. induction modes as [|m modes IH]; intros rows Hf; inversion Hf; subst; cbn; constructor; auto.
    + exists rows. split; [reflexivity|].
      clear - Hf. revert rows Hf. induction modes as [|m modes IH]; intros rows Hf; inversion Hf as [|? ? ? ? H1]; subst; cbn; constructor; auto.
      specialize (H1 1). rewrite map_one in H1. exact H1.
Qed.
Print Assumptions smail_nz_normalised.

(** The density has its maximum at [z_mode], and only there. *)
Theorem smail_mode x z_mode alpha beta p q : 0 <= x -> 0 < z_mode -> 0 < alpha -> 0 < beta ->
  smail_pz x z_mode alpha beta = Ok p -> smail_pz z_mode z_mode alpha beta = Ok q -> x <> z_mode -> p < q.
Proof.
  intros Hx Hm Ha Hb. unfold smail_pz, fpow.
  destruct (Req_EM_T alpha 0); [lra|]. destruct (Req_EM_T beta 0); [lra|].
  destruct (Req_EM_T z_mode 0); [lra|]. destruct (Rlt_dec 0 z_mode); [|lra].
  replace (z_mode / z_mode) with 1 by (field; lra).
  destruct (Req_EM_T 1 0); [lra|]. destruct (Rlt_dec 0 1); [|lra]. cbn [bind].
  destruct (Req_EM_T x 0) as [->|Nx].
  - destruct (Rlt_dec 0 alpha); [|lra]. cbn [bind].
    destruct (Req_EM_T (0 / z_mode) 0) as [_|N]; [|exfalso; apply N; field; lra].
    destruct (Rlt_dec 0 beta); [|lra]. cbn [bind]. intros [= <-] [= <-] _. rewrite Rmult_0_l.
    apply Rmult_lt_0_compat; apply exp_pos.
  - destruct (Rlt_dec 0 x); [|lra]. cbn [bind].
    assert (Hq : 0 < x / z_mode) by (apply Rdiv_lt_0_compat; lra).
    destruct (Req_EM_T (x / z_mode) 0); [lra|]. destruct (Rlt_dec 0 (x / z_mode)); [|lra]. cbn [bind].
    intros [= <-] [= <-] Hne. unfold Rpower. rewrite ln_1, Rmult_0_r, exp_0, <- !exp_plus.
    apply exp_increasing.
    set (s := beta * ln (x / z_mode)).
    assert (Hs : s <> 0).
    { unfold s. intro Q. apply Rmult_integral in Q as [Q|Q]; [lra|]. rewrite <- ln_1 in Q. apply ln_inv in Q; [|assumption|lra].
      apply Hne. replace x with (x / z_mode * z_mode) by (field; lra). rewrite Q. ring. }
    assert (El : ln x = ln z_mode + s / beta).
    { unfold s. rewrite ln_div by lra. field. lra. }
    rewrite El. pose proof (exp_ineq1 s Hs) as He.
    apply Rmult_lt_reg_r with (beta / alpha); [apply Rdiv_lt_0_compat; lra|].
    replace ((alpha * (ln z_mode + s / beta) + - alpha / beta * exp s) * (beta / alpha)) with (beta * ln z_mode + s - exp s) by (field; lra).
    replace ((alpha * ln z_mode + - alpha / beta * 1) * (beta / alpha)) with (beta * ln z_mode - 1) by (field; lra). lra.
Qed.
Print Assumptions smail_mode.

Example smail_example : exists b, 0 < b /\
  smail_nz [0; 1] (Ar [1]) (Sc 2) (Sc 1) None = Ok [[0; b]] /\ b / 2 = 1.
Proof.
  exists 2. split; [lra|]. split; [|lra].
  unfold smail_nz. cbn [amap2 bind rows_of mapM map].
  assert (E0 : smail_pz 0 1 2 1 = Ok 0).
  { unfold smail_pz, fpow. destruct (Req_EM_T 2 0); [lra|]. destruct (Req_EM_T 0 0) as [_|N]; [|lra]. destruct (Rlt_dec 0 2); [|lra]. cbn [bind].
    destruct (Req_EM_T 1 0); [lra|]. destruct (Req_EM_T (0 / 1) 0) as [_|N]; [|lra]. destruct (Rlt_dec 0 1); [|lra]. cbn [bind]. f_equal. ring. }
  assert (E1 : exists e, 0 < e /\ smail_pz 1 1 2 1 = Ok e).
  { eexists. split; [|unfold smail_pz, fpow; destruct (Req_EM_T 2 0); [lra|]; destruct (Req_EM_T 1 0); [lra|]; destruct (Rlt_dec 0 1); [|lra]; cbn [bind];
      destruct (Req_EM_T (1 / 1) 0); [lra|]; destruct (Rlt_dec 0 (1 / 1)); [|lra]; cbn [bind]; reflexivity].
    apply Rmult_lt_0_compat; [unfold Rpower|]; apply exp_pos. }
  destruct E1 as (e & He & E1). cbn [fst snd]. rewrite E0, E1. cbn [bind]. unfold normalise, trapezoid. cbn [length Nat.eqb combine trapezoids total bind].
  destruct (Req_EM_T _ 0); [lra|]. cbn [map bind apply_norm]. f_equal. f_equal. f_equal; [field; lra|]. f_equal. field. lra.
Qed.

(** An array of normalisations, one for each distribution, is not applied to the distributions:
    it is rejected unless there are as many distributions as redshifts (or one), ... *)
Theorem norm_array_rejected_refuted rows l : (2 <= length l)%nat -> rows <> [] ->
  (forall row, In row rows -> length row <> length l) -> apply_norm (Some (Ar l)) rows = Err ValueError.
Proof.
  intros Hl Hne Hr. destruct l as [|a [|b l]]; [cbn in Hl; lia|cbn in Hl; lia|].
  unfold apply_norm. destruct rows as [|row rows]; [contradiction|]. cbn [mapM].
  destruct (Nat.eqb_spec (length (a :: b :: l)) (length row)) as [E|]; [|reflexivity].
  exfalso. apply (Hr row (or_introl eq_refl)). symmetry. exact E.
Qed.
Print Assumptions norm_array_rejected_refuted.

(** ... and otherwise multiplies along the redshifts, so that the integrals are not the ones asked
    for: here three for both distributions instead of one and three. *)
Theorem norm_array_wrong_axis_refuted : exists rows,
  gaussian_nz [0; 2] (Ar [1; 1]) (Sc 1) (Some (Ar [1; 5])) = Ok rows /\
  mapM (fun row => trapezoid row [0; 2]) rows = Ok [3; 3].
Proof.
  set (e := exp (- ((0 - 1) / 1) ^ 2 / 2)).
  assert (E : exp (- ((2 - 1) / 1) ^ 2 / 2) = e) by (unfold e; f_equal; field).
  pose proof (exp_pos (- ((0 - 1) / 1) ^ 2 / 2)) as Hp. fold e in Hp.
  eexists. split.
  - unfold gaussian_nz. cbn [amap2 length Nat.eqb combine map fst snd bind rows_of mapM].
    rewrite E. fold e. unfold normalise, trapezoid. cbn [length Nat.eqb combine trapezoids total bind].
    destruct (Req_EM_T _ 0) ; [exfalso; lra|]. cbn [bind map apply_norm mapM length Nat.eqb combine fst snd]. reflexivity.
  - unfold trapezoid. cbn [mapM length Nat.eqb combine trapezoids total bind]. f_equal. f_equal; [field; lra|]. f_equal. field; lra.
Qed.
Print Assumptions norm_array_wrong_axis_refuted.

(** C51 *)

(** A number of bins: contiguous bins of equal width from [zmin] to [zmax]. *)
Theorem fixed_zbins_number nextafter zmin zmax n : zmin < zmax -> (1 <= n)%nat ->
  exists bins, fixed_zbins nextafter zmin zmax (Some n) None = Ok bins /\ length bins = n /\
    contiguous zmin bins zmax /\ forall a b, In (a, b) bins -> b - a = (zmax - zmin) / INR n.
Proof.
  intros Hlt Hn. destruct (uniform_num zmin zmax n Hlt Hn) as (xs & E & L & (Hi & Hs & He) & Hst).
  injection E as <-. unfold fixed_zbins. cbn [bind]. eexists. split; [reflexivity|]. split; [rewrite pairwise_length; lia|].
  split; [apply pairwise_contiguous; assumption|].
  intros a b Hin. apply In_nth_error in Hin as (i & Hi'). apply pairwise_nth in Hi' as [H1 H2]. apply (Hst i); assumption.
Qed.
Print Assumptions fixed_zbins_number.

(** A width: contiguous bins of this width from [zmin]; the last edge reaches [zmax] up to the
    spacing of floating point numbers, and is [zmax] if the width fits. *)
Theorem fixed_zbins_width nextafter zmin zmax dz eps : 0 < dz -> 0 < eps < dz -> eps <= zmax - zmin ->
  nextafter (zmax + dz) zmax = zmax + dz - eps ->
  exists bins zlast, fixed_zbins nextafter zmin zmax None (Some dz) = Ok bins /\
    contiguous zmin bins zlast /\ (forall a b, In (a, b) bins -> b - a = dz) /\
    zmax - eps <= zlast < zmax + dz - eps /\
    forall n, zmax - zmin = INR n * dz -> zlast = zmax /\ length bins = n.
Proof.
  intros Hd He Hz Hn. unfold fixed_zbins. rewrite Hn.
  destruct (uniform_step zmin (zmax - eps) dz Hd ltac:(lra)) as (xs & zlast & E & Hi & Hs & Hst & Hend & Hl).
  unfold uniform_grid in E. replace (zmax - eps + dz) with (zmax + dz - eps) in E by ring. rewrite E. cbn [bind].
  exists (pairwise xs), zlast. split; [reflexivity|].
  assert (Hw : forall a b, In (a, b) (pairwise xs) -> b - a = dz).
  { intros a b Hin. apply In_nth_error in Hin as (i & Hi'). apply pairwise_nth in Hi' as [H1 H2]. apply (Hst i); assumption. }
  pose proof (pairwise_contiguous xs zmin zlast Hs Hend) as Hc.
  split; [exact Hc|]. split; [exact Hw|]. split; [lra|].
  assert (Hlast : zlast - zmin = INR (length (pairwise xs)) * dz).
  { clear - Hc Hw. revert Hw. induction Hc as [a|a b bins c Hc IH]; intro Hw; [cbn; ring|].
    cbn [length]. rewrite S_INR. specialize (IH ltac:(intros; apply Hw; right; assumption)). pose proof (Hw a b (or_introl eq_refl)). lra. }
  intros n En. assert (Q : length (pairwise xs) = n).
  { assert (A1 : INR (length (pairwise xs)) * dz < (INR n + 1) * dz) by lra.
    assert (A2 : (INR n - 1) * dz < INR (length (pairwise xs)) * dz) by lra.
    apply Rmult_lt_reg_r in A1, A2; try lra.
    assert (INR (length (pairwise xs)) < INR (n + 1)) by (rewrite plus_INR; cbn; lra).
    assert (INR n < INR (length (pairwise xs) + 1)) by (rewrite plus_INR; cbn; lra).
    apply INR_lt in H, H0. lia. }
  split; [rewrite Q in Hlast; lra|exact Q].
Qed.
Print Assumptions fixed_zbins_width.

(** Neither or both of the options: an error. *)
Theorem fixed_zbins_options nextafter zmin zmax n dz :
  fixed_zbins nextafter zmin zmax None None = Err ValueError /\
  fixed_zbins nextafter zmin zmax (Some n) (Some dz) = Err ValueError.
Proof. split; reflexivity. Qed.
Print Assumptions fixed_zbins_options.

Example fixed_zbins_example :
  fixed_zbins (fun x _ => x - 1 / 100) 0 1 None (Some (1 / 2)) = Ok [(0, 1 / 2); (1 / 2, 1)] /\
  fixed_zbins (fun x _ => x) 0 3 (Some 2%nat) None = Ok [(0, 3 / 2); (3 / 2, 3)].
Proof.
  split.
  - unfold fixed_zbins, arange. destruct (Req_EM_T (1 / 2) 0); [lra|].
    assert (E : Zceil ((1 + 1 / 2 - 1 / 100 - 0) / (1 / 2)) = 3%Z) by (apply Zceil_imp; cbn; split; lra).
    rewrite E. change (Z.to_nat 3) with 3%nat. cbn. same.
  - cbn. same.
Qed.

(** Bins of equal density: contiguous, each with the same fraction of the sources, up to the last
    redshift. *)
Theorem equal_dens_fractions z nz n : distribution z nz -> (1 <= n)%nat ->
  exists bins F zfirst zlast, equal_dens_zbins z nz n = Ok bins /\ length bins = n /\
    cumulative_distribution F z nz /\ contiguous zfirst bins zlast /\ ends_with z zlast /\ F zfirst = 0 /\ F zlast = 1 /\
    forall a b, In (a, b) bins -> F b - F a = 1 / INR n.
Proof.
  intros Hd Hn. assert (Hl : length z = length nz) by apply Hd.
  destruct (inverse_cdf z nz Hd) as (Ht & Hlast & Hcl & Hne & F & HF & HI & HE).
  set (cs := cumulative_sum 0 (trapezoids (combine z nz))) in *.
  set (t := total (trapezoids (combine z nz))) in *.
  set (cs' := map (fun c => c / t) cs) in *.
  assert (Hn0 : 0 < INR n) by (apply lt_0_INR; lia).
  set (us := linspace 0 1 (n + 1) true).
  set (edges := map (interp_value cs' z None None) us).
  assert (Ee : equal_dens_zbins z nz n = Ok (pairwise edges)).
  { unfold equal_dens_zbins, cumulative_trapezoid. rewrite <- Hl, Nat.eqb_refl. cbn [bind]. fold cs. rewrite Hlast. cbn [bind].
    destruct (Req_EM_T t 0); [lra|]. fold cs' us. rewrite (mapM_pure _ (interp_value cs' z None None)); [reflexivity|].
    intros u _. apply interp_ok; [exact Hcl|]. intro E. rewrite E in Hcl. destruct z; [contradiction|discriminate]. }
  assert (Lu : length us = (n + 1)%nat) by apply linspace_length.
  assert (Nu : forall k, (k <= n)%nat -> nth_error us k = Some (INR k / INR n)).
  { intros k Hk. unfold us. rewrite linspace_nth by lia. cbn beta iota. f_equal.
    replace (n + 1 - 1)%nat with n by lia. field. lra. }
  assert (Hb : exists b, ends_with z b).
  { destruct z as [|a z']; [contradiction|]. exists (last z' a). apply ends_last. }
  destruct Hb as (b & Hb). destruct (HE b Hb) as [Eb Fb].
  assert (Fe : forall k e, (k <= n)%nat -> nth_error edges k = Some e -> F e = INR k / INR n).
  { intros k e Hk He. unfold edges in He. rewrite nth_error_map', (Nu k Hk) in He. injection He as <-.
    destruct (Nat.eq_dec k n) as [->|N].
    - replace (INR n / INR n) with 1 by (field; lra). rewrite Eb. exact Fb.
    - apply HI. assert (INR k < INR n) by (apply lt_INR; lia). pose proof (pos_INR k). split.
      + apply Rmult_le_pos; [lra|]. apply Rlt_le, Rinv_0_lt_compat; lra.
      + apply Rmult_lt_reg_r with (INR n); [lra|]. unfold Rdiv. rewrite Rmult_assoc, Rinv_l by lra. lra. }
  assert (Le : length edges = (n + 1)%nat) by (unfold edges; rewrite map_length; exact Lu).
  destruct (nth_error edges 0) as [e0|] eqn:E0; [|apply nth_error_None in E0; lia].
  exists (pairwise edges), F, e0, b. split; [exact Ee|]. split; [rewrite pairwise_length; lia|]. split; [exact HF|].
  assert (Hend : ends_with edges b).
  { unfold ends_with. rewrite Le. replace (n + 1 - 1)%nat with n by lia. unfold edges. rewrite nth_error_map', (Nu n) by lia.
    cbn. f_equal. replace (INR n / INR n) with 1 by (field; lra). exact Eb. }
  split; [apply pairwise_contiguous; assumption|]. split; [exact Hb|].
  split; [rewrite (Fe 0%nat e0); [cbn; field; lra|lia|exact E0]|]. split; [exact Fb|].
  intros a c Hin. apply In_nth_error in Hin as (k & Hk).
  assert (Lk : (k < length (pairwise edges))%nat) by (apply nth_error_Some; congruence). rewrite pairwise_length in Lk.
  apply pairwise_nth in Hk as [H1 H2].
  rewrite (Fe k a), (Fe (S k) c); [|lia|exact H2|lia|exact H1]. rewrite S_INR. field. lra.
Qed.
Print Assumptions equal_dens_fractions.

(** With sources in the first grid interval, the bins start at the first redshift. *)
Theorem equal_dens_start z nz n a b bins f0 f1 :
  distribution z nz -> (1 <= n)%nat -> nth_error z 0 = Some a -> nth_error nz 0 = Some f0 -> nth_error nz 1 = Some f1 ->
  0 < f0 + f1 -> ends_with z b -> equal_dens_zbins z nz n = Ok bins -> contiguous a bins b.
Proof.
  intros Hd Hn Ha Hf0 Hf1 Hpos Hb E.
  assert (Hl : length z = length nz) by apply Hd. assert (Hs : increasing z) by apply Hd.
  destruct (inverse_cdf z nz Hd) as (Ht & Hlast & Hcl & Hne & F & HF & HI & HE).
  set (cs := cumulative_sum 0 (trapezoids (combine z nz))) in *.
  set (t := total (trapezoids (combine z nz))) in *.
  set (cs' := map (fun c => c / t) cs) in *.
  assert (Hn0 : 0 < INR n) by (apply lt_0_INR; lia).
  unfold equal_dens_zbins, cumulative_trapezoid in E. rewrite <- Hl, Nat.eqb_refl in E. cbn [bind] in E. fold cs in E. rewrite Hlast in E. cbn [bind] in E.
  destruct (Req_EM_T t 0); [lra|]. fold cs' in E.
  rewrite (mapM_pure _ (interp_value cs' z None None)) in E
    by (intros u _; apply interp_ok; [exact Hcl|]; intro Q; rewrite Q in Hcl; destruct z; [contradiction|discriminate]).
  cbn [bind] in E. injection E as <-. destruct (HE b Hb) as [Eb Fb].
  apply pairwise_contiguous.
  - unfold starts_with. rewrite nth_error_map', linspace_nth by lia. cbn [option_map]. f_equal.
    replace (0 + INR 0 * ((1 - 0) / INR (n + 1 - 1))) with 0 by (cbn; ring).
    destruct z as [|z0 [|z1 z]], nz as [|g0 [|g1 nz]]; try discriminate.
    cbn in Ha, Hf0, Hf1. injection Ha as ->. injection Hf0 as ->. injection Hf1 as ->.
    assert (H01 : a < z1) by (apply (Hs 0%nat); reflexivity).
    set (c1 := (0 + (f1 + f0) * (1 / 2) * (z1 - a)) / t).
    assert (C0 : nth_error cs' 0 = Some 0).
    { unfold cs', cs. cbn [combine trapezoids cumulative_sum map nth_error]. f_equal. field. lra. }
    assert (C1 : nth_error cs' 1 = Some c1).
    { unfold cs', cs, c1. destruct z, nz; try discriminate; reflexivity. }
    assert (P1 : 0 < c1).
    { unfold c1. apply Rdiv_lt_0_compat; [|exact Ht]. rewrite Rplus_0_l. apply Rmult_lt_0_compat; [|lra]. lra. }
    rewrite (value_segment cs' (a :: z1 :: z) None None 0 0 c1 a z1 0); auto; try lra.
    apply nondecreasing_scale; [exact Ht|]. apply cumulative_monotone. apply trapezoids_nonneg; auto using increasing_nondecreasing.
    apply Hd.
  - unfold ends_with. rewrite map_length, linspace_length, nth_error_map', linspace_nth by lia. cbn [option_map]. f_equal.
    cbn beta iota. replace (n + 1 - 1)%nat with n by lia.
    replace (0 + INR n * ((1 - 0) / INR n)) with 1 by (field; lra). exact Eb.
Qed.
Print Assumptions equal_dens_start.

(** Without, they do not: the first edge is where the sources begin, not the first redshift. *)
Theorem equal_dens_start_refuted : equal_dens_zbins [0; 1; 2] [0; 0; 1] 1 = Ok [(1, 2)].
Proof.
  unfold equal_dens_zbins, cumulative_trapezoid, last_of. cbn [length Nat.eqb combine trapezoids cumulative_sum bind last].
  destruct (Req_EM_T _ 0); [lra|]. cbn [map linspace Nat.add seq mapM].
  replace ((0 + (0 + 0) * (1 / 2) * (1 - 0)) / (0 + (0 + 0) * (1 / 2) * (1 - 0) + (1 + 0) * (1 / 2) * (2 - 1))) with 0 by field.
  replace (0 / (0 + (0 + 0) * (1 / 2) * (1 - 0) + (1 + 0) * (1 / 2) * (2 - 1))) with 0 by field.
  replace ((0 + (0 + 0) * (1 / 2) * (1 - 0) + (1 + 0) * (1 / 2) * (2 - 1)) / (0 + (0 + 0) * (1 / 2) * (1 - 0) + (1 + 0) * (1 / 2) * (2 - 1))) with 1 by field.
  replace (0 + INR 0 * ((1 - 0) / INR (2 - 1))) with 0 by (cbn; field).
  replace (0 + INR 1 * ((1 - 0) / INR (2 - 1))) with 1 by (cbn; field).
  unfold interp. cbn [length Nat.eqb combine interp_scan last_value].
  repeat (first [rewrite ltb_true by lra|rewrite ltb_false by lra|rewrite leb_true by lra|rewrite leb_false by lra]).
  cbn. same.
Qed.
Print Assumptions equal_dens_start_refuted.

Example equal_dens_example : equal_dens_zbins [0; 1; 2] [0; 3; 0] 2 = Ok [(0, 1); (1, 2)].
Proof.
  unfold equal_dens_zbins, cumulative_trapezoid, last_of. cbn [length Nat.eqb combine trapezoids cumulative_sum bind last].
  destruct (Req_EM_T _ 0); [lra|]. cbn [map linspace Nat.add seq mapM].
  replace ((0 + (3 + 0) * (1 / 2) * (1 - 0)) / (0 + (3 + 0) * (1 / 2) * (1 - 0) + (0 + 3) * (1 / 2) * (2 - 1))) with (1 / 2) by field.
  replace (0 / (0 + (3 + 0) * (1 / 2) * (1 - 0) + (0 + 3) * (1 / 2) * (2 - 1))) with 0 by field.
  replace ((0 + (3 + 0) * (1 / 2) * (1 - 0) + (0 + 3) * (1 / 2) * (2 - 1)) / (0 + (3 + 0) * (1 / 2) * (1 - 0) + (0 + 3) * (1 / 2) * (2 - 1))) with 1 by field.
  replace (0 + INR 0 * ((1 - 0) / INR (3 - 1))) with 0 by (cbn; field).
  replace (0 + INR 1 * ((1 - 0) / INR (3 - 1))) with (1 / 2) by (cbn; field).
  replace (0 + INR 2 * ((1 - 0) / INR (3 - 1))) with 1 by (cbn; field).
  unfold interp. cbn [length Nat.eqb combine interp_scan last_value].
  repeat (first [rewrite ltb_true by lra|rewrite ltb_false by lra|rewrite leb_true by lra|rewrite leb_false by lra]).
  cbn. same.
Qed.

(** C52 *)

(** The bin distributions are non-negative and not larger than the distribution of all sources, for
    bins above redshift zero. *)
Theorem tomo_bounded erf z nz sigma_0 bins : length z = length nz -> 0 < sigma_0 ->
  (forall x, In x z -> -1 < x) -> (forall n, In n nz -> 0 <= n) ->
  (forall x y, x <= y -> erf x <= erf y) -> (forall x, -1 < erf x <= 1) ->
  (forall a b, In (a, b) bins -> 0 <= a <= b) ->
  exists rows, tomo_nz_gausserr erf z nz sigma_0 bins = Ok rows /\ length rows = length bins /\
    forall row, In row rows -> Forall2 (fun v n => 0 <= v <= n) row nz.
Proof.
  intros Hl Hs Hz Hn He Hb Hbins. unfold tomo_nz_gausserr. rewrite Hl, Nat.eqb_refl. eexists. split; [reflexivity|].
  split; [apply map_length|]. intros row Hrow. apply in_map_iff in Hrow as ((a & b) & <- & Hin).
  specialize (Hbins a b Hin). cbn [fst snd]. clear Hin. revert nz Hl Hn.
  induction z as [|x z IH]; intros [|n nz] Hl Hn; try discriminate; [constructor|]. cbn [combine map]. constructor.
  - pose proof (Hz x (or_introl eq_refl)) as Hx. pose proof (Hn n (or_introl eq_refl)) as Hn0.
    set (sz := sqrt 2 * sigma_0 * (1 + x)).
    assert (Psz : 0 < / sz).
    { apply Rinv_0_lt_compat. unfold sz. apply Rmult_lt_0_compat; [apply Rmult_lt_0_compat; [apply sqrt_lt_R0; lra|lra]|lra]. }
    assert (Hab : erf ((x - b) / sz) <= erf ((x - a) / sz)) by (apply He, Rmult_le_compat_r; lra).
    assert (Ha : erf ((x - a) / sz) <= erf (x / sz)) by (apply He, Rmult_le_compat_r; lra).
    pose proof (Hb ((x - b) / sz)). pose proof (Hb (x / sz)).
    assert (Pd : 0 < / (1 + erf (x / sz))) by (apply Rinv_0_lt_compat; lra).
    assert (Q1 : 0 <= (erf ((x - a) / sz) - erf ((x - b) / sz)) / (1 + erf (x / sz))) by (apply Rmult_le_pos; lra).
    assert (Q2 : (erf ((x - a) / sz) - erf ((x - b) / sz)) / (1 + erf (x / sz)) <= 1).
    { apply Rmult_le_reg_r with (1 + erf (x / sz)); [lra|]. unfold Rdiv. rewrite Rmult_assoc, Rinv_l by lra. lra. }
    split; [apply Rmult_le_pos; lra|]. rewrite <- (Rmult_1_l n) at 2. apply Rmult_le_compat_r; lra.
  - apply IH; [intros; apply Hz; right; assumption|cbn in Hl; lia|intros; apply Hn; right; assumption].
Qed.
Print Assumptions tomo_bounded.

(** The distributions of contiguous bins add up to that of the one bin with their outer edges. *)
Theorem tomo_contiguous erf z nz sigma_0 bins a b rows k :
  contiguous a bins b -> tomo_nz_gausserr erf z nz sigma_0 bins = Ok rows ->
  exists row, tomo_nz_gausserr erf z nz sigma_0 [(a, b)] = Ok [row] /\
    sum_of (map (fun r => nth k r 0) rows) = nth k row 0.
Proof.
  intros Hc. unfold tomo_nz_gausserr. destruct (Nat.eqb_spec (length z) (length nz)) as [Hl|]; [|discriminate].
  intros [= <-]. eexists. split; [reflexivity|]. cbn [fst snd].
  destruct (nth_error (combine z nz) k) as [(x & n)|] eqn:E.
  - assert (N : forall c d, nth k (map (fun p : R * R => let '(z, n) := p in
        (erf ((z - c) / (sqrt 2 * sigma_0 * (1 + z))) - erf ((z - d) / (sqrt 2 * sigma_0 * (1 + z)))) /
        (1 + erf (z / (sqrt 2 * sigma_0 * (1 + z)))) * n) (combine z nz)) 0 =
        (erf ((x - c) / (sqrt 2 * sigma_0 * (1 + x))) - erf ((x - d) / (sqrt 2 * sigma_0 * (1 + x)))) /
        (1 + erf (x / (sqrt 2 * sigma_0 * (1 + x)))) * n).
    { intros. apply nth_error_nth. rewrite nth_error_map', E. reflexivity. }
    rewrite N. rewrite map_map.
    rewrite (map_ext _ (fun bin => (erf ((x - fst bin) / (sqrt 2 * sigma_0 * (1 + x))) - erf ((x - snd bin) / (sqrt 2 * sigma_0 * (1 + x)))) /
        (1 + erf (x / (sqrt 2 * sigma_0 * (1 + x)))) * n)) by (intro; apply N).
    clear E N. unfold sum_of. induction Hc as [a|a c bins b Hc IH]; cbn [map fold_right fst snd]; [unfold Rdiv; ring|].
    rewrite IH. unfold Rdiv. ring.
  - apply nth_error_None in E.
    rewrite nth_overflow by (rewrite map_length; exact E). rewrite map_map.
    rewrite (map_ext _ (fun _ => 0)) by (intro; apply nth_overflow; rewrite map_length; exact E).
    apply fold_zero.
Qed.
Print Assumptions tomo_contiguous.

(** Here with the function [x / (1 + |x|)], which has the properties asked of [erf]. *)
Example tomo_example : exists u v w,
  tomo_nz_gausserr (fun x => x / (1 + Rabs x)) [1] [6] (/ (2 * sqrt 2)) [(0, 1); (1, 2)] = Ok [[u]; [v]] /\
  tomo_nz_gausserr (fun x => x / (1 + Rabs x)) [1] [6] (/ (2 * sqrt 2)) [(0, 2)] = Ok [[w]] /\
  u = 2 /\ v = 2 /\ w = 4.
Proof.
  assert (H2 : 0 < sqrt 2) by (apply sqrt_lt_R0; lra).
  assert (E : sqrt 2 * / (2 * sqrt 2) * (1 + 1) = 1) by (field; lra).
  unfold tomo_nz_gausserr. cbn [length Nat.eqb combine map fst snd]. rewrite E.
  replace ((1 - 0) / 1) with 1 by field. replace ((1 - 1) / 1) with 0 by field. replace ((1 - 2) / 1) with (- (1)) by field.
  replace (1 / 1) with 1 by field.
  rewrite Rabs_Ropp, Rabs_R0, Rabs_R1. do 3 eexists. repeat split; field.
Qed.

(** C33 *)

(** For every size of the batches, the sampler is asked in turn for batches that together have one
    row for each redshift in order; the row has the relative weights of the shells at this
    redshift, or certainty for "outside" if there are none; the answer for each redshift is the
    position of the event. *)
Theorem distribute_draws {S} (multinomial : S -> list (list R) -> list (list nat) * S) batch zs shells s :
  categorical multinomial -> (0 < batch)%nat -> shells <> [] ->
  (forall w, In w shells -> increasing (za w) /\ length (za w) = length (wa w) /\ za w <> [] /\ forall f, In f (wa w) -> 0 <= f) ->
  exists Ws idx s' rows counts,
    Forall2 (fun w W => sampled_weight (za w) (wa w) W) shells Ws /\
    distribute multinomial batch zs shells s = Ok (idx, s') /\
    draws multinomial s rows counts s' /\ batches_of batch rows /\
    Forall2 (shell_probabilities Ws) zs (concat rows) /\
    Forall2 (fun row k => exists j, single_event row j /\ k = (Z.of_nat j - 1)%Z) (concat counts) idx.
Proof.
  intros Hm Hb Hne Hg.
  destruct (distribute_loop_spec multinomial Hm batch shells Hb Hne Hg (length zs) zs s (le_n _))
    as (idx & s' & rows & counts & E & Hd & Hp & Hbt & _ & Hi).
  exists (map weight_of shells), idx, s', rows, counts. split; [|repeat (split; [assumption|]); assumption].
  clear - Hg. induction shells as [|w shells IH]; cbn [map]; constructor.
  - destruct (Hg w (or_introl eq_refl)) as (H1 & H2 & H3 & _). apply sampled_weight_value; assumption.
  - apply IH. intros. apply Hg. right. assumption.
Qed.
Print Assumptions distribute_draws.

(** Each redshift is given a shell with positive weight at this redshift, or -1 if no shell has weight
    there. *)
Theorem distribute_shells {S} (multinomial : S -> list (list R) -> list (list nat) * S) batch zs shells s idx s' :
  categorical multinomial -> (0 < batch)%nat -> shells <> [] ->
  (forall w, In w shells -> increasing (za w) /\ length (za w) = length (wa w) /\ za w <> [] /\ forall f, In f (wa w) -> 0 <= f) ->
  distribute multinomial batch zs shells s = Ok (idx, s') ->
  exists Ws, Forall2 (fun w W => sampled_weight (za w) (wa w) W) shells Ws /\
    Forall2 (fun z k => (k = (-1)%Z /\ forall W, In W Ws -> W z = 0) \/
                        exists i W, k = Z.of_nat i /\ nth_error Ws i = Some W /\ 0 < W z) zs idx.
Proof.
  intros Hm Hb Hne Hg E'.
  destruct (distribute_loop_spec multinomial Hm batch shells Hb Hne Hg (length zs) zs s (le_n _))
    as (idx' & s'' & rows & counts & E & Hd & Hp & Hbt & Hev & Hi).
  unfold distribute in E'. rewrite E in E'. injection E' as -> ->.
  exists (map weight_of shells). split.
  - clear - Hg. induction shells as [|w shells IH]; cbn [map]; constructor.
    + destruct (Hg w (or_introl eq_refl)) as (H1 & H2 & H3 & _). apply sampled_weight_value; assumption.
    + apply IH. intros. apply Hg. right. assumption.
  - assert (Hnn : forall z W, In W (map weight_of shells) -> 0 <= W z).
    { intros z W HW. apply in_map_iff in HW as (w & <- & Hw). apply weight_nonneg, Hg, Hw. }
    generalize dependent (map weight_of shells). intros Ws Hp Hnn. clear - Hp Hev Hi Hnn.
    revert idx Hi. generalize dependent (concat counts). generalize dependent (concat rows). clear rows counts.
    intros rows Hp. induction Hp as [|z row zs rows Hz _ IH]; intros counts Hev idx Hi; inversion Hev as [|? cnt ? counts' Hc Hcs]; subst; inversion Hi as [|? k ? idx' Hk Hks]; subst; constructor.
    + destruct Hc as (j & p & Hj & Hpj & Pp), Hk as (j' & Hj' & ->).
      assert (j' = j).
      { rewrite <- (argmax_event _ _ Hj'). apply argmax_event. exact Hj. } subst j'.
      destruct Hz as [[Hz ->]|[(W & HW & NW) ->]].
      * left. destruct j as [|j]; [split; [reflexivity|exact Hz]|]. exfalso. cbn [nth_error] in Hpj. rewrite nth_error_map' in Hpj.
        destruct (nth_error Ws j); cbn in Hpj; [injection Hpj as <-; lra|discriminate].
      * right. destruct j as [|j]; [injection Hpj as <-; lra|]. cbn [nth_error] in Hpj. rewrite nth_error_map' in Hpj.
        destruct (nth_error Ws j) as [V|] eqn:EV; cbn [option_map] in Hpj; [|discriminate]. injection Hpj as <-.
        exists j, V. split; [lia|]. split; [exact EV|].
        pose proof (Hnn z V (nth_error_In _ _ EV)) as HV. destruct (Req_dec (V z) 0) as [Q|Q]; [|lra].
        exfalso. rewrite Q in Pp. unfold Rdiv in Pp. rewrite Rmult_0_l in Pp. lra.
    + apply (IH _ Hcs). assumption.
Qed.
Print Assumptions distribute_shells.

(** Without shells there is nothing to stack; without redshifts nothing is done. *)
Theorem distribute_empty {S} (multinomial : S -> list (list R) -> list (list nat) * S) batch zs shells s :
  (zs <> [] -> distribute multinomial batch zs [] s = Err ValueError) /\
  distribute multinomial batch [] shells s = Ok ([], s).
Proof. split; [|reflexivity]. intro H. destruct zs; [contradiction|reflexivity]. Qed.
Print Assumptions distribute_empty.

(** A sampler that always picks the first possible position. *)
Fixpoint first_possible (w : list R) : list nat :=
  match w with
  | [] => []
  | p :: w => if ltb 0 p then 1%nat :: map (fun _ => 0%nat) w else 0%nat :: first_possible w
  end.
Definition pick (n : nat) (ws : list (list R)) : list (list nat) * nat := (map first_possible ws, (n + length ws)%nat).

Lemma pick_categorical : categorical pick.
Proof.
  intros n ws counts n' [= <- _] H. induction ws as [|w ws IH]; cbn [map]; constructor; [|apply IH; intros; apply H; right; assumption].
  destruct (H w (or_introl eq_refl)) as [H1 H2]. clear - H1 H2.
  assert (Q : exists p, In p w /\ 0 < p).
  { destruct (Exists_dec (fun p => 0 < p) w (fun p => Rlt_dec 0 p)) as [Q|Q]; [apply Exists_exists in Q as (p & ? & ?); eauto|].
    exfalso. assert (E : forall p, In p w -> p = 0).
    { intros p Hp. pose proof (H1 p Hp). destruct (Rlt_dec 0 p) as [P|P]; [|lra]. exfalso. apply Q, Exists_exists. eauto. }
    clear - E H2. assert (fold_right Rplus 0 w = 0); [|lra]. clear H2. induction w as [|p w IH]; [reflexivity|]. cbn.
    rewrite (E p (or_introl eq_refl)), IH; [lra|]. intros; apply E; right; assumption. }
  clear H1 H2. induction w as [|p w IH]; [destruct Q as (? & [] & _)|]. cbn [first_possible].
  destruct (Rlt_dec 0 p) as [P|P].
  - rewrite ltb_true by exact P. split; [cbn; rewrite map_length; reflexivity|]. exists 0%nat, p. split; [|split; [reflexivity|exact P]].
    split; [reflexivity|]. intros [|i] x Hi Hne; [contradiction|]. cbn in Hi. rewrite nth_error_map' in Hi.
    destruct (nth_error w i); [injection Hi as <-; reflexivity|discriminate].
  - rewrite ltb_false by lra. destruct IH as (Hl & j & q & [Hj Hj'] & Hq & Pq).
    { destruct Q as (q & [->|Hq] & Pq); [contradiction|eauto]. }
    split; [cbn; lia|]. exists (Datatypes.S j), q. split; [|split; [exact Hq|exact Pq]]. split; [exact Hj|].
    intros [|i] x Hi Hne; [injection Hi as <-; reflexivity|]. apply (Hj' i); [exact Hi|lia].
Qed.

Example distribute_example :
  distribute pick 2 [1; 5; 7 / 2] [Window [0; 2] [1; 1] 0; Window [2; 4] [1; 1] 0] 0%nat = Ok ([0; -1; 1]%Z, 3%nat).
Proof.
  unfold distribute. cbn [length distribute_loop firstn skipn mapM]. unfold shell_weights. cbn [mapM za wa]. unfold interp.
  cbn [length Nat.eqb combine interp_scan last_value].
  repeat (first [rewrite ltb_true by lra|rewrite ltb_false by lra|rewrite leb_true by lra|rewrite leb_false by lra]).
  cbn [bind total map].
  repeat (destruct (Req_EM_T _ 0); [try (exfalso; lra)|try (exfalso; lra)]).
  unfold pick. cbn [map first_possible bind firstn skipn length Nat.add].
  repeat (first [rewrite ltb_true by lra|rewrite ltb_false by lra]). cbn [map first_possible].
  repeat (first [rewrite ltb_true by lra|rewrite ltb_false by lra]). reflexivity.
Qed.

(** C62 *)

(** The lognormal shift vanishes at redshift zero, increases strictly and is positive. *)
Theorem lognormal_shift_valid :
  lognormal_shift 0 = 0 /\ (forall x y, 0 <= x -> x < y -> lognormal_shift x < lognormal_shift y) /\
  forall z, 0 < z -> 0 < lognormal_shift z.
Proof.
  assert (E : lognormal_shift 0 = 0) by (unfold lognormal_shift; ring).
  split; [exact E|]. split; [exact shift_increasing|].
  intros z Hz. pose proof (shift_increasing 0 z (Rle_refl 0) Hz). lra.
Qed.
Print Assumptions lognormal_shift_valid.

Example lognormal_shift_example : lognormal_shift 1 = 2975 / 100000 /\ lognormal_shift 10 = 158 / 100.
Proof. unfold lognormal_shift. split; field. Qed.

(** C64 *)

(** The visibility map: every pixel is between zero and one, zero where all pixels that it is
    computed from are in the ecliptic stripe, and one where these are outside of the
    ecliptic stripe and computed from pixels outside of the galactic stripe. *)
Theorem vmap_range query_strip rotate_gc rotate_ce near_gc near_ce nside galactic ecliptic m i v :
  averages near_gc rotate_gc -> averages near_ce rotate_ce ->
  (forall p s, length (query_strip nside p) = (12 * nside * nside)%nat /\ (In s (query_strip nside p) -> s = 0 \/ s = 1)) ->
  (forall m', length m' = (12 * nside * nside)%nat -> length (rotate_gc m') = (12 * nside * nside)%nat) ->
  (forall k j, In j (near_gc k) \/ In j (near_ce k) -> (j < 12 * nside * nside)%nat) ->
  vmap_galactic_ecliptic query_strip rotate_gc rotate_ce nside galactic ecliptic = Ok m -> nth_error m i = Some v ->
  0 <= v <= 1 /\
  ((forall j, In j (near_ce i) -> nth_error (query_strip nside ecliptic) j = Some 1) -> v = 0) /\
  ((forall j, In j (near_ce i) -> nth_error (query_strip nside ecliptic) j = Some 0 /\
      forall k, In k (near_gc j) -> nth_error (query_strip nside galactic) k = Some 0) -> v = 1).
Proof.
  intros Agc Ace Hq Lgc Hnear. unfold vmap_galactic_ecliptic.
  destruct (Nat.eqb (length galactic) 2); [|discriminate]. destruct (Nat.eqb (length ecliptic) 2); [|discriminate].
  intros [= <-] Hv. set (n := (12 * nside * nside)%nat) in *.
  set (m0 := mask (query_strip nside galactic) (repeat 1 n)) in *. set (m1 := rotate_gc m0) in *. set (m2 := mask (query_strip nside ecliptic) m1) in *.
  assert (Hmask : forall st mm k, length st = length mm -> (k < length mm)%nat -> exists s u, nth_error st k = Some s /\ nth_error mm k = Some u /\
     nth_error (mask st mm) k = Some (u * (1 - s))).
  { intros st mm k Hl Hk. destruct (nth_error mm k) as [u|] eqn:Eu; [|apply nth_error_None in Eu; lia].
    destruct (nth_error st k) as [s|] eqn:Es; [|apply nth_error_None in Es; lia]. exists s, u. split; [reflexivity|]. split; [reflexivity|].
    unfold mask. rewrite nth_error_map', nth_error_combine, Eu, Es. reflexivity. }
  destruct (Hq galactic 0) as [Lg _]. destruct (Hq ecliptic 0) as [Le _].
  assert (L0 : length m0 = n). { unfold m0, mask. rewrite map_length, combine_length, repeat_length, Lg. apply Nat.min_id. }
  assert (L1 : length m1 = n) by (apply Lgc; exact L0).
  assert (H0 : forall k, (k < n)%nat -> exists s, nth_error (query_strip nside galactic) k = Some s /\ nth_error m0 k = Some (1 - s) /\ (s = 0 \/ s = 1)).
  { intros k Hk. destruct (Hmask (query_strip nside galactic) (repeat 1 n) k) as (s & u & Es & Eu & E); [rewrite repeat_length; exact Lg|rewrite repeat_length; exact Hk|].
    exists s. split; [exact Es|]. rewrite nth_error_repeat in Eu by exact Hk. injection Eu as <-. rewrite Rmult_1_l in E. split; [exact E|].
    apply (proj2 (Hq galactic s)). apply nth_error_In in Es. exact Es. }
  assert (H1 : forall k u, nth_error m1 k = Some u -> 0 <= u <= 1).
  { intros k u Hu. apply (Agc m0 k u 0 1 Hu). intros j Hj. destruct (H0 j) as (s & _ & E & Hs); [apply (Hnear k); left; exact Hj|].
    exists (1 - s). split; [exact E|]. destruct Hs; subst; lra. }
  assert (H2 : forall k, (k < n)%nat -> exists s u, nth_error (query_strip nside ecliptic) k = Some s /\ nth_error m1 k = Some u /\
     nth_error m2 k = Some (u * (1 - s)) /\ (s = 0 \/ s = 1)).
  { intros k Hk. destruct (Hmask (query_strip nside ecliptic) m1 k) as (s & u & Es & Eu & E); [congruence|congruence|].
    exists s, u. repeat (split; [assumption|]). apply (proj2 (Hq ecliptic s)). apply nth_error_In in Es. exact Es. }
  split; [|split].
  - apply (Ace m2 i v 0 1 Hv). intros j Hj. destruct (H2 j) as (s & u & _ & Eu & E & Hs); [apply (Hnear i); right; exact Hj|].
    exists (u * (1 - s)). split; [exact E|]. pose proof (H1 j u Eu). destruct Hs; subst; lra.
  - intro Hin. assert (0 <= v <= 0); [|lra]. apply (Ace m2 i v 0 0 Hv). intros j Hj.
    destruct (H2 j) as (s & u & Es & Eu & E & _); [apply (Hnear i); right; exact Hj|].
    rewrite (Hin j Hj) in Es. injection Es as <-. exists (u * (1 - 1)). split; [exact E|lra].
  - intro Hout. assert (1 <= v <= 1); [|lra]. apply (Ace m2 i v 1 1 Hv). intros j Hj.
    destruct (H2 j) as (s & u & Es & Eu & E & _); [apply (Hnear i); right; exact Hj|].
    destruct (Hout j Hj) as [Ee Hg]. rewrite Ee in Es. injection Es as <-. exists (u * (1 - 0)). split; [exact E|].
    assert (1 <= u <= 1); [|lra]. apply (Agc m0 j u 1 1 Eu). intros k Hk.
    destruct (H0 k) as (s & Es & E0 & _); [apply (Hnear j); left; exact Hk|]. rewrite (Hg k Hk) in Es. injection Es as <-.
    exists (1 - 0). split; [exact E0|lra].
Qed.
Print Assumptions vmap_range.

(** A stripe that is not a pair is rejected. *)
Theorem vmap_rejects query_strip rotate_gc rotate_ce nside galactic ecliptic :
  length galactic <> 2%nat \/ length ecliptic <> 2%nat ->
  vmap_galactic_ecliptic query_strip rotate_gc rotate_ce nside galactic ecliptic = Err TypeError.
Proof.
  intro H. unfold vmap_galactic_ecliptic. destruct (Nat.eqb_spec (length galactic) 2); [|reflexivity].
  destruct (Nat.eqb_spec (length ecliptic) 2); [lia|reflexivity].
Qed.
Print Assumptions vmap_rejects.

(** Without rotation, and stripes in the first and second pixel of twelve. *)
Example vmap_example :
  vmap_galactic_ecliptic (fun _ p => match p with x :: _ => if Req_EM_T x 0 then 1 :: repeat 0 11 else 0 :: 1 :: repeat 0 10 | [] => [] end)
    (fun m => m) (fun m => m) 1 [0; 1] [1; 2] = Ok (0 :: 0 :: repeat 1 10).
Proof.
  unfold vmap_galactic_ecliptic. cbn [length Nat.eqb]. destruct (Req_EM_T 0 0) as [_|N]; [|lra]. destruct (Req_EM_T 1 0) as [N|_]; [lra|].
  cbn. apply f_equal. repeat (apply (f_equal2 (@cons R)); [ring|]). reflexivity.
Qed.
