(** Claims about Gaussian and lognormal fields for shells (C21, C61, C62, C78). *)
From Coq Require Import Reals Lra Psatz Lia List.
From Verif Require Import Base Model_Numeric Model_Spectra Model_Fields Model_Windows Model_Transform Model_FieldKinds
  Model_Observations Spec_Spectra Spec_Fields Spec_Transform Spec_Gauss Proof_Spectra Proof_Fields Prop_Fields
  Prop_Transform Prop_Gauss Prop_Observations.
Import ListNotations.
Local Open Scope R_scope.

(** C61, C62, C78 *)

(** Simulated maps of lognormal fields stay above minus the shift at the nominal redshift of their own shell; without
    a shift they stay above -1, so that no shell has a negative density.  Whatever the Gaussian maps are, the spectra,
    the variances, and the number of correlated shells. *)
Theorem lognormal_simulation cltovar grf shells shift gls ncorr k m x :
  let maps := fst (generate 0 cltovar pixels grf (lognormal_fields shells shift) gls ncorr) in
  nth_error maps k = Some m -> In x m ->
  exists w, nth_error shells k = Some w /\
    match shift with None => -1 < x | Some s => 0 < s (zeff w) -> - s (zeff w) < x end.
Proof.
  intros maps Hm Hx. destruct (generate_field_by_field _ _ _ _ _ _ _ _ _ Hm) as (t & g & cl & v & Ht & _ & _ & _ & Ha).
  unfold lognormal_fields in Ht. rewrite nth_error_map' in Ht. destruct (nth_error shells k) as [w|]; [|discriminate].
  exists w. split; [reflexivity|]. cbn [option_map] in Ht. injection Ht as <-. unfold pixels in Ha. injection Ha as <-.
  apply in_map_iff in Hx as (y & <- & _). destruct (transformed_bounds y v) as (_ & B & _).
  destruct shift as [s|]; [apply B|]. specialize (B 1 Rlt_0_1). change (-1 < call (Lognormal 1) y v). lra.
Qed.
Print Assumptions lognormal_simulation.

(** With the shift of Hilbert et al. this holds for all shells at positive redshifts. *)
Theorem lognormal_shift_simulation cltovar grf shells gls ncorr k m x :
  let maps := fst (generate 0 cltovar pixels grf (lognormal_fields shells (Some lognormal_shift)) gls ncorr) in
  Forall (fun w => 0 < zeff w) shells -> nth_error maps k = Some m -> In x m ->
  exists w, nth_error shells k = Some w /\ - lognormal_shift (zeff w) < x.
Proof.
  intros maps P Hm Hx. destruct (lognormal_simulation _ _ _ _ _ _ _ _ _ Hm Hx) as (w & Hw & B).
  exists w. split; [exact Hw|]. apply B, lognormal_shift_valid. rewrite Forall_forall in P. apply P.
  exact (nth_error_In _ _ Hw).
Qed.
Print Assumptions lognormal_shift_simulation.

(** Gaussian fields are the generated maps themselves. *)
Theorem gaussian_simulation cltovar grf shells gls ncorr k m :
  nth_error (fst (generate 0 cltovar pixels grf (gaussian_fields shells) gls ncorr)) k = Some m ->
  nth_error (fst (grf gls ncorr)) k = Some m /\ (k < length shells)%nat.
Proof.
  intro Hm. destruct (generate_field_by_field _ _ _ _ _ _ _ _ _ Hm) as (t & g & cl & v & Ht & Hg & _ & _ & Ha).
  unfold gaussian_fields in Ht. rewrite nth_error_map' in Ht. destruct (nth_error shells k) as [w|] eqn:E; [|discriminate].
  cbn [option_map] in Ht. injection Ht as <-. unfold pixels in Ha. injection Ha as <-. cbn [call]. rewrite map_id.
  split; [exact Hg|]. apply nth_error_Some. congruence.
Qed.
Print Assumptions gaussian_simulation.

(** All maps are made, one for each shell, if the Gaussian maps are. *)
Theorem simulation_complete cltovar grf shells shift gls ncorr xs :
  triangle (length shells) (length gls) -> grf gls ncorr = (xs, None) -> length xs = length shells ->
  (forall cl, In cl gls -> exists v, cltovar cl = Ok v) ->
  (exists ys, generate 0 cltovar pixels grf (lognormal_fields shells shift) gls ncorr = (ys, None) /\
     length ys = length shells) /\
  generate 0 cltovar pixels grf (gaussian_fields shells) gls ncorr = (xs, None).
Proof.
  intros T G L V.
  assert (P : forall t x v, exists y, pixels t x v = Ok y) by (intros; eexists; reflexivity).
  split.
  - assert (E : length (lognormal_fields shells shift) = length shells) by apply map_length.
    destruct (generate_complete 0 cltovar pixels grf (lognormal_fields shells shift) gls ncorr xs) as (ys & H1 & H2);
      try rewrite E; auto. exists ys. rewrite H2, E. auto.
  - assert (E : length (gaussian_fields shells) = length shells) by apply map_length.
    destruct (generate_complete 0 cltovar pixels grf (gaussian_fields shells) gls ncorr xs) as (ys & H1 & H2);
      try rewrite E; auto. rewrite H1. f_equal. apply nth_error_ext'. intro k.
    destruct (nth_error ys k) as [m|] eqn:Em.
    + destruct (gaussian_simulation cltovar grf shells gls ncorr k m) as [Q _]; [rewrite H1; exact Em|].
      rewrite G in Q. symmetry. exact Q.
    + symmetry. apply nth_error_None. apply nth_error_None in Em. lia.
Qed.
Print Assumptions simulation_complete.

(** Two shells with different shifts; the second map attains values below the bound of the first. *)
Example simulation_example :
  let shells := [Window [] [] (1 / 2); Window [] [] 2] in
  generate 0 (fun _ => Ok 2) pixels (fun _ _ => ([[1]; [1]], None)) (lognormal_fields shells (Some (fun z => z)))
    [[1]; [1]; [1]] None = ([[0]; [0]], None) /\
  generate 0 (fun _ => Ok (2 * ln 4)) pixels (fun _ _ => ([[0]; [0]], None)) (lognormal_fields shells (Some (fun z => z)))
    [[1]; [1]; [1]] None = ([[- (3 / 8)]; [- (3 / 2)]], None).
Proof.
  assert (H : (1 / 2 <> 1) /\ 2 <> 1) by lra. destruct H as [H1 H2].
  assert (E : exp (0 - 2 * ln 4 / 2) = / 4).
  { replace (0 - 2 * ln 4 / 2) with (- ln 4) by field. rewrite exp_Ropp, exp_ln by lra. reflexivity. }
  cbn -[exp ln]. split.
  - destruct (Req_EM_T (1 / 2) 1) as [?|_]; [contradiction|]. destruct (Req_EM_T 2 1) as [?|_]; [contradiction|].
    replace (1 - 2 / 2) with 0 by field. rewrite exp_0. unfold yield_then; cbn [fst snd].
    repeat f_equal; ring.
  - rewrite E. destruct (Req_EM_T (1 / 2) 1) as [?|_]; [contradiction|]. destruct (Req_EM_T 2 1) as [?|_]; [contradiction|].
    unfold yield_then; cbn [fst snd]. repeat f_equal; field.
Qed.

(** C21, C78 *)

(** [lognormal_gls] is [solve_gaussian_spectra] for lognormal fields of that constant shift; a number of spectra that
    does not belong to any number of fields is an error. *)
Theorem lognormal_gls_fields {A} (zero : A) is_zero solve cls shift :
  (forall shells, triangle (length shells) (length cls) ->
     lognormal_gls zero is_zero solve cls shift =
     solve_gaussian_spectra zero is_zero solve (lognormal_fields shells (Some (fun _ => shift))) cls) /\
  (forall shells, triangle (length shells) (length cls) -> shift = 1 ->
     lognormal_gls zero is_zero solve cls shift =
     solve_gaussian_spectra zero is_zero solve (lognormal_fields shells None) cls) /\
  ((forall n, ~ triangle n (length cls)) -> lognormal_gls zero is_zero solve cls shift = Err ValueError).
Proof.
  assert (R : forall (shells : list window), map (fun _ => Lognormal shift) shells = repeat (Lognormal shift) (length shells)).
  { induction shells as [|w shells IH]; [reflexivity|]. cbn. rewrite IH. reflexivity. }
  unfold lognormal_gls, lognormal_fields. split; [|split].
  - intros shells T. apply nfields_ok in T. rewrite T. cbn [bind]. rewrite R. reflexivity.
  - intros shells T E. apply nfields_ok in T. rewrite T. cbn [bind]. rewrite <- E, R. reflexivity.
  - intro N. apply nfields_err in N. rewrite N. reflexivity.
Qed.
Print Assumptions lognormal_gls_fields.

Example lognormal_gls_example :
  let solve := fun (cl : list nat) t1 t2 (pad : nat) (m : option nat) =>
    match t1, t2 with Lognormal _, Lognormal _ => Ok (pad :: cl, length cl) | _, _ => Err ValueError end in
  lognormal_gls 0%nat (Nat.eqb 0) solve [[1]; [1; 2]; [3]]%nat 2 = Ok ([[2; 1]; [4; 1; 2]; [2; 3]]%nat, []) /\
  lognormal_gls 0%nat (Nat.eqb 0) solve [[1]; [1; 2]]%nat 2 = Err ValueError.
Proof. split; reflexivity. Qed.

(** C22, C78 *)

(** From angular power spectra to covariances of the simulated fields.  The spectra that [compute_gaussian_spectra]
    returns are either such that, at every angle, normal numbers with the covariance of the Gaussian spectrum are
    transformed to numbers with the covariance of the given spectrum; or, where that spectrum has a covariance out of
    reach of the transformations, all modes are NaN. *)
Theorem computed_spectra_covariance cltocorr corrtocl fields spectra gls k i j t1 t2 cl :
  (forall x, corrtocl (cltocorr x) = x) -> (forall x, cltocorr (corrtocl x) = x) -> Forall proper fields ->
  compute_gaussian_spectra (Some 0) (fun cl t1 t2 => compute cltocorr corrtocl t1 t2 cl) fields (map (map Some) spectra) = Ok gls ->
  entry_of fields spectra k i j t1 t2 cl -> cl <> [] ->
  exists gl, nth_error gls k = Some gl /\
    (Forall (attained t1 t2) (cltocorr cl) -> exists g, gl = map Some g /\ length (cltocorr g) = length (cltocorr cl) /\
       forall a xi p q r, nth_error (cltocorr cl) a = Some xi -> nth_error (cltocorr g) a = Some (p * q) ->
         variance t1 (p ^ 2) -> variance t2 (q ^ 2 + r ^ 2) ->
         forall m, mean2 p q r (fun x y => call t1 x (p ^ 2) * call t2 y (q ^ 2 + r ^ 2)) m <-> m = xi) /\
    (~ Forall (attained t1 t2) (cltocorr cl) -> Forall (eq None) gl).
Proof.
  intros B1 B2 P C (Ho & Hk & H1 & H2) Ne.
  destruct (compute_gaussian_spectra_pairs _ _ _ _ _ C) as (_ & _ & Q).
  assert (Hk' : nth_error (map (map (@Some R)) spectra) k = Some (map Some cl)) by (rewrite nth_error_map', Hk; reflexivity).
  destruct (Q k i j t1 t2 (map Some cl)) as (gl & Hgl & _ & Hc).
  { split; [exact Ho|]. split; [exact Hk'|]. split; assumption. }
  assert (Ne' : map (@Some R) cl <> []) by (destruct cl; [contradiction|discriminate]). specialize (Hc Ne').
  rewrite Forall_forall in P. pose proof (P _ (nth_error_In _ _ H1)) as P1. pose proof (P _ (nth_error_In _ _ H2)) as P2.
  exists gl. split; [exact Hgl|].
  unfold compute in Hc. destruct (icorr t1 t2) as [f|] eqn:I; [|discriminate]. cbn [bind] in Hc. injection Hc as Hc.
  assert (S : supported t1 t2).
  { destruct (dispatch_total t1 t2) as [_ N]. destruct t1, t2; cbn in *; try exact Logic.I; discriminate. }
  destruct (proj1 (dispatch_total t1 t2) S) as (c & f' & d & Cc & I' & _).
  assert (F : forall l : list R, finite (map Some l) = Some l).
  { induction l as [|x l IH]; [reflexivity|]. unfold finite in *. cbn [map fold_right]. rewrite IH. reflexivity. }
  unfold lifted in Hc. rewrite F in Hc. split.
  - intro A.
    assert (G : exists g, apply f (map Some (cltocorr cl)) = map Some g /\ Forall2 (fun x y => c x = Some y) g (cltocorr cl)).
    { clear Hc; induction A as [|y l Hy A IH]; [exists []; split; [reflexivity|constructor]|]. destruct IH as (g & E1 & E2).
      destruct (inverse_corr t1 t2 c f y P1 P2 Cc I) as (Hi & Ha & _).
      apply Ha in Hy. destruct (f y) as [x|] eqn:E; [|contradiction]. destruct (Hi x eq_refl) as [W _].
      exists (x :: g). unfold apply in *. cbn [map nbind]. rewrite E, E1. split; [reflexivity|constructor; assumption]. }
    destruct G as (g & E & W). rewrite E, F in Hc. exists (corrtocl g). split; [symmetry; exact Hc|].
    rewrite B2. split; [clear -W; induction W; cbn; congruence|].
    intros a xi p q r Ha Hp V1 V2 m.
    destruct (corr_normal p q r t1 t2 c V1 V2 Cc) as (z & Ez & M & _). rewrite M.
    assert (K : c (p * q) = Some xi).
    { clear -W Ha Hp. revert a Ha Hp. induction W as [|x y g l R W IH]; intros [|a] Ha Hp; try discriminate.
      - injection Ha as ->. injection Hp as ->. exact R.
      - exact (IH a Ha Hp). }
    rewrite K in Ez. injection Ez as ->. reflexivity.
  - intro N.
    assert (G : finite (apply f (map Some (cltocorr cl))) = None).
    { clear Hc. induction (cltocorr cl) as [|y l IH]; [exfalso; apply N; constructor|].
      unfold apply in *. cbn [map nbind]. unfold finite in *. cbn [fold_right].
      destruct (f y) as [x|] eqn:E; [|reflexivity]. rewrite IH; [reflexivity|].
      intro A. apply N. constructor; [|exact A].
      destruct (inverse_corr t1 t2 c f y P1 P2 Cc I) as (_ & Ha & _). apply Ha. congruence. }
    rewrite G in Hc. rewrite <- Hc. apply Forall_forall. intros x Hx. apply in_map_iff in Hx as (? & <- & _). reflexivity.
Qed.
Print Assumptions computed_spectra_covariance.

(** Lognormal fields with positive shifts: the Gaussian spectra are always computed, and the condition is that no
    covariance of two shells falls to minus the product of their shifts. *)
Theorem lognormal_spectra_covariance cltocorr corrtocl shells s spectra :
  (forall x, corrtocl (cltocorr x) = x) -> (forall x, cltocorr (corrtocl x) = x) ->
  Forall (fun w => 0 < s (zeff w)) shells -> triangle (length shells) (length spectra) ->
  exists gls, compute_gaussian_spectra (Some 0) (fun cl t1 t2 => compute cltocorr corrtocl t1 t2 cl)
      (lognormal_fields shells (Some s)) (map (map Some) spectra) = Ok gls /\ length gls = length spectra /\
  forall k i j w1 w2 cl, entry_of shells spectra k i j w1 w2 cl -> cl <> [] ->
  let lam := s (zeff w1) * s (zeff w2) in
  exists gl, nth_error gls k = Some gl /\
    (Forall (fun xi => - lam < xi) (cltocorr cl) -> exists g, gl = map Some g /\
       forall a xi, nth_error (cltocorr cl) a = Some xi -> exists c, nth_error (cltocorr g) a = Some c /\
         lam * (exp c - 1) = xi /\
         forall p q r, p * q = c -> forall m, mean2 p q r (fun x y =>
             call (Lognormal (s (zeff w1))) x (p ^ 2) * call (Lognormal (s (zeff w2))) y (q ^ 2 + r ^ 2)) m <-> m = xi) /\
    (Exists (fun xi => xi <= - lam) (cltocorr cl) -> Forall (eq None) gl).
Proof.
  intros B1 B2 P T. set (fields := lognormal_fields shells (Some s)).
  assert (Lf : length fields = length shells) by apply map_length.
  assert (Ls : length (map (map (@Some R)) spectra) = length spectra) by apply map_length.
  assert (Nf : forall i w, nth_error shells i = Some w -> nth_error fields i = Some (Lognormal (s (zeff w)))).
  { intros i w H. unfold fields, lognormal_fields. rewrite nth_error_map', H. reflexivity. }
  assert (Nb : forall i t, nth_error fields i = Some t -> exists w, t = Lognormal (s (zeff w))).
  { intros i t H. unfold fields, lognormal_fields in H. rewrite nth_error_map' in H.
    destruct (nth_error shells i) as [w|]; [|discriminate]. injection H as <-. exists w. reflexivity. }
  destruct (compute_gaussian_spectra (Some 0) (fun cl t1 t2 => compute cltocorr corrtocl t1 t2 cl) fields
      (map (map Some) spectra)) as [gls|e] eqn:C.
  2:{ exfalso. apply compute_gaussian_spectra_raises in C. rewrite Lf, Ls in C.
      destruct C as [[N _]|(_ & k & i & j & t1 & t2 & cl & (_ & _ & H1 & H2) & _ & E)]; [contradiction|].
      destruct (Nb _ _ H1) as [w1 ->]. destruct (Nb _ _ H2) as [w2 ->]. discriminate. }
  exists gls. split; [reflexivity|]. destruct (compute_gaussian_spectra_pairs _ _ _ _ _ C) as (_ & L & _).
  split; [rewrite L; exact Ls|].
  intros k i j w1 w2 cl (Ho & Hk & H1 & H2) Ne lam.
  assert (Pf : Forall proper fields).
  { unfold fields, lognormal_fields. rewrite Forall_map. exact P. }
  rewrite Forall_forall in P. pose proof (P _ (nth_error_In _ _ H1)) as P1. pose proof (P _ (nth_error_In _ _ H2)) as P2.
  cbn beta in P1, P2. assert (Pl : 0 < lam) by (apply Rmult_lt_0_compat; assumption).
  destruct (computed_spectra_covariance cltocorr corrtocl fields spectra gls k i j _ _ cl B1 B2 Pf C
    (conj Ho (conj Hk (conj (Nf _ _ H1) (Nf _ _ H2)))) Ne) as (gl & Hgl & Y & N).
  exists gl. split; [exact Hgl|]. cbn [attained] in Y, N. fold lam in Y, N. split.
  - intro A. destruct (Y A) as (g & Eg & Lg & M). exists g. split; [exact Eg|]. intros a xi Ha.
    destruct (nth_error (cltocorr g) a) as [c|] eqn:Ec.
    2:{ apply nth_error_None in Ec. assert (W : (a < length (cltocorr cl))%nat) by (apply nth_error_Some; congruence). lia. }
    exists c. split; [reflexivity|].
    assert (W : forall p q r, p * q = c -> forall m, mean2 p q r (fun x y =>
             call (Lognormal (s (zeff w1))) x (p ^ 2) * call (Lognormal (s (zeff w2))) y (q ^ 2 + r ^ 2)) m <-> m = xi).
    { intros p q r E m. rewrite (M a xi p q r Ha); [reflexivity|rewrite E; exact Ec|exact Logic.I|exact Logic.I]. }
    split; [|exact W].
    destruct (corr_normal c 1 0 (Lognormal (s (zeff w1))) (Lognormal (s (zeff w2))) _ Logic.I Logic.I eq_refl) as (z & Ez & Mz & _).
    injection Ez as Ez. specialize (W c 1 0 (Rmult_1_r c) xi). specialize (Mz xi).
    assert (K : xi = z) by (apply Mz, W; reflexivity). unfold lam. rewrite K, <- Ez. rewrite Rmult_1_r. reflexivity.
  - intro A. apply N. intro F. apply Exists_exists in A as (y & Hy & Hl). rewrite Forall_forall in F. specialize (F y Hy). exact (Rlt_not_le _ _ F Hl).
Qed.
Print Assumptions lognormal_spectra_covariance.

(** Two shells, transforms that double every entry: one cross-spectrum in reach and one out of reach. *)
Example lognormal_spectra_example :
  let shells := [Window [] [] (1 / 2); Window [] [] 2] in
  let f := compute_gaussian_spectra (Some 0) (fun cl t1 t2 => compute (map (fun x => 2 * x)) (map (fun x => x / 2)) t1 t2 cl)
      (lognormal_fields shells (Some (fun z => z))) in
  f (map (map Some) [[0]; [1]; [-1]]) = Ok [[Some 0]; [Some (ln (1 + 2 * 1 / (2 * 2)) / 2)]; [None]].
Proof.
  cbn -[ln Rle_dec Req_EM_T]. unfold divide, log1p.
  repeat (destruct (Req_EM_T _ 0) as [K|_]; [exfalso; lra|]). cbn -[ln Rle_dec lifted]. repeat f_equal.
  - destruct (Rle_dec _ _) as [K|_]; [exfalso; lra|]. unfold lifted, finite. cbn -[ln]. do 2 f_equal.
    replace (1 + _) with 1 by field. rewrite ln_1. field.
  - destruct (Rle_dec _ _) as [K|_]; [exfalso; lra|]. reflexivity.
  - destruct (Rle_dec _ _) as [_|K]; [reflexivity|exfalso; lra].
Qed.
