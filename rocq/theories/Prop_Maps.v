(** Claims about the maps of complete simulations. *)
From Coq Require Import Reals Lra Lia List Arith ZArith.
From Verif Require Import Base RSum Model_Spectra Model_Fields Model_Iternorm Model_Transform Model_FieldKinds Model_Maps
  Spec_Spectra Spec_Fields Spec_Iternorm Spec_Grf Spec_Transform Spec_Gauss Spec_Maps
  Proof_Spectra Proof_Fields Proof_Iternorm Proof_Normals Proof_Maps Prop_Transform Prop_Solver Prop_Normals Prop_Grf Prop_Fields Prop_FieldKinds.
Import ListNotations.
Local Open Scope R_scope.

(** C81 *)

(** The maps of a simulation have mean zero, and the expected product of two pixels is the correlation function of
    the Gaussian spectrum at the angle between them, transformed by [corr].  [t] is the number of complex random
    numbers per map; all random numbers are independent standard normal numbers. *)
Theorem simulated_correlations cltovar alm2map fields gls ncorr n t npix c Y cosine :
  triangle (length fields) (length gls) -> longest gls n -> (0 < n)%nat -> triangle n t ->
  covariance_of 0 gls n (length fields) c ->
  (forall l, (l < n)%nat -> definite (length fields) (limited ncorr (c l)) \/ absent (length fields) (limited ncorr (c l))) ->
  synthesises n npix Y alm2map -> harmonics n npix Y cosine ->
  (forall cl, cltovar cl = Ok (correlation (length cl) (fun l => nth l cl 0) 1)) ->
  exists value : nat -> nat -> list R -> R,
    (forall u, exists ms, simulate cltovar alm2map (variates t u) fields gls ncorr = (ms, None) /\ length ms = length fields /\
       forall i m, nth_error ms i = Some m -> m = map (fun p => value i p u) (seq 0 npix)) /\
    forall i j t1 t2 p q f, nth_error fields i = Some t1 -> nth_error fields j = Some t2 -> (p < npix)%nat -> (q < npix)%nat ->
      variance t1 (correlation n (fun l => c l i i) 1) -> variance t2 (correlation n (fun l => c l j j) 1) -> corr t1 t2 = Ok f ->
      exists z, f (correlation n (fun l => limited ncorr (c l) i j) (cosine p q)) = Some z /\
        (forall m, means (2 * (length fields * t)) (fun u => value i p u * value j q u) m <-> m = z) /\
        (forall m, means (2 * (length fields * t)) (value i p) m <-> m = 0).
Proof.
  intros Ht Hn Hn0 Htn Hc Hd Hsyn (Hcos & Hadd) Hvar. apply tri_unique in Htn. subst t.
  destruct (generate_grf_limited gls ncorr (length fields) n c Ht Hn Hn0 Hc Hd) as (coef & Hgen & Hcov).
  set (K := length fields) in *. set (N := (2 * (K * tri n))%nat).
  set (v := fun i => correlation n (fun l => c l i i) 1).
  exists (fun i p u => match nth_error fields i with
                       | Some t => call t (combination N (weight n Y (coef i) p) u) (v i) | None => 0 end). split.
  - intro u.
    destruct (Hgen (list R) alm2map (variates (tri n) u)) as (out & Eout & Lout & Hout).
    { intro i. rewrite variates_length. apply tri_triangle. }
    set (grf := fun gls ncorr => let t := generate_grf alm2map (variates (tri n) u) gls ncorr in (map fst (fst t), snd t)).
    assert (Eg : grf gls ncorr = (map fst out, None)) by (unfold grf; rewrite Eout; reflexivity).
    destruct (generate_complete 0 cltovar pixels grf fields gls ncorr (map fst out)) as (ms & Em & Lm);
      [exact Ht|exact Eg|rewrite map_length; exact Lout|intros cl _; eauto|intros; eexists; reflexivity|].
    exists ms. split; [exact Em|]. split; [exact Lm|]. intros i m Hi.
    destruct (generate_field_by_field 0 cltovar pixels grf fields gls ncorr i m) as (tr & x & cl & w & E1 & E2 & E3 & E4 & E5);
      [rewrite Em; exact Hi|].
    rewrite E1. rewrite Eg in E2. cbn [fst] in E2. rewrite nth_error_map' in E2.
    destruct (nth_error out i) as [[x' y]|] eqn:Eo; [|discriminate]. injection E2 as <-.
    destruct (Hout i x' y Eo) as (alm & -> & Halm).
    assert (Hi' : (i < K)%nat) by (apply nth_error_Some; congruence).
    assert (W : w = v i).
    { rewrite Hvar in E4. injection E4 as <-. unfold v. rewrite <- (correlation_nth n cl 1).
      - apply correlation_ext. intros l Hl. destruct (Hc l i i Hl Hi' Hi') as (cl' & S' & ->).
        rewrite (spectrum_unique _ _ _ _ _ S' E3). reflexivity.
      - destruct Hn as (Hlen & _). apply Hlen. destruct E3 as (k & _ & Hk). eapply nth_error_In. exact Hk. }
    injection E5 as <-. rewrite W.
    rewrite (Hsyn alm (fun l m => mixed K (coef i l) (variates (tri n) u) (tri l + m) m)).
    + rewrite map_map. apply map_ext. intro p. rewrite pixel_combination. reflexivity.
    + intros h l m' Hh. apply Halm; [exact Hh|]. apply tri_glass. apply Hh.
  - intros i j t1 t2 p q f E1 E2 Hp Hq V1 V2 C. rewrite E1, E2.
    assert (Hi : (i < K)%nat) by (apply nth_error_Some; congruence). assert (Hj : (j < K)%nat) by (apply nth_error_Some; congruence).
    assert (P : forall i j p q, (i < K)%nat -> (j < K)%nat -> (p < npix)%nat -> (q < npix)%nat ->
      covariance N (weight n Y (coef i) p) (weight n Y (coef j) q) = correlation n (fun l => limited ncorr (c l) i j) (cosine p q)).
    { intros a b p' q' Ha Hb Hp' Hq'. unfold N. rewrite (pixel_covariance K n Y (coef a) (coef b) (fun l => limited ncorr (c l) a b))
        by (intros l Hl; apply Hcov; assumption).
      unfold correlation. apply rsum_ext. intros l Hl. rewrite Hadd by assumption. ring. }
    destruct (combinations_jointly_normal N (weight n Y (coef i) p) (weight n Y (coef j) q)) as (J & U).
    rewrite !P in J by assumption. rewrite !Hcos in J.
    assert (VV : forall i, correlation n (fun l => limited ncorr (c l) i i) 1 = v i).
    { intro a. apply correlation_ext. intros l _. unfold limited. destruct ncorr; [apply banded_near; lia|reflexivity]. }
    rewrite !VV in J. fold (v i) in V1. fold (v j) in V2.
    destruct (corr_expectation _ t1 t2 _ _ _ f J V1 V2 C) as (z & Ez & M1 & M2 & _).
    exists z. split; [exact Ez|]. split; intro m; split; try (intros ->; assumption); intro M.
    + exact (U _ _ _ M M1).
    + exact (U _ _ _ M M2).
Qed.
Print Assumptions simulated_correlations.

(** The transformed correlation function, at the nodes of any number of modes, belongs to the spectrum that
    [glass.grf.solve] calls the realised one. *)
Theorem simulated_spectrum cltovar alm2map cltocorr corrtocl nodes fields gls ncorr n t npix c Y cosine k i j t1 t2 gl g :
  triangle (length fields) (length gls) -> longest gls n -> (0 < n)%nat -> triangle n t ->
  covariance_of 0 gls n (length fields) c ->
  (forall l, (l < n)%nat -> definite (length fields) (limited ncorr (c l)) \/ absent (length fields) (limited ncorr (c l))) ->
  synthesises n npix Y alm2map -> harmonics n npix Y cosine ->
  (forall cl, cltovar cl = Ok (correlation (length cl) (fun l => nth l cl 0) 1)) -> legendre_transform nodes cltocorr ->
  entry_of fields gls k i j t1 t2 gl -> match ncorr with Some b => (i - j <= b)%nat | None => True end -> corr t1 t2 = Ok (fun x => Some (g x)) ->
  variance t1 (correlation n (fun l => c l i i) 1) -> variance t2 (correlation n (fun l => c l j j) 1) ->
  exists xi, map_correlation (2 * (length fields * t)) npix (fun u => simulate cltovar alm2map (variates t u) fields gls ncorr) cosine i j xi /\
    (forall x, xi x = g (correlation n (fun l => c l i j) x)) /\
    forall pad, map xi (nodes (length gl + pad)%nat) = map g (cltocorr (gl ++ repeat 0 pad)) /\
      corrtocl (map xi (nodes (length gl + pad)%nat)) = realised cltocorr corrtocl g gl pad.
Proof.
  intros Ht Hn Hn0 Htn Hc Hd Hsyn Hh Hvar Hleg (Ho & Hk & E1 & E2) Hb C V1 V2.
  destruct (simulated_correlations cltovar alm2map fields gls ncorr n t npix c Y cosine Ht Hn Hn0 Htn Hc Hd Hsyn Hh Hvar) as (value & Hsim & Hval).
  assert (Hi : (i < length fields)%nat) by (apply nth_error_Some; congruence).
  assert (Hj : (j < length fields)%nat) by (apply nth_error_Some; congruence).
  assert (LL : forall x, correlation n (fun l => limited ncorr (c l) i j) x = correlation n (fun l => c l i j) x).
  { intro x. apply correlation_ext. intros l _. unfold limited. destruct ncorr as [b|]; [apply banded_near; [apply Ho|exact Hb]|reflexivity]. }
  exists (fun x => g (correlation n (fun l => c l i j) x)). split; [|split; [reflexivity|]].
  - exists (value i), (value j). split.
    + intro u. destruct (Hsim u) as (ms & Em & Lm & Hm). exists ms. split; [exact Em|].
      destruct (nth_error ms i) as [a|] eqn:Ea; [|apply nth_error_None in Ea; lia].
      destruct (nth_error ms j) as [b|] eqn:Eb; [|apply nth_error_None in Eb; lia].
      rewrite (Hm i a Ea), (Hm j b Eb). split; reflexivity.
    + intros p q Hp Hq m. destruct (Hval i j t1 t2 p q _ E1 E2 Hp Hq V1 V2 C) as (z & Ez & M & _).
      rewrite LL in Ez. injection Ez as Ez. rewrite Ez. apply M.
  - intro pad.
    assert (M : map (fun x => g (correlation n (fun l => c l i j) x)) (nodes (length gl + pad)%nat) = map g (cltocorr (gl ++ repeat 0 pad))).
    { rewrite Hleg, app_length, repeat_length, map_map. apply map_ext. intro x. apply f_equal.
      assert (Hgl : (length gl <= n)%nat) by (destruct Hn as (Hlen & _); apply Hlen; eapply nth_error_In; exact Hk).
      transitivity (correlation (length gl) (fun l => nth l gl 0) x).
      - rewrite <- (correlation_nth n gl x Hgl). apply correlation_ext. intros l Hl.
        destruct (Hc l i j Hl Hi Hj) as (cl' & S' & ->). unfold mode. destruct Ho as (Hij & Ho).
        assert (S : spectrum_of gls i j gl) by (exists k; split; [|exact Hk]; rewrite Nat.max_l, Nat.min_r by exact Hij; split; assumption).
        rewrite (spectrum_unique _ _ _ _ _ S' S). reflexivity.
      - rewrite <- (correlation_nth (length gl + pad) gl x) by lia. apply correlation_ext. intros l _. symmetry. apply nth_zeros. }
    split; [exact M|]. rewrite M. reflexivity.
Qed.
Print Assumptions simulated_spectrum.

(** Gaussian spectra from [compute_gaussian_spectra]: the maps have the correlations that belong to the given spectra,
    at the angles that the transform uses. *)
Theorem simulated_computed cltovar alm2map cltocorr corrtocl nodes fields spectra gls ncorr n t npix c Y cosine k i j t1 t2 cl :
  compute_gaussian_spectra (Some 0) (fun cl t1 t2 => compute cltocorr corrtocl t1 t2 cl) fields (map (map Some) spectra) = Ok (map (map Some) gls) ->
  longest gls n -> (0 < n)%nat -> triangle n t -> covariance_of 0 gls n (length fields) c ->
  (forall l, (l < n)%nat -> definite (length fields) (limited ncorr (c l)) \/ absent (length fields) (limited ncorr (c l))) ->
  synthesises n npix Y alm2map -> harmonics n npix Y cosine ->
  (forall cl, cltovar cl = Ok (correlation (length cl) (fun l => nth l cl 0) 1)) -> legendre_transform nodes cltocorr ->
  Forall proper fields -> entry_of fields spectra k i j t1 t2 cl -> match ncorr with Some b => (i - j <= b)%nat | None => True end -> cl <> [] ->
  corrtocl (cltocorr cl) = cl -> (forall x, length x = length cl -> length (corrtocl x) = length x /\ cltocorr (corrtocl x) = x) ->
  Forall (attained t1 t2) (cltocorr cl) -> length (nodes (length cl)) = length cl ->
  variance t1 (correlation n (fun l => c l i i) 1) -> variance t2 (correlation n (fun l => c l j j) 1) ->
  exists xi, map_correlation (2 * (length fields * t)) npix (fun u => simulate cltovar alm2map (variates t u) fields gls ncorr) cosine i j xi /\
    forall x, In x (nodes (length cl)) -> xi x = correlation (length cl) (fun l => nth l cl 0) x.
Proof.
  intros Hg Hn Hn0 Htn Hc Hd Hsyn Hh Hvar Hleg Hp (Ho & Hk & E1 & E2) Hb Ne B1 B2 A Hnod V1 V2.
  destruct (compute_gaussian_spectra_pairs _ _ _ _ _ Hg) as (Ht & Lg & Q). rewrite !map_length in Lg. rewrite map_length in Ht.
  destruct (Q k i j t1 t2 (map Some cl)) as (gl' & Hgl & _ & Hcomp).
  { split; [exact Ho|]. split; [rewrite nth_error_map', Hk; reflexivity|]. split; assumption. }
  specialize (Hcomp ltac:(destruct cl; [contradiction|discriminate])).
  rewrite nth_error_map' in Hgl. destruct (nth_error gls k) as [gl|] eqn:Ek; [|discriminate]. injection Hgl as <-.
  assert (Lc : length (cltocorr cl) = length cl) by (rewrite Hleg, map_length; exact Hnod).
  assert (S : supported t1 t2).
  { destruct (dispatch_total t1 t2) as [_ N]. destruct t1, t2; cbn in *; try exact I; discriminate. }
  assert (G : exists g, corr t1 t2 = Ok (fun x => Some (g x))).
  { destruct t1, t2; cbn in S |- *; try contradiction; eexists; reflexivity. }
  destruct G as (g & C).
  rewrite Forall_forall in Hp. pose proof (Hp _ (nth_error_In _ _ E1)) as P1. pose proof (Hp _ (nth_error_In _ _ E2)) as P2.
  destruct (compute_reproduces cltocorr corrtocl t1 t2 g cl P1 P2 B1 ltac:(intros x Hx; apply B2; congruence) C A) as (gl0 & E0 & M0 & _).
  rewrite E0 in Hcomp. injection Hcomp as Hcomp.
  assert (gl0 = gl) as ->.
  { clear - Hcomp. revert gl Hcomp. induction gl0 as [|x l IH]; intros [|y gl] H; try discriminate; [reflexivity|].
    injection H as -> H. f_equal. apply IH. exact H. }
  destruct (simulated_spectrum cltovar alm2map cltocorr corrtocl nodes fields gls ncorr n t npix c Y cosine k i j t1 t2 gl g) as (xi & HX & _ & HS);
    try assumption; [congruence|repeat split; assumption || apply Ho|].
  exists xi. split; [exact HX|]. destruct (HS 0%nat) as (M & _). cbn [repeat] in M. rewrite app_nil_r, Nat.add_0_r, M0, Hleg in M.
  assert (Lgl : length gl = length cl).
  { unfold compute in E0. apply bind_ok in E0 as (f & _ & E0). injection E0 as E0.
    assert (F : forall l : list R, finite (map Some l) = Some l).
    { induction l as [|x l IH]; [reflexivity|]. unfold finite in *. cbn [map fold_right]. rewrite IH. reflexivity. }
    unfold lifted in E0. rewrite F in E0. destruct (finite (apply f (map Some (cltocorr cl)))) as [y|] eqn:Fy.
    - assert (Ly : length y = length cl).
      { rewrite <- Lc. transitivity (length (apply f (map Some (cltocorr cl)))); [|unfold apply; rewrite !map_length; reflexivity].
        clear - Fy. revert y Fy. generalize (apply f (map Some (cltocorr cl))). induction l as [|a l IH]; intros y H; cbn in H.
        - injection H as <-. reflexivity.
        - destruct a as [a|]; [|discriminate]. fold (finite l) in H. destruct (finite l) as [r|]; [|discriminate]. injection H as <-. cbn. f_equal. apply IH. reflexivity. }
      apply (f_equal (@length _)) in E0. rewrite !map_length in E0. rewrite <- E0. rewrite (proj1 (B2 y Ly)). exact Ly.
    - apply (f_equal (@length _)) in E0. unfold apply in E0. rewrite !map_length in E0. congruence. }
  rewrite Lgl in M. intros x Hx. apply (In_nth_error) in Hx as (a & Ha).
  pose proof (f_equal (fun l => nth_error l a) M) as Ma. cbv beta in Ma. rewrite !nth_error_map', Ha in Ma. injection Ma as Ma. exact Ma.
Qed.
Print Assumptions simulated_computed.

(** Gaussian spectra from [solve_gaussian_spectra]: the expected spectrum of the maps, from their correlations at the
    angles that the transform with three times as many modes uses, is the one that the solver returns as realised.  If
    the solver reports that the spectrum has converged, it agrees with the given spectrum up to the tolerance, except
    for a given monopole of zero.  Without a warning, the solver reports one kind of convergence or the other. *)
Theorem simulated_solved cltovar alm2map cltocorr corrtocl nodes fuel cltol gltol maxiter fields spectra gls ws ncorr n t npix c Y cosine k i j t1 t2 c0 cl :
  solve_gaussian_spectra (Some 0) vanishes (solver cltocorr corrtocl fuel cltol gltol maxiter) fields (map (map Some) spectra)
    = Ok (map (map Some) gls, ws) ->
  longest gls n -> (0 < n)%nat -> triangle n t -> covariance_of 0 gls n (length fields) c ->
  (forall l, (l < n)%nat -> definite (length fields) (limited ncorr (c l)) \/ absent (length fields) (limited ncorr (c l))) ->
  synthesises n npix Y alm2map -> harmonics n npix Y cosine ->
  (forall cl, cltovar cl = Ok (correlation (length cl) (fun l => nth l cl 0) 1)) -> legendre_transform nodes cltocorr ->
  (forall n, length (nodes n) = n) -> (forall x, length (corrtocl x) = length x) ->
  entry_of fields spectra k i j t1 t2 (c0 :: cl) -> match ncorr with Some b => (i - j <= b)%nat | None => True end ->
  variance t1 (correlation n (fun l => c l i i) 1) -> variance t2 (correlation n (fun l => c l j j) 1) ->
  exists xi, map_correlation (2 * (length fields * t)) npix (fun u => simulate cltovar alm2map (variates t u) fields gls ncorr) cosine i j xi /\
    let monopole := if Req_EM_T c0 0 then Some 0 else None in
    let rl := corrtocl (map xi (nodes (3 * length (c0 :: cl))%nat)) in
    exists gl i1 i2, nth_error gls k = Some gl /\
      solve cltocorr corrtocl t1 t2 fuel (map Some (c0 :: cl)) (Z.of_nat (2 * length (c0 :: cl))) None cltol gltol maxiter monopole
        = Ok (map Some gl, map Some rl, (i1, i2)) /\
      (i1 = true -> agrees (if Req_EM_T c0 0 then true else false) (map Some (c0 :: cl)) (map Some rl) cltol) /\
      (~ In (i, j) ws -> i1 = true \/ i2 = true).
Proof.
  intros Hg Hn Hn0 Htn Hc Hd Hsyn Hh Hvar Hleg Hnod Hcor (Ho & Hk & E1 & E2) Hb V1 V2.
  set (x := c0 :: cl) in *.
  destruct (solve_gaussian_spectra_pairs _ _ _ _ _ _ _ Hg) as (Ht & Lg & Q & _). rewrite !map_length in Lg. rewrite map_length in Ht.
  destruct (Q k i j t1 t2 (map Some x)) as (gl' & Hgl & _ & Hs).
  { split; [exact Ho|]. split; [rewrite nth_error_map', Hk; reflexivity|]. split; assumption. }
  destruct (Hs (Some c0) (map Some cl) eq_refl) as (info & Es & Hw). clear Hs.
  rewrite nth_error_map' in Hgl. destruct (nth_error gls k) as [gl|] eqn:Ek; [|discriminate]. injection Hgl as <-.
  unfold solver in Es. rewrite map_length in Es.
  set (mono := if Req_EM_T c0 0 then Some 0 else None).
  assert (Em : match (if vanishes (Some c0) then Some (Some 0) else None) with Some (Some m) => Some m | _ => None end = mono).
  { unfold mono. cbn. destruct (Req_EM_T c0 0); reflexivity. }
  rewrite Em in Es. apply bind_ok in Es as ([[g rl] [i1 i2]] & Es & Ei). injection Ei as -> Ei.
  assert (Lcl : forall y, length (cltocorr y) = length y) by (intro y; rewrite Hleg, map_length; apply Hnod).
  assert (S : supported t1 t2).
  { assert (D : supported t1 t2 \/ ~ supported t1 t2) by (destruct t1, t2; cbn; tauto). destruct D as [D|D]; [exact D|exfalso].
    assert (Nx : map Some x <> []) by discriminate.
    rewrite (proj2 (solve_rejected cltocorr corrtocl t1 t2 fuel (map Some x) (Z.of_nat (2 * length x)) None cltol gltol mono maxiter Nx) ltac:(lia) D) in Es.
    discriminate. }
  assert (G : exists f, corr t1 t2 = Ok (fun x => Some (f x))).
  { destruct t1, t2; cbn in S |- *; try contradiction; eexists; reflexivity. }
  destruct G as (f & C).
  destruct (solve_sound cltocorr corrtocl Lcl Hcor t1 t2 fuel (map Some x) (Z.of_nat (2 * length x)) None cltol gltol mono maxiter _ _ _ _ Es)
    as (L1 & _ & _ & Hr & Ha).
  specialize (Hr f gl C eq_refl). rewrite Nat2Z.id in Hr. rewrite !map_length in L1.
  destruct (simulated_spectrum cltovar alm2map cltocorr corrtocl nodes fields gls ncorr n t npix c Y cosine k i j t1 t2 gl f) as (xi & HX & _ & HS);
    try assumption; [congruence|repeat split; assumption || apply Ho|].
  destruct (HS (2 * length x)%nat) as (_ & M). rewrite L1 in M.
  replace (length x + 2 * length x)%nat with (3 * length x)%nat in M by lia.
  exists xi. split; [exact HX|]. cbv zeta. rewrite M. fold mono. exists gl, i1, i2. split; [reflexivity|].
  rewrite <- Hr. split; [exact Es|]. split.
  - intro I1. specialize (Ha I1). unfold mono in Ha. destruct (Req_EM_T c0 0); exact Ha.
  - intro Nw. destruct i1; [left; reflexivity|]. destruct i2; [right; reflexivity|]. exfalso. apply Nw. apply Hw. symmetry. exact Ei.
Qed.
Print Assumptions simulated_solved.

(** Transforms for the examples: for two modes, the nodes are the cosines of one and three eighths of a circle. *)
Definition angles (n : nat) : list R :=
  match n with 2%nat => [sqrt 2 / 2; - (sqrt 2 / 2)] | 3%nat => [1; 0; -1] | _ => repeat 1 n end.
Definition to_corr (cl : list R) : list R := map (correlation (length cl) (fun l => nth l cl 0)) (angles (length cl)).
Definition from_corr (xi : list R) : list R :=
  match xi with
  | [a] => [4 * PI * a]
  | [a; b] => [4 * PI * ((a + b) / 2); 4 * PI / 3 * ((a - b) / sqrt 2)]
  | [a; b; c] => [4 * PI * ((a + c) / 2 - ((a + c) / 2 - b) * (2 / 3)); 4 * PI / 3 * ((a - c) / 2); 4 * PI / 5 * (((a + c) / 2 - b) * (2 / 3))]
  | _ => xi
  end.
Lemma angles_length n : length (angles n) = n.
Proof. destruct n as [|[|[|[|n]]]]; try reflexivity. cbn [angles]. apply repeat_length. Qed.
Lemma from_corr_length x : length (from_corr x) = length x.
Proof. destruct x as [|a [|b [|c [|d x]]]]; reflexivity. Qed.
Lemma sqrt2 : 1 < sqrt 2 /\ sqrt 2 * sqrt 2 = 2.
Proof.
  split; [|apply sqrt_sqrt; lra]. rewrite <- sqrt_1 at 1. apply sqrt_lt_1; lra.
Qed.
Lemma to_corr_one a : to_corr [a] = [a / (4 * PI)].
Proof.
  pose proof PI_RGT_0. unfold to_corr, angles, correlation, legendre. cbn [length map repeat rsum nth legendre_pair fst INR]. f_equal. field. lra.
Qed.
Lemma to_corr_two a b : to_corr [a; b] = [(a + 3 * b * (sqrt 2 / 2)) / (4 * PI); (a - 3 * b * (sqrt 2 / 2)) / (4 * PI)].
Proof.
  pose proof PI_RGT_0. unfold to_corr, angles, correlation, legendre. cbn [length map repeat rsum nth legendre_pair fst snd INR]. f_equal; [field; lra|].
  f_equal. field. lra.
Qed.
Lemma two_inverse x : length x = 2%nat -> from_corr (to_corr x) = x /\ to_corr (from_corr x) = x.
Proof.
  intro L. destruct x as [|a [|b [|c x]]]; try discriminate. pose proof PI_RGT_0. destruct sqrt2 as [S1 S2]. split.
  - rewrite to_corr_two. unfold from_corr. f_equal; [field; lra|]. f_equal. field. split; lra.
  - unfold from_corr. rewrite to_corr_two. f_equal; [field; split; lra|]. f_equal. field. split; lra.
Qed.
Lemma to_corr_legendre : legendre_transform angles to_corr.
Proof. intro cl. reflexivity. Qed.
Lemma definite_one (c : nat -> nat -> R) : 0 < c 0%nat 0%nat -> definite 1 c.
Proof.
  intro H. split.
  - intros i j Hi Hj. replace i with 0%nat by lia. replace j with 0%nat by lia. reflexivity.
  - intros v (i & Hi & Hv). replace i with 0%nat in Hv by lia. unfold quadratic. cbn [rsum].
    replace (0 + (0 + v 0%nat * c 0%nat 0%nat * v 0%nat)) with (v 0%nat * v 0%nat * c 0%nat 0%nat) by ring.
    apply Rmult_lt_0_compat; [|exact H]. apply Rsqr_pos_lt in Hv. exact Hv.
Qed.
Lemma covariance_one gl : covariance_of 0 [gl] (length gl) 1 (fun l _ _ => nth l gl 0).
Proof.
  intros l i j Hl Hi Hj. exists gl. split; [|reflexivity]. exists 0%nat. replace i with 0%nat by lia. replace j with 0%nat by lia.
  split; [split; reflexivity|reflexivity].
Qed.
Lemma longest_one (gl : list R) : longest [gl] (length gl).
Proof. split; [intros cl [<-|[]]; lia|]. right. exists gl. split; [left|]; reflexivity. Qed.

Lemma compute_one (f : list num -> transformation -> transformation -> result (list num)) t x y : f (map Some x) t t = Ok y -> x <> [] ->
  compute_gaussian_spectra (Some 0) f [t] [map Some x] = Ok [y].
Proof.
  intros E Ne. destruct x as [|a x]; [contradiction|]. unfold compute_gaussian_spectra. cbn [length Nat.eqb Nat.mul Nat.add Nat.div negb].
  unfold enumerate_spectra. cbn. cbn in E. rewrite E. reflexivity.
Qed.
Lemma solve_one (f : list num -> transformation -> transformation -> nat -> option num -> result (list num * nat)) t a x y info : a <> 0 ->
  f (map Some (a :: x)) t t (2 * length (a :: x))%nat None = Ok (y, S info) ->
  solve_gaussian_spectra (Some 0) vanishes f [t] [map Some (a :: x)] = Ok ([y], []).
Proof.
  intros Ne E. unfold solve_gaussian_spectra. cbn [length Nat.eqb Nat.mul Nat.add Nat.div negb].
  unfold enumerate_spectra. cbn. destruct (Req_EM_T a 0) as [Z|_]; [contradiction|]. rewrite map_length. cbn in E. rewrite E. reflexivity.
Qed.

(** Two pixels an eighth of a circle apart. *)
Definition tilt (p : nat) : R := match p with O => 0 | _ => PI / 4 end.
Definition turn (p : nat) : R := PI / 3.
Lemma tilted : separation tilt turn 0 1 = sqrt 2 / 2.
Proof.
  unfold separation, tilt, turn. rewrite cos_0, sin_0, cos_PI4. destruct sqrt2 as [S1 S2].
  transitivity (/ sqrt 2); [field; lra|]. apply (Rmult_eq_reg_l (sqrt 2)); [|lra]. rewrite Rinv_r by lra. lra.
Qed.

(** At other angles, such as zero, the correlations are different: the variance of a lognormal map is larger than the
    one of the given spectrum, [(1 + sqrt 2) (e^2 - 1) / 2]. *)
Theorem simulated_variance_refuted : exists cltovar alm2map cltocorr corrtocl nodes fields spectra gls n t npix c Y cosine cl,
  (compute_gaussian_spectra (Some 0) (fun cl t1 t2 => compute cltocorr corrtocl t1 t2 cl) fields (map (map Some) spectra) = Ok (map (map Some) gls) /\
   longest gls n /\ (0 < n)%nat /\ triangle n t /\ covariance_of 0 gls n (length fields) c /\
   (forall l, (l < n)%nat -> definite (length fields) (c l)) /\
   synthesises n npix Y alm2map /\ harmonics n npix Y cosine /\ (1 < npix)%nat /\ In (cosine 0%nat 1%nat) (nodes (length cl)) /\
   (forall cl, cltovar cl = Ok (correlation (length cl) (fun l => nth l cl 0) 1)) /\ legendre_transform nodes cltocorr /\
   fields = [Lognormal 1] /\ spectra = [cl] /\ (1 < length cl)%nat /\ corrtocl (cltocorr cl) = cl /\
   (forall x, length x = length cl -> length (corrtocl x) = length x /\ cltocorr (corrtocl x) = x) /\
   Forall (attained (Lognormal 1) (Lognormal 1)) (cltocorr cl) /\ length (nodes (length cl)) = length cl) /\
  forall xi, map_correlation (2 * (length fields * t)) npix (fun u => simulate cltovar alm2map (variates t u) fields gls None) cosine 0 0 xi ->
    xi 1 <> correlation (length cl) (fun l => nth l cl 0) 1.
Proof.
  set (a := (exp 2 - 1) / 2). set (cl := [4 * PI * a; 4 * PI / 3 * (sqrt 2 * a)]). set (gl := [4 * PI; 4 * PI / 3 * sqrt 2]).
  pose proof PI_RGT_0 as HP. destruct sqrt2 as [S1 S2].
  assert (He : 1 < exp 2) by (pose proof (exp_ineq1 2 ltac:(lra)); lra).
  assert (Tc : to_corr cl = [exp 2 - 1; 0]).
  { unfold cl. rewrite to_corr_two. f_equal; [|f_equal].
    - transitivity (a * (1 + sqrt 2 * sqrt 2 / 2)); [field; lra|]. rewrite S2. unfold a. field.
    - transitivity (a * (1 - sqrt 2 * sqrt 2 / 2)); [field; lra|]. rewrite S2. field. }
  assert (Fg : from_corr [2; 0] = gl).
  { unfold from_corr, gl. f_equal; [field|]. f_equal. f_equal. apply (Rmult_eq_reg_r (sqrt 2)); [|lra]. rewrite S2. field. lra. }
  set (fields := [Lognormal 1]). set (cltovar := fun cl => Ok (correlation (length cl) (fun l => nth l cl 0) 1)).
  set (Y := sphere tilt turn). set (am := summed 2 2 Y).
  assert (HC : compute_gaussian_spectra (Some 0) (fun cl t1 t2 => compute to_corr from_corr t1 t2 cl) fields (map (map Some) [cl]) = Ok (map (map Some) [gl])).
  { assert (E : compute to_corr from_corr (Lognormal 1) (Lognormal 1) (map Some cl) = Ok (map Some gl)).
    { unfold compute, icorr, dispatch. cbn [icorr_method bind]. unfold lifted at 2.
      replace (finite (map Some cl)) with (Some cl) by reflexivity. rewrite Tc. unfold apply. cbn [map nbind].
      unfold divide. destruct (Req_EM_T (1 * 1) 0) as [Z|_]; [lra|]. cbn [nbind]. unfold log1p.
      destruct (Rle_dec ((exp 2 - 1) / (1 * 1)) (-1)) as [Z|_]; [lra|]. destruct (Rle_dec (0 / (1 * 1)) (-1)) as [Z|_]; [lra|].
      replace (1 + (exp 2 - 1) / (1 * 1)) with (exp 2) by field. rewrite ln_exp. replace (1 + 0 / (1 * 1)) with 1 by field. rewrite ln_1.
      unfold lifted. cbn [finite fold_right]. rewrite Fg. reflexivity. }
    exact (compute_one (fun cl t1 t2 => compute to_corr from_corr t1 t2 cl) (Lognormal 1) cl _ E ltac:(discriminate)). }
  exists cltovar, am, to_corr, from_corr, angles, fields, [cl], [gl], 2%nat, 3%nat, 2%nat, (fun l _ _ => nth l gl 0), Y, (separation tilt turn), cl.
  assert (Hlong : longest [gl] 2) by exact (longest_one gl).
  assert (Hcov : covariance_of 0 [gl] 2 1 (fun l _ _ => nth l gl 0)) by exact (covariance_one gl).
  assert (Hdef : forall l, (l < 2)%nat -> definite 1 (fun _ _ => nth l gl 0)).
  { intros l Hl. apply definite_one. destruct l as [|[|l]]; [cbn; lra| |lia]. cbn. apply Rmult_lt_0_compat; lra. }
  assert (Hsyn : synthesises 2 2 Y am) by apply summed_synthesises.
  assert (Hhar : harmonics 2 2 Y (separation tilt turn)) by (apply sphere_harmonics; lia).
  split.
  - split; [exact HC|]. split; [exact Hlong|]. split; [lia|]. split; [reflexivity|]. split; [exact Hcov|]. split; [exact Hdef|].
    split; [exact Hsyn|]. split; [exact Hhar|]. split; [lia|]. split; [left; symmetry; exact tilted|]. split; [reflexivity|].
    split; [exact to_corr_legendre|]. split; [reflexivity|]. split; [reflexivity|]. split; [cbn; lia|]. split; [apply two_inverse; reflexivity|].
    split; [intros x Hx; split; [apply from_corr_length|apply two_inverse; exact Hx]|]. split; [|reflexivity].
    rewrite Tc. repeat constructor; cbn [attained]; lra.
  - intros xi (v & v' & Hm & Hv).
    destruct (simulated_spectrum cltovar am to_corr from_corr angles fields [gl] None 2 3 2 (fun l _ _ => nth l gl 0) Y (separation tilt turn)
      0 0 0 (Lognormal 1) (Lognormal 1) gl (fun x => 1 * 1 * (exp x - 1))) as (xi0 & (w & w' & Hm' & Hw) & Hx & _);
      try assumption; try reflexivity; try exact I; try lia; try (intros l Hl; left; apply Hdef; exact Hl); try (repeat split; lia).
    assert (E : xi 1 = xi0 1).
    { pose proof (Hw 0%nat 0%nat ltac:(lia) ltac:(lia) (xi0 1)) as W. rewrite (proj1 Hhar 0%nat) in W.
      pose proof (proj2 W eq_refl) as W'. pose proof (Hv 0%nat 0%nat ltac:(lia) ltac:(lia) (xi0 1)) as V. rewrite (proj1 Hhar 0%nat) in V.
      symmetry. apply V. eapply means_eq; [exact W'| |reflexivity]. intro u. cbv beta.
      destruct (Hm u) as (ms & E1 & E2 & E3). destruct (Hm' u) as (ms' & E1' & E2' & E3').
      rewrite E1 in E1'. injection E1' as <-. rewrite E2 in E2', E3'. rewrite E2 in E3. cbn [seq map] in E2', E3', E3. congruence. }
    rewrite E, Hx. unfold correlation, legendre, gl, cl. cbn [length rsum nth legendre_pair fst snd INR].
    set (L := 0 + _ + _). set (M := 0 + _ + _).
    assert (EL : L = 1 + sqrt 2) by (unfold L; field; lra). assert (EM : M = (1 + sqrt 2) * a) by (unfold M; field; lra).
    rewrite EL, EM. unfold a. intro Q.
    assert (X : exp 2 * sqrt 2 < exp (1 + sqrt 2)).
    { replace (1 + sqrt 2) with (2 + (sqrt 2 - 1)) by ring. rewrite exp_plus. apply Rmult_lt_compat_l; [lra|].
      pose proof (exp_ineq1 (sqrt 2 - 1) ltac:(lra)). lra. }
    assert (0 < (exp 2 + 1) * (sqrt 2 - 1)) by (apply Rmult_lt_0_compat; lra). lra.
Qed.
Print Assumptions simulated_variance_refuted.

(** A lognormal map and the Gaussian spectra [4 pi, 4 pi sqrt 2 / 3]: the expected product of the two pixels is
    [e^2 - 1], and the mean is zero. *)
Example simulated_correlations_example :
  let gl := [4 * PI; 4 * PI / 3 * sqrt 2] in
  let maps u := simulate (fun cl => Ok (correlation (length cl) (fun l => nth l cl 0) 1)) (summed 2 2 (sphere tilt turn)) (variates 3 u) [Lognormal 1] [gl] None in
  exists value : nat -> nat -> list R -> R,
    (forall u, exists ms, maps u = (ms, None) /\ length ms = 1%nat /\
       forall i m, nth_error ms i = Some m -> m = map (fun p => value i p u) (seq 0 2)) /\
    means 6 (fun u => value 0%nat 0%nat u * value 0%nat 1%nat u) (exp 2 - 1) /\ means 6 (value 0%nat 1%nat) 0.
Proof.
  cbv zeta. set (gl := [4 * PI; 4 * PI / 3 * sqrt 2]). pose proof PI_RGT_0 as HP. destruct sqrt2 as [S1 S2].
  destruct (simulated_correlations (fun cl => Ok (correlation (length cl) (fun l => nth l cl 0) 1)) (summed 2 2 (sphere tilt turn)) [Lognormal 1] [gl] None 2 3 2
    (fun l _ _ => nth l gl 0) (sphere tilt turn) (separation tilt turn)) as (value & Hm & Hv);
    [reflexivity|exact (longest_one gl)|lia|reflexivity|exact (covariance_one gl)| |apply summed_synthesises|apply sphere_harmonics; lia|reflexivity|].
  - intros l Hl. left. apply definite_one. destruct l as [|[|l]]; [cbn; lra| |lia]. cbn. apply Rmult_lt_0_compat; lra.
  - exists value. split; [exact Hm|].
    destruct (Hv 0%nat 0%nat (Lognormal 1) (Lognormal 1) 0%nat 1%nat _ eq_refl eq_refl ltac:(lia) ltac:(lia) I I eq_refl) as (z & Ez & M & _).
    destruct (Hv 0%nat 0%nat (Lognormal 1) (Lognormal 1) 1%nat 1%nat _ eq_refl eq_refl ltac:(lia) ltac:(lia) I I eq_refl) as (_ & _ & _ & M').
    split; [|apply M'; reflexivity]. apply M. rewrite tilted in Ez. unfold limited in Ez.
    assert (Z : z = 1 * 1 * (exp (correlation 2 (fun l => nth l gl 0) (sqrt 2 / 2)) - 1)) by congruence. rewrite Z.
    replace (correlation 2 (fun l => nth l gl 0) (sqrt 2 / 2)) with 2; [ring|].
    unfold correlation, legendre, gl. cbn [rsum nth legendre_pair fst snd INR].
    transitivity (1 + sqrt 2 * sqrt 2 / 2); [rewrite S2; field|]. field. lra.
Qed.

(** The solver with a single mode: the spectrum [4 pi (e - 1)] has the Gaussian spectrum [4 pi], and is reported as
    converged at once; the maps have the variance [e - 1]. *)
Example simulated_solved_example : exists ws,
  solve_gaussian_spectra (Some 0) vanishes (solver to_corr from_corr 1 0 0 1) [Lognormal 1] (map (map Some) [[4 * PI * (exp 1 - 1)]])
    = Ok (map (map Some) [[4 * PI]], ws) /\ ws = [] /\
  let maps u := simulate (fun cl => Ok (correlation (length cl) (fun l => nth l cl 0) 1)) (summed 1 2 (sphere tilt turn)) (variates 1 u) [Lognormal 1] [[4 * PI]] None in
  exists xi, map_correlation 2 2 maps (separation tilt turn) 0 0 xi /\
    from_corr (map xi (angles 3)) = [4 * PI * (exp 1 - 1); 0; 0].
Proof.
  pose proof PI_RGT_0 as HP. assert (He : 1 < exp 1) by (pose proof (exp_ineq1 1 ltac:(lra)); lra).
  set (x := 4 * PI * (exp 1 - 1)). assert (Hx : x <> 0) by (unfold x; apply Rmult_integral_contrapositive; split; lra).
  assert (T3 : to_corr [4 * PI; 0; 0] = [1; 1; 1]).
  { unfold to_corr, angles, correlation, legendre. cbn [length map rsum nth legendre_pair fst snd INR].
    f_equal; [field; lra|]. f_equal; [field; lra|]. f_equal. field. lra. }
  assert (F3 : forall y, from_corr [y; y; y] = [4 * PI * y; 0; 0]).
  { intro y. unfold from_corr. f_equal; [field|]. f_equal; [field|]. f_equal. field. }
  assert (C : compute to_corr from_corr (Lognormal 1) (Lognormal 1) [Some x] = Ok [Some (4 * PI)]).
  { unfold compute, icorr, dispatch. cbn [icorr_method bind]. unfold lifted at 2.
    replace (finite [Some x]) with (Some [x]) by reflexivity. rewrite to_corr_one. unfold apply. cbn [map nbind].
    unfold divide. destruct (Req_EM_T (1 * 1) 0) as [Z|_]; [lra|]. cbn [nbind]. unfold log1p.
    replace (1 + x / (4 * PI) / (1 * 1)) with (exp 1) by (unfold x; field; lra).
    replace (x / (4 * PI) / (1 * 1)) with (exp 1 - 1) by (unfold x; field; lra).
    destruct (Rle_dec (exp 1 - 1) (-1)) as [Z|_]; [lra|]. rewrite ln_exp. unfold lifted. cbn [finite fold_right from_corr map].
    rewrite Rmult_1_r. reflexivity. }
  assert (V : evaluate to_corr from_corr (Lognormal 1) (Lognormal 1) [Some x] [Some (4 * PI)] 2 None =
    Ok ([Some 1; Some 1; Some 1], [Some x; Some 0; Some 0], [Some 0], Fin 0)).
  { assert (L1 : lifted to_corr (padded [Some (4 * PI)] 2) = [Some 1; Some 1; Some 1]).
    { unfold lifted. replace (finite (padded [Some (4 * PI)] 2)) with (Some [4 * PI; 0; 0]) by reflexivity. rewrite T3. reflexivity. }
    assert (L2 : lifted from_corr (apply (fun x => Some (1 * 1 * (exp x - 1))) [Some 1; Some 1; Some 1]) = [Some x; Some 0; Some 0]).
    { unfold lifted, apply. cbn [map nbind finite fold_right]. replace (1 * 1 * (exp 1 - 1)) with (exp 1 - 1) by ring. rewrite F3. reflexivity. }
    unfold evaluate, corr, dispatch. cbn [corr_method]. rewrite L1. cbn [bind]. rewrite L2. cbn [length firstn bind].
    unfold sub, zip. cbn [combine map fst snd nbind bind]. replace (x - x) with 0 by ring. unfold relerr. cbn [combine map fst snd bind err_maximum].
    destruct (Req_EM_T 0 0) as [_|Z]; [reflexivity|lra]. }
  assert (S : solve to_corr from_corr (Lognormal 1) (Lognormal 1) 1 [Some x] 2 None 0 0 1 None = Ok ([Some (4 * PI)], [Some x; Some 0; Some 0], (true, false))).
  { unfold solve. cbn [Z.ltb Z.compare length Z.to_nat Pos.to_nat Pos.iter_op Nat.add]. rewrite C. cbn [bind].
    change (Pos.to_nat 2) with 2%nat. rewrite V. cbn [bind iterate]. replace (err_le (Fin 0) (Fin 0)) with true; [reflexivity|].
    cbn. symmetry. apply Proof_Numeric.leb_true. lra. }
  assert (G : solve_gaussian_spectra (Some 0) vanishes (solver to_corr from_corr 1 0 0 1) [Lognormal 1] (map (map Some) [[x]]) = Ok (map (map Some) [[4 * PI]], [])).
  { apply (solve_one (solver to_corr from_corr 1 0 0 1) (Lognormal 1) x [] _ 0 Hx). unfold solver.
    change (map Some [x]) with [Some x]. change (Z.of_nat (2 * length [x])) with 2%Z. rewrite S. reflexivity. }
  exists []. split; [exact G|]. split; [reflexivity|]. cbv zeta.
  destruct (simulated_solved (fun cl => Ok (correlation (length cl) (fun l => nth l cl 0) 1)) (summed 1 2 (sphere tilt turn)) to_corr from_corr angles 1 0 0 1
    [Lognormal 1] [[x]] [[4 * PI]] [] None 1 1 2 (fun l _ _ => nth l [4 * PI] 0) (sphere tilt turn) (separation tilt turn) 0 0 0 (Lognormal 1) (Lognormal 1) x [])
    as (xi & HX & gl & i1 & i2 & _ & S' & _);
    [exact G|exact (longest_one [4 * PI])|lia|reflexivity|exact (covariance_one [4 * PI])| |apply summed_synthesises|apply sphere_harmonics; lia|reflexivity
    |exact to_corr_legendre|exact angles_length|exact from_corr_length|repeat split; lia|exact I|exact I|exact I|].
  - intros l Hl. left. apply definite_one. replace l with 0%nat by lia. cbn. lra.
  - exists xi. split; [exact HX|]. destruct (Req_EM_T x 0) as [Z|_]; [contradiction|].
    change (map Some [x]) with [Some x] in S'. change (Z.of_nat (2 * length [x])) with 2%Z in S'. rewrite S in S'.
    change (3 * length [x])%nat with 3%nat in S'.
    assert (Q : [Some x; Some 0; Some 0] = map Some (from_corr (map xi (angles 3)))) by congruence.
    cbn [angles map] in Q |- *. unfold from_corr in Q |- *. cbn [map] in Q. congruence.
Qed.
