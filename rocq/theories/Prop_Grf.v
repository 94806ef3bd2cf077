(** Theorems about the generator of Gaussian modes. *)
From Verif Require Import RSum Model_Spectra Spec_Spectra Proof_Spectra Model_Fields Spec_Fields Proof_Fields
  Model_Iternorm Spec_Iternorm Proof_Iternorm Prop_Iternorm Spec_Grf Proof_Grf.
Local Open Scope nat_scope.

(** C13 *)
(** There are coefficients [coef i l q] (field, degree, variate) that depend on the spectra only, such that for
    every sequence of variates the generator's fields are the corresponding mixtures; the coefficients
    reproduce the requested spectra; and at no time are more than [c + 1] arrays of variates kept, namely
    those of the current and the previous [c] fields. *)
Theorem generate_grf_modes (gls : list (list R)) (ncorr : option nat) ngrf n :
  let c := match ncorr with Some c => c | None => ngrf - 1 end in
  triangle ngrf (length gls) -> longest gls n -> 0 < n ->
  exists (coef : nat -> nat -> nat -> R) (F : nat) (e : option exn),
    (F <= ngrf /\ (F = ngrf -> e = None) /\ (F < ngrf -> e = Some ValueError)) /\
    (forall i l q, i < q \/ q + c < i -> coef i l q = 0%R) /\
    (forall i l, (0 <= coef i l i)%R) /\
    (forall (M : Type) (alm2map : list (R * R) -> M) draws, (forall i, triangle n (length (draws i))) ->
       exists out, generate_grf alm2map draws gls ncorr = (out, e) /\ length out = F /\
       forall i map y, nth_error out i = Some (map, y) ->
         length y = Nat.min (i + 1) (c + 1) /\
         (forall p z, nth_error y p = Some z -> z = draws (i + 1 - length y + p)) /\
         exists alm, map = alm2map alm /\ triangle n (length alm) /\
           forall h g l m, in_healpix_alm_order n h l m -> in_glass_alm_order g l m ->
             nth_error alm h = Some (mixed (i + 1) (coef i l) draws g m)) /\
    (forall i l cl N, i < F -> l < n -> spectrum_of gls i i cl -> i < N ->
       covariance N (coef i l) (coef i l) = (mode 0 cl l / 2)%R) /\
    (forall i j l cl N, j <= i -> i < F -> i - j <= c -> l < n -> spectrum_of gls i j cl -> i < N ->
       (forall f, f < i -> (0 < coef f l f)%R) ->
       covariance N (coef i l) (coef j l) = (mode 0 cl l / 2)%R).
Proof.
  cbv zeta. intros Ht Hn Hn0. set (c := match ncorr with Some c => c | None => ngrf - 1 end).
  destruct (rows_of_spectra gls ngrf n c Ht Hn) as (rows & e0 & Erow & L1 & L2 & L3 & _ & Hrow).
  destruct (iternorm (rows, e0)) as [ws e] eqn:Ei.
  destruct (iternorm_shapes _ _ _ _ Ei) as (S1 & S2 & S3 & S4).
  assert (Hget : forall i, i < length ws -> exists w row, nth_error ws i = Some w /\ nth_error rows i = Some row
    /\ lead w = n /\ width w = c + 1 /\ lead row = n /\ width row = c + 1).
  { intros i Hi. destruct (nth_error ws i) as [w|] eqn:Ew; [|apply nth_error_None in Ew; lia].
    destruct (nth_error rows i) as [row|] eqn:Er; [|apply nth_error_None in Er; lia].
    exists w, row. destruct (S4 i w row Ew Er) as (A1 & A2 & _). destruct (Hrow i row Er) as (B1 & B2 & _).
    repeat split; congruence. }
  set (co := fun i l q => match nth_error ws i with
                          | Some w => coefficient (width w - 1) (el w l) i q | None => 0%R end).
  exists co, (length ws), e.
  split; [|split; [|split; [|split; [|split]]]].
  - split; [lia|]. split.
    + intro E. rewrite S2 by lia. apply L2. lia.
    + intro E. destruct (Nat.eq_dec (length ws) (length rows)) as [E'|E'].
      * rewrite S2 by exact E'. apply L3. lia.
      * destruct S3 as (x & ->); [lia|]. f_equal.
        apply (iter_rows_error rows None e0 x).
        -- change (snd (iternorm (rows, e0)) = Some x). rewrite Ei. reflexivity.
        -- destruct (Nat.eq_dec (length rows) ngrf); [left; auto|right; apply L3; lia].
  - intros i l q H. unfold co. destruct (nth_error ws i) as [w|] eqn:E; [|reflexivity].
    assert (Hi : i < length ws) by (apply nth_error_Some; congruence).
    destruct (Hget i Hi) as (w' & row & E1 & _ & _ & E2 & _). rewrite E in E1. injection E1 as <-.
    unfold coefficient. rewrite E2. destruct H as [H|H].
    + rewrite (proj2 (Nat.leb_gt q i)) by lia. rewrite andb_false_r. reflexivity.
    + rewrite (proj2 (Nat.leb_gt i (q + (c + 1 - 1)))) by lia. reflexivity.
  - intros i l. unfold co. destruct (nth_error ws i) as [w|] eqn:E; [|lra].
    assert (Hi : i < length ws) by (apply nth_error_Some; congruence).
    destruct (Hget i Hi) as (w' & row & E1 & E2 & _). rewrite E in E1. injection E1 as <-.
    destruct (S4 i w row E E2) as (_ & _ & P). unfold coefficient. rewrite Nat.leb_refl, (proj2 (Nat.leb_le i (i + (width w - 1)))) by lia.
    cbn [andb]. replace (i + (width w - 1) - i) with (width w - 1) by lia. apply P.
  - intros M alm2map draws Hd.
    pose proof (grf_run alm2map n (c + 1) draws e Hd ltac:(lia) ws 0) as HR.
    assert (HW : forall j w, nth_error ws j = Some w -> lead w = n /\ width w = c + 1).
    { intros j w Hj. assert (Hi : j < length ws) by (apply nth_error_Some; congruence).
      destruct (Hget j Hi) as (w' & row & E1 & _ & E2 & E3 & _). rewrite Hj in E1. injection E1 as <-. auto. }
    specialize (HR HW). change (kept (c + 1) draws 0) with (@nil (list (R * R))) in HR.
    assert (EG : generate_grf alm2map draws gls ncorr = grf_loop alm2map n draws 0 [] ws e).
    { unfold generate_grf. rewrite (proj2 (nfields_ok _ _) Ht). fold c.
      replace (max_length (map (@length R) gls)) with n.
      - destruct (Nat.eqb_spec n 0); [lia|]. cbv zeta in *. rewrite Erow, Ei. reflexivity.
      - pose proof (max_length_spec gls) as [M1 M2]. destruct Hn as [N1 N2].
        apply Nat.le_antisymm.
        + destruct N2 as [N2|(cl & N2 & N3)]; [lia|]. rewrite <- N3. apply M1. exact N2.
        + destruct M2 as [M2|(cl & M2 & M3)]; [lia|]. rewrite <- M3. apply N1. exact M2. }
    rewrite EG. destruct (grf_loop alm2map n draws 0 [] ws e) as [out e'].
    destruct HR as (-> & R2 & R3). exists out. split; [reflexivity|]. split; [exact R2|].
    intros i map y Hi. destruct (R3 i map y Hi) as (w & alm & A1 & A2 & A3 & A4 & A5).
    assert (Hil : i < length ws) by (rewrite <- R2; apply nth_error_Some; congruence).
    cbn [Nat.add] in A4, A5.
    split; [rewrite A4, kept_length; lia|]. split.
    + intros p z Hz. assert (Hp : p < length y) by (apply nth_error_Some; congruence).
      rewrite A4, kept_length in *. rewrite <- (nth_error_nth _ _ [] Hz), kept_nth by exact Hp. f_equal. lia.
    + exists alm. split; [exact A2|]. split; [exact A3|]. intros h g l m Hh Hg.
      rewrite (A5 h g l m Hh Hg). replace (i + 1) with (S i) by lia. do 2 f_equal. unfold co. rewrite A1.
      rewrite (proj2 (HW i w A1)). reflexivity.
  - intros i l cl N Hi Hl Hcl HN. destruct (Hget i Hi) as (w & row & E1 & E2 & E3 & E4 & E5 & E6).
    unfold co. rewrite E1.
    etransitivity; [exact (iternorm_variance rows e0 ws e i w row l N Ei E1 E2 ltac:(lia) HN)|].
    destruct (Hrow i row E2) as (_ & _ & Hel). apply Hel; try lia. rewrite Nat.sub_0_r. exact Hcl.
  - intros i j l cl N Hij Hi Hc Hl Hcl HN Hpos.
    destruct (Hget i Hi) as (wi & row & E1 & E2 & E3 & E4 & E5 & E6).
    destruct (Hget j ltac:(lia)) as (wj & rowj & F1 & F2 & F3 & F4 & F5 & F6).
    unfold co. rewrite E1, F1.
    etransitivity; [refine (iternorm_covariance rows e0 ws e i j wi wj row l N Ei E1 F1 E2 _ _ _ _); try lia|].
    2:{ destruct (Hrow i row E2) as (_ & _ & Hel). apply Hel; try lia.
      replace (i - (i - j)) with j by lia. exact Hcl. }
    intros f w Hf Hw. specialize (Hpos f Hf). unfold co in Hpos. rewrite Hw in Hpos.
      unfold coefficient in Hpos. rewrite Nat.leb_refl, (proj2 (Nat.leb_le f (f + (width w - 1)))) in Hpos by lia.
      cbn [andb] in Hpos. replace (f + (width w - 1) - f) with (width w - 1) in Hpos by lia. exact Hpos.
Qed.
Print Assumptions generate_grf_modes.

(** The meaning of the two covariances: over the real and imaginary parts of the variates, taken as
    2N independent standard normals, the real part of mode (l,m) has covariance [cl] between two fields for
    m = 0, and [cl/2] for m > 0 (where the imaginary part has the same coefficients on its own variates). *)
Theorem mode_power N c c' m x :
  covariance N c c' = (x / 2)%R ->
  covariance (2 * N) (real_part_coefficients N c m) (real_part_coefficients N c' m)
  = (if m =? 0 then x else x / 2)%R /\
  forall draws g, fst (mixed N c draws g m)
    = rsum (2 * N) (fun q => (real_part_coefficients N c m q *
                              (if (q <? N)%nat then re (draws q) g else im (draws (q - N)%nat) g))%R).
Proof.
  intro H. split; [|intros; apply real_part_sum].
  rewrite doubled_covariance, H. destruct (m =? 0); lra.
Qed.
Print Assumptions mode_power.

Lemma generate_grf_banded (gls : list (list R)) ncorr ngrf n (c : nat -> nat -> nat -> R) :
  let k := match ncorr with Some k => k | None => ngrf - 1 end in
  triangle ngrf (length gls) -> longest gls n -> 0 < n ->
  covariance_of 0%R gls n ngrf c -> (forall l, l < n -> definite ngrf (banded k (c l)) \/ absent ngrf (banded k (c l))) ->
  exists coef : nat -> nat -> nat -> R,
    (forall (M : Type) (alm2map : list (R * R) -> M) draws, (forall i, triangle n (length (draws i))) ->
       exists out, generate_grf alm2map draws gls ncorr = (out, None) /\ length out = ngrf /\
       forall i map y, nth_error out i = Some (map, y) ->
         exists alm, map = alm2map alm /\
           forall h g l m, in_healpix_alm_order n h l m -> in_glass_alm_order g l m ->
             nth_error alm h = Some (mixed ngrf (coef i l) draws g m)) /\
    forall i j l, i < ngrf -> j < ngrf -> l < n ->
      covariance ngrf (coef i l) (coef j l) = (banded k (c l) i j / 2)%R.
Proof.
  cbv zeta. set (k := match ncorr with Some k => k | None => ngrf - 1 end). intros Ht Hn Hn0 Hc Hdef.
  assert (Hpos : 0 < ngrf).
  { destruct ngrf as [|x]; [|lia]. destruct Hn as [_ [Hn|(cl & Hn & _)]]; [lia|].
    unfold triangle in Ht. destruct gls; [destruct Hn|cbn in Ht; lia]. }
  destruct (rows_of_spectra gls ngrf n k Ht Hn) as (rows & e0 & Erow & L1 & L2 & L3 & L4 & Hrow).
  assert (Hdiag : forall l i, l < n -> i < ngrf -> (0 <= c l i i)%R).
  { intros l i Hl Hi. rewrite <- (banded_near k (c l) i i) by lia.
    destruct (Hdef l Hl) as [(_ & Hq)|Ha]; [|rewrite (Ha i i Hi Hi); lra]. specialize (Hq (fun a => delta a i)).
    assert (Hq' : (0 < quadratic ngrf (banded k (c l)) (fun a => delta a i))%R).
    { apply Hq. exists i. split; [exact Hi|]. cbv beta. rewrite delta_same. lra. }
    unfold quadratic in Hq'. rewrite (rsum_single ngrf i) in Hq'; [|exact Hi|].
    - rewrite (rsum_single ngrf i) in Hq'; [|exact Hi|].
      + rewrite delta_same in Hq'. lra.
      + intros b _ Hb. rewrite (delta_diff b i) by exact Hb. lra.
    - intros a _ Ha. apply rsum_zero. intros b _. rewrite (delta_diff a i) by exact Ha. lra. }
  assert (Hneg : forall i, i < ngrf -> ~ negative_auto negative gls i).
  { intros i Hi (cl & x & Hs & Hx & Hng). apply negative_true in Hng.
    apply In_nth_error in Hx as (l & Hx).
    assert (Hl : l < n). { destruct Hn as (Hlen & _). destruct Hs as (q & _ & Hq). apply nth_error_In in Hq.
      specialize (Hlen _ Hq). assert (l < length cl) by (apply nth_error_Some; congruence). lia. }
    destruct (Hc l i i Hl Hi Hi) as (cl' & Hs' & E). rewrite (spectrum_unique _ _ _ _ _ Hs' Hs) in E.
    unfold mode in E. rewrite (nth_error_nth _ _ _ Hx) in E. specialize (Hdiag l i Hl Hi). lra. }
  specialize (L4 Hneg). specialize (L2 L4). subst e0.
  assert (Hrows' : forall i row, nth_error rows i = Some row ->
     lead row = n /\ width row = k + 1 /\ forall l f, l < n -> f <= i -> i - f <= k -> el row l (i - f) = (c l i f / 2)%R).
  { intros i row Hi. destruct (Hrow i row Hi) as (R1 & R2 & R3). split; [exact R1|]. split; [lia|].
    assert (Hil : i < ngrf) by (rewrite <- L4; apply nth_error_Some; congruence).
    intros l f Hl Hf Hk. destruct (Hc l i f Hl Hil ltac:(lia)) as (cl & Hs & ->).
    apply R3; try lia. replace (i - (i - f)) with f by lia. exact Hs. }
  assert (Hhalf : forall l i j, banded k (fun i j => (c l i j / 2)%R) i j = (banded k (c l) i j / 2)%R).
  { intros l i j. unfold banded. destruct ((i <=? j + k) && (j <=? i + k)); [reflexivity|lra]. }
  assert (Hdef' : forall l, l < n -> definite ngrf (banded k (fun i j => (c l i j / 2)%R)) \/ absent ngrf (banded k (fun i j => (c l i j / 2)%R))).
  { intros l Hl. destruct (Hdef l Hl) as [Hd|Ha]; [left|right].
    - eapply definite_ext; [intros i j _ _; symmetry; apply Hhalf|]. destruct Hd as (Hsy & Hq). split.
      + intros i j Hi Hj. rewrite (Hsy i j Hi Hj). reflexivity.
      + intros v Hv. specialize (Hq v Hv). unfold quadratic in *.
      rewrite (rsum_ext ngrf _ (fun i => (/2 * rsum ngrf (fun j => v i * banded k (c l) i j * v j))%R)), rsum_scal; [lra|].
        intros i _. rewrite <- rsum_scal. apply rsum_ext. intros j _. field.
    - intros i j Hi Hj. rewrite Hhalf, (Ha i j Hi Hj). lra. }
  destruct (iternorm_banded_or_absent ngrf n k (fun l i j => (c l i j / 2)%R) rows Hpos L4 Hdef' Hrows') as (ws & Ew & Lw & _ & Cw).
  destruct (iternorm_shapes _ _ _ _ Ew) as (_ & _ & _ & S4).
  assert (HW : forall j w, nth_error ws j = Some w -> lead w = n /\ width w = k + 1).
  { intros j w Hj. assert (Hi : j < length ws) by (apply nth_error_Some; congruence).
    destruct (nth_error rows j) as [row|] eqn:Er; [|apply nth_error_None in Er; lia].
    destruct (S4 j w row Hj Er) as (A1 & A2 & _). destruct (Hrows' j row Er) as (B1 & B2 & _). split; congruence. }
  set (co := fun i l q => match nth_error ws i with
                          | Some w => coefficient k (el w l) i q | None => 0%R end).
  exists co. split.
  - intros M alm2map draws Hd.
    pose proof (grf_run alm2map n (k + 1) draws None Hd ltac:(lia) ws 0 HW) as HR.
    replace (kept (k + 1) draws 0) with (@nil (list (R * R))) in HR by reflexivity.
    assert (EG : generate_grf alm2map draws gls ncorr = grf_loop alm2map n draws 0 [] ws None).
    { unfold generate_grf. rewrite (proj2 (nfields_ok _ _) Ht). fold k.
      replace (max_length (map (@length R) gls)) with n.
      - destruct (Nat.eqb_spec n 0); [lia|]. cbv zeta in *. rewrite Erow, Ew. reflexivity.
      - pose proof (max_length_spec gls) as [M1 M2]. destruct Hn as [N1 N2].
        apply Nat.le_antisymm.
        + destruct N2 as [N2|(cl & N2 & N3)]; [lia|]. rewrite <- N3. apply M1. exact N2.
        + destruct M2 as [M2|(cl & M2 & M3)]; [lia|]. rewrite <- M3. apply N1. exact M2. }
    rewrite EG. destruct (grf_loop alm2map n draws 0 [] ws None) as [out e'].
    destruct HR as (-> & R2 & R3). exists out. split; [reflexivity|]. split; [lia|].
    intros i map y Hi. destruct (R3 i map y Hi) as (w & alm & A1 & A2 & A3 & A4 & A5).
    exists alm. split; [exact A2|]. intros h g l m Hh Hg. rewrite (A5 h g l m Hh Hg). cbn [Nat.add]. replace (k + 1 - 1) with k by lia.
    assert (Hi' : i < ngrf) by (rewrite <- Lw; apply nth_error_Some; congruence).
    f_equal. unfold mixed. unfold co. rewrite A1.
    assert (ET : forall f : nat -> R, rsum (S i) (fun q => (coefficient k (el w l) i q * f q)%R)
        = rsum ngrf (fun q => (coefficient k (el w l) i q * f q)%R)).
    { intro f. symmetry. apply rsum_truncate; [lia|]. intros q Hq. unfold coefficient.
      rewrite (proj2 (Nat.leb_gt q i)) by lia. rewrite andb_false_r. lra. }
    rewrite (ET (fun q => re (draws q) g)), (ET (fun q => im (draws q) g)). reflexivity.
  - intros i j l Hi Hj Hl. destruct (Cw i j Hi Hj) as (wi & wj & E1 & E2 & E3). unfold co. rewrite E1, E2.
    etransitivity; [exact (E3 l Hl)|apply Hhalf].
Qed.

(** C82 *)
(** With a limited number of correlations: if the spectra are positive definite, or all zero, at each degree after all
    spectra of more distant fields have been removed, then every field is generated, each pair of fields within the limit
    has the requested spectrum, and each pair beyond has none. *)
Theorem generate_grf_limited (gls : list (list R)) ncorr ngrf n (c : nat -> nat -> nat -> R) :
  triangle ngrf (length gls) -> longest gls n -> 0 < n -> covariance_of 0%R gls n ngrf c ->
  (forall l, l < n -> definite ngrf (limited ncorr (c l)) \/ absent ngrf (limited ncorr (c l))) ->
  exists coef : nat -> nat -> nat -> R,
    (forall (M : Type) (alm2map : list (R * R) -> M) draws, (forall i, triangle n (length (draws i))) ->
       exists out, generate_grf alm2map draws gls ncorr = (out, None) /\ length out = ngrf /\
       forall i map y, nth_error out i = Some (map, y) ->
         exists alm, map = alm2map alm /\
           forall h g l m, in_healpix_alm_order n h l m -> in_glass_alm_order g l m ->
             nth_error alm h = Some (mixed ngrf (coef i l) draws g m)) /\
    forall i j l, i < ngrf -> j < ngrf -> l < n ->
      covariance ngrf (coef i l) (coef j l) = (limited ncorr (c l) i j / 2)%R.
Proof.
  intros Ht Hn Hn0 Hc Hdef. set (k := match ncorr with Some k => k | None => ngrf - 1 end).
  assert (HE : forall l i j, i < ngrf -> j < ngrf -> limited ncorr (c l) i j = banded k (c l) i j).
  { intros l i j Hi Hj. unfold limited, k. destruct ncorr; [reflexivity|]. symmetry. apply (banded_all _ _ ngrf); lia. }
  destruct (generate_grf_banded gls ncorr ngrf n c Ht Hn Hn0 Hc) as (coef & H1 & H2).
  - intros l Hl. fold k. destruct (Hdef l Hl) as [D|A]; [left; eapply definite_ext|right; eapply absent_ext]; [|exact D| |exact A]; auto.
  - exists coef. split; [exact H1|]. intros i j l Hi Hj Hl. rewrite H2, HE by assumption. reflexivity.
Qed.
Print Assumptions generate_grf_limited.

(** Three fields with correlation one half between neighbours, and one kept correlation: the modes of the first and the
    last field are independent. *)
Example generate_grf_limited_example :
  let gls := [[1]; [1]; [/2]; [1]; [/2]; [2/5]]%R in
  exists coef : nat -> nat -> nat -> R,
    (forall draws, (forall i, triangle 1 (length (draws i))) ->
       exists out, generate_grf (fun alm => alm) draws gls (Some 1) = (out, None) /\ length out = 3) /\
    covariance 3 (coef 1 0) (coef 2 0) = (/4)%R /\ covariance 3 (coef 0 0) (coef 2 0) = 0%R.
Proof.
  cbv zeta. set (gls := [[1]; [1]; [/2]; [1]; [/2]; [2/5]]%R).
  destruct (generate_grf_limited gls (Some 1) 3 1 (fun _ => half)) as (coef & H & C).
  - reflexivity.
  - split; [|right; exists [1%R]; split; [left; reflexivity|reflexivity]]. intros cl H. cbn in H. intuition (subst; cbn; lia).
  - lia.
  - intros l i j Hl Hi Hj. exists [half i j]. split; [|replace l with 0 by lia; reflexivity].
    destruct i as [|[|[|i]]]; [| | |lia]; (destruct j as [|[|[|j]]]; [| | |lia]); unfold spectrum_of, half; cbn;
      match goal with
      | |- context [ [1%R] ] => first [exists 0; split; [repeat split; cbn; lia|reflexivity]|exists 1; split; [repeat split; cbn; lia|reflexivity]|exists 3; split; [repeat split; cbn; lia|reflexivity]]
      | |- context [ [(2/5)%R] ] => exists 5; split; [repeat split; cbn; lia|reflexivity]
      | _ => first [exists 2; split; [repeat split; cbn; lia|reflexivity]|exists 4; split; [repeat split; cbn; lia|reflexivity]]
      end.
  - intros l _. left. exact half_definite.
  - exists coef. split; [|rewrite !C by lia; unfold limited, banded, half; cbn; split; lra].
    intros draws Hd. destruct (H _ (fun alm => alm) draws Hd) as (out & E & L & _). exists out. auto.
Qed.

(** But spectra that are positive definite at each degree may be rejected when the number of correlations is limited. *)
Theorem generate_grf_limited_refuted : exists gls ngrf n c,
  triangle ngrf (length gls) /\ longest gls n /\ 0 < n /\ covariance_of 0%R gls n ngrf c /\ (forall l, l < n -> definite ngrf (c l)) /\
  forall (M : Type) (alm2map : list (R * R) -> M) draws, (forall i, triangle n (length (draws i))) ->
    snd (generate_grf alm2map draws gls (Some 1)) = Some ValueError.
Proof.
  set (gls := [[1]; [1]; [9/10]; [1]; [9/10]; [4/5]]%R). exists gls, 3, 1, (fun _ => close).
  assert (Ht : triangle 3 (length gls)) by reflexivity.
  assert (Hn : longest gls 1).
  { split; [|right; exists [1%R]; split; [left; reflexivity|reflexivity]]. intros cl H. cbn in H. intuition (subst; cbn; lia). }
  assert (Hs : forall i j, i < 3 -> j < 3 -> spectrum_of gls i j [close i j]).
  { intros i j Hi Hj. destruct i as [|[|[|i]]]; [| | |lia]; (destruct j as [|[|[|j]]]; [| | |lia]); unfold spectrum_of, close; cbn;
      match goal with
      | |- context [ [1%R] ] => first [exists 0; split; [repeat split; cbn; lia|reflexivity]|exists 1; split; [repeat split; cbn; lia|reflexivity]|exists 3; split; [repeat split; cbn; lia|reflexivity]]
      | |- context [ [(4/5)%R] ] => exists 5; split; [repeat split; cbn; lia|reflexivity]
      | _ => first [exists 2; split; [repeat split; cbn; lia|reflexivity]|exists 4; split; [repeat split; cbn; lia|reflexivity]]
      end. }
  assert (Hc : covariance_of 0%R gls 1 3 (fun _ => close)).
  { intros l i j Hl Hi Hj. exists [close i j]. split; [apply Hs; assumption|]. replace l with 0 by lia. reflexivity. }
  split; [exact Ht|]. split; [exact Hn|]. split; [lia|]. split; [exact Hc|]. split; [intros l _; exact close_definite|].
  intros M alm2map draws Hd.
  destruct (generate_grf_modes gls (Some 1) 3 1 Ht Hn ltac:(lia)) as (coef & F & e & (F1 & F2 & F3) & Z & P & Hg & V & C). cbv beta iota in *.
  destruct (Hg M alm2map draws Hd) as (out & -> & _). cbn [snd].
  destruct (Nat.eq_dec F 3) as [->|Hne]; [exfalso|apply F3; lia].
  pose proof (V 0 0 _ 3 ltac:(lia) ltac:(lia) (Hs 0 0 ltac:(lia) ltac:(lia)) ltac:(lia)) as V0.
  pose proof (V 1 0 _ 3 ltac:(lia) ltac:(lia) (Hs 1 1 ltac:(lia) ltac:(lia)) ltac:(lia)) as V1.
  pose proof (V 2 0 _ 3 ltac:(lia) ltac:(lia) (Hs 2 2 ltac:(lia) ltac:(lia)) ltac:(lia)) as V2.
  unfold covariance, mode, close in V0, V1, V2. cbn in V0, V1, V2.
  rewrite (Z 0 0 1) in V0 by lia. rewrite (Z 0 0 2) in V0 by lia. rewrite (Z 1 0 2) in V1 by lia. rewrite (Z 2 0 0) in V2 by lia.
  assert (S0 : (0 < coef 0%nat 0%nat 0%nat)%R) by (destruct (P 0 0) as [X|X]; [exact X|rewrite <- X in V0; lra]).
  pose proof (C 1 0 0 _ 3 ltac:(lia) ltac:(lia) ltac:(lia) ltac:(lia) (Hs 1 0 ltac:(lia) ltac:(lia)) ltac:(lia)) as C1.
  specialize (C1 ltac:(intros f Hf; replace f with 0 by lia; exact S0)). unfold covariance, mode, close in C1. cbn in C1.
  rewrite (Z 0 0 1) in C1 by lia. rewrite (Z 0 0 2) in C1 by lia.
  assert (E0 : (coef 0%nat 0%nat 0%nat * coef 0%nat 0%nat 0%nat = /2)%R) by lra. assert (E1 : (coef 1%nat 0%nat 0%nat * coef 0%nat 0%nat 0%nat = 9/20)%R) by lra.
  assert (E2 : (coef 1%nat 0%nat 0%nat * coef 1%nat 0%nat 0%nat = 81/200)%R).
  { assert (Q : (coef 1%nat 0%nat 0%nat * coef 1%nat 0%nat 0%nat * (coef 0%nat 0%nat 0%nat * coef 0%nat 0%nat 0%nat) = 81/400)%R).
    { transitivity ((coef 1%nat 0%nat 0%nat * coef 0%nat 0%nat 0%nat) * (coef 1%nat 0%nat 0%nat * coef 0%nat 0%nat 0%nat))%R; [ring|rewrite E1; lra]. }
    rewrite E0 in Q. lra. }
  assert (S1 : (0 < coef 1%nat 0%nat 1%nat)%R) by (destruct (P 1 0) as [X|X]; [exact X|rewrite <- X in V1; lra]).
  pose proof (C 2 1 0 _ 3 ltac:(lia) ltac:(lia) ltac:(lia) ltac:(lia) (Hs 2 1 ltac:(lia) ltac:(lia)) ltac:(lia)) as C2x.
  specialize (C2x ltac:(intros [|[|f]] Hf; [exact S0|exact S1|lia])). unfold covariance, mode, close in C2x. cbn in C2x.
  rewrite (Z 2 0 0) in C2x by lia. rewrite (Z 1 0 2) in C2x by lia.
  assert (D : (coef 2%nat 0%nat 1%nat * coef 1%nat 0%nat 1%nat = 9/20)%R) by lra.
  assert (D1 : (coef 1%nat 0%nat 1%nat * coef 1%nat 0%nat 1%nat = 19/200)%R) by lra.
  assert (D2 : (coef 2%nat 0%nat 1%nat * coef 2%nat 0%nat 1%nat * (coef 1%nat 0%nat 1%nat * coef 1%nat 0%nat 1%nat) = 81/400)%R).
  { transitivity ((coef 2%nat 0%nat 1%nat * coef 1%nat 0%nat 1%nat) * (coef 2%nat 0%nat 1%nat * coef 1%nat 0%nat 1%nat))%R; [ring|rewrite D; lra]. }
  rewrite D1 in D2. pose proof (Rle_0_sqr (coef 2%nat 0%nat 2%nat)) as Sq. unfold Rsqr in Sq. lra.
Qed.
Print Assumptions generate_grf_limited_refuted.

(** C13 *)
(** With spectra that are positive definite, or all zero, at each degree, and all fields correlated, every field is
    generated and every pair of fields has the requested spectrum. *)
Theorem generate_grf_definite (gls : list (list R)) ngrf n (c : nat -> nat -> nat -> R) :
  triangle ngrf (length gls) -> longest gls n -> 0 < n ->
  covariance_of 0%R gls n ngrf c -> (forall l, l < n -> definite ngrf (c l) \/ absent ngrf (c l)) ->
  exists coef : nat -> nat -> nat -> R,
    (forall (M : Type) (alm2map : list (R * R) -> M) draws, (forall i, triangle n (length (draws i))) ->
       exists out, generate_grf alm2map draws gls None = (out, None) /\ length out = ngrf /\
       forall i map y, nth_error out i = Some (map, y) ->
         exists alm, map = alm2map alm /\
           forall h g l m, in_healpix_alm_order n h l m -> in_glass_alm_order g l m ->
             nth_error alm h = Some (mixed ngrf (coef i l) draws g m)) /\
    forall i j l, i < ngrf -> j < ngrf -> l < n ->
      covariance ngrf (coef i l) (coef j l) = (c l i j / 2)%R.
Proof. intros Ht Hn Hn0 Hc Hdef. exact (generate_grf_limited gls None ngrf n c Ht Hn Hn0 Hc Hdef). Qed.
Print Assumptions generate_grf_definite.

(** Two fields with three degrees, the first one without power, meet the hypotheses. *)
Example generate_grf_definite_example :
  let gls := [[0; 2; 2]; [0; 3; 4]; [0; 1; 1]]%R in
  let c := fun l i j : nat => if l =? 0 then 0%R else if i =? j then (if i =? 0 then 2 else if l =? 1 then 3 else 4)%R else 1%R in
  triangle 2 (length gls) /\ longest gls 3 /\ covariance_of 0%R gls 3 2 c /\
  (forall l, l < 3 -> definite 2 (c l) \/ absent 2 (c l)) /\ absent 2 (c 0) /\ definite 2 (c 1).
Proof.
  intros gls c. assert (A : absent 2 (c 0)) by (intros i j _ _; reflexivity).
  assert (D : forall l, 0 < l -> definite 2 (c l)).
  { intros l Hl. destruct l as [|l]; [lia|]. unfold c. cbn [Nat.eqb]. split.
    + intros i j Hi Hj. rewrite (Nat.eqb_sym j i). destruct (Nat.eqb_spec i j) as [->|]; reflexivity.
    + intros v (i & Hi & Hv). unfold quadratic. cbn [rsum Nat.eqb].
      pose proof (Rle_0_sqr (v 0%nat + v 1%nat)) as S0. pose proof (Rle_0_sqr (v 0%nat)) as S1. pose proof (Rle_0_sqr (v 1%nat)) as S2.
      pose proof (Rsqr_pos_lt _ Hv) as S3. unfold Rsqr in *.
      assert (Hc : i = 0 \/ i = 1) by lia. destruct (l =? 0); destruct Hc as [-> | ->]; lra. }
  split; [reflexivity|]. split; [|split; [|split; [|split; [exact A|apply D; lia]]]].
  - split.
    + intros cl [<-|[<-|[<-|[]]]]; cbn; lia.
    + right. exists [0; 2; 2]%R. split; [left|]; reflexivity.
  - intros l i j Hl Hi Hj. destruct i as [|[|i]]; [| |lia]; (destruct j as [|[|j]]; [| |lia]).
    + exists [0; 2; 2]%R. split; [exists 0; cbn; unfold in_order; cbn; auto|]. destruct l as [|[|[|l]]]; [reflexivity|reflexivity|reflexivity|lia].
    + exists [0; 1; 1]%R. split; [exists 2; cbn; unfold in_order; cbn; auto|]. destruct l as [|[|[|l]]]; [reflexivity|reflexivity|reflexivity|lia].
    + exists [0; 1; 1]%R. split; [exists 2; cbn; unfold in_order; cbn; auto|]. destruct l as [|[|[|l]]]; [reflexivity|reflexivity|reflexivity|lia].
    + exists [0; 3; 4]%R. split; [exists 1; cbn; unfold in_order; cbn; auto|]. destruct l as [|[|[|l]]]; [reflexivity|reflexivity|reflexivity|lia].
  - intros l Hl. destruct l as [|l]; [right; exact A|left; apply D; lia].
Qed.
