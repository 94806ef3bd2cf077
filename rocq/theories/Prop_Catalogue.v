(** Claims about catalogues of galaxies (C90). *)
From Coq Require Import Reals Lra Lia List.
From Coquelicot Require Import Coquelicot.
From Verif Require Import Base Model_Numeric Model_Arrays Model_Effective Model_Windows Model_Galaxies Model_Rng Model_Points Model_Catalogue.
From Verif Require Import Spec_Numeric Spec_Arrays Spec_Disc Spec_Windows Spec_Galaxies Spec_Points Spec_Uniform Spec_Poisson Spec_Batch Spec_Catalogue.
From Verif Require Import Proof_Batch Proof_Numeric Proof_Galaxies Proof_Points Proof_Uniform Proof_Poisson Prop_Points Prop_Uniform Prop_Windows Prop_Poisson.
Import ListNotations.
Local Open Scope R_scope.

Lemma nth_seq (l : list R) : map (fun j => nth j l 0) (seq 0 (length l)) = l.
Proof. exact (seq_nth l). Qed.

Lemma row_same (l : list R) k : length l = k -> map snd (map (fun j : nat => (0%nat, nth (if k =? 1 then 0%nat else j) l 0)) (seq 0 k)) = l.
Proof.
  intros <-. rewrite map_map. cbn [snd]. transitivity (map (fun j => nth j l 0) (seq 0 (length l))); [|apply nth_seq]. apply map_ext_in. intros j Hj. apply in_seq in Hj.
  destruct (Nat.eqb_spec (length l) 1) as [E|E]; [replace j with 0%nat by lia|]; reflexivity.
Qed.
Lemma redshifts_scalar {S} (uniform : S -> nat -> list R * S) n w s : length (za w) = length (wa w) ->
  redshifts uniform {| ashape := []; aget := fun _ => n |} w s = draw_nz uniform n (za w) (wa w) s.
Proof.
  intro L. unfold redshifts, redshifts_from_nz, broadcast_leading_axes. rewrite L. set (k := length (wa w)).
  cbn -[draw_nz]. unfold broadcast_to. cbn -[draw_nz]. rewrite Nat.eqb_refl. cbn -[draw_nz].
  rewrite !row_same by (reflexivity || exact L). destruct (draw_nz _ _ _ _ _) as [[zs s']|]; cbn [bind]; [|reflexivity]. rewrite app_nil_r. reflexivity.
Qed.

(** One redshift as a function of a uniform number. *)
Lemma draw_function z nz F a b : distribution z nz -> cumulative_distribution F z nz -> starts_with z a -> ends_with z b ->
  exists x : R -> R,
    (forall n (r : list (R * nat)) us, draw_nz units_second n z nz (r, us) = Ok (map x (firstn n us), (r, skipn n us))) /\
    (forall u, 0 < u < 1 -> a <= x u < b) /\
    forall c, a <= fst c <= snd c -> snd c <= b -> is_RInt (fun u => hit c (x u)) 0 1 (F (snd c) - F (fst c)).
Proof.
  intros D CF Ha Hb.
  set (cs' := map (fun c => c / total (trapezoids (combine z nz))) (cumulative_sum 0 (trapezoids (combine z nz)))).
  set (x := interp_value cs' z None None).
  destruct (inverse_cdf z nz D) as (Ht & Hlast & Hcl & Hne & F0 & HF0 & HI & _). fold cs' in Hcl, HI. fold x in HI.
  assert (Law : forall u y, 0 < u < 1 -> a <= y <= b -> (x u < y <-> u < F y)).
  { intros u y Hu Hy. destruct (HI u ltac:(lra)) as (E & i & c & d & H1 & H2 & H3 & H4).
    apply (drawn_below z nz F a b D CF Ha Hb); [|exact Hy]. exists F0. split; [exact HF0|]. split; [exact E|].
    exists i, c, d. auto. }
  assert (FR : forall y, a <= y <= b -> 0 <= F y <= 1).
  { intros y Hy. destruct (cdf_ends z nz F a b D CF Ha Hb) as [E0 E1].
    rewrite <- E0 at 1. rewrite <- E1. split; apply (cdf_monotone z nz F a b D CF Ha Hb); lra. }
  exists x. split; [|split].
  - intros n r us. unfold draw_nz, cumulative_trapezoid. destruct D as (Hs & Hln & _). rewrite <- Hln, Nat.eqb_refl. cbn [bind].
    rewrite Hlast. cbn [bind]. destruct (Req_EM_T _ 0); [lra|]. unfold units_second, units. cbn beta iota. cbn [fst snd]. fold cs'.
    rewrite (mapM_pure _ x); [reflexivity|]. intros u _. unfold x. apply interp_ok; [exact Hcl|].
    intro E. rewrite E in Hcl. destruct z; [contradiction|discriminate].
  - intros u Hu. destruct (HI u ltac:(lra)) as (_ & i & c & d & H1 & H2 & H3 & _). destruct D as (Hs & _).
    pose proof (starts_min z a Hs Ha c (nth_error_In _ _ H1)) as A1. pose proof (ends_max z b Hs Hb d (nth_error_In _ _ H2)) as A2. lra.
  - intros [l r] H1 H2. cbn [fst snd] in *. apply unit_hit; [lra|apply FR; lra|apply FR; lra| |]; intros u Hu; apply Law; lra.
Qed.

Lemma stepped_mean F a b f m (x : R -> R) : stepped F a b f m -> (forall u, 0 < u < 1 -> a <= x u < b) ->
  (forall c, a <= fst c <= snd c -> snd c <= b -> is_RInt (fun u => hit c (x u)) 0 1 (F (snd c) - F (fst c))) ->
  is_RInt (fun u => f (x u)) 0 1 m.
Proof.
  intros (cs & Hc & Ef & ->) Hx H.
  apply (is_RInt_ext (fun u => fold_right Rplus 0 (map (fun c => snd c * hit (fst c) (x u)) cs))).
  - intros u. rewrite Rmin_left, Rmax_right by lra. intro Hu. symmetry. apply Ef, Hx, Hu.
  - apply (rint_sum cs (fun c u => snd c * hit (fst c) (x u)) 0 1 (fun c => snd c * (F (snd (fst c)) - F (fst (fst c))))).
    intros c I. pose proof (proj1 (Forall_forall _ _) Hc c I) as [H1 H2]. apply unit_scal. apply H; assumption.
Qed.

Lemma batches_redshifts {P} w (x : R -> R) (bs : list (list P)) : length (za w) = length (wa w) ->
  (forall n (r : list (R * nat)) us, draw_nz units_second n (za w) (wa w) (r, us) = Ok (map x (firstn n us), (r, skipn n us))) ->
  forall r us, (length (concat bs) <= length us)%nat ->
  exists g, with_redshifts units_second w bs (r, us) = Ok (g, (r, skipn (length (concat bs)) us)) /\
    concat g = combine (concat bs) (map x (firstn (length (concat bs)) us)).
Proof.
  intros L H. induction bs as [|b bs IH]; intros r us Lu.
  - exists []. split; reflexivity.
  - cbn [concat] in *. rewrite app_length in *. cbn [with_redshifts]. rewrite redshifts_scalar, H by exact L. cbn [bind].
    set (u1 := firstn (length b) us) in *. set (u2 := skipn (length b) us) in *.
    assert (Eu : us = u1 ++ u2) by (symmetry; apply firstn_skipn). assert (L1 : length u1 = length b) by (unfold u1; rewrite firstn_length; lia).
    destruct (IH r u2) as (g & E & G); [unfold u2; rewrite skipn_length; lia|]. rewrite E. cbn [bind].
    eexists. split; [f_equal; f_equal; f_equal|].
    + rewrite Eu, <- L1, skipn_app. rewrite (skipn_all2 u1) by lia. cbn [app]. f_equal. lia.
    + cbn [concat]. rewrite G, Eu, <- L1, firstn_app_2, map_app, combine_app by (rewrite map_length; congruence). reflexivity.
Qed.

(** ** The expected numbers *)
Lemma layer_means m n delta bias vis lam : (0 < m)%nat -> (forall v, vis = Some v -> length v = m) -> expected_in m n delta bias vis lam ->
  expected_counts linear_bias {| ashape := []; aget := fun _ => n |} {| ashape := [length delta]; aget := fun i => nth (hd 0%nat i) delta 0 |}
    (option_map (fun b => {| ashape := []; aget := fun _ => b |}) bias)
    (option_map (fun v => {| ashape := [length v]; aget := fun i => nth (hd 0%nat i) v 0 |}) vis) false = Ok [lam].
Proof.
  intros Hm Hv (Ld & Ll & H).
  destruct (expected_counts_formula linear_bias {| ashape := []; aget := fun _ => n |} {| ashape := [length delta]; aget := fun i => nth (hd 0%nat i) delta 0 |}
    (option_map (fun b => {| ashape := []; aget := fun _ => b |}) bias)
    (option_map (fun v => {| ashape := [length v]; aget := fun i => nth (hd 0%nat i) v 0 |}) vis) false [] [] m []
    (fun _ => n) (fun _ => match bias with None => delta | Some b => map (fun d => b * d) delta end)
    (fun _ => match vis with None => repeat 1 m | Some v => v end)) as (ks & lams & Hk & E & F).
  - exact Hm.
  - cbn. rewrite Ld. reflexivity.
  - intros v. destruct vis as [v0|]; [|discriminate]. cbn. intros [= <-]. cbn. rewrite (Hv v0 eq_refl). reflexivity.
  - split; [destruct bias, vis; repeat constructor|]. split; [left; reflexivity|]. intro k. split.
    + intros x Hx. destruct bias, vis; cbn in Hx; repeat destruct Hx as [<-|Hx]; try contradiction; right; reflexivity.
    + left. destruct k; reflexivity.
  - intros k Hk. inversion Hk; subst. split; [|split; [|split; [|split]]].
    + exists []. split; [split; [reflexivity|cbn; lia]|reflexivity].
    + destruct bias; [rewrite map_length|]; reflexivity.
    + destruct vis as [v|]; [apply Hv; reflexivity|apply repeat_length].
    + exists delta. split.
      * exists []. split; [split; [reflexivity|cbn; lia]|]. split; [reflexivity|]. intros i Hi. cbn. apply nth_error_nth'. exact Hi.
      * destruct bias as [b|]; [|reflexivity]. cbn. exists b. split; [|reflexivity]. exists []. split; [split; [reflexivity|cbn; lia]|reflexivity].
    + destruct vis as [v|]; [|reflexivity]. cbn. exists []. split; [split; [reflexivity|cbn; lia]|]. split; [apply Hv; reflexivity|].
      intros i Hi. cbn. apply nth_error_nth'. rewrite (Hv v eq_refl). exact Hi.
  - assert (Ek : ks = [[]]) by (apply (row_major_unique [] ks); [exact Hk|exact (ndindex_row_major [])]). subst ks.
    inversion F as [|? lam' ? lams' [L' F'] F2]; subst. inversion F2; subst. rewrite E. do 2 f_equal.
    apply nth_ext with (d := 0) (d' := 0); [congruence|]. intros i Hi.
    assert (Hd : exists d, nth_error delta i = Some d).
    { destruct (nth_error delta i) as [d|] eqn:Q; [exists d; reflexivity|]. apply nth_error_None in Q. lia. }
    destruct Hd as (d & Hd). set (g := match bias with None => d | Some b => b * d end).
    assert (Hg : nth_error (match bias with None => delta | Some b => map (fun d => b * d) delta end) i = Some g).
    { unfold g. destruct bias; [rewrite nth_error_map', Hd|]; auto. }
    assert (V : exists v, nth_error (match vis with None => repeat 1 (length delta) | Some v => v end) i = Some v /\ match vis with None => v = 1 | Some l => nth_error l i = Some v end).
    { destruct vis as [v|].
      - destruct (nth_error v i) as [y|] eqn:Q; [exists y; auto|]. apply nth_error_None in Q. rewrite (Hv v eq_refl) in Q. lia.
      - exists 1. split; [apply nth_error_repeat; lia|reflexivity]. }
    destruct V as (v & V1 & V2). pose proof (F' i g v Hg V1) as Q1. pose proof (H i d Hd v V2) as Q2. fold g in Q2.
    rewrite (nth_error_nth _ _ 0 Q2), (nth_error_nth _ _ 0 Q1). rewrite Rminus_0_r. reflexivity.
Qed.

(** ** The catalogue *)
Lemma marks_mean (xs : list nat) (h : nat -> R -> R) (x : R -> R) (v : nat -> R) :
  (forall i, In i xs -> is_RInt (fun u => h i (x u)) 0 1 (v i)) ->
  umeans (length xs) (fun us => product (map (fun p => h (fst p) (snd p)) (combine xs (map x us)))) (product (map v xs)).
Proof.
  intro H. pose proof (umeans_prod (map (fun i u => h i (x u)) xs) (map v xs)) as K. rewrite map_length in K.
  eapply umeans_ext; [|apply K].
  - clear. intros us L _. revert us L. induction xs as [|i xs IH]; intros [|u us] L; try discriminate; [reflexivity|].
    cbn [map combine prod product fold_right fst snd]. rewrite IH by (injection L; auto). reflexivity.
  - clear K. induction xs as [|i xs IH]; cbn [map]; constructor; [apply H; left; reflexivity|]. apply IH. intros; apply H; right; assumption.
Qed.
Lemma product_pixels {P} (pixel : P -> nat) (h : nat -> R -> R) (ps : list P) : forall xs,
  product (map (fun p => h (pixel (fst p)) (snd p)) (combine ps xs)) = product (map (fun p => h (fst p) (snd p)) (combine (map pixel ps) xs)).
Proof.
  unfold product. induction ps as [|p ps IH]; intros [|x xs]; cbn [combine map fold_right fst snd]; [reflexivity..|]. rewrite IH. reflexivity.
Qed.

Lemma pixels_below n : forall i k, In k (pixels_from i n) -> (k < i + length n)%nat.
Proof.
  induction n as [|c n IH]; intros i k H; cbn [pixels_from length] in *; [contradiction|].
  apply in_app_or in H as [H|H]; [apply repeat_spec in H; lia|]. apply IH in H. lia.
Qed.

Section Process.
  Context {U P : Type}.
  Variable mk : nat -> list (R * nat) * list R.
  Variable random : list (R * nat) * list R -> nat -> list U * (list (R * nat) * list R).
  Variable ring2ang : nat -> nat -> U -> P.
  Variable npix2nside : nat -> result nat.
  Variable pixel : P -> nat.
  Variables nside m fuel batch : nat.
  Hypothesis Hr : forall s n, length (fst (random s n)) = n.
  Hypothesis Hx : forall i u, pixel (ring2ang nside i u) = i.
  Hypothesis Hn : npix2nside m = Ok nside.
  Hypothesis Hf : (2 * m < fuel)%nat.
  Hypothesis Hm : (0 < m)%nat.
  Variables (bias : option R) (vis : option (list R)).
  Hypothesis Hv : forall v, vis = Some v -> length v = m.
  Let catalogue := catalogue mk counts_first random units_second ring2ang npix2nside fuel batch bias vis.

  Lemma given_counts slices : Forall (described m bias vis) slices -> forall ns, length ns = length (concat (map slice_means slices)) ->
    umeans (list_sum ns) (fun us => match catalogue (map slice_layer slices) (combine (concat (map slice_means slices)) ns, us) with
        Ok (cat, _) => galaxy_marks pixel (map slice_mark slices) cat | Err _ => 0 end)
      (powers (concat (map slice_values slices)) ns).
  Proof.
    induction 1 as [|s slices (He & D & Lv & F & a & b & CF & Ha & Hb & Hs) _ IH]; intros ns Ln.
    - destruct ns; [|discriminate]. reflexivity.
    - cbn [map concat] in *. rewrite app_length in Ln. pose proof He as (Ld & Ll & _). rewrite Ll in Ln.
      set (n := firstn m ns). set (ns' := skipn m ns).
      assert (L1 : length n = m) by (unfold n; rewrite firstn_length; lia).
      assert (L2 : length ns' = length (concat (map slice_means slices))) by (unfold ns'; rewrite skipn_length; lia).
      assert (En : ns = n ++ ns') by (symmetry; apply firstn_skipn).
      rewrite En, powers_app, combine_app by congruence. rewrite list_sum_app.
      destruct (draw_function _ _ F a b D CF Ha Hb) as (x & X1 & X2 & X3).
      destruct (sample_pixels mk random ring2ang npix2nside pixel nside m fuel batch Hr Hx Hn Hf n L1) as (p & Ep & Pp).
      assert (Lp : length (concat p) = list_sum n).
      { rewrite <- (map_length pixel), Pp. unfold all_points. apply pixels_from_length. }
      set (rest := powers (concat (map slice_values slices)) ns').
      set (f := fun us => product (map (fun q => slice_mark s (fst q) (snd q)) (combine (all_points n) (map x us)))).
      apply (umeans_app (list_sum n) (list_sum ns') _ (fun u => f u * rest)).
      + intros u Lu _. eapply umeans_ext; [|apply umeans_scal, (IH ns' L2)]. intros l Ll' _. cbn beta.
        unfold catalogue. cbn [Model_Catalogue.catalogue]. unfold positions_from_delta. rewrite (layer_means m _ _ _ _ (slice_means s)) by assumption.
        cbn [bind]. unfold positions_from_lams, generator. cbn [positions_loop]. unfold counts_first at 2. cbn [fst snd]. rewrite counts_given by congruence.
        rewrite Ep. cbn [bind concat]. rewrite app_nil_r.
        destruct (batches_redshifts (radial (slice_layer s)) x p ltac:(apply D) X1 (combine (concat (map slice_means slices)) ns') (u ++ l)) as (g & Eg & Cg).
        { rewrite app_length. lia. }
        rewrite Eg. cbn [bind]. rewrite Lp in *. rewrite <- Lu in Cg, Eg |- *.
        assert (S1 : skipn (length u) (u ++ l) = l) by (rewrite skipn_app, skipn_all, Nat.sub_diag; reflexivity).
        assert (F1 : firstn (length u) (u ++ l) = u) by (rewrite firstn_app, firstn_all, Nat.sub_diag; cbn; apply app_nil_r).
        rewrite S1 in *. rewrite F1 in Cg. fold catalogue.
        destruct (catalogue _ _) as [[cat s']|] eqn:Ec; cbn [bind galaxy_marks]; [|ring].
        rewrite Cg. f_equal. unfold f. rewrite <- Pp. symmetry. apply product_pixels.
      + rewrite Rmult_comm. eapply umeans_ext; [|apply (umeans_scal _ f (powers (slice_values s) n) rest)].
        * intros; cbn beta; ring.
        * unfold f. pose proof (marks_mean (all_points n) (slice_mark s) x (fun i => nth i (slice_values s) 0)) as K.
          match type of K with ?Q -> _ => assert (K1 : Q) end.
          { intros i Hi. apply (stepped_mean F a b _ _ x); [|exact X2|exact X3]. apply (Hs i). apply nth_error_nth'.
            rewrite Lv, <- L1. apply (pixels_below n 0 i Hi). }
          specialize (K K1). rewrite <- (map_length pixel), Pp in Lp. rewrite Lp in K.
          unfold all_points at 2 in K. rewrite pixels_powers, L1, <- Lv, seq_nth in K. exact K.
  Qed.

  (** C90 *)

  (** The galaxies of a catalogue that is made shell by shell form a Poisson process: the numbers in pixels have the means
      that are expected from number density, contrast, bias and visibility, the redshifts are independent of each other and
      of the positions, and are distributed like the window function of the shell.  The expected product of the values of a
      function of shell, pixel and redshift at all galaxies is what it is for such a process. *)
  Theorem catalogue_process slices : Forall (described m bias vis) slices ->
    galaxies_mean (concat (map slice_means slices))
      (fun s => match catalogue (map slice_layer slices) s with Ok (cat, _) => galaxy_marks pixel (map slice_mark slices) cat | Err _ => 0 end)
      (exp (fold_right Rplus 0 (map (fun s => fold_right Rplus 0 (map (fun '(lam, e) => lam * (e - 1)) (combine (slice_means s) (slice_values s)))) slices))).
  Proof.
    intro H. exists (powers (concat (map slice_values slices))). split; [intros ns L; apply given_counts; assumption|].
    assert (Q : length (concat (map slice_values slices)) = length (concat (map slice_means slices)) /\
      shifted (concat (map slice_means slices)) (concat (map slice_values slices)) =
      fold_right Rplus 0 (map (fun s => fold_right Rplus 0 (map (fun '(lam, e) => lam * (e - 1)) (combine (slice_means s) (slice_values s)))) slices)).
    { induction H as [|s slices ((_ & L1 & _) & _ & L2 & _) _ [I1 I2]]; cbn [map concat fold_right]; [split; reflexivity|].
      split; [rewrite !app_length; congruence|]. rewrite shifted_app, I2 by congruence. f_equal.
      generalize (slice_means s) (slice_values s). induction l as [|x l IH]; intros [|y r]; cbn [shifted combine map fold_right]; [reflexivity..|]. rewrite IH. reflexivity. }
    destruct Q as [Q1 Q2]. rewrite <- Q2. apply counts_powers. exact Q1.
  Qed.
End Process.
Print Assumptions catalogue_process.

(** ** Numbers of galaxies *)
Lemma catalogue_length {S U P} (mk : nat -> S) poisson (random : S -> nat -> list U * S) uniform (ring2ang : nat -> nat -> U -> P) npix2nside fuel batch bias vis layers : forall (s s' : S) cat,
  catalogue mk poisson random uniform ring2ang npix2nside fuel batch bias vis layers s = Ok (cat, s') -> length cat = length layers.
Proof.
  induction layers as [|l layers IH]; intros s s' cat H; cbn [catalogue] in H; [injection H as <- _; reflexivity|].
  apply bind_ok in H as ([pos s1] & _ & H). apply bind_ok in H as ([g s2] & _ & H). apply bind_ok in H as ([rest s3] & E & H).
  injection H as <- _. cbn [length]. f_equal. exact (IH _ _ _ E).
Qed.
Lemma constant_marks {P} (pixel : P -> nat) (A : nat -> bool) c (t : R) (cat : list (list (list (P * R)))) :
  galaxy_marks pixel (repeat (fun (i : nat) (z : R) => if A i then 1 + (t - 1) * hit c z else 1) (length cat)) cat = t ^ galaxies_in pixel A c cat.
Proof.
  unfold galaxies_in. induction cat as [|g cat IH]; cbn [length repeat galaxy_marks concat]; [reflexivity|].
  rewrite concat_app, filter_app, app_length, pow_add, IH. f_equal. clear IH.
  induction (concat g) as [|p l IH]; cbn [map filter]; [reflexivity|]. unfold product in *. cbn [fold_right]. rewrite IH. clear IH.
  destruct (A (pixel (fst p))); cbn [andb]; [|ring].
  destruct (hit_values c (snd p)) as [E|E]; rewrite E; destruct (Req_EM_T _ 1) as [H|H]; try lra; cbn [length pow]; ring.
Qed.
Lemma galaxies_ext lams f g m : galaxies_mean lams f m -> (forall s, f s = g s) -> galaxies_mean lams g m.
Proof.
  intros (h & H & M) E. exists h. split; [|exact M]. intros ns L. eapply umeans_ext; [|apply (H ns L)]. intros; apply E.
Qed.
Lemma clipped_hit a b c x : a <= x < b -> hit c x = if Rle_dec (Rmax a (fst c)) (Rmin b (snd c)) then hit (Rmax a (fst c), Rmin b (snd c)) x else 0.
Proof.
  intro Hx. unfold hit. cbn [fst snd]. pose proof (Rmax_l a (fst c)). pose proof (Rmax_r a (fst c)). pose proof (Rmin_l b (snd c)). pose proof (Rmin_r b (snd c)).
  assert (M1 : fst c <= x <-> Rmax a (fst c) <= x) by (split; intro; [apply Rmax_lub; lra|lra]).
  assert (M2 : x < snd c <-> x < Rmin b (snd c)) by (split; intro; [apply Rmin_glb_lt; lra|lra]).
  destruct (Rle_dec (fst c) x) as [B1|B1], (Rle_dec (Rmax a (fst c)) x) as [B2|B2]; try (exfalso; tauto);
    destruct (Rlt_dec x (snd c)) as [B3|B3], (Rlt_dec x (Rmin b (snd c))) as [B4|B4]; try (exfalso; tauto); destruct (Rle_dec _ _); try reflexivity; lra.
Qed.
Lemma mark_stepped F a b c t : a < b -> F a = 0 -> F b = 1 ->
  stepped F a b (fun z => 1 + (t - 1) * hit c z) (1 + (t - 1) * share F a b c) /\ stepped F a b (fun _ => 1) 1.
Proof.
  intros Hab F0 F1. split.
  - exists (((a, b), 1) :: if Rle_dec (Rmax a (fst c)) (Rmin b (snd c)) then [((Rmax a (fst c), Rmin b (snd c)), t - 1)] else []).
    split; [|split].
    + constructor; [cbn; lra|]. destruct (Rle_dec _ _); constructor; [|constructor]. cbn [fst snd].
      pose proof (Rmax_l a (fst c)). pose proof (Rmin_l b (snd c)). lra.
    + intros x Hx. cbn [map fold_right fst snd]. rewrite (clipped_hit a b c x Hx).
      replace (hit (a, b) x) with 1 by (unfold hit; cbn [fst snd]; destruct (Rle_dec a x); [|lra]; destruct (Rlt_dec x b); lra).
      destruct (Rle_dec _ _); cbn [map fold_right fst snd]; ring.
    + unfold share. cbn [map fold_right fst snd]. rewrite F0, F1. destruct (Rle_dec _ _); cbn [map fold_right fst snd]; ring.
  - exists [((a, b), 1)]. split; [constructor; [cbn; lra|constructor]|]. split.
    + intros x Hx. cbn [map fold_right fst snd].
      replace (hit (a, b) x) with 1 by (unfold hit; cbn [fst snd]; destruct (Rle_dec a x); [|lra]; destruct (Rlt_dec x b); lra). ring.
    + cbn [map fold_right fst snd]. rewrite F0, F1. ring.
Qed.
Lemma distribution_range z nz a b : distribution z nz -> starts_with z a -> ends_with z b -> a < b.
Proof.
  intros D Ha Hb. destruct D as (Hs & L & _ & i & j & f & Hi & _ & Hj & Hij).
  assert (L2 : (2 <= length z)%nat).
  { assert (i < length z)%nat by (rewrite L; apply nth_error_Some; congruence). assert (j < length z)%nat by (apply nth_error_Some; congruence). lia. }
  destruct (nth_error z 1) as [y|] eqn:Ey; [|apply nth_error_None in Ey; lia].
  pose proof (Hs 0%nat a y Ha Ey). pose proof (ends_max z b Hs Hb y (nth_error_In _ _ Ey)). lra.
Qed.

Lemma values_total (A : nat -> bool) q t lam :
  fold_right Rplus 0 (map (fun '(x, e) => x * (e - 1)) (combine lam (map (fun i : nat => if A i then 1 + (t - 1) * q else 1) (seq 0 (length lam))))) =
  sum_over A lam * q * (t - 1).
Proof.
  unfold sum_over. revert A. induction lam as [|x lam IH]; intro A; cbn [length seq map combine fold_right nth]; [ring|].
  rewrite <- seq_shift, !map_map. rewrite (IH (fun i => A (S i))). destruct (A 0%nat); ring.
Qed.

(** *** Shells that tile a range *)
Fixpoint between_of (p q : nat) (vs : list R) {struct vs} : R :=
  match vs with
  | [] => 0
  | v :: vs => match p, q with _, O => 0 | O, S q => v + between_of 0 q vs | S p, S q => between_of p q vs end
  end.
Lemma between_zero p vs : between_of p 0 vs = 0.
Proof. destruct vs, p; reflexivity. Qed.
Lemma between_selected vs : forall k p q,
  fold_right Rplus 0 (map (fun iv => if (k + p <=? fst iv)%nat && (fst iv <? k + q)%nat then snd iv else 0) (combine (seq k (length vs)) vs)) = between_of p q vs.
Proof.
  induction vs as [|v vs IH]; intros k p q; cbn [length seq combine map fold_right between_of fst snd]; [reflexivity|].
  destruct q as [|q].
  - transitivity (0 + between_of p 0 vs); [|rewrite between_zero; destruct p; ring]. rewrite <- (IH (S k) p 0%nat).
    replace ((k + p <=? k)%nat && (k <? k + 0)%nat) with false by (symmetry; apply andb_false_iff; right; apply Nat.ltb_ge; lia). do 2 f_equal.
    apply map_ext_in. intros [i w] I. apply in_combine_l, in_seq in I. cbn [fst snd].
    replace (i <? k + 0)%nat with false by (symmetry; apply Nat.ltb_ge; lia). replace (i <? S k + 0)%nat with false by (symmetry; apply Nat.ltb_ge; lia).
    rewrite !andb_false_r. reflexivity.
  - destruct p as [|p].
    + replace ((k + 0 <=? k)%nat && (k <? k + S q)%nat) with true by (symmetry; apply andb_true_iff; split; [apply Nat.leb_le|apply Nat.ltb_lt]; lia). f_equal.
      rewrite <- (IH (S k) 0%nat q). f_equal. apply map_ext_in. intros [i w] I. apply in_combine_l, in_seq in I. cbn [fst snd].
      replace (k + 0 <=? i)%nat with true by (symmetry; apply Nat.leb_le; lia). replace (S k + 0 <=? i)%nat with true by (symmetry; apply Nat.leb_le; lia).
      replace (k + S q)%nat with (S k + q)%nat by lia. reflexivity.
    + replace (k + S p <=? k)%nat with false by (symmetry; apply Nat.leb_gt; lia). cbn [andb]. rewrite Rplus_0_l, <- (IH (S k) p q).
      replace (k + S q)%nat with (S k + q)%nat by lia. replace (k + S p)%nat with (S k + p)%nat by lia. reflexivity.
Qed.
Lemma between_integral F edges : forall vs, Forall2 (fun p v => integral F (fst p) (snd p) v) (combine edges (tl edges)) vs ->
  forall p q lo hi, (p <= q)%nat -> nth_error edges p = Some lo -> nth_error edges q = Some hi -> integral F lo hi (between_of p q vs).
Proof.
  induction edges as [|e edges IH]; intros vs H p q lo hi Hpq Hp Hq; [destruct p; discriminate|].
  destruct q as [|q].
  - assert (p = 0)%nat by lia. subst p. rewrite between_zero. rewrite Hp in Hq. injection Hq as ->.
    exact (is_RInt_point (V := R_NormedModule) F hi).
  - destruct edges as [|e' edges]; [destruct q; discriminate|]. cbn [tl combine] in H. inversion H as [|? v ? vs' H1 H2]; subst. cbn [fst snd] in H1.
    destruct p as [|p]; cbn [between_of].
    + injection Hp as <-. exact (is_RInt_Chasles (V := R_NormedModule) _ _ _ _ _ _ H1 (IH vs' H2 0%nat q e' hi ltac:(lia) eq_refl Hq)).
    + apply (IH vs' H2 p q lo hi); [lia|exact Hp|exact Hq].
Qed.
Lemma tiles_nth edges shells : tiles edges shells -> length edges = S (length shells) /\ increasing edges /\
  forall i w, nth_error shells i = Some w -> exists e e', nth_error edges i = Some e /\ nth_error edges (S i) = Some e' /\ e < e' /\
    spans (za w) e e' /\ wa w = map (fun _ => 1) (za w).
Proof.
  induction 1 as [e|e e' es w ws He Hs Hw _ (I1 & I2 & I3)].
  - split; [reflexivity|]. split; [apply increasing_one|]. intros [|i] w H; discriminate.
  - split; [cbn in *; lia|]. split; [apply increasing_two; assumption|]. intros [|i] w' H.
    + injection H as <-. exists e, e'. repeat (split; [auto; fail|]). auto.
    + destruct (I3 i w' H) as (x & y & H1 & H2 & H3). exists x, y. auto.
Qed.
Lemma tophat_distribution w e e' : e < e' -> spans (za w) e e' -> wa w = map (fun _ => 1) (za w) -> distribution (za w) (wa w).
Proof.
  intros He (Hs & Ha & Hb) ->. split; [exact Hs|]. split; [rewrite map_length; reflexivity|]. split.
  - intros f H. apply in_map_iff in H as (? & <- & _). lra.
  - exists 0%nat, 1%nat, 1. rewrite nth_error_map'. unfold starts_with in Ha. rewrite Ha. split; [reflexivity|]. split; [lra|]. split; [|left; reflexivity].
    intro N. apply nth_error_None in N. unfold ends_with in Hb. destruct (za w) as [|x [|y l]]; cbn in *; try discriminate; [|lia]. congruence || (injection Ha as ->; injection Hb as ->; lra).
Qed.
Lemma tile_share F edges i p q e e' lo hi : increasing edges -> F e = 0 -> F e' = 1 -> (p <= q)%nat ->
  nth_error edges i = Some e -> nth_error edges (S i) = Some e' -> nth_error edges p = Some lo -> nth_error edges q = Some hi ->
  share F e e' (lo, hi) = if (p <=? i)%nat && (i <? q)%nat then 1 else 0.
Proof.
  intros Hs F0 F1 Hpq Hi Hi' Hp Hq.
  assert (LE : forall j k x y, (j <= k)%nat -> nth_error edges j = Some x -> nth_error edges k = Some y -> x <= y).
  { intros j k x y H. apply (nondecreasing_le edges (increasing_nondecreasing _ Hs)). exact H. }
  pose proof (Hs i e e' Hi Hi') as He. pose proof (LE p q lo hi Hpq Hp Hq) as Hlh. unfold share. cbn [fst snd].
  destruct (Nat.leb_spec p i) as [A|A]; cbn [andb].
  - pose proof (LE p i lo e A Hp Hi) as B. rewrite (Rmax_left e lo) by lra. destruct (Nat.ltb_spec i q) as [C|C].
    + pose proof (LE (S i) q e' hi ltac:(lia) Hi' Hq) as E. rewrite Rmin_left by lra. destruct (Rle_dec e e'); lra.
    + pose proof (LE q i hi e C Hq Hi) as E. rewrite Rmin_right by lra. destruct (Rle_dec e hi) as [L|L]; [|reflexivity]. replace hi with e by lra. lra.
  - pose proof (LE (S i) p e' lo ltac:(lia) Hi' Hp) as B. rewrite (Rmax_right e lo), Rmin_left by lra.
    destruct (Rle_dec lo e') as [L|L]; [|reflexivity]. replace lo with e' by lra. lra.
Qed.
Lemma forall2_both {X Y Z} (f : X -> Y) (g : X -> Z) (Q : Y -> Z -> Prop) l : (forall x, In x l -> Q (f x) (g x)) -> Forall2 Q (map f l) (map g l).
Proof. induction l as [|x l IH]; intro H; cbn [map]; constructor; [apply H; left; reflexivity|]. apply IH. intros; apply H; right; assumption. Qed.
Lemma numbered {X} (l : list X) : forall k, map snd (combine (seq k (length l)) l) = l /\
  forall i x, In (i, x) (combine (seq k (length l)) l) -> exists j, i = (k + j)%nat /\ nth_error l j = Some x.
Proof.
  induction l as [|y l IH]; intro k; cbn [length seq combine map]; [split; [reflexivity|intros ? ? []]|].
  destruct (IH (S k)) as [I1 I2]. split; [cbn; rewrite I1; reflexivity|]. intros i x [E|H].
  - injection E as <- <-. exists 0%nat. split; [lia|reflexivity].
  - destruct (I2 i x H) as (j & -> & Hj). exists (S j). split; [lia|exact Hj].
Qed.
Lemma combine_nth_error {X Y} (a : list X) : forall (b : list Y) i p, nth_error (combine a b) i = Some p -> nth_error a i = Some (fst p) /\ nth_error b i = Some (snd p).
Proof.
  induction a as [|x a IH]; intros [|y b] [|i] p H; try discriminate; cbn in *; [injection H as <-; auto|apply IH; exact H].
Qed.
Lemma sum_everywhere c delta : sum_of delta = 0 -> sum_over (fun _ => true) (map (fun d => c * (1 + d)) delta) = c * INR (length delta).
Proof.
  intro Z. unfold sum_over. rewrite seq_nth. replace (c * INR (length delta)) with (c * (INR (length delta) + sum_of delta)) by (rewrite Z; ring). clear Z.
  induction delta as [|d delta IH]; cbn [map fold_right length sum_of]; [cbn; unfold sum_of; cbn; ring|]. rewrite IH. unfold sum_of. cbn [fold_right]. rewrite S_INR. ring.
Qed.

Section Numbers.
  Context {U P : Type}.
  Variable mk : nat -> list (R * nat) * list R.
  Variable random : list (R * nat) * list R -> nat -> list U * (list (R * nat) * list R).
  Variable ring2ang : nat -> nat -> U -> P.
  Variable npix2nside : nat -> result nat.
  Variable pixel : P -> nat.
  Variables nside m fuel batch : nat.
  Hypothesis Hr : forall s n, length (fst (random s n)) = n.
  Hypothesis Hx : forall i u, pixel (ring2ang nside i u) = i.
  Hypothesis Hn : npix2nside m = Ok nside.
  Hypothesis Hf : (2 * m < fuel)%nat.
  Hypothesis Hm : (0 < m)%nat.
  Let catalogue := catalogue mk counts_first random units_second ring2ang npix2nside fuel batch.

  (** The number of galaxies in some of the pixels and in a range of redshifts is a Poisson number, with the mean that is
      expected from the means in the pixels and from the shares of the window functions in this range: it has the same
      generating function. *)
  Theorem catalogue_number bias vis A c t layers data : (forall v, vis = Some v -> length v = m) ->
    Forall2 (fun l '(lam, q) => expected_in m (density l) (contrast l) bias vis lam /\
      exists F a b, distribution (za (radial l)) (wa (radial l)) /\ cumulative_distribution F (za (radial l)) (wa (radial l)) /\
        starts_with (za (radial l)) a /\ ends_with (za (radial l)) b /\ q = share F a b c) layers data ->
    galaxies_mean (concat (map fst data))
      (fun s => match catalogue bias vis layers s with Ok (cat, _) => t ^ galaxies_in pixel A c cat | Err _ => 0 end)
      (exp (fold_right Rplus 0 (map (fun '(lam, q) => sum_over A lam * q) data) * (t - 1))).
  Proof.
    intros Hv H. set (h := fun i z => if A i then 1 + (t - 1) * hit c z else 1).
    set (slices := map (fun p : layer * (list R * R) => {| slice_layer := fst p; slice_means := fst (snd p); slice_mark := h;
      slice_values := map (fun i : nat => if A i then 1 + (t - 1) * snd (snd p) else 1) (seq 0 m) |}) (combine layers data)).
    assert (S1 : map slice_layer slices = layers /\ map slice_means slices = map fst data /\ map slice_mark slices = repeat h (length layers) /\
      Forall (described m bias vis) slices /\
      fold_right Rplus 0 (map (fun s => fold_right Rplus 0 (map (fun '(lam, e) => lam * (e - 1)) (combine (slice_means s) (slice_values s)))) slices) =
      fold_right Rplus 0 (map (fun '(lam, q) => sum_over A lam * q) data) * (t - 1)).
    { unfold slices. clear slices. induction H as [|l [lam q] layers data (He & F & a & b & D & CF & Ha & Hb & Eq) _ IH]; cbn [combine map length repeat fold_right].
      - repeat split; [constructor|ring].
      - destruct IH as (I1 & I2 & I3 & I4 & I5). rewrite I1, I2, I3, I5. cbn [slice_layer slice_means slice_mark slice_values fst snd].
        split; [reflexivity|]. split; [reflexivity|]. split; [reflexivity|]. split.
        + constructor; [|exact I4]. split; [exact He|]. split; [exact D|]. split; [cbn; rewrite map_length, seq_length; reflexivity|].
          exists F, a, b. split; [exact CF|]. split; [exact Ha|]. split; [exact Hb|]. cbn [slice_layer slice_means slice_mark slice_values fst snd].
          intros i e E. rewrite nth_error_map' in E. destruct (nth_error (seq 0 m) i) as [j|] eqn:Ej; [|discriminate]. cbn in E. injection E as <-.
          assert (j = i).
          { assert (i < length (seq 0 m))%nat by (apply nth_error_Some; congruence). rewrite seq_length in *.
            apply nth_error_nth with (d := 0%nat) in Ej. rewrite List.seq_nth in Ej by assumption. lia. }
          subst j.
          pose proof (cdf_ends _ _ F a b D CF Ha Hb) as [F0 F1]. pose proof (distribution_range _ _ _ _ D Ha Hb) as Hab.
          destruct (mark_stepped F a b c t Hab F0 F1) as [M1 M2]. unfold h. destruct (A i); [rewrite Eq; exact M1|exact M2].
        + rewrite Rmult_plus_distr_r. f_equal. destruct He as (_ & Ll & _). rewrite <- Ll. apply values_total. }
    destruct S1 as (S1 & S2 & S3 & S4 & S5).
    pose proof (catalogue_process mk random ring2ang npix2nside pixel nside m fuel batch Hr Hx Hn Hf Hm bias vis Hv slices S4) as K.
    rewrite S1, S2, S3, S5 in K. eapply galaxies_ext; [exact K|]. intro s. cbn beta. fold catalogue.
    destruct (catalogue bias vis layers s) as [[cat s']|] eqn:E; [|reflexivity].
    rewrite <- (catalogue_length _ _ _ _ _ _ _ _ _ _ _ _ _ _ E). apply constant_marks.
  Qed.

  (** A catalogue reproduces the distribution of galaxies: shells tile a range of redshifts, the number of galaxies in each
      is what [partition] with the method "restrict" gives for a density per redshift, and the matter has contrasts that
      vanish on average.  Then the number of galaxies between two edges of shells, on the sphere, is a Poisson number with the
      integral of the density as its mean, times the area of the sphere, whatever the contrasts are. *)
  Theorem catalogue_conserves z f z0 zn f0 fn edges shells e0 en deltas p q lo hi t :
    increasing z -> length z = length f -> starts_with z z0 -> ends_with z zn -> starts_with f f0 -> ends_with f fn -> (forall y, In y f -> 0 <= y) ->
    tiles edges shells -> starts_with edges e0 -> ends_with edges en -> z0 <= e0 \/ f0 = 0 -> en <= zn \/ fn = 0 ->
    length deltas = length shells -> Forall (fun d => length d = m /\ Forall (fun x => -1 <= x) d /\ sum_of d = 0) deltas ->
    (p <= q)%nat -> nth_error edges p = Some lo -> nth_error edges q = Some hi ->
    exists F vs v, (forall x, interp x z f (Some 0) (Some 0) = Ok (F x)) /\ partition_restrict z f shells = Ok vs /\ integral F lo hi v /\
      galaxies_mean (concat (map (fun '(n, d) => map (fun x => n * (sphere_area / INR m) * (1 + x)) d) (combine vs deltas)))
        (fun s => match catalogue None None (map (fun '(n, (d, w)) => {| density := n; contrast := d; radial := w |}) (combine vs (combine deltas shells))) s with
           Ok (cat, _) => t ^ galaxies_in pixel (fun _ => true) (lo, hi) cat | Err _ => 0 end)
        (exp (sphere_area * v * (t - 1))).
  Proof.
    intros Hs Hl Hz0 Hzn Hf0 Hfn Hpos Ht Hst Hen HA HB Ld Fd Hpq Hp Hq.
    destruct (partition_restrict_conserves z f z0 zn f0 fn edges shells e0 en) as (F & vs & HF & Hvs & Hf2 & _ & Hnn); auto. specialize (Hnn Hpos).
    exists F, vs, (between_of p q vs). split; [exact HF|]. split; [exact Hvs|]. split; [apply (between_integral F edges vs Hf2 p q); assumption|].
    destruct (tiles_nth edges shells Ht) as (Le & Hinc & Hsh).
    assert (Lv : length vs = length shells).
    { apply forall2_length in Hf2. rewrite combine_length in Hf2. destruct edges; [discriminate|]. cbn [length tl] in *. lia. }
    set (all := combine vs (combine deltas shells)). set (l := combine (seq 0 (length all)) all).
    destruct (numbered all 0) as [N1 N2]. fold l in N1, N2.
    set (c := fun n : R => n * (sphere_area / INR m)).
    pose proof (catalogue_number None None (fun _ => true) (lo, hi) t (map (fun x => let '(n, (d, w)) := snd x in {| density := n; contrast := d; radial := w |}) l)
      (map (fun x => let '(n, (d, w)) := snd x in (map (fun y => c n * (1 + y)) d, if (p <=? fst x)%nat && (fst x <? q)%nat then 1 else 0)) l)) as K.
    specialize (K ltac:(discriminate)).
    match type of K with ?Q -> _ => assert (K1 : Q); [|specialize (K K1)] end.
    { apply forall2_both. intros (i & n & d & w) Hin. cbn [snd fst]. destruct (N2 _ _ Hin) as (j & -> & Hj). cbn [Nat.add] in *.
      unfold all in Hj. apply combine_nth_error in Hj as [Hn1 Hj]. apply combine_nth_error in Hj as [Hd Hw]. cbn [fst snd] in *.
      pose proof (Hnn n (nth_error_In _ _ Hn1)) as Pn. pose proof (proj1 (Forall_forall _ _) Fd d (nth_error_In _ _ Hd)) as (D1 & D2 & _).
      split.
      - split; [exact D1|]. split; [rewrite map_length; exact D1|]. cbn [density contrast]. intros k x Hk v ->. rewrite nth_error_map', Hk. cbn. f_equal.
        unfold expected_points. pose proof (proj1 (Forall_forall _ _) D2 x (nth_error_In _ _ Hk)) as Px. cbn beta in Px.
        rewrite Rmax_right; [unfold c; ring|]. apply Rmult_le_pos; [|lra]. apply Rmult_le_pos; [|lra]. apply Rmult_le_pos; [exact Pn|].
        apply Rle_mult_inv_pos; [unfold sphere_area; pose proof PI_RGT_0; apply Rmult_le_pos; [lra|apply pow2_ge_0]|apply lt_0_INR; exact Hm].
      - cbn [radial]. destruct (Hsh j w Hw) as (e & e' & E1 & E2 & E3 & E4 & E5).
        pose proof (tophat_distribution w e e' E3 E4 E5) as D. destruct (inverse_cdf _ _ D) as (_ & _ & _ & _ & G & CG & _).
        destruct E4 as (_ & Ha & Hb). pose proof (cdf_ends _ _ G e e' D CG Ha Hb) as [G0 G1].
        exists G, e, e'. repeat (split; [assumption|]). symmetry. apply (tile_share G edges j p q e e' lo hi); assumption. }
    assert (X1 : map (fun x : nat * (R * (list R * window)) => let '(n, (d, w)) := snd x in {| density := n; contrast := d; radial := w |}) l =
      map (fun '(n, (d, w)) => {| density := n; contrast := d; radial := w |}) all).
    { rewrite <- N1. rewrite map_map. reflexivity. }
    assert (X2 : map fst (map (fun x : nat * (R * (list R * window)) => let '(n, (d, w)) := snd x in (map (fun y => c n * (1 + y)) d, if (p <=? fst x)%nat && (fst x <? q)%nat then 1 else 0)) l) =
      map (fun '(n, d) => map (fun x => n * (sphere_area / INR m) * (1 + x)) d) (combine vs deltas)).
    { rewrite map_map. transitivity (map (fun y : R * (list R * window) => map (fun x => c (fst y) * (1 + x)) (fst (snd y))) all).
      - rewrite <- N1. rewrite map_map. apply map_ext. intros (i & n & d & w). reflexivity.
      - unfold all. clear - Lv Ld. revert deltas shells Lv Ld. induction vs as [|v vs IH]; intros [|d ds] [|w ws] L1 L2; try discriminate; cbn [combine map fst snd]; [reflexivity|].
        rewrite (IH ds ws) by (injection L1; injection L2; auto). reflexivity. }
    rewrite X1, X2 in K. fold all. eapply (eq_ind _ (fun x => galaxies_mean _ _ (exp (x * (t - 1)))) K).
    rewrite map_map. rewrite <- (between_selected vs 0 p q).
    transitivity (fold_right Rplus 0 (map (fun x : nat * (R * (list R * window)) => sphere_area * (if (p <=? fst x)%nat && (fst x <? q)%nat then fst (snd x) else 0)) l)).
    - f_equal. apply map_ext_in. intros (i & n & d & w) Hin. cbn [fst snd]. destruct (N2 _ _ Hin) as (j & -> & Hj).
      unfold all in Hj. apply combine_nth_error in Hj as [_ Hj]. apply combine_nth_error in Hj as [Hd _]. cbn [fst snd] in *.
      pose proof (proj1 (Forall_forall _ _) Fd d (nth_error_In _ _ Hd)) as (D1 & _ & D3). rewrite (sum_everywhere (c n) d D3), D1. unfold c.
      pose proof (lt_0_INR m Hm). destruct (_ && _); field; lra.
    - unfold l, all. cbn [Nat.add]. generalize 0%nat. clear - Lv Ld. revert deltas shells Lv Ld.
      induction vs as [|v vs IH]; intros [|d ds] [|w ws] L1 L2 k; try discriminate; cbn [combine length seq map fold_right fst snd]; [ring|].
      rewrite (IH ds ws) by (injection L1; injection L2; auto). ring.
  Qed.
End Numbers.
Print Assumptions catalogue_number.
Print Assumptions catalogue_conserves.

(** Two shells between redshifts zero and two, with one and three galaxies per area, and two pixels: in the first shell
    everything is in one of them.  The chance that there is no galaxy beyond redshift one. *)
Example catalogue_conserves_example :
  let W1 := Window [0; 1] [1; 1] 0 in let W2 := Window [1; 2] [1; 1] 0 in
  galaxies_mean [1 * (sphere_area / 2) * (1 + 1); 1 * (sphere_area / 2) * (1 + -1); 3 * (sphere_area / 2) * (1 + 0); 3 * (sphere_area / 2) * (1 + 0)]
    (fun s => match catalogue (fun _ => ([], [])) counts_first (fun s n => (repeat tt n, s)) units_second (fun _ i (_ : unit) => i) (fun _ => Ok 1%nat) 5 100 None None
        [{| density := 1; contrast := [1; -1]; radial := W1 |}; {| density := 3; contrast := [0; 0]; radial := W2 |}] s with
       Ok (cat, _) => if Nat.eq_dec (galaxies_in (fun i => i) (fun _ => true) (1, 2) cat) 0 then 1 else 0 | Err _ => 0 end)
    (exp (-3 * sphere_area)).
Proof.
  intros W1 W2.
  assert (T : tiles [0; 1; 2] [W1; W2]).
  { constructor; [lra| | reflexivity|].
    - repeat split. apply increasing_two; [lra|apply increasing_one].
    - constructor; [lra| |reflexivity|constructor].
      repeat split. apply increasing_two; [lra|apply increasing_one]. }
  assert (I : increasing [0; 2]) by (apply increasing_two; [lra|apply increasing_one]).
  destruct (catalogue_conserves (fun _ => ([], [])) (fun s n => (repeat tt n, s)) (fun _ i (_ : unit) => i) (fun _ => Ok 1%nat) (fun i => i) 1 2 5 100
    ltac:(intros; apply repeat_length) ltac:(reflexivity) eq_refl ltac:(lia) ltac:(lia)
    [0; 2] [0; 4] 0 2 0 4 [0; 1; 2] [W1; W2] 0 2 [[1; -1]; [0; 0]] 1 2 1 2 0) as (F & vs & v & HF & Hvs & Hv & K); try reflexivity; try assumption.
  - cbn. intros y [<-|[<-|[]]]; lra.
  - left. lra.
  - left. lra.
  - unfold sum_of. repeat constructor; cbn; lra.
  - lia.
  - unfold W1, W2 in Hvs; rewrite partition_restrict_example in Hvs. injection Hvs as <-.
    assert (G : forall x, 0 <= x <= 2 -> F x = 2 * x).
    { intros x Hx. specialize (HF x). rewrite interp_ok in HF by (reflexivity || discriminate). injection HF as <-.
      pose proof (value_interpolates [0; 2] [0; 4] (Some 0) (Some 0) I eq_refl 0%nat 0 2 0 4 x eq_refl eq_refl eq_refl eq_refl Hx). lra. }
    assert (J : is_RInt F 1 2 3).
    { replace 3 with ((F 2 + F 1) * (1 / 2) * (2 - 1)) by (rewrite !G by lra; field).
      apply integral_affine; [lra|]. intros x Hx. rewrite !G by lra. ring. }
    rewrite (integral_unique F 1 2 v 3 Hv J) in K. cbn [combine map concat app] in K. change (INR 2) with 2 in K.
    replace (sphere_area * 3 * (0 - 1)) with (-3 * sphere_area) in K by ring.
    eapply galaxies_ext; [exact K|]. intro s. cbn beta. destruct (catalogue _ _ _ _ _ _ _ _ _ _ _ _) as [[cat s']|]; [|reflexivity].
    destruct (Nat.eq_dec _ 0) as [E|E]; [rewrite E; reflexivity|apply pow_i; lia].
Qed.

(** One shell with a triangular window and two galaxies on average, each of which is found with probability one half if it
    is in the lower half: the chance that all are found. *)
Example catalogue_process_example :
  galaxies_mean [2]
    (fun s => match catalogue (fun _ => ([], [])) counts_first (fun s n => (repeat tt n, s)) units_second (fun _ i (_ : unit) => i) (fun _ => Ok 1%nat) 5 100 (Some 3) None
        [{| density := 2 / sphere_area; contrast := [0]; radial := Window [0; 1; 2] [0; 3; 0] 1 |}] s with
       Ok (cat, _) => galaxy_marks (fun i => i) [fun _ z => if Rlt_dec z 1 then 1 / 2 else 1] cat | Err _ => 0 end)
    (exp (- (1 / 2))).
Proof.
  assert (D : distribution [0; 1; 2] [0; 3; 0]).
  { split; [|split; [reflexivity|split]].
    - intros [|[|[|[|i]]]] x y Hx Hy; try discriminate; injection Hx as <-; injection Hy as <-; lra.
    - cbn. intros f [<-|[<-|[<-|[]]]]; lra.
    - exists 1%nat, 2%nat, 3. repeat split; try lra; try discriminate; try (left; reflexivity). }
  destruct (inverse_cdf _ _ D) as (_ & _ & _ & _ & F & CF & _).
  pose proof (cdf_node [0; 1; 2] [0; 3; 0] F D CF) as N. cbn in N.
  pose proof (N 0%nat 0 _ eq_refl eq_refl) as N0. pose proof (N 1%nat 1 _ eq_refl eq_refl) as N1. pose proof (N 2%nat 2 _ eq_refl eq_refl) as N2.
  assert (PS : 0 < sphere_area) by (unfold sphere_area; pose proof PI_RGT_0; apply Rmult_lt_0_compat; [lra|apply pow_lt; apply Rdiv_lt_0_compat; lra]).
  pose proof (catalogue_process (fun _ => ([], [])) (fun s n => (repeat tt n, s)) (fun _ i (_ : unit) => i) (fun _ => Ok 1%nat) (fun i => i) 1 1 5 100
    ltac:(intros; apply repeat_length) ltac:(reflexivity) eq_refl ltac:(lia) ltac:(lia) (Some 3) None ltac:(discriminate)
    [{| slice_layer := {| density := 2 / sphere_area; contrast := [0]; radial := Window [0; 1; 2] [0; 3; 0] 1 |};
        slice_means := [2]; slice_mark := fun _ z => if Rlt_dec z 1 then 1 / 2 else 1; slice_values := [3 / 4] |}]) as K.
  match type of K with ?Q -> _ => assert (H : Q); [|specialize (K H)] end.
  { constructor; [|constructor]. split; [|split; [exact D|split; [reflexivity|]]].
    - split; [reflexivity|]. split; [reflexivity|]. intros [|[|i]] d Hd v ->; try discriminate. injection Hd as <-. cbn. f_equal.
      unfold expected_points. replace (2 / sphere_area * (sphere_area / INR 1) * (1 + 3 * 0) * 1) with 2 by (cbn; field; lra). rewrite Rmax_right; lra.
    - exists F, 0, 2. split; [exact CF|]. split; [reflexivity|]. split; [reflexivity|]. intros [|[|i]] e He; try discriminate. injection He as <-. cbn.
      exists [((0, 1), 1 / 2); ((1, 2), 1)]. split; [repeat constructor; cbn; lra|]. split.
      + intros x Hx. unfold hit. cbn. destruct (Rlt_dec x 1), (Rle_dec 0 x), (Rle_dec 1 x), (Rlt_dec x 2); lra.
      + cbn. lra. }
  cbn [map slice_layer slice_means slice_mark slice_values concat app combine fold_right] in K.
  replace (2 * (3 / 4 - 1) + 0 + 0) with (- (1 / 2)) in K by field. exact K.
Qed.
