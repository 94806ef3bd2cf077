(** Claims about the expected maps of galaxy shears from all shells (C96). *)
From Coq Require Import Reals Lra Lia List Arith.
From Coquelicot Require Import Coquelicot.
From Verif Require Import Base Model_Numeric Model_Arrays Model_Effective Model_Galaxies Model_Shapes Model_Points Model_ShearMap Model_ShearLoop.
From Verif Require Import Spec_Gauss Spec_Uniform Spec_Disc Spec_Shapes Spec_Points Spec_Poisson Spec_Unbiased Spec_Campbell Spec_ShearMap Spec_ShearLoop Spec_ShearShells.
From Verif Require Import Proof_Normals Proof_Reject Proof_Uniform Proof_Poisson Proof_Points Proof_Intnorm Proof_ShearMap.
From Verif Require Import Prop_Disc Prop_Poisson Prop_Campbell Prop_ShearMap Prop_ShearDrawn Prop_ShearLoop.
Import ListNotations.
Local Open Scope R_scope.

(** * Expected values *)

Lemma catalogue_lin lam f g a b x y : catalogue_mean lam f a -> catalogue_mean lam g b -> catalogue_mean lam (fun s l => x * f s l + y * g s l) (x * a + y * b).
Proof.
  intros (F & HF & CF) (G & HG & CG). exists (fun s => x * F s + y * G s). split.
  - intros n us L. apply means_lin; [apply HF, L|apply HG, L].
  - apply points_lin; assumption.
Qed.
Lemma catalogue_const lam c : catalogue_mean lam (fun _ _ => c) c.
Proof.
  exists (fun _ => c). split; [intros; apply means_const|]. exists (fun _ => c). split; [intros; apply umeans_const|apply counts_const].
Qed.
Lemma catalogue_eq lam f g a b : catalogue_mean lam f a -> (forall s l, f s l = g s l) -> a = b -> catalogue_mean lam g b.
Proof. intros (F & HF & CF) E <-. exists F. split; [|exact CF]. intros n us L. eapply means_eq; [apply HF, L|intro; apply E|reflexivity]. Qed.

(** Numbers of the right shape. *)
Fixpoint fits (lams : list R) (st : list shell_numbers) : Prop :=
  match lams, st with
  | [], [] => True
  | lam :: lams, c :: st => (exists n us l, c = (([(lam, n)], us), l) /\ length us = (2 * n)%nat /\ length l = (2 * n)%nat) /\ fits lams st
  | _, _ => False
  end.
Lemma shells_ext lams : forall f g m m', shells_mean lams f m -> (forall st, fits lams st -> f st = g st) -> m = m' -> shells_mean lams g m'.
Proof.
  induction lams as [|lam lams IH]; cbn [shells_mean]; intros f g m m' H E <-.
  - rewrite <- E; [exact H|exact I].
  - destruct H as (G & H & C). exists G. split; [|exact C]. intros n us l Lu Ll. eapply IH; [apply (H n us l Lu Ll)| |reflexivity].
    intros st F. apply E. cbn [fits]. split; [|exact F]. exists n, us, l. auto.
Qed.

Lemma shells_lin lams : forall f g a b x y, shells_mean lams f a -> shells_mean lams g b -> shells_mean lams (fun st => x * f st + y * g st) (x * a + y * b).
Proof.
  induction lams as [|lam lams IH]; cbn [shells_mean]; intros f g a b x y.
  - intros <- <-. reflexivity.
  - intros (F & HF & CF) (G & HG & CG). exists (fun s l => x * F s l + y * G s l). split; [|apply catalogue_lin; assumption].
    intros n us l Lu Ll. apply IH; [apply HF|apply HG]; assumption.
Qed.

(** Sums of one function for each shell. *)
Definition shell_fun := (list (R * nat) * list R -> list R -> R)%type.
Fixpoint sum_shells (fs : list shell_fun) (st : list shell_numbers) : R :=
  match fs, st with f :: fs, c :: st => f (fst c) (snd c) + sum_shells fs st | _, _ => 0 end.
Inductive shells_moments : list R -> list shell_fun -> list shell_fun -> list R -> list R -> list R -> Prop :=
| moments_nil : shells_moments [] [] [] [] [] []
| moments_cons lam f h a b v lams fs hs al bl vl : catalogue_mean lam f a -> catalogue_mean lam h b -> catalogue_mean lam (fun s l => f s l * h s l) (a * b + v) ->
    shells_moments lams fs hs al bl vl -> shells_moments (lam :: lams) (f :: fs) (h :: hs) (a :: al) (b :: bl) (v :: vl).
Lemma shells_first lams fs hs al bl vl : shells_moments lams fs hs al bl vl -> forall x, shells_mean lams (fun st => x + sum_shells fs st) (x + rtotal al).
Proof.
  induction 1 as [|lam f h a b v lams fs hs al bl vl Hf Hh Hfh H IH]; intro x; cbn [shells_mean].
  - reflexivity.
  - exists (fun s l => (x + f s l) + rtotal al). split.
    + intros n us l _ _. eapply shells_ext; [apply (IH (x + f ([(lam, n)], us) l))| |reflexivity]. intros st _. cbn [sum_shells fst snd]. ring.
    + eapply catalogue_eq; [apply (catalogue_lin lam _ _ _ _ 1 1 Hf (catalogue_const lam (x + rtotal al)))|intros; cbn beta; ring|]. unfold rtotal. cbn [fold_right]. ring.
Qed.
Lemma shells_second lams fs hs al bl vl : shells_moments lams fs hs al bl vl -> forall x y,
  shells_mean lams (fun st => (x + sum_shells fs st) * (y + sum_shells hs st)) ((x + rtotal al) * (y + rtotal bl) + rtotal vl).
Proof.
  induction 1 as [|lam f h a b v lams fs hs al bl vl Hf Hh Hfh H IH]; intros x y; cbn [shells_mean].
  - unfold rtotal. cbn [sum_shells fold_right]. ring.
  - exists (fun s l => ((x + f s l) + rtotal al) * ((y + h s l) + rtotal bl) + rtotal vl). split.
    + intros n us l _ _. eapply shells_ext; [apply (IH (x + f ([(lam, n)], us) l) (y + h ([(lam, n)], us) l))| |reflexivity]. intros st _. cbn [sum_shells fst snd]. ring.
    + set (A := x + rtotal al). set (B := y + rtotal bl).
      pose proof (catalogue_lin lam _ _ _ _ B A Hf Hh) as L1. pose proof (catalogue_lin lam _ _ _ _ 1 1 Hfh (catalogue_const lam (A * B + rtotal vl))) as L2.
      eapply catalogue_eq; [apply (catalogue_lin lam _ _ _ _ 1 1 L1 L2)|intros; unfold A, B; cbn beta; ring|]. unfold A, B, rtotal. cbn [fold_right]. ring.
Qed.

(** * The generator of shells *)

Lemma loop_shell dims ks : forall counts p l rest,
  uniform_loop shell_uniform dims ks counts ((p, l), rest) = let '(b, p') := uniform_loop ranges_second dims ks counts p in (b, ((p', l), rest)).
Proof.
  induction ks as [|k ks IH]; intros [|n counts] p l rest; try reflexivity. cbn [uniform_loop]. unfold shell_uniform at 1. cbn [fst snd].
  destruct (ranges_second p (-180) 180 n) as [lon p1]. unfold shell_uniform at 1. cbn [fst snd]. destruct (ranges_second p1 (-1) 1 n) as [x p2].
  rewrite IH. destruct (uniform_loop ranges_second dims ks counts p2) as [b p']. reflexivity.
Qed.
Lemma positions_shell a p l rest :
  uniform_positions shell_poisson shell_uniform a ((p, l), rest) = let '(b, p') := uniform_positions counts_first ranges_second a p in (b, ((p', l), rest)).
Proof.
  unfold uniform_positions. unfold shell_poisson. cbn [fst snd]. destruct (counts_first p _) as [n p1]. apply loop_shell.
Qed.
Lemma intnorm_shell count sigma p l rest e l' : ellipticity_intnorm numbers count sigma l = Ok (e, l') ->
  ellipticity_intnorm shell_normal count sigma ((p, l), rest) = Ok (e, ((p, l'), rest)).
Proof.
  unfold ellipticity_intnorm. destruct (populations count sigma) as [pops|]; [|discriminate]. cbn [bind]. destruct (forallb _ pops); [|discriminate].
  intro E. injection E as E. f_equal. revert e l l' E. induction pops as [|[n s] pops IH]; intros e l l' E; cbn [intnorm_populations] in *.
  - injection E as <- <-. reflexivity.
  - unfold random_complex in *. unfold shell_normal at 1. cbn [fst snd]. destruct (numbers l n) as [re l1]. unfold shell_normal at 1. cbn [fst snd]. destruct (numbers l1 n) as [im l2].
    destruct (intnorm_populations numbers pops l2) as [r l3] eqn:E3. injection E as <- <-. rewrite (IH _ _ _ E3). reflexivity.
Qed.

Lemma batch_scalar {T} (P : T -> list R -> list nat * T) U d s lon lat c s' : uniform_positions P U (one_population d) s = ([(lon, lat, c)], s') -> ashape c = [].
Proof.
  unfold uniform_positions, one_population. cbn [ashape aget]. change (Model_Effective.ndindex []) with [@nil nat]. destruct (P s _) as [[|n ns] s1]; [discriminate|]. cbn [uniform_loop].
  destruct (U s1 _ _ n) as [a s2], (U s2 _ _ n) as [b s3]. intro E. injection E as _ _ <- _. reflexivity.
Qed.
Lemma intnorm_count ct n sigma l : ashape ct = [] -> aget ct [] = n ->
  ellipticity_intnorm numbers ct (scalar sigma) l = ellipticity_intnorm numbers (scalar n) (scalar sigma) l.
Proof. intros Ea Ec. unfold ellipticity_intnorm, scalar. rewrite (single_population ct n sigma Ea Ec), (single_population {| ashape := []; aget := fun _ => n |} n sigma eq_refl eq_refl). reflexivity. Qed.

Lemma skipn_next {A} (l : list A) : forall i x r, skipn i l = x :: r -> skipn (S i) l = r.
Proof.
  induction l as [|a l IH]; intros [|i] x r H; try discriminate H.
  - injection H as _ <-. reflexivity.
  - apply (IH i x r). exact H.
Qed.

(** * The maps of all shells *)

Section Shells.
  Variables (argsort : list nat -> list nat) (ang2pix : nat -> R -> R -> nat) (npix2nside : nat -> result nat).
  Variables (chunk nside npix : nat) (sigma : R).
  Hypothesis Hso : sorts argsort.
  Hypothesis Hc : (0 < chunk)%nat.
  Hypothesis Hn : npix2nside npix = Ok nside.
  Hypothesis Hp : forall x y, (ang2pix nside x y < npix)%nat.
  Hypothesis Hs : 0 < sigma < sqrt (1 / 2).
  Variable maps : list (list R * list R * list R).

  (** The map of one shell alone. *)
  Definition one_map (ngal : R) (m : list R * list R * list R) (p : nat) (s : list (R * nat) * list R) (l : list R) : C :=
    let '(kappa, gamma1, gamma2) := m in
    match uniform_positions counts_first ranges_second (one_population ngal) s with
    | ([(lon, lat, _)], _) => shear_at p (observe numbers argsort ang2pix npix2nside chunk nside sigma lon lat
        kappa gamma1 gamma2 (repeat 0%nat (length kappa), repeat (RtoC 0) (length kappa)) l)
    | _ => RtoC 0 end.
  Fixpoint all_maps (ngal : list R) (ms : list (list R * list R * list R)) (p : nat) (st : list shell_numbers) : list C :=
    match ngal, ms, st with
    | d :: ngal, m :: ms, c :: st => one_map d m p (fst c) (snd c) :: all_maps ngal ms p st
    | _, _, _ => []
    end.

  Lemma shells_added ngal : forall i num she cur st ms, skipn i maps = ms -> length ms = length ngal ->
    Forall (fun m => length (fst (fst m)) = npix /\ length (snd (fst m)) = npix /\ length (snd m) = npix) ms ->
    length num = npix -> length she = npix -> fits (map (fun d => sphere_area * d) ngal) st ->
    exists num' she' s', observe_shells shell_poisson shell_uniform shell_normal argsort ang2pix npix2nside (shell_maps maps) chunk nside sigma i ngal (num, she) (cur, st) = Ok ((num', she'), s') /\
      forall p, (p < npix)%nat -> nth p she' (RtoC 0) = Cplus (nth p she (RtoC 0)) (csum (all_maps ngal ms p st)).
  Proof.
    induction ngal as [|d ngal IH]; intros i num she cur st ms Em Lm Fm Ln Ls F.
    - eexists _, _, _. split; [reflexivity|]. intros p _. cbn [all_maps]. symmetry. apply Cplus_0_r.
    - destruct ms as [|m ms]; [discriminate|]. cbn [map fits] in F. destruct st as [|c st]; [contradiction|]. destruct F as [(n & us & l & -> & Lu & Ll) F].
      inversion_clear Fm as [|? ? (L0 & L1 & L2) Fm']. destruct m as [[kappa gamma1] gamma2]. cbn [fst snd] in L0, L1, L2.
      cbn [observe_shells]. unfold shell_maps at 1. cbn [snd].
      assert (Ei : nth_error maps i = Some (kappa, gamma1, gamma2)) by (rewrite <- (Nat.add_0_r i), <- nth_error_skipn, Em; reflexivity).
      rewrite Ei. cbn [bind]. rewrite positions_shell. cbn [all_maps fst snd]. unfold one_map. fold (one_population d).
      destruct (drawn d n us ltac:(lia)) as (lon & lat & ct & p' & Ed & Ec & Llon & Llat & _). rewrite Ed.
      pose proof (batch_scalar _ _ d _ _ _ _ _ Ed) as Ea. cbn [observe_batches].
      change {| ashape := []; aget := fun _ : list nat => sigma |} with (@scalar R sigma).
      destruct (intnorm_shapes n sigma l Hs Ll) as (e & l' & Ee & Le).
      rewrite (intnorm_shell ct (scalar sigma) p' l st e l') by (rewrite (intnorm_count ct n sigma l Ea Ec); exact Ee). cbn [bind fst snd].
      set (out := map (fun xe => sheared (Cdiv (nth (fst xe) gamma1 0, nth (fst xe) gamma2 0) (RtoC (1 - nth (fst xe) kappa 0))) (snd xe))
        (combine (map (fun '(x, y) => ang2pix nside x y) (combine lon lat)) e)).
      assert (Eo : galaxy_shear ang2pix npix2nside chunk lon lat e kappa gamma1 gamma2 true = Ok out)
        by (apply shear_entries; congruence || (rewrite L0; assumption)).
      rewrite Eo. cbn [bind]. set (px := map (fun '(x, y) => ang2pix nside x y) (combine lon lat)) in *.
      assert (Lpx : length px = n) by (unfold px; rewrite map_length, combine_length; lia).
      assert (Lout : length out = n) by (unfold out; rewrite map_length, combine_length; lia).
      assert (Fp : Forall (fun p => (p < npix)%nat) px).
      { apply Forall_forall. intros q Hq. unfold px in Hq. apply in_map_iff in Hq as ([a b] & <- & _). apply Hp. }
      destruct (proj1 (add_shears_spec argsort px out num she Hso ltac:(lia) ltac:(lia)) ltac:(rewrite Ln; exact Fp)) as (num1 & she1 & EA & Ln1 & Ls1 & A).
      rewrite EA. cbn [bind fst snd].
      destruct (IH (S i) num1 she1 (p', l') st ms (skipn_next _ _ _ _ Em) ltac:(cbn in Lm; lia) Fm' ltac:(lia) ltac:(lia) F) as (num' & she' & s' & E & H).
      exists num', she', s'. split; [exact E|]. intros p Hpp. rewrite (H p Hpp). destruct (A p ltac:(lia)) as [_ ->]. rewrite <- Cplus_assoc. f_equal.
      change (csum (?a :: ?b)) with (Cplus a (csum b)). f_equal.
      unfold observe. change {| ashape := []; aget := fun _ : list nat => sigma |} with (@scalar R sigma).
      change {| ashape := []; aget := fun _ : list nat => length lon |} with (@scalar nat (length lon)). rewrite Llon, Ee. cbn [bind fst]. rewrite Eo. cbn [bind]. fold px.
      destruct (proj1 (add_shears_spec argsort px out (repeat 0%nat (length kappa)) (repeat (RtoC 0) (length kappa)) Hso ltac:(lia) ltac:(rewrite !repeat_length; reflexivity))
        ltac:(rewrite repeat_length, L0; exact Fp)) as (num0 & she0 & E0 & _ & _ & A0). rewrite E0. cbn [shear_at].
      destruct (A0 p ltac:(rewrite repeat_length; lia)) as [_ ->]. rewrite nth_repeat. symmetry. apply Cplus_0_l.
  Qed.
End Shells.

Lemma maps_total argsort ang2pix npix2nside chunk nside sigma c p shells : forall st,
  component c (csum (all_maps argsort ang2pix npix2nside chunk nside sigma (map fst shells) (map snd shells) p st)) =
  sum_shells (map (fun h s l => component c (one_map argsort ang2pix npix2nside chunk nside sigma (fst h) (snd h) p s l)) shells) st.
Proof.
  induction shells as [|h shells IH]; intros [|x st]; cbn [map all_maps sum_shells]; try (destruct c; reflexivity).
  change (csum (?a :: ?b)) with (Cplus a (csum b)). rewrite <- IH. destruct c; reflexivity.
Qed.

(** C96 *)

(** The map of shears after the loop over all shells, for given lensing maps of the shells, and independent random numbers for each
    shell.  The expected map is the sum over shells of the expected number of galaxies times the reduced shear.  Beyond the product of the
    means, there is only noise within a pixel, which is the sum over shells of the expected number times the second moment of one
    observed shape. *)
Theorem simulation_moments argsort ang2pix npix2nside chunk nside npix sigma (shells : list (R * (list R * list R * list R))) (fraction : nat -> R) :
  sorts argsort -> (0 < chunk)%nat -> npix2nside npix = Ok nside -> (forall x y, (ang2pix nside x y < npix)%nat) -> 0 < sigma < sqrt (1 / 2) ->
  (forall p, (p < npix)%nat -> (forall l, -180 < l < 180 -> patched (in_pixel (ang2pix nside) p l)) /\ sphere_mean (in_pixel (ang2pix nside) p) (fraction p)) ->
  Forall (fun h => length (fst (fst (snd h))) = npix /\ length (snd (fst (snd h))) = npix /\ length (snd (snd h)) = npix) shells ->
  let g (h : R * (list R * list R * list R)) p := let '(kappa, gamma1, gamma2) := snd h in Cdiv (nth p gamma1 0, nth p gamma2 0) (RtoC (1 - nth p kappa 0)) in
  (forall p, (p < npix)%nat -> Forall (fun h => Cmod (g h p) < 1) shells) ->
  let map_at p st := match simulate_shears shell_poisson shell_uniform shell_normal argsort ang2pix npix2nside (shell_maps (map snd shells)) chunk nside npix sigma
      (map fst shells) ((([], []), []) : shell_numbers, st) with Ok (m, _) => nth p (snd m) (RtoC 0) | Err _ => RtoC 0 end in
  let lams := map (fun h => sphere_area * fst h) shells in
  let number (h : R * (list R * list R * list R)) p := sphere_area * fst h * fraction p in
  let mean c p := rtotal (map (fun h => number h p * component c (g h p)) shells) in
  forall p c, (p < npix)%nat ->
    shells_mean lams (fun st => component c (map_at p st)) (mean c p) /\
    forall d, exists Vs,
      Forall2 (fun h V => means 2 (fun l => each_of [fun e => component c (sheared (g h p) e) * component d (sheared (g h p) e)]
        (ellipticity_intnorm numbers (scalar 1%nat) (scalar sigma) l)) V) shells Vs /\
      forall q, (q < npix)%nat ->
        shells_mean lams (fun st => component c (map_at p st) * component d (map_at q st))
          (mean c p * mean d q + if Nat.eqb p q then rtotal (map (fun hV => number (fst hV) p * snd hV) (combine shells Vs)) else 0).
Proof.
  intros Hso Hc Hn Hp Hs Hfr Hm g Hg map_at lams number mean p c Hpp.
  set (f := fun c p (h : R * (list R * list R * list R)) s l => component c (one_map argsort ang2pix npix2nside chunk nside sigma (fst h) (snd h) p s l)).
  assert (Val : forall c p st, (p < npix)%nat -> fits lams st -> component c (map_at p st) = sum_shells (map (f c p) shells) st).
  { clear p c Hpp. intros c p st Hpp F. unfold map_at, simulate_shears.
    destruct (shells_added argsort ang2pix npix2nside chunk nside npix sigma Hso Hc Hn Hp Hs (map snd shells) (map fst shells) 0 (repeat 0%nat npix) (repeat (RtoC 0) npix)
      (([], []), []) st (map snd shells) eq_refl) as (num & she & s' & -> & H).
    - rewrite !map_length. reflexivity.
    - rewrite Forall_map. exact Hm.
    - apply repeat_length.
    - apply repeat_length.
    - rewrite map_map. exact F.
    - cbn [snd]. rewrite (H p Hpp), nth_repeat. rewrite Cplus_0_l. apply maps_total. }
  assert (One : forall h, In h shells -> forall p c, (p < npix)%nat -> catalogue_mean (sphere_area * fst h) (f c p h) (number h p * component c (g h p)) /\
    forall d, exists V, means 2 (fun l => each_of [fun e => component c (sheared (g h p) e) * component d (sheared (g h p) e)]
        (ellipticity_intnorm numbers (scalar 1%nat) (scalar sigma) l)) V /\
      forall q, (q < npix)%nat -> catalogue_mean (sphere_area * fst h) (fun s l => f c p h s l * f d q h s l)
          (number h p * component c (g h p) * (number h q * component d (g h q)) + if Nat.eqb p q then number h p * V else 0)).
  { clear p c Hpp. intros h Hh p c Hpp. rewrite Forall_forall in Hm. specialize (Hm h Hh). assert (Gh : forall p, (p < npix)%nat -> Cmod (g h p) < 1).
    { intros q Hq. specialize (Hg q Hq). rewrite Forall_forall in Hg. apply Hg, Hh. }
    destruct h as [ng [[kappa gamma1] gamma2]]. cbn [fst snd] in Hm. destruct Hm as (L0 & L1 & L2). subst npix.
    exact (uniform_shear_map argsort ang2pix npix2nside chunk nside sigma kappa gamma1 gamma2 ng fraction Hso Hc L1 L2 Hn Hp Hs Hfr Gh p c Hpp). }
  assert (All : forall d, exists Vs, Forall2 (fun h V => means 2 (fun l => each_of [fun e => component c (sheared (g h p) e) * component d (sheared (g h p) e)]
        (ellipticity_intnorm numbers (scalar 1%nat) (scalar sigma) l)) V) shells Vs /\
      forall q, (q < npix)%nat -> shells_moments lams (map (f c p) shells) (map (f d q) shells) (map (fun h => number h p * component c (g h p)) shells)
        (map (fun h => number h q * component d (g h q)) shells) (map (fun hV => if Nat.eqb p q then number (fst hV) p * snd hV else 0) (combine shells Vs))).
  { intro d. unfold lams. clear Val map_at lams mean Hm Hg. induction shells as [|h sh IH].
    - exists []. split; [constructor|]. intros. constructor.
    - destruct IH as (Vs & F & M); [intros h' Hh'; apply One; right; exact Hh'|]. destruct (One h (or_introl eq_refl) p c Hpp) as [A B]. destruct (B d) as (V & HV & B').
      exists (V :: Vs). split; [constructor; assumption|]. intros q Hq. cbn [map combine fst snd]. constructor; [exact A|exact (proj1 (One h (or_introl eq_refl) q d Hq))|exact (B' q Hq)|exact (M q Hq)]. }
  split.
  - destruct (All c) as (Vs & _ & M). eapply shells_ext; [apply (shells_first _ _ _ _ _ _ (M p Hpp) 0)| |unfold mean; ring]. intros st F. cbn beta. rewrite (Val c p st Hpp F). ring.
  - intro d. destruct (All d) as (Vs & F2 & M). exists Vs. split; [exact F2|]. intros q Hq.
    eapply shells_ext; [apply (shells_second _ _ _ _ _ _ (M q Hq) 0 0)| |].
    + intros st F. cbn beta. rewrite (Val c p st Hpp F), (Val d q st Hq F). ring.
    + fold (mean c p) (mean d q). rewrite !Rplus_0_l. f_equal. destruct (Nat.eqb p q); [reflexivity|]. clear.
      unfold rtotal. induction (combine shells Vs) as [|x l IH]; [reflexivity|]. cbn [map fold_right]. rewrite IH. ring.
Qed.
Print Assumptions simulation_moments.

(** Hemispheres as pixels, and two shells with 8 and 2 galaxies on average: in the northern pixel, 4 with the reduced shear 2/5 and one
    with 1/10; in the southern pixel, 4 with 1/10 and one with 1/5. *)
Example simulation_moments_example :
  let shells := [(8 / sphere_area, ([0; 1 / 2], [1 / 10; 1 / 5], [0; 0])); (2 / sphere_area, ([0; 0], [1 / 5; 1 / 10], [0; 0]))] in
  let map_at p st := match simulate_shears shell_poisson shell_uniform shell_normal insertion hemispheres (fun _ => Ok 1%nat) (shell_maps (map snd shells)) 5 1 2 (1 / 4)
      (map fst shells) ((([], []), []) : shell_numbers, st) with Ok (m, _) => nth p (snd m) (RtoC 0) | Err _ => RtoC 0 end in
  let lams := [sphere_area * (8 / sphere_area); sphere_area * (2 / sphere_area)] in
  shells_mean lams (fun st => component true (map_at 1%nat st)) (17 / 10) /\
  shells_mean lams (fun st => component true (map_at 1%nat st) * component true (map_at 0%nat st)) (17 / 10 * (3 / 5)).
Proof.
  intros shells map_at lams. assert (Hs : 1 / 4 < sqrt (1 / 2)) by (rewrite <- (sqrt_square (1 / 4)) by lra; apply sqrt_lt_1; lra).
  pose proof PI_RGT_0 as PP. assert (Ha : 0 < sphere_area).
  { unfold sphere_area. apply Rmult_lt_0_compat; [lra|]. apply pow_lt. apply Rdiv_lt_0_compat; lra. }
  assert (G : forall a b : R, b <> 0 -> Cdiv (a, 0) (RtoC b) = RtoC (a / b)).
  { intros a b Hb. unfold Cdiv, Cinv, Cmult, RtoC. cbn [fst snd]. f_equal; field; exact Hb. }
  pose proof (simulation_moments insertion hemispheres (fun _ => Ok 1%nat) 5 1 2 (1 / 4) shells (fun _ => 1 / 2) insertion_sorts ltac:(lia) eq_refl) as M.
  specialize (M ltac:(intros x y; unfold hemispheres; destruct (Rle_dec 0 y); cbn; lia) ltac:(lra)).
  match type of M with ?P -> _ => assert (F : P) end.
  { intros p Hp. destruct (south p Hp) as (r & Pr & Cr & E). split.
    - intros l Hl. destruct (patch_patched r l Pr) as (ps & A & B). exists ps. split; [exact A|]. intros x Hx. rewrite E by assumption. apply B, Hx.
    - destruct (patch_mean r _ Pr Cr) as (g & A & B). exists g. split; [|exact B]. intros l Hl. eapply is_RInt_ext; [|apply (A l Hl)].
      intros x Hx. rewrite Rmin_left, Rmax_right in Hx by lra. rewrite E by assumption. reflexivity. }
  specialize (M F). clear F. specialize (M ltac:(repeat constructor)).
  match type of M with let g := ?h in _ => set (g := h) in M end. cbv zeta in M.
  assert (G0 : forall h, In h shells -> g h 0%nat = RtoC (if Rle_dec (fst h) (2 / sphere_area) then 1 / 5 else 1 / 10) /\ g h 1%nat = RtoC (if Rle_dec (fst h) (2 / sphere_area) then 1 / 10 else 2 / 5)).
  { assert (Lt : 2 / sphere_area < 8 / sphere_area) by (apply Rmult_lt_compat_r; [apply Rinv_0_lt_compat, Ha|lra]).
    intros h [<-|[<-|[]]]; unfold g; cbn [fst snd nth]; destruct (Rle_dec _ _); try lra; rewrite !G by lra; split; f_equal; field. }
  assert (E1 : rtotal (map (fun h => sphere_area * fst h * (1 / 2) * component true (g h 1%nat)) shells) = 17 / 10).
  { unfold shells, g. cbn [map fst snd nth]. rewrite !G by lra. unfold rtotal, component, RtoC. cbn [fold_right fst]. field. lra. }
  assert (E0 : rtotal (map (fun h => sphere_area * fst h * (1 / 2) * component true (g h 0%nat)) shells) = 3 / 5).
  { unfold shells, g. cbn [map fst snd nth]. rewrite !G by lra. unfold rtotal, component, RtoC. cbn [fold_right fst]. field. lra. }
  match type of M with ?P -> _ => assert (F : P) end.
  { intros p Hp. apply Forall_forall. intros h Hh. destruct (G0 h Hh) as [A B]. destruct p as [|[|p]]; [rewrite A|rewrite B|lia]; rewrite Cmod_R; destruct (Rle_dec _ _); rewrite Rabs_right; lra. }
  specialize (M F 1%nat true ltac:(lia)). destruct M as [M1 M2]. split.
  - rewrite <- E1. exact M1.
  - destruct (M2 true) as (Vs & _ & M3). specialize (M3 0%nat ltac:(lia)). cbn [Nat.eqb] in M3. rewrite Rplus_0_r in M3. rewrite <- E1, <- E0. exact M3.
Qed.

(** The noise of the whole simulation.  Without shear, and for pixels of equal area, [4 pi / npix] times the mean square per component of the
    map, over the expected number [nbar] for the density of all shells together, is [4 pi / ntot * sigma_e^2] to two percent. *)
Theorem simulation_noise argsort ang2pix npix2nside chunk nside npix sigma (shells : list (R * (list R * list R * list R))) :
  sorts argsort -> (0 < chunk)%nat -> npix2nside npix = Ok nside -> (forall x y, (ang2pix nside x y < npix)%nat) -> 0 < sigma <= 1 / 5 ->
  (forall p, (p < npix)%nat -> (forall l, -180 < l < 180 -> patched (in_pixel (ang2pix nside) p l)) /\ sphere_mean (in_pixel (ang2pix nside) p) (/ INR npix)) ->
  Forall (fun h => let '(kappa, gamma1, gamma2) := snd h in
    length kappa = npix /\ Forall (fun k => k <> 1) kappa /\ gamma1 = repeat 0 npix /\ gamma2 = repeat 0 npix) shells ->
  let map_at p st := match simulate_shears shell_poisson shell_uniform shell_normal argsort ang2pix npix2nside (shell_maps (map snd shells)) chunk nside npix sigma
      (map fst shells) ((([], []), []) : shell_numbers, st) with Ok (m, _) => nth p (snd m) (RtoC 0) | Err _ => RtoC 0 end in
  let ntot := sphere_area * rtotal (map fst shells) in let nbar := ntot / INR npix in
  0 < ntot ->
  exists v, (forall p, (p < npix)%nat -> shells_mean (map (fun h => sphere_area * fst h) shells) (fun st => (Cmod (map_at p st) / nbar) ^ 2 / 2) v) /\
    Rabs (4 * PI / INR npix * v - 4 * PI / ntot * sigma ^ 2) <= 4 * PI / ntot * sigma ^ 2 / 50.
Proof.
  intros Hso Hc Hn Hp Hs Hfr Hm map_at ntot nbar Pn. pose proof fifth as H5. assert (Hs' : 0 < sigma < sqrt (1 / 2)) by lra.
  assert (Np : 0 < INR npix) by (apply lt_0_INR; specialize (Hp 0 0); lia).
  assert (Nb : 0 < nbar) by (unfold nbar; apply Rdiv_lt_0_compat; assumption).
  destruct (intnorm_variance (scalar 1%nat) (scalar sigma) sigma Hs (scalar_paired 1%nat sigma)) as (m & Mm & Bm).
  set (g := fun (h : R * (list R * list R * list R)) p => let '(kappa, gamma1, gamma2) := snd h in Cdiv (nth p gamma1 0, nth p gamma2 0) (RtoC (1 - nth p kappa 0))).
  assert (G0 : forall p h, (p < npix)%nat -> In h shells -> g h p = RtoC 0).
  { intros p h Hpp Hh. rewrite Forall_forall in Hm. specialize (Hm h Hh). unfold g. destruct h as [d [[kappa gamma1] gamma2]]. cbn [snd] in *. destruct Hm as (L0 & Zk & -> & ->).
    rewrite !nth_repeat. rewrite Forall_forall in Zk. pose proof (Zk (nth p kappa 0) (@nth_In R p kappa 0 ltac:(lia))) as K. unfold Cdiv, Cinv, Cmult, RtoC. cbn [fst snd]. f_equal; field; intro E; apply K; nra. }
  assert (S0 : forall e, sheared (RtoC 0) e = e).
  { intros [e1 e2]. unfold sheared, Cdiv, Cinv, Cmult, Cplus, Cconj, RtoC. cbn [fst snd]. f_equal; field; rewrite ?Ropp_0, ?Rmult_0_l, ?Rmult_0_r; lra. }
  assert (Hl : Forall (fun h => length (fst (fst (snd h))) = npix /\ length (snd (fst (snd h))) = npix /\ length (snd (snd h)) = npix) shells).
  { eapply Forall_impl; [|exact Hm]. intros [d [[kappa gamma1] gamma2]]. cbn [snd fst]. intros (L0 & _ & -> & ->). rewrite !repeat_length. auto. }
  exists (m / (2 * nbar)). split.
  - intros p Hpp.
    pose proof (simulation_moments argsort ang2pix npix2nside chunk nside npix sigma shells (fun _ => / INR npix) Hso Hc Hn Hp Hs' Hfr Hl) as M. cbv zeta in M. fold g in M.
    specialize (M ltac:(intros q Hq; apply Forall_forall; intros h Hh; change (Cmod (g h q) < 1); rewrite (G0 q h Hq Hh), Cmod_0; lra)).
    destruct (M p true Hpp) as [_ Mt]. destruct (Mt true) as (V1 & E1 & F1). destruct (M p false Hpp) as [_ Mf]. destruct (Mf false) as (V2 & E2 & F2).
    specialize (F1 p Hpp). specialize (F2 p Hpp). rewrite Nat.eqb_refl in F1, F2. clear M Mt Mf.
    assert (Z : forall c, rtotal (map (fun h => sphere_area * fst h * / INR npix * component c (g h p)) shells) = 0).
    { intro c. rewrite (map_ext_in _ (fun _ => 0)).
      - unfold rtotal. clear. induction shells as [|x l IH]; [reflexivity|]. cbn [map fold_right]. rewrite IH. ring.
      - intros h Hh. rewrite (G0 p h Hpp Hh). destruct c; unfold component, RtoC; cbn [fst snd]; ring. }
    assert (Em : forall sh W1 W2, (forall h, In h sh -> g h p = RtoC 0) ->
      Forall2 (fun h V => means 2 (fun l => each_of [fun e => component true (sheared (g h p) e) * component true (sheared (g h p) e)] (ellipticity_intnorm numbers (scalar 1%nat) (scalar sigma) l)) V) sh W1 ->
      Forall2 (fun h V => means 2 (fun l => each_of [fun e => component false (sheared (g h p) e) * component false (sheared (g h p) e)] (ellipticity_intnorm numbers (scalar 1%nat) (scalar sigma) l)) V) sh W2 ->
      rtotal (map (fun hV => sphere_area * fst (fst hV) * / INR npix * snd hV) (combine sh W1)) + rtotal (map (fun hV => sphere_area * fst (fst hV) * / INR npix * snd hV) (combine sh W2)) =
      sphere_area * rtotal (map fst sh) * / INR npix * m).
    { induction sh as [|h sh IH]; intros W1 W2 Gh A B.
      - unfold rtotal. cbn [combine map fold_right]. ring.
      - inversion_clear A as [|? v1 ? W1' A1 A2]. inversion_clear B as [|? v2 ? W2' B1 B2]. specialize (IH W1' W2' (fun h' H' => Gh h' (or_intror H')) A2 B2).
        rewrite (Gh h (or_introl eq_refl)) in A1, B1.
        assert (Ev : v1 + v2 = m).
        { apply (means_unique 2 _ _ _) with (2 := Mm). eapply means_eq; [apply (means_lin 2 _ _ 1 1 _ _ A1 B1)| |ring]. intro l. cbn beta.
          destruct (ellipticity_intnorm numbers (scalar 1%nat) (scalar sigma) l) as [[[|e [|]] r]|x]; cbn [each_of each]; rewrite ?S0; unfold component; ring. }
        unfold rtotal in *. cbn [combine map fold_right fst snd]. rewrite <- Ev in *. rewrite Rmult_plus_distr_l with (r1 := sphere_area).
        match type of IH with ?a + ?b = ?c => replace b with (c - a) by (rewrite <- IH; ring) end. ring. }
    specialize (Em shells V1 V2 (fun h => G0 p h Hpp) E1 E2). fold ntot in Em.
    eapply shells_ext; [apply (shells_lin _ _ _ _ _ (/ (2 * nbar ^ 2)) (/ (2 * nbar ^ 2)) F1 F2)| |].
    + intros st _. cbn beta. fold (map_at p st). unfold component. unfold Rdiv. rewrite Rpow_mult_distr. unfold Cmod. rewrite pow2_sqrt by (apply Rplus_le_le_0_compat; apply pow2_ge_0). field. lra.
    + rewrite (Z true), (Z false), <- Rmult_plus_distr_l.
      match goal with |- _ * (0 * 0 + ?a + (0 * 0 + ?b)) = _ => replace (0 * 0 + a + (0 * 0 + b)) with (a + b) by ring end.
      rewrite Em. replace (ntot * / INR npix) with nbar by reflexivity. field. lra.
  - unfold nbar. replace (4 * PI / INR npix * (m / (2 * (ntot / INR npix))) - 4 * PI / ntot * sigma ^ 2) with (4 * PI / ntot * (m / 2 - sigma ^ 2)) by (field; lra).
    pose proof PI_RGT_0 as Pi. assert (Q : 0 < 4 * PI / ntot) by (apply Rdiv_lt_0_compat; lra).
    rewrite Rabs_mult, (Rabs_right (4 * PI / ntot)) by lra. replace (4 * PI / ntot * sigma ^ 2 / 50) with (4 * PI / ntot * (sigma ^ 2 / 50)) by (field; lra).
    apply Rmult_le_compat_l; lra.
Qed.
Print Assumptions simulation_noise.

(** Hemispheres as pixels, two shells with 8 and 2 galaxies on average, and [sigma_e] of the notebook. *)
Example simulation_noise_example :
  let shells := [(8 / sphere_area, ([0; 1 / 2], [0; 0], [0; 0])); (2 / sphere_area, ([0; 1 / 4], [0; 0], [0; 0]))] in
  let map_at p st := match simulate_shears shell_poisson shell_uniform shell_normal insertion hemispheres (fun _ => Ok 1%nat) (shell_maps (map snd shells)) 5 1 2 (1 / 100)
      (map fst shells) ((([], []), []) : shell_numbers, st) with Ok (m, _) => nth p (snd m) (RtoC 0) | Err _ => RtoC 0 end in
  exists v, shells_mean [sphere_area * (8 / sphere_area); sphere_area * (2 / sphere_area)] (fun st => (Cmod (map_at 1%nat st) / 5) ^ 2 / 2) v /\
    Rabs (v - 2 / 100000) <= 2 / 100000 / 50.
Proof.
  intros shells map_at. pose proof PI_RGT_0 as PP. assert (Ha : 0 < sphere_area).
  { unfold sphere_area. apply Rmult_lt_0_compat; [lra|]. apply pow_lt. apply Rdiv_lt_0_compat; lra. }
  assert (T : sphere_area * rtotal (map fst shells) = 10) by (unfold rtotal, shells; cbn [map fst fold_right]; field; lra).
  destruct (simulation_noise insertion hemispheres (fun _ => Ok 1%nat) 5 1 2 (1 / 100) shells insertion_sorts ltac:(lia) eq_refl) as (v & Hv & B).
  - intros x y. unfold hemispheres. destruct (Rle_dec 0 y); cbn; lia.
  - lra.
  - replace (/ INR 2) with (1 / 2) by (cbn [INR]; field). intros p Hp. destruct (south p Hp) as (r & Pr & Cr & E). split.
    + intros l Hl. destruct (patch_patched r l Pr) as (ps & A & C). exists ps. split; [exact A|]. intros x Hx. rewrite E by assumption. apply C, Hx.
    + destruct (patch_mean r _ Pr Cr) as (g & A & C). exists g. split; [|exact C]. intros l Hl. eapply is_RInt_ext; [|apply (A l Hl)].
      intros x Hx. rewrite Rmin_left, Rmax_right in Hx by lra. rewrite E by assumption. reflexivity.
  - repeat constructor; cbn; lra.
  - rewrite T. lra.
  - exists v. rewrite T in B. split.
    + eapply shells_ext; [apply (Hv 1%nat ltac:(lia))| |reflexivity]. intros st _. rewrite T. replace (10 / INR 2) with 5 by (cbn [INR]; field). reflexivity.
    + replace (INR 2) with 2 in B by (cbn [INR]; ring). replace (4 * PI / 2 * v - 4 * PI / 10 * (1 / 100) ^ 2) with (2 * PI * (v - 2 / 100000)) in B by field.
      rewrite Rabs_mult, (Rabs_right (2 * PI)) in B by lra. apply (Rmult_le_reg_l (2 * PI)); [lra|].
      replace (2 * PI * (2 / 100000 / 50)) with (4 * PI / 10 * (1 / 100) ^ 2 / 50) by field. exact B.
Qed.
