(** Claims about the whole simulation of galaxy shears in shells (C96). *)
From Coq Require Import Reals Lra Lia List Arith.
From Coquelicot Require Import Coquelicot.
From Verif Require Import Base Model_Numeric Model_Arrays Model_Effective Model_Galaxies Model_Shapes Model_Points Model_ShearMap Model_ShearLoop.
From Verif Require Import Spec_Points Spec_Poisson Spec_Unbiased Spec_ShearMap Spec_ShearLoop.
From Verif Require Import Proof_Points Proof_Poisson Proof_ShearMap Prop_Galaxies Prop_ShearMap.
Import ListNotations.
Local Open Scope R_scope.

Lemma shrink_intrinsic scale x : shrink (Cmult x (RtoC scale)) = intrinsic scale (fst x) (snd x).
Proof.
  destruct x as [a b]. unfold shrink, intrinsic. cbn [fst snd].
  replace (Cmult (a, b) (RtoC scale)) with ((scale * a, scale * b) : C) by (unfold Cmult, RtoC; cbn; f_equal; ring).
  cbn [fst snd]. change (sqrt (scale * a * (scale * a) + scale * b * (scale * b))) with (sqrt (scale * a * (scale * a) + scale * b * (scale * b))).
  assert (E : Cmod (scale * a, scale * b) = sqrt (scale * a * (scale * a) + scale * b * (scale * b))) by (unfold Cmod; cbn [fst snd]; f_equal; ring).
  rewrite E. set (r := sqrt _) in *. destruct (Rlt_dec 0 r) as [P|P]; [reflexivity|].
  assert (Z : ((scale * a, scale * b) : C) = RtoC 0).
  { apply Cmod_eq_0. rewrite E. assert (0 <= r) by apply sqrt_pos. lra. }
  rewrite Z. unfold Cmult, RtoC. cbn. f_equal; ring.
Qed.

Lemma at_pixel_map (h : nat -> C -> C) p pixels : forall e,
  at_pixel pixels (map (fun xe => h (fst xe) (snd xe)) (combine pixels e)) p = map (h p) (at_pixel pixels e p).
Proof.
  unfold at_pixel. induction pixels as [|x pixels IH]; intros [|y e]; try reflexivity. cbn [combine map filter fst snd].
  destruct (Nat.eqb_spec x p) as [->|]; cbn [map snd]; rewrite IH; reflexivity.
Qed.
Lemma at_pixel_count {A} p pixels : forall e : list A, length e = length pixels -> length (at_pixel pixels e p) = count_occ Nat.eq_dec pixels p.
Proof.
  unfold at_pixel. induction pixels as [|x pixels IH]; intros [|y e] L; try discriminate; [reflexivity|]. rewrite count_cons. cbn [combine filter fst].
  destruct (Nat.eqb x p); cbn [map length]; rewrite IH by (cbn in L; lia); reflexivity.
Qed.

Lemma shear_entries ang2pix npix2nside chunk nside lon lat e kappa gamma1 gamma2 : (0 < chunk)%nat -> length lon = length e -> length lat = length e ->
  length gamma1 = length kappa -> length gamma2 = length kappa -> npix2nside (length kappa) = Ok nside -> (forall x y, (ang2pix nside x y < length kappa)%nat) ->
  let pixels := map (fun '(x, y) => ang2pix nside x y) (combine lon lat) in
  galaxy_shear ang2pix npix2nside chunk lon lat e kappa gamma1 gamma2 true =
    Ok (map (fun xe => sheared (Cdiv (nth (fst xe) gamma1 0, nth (fst xe) gamma2 0) (RtoC (1 - nth (fst xe) kappa 0))) (snd xe)) (combine pixels e)).
Proof.
  intros Hc Hl Hl' H1 H2 Hn Hp pixels. assert (Lpx : length pixels = length lon) by (unfold pixels; rewrite map_length, combine_length; lia).
  destruct (galaxy_shear_objects ang2pix npix2nside chunk lon lat e kappa gamma1 gamma2 true nside Hc Hl Hl' H1 H2 Hn Hp) as (out & -> & Lo & Ho). f_equal.
  apply (nth_ext _ _ (RtoC 0) (RtoC 0)); [rewrite map_length, combine_length; lia|]. intros i Hi.
  assert (Hi1 : (i < length lon)%nat) by lia. assert (Hi2 : (i < length lat)%nat) by lia. assert (Hi3 : (i < length e)%nat) by lia.
  pose proof (nth_error_nth' lon 0 Hi1) as X. pose proof (nth_error_nth' lat 0 Hi2) as Y. pose proof (nth_error_nth' e (RtoC 0) Hi3) as E.
  set (x := nth i lon 0) in *. set (y := nth i lat 0) in *. pose proof (Hp x y) as Pk.
  assert (Pk1 : (ang2pix nside x y < length gamma1)%nat) by lia. assert (Pk2 : (ang2pix nside x y < length gamma2)%nat) by lia.
  rewrite (nth_error_nth _ _ (RtoC 0) (Ho i x y _ _ _ _ X Y E (nth_error_nth' kappa 0 Pk) (nth_error_nth' gamma1 0 Pk1) (nth_error_nth' gamma2 0 Pk2))).
  symmetry. apply nth_error_nth.
  assert (Ec : nth_error (combine pixels e) i = Some (ang2pix nside x y, nth i e (RtoC 0))).
  { assert (Lc : (i < length (combine pixels e))%nat) by (rewrite combine_length; lia). rewrite (nth_error_nth' _ (0%nat, RtoC 0) Lc). rewrite combine_nth by lia. f_equal. f_equal.
    apply nth_error_nth. unfold pixels. assert (Lc' : (i < length (combine lon lat))%nat) by (rewrite combine_length; lia).
    pose proof (nth_error_nth' (combine lon lat) (0, 0) Lc') as N. rewrite combine_nth in N by lia. rewrite (map_nth_error _ _ _ N). reflexivity. }
  rewrite (map_nth_error _ _ _ Ec). reflexivity.
Qed.

Lemma csum_app l m : csum (l ++ m) = Cplus (csum l) (csum m).
Proof.
  induction l as [|x l IH]; [symmetry; apply Cplus_0_l|]. cbn [app]. change (csum (x :: l ++ m)) with (Cplus x (csum (l ++ m))). rewrite IH. apply Cplus_assoc.
Qed.
Lemma all_pixels n px : Forall (fun p => (p < n)%nat) px -> list_sum (map (count_occ Nat.eq_dec px) (seq 0 n)) = length px.
Proof.
  induction 1 as [|x px Hx H IH].
  - induction (seq 0 n) as [|a l IHl]; [reflexivity|exact IHl].
  - cbn [length]. rewrite <- IH. rewrite (map_ext _ (fun p => (if Nat.eqb x p then 1 else 0) + count_occ Nat.eq_dec px p)%nat) by (intro; apply count_cons).
    assert (G : forall l, list_sum (map (fun p => (if Nat.eqb x p then 1 else 0) + count_occ Nat.eq_dec px p)%nat l) =
      (count_occ Nat.eq_dec l x + list_sum (map (count_occ Nat.eq_dec px) l))%nat).
    { clear. induction l as [|a l IH]; [reflexivity|]. rewrite count_cons. cbn [map list_sum fold_right] in *. unfold list_sum in IH. rewrite IH, (Nat.eqb_sym x a). lia. }
    rewrite G. replace (count_occ Nat.eq_dec (seq 0 n) x) with 1%nat; [reflexivity|]. symmetry. apply (proj1 (NoDup_count_occ' Nat.eq_dec (seq 0 n)) (seq_NoDup n 0)). apply in_seq. lia.
Qed.
Lemma list_sum_nth (l : list nat) : list_sum l = list_sum (map (fun p => nth p l 0%nat) (seq 0 (length l))).
Proof. f_equal. symmetry. apply (nth_ext _ _ 0%nat 0%nat); [rewrite map_length, seq_length; reflexivity|]. intros i Hi. rewrite map_length, seq_length in Hi. apply nth_error_nth. rewrite (map_nth_error (fun p => nth p l 0%nat) i (seq 0 (length l)) (d := i)); [reflexivity|]. rewrite (nth_error_nth' _ 0%nat) by (rewrite seq_length; lia). rewrite List.seq_nth by lia. reflexivity. Qed.
Lemma list_sum_plus (f g : nat -> nat) l : list_sum (map (fun p => f p + g p)%nat l) = (list_sum (map f l) + list_sum (map g l))%nat.
Proof. unfold list_sum. induction l as [|a l IH]; [reflexivity|]. cbn [map fold_right]. rewrite IH. lia. Qed.

Lemma single_population count n (sigma : R) : ashape count = [] -> aget count [] = n -> populations count {| ashape := []; aget := fun _ => sigma |} = Ok [(n, sigma)].
Proof. destruct count as [sh get]. cbn. intros -> <-. reflexivity. Qed.

Section Simulation.
  Context {T : Type}.
  Variable poisson : T -> list R -> list nat * T.
  Variable uniform : T -> R -> R -> nat -> list R * T.
  Variable standard_normal : T -> nat -> list R * T.
  Variable argsort : list nat -> list nat.
  Variable ang2pix : nat -> R -> R -> nat.
  Variable npix2nside : nat -> result nat.
  Variable lens : nat -> T -> result (list R * list R * list R * T).
  Variables (chunk nside npix : nat) (sigma : R).
  Hypothesis Hso : sorts argsort.
  Hypothesis Hc : (0 < chunk)%nat.
  Hypothesis Hs : 0 <= sigma < sqrt (1 / 2).
  Hypothesis Hn : npix2nside npix = Ok nside.
  Hypothesis Hp : forall x y, (ang2pix nside x y < npix)%nat.
  Hypothesis Hpo : forall s l, length (fst (poisson s l)) = length l.
  Hypothesis Hun : forall s a b n, length (fst (uniform s a b n)) = n.
  Hypothesis Hno : forall s n, length (fst (standard_normal s n)) = n.
  Let pixel := ang2pix nside.
  Let scale := sigma * sqrt ((8 + 5 * (sigma * sigma)) / (2 - 4 * (sigma * sigma))).

  Lemma shells_sums ngal : (forall i s, exists kappa gamma1 gamma2 s', lens i s = Ok (kappa, gamma1, gamma2, s') /\
      length kappa = npix /\ length gamma1 = npix /\ length gamma2 = npix) ->
    forall i num she s, length num = npix -> length she = npix ->
    exists num' she' s' shells,
      observe_shells poisson uniform standard_normal argsort ang2pix npix2nside lens chunk nside sigma i ngal (num, she) s = Ok ((num', she'), s') /\
      drawn_shells poisson uniform standard_normal lens (intrinsic scale) i ngal s shells s' /\ length num' = npix /\ length she' = npix /\
      Forall (fun h => length (shapes h) = length (places h)) shells /\
      forall p, (p < npix)%nat ->
        nth p num' 0%nat = (nth p num 0 + list_sum (map (fun h => length (observed pixel h p)) shells))%nat /\
        nth p she' (RtoC 0) = Cplus (nth p she (RtoC 0)) (csum (concat (map (fun h => observed pixel h p) shells))).
  Proof.
    intro Hl. induction ngal as [|d ngal IH]; intros i num she s Ln Ls.
    - exists num, she, s, []. cbn [observe_shells]. repeat split; auto; [constructor|cbn; lia|]. cbn [map concat]. symmetry. apply Cplus_0_r.
    - cbn [observe_shells]. destruct (Hl i s) as (kappa & gamma1 & gamma2 & s1 & El & L0 & L1 & L2). rewrite El. cbn [bind].
      unfold uniform_positions. cbn [ashape aget]. change (Model_Effective.ndindex []) with [@nil nat]. cbn [map]. rewrite sphere_area_eq.
      pose proof (Hpo s1 [sphere_area * d]) as Lp. destruct (poisson s1 [sphere_area * d]) as [[|n [|]] s2] eqn:Ep; try discriminate Lp. cbn [uniform_loop].
      pose proof (Hun s2 (-180) 180 n) as Llon. destruct (uniform s2 (-180) 180 n) as [lon s3] eqn:Elon. cbn [fst] in Llon.
      pose proof (Hun s3 (-1) 1 n) as Lx. destruct (uniform s3 (-1) 1 n) as [x s4] eqn:Ex. cbn [fst] in Lx. cbn [observe_batches].
      set (lat := map (fun x => degrees (asin x)) x). assert (Llat : length lat = n) by (unfold lat; rewrite map_length; exact Lx).
      set (count := {| ashape := []; aget := fun i => if list_eq_dec Nat.eq_dec i [] then n else 0%nat |}).
      unfold ellipticity_intnorm. rewrite (single_population count n sigma eq_refl eq_refl). cbn [bind forallb snd].
      rewrite Proof_Numeric.leb_true, Proof_Numeric.ltb_true by lra. cbn [andb intnorm_populations]. unfold random_complex.
      pose proof (Hno s4 n) as Lre. destruct (standard_normal s4 n) as [re s5] eqn:Ere. cbn [fst] in Lre.
      pose proof (Hno s5 n) as Lim. destruct (standard_normal s5 n) as [im s6] eqn:Eim. cbn [fst] in Lim. cbn [bind fst snd]. rewrite app_nil_r.
      set (e := map (fun x : C => shrink (Cmult x (RtoC (sigma_eta sigma)))) (combine re im)). assert (Le : length e = n) by (unfold e; etransitivity; [apply map_length|]; etransitivity; [apply combine_length|]; lia).
      rewrite (shear_entries ang2pix npix2nside chunk nside lon lat e kappa gamma1 gamma2 Hc) by (congruence || (rewrite L0; assumption)). cbn [bind].
      set (px := map (fun '(x, y) => ang2pix nside x y) (combine lon lat)). assert (Lpx : length px = n) by (unfold px; rewrite map_length, combine_length; lia).
      match goal with |- context [add_shears _ _ ?o _] => set (out := o) end. assert (Lout : length out = n) by (unfold out; rewrite map_length, combine_length; lia).
      destruct (add_shears_spec argsort px out num she Hso ltac:(lia) ltac:(lia)) as [A _].
      destruct A as (num1 & she1 & EA & Ln1 & Ls1 & A).
      { apply Forall_forall. intros q Hq. unfold px in Hq. apply in_map_iff in Hq as ([a b] & <- & _). rewrite Ln. apply Hp. }
      rewrite EA. cbn [bind fst snd].
      destruct (IH (S i) num1 she1 s6 ltac:(lia) ltac:(lia)) as (num' & she' & s' & shells & E & D & Ln' & Ls' & Fo & Hsum).
      set (h := {| convergence := kappa; shear1 := gamma1; shear2 := gamma2; places := combine lon (map (fun x => asin x * (180 / PI)) x);
            shapes := map (fun p => intrinsic scale (fst p) (snd p)) (combine re im) |}).
      assert (Ee : shapes h = e) by (unfold e, h; cbn [shapes]; apply map_ext; intro; symmetry; apply shrink_intrinsic).
      assert (Epx : map (fun x => pixel (fst x) (snd x)) (places h) = px).
      { unfold px, h, lat, degrees. cbn [places]. apply map_ext. intros [a b]. reflexivity. }
      exists num', she', s', (h :: shells). split; [exact E|]. split; [exact (drawn_shell _ _ _ _ _ i d ngal s kappa gamma1 gamma2 n lon x re im s1 s2 s3 s4 s5 s6 shells s' El Ep Elon Ex Ere Eim D)|].
      split; [exact Ln'|]. split; [exact Ls'|]. split.
      { constructor; [|exact Fo]. rewrite Ee, Le, <- Lpx, <- Epx, map_length. reflexivity. }
      intros p Hpp. destruct (Hsum p Hpp) as [S1 S2]. destruct (A p ltac:(lia)) as [A1 A2].
      assert (Eob : observed pixel h p = at_pixel px out p).
      { unfold observed. rewrite Epx, Ee. unfold out. symmetry. apply (at_pixel_map (fun q => sheared (reduced h q))). }
      cbn [map concat]. rewrite csum_app, S1, S2, A1, A2, Eob, Cplus_assoc. split; [|reflexivity].
      change (list_sum (length (at_pixel px out p) :: map (fun h0 => length (observed pixel h0 p)) shells)) with (length (at_pixel px out p) + list_sum (map (fun h0 => length (observed pixel h0 p)) shells))%nat.
      rewrite at_pixel_count by lia. lia.
  Qed.
End Simulation.

(** C96 *)

(** The whole simulation: every pixel of the final maps has the number, and the sum of the observed shapes, of all galaxies of all
    shells in it.  Galaxies are sheared by the reduced shear of their own shell and pixel.  The galaxies of each shell, and no others,
    are made of the random numbers listed in [drawn_shells], in this order, and none is lost. *)
Theorem simulation_sums {T} poisson uniform standard_normal argsort ang2pix npix2nside lens chunk nside npix sigma ngal (s : T) :
  sorts argsort -> (0 < chunk)%nat -> 0 <= sigma < sqrt (1 / 2) -> npix2nside npix = Ok nside -> (forall x y, (ang2pix nside x y < npix)%nat) ->
  (forall s l, length (fst (poisson s l)) = length l) -> (forall s a b n, length (fst (uniform s a b n)) = n) ->
  (forall s n, length (fst (standard_normal s n)) = n) ->
  (forall i s, exists kappa gamma1 gamma2 s', lens i s = Ok (kappa, gamma1, gamma2, s') /\ length kappa = npix /\ length gamma1 = npix /\ length gamma2 = npix) ->
  let scale := sigma * sqrt ((8 + 5 * (sigma * sigma)) / (2 - 4 * (sigma * sigma))) in
  exists num she s' shells,
    simulate_shears poisson uniform standard_normal argsort ang2pix npix2nside lens chunk nside npix sigma ngal s = Ok ((num, she), s') /\
    drawn_shells poisson uniform standard_normal lens (intrinsic scale) 0 ngal s shells s' /\ length num = npix /\ length she = npix /\
    (forall p, (p < npix)%nat ->
      nth p num 0%nat = list_sum (map (fun h => length (observed (ang2pix nside) h p)) shells) /\
      nth p she (RtoC 0) = csum (concat (map (fun h => observed (ang2pix nside) h p) shells))) /\
    list_sum num = list_sum (map (fun h => length (places h)) shells).
Proof.
  intros Hso Hc Hs Hn Hp Hpo Hun Hno Hl scale. unfold simulate_shears.
  destruct (shells_sums poisson uniform standard_normal argsort ang2pix npix2nside lens chunk nside npix sigma Hso Hc Hs Hn Hp Hpo Hun Hno ngal Hl 0
    (repeat 0%nat npix) (repeat (RtoC 0) npix) s ltac:(apply repeat_length) ltac:(apply repeat_length)) as (num & she & s' & shells & E & D & Ln & Ls & Fo & H).
  exists num, she, s', shells. split; [exact E|]. split; [exact D|]. split; [exact Ln|]. split; [exact Ls|]. split.
  - intros p Hpp. destruct (H p Hpp) as [H1 H2]. rewrite nth_repeat in H1, H2. split; [exact H1|]. rewrite H2. apply Cplus_0_l.
  - rewrite (list_sum_nth num), Ln.
    assert (G : map (fun p => nth p num 0%nat) (seq 0 npix) = map (fun p => list_sum (map (fun h => length (observed (ang2pix nside) h p)) shells)) (seq 0 npix)).
    { apply map_ext_in. intros p Hpp. apply in_seq in Hpp. destruct (H p ltac:(lia)) as [-> _]. rewrite nth_repeat. reflexivity. }
    rewrite G. clear G E D H. induction Fo as [|h shells Hh Fo IH].
    + cbn [map]. change (list_sum []) with 0%nat. induction (seq 0 npix) as [|a l IHl]; [reflexivity|exact IHl].
    + cbn [map]. rewrite (map_ext _ (fun p => (length (observed (ang2pix nside) h p) + list_sum (map (fun h => length (observed (ang2pix nside) h p)) shells))%nat)) by reflexivity.
      rewrite list_sum_plus, IH. change (list_sum (length (places h) :: map (fun h0 => length (places h0)) shells)) with (length (places h) + list_sum (map (fun h0 => length (places h0)) shells))%nat.
      f_equal. rewrite (map_ext _ (count_occ Nat.eq_dec (map (fun x => ang2pix nside (fst x) (snd x)) (places h)))).
      2:{ intro p. unfold observed. rewrite map_length, at_pixel_count by (rewrite map_length; exact Hh). reflexivity. }
      rewrite all_pixels; [apply map_length|]. apply Forall_forall. intros q Hq. apply in_map_iff in Hq as ([a b] & <- & _). apply Hp.
Qed.
Print Assumptions simulation_sums.

(** Two shells, and a generator which counts the draws: one galaxy, with the reduced shear 1/2, and seven, with the reduced shear 1/4,
    all of them in the second pixel and round. *)
Definition example_lens (i s : nat) : result (list R * list R * list R * nat) :=
  Ok ([0; if Nat.eqb i 0 then 1 / 2 else 0], [0; 1 / 4], [0; 0], S s).
Example simulation_example : exists num she s,
  simulate_shears (fun s l => (map (fun _ => s) l, S s)) (fun s a b n => (repeat ((a + b) / 2) n, S s)) (fun s n => (repeat 0 n, S s))
    insertion (fun _ _ _ => 1%nat) (fun _ => Ok 1%nat) example_lens 3 1 2 (1 / 4) [1 / 10; 1 / 10] 0%nat = Ok ((num, she), s) /\
  num = [0; 8]%nat /\ nth 1 she (RtoC 0) = RtoC (9 / 4) /\ s = 12%nat.
Proof.
  destruct (simulation_sums (fun s l => (map (fun _ => s) l, S s)) (fun s a b n => (repeat ((a + b) / 2) n, S s)) (fun s n => (repeat 0 n, S s))
    insertion (fun _ _ _ => 1%nat) (fun _ => Ok 1%nat) example_lens 3 1 2 (1 / 4) [1 / 10; 1 / 10] 0%nat) as (num & she & s & shells & E & D & Ln & Ls & H & _).
  - exact insertion_sorts.
  - lia.
  - split; [lra|]. apply Rsqr_incrst_0; [rewrite Rsqr_sqrt by lra; unfold Rsqr; lra|lra|apply sqrt_pos].
  - reflexivity.
  - intros. lia.
  - intros. apply map_length.
  - intros. apply repeat_length.
  - intros. apply repeat_length.
  - intros i s. unfold example_lens. eexists _, _, _, _. repeat split; reflexivity.
  - exists num, she, s. split; [exact E|].
    inversion D as [|i1 d1 ds1 a1 k1 g1 h1 n1 lon1 x1 re1 im1 s11 s12 s13 s14 s15 s16 rest1 s17 L1 P1 U1 V1 N1 M1 D1]. subst. clear D.
    injection L1 as <- <- <- <-. cbn in P1. injection P1 as <- <-. injection U1 as <- <-. injection V1 as <- <-. injection N1 as <- <-. injection M1 as <- <-.
    inversion D1 as [|i2 d2 ds2 a2 k2 g2 h2 n2 lon2 x2 re2 im2 s21 s22 s23 s24 s25 s26 rest2 s27 L2 P2 U2 V2 N2 M2 D2]. subst. clear D1.
    injection L2 as <- <- <- <-. cbn in P2. injection P2 as <- <-. injection U2 as <- <-. injection V2 as <- <-. injection N2 as <- <-. injection M2 as <- <-.
    inversion D2. subst. destruct (H 0%nat ltac:(lia)) as [A0 _]. destruct (H 1%nat ltac:(lia)) as [A1 B1].
    split; [|split; [|reflexivity]].
    + destruct num as [|a [|b [|]]]; try discriminate. cbn in A0, A1. rewrite A0, A1. reflexivity.
    + rewrite B1. cbn [map concat app].
      assert (Z : forall c, intrinsic c 0 0 = RtoC 0) by (intro c; unfold intrinsic; rewrite !Rmult_0_r; apply Cmult_0_l).
      assert (G : forall g, sheared g (RtoC 0) = g).
      { intro g. unfold sheared. rewrite Cplus_0_l, Cmult_0_r, Cplus_0_r. unfold Cdiv. rewrite <- (Cmult_1_r g) at 2. f_equal. apply injective_projections; cbn; field. }
      unfold observed, reduced. cbn [places shapes shear1 shear2 convergence repeat combine map fst snd nth at_pixel filter Nat.eqb app]. unfold at_pixel.
      cbn [combine map filter fst snd Nat.eqb app]. rewrite !Z, !G.
      apply injective_projections; cbn; field.
Qed.
