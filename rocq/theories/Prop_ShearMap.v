(** Claims about maps of sums over galaxies (C96). *)
From Coq Require Import Reals Lra Lia List Arith Permutation Sorted.
From Coquelicot Require Import Coquelicot.
From Verif Require Import Base Model_Numeric Model_Arrays Model_Galaxies Model_Shapes Model_ShearMap.
From Verif Require Import Spec_Gauss Spec_Uniform Spec_Disc Spec_Shapes Spec_Poisson Spec_Unbiased Spec_ShearMap.
From Verif Require Import Proof_Gauss Proof_Normals Proof_Disc Proof_Fit Proof_Shapes Proof_Reject Proof_Poisson Proof_Unbiased Proof_Intnorm Proof_ShearMap.
From Verif Require Import Prop_Galaxies Prop_Disc Prop_Unbiased.
Import ListNotations.
Local Open Scope R_scope.

(** C96 *)

(** Galaxies are sorted by pixel, and split into groups, whose sums are added to the maps.  What comes out is, in every
    pixel, the previous value and the number, or the sum of the shears, of the galaxies in this pixel, for any way to sort;
    IndexError if any galaxy is outside of the map. *)
Theorem shear_sums argsort pixels values num she : sorts argsort -> length values = length pixels -> length she = length num ->
  (Forall (fun p => (p < length num)%nat) pixels -> exists num' she', add_shears argsort pixels values (num, she) = Ok (num', she') /\
    length num' = length num /\ length she' = length num /\
    forall p, (p < length num)%nat -> nth p num' 0%nat = (nth p num 0 + count_occ Nat.eq_dec pixels p)%nat /\
      nth p she' (RtoC 0) = Cplus (nth p she (RtoC 0)) (csum (at_pixel pixels values p))) /\
  (~ Forall (fun p => (p < length num)%nat) pixels -> add_shears argsort pixels values (num, she) = Err IndexError).
Proof. exact (add_shears_spec argsort pixels values num she). Qed.
Print Assumptions shear_sums.

(** Insertion sort puts indices in order. *)
Fixpoint insert_by (key : nat -> nat) (i : nat) (l : list nat) : list nat :=
  match l with [] => [i] | j :: l' => if Nat.leb (key i) (key j) then i :: l else j :: insert_by key i l' end.
Definition insertion (l : list nat) : list nat := fold_right (insert_by (fun i => nth i l 0%nat)) [] (seq 0 (length l)).
Lemma insert_perm key i l : Permutation (insert_by key i l) (i :: l).
Proof.
  induction l as [|j l IH]; cbn [insert_by]; [reflexivity|]. destruct (Nat.leb (key i) (key j)); [reflexivity|].
  eapply perm_trans; [apply perm_skip; exact IH|apply perm_swap].
Qed.
Lemma insert_sorted key i l : StronglySorted le (map key l) -> StronglySorted le (map key (insert_by key i l)).
Proof.
  induction l as [|j l IH]; cbn [insert_by map]; intro H; [repeat constructor|]. inversion H as [|? ? H1 H2]; subst.
  destruct (Nat.leb_spec (key i) (key j)) as [Hle|Hlt]; cbn [map].
  - constructor; [exact H|]. constructor; [exact Hle|]. eapply Forall_impl; [|exact H2]. intros; lia.
  - constructor; [apply IH, H1|]. apply Forall_forall. intros x Hx. apply in_map_iff in Hx as (k & <- & Hk).
    apply (Permutation_in _ (insert_perm key i l)) in Hk as [<-|Hk]; [lia|]. rewrite Forall_forall in H2. apply H2, in_map, Hk.
Qed.
Lemma insertion_sorts : sorts insertion.
Proof.
  intro l. unfold insertion. generalize (seq 0 (length l)). intro ks. split.
  - induction ks as [|k ks IH]; cbn [fold_right]; [reflexivity|]. eapply perm_trans; [apply insert_perm|apply perm_skip, IH].
  - induction ks as [|k ks IH]; cbn [fold_right map]; [constructor|apply insert_sorted, IH].
Qed.

(** Four galaxies in the pixels 2, 0, 2, 1 of four. *)
Example shear_sums_example :
  exists num' she', add_shears insertion [2; 0; 2; 1]%nat [(1, 2); (3, 4); (5, 6); (7, 8)] ([1; 0; 0; 4]%nat, [(1, 1); RtoC 0; RtoC 0; (2, 2)]) = Ok (num', she') /\
    num' = [2; 1; 2; 4]%nat /\ nth 2 she' (RtoC 0) = (6, 8) /\ nth 0 she' (RtoC 0) = (4, 5) /\
  add_shears insertion [2; 4]%nat [(1, 2); (3, 4)] ([1; 0; 0; 4]%nat, [(1, 1); RtoC 0; RtoC 0; (2, 2)]) = Err IndexError.
Proof.
  eexists _, _. split; [reflexivity|]. cbn. unfold Cplus, RtoC. cbn [fst snd]. repeat split; f_equal; ring.
Qed.

(** * Existence of means *)
Lemma slope_means (f : R -> R -> R) B K : 0 < K -> (forall u w, Rabs (f u w) <= B) ->
  (forall u w u' w', Rabs (f u w - f u' w') <= K * (Rabs (u - u') + Rabs (w - w'))) -> exists m, means 2 (fun l => f (nth 0 l 0) (nth 1 l 0)) m.
Proof.
  intros PK Bd Lip. destruct (mean_slope (fun u w => f u w + B) (2 * B) K) as (g0 & m & H1 & H2).
  - intros u w. apply (continuous_plus (V := R_NormedModule) (f u) (fun _ => B)); [|apply continuous_const].
    apply continuity_pt_filterlim. intros e He. exists (e / K). split; [apply Rdiv_lt_0_compat; assumption|].
    intros w' [_ Hw]. unfold dist in *; cbn in *. unfold R_dist in *. eapply Rle_lt_trans; [apply Lip|]. rewrite Rminus_eq_0, Rabs_R0, Rplus_0_l.
    apply (Rmult_lt_compat_l K) in Hw; [|exact PK]. replace (K * (e / K)) with e in Hw by (field; lra). exact Hw.
  - intros u w. specialize (Bd u w). apply Rabs_le_between in Bd. lra.
  - intros u u' w. replace (f u w + B - (f u' w + B)) with (f u w - f u' w) by ring.
    eapply Rle_trans; [apply Lip|]. rewrite Rminus_eq_0, Rabs_R0. lra.
  - exists (1 * m + (- B) * 1).
    assert (M : means 2 (fun l => f (nth 0 l 0) (nth 1 l 0) + B) m).
    { cbn [means nth]. exists g0. split; [|exact H2]. intro u. exists (fun w => f u w + B). split; [reflexivity|apply H1]. }
    eapply means_eq; [apply (means_lin 2 _ _ 1 (- B) _ _ M (means_const 2 1))| |reflexivity]. intro l. cbn beta. ring.
Qed.
Lemma sheared_bounded g e c : Cmod g < 1 -> Cmod e <= 1 -> Rabs (component c (sheared g e)) <= 2 / (1 - Cmod g) ^ 2 + Cmod g.
Proof.
  intros Hg He. assert (S0 : sheared g (RtoC 0) = g).
  { unfold sheared. replace (Cplus (RtoC 0) g) with g by ring. replace (Cplus (RtoC 1) (Cmult (Cconj g) (RtoC 0))) with (RtoC 1) by ring.
    unfold Cdiv. replace (Cinv (RtoC 1)) with (RtoC 1); [ring|]. unfold Cinv, RtoC. cbn [fst snd]. f_equal; field. }
  pose proof (Cmod_ge_0 g) as Pg. pose proof (sheared_slope g e (RtoC 0) Hg He ltac:(rewrite Cmod_0; lra)) as S. rewrite S0 in S.
  replace (Cminus e (RtoC 0)) with e in S by (unfold Cminus; ring).
  assert (PL : 0 < 2 / (1 - Cmod g) ^ 2) by (apply Rdiv_lt_0_compat; [lra|apply pow_lt; lra]).
  assert (T : Rabs (component c (sheared g e) - component c g) <= 2 / (1 - Cmod g) ^ 2).
  { rewrite <- component_minus. eapply Rle_trans; [apply component_le|]. eapply Rle_trans; [exact S|]. pose proof (Cmod_ge_0 e). nra. }
  pose proof (component_le c g). pose proof (Rabs_triang (component c (sheared g e) - component c g) (component c g)) as Tr.
  replace (component c (sheared g e) - component c g + component c g) with (component c (sheared g e)) in Tr by ring. lra.
Qed.
Lemma sheared_product a g c d : 0 < a -> Cmod g < 1 ->
  exists m, means 2 (fun l => (fun e => component c (sheared g e) * component d (sheared g e)) (shrink (a * nth 0 l 0, a * nth 1 l 0))) m.
Proof.
  intros Ha Hg. pose proof (Cmod_ge_0 g) as Pg. set (L := 2 / (1 - Cmod g) ^ 2). assert (PL : 0 < L) by (apply Rdiv_lt_0_compat; [lra|apply pow_lt; lra]).
  set (B := L + Cmod g). assert (PB : 0 < B) by (unfold B; lra).
  assert (In : forall e, Cmod (shrink e) <= 1) by (intro e; apply Rlt_le, shrink_disc).
  assert (Lip : forall c u w u' w', Rabs (component c (sheared g (shrink (a * u, a * w))) - component c (sheared g (shrink (a * u', a * w')))) <= 2 * L * a * (Rabs (u - u') + Rabs (w - w'))).
  { clear c d. intros c u w u' w'. rewrite <- component_minus. eapply Rle_trans; [apply component_le|]. eapply Rle_trans; [apply (sheared_slope g _ _ Hg (In _) (In _))|]. fold L.
    pose proof (shrink_slope (a * u, a * w) (a * u', a * w')) as S.
    assert (K : Cmod (Cminus (a * u, a * w) (a * u', a * w')) <= a * (Rabs (u - u') + Rabs (w - w'))).
    { replace (Cminus (a * u, a * w) (a * u', a * w')) with (Cmult (RtoC a) (Cplus (RtoC (u - u')) (Cmult (RtoC (w - w')) Ci))) by (unfold Cminus, Cmult, Cplus, Copp, RtoC, Ci; cbn [fst snd]; f_equal; ring).
      rewrite Cmod_mult, Cmod_R, (Rabs_right a) by lra. apply Rmult_le_compat_l; [lra|]. eapply Rle_trans; [apply Cmod_triangle|]. rewrite Cmod_mult, !Cmod_R.
      assert (Ei : Cmod Ci = 1) by (unfold Cmod, Ci; cbn [fst snd]; replace (0 ^ 2 + 1 ^ 2) with 1 by ring; apply sqrt_1). rewrite Ei, Rmult_1_r. lra. }
    pose proof (Cmod_ge_0 (Cminus (shrink (a * u, a * w)) (shrink (a * u', a * w')))). nra. }
  assert (Bd : forall c u w, Rabs (component c (sheared g (shrink (a * u, a * w)))) <= B) by (intros; apply sheared_bounded; auto).
  apply (slope_means (fun u w => component c (sheared g (shrink (a * u, a * w))) * component d (sheared g (shrink (a * u, a * w)))) (B * B) (4 * L * a * B)).
  - assert (0 < L * a) by (apply Rmult_lt_0_compat; assumption). nra.
  - intros u w. rewrite Rabs_mult. apply Rmult_le_compat; try apply Rabs_pos; apply Bd.
  - intros u w u' w'. pose proof (Lip c u w u' w') as L1. pose proof (Lip d u w u' w') as L2. pose proof (Bd c u w) as B1. pose proof (Bd d u' w') as B2.
    set (x := component c (sheared g (shrink (a * u, a * w)))) in *. set (y := component d (sheared g (shrink (a * u, a * w)))) in *.
    set (x' := component c (sheared g (shrink (a * u', a * w')))) in *. set (y' := component d (sheared g (shrink (a * u', a * w')))) in *.
    replace (x * y - x' * y') with (x * (y - y') + (x - x') * y') by ring. eapply Rle_trans; [apply Rabs_triang|]. rewrite !Rabs_mult.
    set (D := 2 * L * a * (Rabs (u - u') + Rabs (w - w'))) in *.
    replace (4 * L * a * B * (Rabs (u - u') + Rabs (w - w'))) with (B * D + D * B) by (unfold D; ring).
    apply Rplus_le_compat; apply Rmult_le_compat; try apply Rabs_pos; assumption.
Qed.

(** * Shapes of a number of galaxies *)
Lemma intnorm_shapes n s u : 0 < s < sqrt (1 / 2) -> length u = (2 * n)%nat ->
  exists e r, ellipticity_intnorm numbers (scalar n) (scalar s) u = Ok (e, r) /\ length e = n.
Proof.
  intros Hs Lu. unfold ellipticity_intnorm. rewrite (proj2 (populations_iff _ _ _) (scalar_paired n s)). cbn [bind forallb snd].
  rewrite Proof_Numeric.leb_true, Proof_Numeric.ltb_true by lra. cbn [andb intnorm_populations].
  destruct (random_complex _ _ _) as [e s1] eqn:E. apply random_enough in E as [L1 _]; [|lia]. eexists _, _. split; [reflexivity|]. rewrite app_nil_r, map_length. exact L1.
Qed.
Definition shapes_of (n : nat) (s : R) (u : list R) : list C :=
  match ellipticity_intnorm numbers (scalar n) (scalar s) u with Ok (e, _) => e | Err _ => [] end.
Definition one_shape (s : R) (f : C -> R) (q : R) : Prop :=
  means 2 (fun l => f (shrink (sigma_eta s * nth 0 l 0, sigma_eta s * nth 1 l 0))) q.
Lemma shapes_law n s fs qs : 0 < s < sqrt (1 / 2) -> Forall2 (one_shape s) fs qs -> length fs = n ->
  means (2 * n) (fun u => each fs (shapes_of n s u)) (product qs).
Proof.
  intros Hs H L. eapply means_len; [apply (intnorm_law (scalar n) (scalar s) [(n, s)] fs qs (scalar_paired n s))| |reflexivity].
  - repeat constructor; cbn; lra.
  - unfold scales. cbn [map concat fst snd]. rewrite app_nil_r, <- L. clear L n. induction H; cbn [length repeat combine]; constructor; assumption.
  - unfold scales. cbn [map concat fst snd]. rewrite app_nil_r, repeat_length. exact L.
  - lia.
  - intros u Lu. cbn beta. unfold shapes_of. destruct (intnorm_shapes n s u Hs Lu) as (e & r & -> & _). reflexivity.
Qed.

Lemma component_csum c l : component c (csum l) = rtotal (map (component c) l).
Proof.
  induction l as [|x l IH]; [destruct c; reflexivity|]. change (csum (x :: l)) with (Cplus x (csum l)). cbn [map rtotal fold_right]. unfold rtotal in IH. rewrite <- IH.
  destruct c; reflexivity.
Qed.
Lemma pixel_total (h : nat -> C -> C) c p pixels : forall e, length e = length pixels ->
  component c (csum (at_pixel pixels (map (fun xe => h (fst xe) (snd xe)) (combine pixels e)) p)) =
  total_of (map (fun x e => if Nat.eqb x p then component c (h p e) else 0) pixels) e.
Proof.
  induction pixels as [|x pixels IH]; intros [|y e] L; try discriminate; [destruct c; reflexivity|]. cbn [combine map fst snd total_of]. rewrite at_pixel_cons, <- IH by (cbn in L; lia).
  rewrite !component_csum. destruct (Nat.eqb_spec x p) as [->|]; cbn [app map rtotal fold_right]; unfold rtotal; ring.
Qed.
Lemma rtotal_count (v : R) p pixels : rtotal (map (fun x => if Nat.eqb x p then v else 0) pixels) = INR (count_occ Nat.eq_dec pixels p) * v.
Proof.
  induction pixels as [|x pixels IH]; [cbn; ring|]. rewrite count_cons, plus_INR. cbn [map rtotal fold_right]. unfold rtotal in IH. rewrite IH. destruct (Nat.eqb x p); cbn [INR]; ring.
Qed.
Lemma combine_maps {A B D} (f : A -> B) (g : A -> D) l : combine (map f l) (map g l) = map (fun x => (f x, g x)) l.
Proof. induction l as [|x l IH]; [reflexivity|]. cbn [map combine]. rewrite IH. reflexivity. Qed.

Section Moments.
  Variables (argsort : list nat -> list nat) (ang2pix : nat -> R -> R -> nat) (npix2nside : nat -> result nat).
  Variables (chunk nside : nat) (sigma : R) (kappa gamma1 gamma2 : list R).
  Let g (p : nat) : C := Cdiv (nth p gamma1 0, nth p gamma2 0) (RtoC (1 - nth p kappa 0)).
  Let pixels (lon lat : list R) := map (fun '(x, y) => ang2pix nside x y) (combine lon lat).
  Let start := (repeat 0%nat (length kappa), repeat (RtoC 0) (length kappa)).
  Hypothesis Hso : sorts argsort.
  Hypothesis Hc : (0 < chunk)%nat.
  Hypothesis H1 : length gamma1 = length kappa.
  Hypothesis H2 : length gamma2 = length kappa.
  Hypothesis Hn : npix2nside (length kappa) = Ok nside.
  Hypothesis Hp : forall x y, (ang2pix nside x y < length kappa)%nat.
  Hypothesis Hs : 0 < sigma < sqrt (1 / 2).

  Lemma observe_sum lon lat u p : length lat = length lon -> length u = (2 * length lon)%nat -> (p < length kappa)%nat ->
    number_at_pixel p (observe numbers argsort ang2pix npix2nside chunk nside sigma lon lat kappa gamma1 gamma2 start u) = count_occ Nat.eq_dec (pixels lon lat) p /\
    forall c, component c (shear_at p (observe numbers argsort ang2pix npix2nside chunk nside sigma lon lat kappa gamma1 gamma2 start u)) =
      total_of (map (fun x e => if Nat.eqb x p then component c (sheared (g p) e) else 0) (pixels lon lat)) (shapes_of (length lon) sigma u).
  Proof.
    intros Ll Lu Hpp. unfold observe, shapes_of. fold (@scalar nat (length lon)). fold (@scalar R sigma).
    destruct (intnorm_shapes (length lon) sigma u Hs Lu) as (e & r & -> & Le). cbn [bind fst].
    destruct (galaxy_shear_objects ang2pix npix2nside chunk lon lat e kappa gamma1 gamma2 true nside Hc ltac:(congruence) ltac:(congruence) H1 H2 Hn Hp) as (out & -> & Lo & Ho).
    cbn [bind]. fold (pixels lon lat). assert (Lpx : length (pixels lon lat) = length lon) by (unfold pixels; rewrite map_length, combine_length; lia).
    assert (Eo : out = map (fun xe => sheared (g (fst xe)) (snd xe)) (combine (pixels lon lat) e)).
    { apply (nth_ext _ _ (RtoC 0) (RtoC 0)); [rewrite map_length, combine_length; lia|]. intros i Hi.
      assert (Hi1 : (i < length lon)%nat) by lia. assert (Hi2 : (i < length lat)%nat) by lia. assert (Hi3 : (i < length e)%nat) by lia.
      pose proof (nth_error_nth' lon 0 Hi1) as X. pose proof (nth_error_nth' lat 0 Hi2) as Y. pose proof (nth_error_nth' e (RtoC 0) Hi3) as E.
      set (x := nth i lon 0) in *. set (y := nth i lat 0) in *. pose proof (Hp x y) as Pk.
      assert (Pk1 : (ang2pix nside x y < length gamma1)%nat) by lia. assert (Pk2 : (ang2pix nside x y < length gamma2)%nat) by lia.
      rewrite (nth_error_nth _ _ (RtoC 0) (Ho i x y _ _ _ _ X Y E (nth_error_nth' kappa 0 Pk) (nth_error_nth' gamma1 0 Pk1) (nth_error_nth' gamma2 0 Pk2))).
      symmetry. apply nth_error_nth. 
      assert (Ec : nth_error (combine (pixels lon lat) e) i = Some (ang2pix nside x y, nth i e (RtoC 0))).
      { assert (Lc : (i < length (combine (pixels lon lat) e))%nat) by (rewrite combine_length; lia). rewrite (nth_error_nth' _ (0%nat, RtoC 0) Lc). rewrite combine_nth by lia. f_equal. f_equal.
        apply nth_error_nth. unfold pixels. assert (Lc' : (i < length (combine lon lat))%nat) by (rewrite combine_length; lia).
        pose proof (nth_error_nth' (combine lon lat) (0, 0) Lc') as N. rewrite combine_nth in N by lia. rewrite (map_nth_error _ _ _ N). reflexivity. }
      rewrite (map_nth_error _ _ _ Ec). reflexivity. }
    destruct (add_shears_spec argsort (pixels lon lat) out (fst start) (snd start) Hso ltac:(lia) ltac:(cbn; rewrite !repeat_length; reflexivity)) as [A _].
    unfold start in *. cbn [fst snd] in A. rewrite repeat_length in A.
    destruct A as (num' & she' & -> & _ & _ & A).
    { apply Forall_forall. intros q Hq. unfold pixels in Hq. apply in_map_iff in Hq as ([x y] & <- & _). apply Hp. }
    destruct (A p Hpp) as [A1 A2]. unfold number_at_pixel, shear_at. rewrite A1, A2. split.
    - rewrite nth_repeat. reflexivity.
    - intro c. rewrite Eo, <- (pixel_total (fun x => sheared (g x))) by lia. rewrite nth_repeat.
      replace (Cplus (RtoC 0) (csum (at_pixel (pixels lon lat) (map (fun xe => sheared (g (fst xe)) (snd xe)) (combine (pixels lon lat) e)) p)))
        with (csum (at_pixel (pixels lon lat) (map (fun xe => sheared (g (fst xe)) (snd xe)) (combine (pixels lon lat) e)) p)) by (symmetry; apply Cplus_0_l). reflexivity.
  Qed.

  Lemma one_const : one_shape sigma (fun _ => 1) 1. Proof. apply (means_const 2 1). Qed.
  Lemma one_zero : one_shape sigma (fun _ => 0) 0. Proof. apply (means_const 2 0). Qed.
  Lemma one_component p c : Cmod (g p) < 1 -> one_shape sigma (fun e => component c (sheared (g p) e)) (component c (g p)).
  Proof. intro Hg. apply intnorm_sheared; [apply (eta_square sigma Hs)|exact Hg]. Qed.
  Lemma one_in p c x : Cmod (g p) < 1 -> one_shape sigma (fun e => if Nat.eqb x p then component c (sheared (g p) e) else 0) (if Nat.eqb x p then component c (g p) else 0).
  Proof. intro Hg. destruct (Nat.eqb x p); [apply one_component, Hg|apply one_zero]. Qed.
  Lemma all_in p c l : Cmod (g p) < 1 -> Forall2 (one_shape sigma) (map (fun x e => if Nat.eqb x p then component c (sheared (g p) e) else 0) l) (map (fun x => if Nat.eqb x p then component c (g p) else 0) l).
  Proof. intro Hg. induction l as [|x l IH]; cbn [map]; constructor; [apply one_in, Hg|exact IH]. Qed.

  (** Given the positions. *)
  Lemma observe_first lon lat p c : length lat = length lon -> (p < length kappa)%nat -> Cmod (g p) < 1 ->
    means (2 * length lon) (fun u => component c (shear_at p (observe numbers argsort ang2pix npix2nside chunk nside sigma lon lat kappa gamma1 gamma2 start u)))
      (INR (count_occ Nat.eq_dec (pixels lon lat) p) * component c (g p)).
  Proof.
    intros Ll Hpp Hg. assert (Lpx : length (pixels lon lat) = length lon) by (unfold pixels; rewrite map_length, combine_length; lia).
    eapply means_len; [apply (sum_mean (length lon) (2 * length lon) (shapes_of (length lon) sigma) (one_shape sigma)) with (pre := []) (ps := []); [| | |apply (all_in p c (pixels lon lat) Hg)|constructor|]| |].
    - intros u Lu. unfold shapes_of. destruct (intnorm_shapes (length lon) sigma u Hs Lu) as (e & r & -> & Le). exact Le.
    - apply one_const.
    - intros fs qs. apply shapes_law. exact Hs.
    - cbn [length]. rewrite map_length. lia.
    - intros u Lu. cbn beta. cbn [each_then]. symmetry. apply (proj2 (observe_sum lon lat u p Ll Lu Hpp)).
    - rewrite rtotal_count. cbn. ring.
  Qed.
  Lemma observe_second lon lat p q c d V : length lat = length lon -> (p < length kappa)%nat -> (q < length kappa)%nat -> Cmod (g p) < 1 -> Cmod (g q) < 1 ->
    one_shape sigma (fun e => component c (sheared (g p) e) * component d (sheared (g p) e)) V ->
    means (2 * length lon) (fun u => component c (shear_at p (observe numbers argsort ang2pix npix2nside chunk nside sigma lon lat kappa gamma1 gamma2 start u)) *
        component d (shear_at q (observe numbers argsort ang2pix npix2nside chunk nside sigma lon lat kappa gamma1 gamma2 start u)))
      (INR (count_occ Nat.eq_dec (pixels lon lat) p) * component c (g p) * (INR (count_occ Nat.eq_dec (pixels lon lat) q) * component d (g q)) +
       (if Nat.eqb p q then INR (count_occ Nat.eq_dec (pixels lon lat) p) * (V - component c (g p) * component d (g p)) else 0)).
  Proof.
    intros Ll Hpp Hq Hg Hgq HV. assert (Lpx : length (pixels lon lat) = length lon) by (unfold pixels; rewrite map_length, combine_length; lia).
    eapply means_len; [apply (square_mean (length lon) (2 * length lon) (shapes_of (length lon) sigma) (one_shape sigma)) with (pre := []) (ps := []) (ts := map (fun x => if Nat.eqb x p then if Nat.eqb p q then V else 0 else 0) (pixels lon lat));
      [| | |apply (all_in p c (pixels lon lat) Hg)|apply (all_in q d (pixels lon lat) Hgq)| | |constructor|]| |].
    - intros u Lu. unfold shapes_of. destruct (intnorm_shapes (length lon) sigma u Hs Lu) as (e & r & -> & Le). exact Le.
    - apply one_const.
    - intros fs qs. apply shapes_law. exact Hs.
    - rewrite combine_maps. clear Lpx. induction (pixels lon lat) as [|x l IH]; cbn [map]; constructor; [|exact IH]. cbn [fst snd].
      unfold one_shape. destruct (Nat.eqb_spec x p) as [->|Nx].
      + destruct (Nat.eqb_spec p q) as [<-|Npq]; [exact HV|]. eapply means_eq; [apply (means_const 2 0)| |reflexivity]. intro; cbn beta; ring.
      + eapply means_eq; [apply (means_const 2 0)| |reflexivity]. intro; cbn beta; ring.
    - rewrite !map_length. reflexivity.
    - cbn [length]. rewrite map_length. lia.
    - intros u Lu. cbn beta. cbn [each_then]. rewrite (proj2 (observe_sum lon lat u p Ll Lu Hpp)), (proj2 (observe_sum lon lat u q Ll Lu Hq)). reflexivity.
    - rewrite combine_maps, map_map, !rtotal_count. cbn [fst snd].
      rewrite (map_ext _ (fun x => if Nat.eqb x p then (if Nat.eqb p q then component c (g p) * component d (g p) else 0) else 0)).
      2:{ intro x. destruct (Nat.eqb_spec x p) as [->|]; [|ring]. destruct (Nat.eqb_spec p q) as [<-|]; ring. }
      rewrite rtotal_count. change (product []) with 1. destruct (Nat.eqb p q); ring.
  Qed.
End Moments.

(** The map of shears for one batch of galaxies in the notebook, with [ellipticity_intnorm], [galaxy_shear] and the sums in
    pixels, for Poisson numbers of galaxies with the means [lams], which are anywhere in their pixels.  The expected map is
    the reduced shear times the expected number.  Beyond the product of the means, values in different pixels and components are
    uncorrelated: what adds is the second moment of a single observed shape, times the expected number, in the same pixel only. *)
Theorem shear_map_moments argsort ang2pix npix2nside chunk nside sigma kappa gamma1 gamma2 lams (places : list nat -> list R * list R) :
  sorts argsort -> (0 < chunk)%nat -> length gamma1 = length kappa -> length gamma2 = length kappa -> npix2nside (length kappa) = Ok nside ->
  (forall x y, (ang2pix nside x y < length kappa)%nat) -> 0 < sigma < sqrt (1 / 2) -> length lams = length kappa ->
  (forall ns, length ns = length kappa -> length (fst (places ns)) = list_sum ns /\ length (snd (places ns)) = list_sum ns /\
    forall p, (p < length kappa)%nat ->
      count_occ Nat.eq_dec (map (fun '(x, y) => ang2pix nside x y) (combine (fst (places ns)) (snd (places ns)))) p = nth p ns 0%nat) ->
  let g p := Cdiv (nth p gamma1 0, nth p gamma2 0) (RtoC (1 - nth p kappa 0)) in
  (forall p, (p < length kappa)%nat -> Cmod (g p) < 1) ->
  let map_at p ns l := shear_at p (observe numbers argsort ang2pix npix2nside chunk nside sigma (fst (places ns)) (snd (places ns))
    kappa gamma1 gamma2 (repeat 0%nat (length kappa), repeat (RtoC 0) (length kappa)) l) in
  forall p c, (p < length kappa)%nat ->
    galaxies_mean lams (fun ns l => component c (map_at p ns l)) (nth p lams 0 * component c (g p)) /\
    forall d, exists V,
      means 2 (fun l => each_of [fun e => component c (sheared (g p) e) * component d (sheared (g p) e)]
        (ellipticity_intnorm numbers (scalar 1%nat) (scalar sigma) l)) V /\
      forall q, (q < length kappa)%nat ->
        galaxies_mean lams (fun ns l => component c (map_at p ns l) * component d (map_at q ns l))
          (nth p lams 0 * component c (g p) * (nth q lams 0 * component d (g q)) + if Nat.eqb p q then nth p lams 0 * V else 0).
Proof.
  intros Hso Hc H1 H2 Hn Hp Hs Hl Hpl g Hg map_at p c Hpp. split.
  - exists (fun ns => INR (nth p ns 0%nat) * component c (g p)). split.
    + intros ns Ln. rewrite Hl in Ln. destruct (Hpl ns Ln) as (L1 & L2 & Hco). unfold map_at. rewrite <- L1, <- (Hco p Hpp).
      apply observe_first; auto; try congruence. exact (Hg p Hpp).
    + eapply counts_ext; [apply (counts_scal lams _ _ (component c (g p)) (counts_one lams p ltac:(lia)))|intros; cbn beta; ring|ring].
  - intro d. destruct (sheared_product (sigma_eta sigma) (g p) c d (proj1 (eta_square sigma Hs)) (Hg p Hpp)) as [V HV]. exists V. split.
    { apply (intnorm_single (scalar 1%nat) (scalar sigma) sigma Hs (scalar_paired 1%nat sigma)). exact HV. }
    intros q Hq.
    exists (fun ns => INR (nth p ns 0%nat) * component c (g p) * (INR (nth q ns 0%nat) * component d (g q)) +
      if Nat.eqb p q then INR (nth p ns 0%nat) * (V - component c (g p) * component d (g p)) else 0). split.
    + intros ns Ln. rewrite Hl in Ln. destruct (Hpl ns Ln) as (L1 & L2 & Hco). unfold map_at. rewrite <- L1, <- (Hco p Hpp), <- (Hco q Hq).
      apply observe_second; auto; try congruence; [exact (Hg p Hpp)|exact (Hg q Hq)].
    + eapply counts_ext; [apply (counts_plus lams _ _ _ _ (counts_scal lams _ _ (component c (g p) * component d (g q)) (counts_two lams p q ltac:(lia) ltac:(lia)))
        (counts_scal lams _ _ (if Nat.eqb p q then V - component c (g p) * component d (g p) else 0) (counts_one lams p ltac:(lia))))| |].
      * intros ns _. cbn beta. destruct (Nat.eqb p q); ring.
      * destruct (Nat.eqb_spec p q) as [<-|]; ring.
Qed.
Print Assumptions shear_map_moments.

(** Two pixels with the reduced shears 1/10 and (1/5) / (1 - 1/2), and 3 and 4 galaxies on average. *)
Definition two_pixels (_ : nat) (x _ : R) : nat := if leb x 1 then 0%nat else 1%nat.
Definition two_places (ns : list nat) : list R * list R := (repeat 0 (nth 0 ns 0%nat) ++ repeat 2 (nth 1 ns 0%nat), repeat 0 (list_sum ns)).
Lemma two_count n : forall m k p, (n + m <= k)%nat ->
  count_occ Nat.eq_dec (map (fun '(x, y) => two_pixels 1 x y) (combine (repeat 0 n ++ repeat 2 m) (repeat 0 k))) p = if Nat.eqb p 0 then n else if Nat.eqb p 1 then m else 0%nat.
Proof.
  induction n as [|n IH].
  - intro m. cbn [repeat app]. induction m as [|m IH]; intros k p Hk; [destruct p as [|[]]; reflexivity|]. destruct k as [|k]; [lia|]. cbn [repeat combine map]. rewrite count_cons, IH by lia.
    unfold two_pixels. rewrite Proof_Numeric.leb_false by lra. destruct p as [|[]]; reflexivity.
  - intros m k p Hk. destruct k as [|k]; [lia|]. cbn [repeat app combine map]. rewrite count_cons, IH by lia.
    unfold two_pixels. rewrite Proof_Numeric.leb_true by lra. destruct p as [|[]]; reflexivity.
Qed.
Example shear_map_example :
  let map_at p ns l := shear_at p (observe numbers insertion two_pixels (fun _ => Ok 1%nat) 5 1 (1 / 4) (fst (two_places ns)) (snd (two_places ns))
    [0; 1 / 2] [1 / 10; 1 / 5] [0; 0] ([0; 0]%nat, [RtoC 0; RtoC 0]) l) in
  galaxies_mean [3; 4] (fun ns l => component true (map_at 1%nat ns l)) (8 / 5) /\
  galaxies_mean [3; 4] (fun ns l => component true (map_at 0%nat ns l) * component true (map_at 1%nat ns l)) (12 / 25).
Proof.
  intro map_at. assert (Hs : 1 / 4 < sqrt (1 / 2)) by (rewrite <- (sqrt_square (1 / 4)) by lra; apply sqrt_lt_1; lra).
  assert (G : forall p, (p < 2)%nat -> Cdiv (nth p [1 / 10; 1 / 5] 0, nth p [0; 0] 0) (RtoC (1 - nth p [0; 1 / 2] 0)) = RtoC (if Nat.eqb p 0 then 1 / 10 else 2 / 5)).
  { intros [|[|p]] Hp; [| |lia]; cbn [nth Nat.eqb]; unfold Cdiv, Cinv, Cmult, RtoC; cbn [fst snd]; f_equal; field; lra. }
  pose proof (shear_map_moments insertion two_pixels (fun _ => Ok 1%nat) 5 1 (1 / 4) [0; 1 / 2] [1 / 10; 1 / 5] [0; 0] [3; 4] two_places insertion_sorts
    ltac:(lia) eq_refl eq_refl eq_refl) as M.
  specialize (M ltac:(intros x y; unfold two_pixels; destruct (leb x 1); cbn; lia) ltac:(lra) eq_refl).
  specialize (M ltac:(intros [|n [|m [|]]] Ln; try discriminate; unfold two_places; cbn [nth fst snd list_sum fold_right]; rewrite app_length, !repeat_length;
    split; [lia|split; [lia|]]; intros p Hp; rewrite two_count by lia; destruct p as [|[|]]; [reflexivity|reflexivity|cbn in Hp; lia])).
  specialize (M ltac:(intros p Hp; cbn beta; rewrite G by exact Hp; rewrite Cmod_R; destruct (Nat.eqb p 0); rewrite Rabs_right; lra)). cbv zeta beta in M. split.
  - destruct (M 1%nat true ltac:(cbn; lia)) as [M1 _]. rewrite (G 1%nat ltac:(lia)) in M1. cbn [Nat.eqb nth] in M1. unfold component, RtoC in M1. cbn [fst] in M1.
    replace (8 / 5) with (4 * (2 / 5)) by field. exact M1.
  - destruct (M 0%nat true ltac:(cbn; lia)) as [_ M2]. destruct (M2 true) as (V & _ & M3). specialize (M3 1%nat ltac:(cbn; lia)).
    rewrite (G 0%nat ltac:(lia)), (G 1%nat ltac:(lia)) in M3. cbn [Nat.eqb nth] in M3. unfold component, RtoC in M3. cbn [fst] in M3.
    replace (12 / 25) with (3 * (1 / 10) * (4 * (2 / 5)) + 0) by field. exact M3.
Qed.

(** The noise level of the notebook: without shear, [4 pi / npix] times the mean square per component of the map, over the expected
    number [nbar], is [4 pi / ntot * sigma_e^2] to two percent (at most 1/5 for [sigma_e], which is 0.01 in the notebook). *)
Theorem shear_map_noise argsort ang2pix npix2nside chunk nside sigma kappa gamma1 gamma2 nbar (places : list nat -> list R * list R) :
  sorts argsort -> (0 < chunk)%nat -> length gamma1 = length kappa -> length gamma2 = length kappa -> npix2nside (length kappa) = Ok nside ->
  (forall x y, (ang2pix nside x y < length kappa)%nat) -> 0 < sigma <= 1 / 5 -> 0 < nbar ->
  (forall ns, length ns = length kappa -> length (fst (places ns)) = list_sum ns /\ length (snd (places ns)) = list_sum ns /\
    forall p, (p < length kappa)%nat ->
      count_occ Nat.eq_dec (map (fun '(x, y) => ang2pix nside x y) (combine (fst (places ns)) (snd (places ns)))) p = nth p ns 0%nat) ->
  Forall (fun x => x = 0) gamma1 -> Forall (fun x => x = 0) gamma2 -> Forall (fun x => x <> 1) kappa ->
  let map_at p ns l := shear_at p (observe numbers argsort ang2pix npix2nside chunk nside sigma (fst (places ns)) (snd (places ns))
    kappa gamma1 gamma2 (repeat 0%nat (length kappa), repeat (RtoC 0) (length kappa)) l) in
  let npix := INR (length kappa) in let ntot := nbar * npix in
  exists v, (forall p, (p < length kappa)%nat -> galaxies_mean (repeat nbar (length kappa)) (fun ns l => (Cmod (map_at p ns l) / nbar) ^ 2 / 2) v) /\
    Rabs (4 * PI / npix * v - 4 * PI / ntot * sigma ^ 2) <= 4 * PI / ntot * sigma ^ 2 / 50.
Proof.
  intros Hso Hc H1 H2 Hn Hp Hs Hb Hpl Z1 Z2 Zk map_at npix ntot. pose proof fifth as H5. assert (Hs' : 0 < sigma < sqrt (1 / 2)) by lra.
  assert (Np : 0 < npix) by (unfold npix; apply lt_0_INR; specialize (Hp 0 0); lia).
  destruct (intnorm_variance (scalar 1%nat) (scalar sigma) sigma Hs (scalar_paired 1%nat sigma)) as (m & Mm & Bm).
  assert (G0 : forall p, (p < length kappa)%nat -> Cdiv (nth p gamma1 0, nth p gamma2 0) (RtoC (1 - nth p kappa 0)) = RtoC 0).
  { intros p Hpp. rewrite Forall_forall in Z1, Z2, Zk. rewrite (Z1 (nth p gamma1 0)), (Z2 (nth p gamma2 0)) by (apply nth_In; lia).
    pose proof (Zk (nth p kappa 0) (nth_In _ _ Hpp)) as K. unfold Cdiv, Cinv, Cmult, RtoC. cbn [fst snd]. f_equal; field; intro E; apply K; nra. }
  assert (S0 : forall e, sheared (RtoC 0) e = e).
  { intros [e1 e2]. unfold sheared, Cdiv, Cinv, Cmult, Cplus, Cconj, RtoC. cbn [fst snd]. f_equal; field; rewrite ?Ropp_0, ?Rmult_0_l, ?Rmult_0_r; lra. }
  exists (m / (2 * nbar)). split.
  - intros p Hpp.
    pose proof (shear_map_moments argsort ang2pix npix2nside chunk nside sigma kappa gamma1 gamma2 (repeat nbar (length kappa)) places Hso Hc H1 H2 Hn Hp Hs' (repeat_length _ _) Hpl
      ltac:(intros q Hq; cbn beta; rewrite (G0 q Hq), Cmod_0; lra)) as M. cbv zeta beta in M.
    destruct (M p true Hpp) as [_ Mt]. destruct (Mt true) as (V1 & E1 & F1). destruct (M p false Hpp) as [_ Mf]. destruct (Mf false) as (V2 & E2 & F2).
    specialize (F1 p Hpp). specialize (F2 p Hpp). rewrite Nat.eqb_refl in F1, F2. rewrite (G0 p Hpp) in *.
    assert (Lp : nth p (repeat nbar (length kappa)) 0 = nbar) by (rewrite (nth_indep _ 0 nbar) by (rewrite repeat_length; exact Hpp); apply nth_repeat). rewrite Lp in *.
    assert (Em : V1 + V2 = m).
    { apply (means_unique 2 _ _ _) with (2 := Mm). eapply means_eq; [apply (means_lin 2 _ _ 1 1 _ _ E1 E2)| |ring]. intro l. cbn beta.
      destruct (ellipticity_intnorm numbers (scalar 1%nat) (scalar sigma) l) as [[[|e [|]] r]|x]; cbn [each_of each]; rewrite ?S0; unfold component; ring. }
    destruct F1 as (G1 & A1 & B1), F2 as (G2 & A2 & B2).
    exists (fun ns => / (2 * nbar ^ 2) * (G1 ns + G2 ns)). split.
    + intros ns Ln. eapply means_eq; [apply (means_lin _ _ _ (/ (2 * nbar ^ 2)) (/ (2 * nbar ^ 2)) _ _ (A1 ns Ln) (A2 ns Ln))| |ring].
      intro l. cbn beta. fold (map_at p ns l). unfold component. unfold Rdiv. rewrite Rpow_mult_distr. unfold Cmod. rewrite pow2_sqrt by (apply Rplus_le_le_0_compat; apply pow2_ge_0). field. lra.
    + eapply counts_ext; [apply (counts_scal _ _ _ (/ (2 * nbar ^ 2)) (counts_plus _ _ _ _ _ B1 B2))|reflexivity|].
      rewrite <- Em. unfold component, RtoC. cbn [fst snd]. field. lra.
  - unfold ntot. replace (4 * PI / npix * (m / (2 * nbar)) - 4 * PI / (nbar * npix) * sigma ^ 2) with (4 * PI / (nbar * npix) * (m / 2 - sigma ^ 2)) by (field; lra).
    pose proof PI_RGT_0 as Pi. assert (Q : 0 < 4 * PI / (nbar * npix)) by (apply Rdiv_lt_0_compat; nra).
    rewrite Rabs_mult, (Rabs_right (4 * PI / (nbar * npix))) by lra. replace (4 * PI / (nbar * npix) * sigma ^ 2 / 50) with (4 * PI / (nbar * npix) * (sigma ^ 2 / 50)) by (field; lra).
    apply Rmult_le_compat_l; lra.
Qed.
Print Assumptions shear_map_noise.

(** The same pixels without shear, 3 galaxies on average in each of them, and the value of the notebook. *)
Example shear_map_noise_example : exists v, 98 / 100 * (1 / 30000) <= v <= 102 / 100 * (1 / 30000) /\
  galaxies_mean [3; 3] (fun ns l => (Cmod (shear_at 1 (observe numbers insertion two_pixels (fun _ => Ok 1%nat) 5 1 (1 / 100) (fst (two_places ns)) (snd (two_places ns))
    [0; 1 / 2] [0; 0] [0; 0] ([0; 0]%nat, [RtoC 0; RtoC 0]) l)) / 3) ^ 2 / 2) v.
Proof.
  destruct (shear_map_noise insertion two_pixels (fun _ => Ok 1%nat) 5 1 (1 / 100) [0; 1 / 2] [0; 0] [0; 0] 3 two_places insertion_sorts
    ltac:(lia) eq_refl eq_refl eq_refl ltac:(intros x y; unfold two_pixels; destruct (leb x 1); cbn; lia) ltac:(lra) ltac:(lra)) as (v & Mv & B).
  - intros [|n [|m [|]]] Ln; try discriminate. unfold two_places. cbn [nth fst snd list_sum fold_right]. rewrite app_length, !repeat_length.
    split; [lia|split; [lia|]]. intros p Hp. rewrite two_count by lia. destruct p as [|[|]]; [reflexivity|reflexivity|cbn in Hp; lia].
  - repeat constructor.
  - repeat constructor.
  - repeat constructor; lra.
  - exists v. split; [|exact (Mv 1%nat ltac:(cbn; lia))]. cbn [length] in B. change (INR 2) with (1 + 1) in B. pose proof PI_RGT_0 as Pi.
    replace (4 * PI / (1 + 1) * v - 4 * PI / (3 * (1 + 1)) * (1 / 100) ^ 2) with (2 * PI * (v - 1 / 30000)) in B by field.
    replace (4 * PI / (3 * (1 + 1)) * (1 / 100) ^ 2 / 50) with (2 * PI * (1 / 1500000)) in B by field.
    rewrite Rabs_mult, (Rabs_right (2 * PI)) in B by lra. apply Rmult_le_reg_l in B; [|lra]. apply Rabs_le_between in B. lra.
Qed.
