(** Properties of the maps that are made from all shells. *)
From Coq Require Import Reals Lra Lia List Arith.
From Verif Require Import Base RSum Model_Numeric Model_Arrays Model_Effective Model_Windows Model_Galaxies Model_Lensing Model_Points Model_Spectra Model_Fields
  Model_Transform Model_FieldKinds Model_Maps Model_Convergence.
From Verif Require Import Spec_Numeric Spec_Arrays Spec_Windows Spec_Galaxies Spec_Spectra Spec_Fields Spec_Iternorm Spec_Gauss Spec_Transform Spec_Maps Spec_Points Spec_Convergence.
From Verif Require Import Proof_Windows Proof_Spectra Proof_Fields Proof_Effective Proof_Lensing Proof_Normals Proof_Reject Proof_Maps Proof_Convergence Prop_Lensing Prop_Effective Prop_Fields Prop_Maps.
Import ListNotations.
Local Open Scope R_scope.

Lemma means_rsum N K (f : nat -> list R -> R) a (m : nat -> R) : (forall s, (s < K)%nat -> means N (f s) (m s)) ->
  means N (fun u => rsum K (fun s => a s * f s u)) (rsum K (fun s => a s * m s)).
Proof.
  induction K as [|K IH]; intro H; [exact (means_const N 0)|]. cbn [rsum].
  eapply means_eq; [apply (means_lin N _ _ 1 (a K) _ _ (IH (fun s Hs => H s (Nat.lt_lt_succ_r _ _ Hs))) (H K (Nat.lt_succ_diag_r K)))| |ring].
  intro u. cbn beta. ring.
Qed.

Lemma correlation_sums n K (a b : nat -> R) (c : nat -> nat -> nat -> R) (v : nat -> R) x :
  (forall l, (l < n)%nat -> v l = rsum K (fun s => rsum K (fun t => a s * b t * c l s t))) ->
  correlation n v x = rsum K (fun s => a s * rsum K (fun t => b t * correlation n (fun l => c l s t) x)).
Proof.
  intro H. unfold correlation.
  rewrite (rsum_ext n _ (fun l => rsum K (fun s => a s * rsum K (fun t => b t * ((2 * INR l + 1) / (4 * PI) * c l s t * legendre l x))))).
  - rewrite rsum_swap. apply rsum_ext. intros s _. rewrite rsum_scal. f_equal. rewrite rsum_swap. apply rsum_ext. intros t _. apply rsum_scal.
  - intros l Hl. rewrite H by exact Hl. rewrite <- rsum_scal, <- rsum_scal_r. apply rsum_ext. intros s _.
    rewrite <- rsum_scal, <- rsum_scal_r, <- rsum_scal. apply rsum_ext. intros t _. ring.
Qed.

Lemma maps_values N npix maps cosine angles K xi : maps_correlation N npix maps cosine angles K xi -> (0 < K)%nat ->
  (forall u, exists ms, maps u = (ms, None) /\ length ms = K /\ forall d, In d ms -> length d = npix) /\
  forall i j p q, (i < K)%nat -> (j < K)%nat -> (p < npix)%nat -> (q < npix)%nat -> angles (cosine p q) ->
    means N (fun u => nth p (nth i (fst (maps u)) []) 0 * nth q (nth j (fst (maps u)) []) 0) (xi i j (cosine p q)).
Proof.
  intros [HL H] HK. split.
  - intro u. destruct (H 0%nat 0%nat HK HK) as (xi0 & (v & v' & Hm & _) & _). destruct (Hm u) as (ms & E & _).
    exists ms. split; [exact E|]. specialize (HL u) as Lu. rewrite E in Lu. cbn [fst] in Lu. split; [exact Lu|].
    intros d Hd. apply In_nth_error in Hd as (i & Hi). assert (Hi' : (i < K)%nat) by (rewrite <- Lu; apply nth_error_Some; congruence).
    destruct (H i i Hi' Hi') as (xi1 & (w & w' & Hm' & _) & _). destruct (Hm' u) as (ms' & E' & E1 & _). rewrite E in E'. injection E' as <-.
    rewrite Hi in E1. injection E1 as ->. rewrite map_length, seq_length. reflexivity.
  - intros i j p q Hi Hj Hp Hq Ha. destruct (H i j Hi Hj) as (xi1 & (v & v' & Hm & Hv) & Hx).
    eapply means_eq; [apply (proj2 (Hv p q Hp Hq _)); reflexivity| |apply Hx; exact Ha].
    intro u. cbn beta. destruct (Hm u) as (ms & -> & E1 & E2). cbn [fst].
    rewrite (nth_error_nth _ _ [] E1), (nth_error_nth _ _ [] E2), !nth_table by assumption. reflexivity.
Qed.

(** Two signals that are weighted sums of the maps have the spectrum of [effective_cls]. *)
Lemma signals_predicted N npix maps cosine angles n K c cls (w1 : array R) (w2 : option (array R)) r1 r2 x1 x2 s1 s2 :
  let w2' := match w2 with Some w => w | None => w1 end in
  (0 < K)%nat -> maps_correlation N npix maps cosine angles K (fun i j => correlation n (fun l => c l i j)) ->
  triangle K (length cls) -> longest cls n -> covariance_of 0 cls n K c ->
  ashape w1 = K :: r1 -> ashape w2' = K :: r2 -> inside r1 x1 -> inside r2 x2 ->
  (forall u, s1 u = Ok (map (fun p => rsum K (fun s => aget w1 (s :: x1) * nth p (nth s (fst (maps u)) []) 0)) (seq 0 npix))) ->
  (forall u, s2 u = Ok (map (fun p => rsum K (fun s => aget w2' (s :: x2) * nth p (nth s (fst (maps u)) []) 0)) (seq 0 npix))) ->
  exists out v, effective_cls cls w1 w2 None = Ok (r1 ++ r2 ++ [n], out) /\ out (x1 ++ x2) = Some v /\ length v = n /\
    signal_correlation N npix s1 s2 cosine angles (correlation n (fun l => nth l v 0)).
Proof.
  intros w2' HK HM Ht Hn Hc E1 E2 H1 H2 S1 S2.
  destruct (effective_cls_ok cls w1 w2 None K n r1 r2 c Ht E1 E2 Hn Hc) as (out & Eo & Ho).
  destruct (Ho x1 x2 H1 H2) as (v & Ev & Lv & Vv). fold w2' in Vv.
  exists out, v. split; [exact Eo|]. split; [exact Ev|]. split; [exact Lv|].
  exists (fun p u => rsum K (fun s => aget w1 (s :: x1) * nth p (nth s (fst (maps u)) []) 0)),
    (fun p u => rsum K (fun s => aget w2' (s :: x2) * nth p (nth s (fst (maps u)) []) 0)).
  split; [intro u; split; [apply S1|apply S2]|]. intros p q Hp Hq Ha.
  destruct (maps_values _ _ _ _ _ _ _ HM HK) as [_ MV].
  assert (M : means N (fun u => rsum K (fun s => aget w1 (s :: x1) * nth p (nth s (fst (maps u)) []) 0) * rsum K (fun s => aget w2' (s :: x2) * nth q (nth s (fst (maps u)) []) 0))
    (correlation n (fun l => nth l v 0) (cosine p q))).
  { eapply means_eq; [apply (means_rsum N K (fun s u => rsum K (fun t => aget w2' (t :: x2) * (nth p (nth s (fst (maps u)) []) 0 * nth q (nth t (fst (maps u)) []) 0)))
      (fun s => aget w1 (s :: x1)) (fun s => rsum K (fun t => aget w2' (t :: x2) * correlation n (fun l => c l s t) (cosine p q))))| |].
    - intros s Hs. apply (means_rsum N K (fun t u => nth p (nth s (fst (maps u)) []) 0 * nth q (nth t (fst (maps u)) []) 0)). intros t Htt.
      apply MV; assumption.
    - intro u. cbn beta. rewrite <- rsum_scal_r. apply rsum_ext. intros s _. rewrite Rmult_assoc. f_equal. rewrite <- rsum_scal. apply rsum_ext. intros t _. ring.
    - symmetry. apply correlation_sums. exact Vv. }
  intro m. split; [|intros ->; exact M]. intro M'. exact (means_unique _ _ _ _ M' M).
Qed.

Lemma convergence_signal N npix maps cosine angles xi cosmo shells ngal rest w x :
  maps_correlation N npix maps cosine angles (length shells) xi ->
  ashape ngal = length shells :: rest -> (length rest <= 1)%nat -> multi_plane_weights ngal shells cosmo = Ok w -> inside rest x ->
  sum_of (column ngal (length shells) x) <> 0 ->
  ashape w = length shells :: rest /\ (0 < length shells)%nat /\
  forall u, signal maps (mean_convergence cosmo (column ngal (length shells) x) shells npix) u =
    Ok (map (fun p => rsum (length shells) (fun s => aget w (s :: x) * nth p (nth s (fst (maps u)) []) 0)) (seq 0 npix)).
Proof.
  intros HM Es Hr Hw Hx H0.
  assert (HK : (0 < length shells)%nat) by (destruct (length shells); [exfalso; apply H0; reflexivity|lia]).
  split; [|split; [exact HK|]].
  - unfold multi_plane_weights in Hw. rewrite Es, Nat.eqb_refl in Hw. apply bind_ok in Hw as (mat & _ & Hw). unfold matmul_transposed in Hw. cbn [ashape] in Hw.
    destruct rest as [|r [|]]; [| |cbn in Hr; lia]; cbn [rev app] in Hw; rewrite Nat.eqb_refl in Hw; injection Hw as <-; reflexivity.
  - intro u. destruct (maps_values _ _ _ _ _ _ _ HM HK) as [MV _]. destruct (MV u) as (ms & E & Lm & Hd).
    unfold signal. rewrite E. cbn [fst]. apply (mean_convergence_weights cosmo shells ngal rest w x npix ms Es Hr Hw); try assumption.
    clear - Hx. induction Hx as [|a b l l' _ _ IH]; [reflexivity|cbn; congruence].
Qed.

Lemma counts_signal N npix maps cosine angles xi K ngal rest bias w x :
  maps_correlation N npix maps cosine angles K xi ->
  ashape ngal = K :: rest -> position_weights ngal (option_map scalar bias) = Ok w -> inside rest x -> (0 < npix)%nat ->
  (forall s, In s (column ngal K x) -> 0 <= s) -> sum_of (column ngal K x) <> 0 ->
  (forall u d y, In d (fst (maps u)) -> In y d -> -1 <= match bias with Some b => b | None => 1 end * y) ->
  ashape w = K :: rest /\ (0 < K)%nat /\
  forall u, signal maps (fun ms => do counts <- galaxy_counts bias (column ngal K x) npix ms; Ok (number_contrast npix (column ngal K x) counts)) u =
    Ok (map (fun p => rsum K (fun s => aget w (s :: x) * nth p (nth s (fst (maps u)) []) 0)) (seq 0 npix)).
Proof.
  intros HM Es Hw Hx Hp Hn H0 Hb.
  assert (HK : (0 < K)%nat) by (destruct K; [exfalso; apply H0; reflexivity|lia]).
  destruct (position_weights_scalar _ _ _ _ _ _ Es Hx Hw) as [Sw _]. split; [exact Sw|]. split; [exact HK|].
  intro u. destruct (maps_values _ _ _ _ _ _ _ HM HK) as [MV _]. destruct (MV u) as (ms & E & Lm & Hd). specialize (Hb u). unfold signal. rewrite E in Hb |- *. cbn [fst] in *.
  destruct (galaxy_counts_weights ngal bias K rest x w npix ms Es Hx Hw Lm Hp Hn H0) as (counts & Ec & Vc).
  { intros d Hin. split; [apply Hd; exact Hin|]. intros y Hy. apply (Hb d y Hin Hy). }
  rewrite Ec. cbn [bind]. rewrite Vc. reflexivity.
Qed.

(** C91 *)

(** The mean convergences of two populations of galaxies have the spectrum that [effective_cls] computes from the spectra
    of the shells with the weights of [multi_plane_weights]. *)
Theorem convergence_predicted N npix maps cosine angles n c cls cosmo shells ngal rest w x1 x2 :
  maps_correlation N npix maps cosine angles (length shells) (fun i j => correlation n (fun l => c l i j)) ->
  triangle (length shells) (length cls) -> longest cls n -> covariance_of 0 cls n (length shells) c ->
  ashape ngal = length shells :: rest -> (length rest <= 1)%nat -> multi_plane_weights ngal shells cosmo = Ok w ->
  inside rest x1 -> inside rest x2 ->
  sum_of (column ngal (length shells) x1) <> 0 -> sum_of (column ngal (length shells) x2) <> 0 ->
  exists out v, effective_cls cls w None None = Ok (rest ++ rest ++ [n], out) /\ out (x1 ++ x2) = Some v /\ length v = n /\
    signal_correlation N npix (signal maps (mean_convergence cosmo (column ngal (length shells) x1) shells npix))
      (signal maps (mean_convergence cosmo (column ngal (length shells) x2) shells npix)) cosine angles (correlation n (fun l => nth l v 0)).
Proof.
  intros HM Ht Hn Hc Es Hr Hw H1 H2 Z1 Z2.
  destruct (convergence_signal _ _ _ _ _ _ _ _ _ _ _ _ HM Es Hr Hw H1 Z1) as (Sw & HK & S1).
  destruct (convergence_signal _ _ _ _ _ _ _ _ _ _ _ _ HM Es Hr Hw H2 Z2) as (_ & _ & S2).
  apply (signals_predicted N npix maps cosine angles n (length shells) c cls w None rest rest x1 x2); assumption.
Qed.
Print Assumptions convergence_predicted.

(** The contrasts of the expected numbers of galaxies of two populations have the spectrum that [effective_cls] computes
    with the weights of [position_weights], as long as no number has to be clipped. *)
Theorem counts_predicted N npix maps cosine angles n c cls K ngal rest bias w x1 x2 :
  maps_correlation N npix maps cosine angles K (fun i j => correlation n (fun l => c l i j)) -> (0 < npix)%nat ->
  triangle K (length cls) -> longest cls n -> covariance_of 0 cls n K c ->
  ashape ngal = K :: rest -> position_weights ngal (option_map scalar bias) = Ok w ->
  inside rest x1 -> inside rest x2 -> (forall x s, In s (column ngal K x) -> 0 <= s) ->
  sum_of (column ngal K x1) <> 0 -> sum_of (column ngal K x2) <> 0 ->
  (forall u d y, In d (fst (maps u)) -> In y d -> -1 <= match bias with Some b => b | None => 1 end * y) ->
  let contrast x := signal maps (fun ms => do counts <- galaxy_counts bias (column ngal K x) npix ms; Ok (number_contrast npix (column ngal K x) counts)) in
  exists out v, effective_cls cls w None None = Ok (rest ++ rest ++ [n], out) /\ out (x1 ++ x2) = Some v /\ length v = n /\
    signal_correlation N npix (contrast x1) (contrast x2) cosine angles (correlation n (fun l => nth l v 0)).
Proof.
  intros HM Hp Ht Hn Hc Es Hw H1 H2 Pn Z1 Z2 Hb contrast.
  destruct (counts_signal _ _ _ _ _ _ _ _ _ _ _ _ HM Es Hw H1 Hp (Pn x1) Z1 Hb) as (Sw & HK & S1).
  destruct (counts_signal _ _ _ _ _ _ _ _ _ _ _ _ HM Es Hw H2 Hp (Pn x2) Z2 Hb) as (_ & _ & S2).
  apply (signals_predicted N npix maps cosine angles n K c cls w None rest rest x1 x2); assumption.
Qed.
Print Assumptions counts_predicted.

(** The contrast of the numbers of one population and the mean convergence of another one have the spectrum that
    [effective_cls] computes with both weights. *)
Theorem cross_predicted N npix maps cosine angles n c cls cosmo shells ngal1 rest1 bias w1 ngal2 rest2 w2 x1 x2 :
  maps_correlation N npix maps cosine angles (length shells) (fun i j => correlation n (fun l => c l i j)) -> (0 < npix)%nat ->
  triangle (length shells) (length cls) -> longest cls n -> covariance_of 0 cls n (length shells) c ->
  ashape ngal1 = length shells :: rest1 -> position_weights ngal1 (option_map scalar bias) = Ok w1 -> inside rest1 x1 ->
  ashape ngal2 = length shells :: rest2 -> (length rest2 <= 1)%nat -> multi_plane_weights ngal2 shells cosmo = Ok w2 -> inside rest2 x2 ->
  (forall s, In s (column ngal1 (length shells) x1) -> 0 <= s) ->
  sum_of (column ngal1 (length shells) x1) <> 0 -> sum_of (column ngal2 (length shells) x2) <> 0 ->
  (forall u d y, In d (fst (maps u)) -> In y d -> -1 <= match bias with Some b => b | None => 1 end * y) ->
  exists out v, effective_cls cls w1 (Some w2) None = Ok (rest1 ++ rest2 ++ [n], out) /\ out (x1 ++ x2) = Some v /\ length v = n /\
    signal_correlation N npix
      (signal maps (fun ms => do counts <- galaxy_counts bias (column ngal1 (length shells) x1) npix ms; Ok (number_contrast npix (column ngal1 (length shells) x1) counts)))
      (signal maps (mean_convergence cosmo (column ngal2 (length shells) x2) shells npix)) cosine angles (correlation n (fun l => nth l v 0)).
Proof.
  intros HM Hp Ht Hn Hc E1 Hw1 H1 E2 Hr2 Hw2 H2 Pn Z1 Z2 Hb.
  destruct (counts_signal _ _ _ _ _ _ _ _ _ _ _ _ HM E1 Hw1 H1 Hp Pn Z1 Hb) as (Sw1 & HK & S1).
  destruct (convergence_signal _ _ _ _ _ _ _ _ _ _ _ _ HM E2 Hr2 Hw2 H2 Z2) as (Sw2 & _ & S2).
  apply (signals_predicted N npix maps cosine angles n (length shells) c cls w1 (Some w2) rest1 rest2 x1 x2); assumption.
Qed.
Print Assumptions cross_predicted.

(** For Gaussian fields the maps have the given spectra at all angles, ... *)
Theorem gaussian_maps cltovar alm2map fields gls n t npix c Y cosine :
  Forall (fun f => f = Normal) fields ->
  triangle (length fields) (length gls) -> longest gls n -> (0 < n)%nat -> triangle n t -> covariance_of 0 gls n (length fields) c ->
  (forall l, (l < n)%nat -> definite (length fields) (c l) \/ absent (length fields) (c l)) ->
  synthesises n npix Y alm2map -> harmonics n npix Y cosine ->
  (forall cl, cltovar cl = Ok (correlation (length cl) (fun l => nth l cl 0) 1)) ->
  maps_correlation (2 * (length fields * t)) npix (fun u => simulate cltovar alm2map (variates t u) fields gls None) cosine (fun _ => True)
    (length fields) (fun i j => correlation n (fun l => c l i j)).
Proof.
  intros HF Ht Hn Hn0 Htn Hc Hd Hsyn Hh Hvar.
  destruct (simulated_correlations cltovar alm2map fields gls None n t npix c Y cosine Ht Hn Hn0 Htn Hc Hd Hsyn Hh Hvar) as (value & Hsim & Hval).
  assert (HN : forall i, (i < length fields)%nat -> nth_error fields i = Some Normal).
  { intros i Hi. destruct (nth_error fields i) as [f|] eqn:E; [|apply nth_error_None in E; lia].
    rewrite Forall_forall in HF. rewrite (HF f (nth_error_In _ _ E)). reflexivity. }
  split.
  - intro u. destruct (Hsim u) as (ms & -> & Lm & _). exact Lm.
  - intros i j Hi Hj. exists (correlation n (fun l => c l i j)). split; [|reflexivity]. exists (value i), (value j). split.
    + intro u. destruct (Hsim u) as (ms & Em & Lm & Hm). exists ms. split; [exact Em|].
      destruct (nth_error ms i) as [a|] eqn:Ea; [|apply nth_error_None in Ea; lia].
      destruct (nth_error ms j) as [b|] eqn:Eb; [|apply nth_error_None in Eb; lia].
      rewrite (Hm i a Ea), (Hm j b Eb). split; reflexivity.
    + intros p q Hp Hq m. destruct (Hval i j Normal Normal p q _ (HN i Hi) (HN j Hj) Hp Hq I I eq_refl) as (z & Ez & M & _).
      cbn [limited] in Ez. injection Ez as Ez. rewrite Ez. apply M.
Qed.
Print Assumptions gaussian_maps.

(** ... and for fields of the other kinds, with Gaussian spectra from [compute_gaussian_spectra], at the angles that the
    transform uses. *)
Theorem computed_maps cltovar alm2map cltocorr corrtocl nodes fields spectra gls n t npix c c' Y cosine :
  compute_gaussian_spectra (Some 0) (fun cl t1 t2 => compute cltocorr corrtocl t1 t2 cl) fields (map (map Some) spectra) = Ok (map (map Some) gls) ->
  longest gls n -> (0 < n)%nat -> triangle n t -> covariance_of 0 gls n (length fields) c ->
  (forall l, (l < n)%nat -> definite (length fields) (c l) \/ absent (length fields) (c l)) ->
  synthesises n npix Y alm2map -> harmonics n npix Y cosine -> (forall p q, cosine p q = cosine q p) ->
  (forall cl, cltovar cl = Ok (correlation (length cl) (fun l => nth l cl 0) 1)) -> legendre_transform nodes cltocorr -> length (nodes n) = n ->
  (forall x, length x = n -> length (corrtocl x) = n /\ cltocorr (corrtocl x) = x /\ corrtocl (cltocorr x) = x) ->
  Forall proper fields -> (forall i f, nth_error fields i = Some f -> variance f (correlation n (fun l => c l i i) 1)) ->
  (forall cl, In cl spectra -> length cl = n) -> covariance_of 0 spectra n (length fields) c' ->
  (forall k i j t1 t2 cl, entry_of fields spectra k i j t1 t2 cl -> Forall (attained t1 t2) (cltocorr cl)) ->
  maps_correlation (2 * (length fields * t)) npix (fun u => simulate cltovar alm2map (variates t u) fields gls None) cosine (fun x => In x (nodes n))
    (length fields) (fun i j => correlation n (fun l => c' l i j)).
Proof.
  intros Hg Hn Hn0 Htn Hc Hd Hsyn Hh Hsym Hvar Hleg Hnod Hinv Hp Hv Hlen Hc' Hatt.
  assert (Ht : triangle (length fields) (length gls)).
  { destruct (compute_gaussian_spectra_pairs _ _ _ _ _ Hg) as (Ht & Lg & _). rewrite !map_length in Lg. rewrite map_length in Ht. rewrite Lg. exact Ht. }
  destruct (simulated_correlations cltovar alm2map fields gls None n t npix c Y cosine Ht Hn Hn0 Htn Hc Hd Hsyn Hh Hvar) as (value & Hsim & _).
  assert (P : forall i j, (j <= i)%nat -> (i < length fields)%nat -> exists xi,
    map_correlation (2 * (length fields * t)) npix (fun u => simulate cltovar alm2map (variates t u) fields gls None) cosine i j xi /\
    forall x, In x (nodes n) -> xi x = correlation n (fun l => c' l i j) x).
  { intros i j Hji Hi. assert (Hj : (j < length fields)%nat) by lia.
    destruct (Hc' 0%nat i j Hn0 Hi Hj) as (cl & (k & Ho & Ek) & _).
    rewrite Nat.max_l, Nat.min_r in Ho by exact Hji.
    destruct (nth_error fields i) as [t1|] eqn:E1; [|apply nth_error_None in E1; lia].
    destruct (nth_error fields j) as [t2|] eqn:E2; [|apply nth_error_None in E2; lia].
    assert (Lc : length cl = n) by (apply Hlen; eapply nth_error_In; exact Ek).
    assert (En : entry_of fields spectra k i j t1 t2 cl) by (split; [exact Ho|split; [exact Ek|split; assumption]]).
    destruct (simulated_computed cltovar alm2map cltocorr corrtocl nodes fields spectra gls None n t npix c Y cosine k i j t1 t2 cl) as (xi & M & X);
      try assumption; try exact I.
    - intro Z. subst cl. cbn in Lc. lia.
    - apply Hinv. exact Lc.
    - intros x Hx. rewrite Lc in Hx. destruct (Hinv x Hx) as (A & B & _). split; [congruence|exact B].
    - apply (Hatt _ _ _ _ _ _ En).
    - rewrite Lc. exact Hnod.
    - apply Hv. exact E1.
    - apply Hv. exact E2.
    - exists xi. split; [exact M|]. intros x Hx. rewrite Lc in X. rewrite X by exact Hx. apply correlation_ext. intros l Hl.
      destruct (Hc' l i j Hl Hi Hj) as (cl' & S' & ->). assert (S : spectrum_of spectra i j cl).
      { exists k. rewrite Nat.max_l, Nat.min_r by exact Hji. split; assumption. }
      rewrite (spectrum_unique _ _ _ _ _ S' S). reflexivity. }
  split; [intro u; destruct (Hsim u) as (ms & -> & Lm & _); exact Lm|].
  intros i j Hi Hj. destruct (le_lt_dec j i) as [H|H]; [apply P; [exact H|exact Hi]|].
  destruct (P j i ltac:(lia) Hj) as (xi & (v & v' & Hm & Hv') & X). exists xi. split.
  - exists v', v. split; [intro u; destruct (Hm u) as (ms & E & A & B); exists ms; split; [exact E|split; assumption]|].
    intros p q Hp' Hq m. rewrite (Hsym p q), <- (Hv' q p Hq Hp' m).
    split; intro M; (eapply means_eq; [exact M|intro u; apply Rmult_comm|reflexivity]).
  - intros x Hx. rewrite X by exact Hx. apply correlation_ext. intros l Hl. symmetry. apply (covariance_of_sym spectra (length fields) n c' Hc'); assumption.
Qed.
Print Assumptions computed_maps.

(** Maps of a lognormal field are nowhere below the negative of its parameter, so that with a bias between zero and the
    inverse of the parameter no number is clipped. *)
Theorem lognormal_unclipped cltovar alm2map draws fields gls ncorr b : 0 <= b ->
  Forall (fun f => match f with Lognormal l => 0 <= l /\ b * l <= 1 | _ => False end) fields ->
  forall d y, In d (fst (simulate cltovar alm2map draws fields gls ncorr)) -> In y d -> -1 <= b * y.
Proof.
  intros Hb HF d y Hd Hy. apply In_nth_error in Hd as (i & Hi). unfold simulate in Hi.
  destruct (generate_field_by_field _ _ _ _ _ _ _ _ _ Hi) as (f & x & cl & v & E1 & _ & _ & _ & E5).
  rewrite Forall_forall in HF. specialize (HF f (nth_error_In _ _ E1)). destruct f as [|l|]; try contradiction. destruct HF as [Hl Hbl].
  unfold pixels in E5. injection E5 as <-. apply in_map_iff in Hy as (z & <- & _). cbn [call].
  pose proof (exp_pos (z - v / 2)) as He.
  assert (0 <= b * l * exp (z - v / 2)) by (apply Rmult_le_pos; [apply Rmult_le_pos; assumption|lra]).
  destruct (Req_EM_T l 1) as [->|_].
  - replace (b * (exp (z - v / 2) - 1)) with (b * 1 * exp (z - v / 2) - b * 1) by ring. lra.
  - replace (b * (l * (exp (z - v / 2) - 1))) with (b * l * exp (z - v / 2) - b * l) by ring. lra.
Qed.
Print Assumptions lognormal_unclipped.

(** * Examples: three independent shells, with the same spectra *)

Definition diagonal (g : list R) : list (list R) := [g; g; [0; 0]; g; [0; 0]; [0; 0]].
Definition diagonal_cov (g : list R) (l i j : nat) : R := if (i =? j)%nat then nth l g 0 else 0.

Lemma diagonal_covariance g : length g = 2%nat -> covariance_of 0 (diagonal g) 2 3 (diagonal_cov g).
Proof.
  intros Lg l i j Hl Hi Hj. unfold diagonal_cov.
  assert (Z : mode 0 [0; 0] l = 0) by (unfold mode; destruct l as [|[|l]]; [reflexivity|reflexivity|lia]).
  destruct i as [|[|[|i]]]; [| | |lia]; (destruct j as [|[|[|j]]]; [| | |lia]); cbn [Nat.eqb];
    first [exists g; split; [|reflexivity]|exists [0; 0]; split; [|symmetry; exact Z]];
    first [exists 0%nat; split; [split; cbn; lia|reflexivity]|exists 1%nat; split; [split; cbn; lia|reflexivity]|exists 2%nat; split; [split; cbn; lia|reflexivity]
      |exists 3%nat; split; [split; cbn; lia|reflexivity]|exists 4%nat; split; [split; cbn; lia|reflexivity]|exists 5%nat; split; [split; cbn; lia|reflexivity]].
Qed.
Lemma diagonal_longest g : length g = 2%nat -> longest (diagonal g) 2.
Proof.
  intro Lg. split; [intros cl [<-|[<-|[<-|[<-|[<-|[<-|[]]]]]]]; rewrite ?Lg; cbn; lia|]. right. exists g. split; [left; reflexivity|exact Lg].
Qed.
Lemma diagonal_definite g l : 0 < nth l g 0 -> definite 3 (diagonal_cov g l).
Proof.
  intro H. split.
  - intros i j _ _. unfold diagonal_cov. rewrite Nat.eqb_sym. reflexivity.
  - intros v (i & Hi & Hv). unfold quadratic, diagonal_cov. cbn [rsum Nat.eqb].
    set (x := v 0%nat). set (y := v 1%nat). set (z := v 2%nat). set (a := nth l g 0) in *.
    match goal with |- 0 < ?e => replace e with (a * (x * x + y * y + z * z)) by ring end.
    apply Rmult_lt_0_compat; [exact H|].
    pose proof (Rle_0_sqr x) as Qx. pose proof (Rle_0_sqr y) as Qy. pose proof (Rle_0_sqr z) as Qz.
    pose proof (Rsqr_pos_lt _ Hv) as Qv. unfold Rsqr in *.
    destruct i as [|[|[|i]]]; [fold x in Qv|fold y in Qv|fold z in Qv|lia]; lra.
Qed.

Lemma compute_three (f : list num -> transformation -> transformation -> result (list num)) t x z y y' : f x t t = Ok y -> f z t t = Ok y' -> x <> [] -> z <> [] ->
  compute_gaussian_spectra (Some 0) f [t; t; t] [x; x; z; x; z; z] = Ok [y; y; y'; y; y'; y'].
Proof.
  intros E E' Nx Nz. destruct x as [|a x]; [contradiction|]. destruct z as [|b z]; [contradiction|].
  unfold compute_gaussian_spectra, enumerate_spectra. cbn. cbn in E, E'. rewrite E, E'. reflexivity.
Qed.

Definition lognormal_cl : list R := [4 * PI * ((exp 2 - 1) / 2); 4 * PI / 3 * (sqrt 2 * ((exp 2 - 1) / 2))].
Definition lognormal_gl : list R := [4 * PI; 4 * PI / 3 * sqrt 2].
Definition lognormal_simulation (u : list R) : list (list R) * option exn :=
  simulate (fun cl => Ok (correlation (length cl) (fun l => nth l cl 0) 1)) (summed 2 2 (sphere tilt turn)) (variates 3 u)
    [Lognormal 1; Lognormal 1; Lognormal 1] (diagonal lognormal_gl) None.

Example computed_maps_example :
  compute_gaussian_spectra (Some 0) (fun cl t1 t2 => compute to_corr from_corr t1 t2 cl) [Lognormal 1; Lognormal 1; Lognormal 1]
    (map (map Some) (diagonal lognormal_cl)) = Ok (map (map Some) (diagonal lognormal_gl)) /\
  maps_correlation 18 2 lognormal_simulation (separation tilt turn) (fun x => In x (angles 2)) 3 (fun i j => correlation 2 (fun l => diagonal_cov lognormal_cl l i j)).
Proof.
  pose proof PI_RGT_0 as HP. destruct sqrt2 as [S1 S2].
  assert (He : 1 < exp 2) by (pose proof (exp_ineq1 2 ltac:(lra)); lra).
  set (a := (exp 2 - 1) / 2) in *.
  assert (Tc : to_corr lognormal_cl = [exp 2 - 1; 0]).
  { unfold lognormal_cl. fold a. rewrite to_corr_two. f_equal; [|f_equal].
    - transitivity (a * (1 + sqrt 2 * sqrt 2 / 2)); [field; lra|]. rewrite S2. unfold a. field.
    - transitivity (a * (1 - sqrt 2 * sqrt 2 / 2)); [field; lra|]. rewrite S2. field. }
  assert (Tz : to_corr [0; 0] = [0; 0]) by (rewrite to_corr_two; f_equal; [field; lra|f_equal; field; lra]).
  assert (Fg : from_corr [2; 0] = lognormal_gl).
  { unfold from_corr, lognormal_gl. f_equal; [field|]. f_equal. f_equal. apply (Rmult_eq_reg_r (sqrt 2)); [|lra]. rewrite S2. field. lra. }
  assert (Fz : from_corr [0; 0] = [0; 0]) by (unfold from_corr; f_equal; [field|f_equal; field; lra]).
  assert (E : compute to_corr from_corr (Lognormal 1) (Lognormal 1) (map Some lognormal_cl) = Ok (map Some lognormal_gl)).
  { unfold compute, icorr, dispatch. cbn [icorr_method bind]. unfold lifted at 2.
    replace (finite (map Some lognormal_cl)) with (Some lognormal_cl) by reflexivity. rewrite Tc. unfold apply. cbn [map nbind].
    unfold divide. destruct (Req_EM_T (1 * 1) 0) as [Z|_]; [lra|]. cbn [nbind]. unfold log1p.
    destruct (Rle_dec ((exp 2 - 1) / (1 * 1)) (-1)) as [Z|_]; [lra|]. destruct (Rle_dec (0 / (1 * 1)) (-1)) as [Z|_]; [lra|].
    replace (1 + (exp 2 - 1) / (1 * 1)) with (exp 2) by field. rewrite ln_exp. replace (1 + 0 / (1 * 1)) with 1 by field. rewrite ln_1.
    unfold lifted. cbn [finite fold_right]. rewrite Fg. reflexivity. }
  assert (E0 : compute to_corr from_corr (Lognormal 1) (Lognormal 1) [Some 0; Some 0] = Ok [Some 0; Some 0]).
  { unfold compute, icorr, dispatch. cbn [icorr_method bind]. unfold lifted at 2. cbn [finite fold_right]. rewrite Tz. unfold apply. cbn [map nbind].
    unfold divide. destruct (Req_EM_T (1 * 1) 0) as [Z|_]; [lra|]. cbn [nbind]. unfold log1p.
    destruct (Rle_dec (0 / (1 * 1)) (-1)) as [Z|_]; [lra|]. replace (1 + 0 / (1 * 1)) with 1 by field. rewrite ln_1.
    unfold lifted. cbn [finite fold_right]. rewrite Fz. reflexivity. }
  assert (HC : compute_gaussian_spectra (Some 0) (fun cl t1 t2 => compute to_corr from_corr t1 t2 cl) [Lognormal 1; Lognormal 1; Lognormal 1]
    (map (map Some) (diagonal lognormal_cl)) = Ok (map (map Some) (diagonal lognormal_gl))).
  { exact (compute_three (fun cl t1 t2 => compute to_corr from_corr t1 t2 cl) (Lognormal 1) (map Some lognormal_cl) [Some 0; Some 0] _ _ E E0
      ltac:(discriminate) ltac:(discriminate)). }
  split; [exact HC|].
  apply (computed_maps (fun cl => Ok (correlation (length cl) (fun l => nth l cl 0) 1)) (summed 2 2 (sphere tilt turn)) to_corr from_corr angles
    [Lognormal 1; Lognormal 1; Lognormal 1] (diagonal lognormal_cl) (diagonal lognormal_gl) 2 3 2 (diagonal_cov lognormal_gl) (diagonal_cov lognormal_cl) (sphere tilt turn) (separation tilt turn)).
  - exact HC.
  - apply diagonal_longest. reflexivity.
  - lia.
  - reflexivity.
  - apply diagonal_covariance. reflexivity.
  - intros l Hl. left. apply diagonal_definite. destruct l as [|[|l]]; [cbn; lra| |lia]. cbn. apply Rmult_lt_0_compat; lra.
  - apply summed_synthesises.
  - apply sphere_harmonics. lia.
  - intros p q. unfold separation. replace (turn p) with (turn q) by reflexivity. ring.
  - reflexivity.
  - exact to_corr_legendre.
  - reflexivity.
  - intros x Hx. destruct (two_inverse x Hx). rewrite from_corr_length. auto.
  - repeat constructor; cbn; lra.
  - intros i f Hf. assert (f = Lognormal 1) as -> by (destruct i as [|[|[|i]]]; cbn in Hf; try congruence; destruct i; discriminate). exact I.
  - intros cl [<-|[<-|[<-|[<-|[<-|[<-|[]]]]]]]; reflexivity.
  - apply diagonal_covariance. reflexivity.
  - intros k i j t1 t2 cl (_ & Hk & Hi & Hj).
    assert (t1 = Lognormal 1) as -> by (destruct i as [|[|[|i]]]; cbn in Hi; try congruence; destruct i; discriminate).
    assert (t2 = Lognormal 1) as -> by (destruct j as [|[|[|j]]]; cbn in Hj; try congruence; destruct j; discriminate).
    assert (Hcl : cl = lognormal_cl \/ cl = [0; 0]).
    { apply nth_error_In in Hk. destruct Hk as [<-|[<-|[<-|[<-|[<-|[<-|[]]]]]]]; auto. }
    destruct Hcl as [-> | ->]; [rewrite Tc|rewrite Tz]; repeat constructor; cbn [attained]; lra.
Qed.

(** All sources in the last of three shells. *)
Definition far_sources : array R := {| ashape := [3%nat]; aget := fun i => if Nat.eqb (hd 0%nat i) 2 then 5 else 0 |}.
(** As many galaxies in the first as in the second shell. *)
Definition near_galaxies : array R := {| ashape := [3%nat]; aget := fun i => if Nat.eqb (hd 0%nat i) 2 then 0 else 4 |}.

Lemma diagonal_sum (a b : nat -> R) cl l : rsum 3 (fun s => rsum 3 (fun t => a s * b t * diagonal_cov cl l s t)) = (a 0%nat * b 0%nat + a 1%nat * b 1%nat + a 2%nat * b 2%nat) * nth l cl 0.
Proof. unfold diagonal_cov. cbn [rsum Nat.eqb]. ring. Qed.

Lemma lognormal_value x : correlation 2 (fun l => x * nth l lognormal_cl 0) (sqrt 2 / 2) = x * (exp 2 - 1).
Proof.
  pose proof PI_RGT_0. destruct sqrt2 as [S1 S2]. unfold correlation, legendre, lognormal_cl. cbn [rsum nth legendre_pair fst snd INR].
  transitivity (x * ((exp 2 - 1) / 2) * (1 + sqrt 2 * sqrt 2 / 2)); [field; lra|]. rewrite S2. field.
Qed.

Lemma lognormal_predicted (w1 : array R) (w2 : option (array R)) r1 r2 x1 x2 out v k s1 s2 :
  let w2' := match w2 with Some w => w | None => w1 end in
  ashape w1 = 3%nat :: r1 -> ashape w2' = 3%nat :: r2 -> inside r1 x1 -> inside r2 x2 ->
  effective_cls (diagonal lognormal_cl) w1 w2 None = Ok (r1 ++ r2 ++ [2%nat], out) -> out (x1 ++ x2) = Some v ->
  aget w1 (0%nat :: x1) * aget w2' (0%nat :: x2) + aget w1 (1%nat :: x1) * aget w2' (1%nat :: x2) + aget w1 (2%nat :: x1) * aget w2' (2%nat :: x2) = k ->
  signal_correlation 18 2 s1 s2 (separation tilt turn) (fun x => In x (angles 2)) (correlation 2 (fun l => nth l v 0)) ->
  (forall l, (l < 2)%nat -> nth l v 0 = k * nth l lognormal_cl 0) /\
  exists value value' : nat -> list R -> R, (forall u, s1 u = Ok [value 0%nat u; value 1%nat u] /\ s2 u = Ok [value' 0%nat u; value' 1%nat u]) /\
    means 18 (fun u => value 0%nat u * value' 1%nat u) (k * (exp 2 - 1)).
Proof.
  intros w2' E1 E2 H1 H2 Eo Ev Hk (value & value' & Hs & Hv).
  destruct (effective_cls_ok (diagonal lognormal_cl) w1 w2 None 3 2 r1 r2 (diagonal_cov lognormal_cl) eq_refl E1 E2) as (out' & Eo' & Ho).
  { apply diagonal_longest. reflexivity. }
  { apply diagonal_covariance. reflexivity. }
  rewrite Eo in Eo'. injection Eo' as <-. destruct (Ho x1 x2 H1 H2) as (v' & Ev' & _ & Vv). rewrite Ev in Ev'. injection Ev' as <-.
  assert (V : forall l, (l < 2)%nat -> nth l v 0 = k * nth l lognormal_cl 0).
  { intros l Hl. rewrite Vv by exact Hl. fold w2'. rewrite (diagonal_sum (fun a => aget w1 (a :: x1)) (fun b => aget w2' (b :: x2))), Hk. reflexivity. }
  split; [exact V|]. exists value, value'. split; [intro u; apply (Hs u)|].
  apply Hv; [lia|lia|rewrite tilted; left; reflexivity|]. rewrite tilted, (correlation_ext 2 (fun l => nth l v 0) (fun l => k * nth l lognormal_cl 0)) by exact V.
  symmetry. apply lognormal_value.
Qed.

(** The convergence of the sources in the last shell: two ninths of the spectra of the shells. *)
Example convergence_predicted_example : exists q out v,
  multi_plane_weights far_sources shells_example flat_example = Ok q /\
  effective_cls (diagonal lognormal_cl) q None None = Ok ([2%nat], out) /\ out [] = Some v /\ (forall l, (l < 2)%nat -> nth l v 0 = 2 / 9 * nth l lognormal_cl 0) /\
  exists value value' : nat -> list R -> R,
    (forall u, signal lognormal_simulation (mean_convergence flat_example [0; 0; 5] shells_example 2) u = Ok [value 0%nat u; value 1%nat u] /\
       signal lognormal_simulation (mean_convergence flat_example [0; 0; 5] shells_example 2) u = Ok [value' 0%nat u; value' 1%nat u]) /\
    means 18 (fun u => value 0%nat u * value' 1%nat u) (2 / 9 * (exp 2 - 1)).
Proof.
  destruct weights_example as (q & Hq & Sq & Q0 & Q1 & Q2). fold far_sources in Hq.
  destruct (convergence_predicted 18 2 lognormal_simulation (separation tilt turn) (fun x => In x (angles 2)) 2 (diagonal_cov lognormal_cl) (diagonal lognormal_cl)
    flat_example shells_example far_sources [] q [] []) as (out & v & Eo & Ev & _ & HS); try assumption; try reflexivity; try constructor;
    try (cbn; lia); try (cbn; lra).
  - apply (proj1 (proj2 computed_maps_example)).
  - apply (proj2 (proj2 computed_maps_example)).
  - intros cl [<-|[<-|[<-|[<-|[<-|[<-|[]]]]]]]; cbn; lia.
  - right. exists lognormal_cl. split; [left|]; reflexivity.
  - apply diagonal_covariance. reflexivity.
  - destruct (lognormal_predicted q None [] [] [] [] out v (2 / 9) _ _ Sq Sq ltac:(constructor) ltac:(constructor) Eo Ev ltac:(cbv beta iota zeta; rewrite Q0, Q1, Q2; field) HS) as [V M].
    exists q, out, v. split; [exact Hq|]. split; [exact Eo|]. split; [exact Ev|]. split; [exact V|exact M].
Qed.

(** The galaxies in the first two shells, with a bias of one half, and the convergence of those behind. *)
Example cross_predicted_example : exists p q out v,
  position_weights near_galaxies (Some (scalar (1 / 2))) = Ok p /\ multi_plane_weights far_sources shells_example flat_example = Ok q /\
  effective_cls (diagonal lognormal_cl) p (Some q) None = Ok ([2%nat], out) /\ out [] = Some v /\ (forall l, (l < 2)%nat -> nth l v 0 = 1 / 6 * nth l lognormal_cl 0) /\
  exists value value' : nat -> list R -> R,
    (forall u, signal lognormal_simulation (fun ms => do counts <- galaxy_counts (Some (1 / 2)) [4; 4; 0] 2 ms; Ok (number_contrast 2 [4; 4; 0] counts)) u =
         Ok [value 0%nat u; value 1%nat u] /\
       signal lognormal_simulation (mean_convergence flat_example [0; 0; 5] shells_example 2) u = Ok [value' 0%nat u; value' 1%nat u]) /\
    means 18 (fun u => value 0%nat u * value' 1%nat u) (1 / 6 * (exp 2 - 1)).
Proof.
  destruct weights_example as (q & Hq & Sq & Q0 & Q1 & Q2). fold far_sources in Hq.
  destruct (position_weights near_galaxies (option_map scalar (Some (1 / 2)))) as [p|e] eqn:Hp; [|discriminate].
  destruct (position_weights_scalar near_galaxies (Some (1 / 2)) 3 [] [] p eq_refl ltac:(constructor) Hp) as [Sp P].
  destruct (cross_predicted 18 2 lognormal_simulation (separation tilt turn) (fun x => In x (angles 2)) 2 (diagonal_cov lognormal_cl) (diagonal lognormal_cl)
    flat_example shells_example near_galaxies [] (Some (1 / 2)) p far_sources [] q [] []) as (out & v & Eo & Ev & _ & HS).
  - apply computed_maps_example.
  - lia.
  - reflexivity.
  - apply diagonal_longest. reflexivity.
  - apply diagonal_covariance. reflexivity.
  - reflexivity.
  - exact Hp.
  - constructor.
  - reflexivity.
  - cbn. lia.
  - exact Hq.
  - constructor.
  - cbn. intros s [<-|[<-|[<-|[]]]]; lra.
  - cbn. lra.
  - cbn. lra.
  - intros u d y Hd Hy. unfold lognormal_simulation in Hd. refine (lognormal_unclipped _ _ _ _ _ _ (1 / 2) ltac:(lra) _ d y Hd Hy). repeat constructor; lra.
  - assert (P0 := P 0%nat ltac:(lia)). assert (P1 := P 1%nat ltac:(lia)). assert (P2 := P 2%nat ltac:(lia)). cbn in P0, P1, P2.
    destruct (lognormal_predicted p (Some q) [] [] [] [] out v (1 / 6) _ _ Sp Sq ltac:(constructor) ltac:(constructor) Eo Ev ltac:(cbv beta iota zeta; rewrite P0, P1, P2, Q0, Q1, Q2; field) HS) as [V M].
    exists p, q, out, v. split; [exact Hp|]. split; [exact Hq|]. split; [exact Eo|]. split; [exact Ev|]. split; [exact V|exact M].
Qed.

(** The numbers of these galaxies. *)
Example counts_predicted_example : exists p out v,
  position_weights near_galaxies (Some (scalar (1 / 2))) = Ok p /\
  effective_cls (diagonal lognormal_cl) p None None = Ok ([2%nat], out) /\ out [] = Some v /\ (forall l, (l < 2)%nat -> nth l v 0 = 1 / 8 * nth l lognormal_cl 0) /\
  let contrast := signal lognormal_simulation (fun ms => do counts <- galaxy_counts (Some (1 / 2)) [4; 4; 0] 2 ms; Ok (number_contrast 2 [4; 4; 0] counts)) in
  exists value value' : nat -> list R -> R,
    (forall u, contrast u = Ok [value 0%nat u; value 1%nat u] /\ contrast u = Ok [value' 0%nat u; value' 1%nat u]) /\
    means 18 (fun u => value 0%nat u * value' 1%nat u) (1 / 8 * (exp 2 - 1)).
Proof.
  destruct (position_weights near_galaxies (option_map scalar (Some (1 / 2)))) as [p|e] eqn:Hp; [|discriminate].
  destruct (position_weights_scalar near_galaxies (Some (1 / 2)) 3 [] [] p eq_refl ltac:(constructor) Hp) as [Sp P].
  destruct (counts_predicted 18 2 lognormal_simulation (separation tilt turn) (fun x => In x (angles 2)) 2 (diagonal_cov lognormal_cl) (diagonal lognormal_cl)
    3 near_galaxies [] (Some (1 / 2)) p [] []) as (out & v & Eo & Ev & _ & HS).
  - apply computed_maps_example.
  - lia.
  - reflexivity.
  - apply diagonal_longest. reflexivity.
  - apply diagonal_covariance. reflexivity.
  - reflexivity.
  - exact Hp.
  - constructor.
  - constructor.
  - cbn. intros _ s [<-|[<-|[<-|[]]]]; lra.
  - cbn. lra.
  - cbn. lra.
  - intros u d y Hd Hy. unfold lognormal_simulation in Hd. refine (lognormal_unclipped _ _ _ _ _ _ (1 / 2) ltac:(lra) _ d y Hd Hy). repeat constructor; lra.
  - assert (P0 := P 0%nat ltac:(lia)). assert (P1 := P 1%nat ltac:(lia)). assert (P2 := P 2%nat ltac:(lia)). cbn in P0, P1, P2.
    destruct (lognormal_predicted p None [] [] [] [] out v (1 / 8) _ _ Sp Sp ltac:(constructor) ltac:(constructor) Eo Ev ltac:(cbv beta iota zeta; rewrite P0, P1, P2; field) HS) as [V M].
    exists p, out, v. split; [exact Hp|]. split; [exact Eo|]. split; [exact Ev|]. split; [exact V|exact M].
Qed.

(** Gaussian maps with the spectra [4 pi, 4 pi sqrt 2 / 3]: the expected product of the two pixels is two. *)
Example gaussian_maps_example :
  let maps u := simulate (fun cl => Ok (correlation (length cl) (fun l => nth l cl 0) 1)) (summed 2 2 (sphere tilt turn)) (variates 3 u)
    [Normal; Normal; Normal] (diagonal lognormal_gl) None in
  maps_correlation 18 2 maps (separation tilt turn) (fun _ => True) 3 (fun i j => correlation 2 (fun l => diagonal_cov lognormal_gl l i j)) /\
  correlation 2 (fun l => diagonal_cov lognormal_gl l 1 1) (separation tilt turn 0 1) = 2 /\
  correlation 2 (fun l => diagonal_cov lognormal_gl l 1 2) (separation tilt turn 0 1) = 0.
Proof.
  pose proof PI_RGT_0 as HP. destruct sqrt2 as [S1 S2]. split; [|split].
  - apply (gaussian_maps (fun cl => Ok (correlation (length cl) (fun l => nth l cl 0) 1)) (summed 2 2 (sphere tilt turn)) [Normal; Normal; Normal]
      (diagonal lognormal_gl) 2 3 2 (diagonal_cov lognormal_gl) (sphere tilt turn) (separation tilt turn)).
    + repeat constructor.
    + reflexivity.
    + apply diagonal_longest. reflexivity.
    + lia.
    + reflexivity.
    + apply diagonal_covariance. reflexivity.
    + intros l Hl. left. apply diagonal_definite. destruct l as [|[|l]]; [cbn; lra| |lia]. cbn. apply Rmult_lt_0_compat; lra.
    + apply summed_synthesises.
    + apply sphere_harmonics. lia.
    + reflexivity.
  - rewrite tilted. unfold correlation, diagonal_cov, legendre, lognormal_gl. cbn [rsum nth legendre_pair fst snd INR Nat.eqb].
    transitivity (1 + sqrt 2 * sqrt 2 / 2); [field; lra|]. rewrite S2. field.
  - unfold correlation, diagonal_cov. cbn [rsum Nat.eqb]. ring.
Qed.

(** With a bias of one, the expected numbers are nowhere clipped. *)
Example lognormal_unclipped_example u d y : In d (fst (lognormal_simulation u)) -> In y d -> -1 <= 1 * y.
Proof.
  intros Hd Hy. unfold lognormal_simulation in Hd. refine (lognormal_unclipped _ _ _ _ _ _ 1 ltac:(lra) _ d y Hd Hy). repeat constructor; lra.
Qed.
