(** Lemmas about maps that are made from all shells. *)
From Coq Require Import Reals Lra Lia List.
From Verif Require Import Base RSum Model_Numeric Model_Arrays Model_Effective Model_Windows Model_Galaxies Model_Lensing Model_Points Model_Convergence.
From Verif Require Import Spec_Numeric Spec_Arrays Spec_Windows Spec_Galaxies Spec_Gauss Spec_Maps Spec_Points Spec_Catalogue Spec_Convergence.
From Verif Require Import Proof_Windows Proof_Lensing Proof_Normals Prop_Lensing Prop_Catalogue.
Import ListNotations.
Local Open Scope R_scope.

Lemma nth_mapped {A B} (f : A -> B) l i d d' : (i < length l)%nat -> nth i (map f l) d' = f (nth i l d).
Proof. intro H. rewrite (nth_indep _ d' (f d)) by (rewrite map_length; exact H). apply map_nth. Qed.

Lemma nth_table {B} (f : nat -> B) n i d : (i < n)%nat -> nth i (map f (seq 0 n)) d = f i.
Proof. intro H. rewrite (nth_mapped f _ i 0%nat) by (rewrite seq_length; exact H). rewrite seq_nth by exact H. reflexivity. Qed.

Lemma add_convergence_rows cosmo n (c : nat -> nat -> R) all ngal m : forall shells i st h Q rows, tracks st h n Q ->
  matrix_rows cosmo n i shells st h = Ok rows -> (i + length shells <= n)%nat ->
  (forall k, nth_error all (i + k) = nth_error shells k) -> (i + length shells <= length ngal)%nat ->
  forall matter st2 h2 P kbar, tracks st2 h2 m P -> (forall p, combines n (c p) (P p) Q) ->
  length matter = length shells -> (forall k d, nth_error matter k = Some d -> length d = m /\ forall p, nth p d 0 = c p (i + k)%nat) ->
  length kbar = m ->
  exists kb, add_convergence cosmo ngal all i matter st2 h2 kbar = Ok kb /\ length kb = m /\
    forall p, (p < m)%nat -> nth p kb 0 = nth p kbar 0 +
      rsum (length shells) (fun k => nth (i + k) ngal 0 * rsum n (fun j => nth j (nth k rows []) 0 * c p j)).
Proof.
  induction shells as [|w shells IH]; intros i st h Q rows T H Hi Ha Hng matter st2 h2 P kbar T2 C Lm Hd Lk.
  { destruct matter; [|discriminate]. exists kbar. split; [reflexivity|]. split; [exact Lk|]. intros p _. cbn. ring. }
  destruct matter as [|d matter]; [discriminate|].
  destruct (matrix_row _ _ _ _ _ _ _ _ _ T H) as (v & st' & h' & row0 & rows' & W & Hz & -> & Lr & T' & V & H').
  destruct (Hd 0%nat d eq_refl) as [Ld Vd].
  cbn [length] in Hi, Hng, Lm.
  assert (Z2 : z3 st2 = z3 st).
  { destruct (tr_scalars _ _ _ _ T2 0%nat) as (_ & S1 & _). destruct (tr_scalars _ _ _ _ T 0%nat) as (_ & S2 & _).
    destruct (c_scalars _ _ _ _ (C 0%nat) 0%nat) as (_ & S3 & _). congruence. }
  assert (Lu : load (h2 ++ [d]) (length h2) = d).
  { unfold load. rewrite app_nth2 by lia. rewrite Nat.sub_diag. reflexivity. }
  destruct (add_plane_owned cosmo st2 (h2 ++ [d]) m P (length h2) (zeff w) v 0) as (st3 & h3 & E & T3 & O3 & L3 & F3 & Z3 & (a & Ka)).
  { apply tracks_app. exact T2. } { split; intros; lia. } { lia. } { lra. } { rewrite app_length. cbn. lia. } { rewrite Lu. exact Ld. }
  { intro X. assert (B := tracks_buffers _ _ _ _ _ T2 (or_introl X)). lia. }
  { intro X. assert (B := tracks_buffers _ _ _ _ _ T2 (or_intror X)). lia. }
  rewrite Lu in T3.
  assert (C' : forall p, combines n (c p) (next cosmo (P p) (zeff w) v (nth p d 0))
            (fun j => next cosmo (Q j) (zeff w) v (nth j (unit_row n i) 0))).
  { intro p. apply combines_next; [apply C|]. rewrite (rsum_single n i).
    - rewrite unit_row_nth by lia. rewrite Nat.eqb_refl. rewrite Vd. replace (i + 0)%nat with i by lia. ring.
    - lia.
    - intros j Hj Nj. rewrite unit_row_nth by lia. destruct (Nat.eqb_spec j i); [lia|ring]. }
  destruct (tracks_kappa _ _ _ _ _ T3 Ka) as (Lka & _ & Vk).
  assert (Hw : nth_error all i = Some w) by (replace i with (i + 0)%nat by lia; rewrite Ha; reflexivity).
  cbn [add_convergence]. unfold index at 1. rewrite Hw. cbn [bind].
  rewrite add_window_plane, W, E. unfold kappa. rewrite Ka. cbn [bind].
  unfold index. rewrite (nth_error_nth' ngal 0) by lia. cbn [bind].
  rewrite Lka, Lk, Nat.eqb_refl.
  set (kb1 := map _ (combine kbar (load h3 a))).
  assert (L1 : length kb1 = m) by (unfold kb1; rewrite map_length, combine_length; lia).
  assert (V1 : forall p, (p < m)%nat -> nth p kb1 0 = nth p kbar 0 + nth i ngal 0 * nth p (load h3 a) 0).
  { intros p Hp. unfold kb1. rewrite (nth_mapped _ _ p (0, 0)) by (rewrite combine_length; lia).
    rewrite combine_nth by lia. reflexivity. }
  destruct (IH (i + 1)%nat st' h' _ rows' T' H' ltac:(lia)) with (matter := matter) (st2 := st3) (h2 := h3) (P := fun p => next cosmo (P p) (zeff w) v (nth p d 0)) (kbar := kb1)
    as (kb & Ek & Lkb & Vkb).
  - intro k. replace (i + 1 + k)%nat with (i + S k)%nat by lia. apply Ha.
  - lia.
  - exact T3.
  - exact C'.
  - lia.
  - intros k d' Hk. destruct (Hd (S k) d' Hk) as [Q1 Q2]. split; [exact Q1|]. intro p. rewrite Q2. f_equal. lia.
  - exact L1.
  - exists kb. split; [exact Ek|]. split; [exact Lkb|]. intros p Hp. rewrite Vkb, V1 by exact Hp.
    rewrite Vk. rewrite (c_k3 _ _ _ _ (C' p)). cbn [length]. rewrite rsum_S_l. cbn [nth].
    replace (i + 0)%nat with i by lia.
    rewrite (rsum_ext n (fun j => nth j row0 0 * c p j) (fun j => c p j * pk3 (next cosmo (Q j) (zeff w) v (nth j (unit_row n i) 0))))
      by (intros j _; rewrite V; ring).
    rewrite (rsum_ext (length shells) (fun k => nth (i + S k) ngal 0 * rsum n (fun j => nth j (nth k rows' []) 0 * c p j))
      (fun k => nth (i + 1 + k) ngal 0 * rsum n (fun j => nth j (nth k rows' []) 0 * c p j)))
      by (intros k _; replace (i + S k)%nat with (i + 1 + k)%nat by lia; reflexivity).
    ring.
Qed.

(** The mean convergence is the sum of the maps, with the weights of [multi_plane_weights]. *)
Lemma mean_convergence_weights cosmo shells weights rest q x npix matter :
  ashape weights = length shells :: rest -> (length rest <= 1)%nat -> multi_plane_weights weights shells cosmo = Ok q -> length x = length rest ->
  length matter = length shells -> (forall d, In d matter -> length d = npix) ->
  fold_right Rplus 0 (column weights (length shells) x) <> 0 ->
  mean_convergence cosmo (column weights (length shells) x) shells npix matter =
  Ok (map (fun p => rsum (length shells) (fun s => aget q (s :: x) * nth p (nth s matter []) 0)) (seq 0 npix)).
Proof.
  intros Hs Hr H Hx Lm Hd H0. unfold multi_plane_weights in H. rewrite Hs, Nat.eqb_refl in H.
  set (n := length shells) in *. apply bind_ok in H. destruct H as (mat & Hm & H).
  set (S := fold_right Rplus 0 (column weights n x)) in *.
  assert (S1 : S = rsum n (fun k => aget weights (k :: x))).
  { unfold S, column. change (sum_of (map (fun s => aget weights (s :: x)) (seq 0 n)) = rsum n (fun k => aget weights (k :: x))). apply sum_seq. }
  assert (Q : forall s, aget q (s :: x) = rsum n (fun k => entry mat k s * (aget weights (k :: x) / S))).
  { rewrite S1. unfold matmul_transposed in H. cbn [ashape aget] in H.
    destruct rest as [|c [|]]; [| |cbn in Hr; lia]; cbn [rev app length] in H; rewrite Nat.eqb_refl in H; injection H as <-; intro s.
    - destruct x; [|discriminate]. cbn [aget hd tl]. rewrite total_seq. apply rsum_ext. intros k _. rewrite total_seq. reflexivity.
    - destruct x as [|x0 [|]]; try discriminate. cbn [aget firstn nth Nat.add app length tl]. rewrite total_seq.
      apply rsum_ext. intros k _. rewrite total_seq. reflexivity. }
  assert (Nc : forall k, (k < n)%nat -> nth k (column weights n x) 0 = aget weights (k :: x)).
  { intros k Hk. unfold column. apply (nth_table (fun s => aget weights (s :: x))). exact Hk. }
  unfold mean_convergence.
  destruct (add_convergence_rows cosmo n (fun p j => nth p (nth j matter []) 0) shells (column weights n x) npix shells 0 new_planes [] (fun _ => pixel0) mat
    (tracks_new _ _) Hm) with (matter := matter) (st2 := new_planes) (h2 := @nil (list R)) (P := fun _ : nat => pixel0) (kbar := repeat 0 npix) as (kb & Ek & Lk & Vk).
  - fold n. lia.
  - reflexivity.
  - unfold column. rewrite map_length, seq_length. fold n. lia.
  - apply tracks_new.
  - intro p. apply combines_zero.
  - exact Lm.
  - intros k d Hk. split; [apply Hd; eapply nth_error_In; exact Hk|]. intro p. cbn [Nat.add].
    rewrite (nth_error_nth matter k [] Hk). reflexivity.
  - apply repeat_length.
  - rewrite Ek. cbn [bind]. f_equal. rewrite total_sum.
    change (sum_of (column weights n x)) with S.
    apply (nth_ext _ _ 0 0); [rewrite !map_length, seq_length; exact Lk|]. rewrite map_length, Lk. intros p Hp.
    rewrite (nth_mapped _ _ p 0) by lia. rewrite Vk by exact Hp.
    rewrite (nth_table (fun p => rsum n (fun s => aget q (s :: x) * nth p (nth s matter []) 0))) by exact Hp. cbn [Nat.add]. rewrite nth_repeat, Rplus_0_l. fold n.
    unfold Rdiv. rewrite <- rsum_scal_r.
    rewrite (rsum_ext n (fun s => aget q (s :: x) * nth p (nth s matter []) 0)
      (fun s => rsum n (fun k => entry mat k s * (aget weights (k :: x) / S) * nth p (nth s matter []) 0)))
      by (intros s _; rewrite rsum_scal_r, Q; reflexivity).
    rewrite rsum_swap. apply rsum_ext. intros k Hk. rewrite Nc by exact Hk.
    rewrite Rmult_assoc, (Rmult_comm (rsum n _)), <- Rmult_assoc, <- rsum_scal. apply rsum_ext. intros j _. unfold entry, Rdiv. ring.
Qed.

(** * Weights of positions *)

Lemma inside_iff s : forall i, inside s i <-> Forall2 lt i s.
Proof.
  induction s as [|n s IH]; intro i; split; intro H; inversion H; subst; constructor; try assumption; apply IH; assumption.
Qed.

Lemma forall2_rev {A B} (Q : A -> B -> Prop) : forall l m, Forall2 Q l m -> Forall2 Q (rev l) (rev m).
Proof. induction 1 as [|x y l m Hx _ IH]; [constructor|]. cbn [rev]. apply Forall2_app; [exact IH|]. constructor; [exact Hx|constructor]. Qed.

Lemma source_inside s i : inside s i -> source s i = i.
Proof.
  intro H. apply inside_iff, forall2_rev in H. unfold source. rewrite <- (rev_involutive i) at 2. f_equal. revert H.
  generalize (rev s), (rev i). intros t j H. induction H as [|x n j t Hx _ IH]; [reflexivity|]. cbn [source_rev]. rewrite IH.
  destruct (Nat.eqb_spec n 1) as [->|]; [|reflexivity]. f_equal. lia.
Qed.

Lemma to_rev_same s : to_rev s s = true.
Proof. induction s as [|a s IH]; [reflexivity|]. cbn. rewrite Nat.eqb_refl. exact IH. Qed.

Lemma to_first_last (A : Type) (x : A) l : to_first (l ++ [x]) = x :: l.
Proof. unfold to_first. rewrite rev_app_distr. cbn. rewrite rev_involutive. reflexivity. Qed.

Lemma inside_last s n x k : inside s x -> (k < n)%nat -> inside (s ++ [n]) (x ++ [k]).
Proof. intros H Hk. apply inside_iff. apply inside_iff in H. apply Forall2_app; [exact H|]. constructor; [exact Hk|constructor]. Qed.

Lemma position_weights_scalar densities bias n rest x w : ashape densities = n :: rest -> inside rest x ->
  position_weights densities (option_map scalar bias) = Ok w ->
  ashape w = n :: rest /\ forall s, (s < n)%nat -> aget w (s :: x) =
    aget densities (s :: x) / sum_of (column densities n x) * match bias with Some b => b | None => 1 end.
Proof.
  intros E Hx H. destruct bias as [b|]; cbn [option_map position_weights] in H.
  - assert (B : broadcast_first [densities; scalar b] = Ok (map move_last_first
      [{| ashape := rest ++ [n]; aget := fun i => aget (move_first_last densities) (source (rest ++ [n]) i) |}; {| ashape := rest ++ [n]; aget := fun _ => b |}])).
    { unfold broadcast_first. cbn [map ashape move_first_last scalar]. rewrite E. cbn [to_last broadcast_shapes bind]. unfold broadcast2. cbn [rev brev bind].
      assert (Eb : forall l, brev l [] = Ok l) by (intros [|]; reflexivity). rewrite Eb. cbn [bind]. rewrite rev_involutive.
      cbn [mapM]. unfold broadcast_to. cbn [ashape move_first_last scalar]. rewrite E. cbn [to_last]. rewrite to_rev_same. reflexivity. }
    rewrite B in H. cbn [bind map] in H. unfold move_last_first at 1 in H. cbn [ashape] in H. rewrite to_first_last in H. injection H as <-. cbn [ashape aget move_last_first].
    split; [try rewrite to_first_last; reflexivity|]. intros s Hs. unfold normalise_first, sum_first. cbn [aget tl ashape move_last_first move_first_last].
    try rewrite to_first_last. cbn [hd to_last]. rewrite total_sum. f_equal. f_equal.
    + rewrite source_inside by (apply inside_last; assumption). apply f_equal. apply to_first_last.
    + unfold column. f_equal. apply map_ext_in. intros k Hk. apply in_seq in Hk.
      rewrite source_inside by (apply inside_last; [assumption|lia]). apply f_equal. apply to_first_last.
  - rewrite E in H. injection H as <-. cbn [ashape]. split; [exact E|]. intros s _. unfold normalise_first, sum_first. cbn [aget tl].
    rewrite E. cbn [hd]. rewrite total_sum. unfold column. ring.
Qed.

(** * Numbers of galaxies *)

Lemma add_counts_sum bias ngal m : (0 < m)%nat -> forall matter i counts, (i + length matter <= length ngal)%nat ->
  (forall n, In n ngal -> 0 <= n) ->
  (forall d, In d matter -> length d = m /\ forall x, In x d -> -1 <= match bias with Some b => b | None => 1 end * x) ->
  length counts = m ->
  exists out, add_counts bias ngal i matter counts = Ok out /\ length out = m /\
    forall p, (p < m)%nat -> nth p out 0 = nth p counts 0 +
      rsum (length matter) (fun k => nth (i + k) ngal 0 * (sphere_area / INR m) * (1 + match bias with Some b => b | None => 1 end * nth p (nth k matter []) 0)).
Proof.
  intro Hm. set (b := match bias with Some b => b | None => 1 end).
  induction matter as [|d matter IH]; intros i counts Hi Hn Hd Lc.
  { exists counts. split; [reflexivity|]. split; [exact Lc|]. intros p _. cbn. ring. }
  cbn [length] in Hi. destruct (Hd d (or_introl eq_refl)) as [Ld Bd].
  set (n := nth i ngal 0). set (lam := map (fun x => n * (sphere_area / INR m) * (1 + b * x)) d).
  assert (Hin : nth_error ngal i = Some n) by (apply nth_error_nth'; lia).
  assert (Pn : 0 <= n) by (apply Hn; eapply nth_error_In; exact Hin).
  assert (Pa : 0 <= sphere_area / INR m).
  { apply Rle_mult_inv_pos; [unfold sphere_area; pose proof PI_RGT_0; apply Rmult_le_pos; [lra|apply pow2_ge_0]|apply lt_0_INR; exact Hm]. }
  assert (Ell : expected_counts linear_bias {| ashape := []; aget := fun _ => n |} {| ashape := [length d]; aget := fun x => nth (hd 0%nat x) d 0 |}
    (option_map (fun b => {| ashape := []; aget := fun _ => b |}) bias) None false = Ok [lam]).
  { apply (layer_means m n d bias None lam Hm); [discriminate|]. split; [exact Ld|]. split; [unfold lam; rewrite map_length; exact Ld|].
    intros k x Hk v ->. unfold lam. rewrite nth_error_map, Hk. cbn [option_map]. f_equal. unfold expected_points.
    assert (Hx := Bd x (nth_error_In _ _ Hk)).
    replace (match bias with None => x | Some b => b * x end) with (b * x) by (unfold b; destruct bias; ring).
    rewrite Rmax_right; [ring|]. rewrite Rmult_1_r. apply Rmult_le_pos; [apply Rmult_le_pos; assumption|lra]. }
  cbn [add_counts]. unfold index at 1. rewrite Hin. cbn [bind]. rewrite Ell. cbn [bind]. unfold index at 1. cbn [nth_error bind].
  assert (Ll : length lam = m) by (unfold lam; rewrite map_length; exact Ld).
  rewrite Ll, Lc, Nat.eqb_refl. set (c1 := map _ (combine counts lam)).
  assert (L1 : length c1 = m) by (unfold c1; rewrite map_length, combine_length; lia).
  destruct (IH (i + 1)%nat c1 ltac:(lia) Hn (fun d' H' => Hd d' (or_intror H')) L1) as (out & Eo & Lo & Vo).
  exists out. split; [exact Eo|]. split; [exact Lo|]. intros p Hp. rewrite Vo by exact Hp.
  assert (V1 : nth p c1 0 = nth p counts 0 + n * (sphere_area / INR m) * (1 + b * nth p d 0)).
  { unfold c1. rewrite (nth_mapped _ _ p (0, 0)) by (rewrite combine_length; lia). rewrite combine_nth by lia. cbn [fst snd].
    unfold lam. rewrite (nth_mapped _ _ p 0) by lia. reflexivity. }
  rewrite V1. cbn [length]. rewrite rsum_S_l. cbn [nth]. replace (i + 0)%nat with i by lia. fold n.
  rewrite (rsum_ext (length matter) (fun k => nth (i + S k) ngal 0 * (sphere_area / INR m) * (1 + b * nth p (nth k matter []) 0))
    (fun k => nth (i + 1 + k) ngal 0 * (sphere_area / INR m) * (1 + b * nth p (nth k matter []) 0)))
    by (intros k _; replace (i + S k)%nat with (i + 1 + k)%nat by lia; reflexivity).
  ring.
Qed.

Lemma galaxy_counts_weights densities bias n rest x w npix matter :
  ashape densities = n :: rest -> inside rest x -> position_weights densities (option_map scalar bias) = Ok w ->
  length matter = n -> (0 < npix)%nat -> (forall s, In s (column densities n x) -> 0 <= s) -> sum_of (column densities n x) <> 0 ->
  (forall d, In d matter -> length d = npix /\ forall y, In y d -> -1 <= match bias with Some b => b | None => 1 end * y) ->
  exists counts, galaxy_counts bias (column densities n x) npix matter = Ok counts /\
    number_contrast npix (column densities n x) counts = map (fun p => rsum n (fun s => aget w (s :: x) * nth p (nth s matter []) 0)) (seq 0 npix).
Proof.
  intros E Hx Hw Lm Hp Hn H0 Hd. destruct (position_weights_scalar _ _ _ _ _ _ E Hx Hw) as [_ W].
  destruct (add_counts_sum bias (column densities n x) npix Hp matter 0 (repeat 0 npix)) as (out & Eo & Lo & Vo).
  - unfold column. rewrite map_length, seq_length. lia.
  - exact Hn.
  - exact Hd.
  - apply repeat_length.
  - exists out. split; [exact Eo|]. unfold number_contrast. change (fold_right Rplus 0 (column densities n x)) with (sum_of (column densities n x)).
    set (S := sum_of (column densities n x)) in *.
    apply (nth_ext _ _ 0 0); [rewrite !map_length, seq_length; exact Lo|]. rewrite map_length, Lo. intros p Hpp.
    rewrite (nth_mapped _ _ p 0) by lia. rewrite (nth_table (fun p => rsum n (fun s => aget w (s :: x) * nth p (nth s matter []) 0))) by exact Hpp.
    rewrite Vo, nth_repeat, Rplus_0_l, Lm by exact Hpp. cbn [Nat.add].
    set (b := match bias with Some b => b | None => 1 end) in *. set (A := sphere_area / INR npix).
    assert (PA : A <> 0).
    { assert (0 < A); [|lra]. unfold A. apply Rdiv_lt_0_compat; [|apply lt_0_INR; exact Hp]. unfold sphere_area. pose proof PI_RGT_0.
      apply Rmult_lt_0_compat; [lra|]. apply pow_lt. apply Rdiv_lt_0_compat; lra. }
    assert (ES : S = rsum n (fun k => aget densities (k :: x))) by apply sum_seq.
    rewrite (rsum_ext n _ (fun k => A * aget densities (k :: x) + S * A * (aget w (k :: x) * nth p (nth k matter []) 0))).
    + rewrite rsum_plus, !rsum_scal, <- ES. field. split; assumption.
    + intros k Hk. rewrite W by exact Hk. fold S b.
      unfold column. rewrite (nth_table (fun s => aget densities (s :: x))) by exact Hk. field. assumption.
Qed.
