From Coq Require Import Reals Lra Permutation.
From Coquelicot Require Import Coquelicot.
From Verif Require Import Base Model_Numeric Model_Arrays Model_Effective Model_Windows Model_Galaxies
  Spec_Numeric Spec_Arrays Spec_Rng Spec_Galaxies Proof_Numeric Proof_Arrays Proof_Effective.
Local Open Scope R_scope.

Lemma forall2_length {A B} (P : A -> B -> Prop) l l' : Forall2 P l l' -> length l = length l'.
Proof. induction 1; cbn; auto. Qed.

(** ** Inverse of a cumulative distribution *)
Lemma locate_nd cs : forall a b x, starts_with cs a -> ends_with cs b ->
  a <= x < b -> exists i c d, nth_error cs i = Some c /\ nth_error cs (S i) = Some d /\ c <= x < d.
Proof.
  induction cs as [|c0 cs IH]; intros a b x Ha Hb Hx; [discriminate|].
  injection Ha as <-. destruct cs as [|c1 cs].
  - injection Hb as <-. lra.
  - destruct (Rlt_dec x c1) as [L|L].
    + exists 0%nat, c0, c1. repeat split; lra.
    + destruct (IH c1 b x eq_refl) as (i & c & d & H1 & H2 & H3).
      * unfold ends_with in *. cbn [length] in *.
        replace (S (S (length cs)) - 1)%nat with (S (S (length cs) - 1)) in Hb by lia. exact Hb.
      * lra.
      * exists (S i), c, d. auto.
Qed.

Lemma nondecreasing_scale cs t : 0 < t -> nondecreasing cs -> nondecreasing (map (fun c => c / t) cs).
Proof.
  intros Ht H i a b Ha Hb. rewrite nth_error_map' in Ha, Hb.
  destruct (nth_error cs i) as [a0|] eqn:Ea; [|discriminate].
  destruct (nth_error cs (S i)) as [b0|] eqn:Eb; [|discriminate].
  injection Ha as <-. injection Hb as <-. pose proof (H _ _ _ Ea Eb).
  unfold Rdiv. apply Rmult_le_compat_r; [|assumption].
  apply Rlt_le, Rinv_0_lt_compat, Ht.
Qed.

Lemma trapezoids_positive xs fs i j f : increasing xs -> length xs = length fs ->
  (forall f, In f fs -> 0 <= f) -> nth_error fs i = Some f -> 0 < f ->
  nth_error xs j <> None -> j = S i \/ S j = i ->
  0 < total (trapezoids (combine xs fs)).
Proof.
  revert fs i j. induction xs as [|x0 xs IH]; intros fs i j Hs Hl Hf Hi Hpos Hj Hij.
  - destruct fs; [destruct i|]; discriminate.
  - destruct fs as [|f0 fs]; [discriminate|].
    assert (HT : forall ys gs, increasing ys -> length ys = length gs -> (forall f, In f gs -> 0 <= f) ->
      0 <= total (trapezoids (combine ys gs))).
    { intros ys gs H1 H2 H3.
      pose proof (trapezoids_nonneg ys gs (increasing_nondecreasing _ H1) H2 H3) as H4.
      induction (trapezoids (combine ys gs)) as [|t l IHl]; cbn; [lra|].
      assert (0 <= t) by (apply H4; left; reflexivity).
      assert (0 <= total l) by (apply IHl; intros; apply H4; right; assumption). lra. }
    destruct xs as [|x1 xs].
    + destruct fs; [|discriminate]. destruct Hij as [->|<-].
      * destruct i as [|i]; [cbn in Hj; congruence|destruct i; discriminate].
      * destruct j; discriminate.
    + destruct fs as [|f1 fs]; [discriminate|].
      pose proof (Hs 0%nat x0 x1 eq_refl eq_refl) as H01.
      assert (F0 : 0 <= f0) by (apply Hf; left; reflexivity).
      assert (F1 : 0 <= f1) by (apply Hf; right; left; reflexivity).
      pose proof (HT (x1 :: xs) (f1 :: fs) (increasing_tail _ _ Hs) ltac:(cbn in *; lia)
                    ltac:(intros; apply Hf; right; assumption)) as T.
      cbn [combine trapezoids total] in *.
      assert (Hcase : 0 < f0 \/ 0 < f1 \/ (i > 1)%nat).
      { destruct i as [|[|i]]; cbn in Hi; [injection Hi as ->; auto|injection Hi as ->; auto|right; right; lia]. }
      assert (P : 0 <= (f1 + f0) * (1 / 2) * (x1 - x0)) by (apply Rmult_le_pos; lra).
      destruct Hcase as [H|[H|H]].
      * assert (0 < (f1 + f0) * (1 / 2) * (x1 - x0)) by (apply Rmult_lt_0_compat; lra). lra.
      * assert (0 < (f1 + f0) * (1 / 2) * (x1 - x0)) by (apply Rmult_lt_0_compat; lra). lra.
      * destruct i as [|i]; [lia|]. destruct j as [|j]; [lia|].
        pose proof (IH (f1 :: fs) i j (increasing_tail _ _ Hs) ltac:(cbn in *; lia)
                      ltac:(intros; apply Hf; right; assumption) Hi Hpos Hj ltac:(lia)) as Q.
        exact (Rplus_le_lt_0_compat _ _ P Q).
Qed.

Lemma interp_value_nodes_map cs xs t : length xs = length cs -> increasing xs ->
  map (interp_value xs (map (fun c => c / t) cs) None None) xs = map (fun c => c / t) cs.
Proof.
  intros Hl Hs. apply nth_error_ext'. intro k. rewrite !nth_error_map'.
  pose proof (value_through xs (map (fun c => c / t) cs) None None Hs ltac:(rewrite map_length; exact Hl)) as Hp.
  destruct (nth_error xs k) as [x|] eqn:Ex; cbn [option_map].
  - destruct (nth_error_same _ _ _ _ Hl Ex) as (c & Ec). rewrite Ec. cbn [option_map]. f_equal.
    apply (Hp k); [exact Ex|]. rewrite nth_error_map', Ec. reflexivity.
  - destruct (nth_error cs k) eqn:Ec; [|reflexivity].
    assert (k < length cs)%nat by (apply nth_error_Some; congruence).
    apply nth_error_None in Ex. lia.
Qed.

Lemma inverse_cdf z nz : distribution z nz ->
  let cs := cumulative_sum 0 (trapezoids (combine z nz)) in
  let t := total (trapezoids (combine z nz)) in
  let cs' := map (fun c => c / t) cs in
  0 < t /\ last_of cs = Ok t /\ length cs' = length z /\ z <> [] /\
  exists F, cumulative_distribution F z nz /\
    (forall u, 0 <= u < 1 -> F (interp_value cs' z None None u) = u /\
       exists i c d, nth_error z i = Some c /\ nth_error z (S i) = Some d /\
         c <= interp_value cs' z None None u < d /\ F c < F d) /\
    (forall b, ends_with z b -> interp_value cs' z None None 1 = b /\ F b = 1).
Proof.
  cbv zeta. intros (Hs & Hl & Hf & i0 & j0 & f0 & Hi0 & Hpos & Hj0 & Hij).
  set (cs := cumulative_sum 0 (trapezoids (combine z nz))).
  set (t := total (trapezoids (combine z nz))).
  assert (Ht : 0 < t) by (eapply trapezoids_positive; eauto).
  assert (Hne : z <> []) by (intros ->; destruct j0; cbn in Hj0; congruence).
  assert (Hn : length (trapezoids (combine z nz)) = (length z - 1)%nat).
  { rewrite trapezoids_length, combine_length, <- Hl, Nat.min_id; reflexivity. }
  assert (Hcl : length cs = length z).
  { unfold cs. rewrite cumulative_length, Hn. destruct z; [contradiction|cbn; lia]. }
  assert (Hend : ends_with cs t).
  { unfold ends_with. rewrite Hcl, <- Hn. unfold cs. rewrite cumulative_last. f_equal. unfold t; ring. }
  assert (Hstart : starts_with cs 0).
  { unfold starts_with, cs. destruct (trapezoids (combine z nz)); reflexivity. }
  assert (Hlast : last_of cs = Ok t).
  { destruct cs as [|c cs']; [discriminate|]. unfold last_of. f_equal.
    exact (ends_fun _ _ _ (ends_last c cs') Hend). }
  assert (Hmono : nondecreasing cs).
  { apply cumulative_monotone. apply trapezoids_nonneg; auto using increasing_nondecreasing. }
  set (cs' := map (fun c => c / t) cs).
  assert (Hmono' : nondecreasing cs') by (apply nondecreasing_scale; assumption).
  assert (Hcl' : length cs' = length z) by (unfold cs'; rewrite map_length; exact Hcl).
  assert (Hstart' : starts_with cs' 0).
  { unfold starts_with, cs' in *. rewrite nth_error_map', Hstart. cbn. f_equal. field. lra. }
  assert (Hend' : ends_with cs' 1).
  { unfold ends_with, cs' in *. rewrite map_length, nth_error_map', Hend. cbn. f_equal. field. lra. }
  set (F := interp_value z cs' None None).
  assert (HF : cumulative_distribution F z nz).
  { split.
    - unfold F, cs'. rewrite (interp_value_nodes_map cs z t) by auto. fold cs'.
      apply value_interpolates; auto.
    - destruct z as [|a z0]; [contradiction|].
      exists (interp_value (a :: z0) nz None None), a, (last z0 a), t.
      pose proof (value_interpolates (a :: z0) nz None None Hs Hl) as Hi.
      pose proof (value_through (a :: z0) nz None None Hs Hl) as Hp.
      split; [exact Hi|]. split; [exact Hp|]. split; [reflexivity|]. split; [apply ends_last|].
      split; [apply trapezoids_integral; auto; [reflexivity|apply ends_last]|].
      split; [lra|]. intros x Hx. apply In_nth_error in Hx as (k & Hk).
      destruct (nth_error_same _ cs _ _ (eq_sym Hcl) Hk) as (c & Hc).
      replace (F x * t) with (c - 0).
      + apply (cumulative_integral _ _ nz 0 k a x c Hs Hl Hi Hp eq_refl Hk Hc).
      + unfold F. rewrite (value_through (a :: z0) cs' None None Hs (eq_sym Hcl') k x (c / t) Hk).
        * field. lra.
        * unfold cs'. rewrite nth_error_map', Hc. reflexivity. }
  fold cs t cs'. split; [exact Ht|]. split; [exact Hlast|]. split; [exact Hcl'|]. split; [exact Hne|].
  exists F. split; [exact HF|]. split.
  - intros u H01.
    destruct (locate_nd cs' 0 1 u Hstart' Hend' H01) as (i & c & d & Hc & Hd & Hcd).
    destruct (nth_error_same cs' z i c Hcl' Hc) as (a & Ha).
    destruct (nth_error_same cs' z (Datatypes.S i) d Hcl' Hd) as (b & Hb).
    set (x := interp_value cs' z None None u).
    assert (Ex : x = (b - a) / (d - c) * (u - c) + a).
    { unfold x. apply (value_segment cs' z None None i c d a b u); auto. }
    pose proof (Hs _ _ _ Ha Hb) as Hab.
    assert (Hcdp : 0 < d - c) by lra.
    assert (Hx : a <= x < b).
    { assert (E1 : (x - a) * (d - c) = (b - a) * (u - c)) by (rewrite Ex; field; lra).
      split.
      - apply Rnot_lt_le; intro L.
        assert ((a - x) * (d - c) > 0) by (apply Rmult_lt_0_compat; lra).
        assert (0 <= (b - a) * (u - c)) by (apply Rmult_le_pos; lra). lra.
      - apply Rnot_le_lt; intro L.
        assert (0 <= (x - b) * (d - c)) by (apply Rmult_le_pos; lra).
        assert (0 < (b - a) * (d - u)) by (apply Rmult_lt_0_compat; lra).
        assert ((x - b) * (d - c) = (x - a) * (d - c) - (b - a) * (d - c)) by ring.
        assert ((b - a) * (d - u) = (b - a) * (d - c) - (b - a) * (u - c)) by ring. lra. }
    assert (EF : F x = (d - c) / (b - a) * (x - a) + c).
    { unfold F. apply (value_segment z cs' None None i a b c d x); auto using increasing_nondecreasing. }
    split.
    * rewrite EF, Ex. field. lra.
    * exists i, a, b. split; [exact Ha|]. split; [exact Hb|]. split; [exact Hx|].
      unfold F. rewrite (value_through z cs' None None Hs (eq_sym Hcl') i a c Ha Hc).
      rewrite (value_through z cs' None None Hs (eq_sym Hcl') (Datatypes.S i) b d Hb Hd). lra.
  - intros b Hb. split.
    + apply value_last with 1 || apply (value_last cs' z None None 1 b); auto.
    + unfold F. apply value_last; auto using increasing_nondecreasing.
Qed.

Section Draws.
  Context {S : Type} (uniform : S -> nat -> list R * S).
  Hypothesis uniform_length : forall s n, length (fst (uniform s n)) = n.
  Hypothesis uniform_range : forall s n u, In u (fst (uniform s n)) -> 0 <= u < 1.

  Lemma draw_nz_spec count z nz s us s' : distribution z nz -> uniform s count = (us, s') ->
    exists zs, draw_nz uniform count z nz s = Ok (zs, s') /\ Forall2 (drawn_from z nz) us zs.
  Proof.
    intros Hd Hu. assert (Hl : length z = length nz) by apply Hd.
    destruct (inverse_cdf z nz Hd) as (Ht & Hlast & Hcl & Hne & F & HF & HI & _).
    set (cs := cumulative_sum 0 (trapezoids (combine z nz))) in *.
    set (t := total (trapezoids (combine z nz))) in *.
    set (cs' := map (fun c => c / t) cs) in *.
    exists (map (interp_value cs' z None None) us). split.
    - unfold draw_nz, cumulative_trapezoid. rewrite <- Hl, Nat.eqb_refl. cbn [bind].
      fold cs. rewrite Hlast. cbn [bind]. destruct (Req_EM_T t 0); [lra|]. rewrite Hu.
      rewrite (mapM_pure _ (interp_value cs' z None None)); [reflexivity|].
      intros u _. apply interp_ok; [exact Hcl|]. intro E. rewrite E in Hcl. destruct z; [contradiction|discriminate].
    - assert (Hr : forall u, In u us -> 0 <= u < 1).
      { intros u Hin. apply (uniform_range s count). rewrite Hu. exact Hin. }
      clear Hu. induction us as [|u us IH]; cbn [map]; constructor.
      + exists F. split; [exact HF|]. apply HI. apply Hr. left; reflexivity.
      + apply IH. intros v Hv. apply Hr. right; exact Hv.
  Qed.

  Lemma drawn_range z nz u x a b : increasing z -> starts_with z a -> ends_with z b ->
    drawn_from z nz u x -> a <= x <= b.
  Proof.
    intros Hs Ha Hb (F & _ & _ & i & c & d & Hc & Hd & Hx & _).
    pose proof (starts_min z a Hs Ha c (nth_error_In _ _ Hc)).
    pose proof (ends_max z b Hs Hb d (nth_error_In _ _ Hd)). lra.
  Qed.

  (** ** Rows of arrays *)
  Lemma draw_rows_spec (count z nz : array (nat * R)) m (N : list nat -> nat) (Z NZ : list nat -> list R) ks s :
    (forall k, In k ks -> fst (aget count k) = N k /\
       map snd (row_at z k m) = Z k /\ map snd (row_at nz k m) = NZ k /\ distribution (Z k) (NZ k)) ->
    exists uss runs s', draw_rows uniform count z nz m m ks s = Ok (concat runs, s') /\
      draws uniform s (map N ks) uss s' /\
      Forall2 (fun k p => length (fst p) = N k /\ Forall2 (drawn_from (Z k) (NZ k)) (fst p) (snd p)) ks
        (combine uss runs) /\ length uss = length runs.
  Proof.
    revert s; induction ks as [|k ks IH]; intros s H.
    - exists [], [], s. split; [reflexivity|]. split; [constructor|]. split; [constructor|reflexivity].
    - destruct (H k (or_introl eq_refl)) as (E1 & E2 & E3 & Hd).
      destruct (uniform s (N k)) as [us s1] eqn:Eu.
      destruct (draw_nz_spec (N k) (Z k) (NZ k) s us s1 Hd Eu) as (zs & Ez & Hz).
      destruct (IH s1 ltac:(intros; apply H; right; assumption)) as (uss & runs & s2 & Er & Hdr & HF & Hlen).
      exists (us :: uss), (zs :: runs), s2. split; [|split; [|split]].
      + cbn [draw_rows]. rewrite E1, E2, E3, Ez. cbn [bind]. rewrite Er. cbn [bind concat]. reflexivity.
      + cbn [map]. econstructor; eassumption.
      + cbn [combine]. constructor; [|exact HF]. cbn [fst snd]. split; [|exact Hz].
        pose proof (uniform_length s (N k)) as E. rewrite Eu in E. exact E.
      + cbn. lia.
  Qed.

  Lemma comes_from_fun s i j j' : comes_from s i j -> comes_from s i j' -> j = j'.
  Proof.
    intros [H1 H2] [H3 H4]. rewrite <- (rev_involutive j), <- (rev_involutive j'). f_equal.
    apply (nth_ext _ _ 0%nat 0%nat); rewrite !rev_length; [lia|].
    intros k Hk. rewrite H2, H4 by lia. reflexivity.
  Qed.
End Draws.

Section FromNz.
  Context {S : Type} (uniform : S -> nat -> list R * S).
  Hypothesis uniform_length : forall s n, length (fst (uniform s n)) = n.
  Hypothesis uniform_range : forall s n u, In u (fst (uniform s n)) -> 0 <= u < 1.

  Lemma row_at_for (x : array R) (r : array (nat * R)) lz m dims k row :
    ashape x = lz ++ [m] -> ashape r = dims ++ [m] -> length k = length dims ->
    (forall i, length i = length (ashape r) -> exists j, comes_from (ashape x) i j /\ aget r i = (0%nat, aget x j)) ->
    row_for x lz m k row -> map snd (row_at r k m) = row.
  Proof.
    intros Ex Er Hk H (j & Hj & Hlen & Hrow). unfold row_at. rewrite map_map.
    apply nth_error_ext'. intro i. rewrite nth_error_map', nth_error_seq.
    destruct (Nat.ltb_spec i m) as [L|L].
    - cbn [option_map Nat.add]. rewrite (Hrow i L). f_equal.
      destruct (H (k ++ [i])) as (j' & Hj' & E).
      { rewrite Er, !app_length, Hk. reflexivity. }
      rewrite E. cbn [snd]. f_equal.
      rewrite Ex in Hj'. apply comes_from_snoc in Hj' as (j0 & -> & Hj0).
      rewrite (comes_from_fun _ _ _ _ Hj0 Hj). destruct (Nat.eqb_spec m 1); [|reflexivity].
      do 2 f_equal. lia.
    - cbn [option_map]. symmetry. apply nth_error_None. lia.
  Qed.

  Lemma redshifts_from_nz_runs count z nz lz ln m dims (N : list nat -> nat) (Z NZ : list nat -> list R) s :
    ashape z = lz ++ [m] -> ashape nz = ln ++ [m] -> is_broadcast [ashape count; lz; ln] dims ->
    (forall k, inside dims k -> element_for count k (N k) /\ row_for z lz m k (Z k) /\
       row_for nz ln m k (NZ k) /\ distribution (Z k) (NZ k)) ->
    exists uss runs s', redshifts_from_nz uniform count z nz s = Ok (concat runs, s') /\
      draws uniform s (map N (ndindex dims)) uss s' /\
      Forall2 (fun k p => length (fst p) = N k /\ Forall2 (drawn_from (Z k) (NZ k)) (fst p) (snd p))
        (ndindex dims) (combine uss runs) /\ length uss = length runs.
  Proof.
    intros Ez En Hb H. unfold redshifts_from_nz.
    set (c := {| ashape := ashape count; aget := fun i => (aget count i, 0) |}).
    set (x := {| ashape := ashape z; aget := fun i => (0%nat, aget z i) |}).
    set (y := {| ashape := ashape nz; aget := fun i => (0%nat, aget nz i) |}).
    assert (L1 : lead (x, 1%nat) = lz /\ trail (x, 1%nat) = [m]).
    { unfold lead, trail; cbn [fst snd]. unfold x; cbn [ashape]. rewrite Ez, app_length. cbn [length].
      replace (length lz + 1 - 1)%nat with (length lz) by lia.
      rewrite firstn_app, skipn_app, Nat.sub_diag, firstn_all, skipn_all. cbn. rewrite app_nil_r. auto. }
    assert (L2 : lead (y, 1%nat) = ln /\ trail (y, 1%nat) = [m]).
    { unfold lead, trail; cbn [fst snd]. unfold y; cbn [ashape]. rewrite En, app_length. cbn [length].
      replace (length ln + 1 - 1)%nat with (length ln) by lia.
      rewrite firstn_app, skipn_app, Nat.sub_diag, firstn_all, skipn_all. cbn. rewrite app_nil_r. auto. }
    assert (L0 : lead (c, 0%nat) = ashape count /\ trail (c, 0%nat) = []).
    { unfold lead, trail; cbn [fst snd]. unfold c; cbn [ashape]. rewrite Nat.sub_0_r, firstn_all, skipn_all. auto. }
    destruct L0 as [L0 T0], L1 as [L1 T1], L2 as [L2 T2].
    destruct (leading_ok [(c, 0%nat); (x, 1%nat); (y, 1%nat)] dims) as (arrs & E & F).
    { repeat constructor; cbn [fst snd]; [lia| |]; unfold x, y; cbn [ashape]; rewrite ?Ez, ?En, app_length; cbn; lia. }
    { cbn [map]. rewrite L0, L1, L2. exact Hb. }
    rewrite E. cbn [bind]. clear L0 L1 L2.
    inversion F as [|? c' ? ? [Sc' Hc] F1]; subst. inversion F1 as [|? x' ? ? [Sx Hx] F2]; subst.
    inversion F2 as [|? y' ? ? [Sy Hy] F3]; subst. inversion F3; subst.
    rewrite T0, app_nil_r in Sc'. rewrite T1 in Sx. rewrite T2 in Sy.
    rewrite Sx, Sy, !last_last.
    apply (draw_rows_spec uniform uniform_length uniform_range c' x' y' m N Z NZ).
    intros k Hk. apply ndindex_In in Hk. destruct (H k Hk) as ((j & Hj & EN) & HZ & HNZ & Hd).
    assert (Hkl : length k = length dims) by (exact (forall2_length _ _ _ Hk)).
    split; [|split; [|split; [|exact Hd]]].
    - destruct (Hc k) as (j' & Hj' & E'); [rewrite Sc'; exact Hkl|].
      rewrite E'. cbn [fst] in Hj'. unfold c in *. cbn [aget fst ashape] in *. rewrite EN. f_equal.
      exact (comes_from_fun _ _ _ _ Hj' Hj).
    - apply (row_at_for z x' lz m dims); auto.
    - apply (row_at_for nz y' ln m dims); auto.
  Qed.
End FromNz.

(** ** Bins *)
Lemma sorted_unique (l l' : list nat) : Permutation l l' ->
  (forall i a b, nth_error l i = Some a -> nth_error l (S i) = Some b -> (a <= b)%nat) ->
  (forall i a b, nth_error l' i = Some a -> nth_error l' (S i) = Some b -> (a <= b)%nat) -> l = l'.
Proof.
  revert l'; induction l as [|x l IH]; intros l' HP H H'.
  - apply Permutation_nil in HP. auto.
  - destruct l' as [|y l']; [apply Permutation_sym, Permutation_nil in HP; discriminate|].
    assert (M : forall (z : nat) (q : list nat), (forall i a b, nth_error (z :: q) i = Some a ->
        nth_error (z :: q) (S i) = Some b -> (a <= b)%nat) -> forall w, In w (z :: q) -> (z <= w)%nat).
    { clear. intros z q; revert z; induction q as [|u q IHq]; intros z Hq w [<-|Hw]; try lia; [contradiction|].
      pose proof (Hq 0%nat z u eq_refl eq_refl).
      assert (u <= w)%nat by (apply IHq; [intros i; apply (Hq (S i))|exact Hw]). lia. }
    assert (x = y).
    { assert (y <= x)%nat by (apply (M y l' H'), (Permutation_in x HP); left; reflexivity).
      assert (x <= y)%nat by (apply (M x l H), (Permutation_in y (Permutation_sym HP)); left; reflexivity). lia. }
    subst y. f_equal. apply IH.
    + apply Permutation_cons_inv with x; exact HP.
    + intros i; apply (H (S i)).
    + intros i; apply (H' (S i)).
Qed.

(** Applying the inverse of a permutation undoes it. *)
Lemma sort_of_permutation n (p q : list nat) : Permutation p (seq 0 n) -> sorting_permutation p q ->
  forall k a, nth_error p k = Some a -> nth_error q a = Some k.
Proof.
  intros HP [HQ HS] k a Hk.
  assert (Hlen : length p = n) by (rewrite (Permutation_length HP), seq_length; reflexivity).
  rewrite Hlen in HQ.
  assert (E : map (fun i => nth i p 0%nat) q = seq 0 n).
  { apply sorted_unique.
    - transitivity (map (fun i => nth i p 0%nat) (seq 0 n)); [apply Permutation_map; exact HQ|].
      replace (map (fun i => nth i p 0%nat) (seq 0 n)) with p; [exact HP|].
      apply nth_error_ext'. intro i. rewrite nth_error_map', nth_error_seq.
      destruct (Nat.ltb_spec i n) as [L|L]; cbn [option_map Nat.add].
      + apply nth_error_nth'. lia.
      + apply nth_error_None. lia.
    - intros i u v Hu Hv. rewrite nth_error_map' in Hu, Hv.
      destruct (nth_error q i) as [qi|] eqn:Ei; [|discriminate].
      destruct (nth_error q (S i)) as [qj|] eqn:Ej; [|discriminate].
      injection Hu as <-. injection Hv as <-.
      assert (B : forall r, In r q -> (r < length p)%nat).
      { intros r Hr. apply (Permutation_in r HQ) in Hr. apply in_seq in Hr. lia. }
      apply (HS i qi qj); auto; apply nth_error_nth'; apply B; eapply nth_error_In; eassumption.
    - intros i u v Hu Hv. rewrite nth_error_seq in Hu, Hv.
      destruct (i <? n); [|discriminate]. destruct (S i <? n); [|discriminate].
      injection Hu as <-. injection Hv as <-. lia. }
  assert (Ha : (a < n)%nat).
  { apply nth_error_In, (Permutation_in a HP), in_seq in Hk. lia. }
  assert (Hq : nth_error (map (fun i => nth i p 0%nat) q) a = Some a).
  { rewrite E, nth_error_seq. destruct (Nat.ltb_spec a n); [reflexivity|lia]. }
  rewrite nth_error_map' in Hq. destruct (nth_error q a) as [r|] eqn:Er; [|discriminate].
  injection Hq as Hq. f_equal.
  assert (Hr : (r < n)%nat) by (apply nth_error_In, (Permutation_in r HQ), in_seq in Er; lia).
  assert (ND : NoDup p) by (apply (Permutation_NoDup (Permutation_sym HP)), seq_NoDup).
  assert (Hp : nth_error p r = Some a).
  { rewrite <- Hq. apply nth_error_nth'. lia. }
  rewrite NoDup_nth_error in ND. apply ND; [lia|congruence].
Qed.

Fixpoint blocks {A} (s : nat) (runs : list (list A)) : list nat :=
  match runs with [] => [] | r :: runs => repeat s (length r) ++ blocks (S s) runs end.

Lemma blocks_length {A} s (runs : list (list A)) : length (blocks s runs) = length (concat runs).
Proof. revert s; induction runs as [|r runs IH]; intro s; cbn; [reflexivity|].
  rewrite !app_length, repeat_length, IH. reflexivity. Qed.

Lemma blocks_ge {A} s (runs : list (list A)) x : In x (blocks s runs) -> (s <= x)%nat.
Proof.
  revert s; induction runs as [|r runs IH]; intros s; cbn [blocks In]; [contradiction|].
  rewrite in_app_iff. intros [H|H]; [apply repeat_spec in H; lia|]. apply IH in H. lia.
Qed.

Lemma blocks_sorted {A} s (runs : list (list A)) i a b :
  nth_error (blocks s runs) i = Some a -> nth_error (blocks s runs) (S i) = Some b -> (a <= b)%nat.
Proof.
  revert s i; induction runs as [|r runs IH]; intros s i; cbn [blocks]; [destruct i; discriminate|].
  rewrite !nth_error_app, repeat_length. intros Ha Hb.
  destruct (Nat.ltb_spec i (length r)).
  - rewrite nth_error_repeat' in Ha. destruct (i <? length r); [|discriminate]. injection Ha as <-.
    destruct (Nat.ltb_spec (S i) (length r)).
    + rewrite nth_error_repeat' in Hb. destruct (S i <? length r); [|discriminate]. injection Hb as <-. lia.
    + apply nth_error_In, blocks_ge in Hb. lia.
  - destruct (Nat.ltb_spec (S i) (length r)); [lia|].
    replace (S i - length r)%nat with (S (i - length r)) in Hb by lia. eapply IH; eassumption.
Qed.

Lemma blocks_count {A} s (runs : list (list A)) j :
  count_occ Nat.eq_dec (blocks s runs) j =
  if s <=? j then length (nth (j - s) runs []) else 0%nat.
Proof.
  revert s; induction runs as [|r runs IH]; intro s; cbn [blocks].
  - destruct (s <=? j); [destruct (j - s)%nat|]; reflexivity.
  - rewrite count_occ_app, IH.
    assert (E : count_occ Nat.eq_dec (repeat s (length r)) j = if s =? j then length r else 0%nat).
    { destruct (Nat.eqb_spec s j) as [->|N].
      - apply count_occ_repeat_eq; reflexivity.
      - apply count_occ_repeat_neq. auto. }
    rewrite E. clear E. destruct (Nat.eqb_spec s j) as [E|N].
    + subst j. rewrite Nat.leb_refl, Nat.sub_diag. destruct (Nat.leb_spec (S s) s); [lia|]. cbn. lia.
    + destruct (Nat.leb_spec s j), (Nat.leb_spec (S s) j); try lia.
      replace (j - s)%nat with (S (j - S s)) by lia. reflexivity.
Qed.

Lemma blocks_labels {A L} (pre labels : list L) (runs : list (list A)) : length labels = length runs ->
  map (nth_error (pre ++ labels)) (blocks (length pre) runs) =
  map Some (flat_map (fun p => repeat (fst p) (length (snd p))) (combine labels runs)).
Proof.
  revert pre labels; induction runs as [|r runs IH]; intros pre [|x labels] H; try discriminate; [reflexivity|].
  cbn [blocks combine flat_map fst snd]. rewrite !map_app. f_equal.
  - assert (MR : forall (T U : Type) (f : T -> U) a n, map f (repeat a n) = repeat (f a) n)
      by (clear; intros; induction n; cbn; congruence).
    rewrite !MR. f_equal. rewrite nth_error_app2, Nat.sub_diag by lia. reflexivity.
  - specialize (IH (pre ++ [x]) labels ltac:(cbn in H; lia)).
    rewrite app_length, <- app_assoc in IH. cbn [length app] in IH.
    replace (length pre + 1)%nat with (S (length pre)) in IH by lia. exact IH.
Qed.

Lemma combine_runs {A L} (labels : list L) (runs : list (list A)) : length labels = length runs ->
  combine (flat_map (fun p => repeat (fst p) (length (snd p))) (combine labels runs)) (concat runs) =
  flat_map (fun p => map (pair (fst p)) (snd p)) (combine labels runs).
Proof.
  revert labels; induction runs as [|r runs IH]; intros [|x labels] H; try discriminate; [reflexivity|].
  cbn [combine flat_map fst snd concat]. rewrite <- (IH labels) by (cbn in H; lia).
  generalize (flat_map (fun p => repeat (fst p) (length (snd p))) (combine labels runs)) (concat runs).
  intros l m. clear H IH. induction r as [|a r IHr]; cbn; [reflexivity|]. f_equal. exact IHr.
Qed.

Lemma permutation_some {A} (l l' : list A) : Permutation (map Some l) (map Some l') -> Permutation l l'.
Proof.
  intro H. apply Permutation_map_inv in H as (l3 & E & H).
  assert (l = l3).
  { clear H. revert l3 E. induction l as [|a l IH]; intros [|b l3] E; try discriminate; [reflexivity|].
    injection E as -> E. f_equal. apply IH; exact E. }
  subst. apply Permutation_sym; exact H.
Qed.

Section Bins.
  Context {S L : Type} (uniform : S -> nat -> list R * S).
  Variable eqb : L -> L -> bool.
  Hypothesis eqb_spec : forall x y, eqb x y = true <-> x = y.
  Hypothesis uniform_length : forall s n, length (fst (uniform s n)) = n.
  Notation pos := (position eqb).
  Notation occ := (occurrences eqb).

  Lemma position_ok x l i : pos x l = Ok i -> nth_error l i = Some x.
  Proof.
    revert i; induction l as [|y l IH]; intros i; cbn [position]; [discriminate|].
    destruct (eqb y x) eqn:E.
    - intro H. injection H as <-. apply eqb_spec in E. subst. reflexivity.
    - intro H. apply bind_ok in H as (k & Hk & H). injection H as <-. rewrite Nat.add_1_r. cbn. auto.
  Qed.
  Lemma position_In x l : In x l -> exists i, pos x l = Ok i.
  Proof.
    induction l as [|y l IH]; cbn [In position]; [contradiction|]. intro H.
    destruct (eqb y x) eqn:E; [eauto|]. destruct H as [->|H].
    - rewrite (proj2 (eqb_spec x x) eq_refl) in E. discriminate.
    - destruct (IH H) as (i & ->). cbn. eauto.
  Qed.
  Lemma position_nth l i x : NoDup l -> nth_error l i = Some x -> pos x l = Ok i.
  Proof.
    intros ND H. destruct (position_In x l (nth_error_In _ _ H)) as (j & E). rewrite E. f_equal.
    pose proof (position_ok _ _ _ E) as Hj. rewrite NoDup_nth_error in ND. apply ND.
    - apply nth_error_Some. congruence.
    - congruence.
  Qed.

  Lemma draw_nz_length count z nz s zs s' : draw_nz uniform count z nz s = Ok (zs, s') -> length zs = count.
  Proof.
    unfold draw_nz. intro H. apply bind_ok in H as (cdf & _ & H). apply bind_ok in H as (t & _ & H).
    destruct (Req_EM_T t 0); [discriminate|]. destruct (uniform s count) as [us s1] eqn:E.
    apply bind_ok in H as (zs' & Hz & H). injection H as <- <-. apply mapM_ok, forall2_length in Hz.
    pose proof (uniform_length s count) as El. rewrite E in El. cbn in El. lia.
  Qed.

  Lemma draw_runs_length keys values z bins labels s runs s' :
    draw_runs uniform eqb keys values z bins labels s = Ok (runs, s') ->
    Forall2 (fun x run => length run = occ x bins) labels runs.
  Proof.
    revert s runs; induction labels as [|x labels IH]; intros s runs; cbn [draw_runs].
    - intro H. injection H as <- <-. constructor.
    - intro H. apply bind_ok in H as (i & _ & H). apply bind_ok in H as (nz & _ & H).
      apply bind_ok in H as ([run s1] & Hr & H). apply bind_ok in H as ([runs1 s2] & Hrs & H).
      injection H as <- <-. constructor; [eapply draw_nz_length; eassumption|eauto].
  Qed.

  Variable unique : list L -> list L.
  Hypothesis unique_NoDup : forall l, NoDup (unique l).
  Hypothesis unique_In : forall l x, In x (unique l) <-> In x l.
  Variable argsort : list nat -> list nat.
  Hypothesis argsort_spec : forall v, sorting_permutation v (argsort v).

  Lemma index_count bins labels idx j x : NoDup labels -> mapM (fun y => pos y labels) bins = Ok idx ->
    nth_error labels j = Some x -> count_occ Nat.eq_dec idx j = occ x bins.
  Proof.
    intros ND H Hj. unfold occurrences. apply mapM_ok in H.
    induction H as [|y i bins idx Hy _ IH]; [reflexivity|]. cbn [count_occ filter].
    destruct (Nat.eq_dec i j) as [->|N].
    - pose proof (position_ok _ _ _ Hy). assert (x = y) by congruence. subst y.
      rewrite (proj2 (eqb_spec x x) eq_refl). cbn [length]. f_equal. exact IH.
    - destruct (eqb x y) eqn:E; [|exact IH]. exfalso. apply N. apply eqb_spec in E. subst y.
      rewrite (position_nth _ _ _ ND Hj) in Hy. congruence.
  Qed.

  Lemma bins_permutation bins z nz_dict s out s' :
    redshifts_from_bins uniform eqb unique argsort bins z nz_dict s = Ok (out, s') ->
    exists runs, draw_runs uniform eqb (map fst nz_dict) (map snd nz_dict) z bins (unique bins) s = Ok (runs, s') /\
      length out = length bins /\
      Permutation (combine bins out)
        (flat_map (fun p => map (pair (fst p)) (snd p)) (combine (unique bins) runs)).
  Proof.
    unfold redshifts_from_bins. intro H. set (labels := unique bins) in *.
    apply bind_ok in H as (idx & Hidx & H). apply bind_ok in H as ([runs s1] & Hruns & H).
    assert (H' : exists order, order = argsort (argsort idx) /\
       mapM (fun k => Base.index (concat runs) k) order = Ok out /\ s1 = s').
    { destruct runs; [discriminate|]. apply bind_ok in H as (o & Ho & H). injection H as <- <-. eauto. }
    destruct H' as (order & -> & Hout & <-). clear H.
    exists runs. split; [exact Hruns|].
    pose proof (draw_runs_length _ _ _ _ _ _ _ _ Hruns) as HL.
    pose proof (forall2_length _ _ _ HL) as Hlab.
    set (P1 := argsort idx) in *. destruct (argsort_spec idx) as [PP PS]. fold P1 in PP, PS.
    assert (Hil : length idx = length bins) by (apply mapM_ok, forall2_length in Hidx; auto).
    set (n := length bins) in *. rewrite Hil in PP.
    assert (PL : length P1 = n) by (rewrite (Permutation_length PP), seq_length; reflexivity).
    assert (HB : map (fun a => nth a idx 0%nat) P1 = blocks 0 runs).
    { apply sorted_unique.
      - transitivity idx.
        + transitivity (map (fun a => nth a idx 0%nat) (seq 0 n)); [apply Permutation_map; exact PP|].
          replace (map (fun a => nth a idx 0%nat) (seq 0 n)) with idx; [apply Permutation_refl|].
          apply nth_error_ext'. intro i. rewrite nth_error_map', nth_error_seq.
          destruct (Nat.ltb_spec i n) as [Q|Q]; cbn [option_map Nat.add].
          * apply nth_error_nth'. lia.
          * apply nth_error_None. lia.
        + apply (Permutation_count_occ Nat.eq_dec). intro j. rewrite blocks_count. cbn [Nat.leb].
          rewrite Nat.sub_0_r. destruct (nth_error labels j) as [x|] eqn:Ej.
          * rewrite (index_count bins labels idx j x (unique_NoDup bins) Hidx Ej).
            clear -HL Ej. revert j Ej. induction HL as [|y run labels runs Hy _ IH]; intros [|j] E; try discriminate.
            -- injection E as ->. cbn. auto.
            -- cbn. apply IH. exact E.
          * rewrite (nth_overflow runs) by (apply nth_error_None in Ej; lia). cbn.
            apply count_occ_not_In. intro Hin. apply mapM_ok in Hidx.
            clear -Hidx Hin Ej eqb_spec. clearbody labels. induction Hidx as [|y i b l Hy _ IH]; [contradiction|].
            destruct Hin as [->|Hin]; [|auto]. apply position_ok in Hy. congruence.
      - intros i a b Ha Hb. rewrite nth_error_map' in Ha, Hb.
        destruct (nth_error P1 i) as [qi|] eqn:Ei; [|discriminate].
        destruct (nth_error P1 (Datatypes.S i)) as [qj|] eqn:Ej; [|discriminate].
        injection Ha as <-. injection Hb as <-.
        assert (B : forall r, In r P1 -> (r < length idx)%nat).
        { intros r Hr. apply (Permutation_in r PP) in Hr. apply in_seq in Hr. lia. }
        apply (PS i qi qj); auto; apply nth_error_nth'; apply B; eapply nth_error_In; eassumption.
      - apply blocks_sorted. }
    assert (Hfl : length (concat runs) = n).
    { rewrite <- (blocks_length 0), <- HB, map_length. exact PL. }
    set (P2 := argsort P1) in *.
    pose proof (argsort_spec P1) as HP2. fold P2 in HP2.
    pose proof (sort_of_permutation n P1 P2 PP HP2) as Hinv.
    assert (P2L : length P2 = n).
    { destruct HP2 as [Q _]. rewrite (Permutation_length Q), seq_length. exact PL. }
    apply mapM_ok in Hout. pose proof (forall2_length _ _ _ Hout) as Hol.
    assert (Hlout : length out = n) by lia.
    split; [exact Hlout|].
    assert (Hget : forall k a, nth_error P1 k = Some a -> nth_error out a = nth_error (concat runs) k).
    { intros k a Hk. pose proof (Hinv k a Hk) as Ha.
      assert (G : forall q o, Forall2 (fun k y => Base.index (concat runs) k = Ok y) q o ->
        forall a k, nth_error q a = Some k -> nth_error o a = nth_error (concat runs) k).
      { clear. induction 1 as [|k0 y q o Hy _ IH]; intros [|a] k E; try discriminate.
        - injection E as ->. cbn. unfold Base.index in Hy.
          destruct (nth_error (concat runs) k); [congruence|discriminate].
        - cbn in E |- *. auto. }
      exact (G _ _ Hout a k Ha). }
    rewrite <- (combine_runs labels runs Hlab).
    apply permutation_some.
    transitivity (map (nth_error (combine bins out)) P1).
    - transitivity (map (nth_error (combine bins out)) (seq 0 n)).
      + replace (map (nth_error (combine bins out)) (seq 0 n)) with (map Some (combine bins out)); [reflexivity|].
        apply nth_error_ext'. intro i. rewrite !nth_error_map', nth_error_seq.
        assert (Hc : length (combine bins out) = n) by (rewrite combine_length; fold n; lia).
        destruct (Nat.ltb_spec i n) as [Q|Q]; cbn [option_map Nat.add].
        * destruct (nth_error (combine bins out) i) eqn:E; [reflexivity|]. apply nth_error_None in E. lia.
        * destruct (nth_error (combine bins out) i) eqn:E; [|reflexivity].
          assert (i < length (combine bins out))%nat by (apply nth_error_Some; congruence). lia.
      + apply Permutation_map, Permutation_sym, PP.
    - replace (map (nth_error (combine bins out)) P1) with
        (map Some (combine (flat_map (fun p => repeat (fst p) (length (snd p))) (combine labels runs)) (concat runs)));
        [apply Permutation_refl|].
      pose proof (blocks_labels [] labels runs Hlab) as HBL. cbn [app length] in HBL.
      apply nth_error_ext'. intro k. rewrite !nth_error_map', nth_error_combine.
      assert (E1 : nth_error (map Some (flat_map (fun p => repeat (fst p) (length (snd p))) (combine labels runs))) k
         = option_map (fun a => nth_error labels (nth a idx 0%nat)) (nth_error P1 k)).
      { rewrite <- HBL, <- HB, map_map, nth_error_map'. reflexivity. }
      rewrite nth_error_map' in E1.
      destruct (nth_error P1 k) as [a|] eqn:Ek; cbn [option_map] in *.
      + pose proof (Hget k a Ek) as Ho. rewrite nth_error_combine, Ho.
        assert (Ha : (a < n)%nat) by (apply nth_error_In, (Permutation_in a PP), in_seq in Ek; lia).
        assert (Eb : nth_error bins a = nth_error labels (nth a idx 0%nat)).
        { apply mapM_ok in Hidx. fold n in Ha.
          assert (G : forall b i, Forall2 (fun x y => pos x labels = Ok y) b i -> forall a, (a < length b)%nat ->
            nth_error b a = nth_error labels (nth a i 0%nat)).
          { clear -eqb_spec. induction 1 as [|x y b i Hx _ IH]; intros [|a] Hl; cbn in Hl; try lia; cbn [nth nth_error].
            - symmetry. apply position_ok. exact Hx.
            - apply IH. lia. }
          apply G; assumption. }
        rewrite Eb. destruct (nth_error (flat_map _ _) k) as [x|]; cbn [option_map] in E1; [|discriminate].
        injection E1 as <-. destruct (nth_error (concat runs) k) eqn:Ec; [reflexivity|].
        apply nth_error_None in Ec. assert (k < length P1)%nat by (apply nth_error_Some; congruence). lia.
      + destruct (nth_error (flat_map _ _) k) as [x|]; cbn [option_map] in E1; [discriminate|reflexivity].
  Qed.

  Lemma permutation_filter {T} (f : T -> bool) l l' : Permutation l l' -> Permutation (filter f l) (filter f l').
  Proof.
    induction 1 as [|x l l' H IH|x y l|l1 l2 l3 H1 IH1 H2 IH2]; cbn.
    - constructor.
    - destruct (f x); [apply perm_skip; exact IH|exact IH].
    - destruct (f x), (f y); try apply Permutation_refl. apply perm_swap.
    - eapply Permutation_trans; eassumption.
  Qed.

  Lemma filter_runs labels (runs : list (list R)) x run : NoDup labels -> length labels = length runs ->
    In (x, run) (combine labels runs) ->
    map snd (filter (fun p => eqb x (fst p)) (flat_map (fun p => map (pair (fst p)) (snd p)) (combine labels runs))) = run.
  Proof.
    revert runs; induction labels as [|y labels IH]; intros [|r runs] ND Hl Hin; try discriminate; [contradiction|].
    cbn [combine flat_map fst snd]. rewrite filter_app, map_app.
    inversion ND as [|? ? Hy ND']; subst.
    assert (F1 : map snd (filter (fun p => eqb x (fst p)) (map (pair y) r)) = if eqb x y then r else []).
    { clear. induction r as [|a r IHr]; cbn; [destruct (eqb x y); reflexivity|].
      destruct (eqb x y); cbn; [f_equal|]; exact IHr. }
    rewrite F1. destruct Hin as [E|Hin].
    - injection E as -> ->. rewrite (proj2 (eqb_spec x x) eq_refl).
      rewrite <- app_nil_r. f_equal.
      assert (G : forall q, In q (flat_map (fun p : L * list R => map (pair (fst p)) (snd p)) (combine labels runs)) ->
        In (fst q) labels).
      { intros q Hq. apply in_flat_map in Hq as ([u v] & Hu & Hq). apply in_map_iff in Hq as (w & <- & _).
        cbn. apply in_combine_l in Hu. exact Hu. }
      induction (flat_map _ _) as [|q l IHl]; [reflexivity|]. cbn [filter].
      destruct (eqb x (fst q)) eqn:E; [|apply IHl; intros; apply G; right; assumption].
      apply eqb_spec in E. exfalso. apply Hy. rewrite E. apply G. left. reflexivity.
    - destruct (eqb x y) eqn:E.
      + apply eqb_spec in E. subst y. exfalso. apply Hy. eapply in_combine_l. exact Hin.
      + cbn. apply IH; auto.
  Qed.

  Hypothesis uniform_range : forall s n u, In u (fst (uniform s n)) -> 0 <= u < 1.

  Lemma position_index keys (values : list (list R)) x nz : NoDup keys -> length keys = length values ->
    In (x, nz) (combine keys values) ->
    exists i, pos x keys = Ok i /\ Base.index values i = Ok nz.
  Proof.
    intros ND Hl Hin. apply In_nth_error in Hin as (i & Hi). rewrite nth_error_combine in Hi.
    destruct (nth_error keys i) as [x'|] eqn:E1; [|discriminate].
    destruct (nth_error values i) as [nz'|] eqn:E2; [|discriminate]. injection Hi as -> ->.
    exists i. split; [apply position_nth; assumption|]. unfold Base.index. rewrite E2. reflexivity.
  Qed.

  Lemma draw_runs_ok (nz_dict : list (L * list R)) z bins labels s :
    NoDup (map fst nz_dict) ->
    (forall x, In x labels -> exists nz, In (x, nz) nz_dict /\ distribution z nz) ->
    exists uss runs s', draw_runs uniform eqb (map fst nz_dict) (map snd nz_dict) z bins labels s = Ok (runs, s') /\
      draws uniform s (map (fun x => occ x bins) labels) uss s' /\
      length labels = length runs /\ length uss = length runs /\
      forall k x us run, nth_error labels k = Some x -> nth_error uss k = Some us -> nth_error runs k = Some run ->
        exists nz, In (x, nz) nz_dict /\ Forall2 (drawn_from z nz) us run.
  Proof.
    intros ND. revert s; induction labels as [|x labels IH]; intros s H.
    - exists [], [], s. split; [reflexivity|]. split; [constructor|]. split; [reflexivity|]. split; [reflexivity|].
      intros [|k]; discriminate.
    - destruct (H x (or_introl eq_refl)) as (nz & Hin & Hd).
      destruct (position_index (map fst nz_dict) (map snd nz_dict) x nz ND) as (i & Hi & Hv).
      { rewrite !map_length. reflexivity. }
      { replace (combine (map fst nz_dict) (map snd nz_dict)) with nz_dict; [exact Hin|].
        clear. induction nz_dict as [|[a b] d IHd]; cbn; congruence. }
      destruct (uniform s (occ x bins)) as [us s1] eqn:Eu.
      destruct (draw_nz_spec uniform uniform_range (occ x bins) z nz s us s1 Hd Eu) as (run & Er & Hr).
      destruct (IH s1 ltac:(intros; apply H; right; assumption)) as (uss & runs & s2 & E2 & Hdr & L1 & L2 & HF).
      exists (us :: uss), (run :: runs), s2. cbn [draw_runs]. rewrite Hi. cbn [bind]. rewrite Hv. cbn [bind].
      rewrite Er. cbn [bind]. rewrite E2. cbn [bind]. split; [reflexivity|].
      split; [cbn [map]; econstructor; eassumption|]. split; [cbn; lia|]. split; [cbn; lia|].
      intros [|k] x' us' run' H1 H2 H3.
      + injection H1 as <-. injection H2 as <-. injection H3 as <-. eauto.
      + eapply HF; eassumption.
  Qed.

  Lemma bins_ok bins z (nz_dict : list (L * list R)) s :
    bins <> [] -> NoDup (map fst nz_dict) ->
    (forall x, In x bins -> exists nz, In (x, nz) nz_dict /\ distribution z nz) ->
    exists uss out s', redshifts_from_bins uniform eqb unique argsort bins z nz_dict s = Ok (out, s') /\
      length out = length bins /\
      draws uniform s (map (fun x => length (filter (eqb x) bins)) (unique bins)) uss s' /\
      forall k x us, nth_error (unique bins) k = Some x -> nth_error uss k = Some us ->
        exists nz run, In (x, nz) nz_dict /\ Forall2 (drawn_from z nz) us run /\
          Permutation (map snd (filter (fun p => eqb x (fst p)) (combine bins out))) run.
  Proof.
    intros Hne ND H. set (labels := unique bins).
    destruct (draw_runs_ok nz_dict z bins labels s ND) as (uss & runs & s' & Er & Hd & L1 & L2 & HF).
    { intros x Hx. apply H. apply unique_In. exact Hx. }
    assert (Hidx : exists idx, mapM (fun x => pos x labels) bins = Ok idx).
    { assert (G : forall l, (forall x, In x l -> In x labels) -> exists idx, mapM (fun x => pos x labels) l = Ok idx).
      { induction l as [|x l IHl]; intro Hl; cbn [mapM]; [eauto|].
        destruct (position_In x labels (Hl x (or_introl eq_refl))) as (i & ->).
        destruct (IHl ltac:(intros; apply Hl; right; assumption)) as (idx & ->). cbn. eauto. }
      apply G. intros x Hx. apply unique_In. exact Hx. }
    destruct Hidx as (idx & Hidx).
    assert (HPL : length idx = length bins) by (apply mapM_ok, forall2_length in Hidx; auto).
    assert (Hout : exists out, redshifts_from_bins uniform eqb unique argsort bins z nz_dict s = Ok (out, s')).
    { unfold redshifts_from_bins. fold labels. rewrite Hidx. cbn [bind]. rewrite Er. cbn [bind].
      destruct runs as [|r runs].
      - exfalso. destruct bins as [|x bins]; [contradiction|].
        assert (In x labels) by (apply unique_In; left; reflexivity).
        destruct labels; [contradiction|discriminate].
      - assert (HL : length (concat (r :: runs)) = length bins).
        { pose proof (draw_runs_length _ _ _ _ _ _ _ _ Er) as HLr.
          assert (Eq : forall lab rs, NoDup lab -> Forall2 (fun x run => length (A:=R) run = occ x bins) lab rs ->
             length (concat rs) = length (filter (fun b => existsb (fun x => eqb x b) lab) bins)).
          { clear -eqb_spec. intros lab rs NDl F. induction F as [|x run lab rs Hx _ IHF].
            - cbn. induction bins; cbn; auto.
            - inversion NDl as [|? ? Hn NDl']; subst. cbn [concat]. rewrite app_length, (IHF NDl'), Hx.
              unfold occurrences. clear -Hn eqb_spec. induction bins as [|b bins IHb]; [reflexivity|].
              cbn [filter existsb]. destruct (eqb x b) eqn:E; cbn [orb].
              + apply eqb_spec in E. subst b.
                assert (E2 : existsb (fun y => eqb y x) lab = false).
                { apply Bool.not_true_is_false. intro Ht. apply existsb_exists in Ht as (y & Hy & Ey).
                  apply eqb_spec in Ey. subst. contradiction. }
                rewrite E2. cbn [length existsb] in *. lia.
              + destruct (existsb (fun y => eqb y b) lab); cbn [length existsb] in *; lia. }
          rewrite (Eq labels (r :: runs) (unique_NoDup bins) HLr).
          f_equal. clear -unique_In eqb_spec. 
          assert (G : forall l, (forall x, In x l -> In x labels) ->
            filter (fun b => existsb (fun x => eqb x b) labels) l = l).
          { induction l as [|b l IHl]; intro Hl; [reflexivity|]. cbn [filter].
            rewrite (proj2 (existsb_exists _ _)); [|exists b; split; [apply Hl; left; reflexivity|apply eqb_spec; reflexivity]].
            f_equal. apply IHl. intros; apply Hl; right; assumption. }
          apply G. intros x Hx. apply unique_In. exact Hx. }
        set (order := argsort (argsort idx)).
        assert (HO : forall k, In k order -> (k < length bins)%nat).
        { intros k Hk. destruct (argsort_spec (argsort idx)) as [Q _]. fold order in Q.
          apply (Permutation_in k Q), in_seq in Hk.
          destruct (argsort_spec idx) as [Q' _]. rewrite (Permutation_length Q'), seq_length in Hk. lia. }
        assert (HM : exists out, mapM (fun k => Base.index (concat (r :: runs)) k) order = Ok out).
        { clear -HO HL. induction order as [|k order IHo]; cbn [mapM]; [eauto|].
          unfold Base.index at 1.
          destruct (nth_error (concat (r :: runs)) k) as [v|] eqn:E.
          - destruct (IHo ltac:(intros; apply HO; right; assumption)) as (o & ->). cbn. eauto.
          - apply nth_error_None in E. specialize (HO k (or_introl eq_refl)). lia. }
        destruct HM as (out & ->). cbn. eauto. }
    destruct Hout as (out & Hout). exists uss, out, s'. split; [exact Hout|].
    destruct (bins_permutation bins z nz_dict s out s' Hout) as (runs' & Er' & Hlo & HP).
    fold labels in Er', HP. rewrite Er in Er'. injection Er' as <-.
    split; [exact Hlo|]. split; [exact Hd|]. intros k x us Hx Hus.
    destruct (nth_error runs k) as [run|] eqn:Ek.
    - destruct (HF k x us run Hx Hus Ek) as (nz & Hin & Hdr). exists nz, run.
      split; [exact Hin|]. split; [exact Hdr|].
      assert (Hc : In (x, run) (combine labels runs)).
      { apply nth_error_In with k. rewrite nth_error_combine, Hx, Ek. reflexivity. }
      rewrite <- (filter_runs labels runs x run (unique_NoDup bins) L1 Hc).
      apply Permutation_map, permutation_filter, HP.
    - apply nth_error_None in Ek. assert (k < length labels)%nat by (apply nth_error_Some; congruence). lia.
  Qed.

  Lemma bins_own bins z (nz_dict : list (L * list R)) s out s' i x v :
    (forall x, In x bins -> exists nz, In (x, nz) nz_dict /\ distribution z nz) -> NoDup (map fst nz_dict) ->
    redshifts_from_bins uniform eqb unique argsort bins z nz_dict s = Ok (out, s') ->
    nth_error bins i = Some x -> nth_error out i = Some v ->
    exists nz u, In (x, nz) nz_dict /\ 0 <= u < 1 /\ drawn_from z nz u v.
  Proof.
    intros H ND Hout Hx Hv.
    destruct (bins_permutation bins z nz_dict s out s' Hout) as (runs & Er & Hlo & HP).
    destruct (draw_runs_ok nz_dict z bins (unique bins) s ND) as (uss & runs' & s1 & Er' & Hd & L1 & L2 & HF).
    { intros y Hy. apply H, unique_In. exact Hy. }
    rewrite Er in Er'. injection Er' as <- <-.
    assert (Hin : In (x, v) (combine bins out)).
    { apply nth_error_In with i. rewrite nth_error_combine, Hx, Hv. reflexivity. }
    apply (Permutation_in _ HP) in Hin. apply in_flat_map in Hin as ([x' run] & Hr & Hin).
    apply in_map_iff in Hin as (v' & E & Hv'). cbn [fst snd] in *. injection E as -> ->.
    apply In_nth_error in Hr as (k & Hk). rewrite nth_error_combine in Hk.
    destruct (nth_error (unique bins) k) as [x2|] eqn:E1; [|discriminate].
    destruct (nth_error runs k) as [run2|] eqn:E2; [|discriminate]. injection Hk as -> ->.
    destruct (nth_error_same runs uss k run (eq_sym L2) E2) as (us & Eus).
    destruct (HF k x us run E1 Eus E2) as (nz & Hnz & Hdr).
    assert (Hu01 : forall u, In u us -> 0 <= u < 1).
    { clear -Hd Eus uniform_range. revert k Eus. revert Hd. generalize (map (fun x => occ x bins) (unique bins)).
      intros args Hd. induction Hd as [|s0 a args us0 vals s1 s2 E _ IH]; intros [|k] Eus; try discriminate.
      - injection Eus as ->. intros u Hu. apply (uniform_range s0 a). rewrite E. exact Hu.
      - eapply IH. exact Eus. }
    clear -Hdr Hv' Hnz Hu01. induction Hdr as [|u w us run Hw _ IH]; [contradiction|].
    destruct Hv' as [->|Hv'].
    - exists nz, u. split; [exact Hnz|]. split; [apply Hu01; left; reflexivity|exact Hw].
    - apply IH; [exact Hv'|intros; apply Hu01; right; assumption].
  Qed.
End Bins.

(** ** The order of the leading indices *)
Lemma sorted_before l : (forall i j k m, (i < j)%nat -> nth_error l i = Some k -> nth_error l j = Some m -> comes_before k m) <->
  ForallOrdPairs comes_before l.
Proof.
  split.
  - induction l as [|a l IH]; intro H; constructor.
    + apply Forall_forall. intros x Hx. apply In_nth_error in Hx as (j & Hj). apply (H 0%nat (S j)); [lia|reflexivity|exact Hj].
    + apply IH. intros i j k m L Hi Hj. apply (H (S i) (S j)); [lia|exact Hi|exact Hj].
  - induction 1 as [|a l Ha _ IH]; intros i j k m L Hi Hj.
    + destruct i; discriminate.
    + destruct j as [|j]; [lia|]. cbn in Hj. destruct i as [|i].
      * injection Hi as <-. rewrite Forall_forall in Ha. apply Ha. eapply nth_error_In; exact Hj.
      * apply (IH i j); [lia|exact Hi|exact Hj].
Qed.

Lemma pairs_app {A} (P : A -> A -> Prop) l m : ForallOrdPairs P l -> ForallOrdPairs P m ->
  (forall x y, In x l -> In y m -> P x y) -> ForallOrdPairs P (l ++ m).
Proof.
  induction 1 as [|a l Ha Hl IH]; intros Hm H; cbn; [exact Hm|]. constructor.
  - apply Forall_app. split; [exact Ha|]. apply Forall_forall. intros y Hy. apply H; [left; reflexivity|exact Hy].
  - apply IH; [exact Hm|]. intros x y Hx Hy. apply H; [right; exact Hx|exact Hy].
Qed.

Lemma ndindex_row_major d : row_major d (ndindex d).
Proof.
  split; [intro k; apply ndindex_In|].
  apply sorted_before. induction d as [|n d IH]; cbn [ndindex]; [repeat constructor|].
  generalize 0%nat. induction n as [|n IHn]; intro a; cbn [seq flat_map]; [constructor|].
  apply pairs_app; [|apply IHn|].
  - clear - IH. induction IH as [|k ks H _ IH]; cbn; constructor; [|exact IH].
    apply Forall_map. eapply Forall_impl; [|exact H]. intros. apply before_later. assumption.
  - intros x y Hx Hy. apply in_map_iff in Hx as (x' & <- & _).
    apply in_flat_map in Hy as (b & Hb & Hy). apply in_map_iff in Hy as (y' & <- & _).
    apply in_seq in Hb. apply before_here. lia.
Qed.
