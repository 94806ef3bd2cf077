From Coq Require Import Reals Lra Psatz.
From Coquelicot Require Import Coquelicot.
From Verif Require Import Base Model_Numeric Model_Galaxies Spec_Rng Spec_Galaxies Proof_Numeric Proof_Galaxies.
Local Open Scope R_scope.

Lemma Cmod_sq (z : C) : Cmod z * Cmod z = fst z * fst z + snd z * snd z.
Proof.
  unfold Cmod. rewrite sqrt_sqrt; [ring|]. cbn.
  pose proof (Rle_0_sqr (fst z)). pose proof (Rle_0_sqr (snd z)). unfold Rsqr in *. lra.
Qed.

Lemma Cmod_conj (z : C) : Cmod (Cconj z) = Cmod z.
Proof. unfold Cmod, Cconj. cbn. f_equal. ring. Qed.

Lemma sq_lt (a b : R) : 0 <= a -> 0 <= b -> a * a < b * b -> a < b.
Proof.
  intros Ha Hb H. apply Rnot_le_lt. intro L.
  assert (b * b <= a * a) by (apply Rmult_le_compat; lra). lra.
Qed.
Lemma sq_le (a b : R) : 0 <= a -> 0 <= b -> a * a <= b * b -> a <= b.
Proof.
  intros Ha Hb H. apply Rnot_lt_le. intro L.
  assert (b * b < a * a) by (apply Rmult_le_0_lt_compat; lra). lra.
Qed.

(** [1 + conj(g) * eps] does not vanish. *)
Lemma denominator_nonzero (eps g : C) : Cmod eps <= 1 -> Cmod g < 1 ->
  Cplus (RtoC 1) (Cmult (Cconj g) eps) <> RtoC 0.
Proof.
  intros He Hg E.
  assert (Eq : Cmult (Cconj g) eps = Copp (RtoC 1)).
  { replace (Cmult (Cconj g) eps) with
      (Cplus (Cplus (RtoC 1) (Cmult (Cconj g) eps)) (Copp (RtoC 1))) by ring.
    rewrite E. ring. }
  assert (Em : Cmod (Cmult (Cconj g) eps) = 1) by (rewrite Eq, Cmod_opp; apply Cmod_1).
  rewrite Cmod_mult, Cmod_conj in Em.
  pose proof (Cmod_ge_0 g). pose proof (Cmod_ge_0 eps).
  assert (Cmod g * Cmod eps <= Cmod g * 1) by (apply Rmult_le_compat_l; lra). lra.
Qed.

(** |1 + conj(g) eps|^2 - |eps + g|^2 = (1 - |g|^2) (1 - |eps|^2) *)
Lemma lensed_identity (eps g : C) :
  let n := Cmod (Cplus eps g) in let d := Cmod (Cplus (RtoC 1) (Cmult (Cconj g) eps)) in
  d * d - n * n = (1 - Cmod g * Cmod g) * (1 - Cmod eps * Cmod eps).
Proof.
  cbv zeta. rewrite !Cmod_sq. destruct eps as [a b], g as [c d].
  unfold Cplus, Cmult, Cconj, RtoC; cbn [fst snd]. ring.
Qed.

Lemma lensed_disc (eps g : C) : Cmod eps < 1 -> Cmod g < 1 -> Cmod (lensed eps g) < 1.
Proof.
  intros He Hg. pose proof (denominator_nonzero eps g (Rlt_le _ _ He) Hg) as Hd.
  unfold lensed. rewrite Cmod_div by exact Hd.
  pose proof (lensed_identity eps g) as E. cbv zeta in E.
  set (n := Cmod (Cplus eps g)) in *. set (d := Cmod (Cplus (RtoC 1) (Cmult (Cconj g) eps))) in *.
  assert (Hdp : 0 < d) by (unfold d; apply Cmod_gt_0; exact Hd).
  assert (Hn : n < d).
  { apply sq_lt; [apply Cmod_ge_0|lra|].
    pose proof (Cmod_ge_0 g). pose proof (Cmod_ge_0 eps).
    assert (0 < 1 - Cmod g * Cmod g) by nra. assert (0 < 1 - Cmod eps * Cmod eps) by nra.
    assert (0 < (1 - Cmod g * Cmod g) * (1 - Cmod eps * Cmod eps)) by (apply Rmult_lt_0_compat; lra). lra. }
  apply Rmult_lt_reg_r with d; [exact Hdp|]. unfold Rdiv. rewrite Rmult_assoc, Rinv_l by lra. lra.
Qed.

Lemma lensed_circle (eps g : C) : Cmod eps = 1 -> Cmod g < 1 -> Cmod (lensed eps g) = 1.
Proof.
  intros He Hg. pose proof (denominator_nonzero eps g (Req_le _ _ He) Hg) as Hd.
  unfold lensed. rewrite Cmod_div by exact Hd.
  pose proof (lensed_identity eps g) as E. cbv zeta in E.
  set (n := Cmod (Cplus eps g)) in *. set (d := Cmod (Cplus (RtoC 1) (Cmult (Cconj g) eps))) in *.
  assert (Hdp : 0 < d) by (unfold d; apply Cmod_gt_0; exact Hd).
  assert (Hn0 : 0 <= n) by apply Cmod_ge_0.
  rewrite He in E. assert (n = d). { assert (n * n = d * d) by lra.
    apply Rle_antisym; apply sq_le; lra. }
  rewrite H. field. lra.
Qed.

Lemma lensed_inverse (eps g : C) : Cmod eps <= 1 -> Cmod g < 1 -> lensed (lensed eps g) (Copp g) = eps.
Proof.
  intros He Hg. pose proof (denominator_nonzero eps g He Hg) as Hd.
  assert (He' : Cmod (lensed eps g) <= 1).
  { destruct He as [He|He]; [left; apply lensed_disc; assumption|right; apply lensed_circle; assumption]. }
  assert (Hd' : Cplus (RtoC 1) (Cmult (Cconj (Copp g)) (lensed eps g)) <> RtoC 0).
  { apply denominator_nonzero; [exact He'|]. rewrite Cmod_opp. exact Hg. }
  unfold lensed in *.
  assert (Ec : Cconj (Copp g) = Copp (Cconj g)) by (destruct g; unfold Cconj, Copp; cbn; f_equal; ring).
  rewrite Ec in *. field. split; [exact Hd|].
  intro Q. apply Hd'. 
  replace (Cplus (RtoC 1) (Cmult (Copp (Cconj g)) (Cdiv (Cplus eps g) (Cplus (RtoC 1) (Cmult (Cconj g) eps)))))
    with (Cdiv (Cplus (Cplus (RtoC 1) (Cmult (Cconj g) eps)) (Cmult (Copp (Cconj g)) (Cplus eps g)))
               (Cplus (RtoC 1) (Cmult (Cconj g) eps))) by (field; exact Hd).
  assert (E0 : Cplus (Cplus (RtoC 1) (Cmult (Cconj g) eps)) (Cmult (Copp (Cconj g)) (Cplus eps g)) = RtoC 0)
    by exact Q.
  rewrite E0. unfold Cdiv. ring.
Qed.

(** ** The loop over slices *)
Lemma slice_map {A B} (f : A -> B) i j l : slice i j (map f l) = map f (slice i j l).
Proof. unfold slice. rewrite skipn_map, firstn_map. reflexivity. Qed.
Lemma slice_length {A} i j (l : list A) : (i <= j <= length l)%nat -> length (slice i j l) = (j - i)%nat.
Proof. intro H. unfold slice. rewrite firstn_length, skipn_length. lia. Qed.
Lemma slice_combine {A B} i j (l : list A) (m : list B) : slice i j (combine l m) = combine (slice i j l) (slice i j m).
Proof. unfold slice.
  apply nth_error_ext'. intro k. rewrite nth_error_combine, !nth_error_firstn, !nth_error_skipn, nth_error_combine.
  destruct (k <? j - i); reflexivity. Qed.

Lemma mapM_slice {A B} (f : A -> result B) i j l m : mapM f l = Ok m -> mapM f (slice i j l) = Ok (slice i j m).
Proof.
  rewrite !mapM_ok. intro H.
  assert (Fs : forall n l m, Forall2 (fun x y => f x = Ok y) l m -> Forall2 (fun x y => f x = Ok y) (skipn n l) (skipn n m)).
  { clear. induction n as [|n IH]; intros l m H; [exact H|]. destruct H; cbn; [constructor|auto]. }
  assert (Ff : forall n l m, Forall2 (fun x y => f x = Ok y) l m -> Forall2 (fun x y => f x = Ok y) (firstn n l) (firstn n m)).
  { clear. induction n as [|n IH]; intros l m H; [constructor|]. destruct H; cbn; constructor; auto. }
  unfold slice. auto.
Qed.

Lemma set_slice_spec {A} i j (l v w : list A) : (i <= j)%nat -> (j <= length w)%nat -> length l = length w ->
  firstn i l = firstn i w -> v = slice i j w ->
  exists l', set_slice i j l v = Ok l' /\ length l' = length w /\ firstn j l' = firstn j w.
Proof.
  intros Hij Hj Hl Hf ->. unfold set_slice. rewrite slice_length, Nat.eqb_refl by lia.
  eexists. split; [reflexivity|]. split.
  - rewrite !app_length, slice_length, firstn_length, skipn_length by lia. lia.
  - rewrite Hf, app_assoc.
    assert (E : firstn i w ++ slice i j w = firstn j w).
    { unfold slice. replace j with (i + (j - i))%nat at 2 by lia.
      apply nth_error_ext'. intro k. rewrite nth_error_app, !nth_error_firstn, firstn_length.
      destruct (Nat.ltb_spec k (Nat.min i (length w))) as [L|L].
      - destruct (Nat.ltb_spec k i); [|lia]. destruct (Nat.ltb_spec k (i + (j - i))); [reflexivity|lia].
      - rewrite nth_error_skipn. replace (i + (k - Nat.min i (length w)))%nat with k by lia.
        destruct (Nat.ltb_spec (k - Nat.min i (length w)) (j - i)), (Nat.ltb_spec k (i + (j - i))); try lia; reflexivity. }
    rewrite E. rewrite firstn_app, firstn_firstn, firstn_length.
    replace (j - Nat.min j (length w))%nat with 0%nat by lia. rewrite Nat.min_id. cbn. apply app_nil_r.
Qed.

Section Lens.
  Variable ang2pix : R -> R -> nat.
  Variables (lon lat kappa gamma1 gamma2 K G1 G2 : list R).
  Let pix := map (fun p => ang2pix (fst p) (snd p)) (combine lon lat).
  Hypothesis lonlat : length lon = length lat.
  Hypothesis HK : mapM (index kappa) pix = Ok K.
  Hypothesis H1 : mapM (index gamma1) pix = Ok G1.
  Hypothesis H2 : mapM (index gamma2) pix = Ok G2.

  Lemma lens_loop_spec chunk fuel i k g : (0 < chunk)%nat -> (length lon - i < fuel)%nat ->
    length k = length lon -> length g = length lon ->
    firstn i k = firstn i K -> firstn i g = firstn i (combine G1 G2) ->
    lens_loop ang2pix chunk fuel i (length lon) lon lat kappa gamma1 gamma2 k g = Ok (K, combine G1 G2).
  Proof.
    intros Hc. revert i k g. 
    assert (LP : length pix = length lon).
    { unfold pix. rewrite map_length, combine_length. lia. }
    assert (LK : length K = length lon) by (apply mapM_ok, forall2_length in HK; lia).
    assert (L1 : length G1 = length lon) by (apply mapM_ok, forall2_length in H1; lia).
    assert (L2 : length G2 = length lon) by (apply mapM_ok, forall2_length in H2; lia).
    assert (LG : length (combine G1 G2) = length lon) by (rewrite combine_length; lia).
    induction fuel as [|fuel IH]; intros i k g Hf Lk Lg Ek Eg.
    - lia.
    - cbn [lens_loop]. destruct (Nat.leb_spec (length lon) i) as [L|L].
      + rewrite firstn_all2 in Ek by lia. rewrite firstn_all2 in Ek by lia.
        rewrite firstn_all2 in Eg by lia. rewrite firstn_all2 in Eg by lia. subst. reflexivity.
      + set (upper := Nat.min (length lon) (i + chunk)).
        assert (Hu : (i < upper <= length lon)%nat) by (unfold upper; lia).
        assert (Ep : bzip ang2pix (slice i upper lon) (slice i upper lat) = Ok (slice i upper pix)).
        { unfold bzip. rewrite !slice_length, Nat.eqb_refl by lia. unfold pix. rewrite slice_map, slice_combine. reflexivity. }
        rewrite Ep. cbn [bind].
        rewrite (mapM_slice _ i upper _ _ HK), (mapM_slice _ i upper _ _ H1), (mapM_slice _ i upper _ _ H2). cbn [bind].
        destruct (set_slice_spec i upper k (slice i upper K) K) as (k' & Sk & Lk' & Ek'); try lia; try reflexivity; [exact Ek|].
        rewrite Sk. cbn [bind].
        destruct (set_slice_spec i upper g (slice i upper (combine G1 G2)) (combine G1 G2)) as (g' & Sg & Lg' & Eg'); try lia; try reflexivity; [exact Eg|].
        rewrite <- slice_combine. unfold C. rewrite Sg. cbn [bind].
        destruct (Nat.le_gt_cases (i + chunk) (length lon)) as [M|M].
        * replace upper with (i + chunk)%nat in * by (unfold upper; lia). apply IH; try lia; assumption.
        * replace upper with (length lon) in * by (unfold upper; lia).
          apply IH; try lia.
          -- rewrite !firstn_all2 in Ek' |- * by lia. exact Ek'.
          -- rewrite !firstn_all2 in Eg' |- * by lia. exact Eg'.
  Qed.
End Lens.

Lemma mapM_index_ok {A} (l : list A) (ix : list nat) : Forall (fun i => i < length l)%nat ix ->
  exists vs, mapM (index l) ix = Ok vs /\ forall k i, nth_error ix k = Some i -> nth_error vs k = nth_error l i.
Proof.
  induction 1 as [|i ix Hi _ (vs & E & H)].
  - exists []. split; [reflexivity|]. intros [|k] i Q; discriminate.
  - destruct (nth_error l i) as [v|] eqn:Ei; [|apply nth_error_None in Ei; lia].
    exists (v :: vs). cbn [mapM]. unfold index at 1. rewrite Ei. cbn [bind]. rewrite E. split; [reflexivity|].
    intros [|k] j Q; cbn in Q |- *; [injection Q as <-; auto|auto].
Qed.

(** ** Photometric redshifts *)
Lemma outside_spec lo up x : outside lo up x = false <-> within_bounds lo up x.
Proof.
  unfold outside, within_bounds. rewrite Bool.orb_false_iff. unfold ltb.
  destruct (Rlt_dec x lo) as [L|L].
  - split; [intros [Q _]; discriminate|intros [Q _]; lra].
  - split.
    + intros [_ Q]. split; [lra|]. intros u ->. destruct (Rlt_dec u x); [discriminate|lra].
    + intros [_ Q]. split; [reflexivity|]. destruct up as [u|]; [|reflexivity].
      destruct (Rlt_dec u x); [|reflexivity]. specialize (Q u eq_refl). lra.
Qed.

Lemma outside_true lo up x : outside lo up x = true -> ~ within_bounds lo up x.
Proof. intros H Q. apply outside_spec in Q. congruence. Qed.

Section Phz.
  Context {S : Type}.
  Variable normal : S -> list R -> list R -> list R * S.
  Hypothesis normal_length : forall s zs sigmas, length (fst (normal s zs sigmas)) = length zs.
  Let sample (s : S) (p : list R * list R) := normal s (fst p) (snd p).

  Variables (zs sigmas lo : list R) (up : list (option R)).
  Hypothesis lo_length : length lo = length zs.
  Hypothesis up_length : length up = length zs.

  Let ok i := within_bounds (nth i lo 0) (nth i up None).

  Lemma trunc_nth zphot i : length zphot = length zs -> (i < length zs)%nat ->
    nth_error (map (fun p => outside (fst (fst p)) (snd (fst p)) (snd p)) (combine (combine lo up) zphot)) i
      = Some (outside (nth i lo 0) (nth i up None) (nth i zphot 0)).
  Proof.
    intros Lz Hi. rewrite nth_error_map', !nth_error_combine.
    rewrite (nth_error_nth' lo 0), (nth_error_nth' up None), (nth_error_nth' zphot 0) by lia. reflexivity.
  Qed.

  Lemma trunc_length zphot : length zphot = length zs ->
    length (map (fun p => outside (fst (fst p)) (snd (fst p)) (snd p)) (combine (combine lo up) zphot)) = length zs.
  Proof. intro Lz. rewrite map_length, !combine_length. lia. Qed.

  Lemma existsb_trunc zphot : length zphot = length zs ->
    existsb (fun b => b) (map (fun p => outside (fst (fst p)) (snd (fst p)) (snd p)) (combine (combine lo up) zphot)) = false
    <-> forall i, (i < length zs)%nat -> ok i (nth i zphot 0).
  Proof.
    intro Lz. set (t := map _ _).
    assert (Ht : forall i, (i < length zs)%nat -> nth_error t i = Some (outside (nth i lo 0) (nth i up None) (nth i zphot 0)))
      by (intros; apply trunc_nth; assumption).
    assert (Lt : length t = length zs) by (apply trunc_length; exact Lz).
    clearbody t. split.
    - intros E i Hi. apply outside_spec. destruct (outside _ _ _) eqn:Q; [|reflexivity].
      assert (existsb (fun b => b) t = true); [|congruence].
      apply existsb_exists. exists true. split; [|reflexivity]. eapply nth_error_In. rewrite <- Q. apply Ht. exact Hi.
    - intro H. destruct (existsb _ t) eqn:E; [|reflexivity].
      apply existsb_exists in E as (b & Hb & Hb'). subst b. apply In_nth_error in Hb as (i & Hi).
      assert (L : (i < length zs)%nat) by (rewrite <- Lt; apply nth_error_Some; congruence).
      rewrite (Ht i L) in Hi. injection Hi as Hi. apply outside_true in Hi. elim Hi. apply H, L.
  Qed.

  Definition merge (zphot new : list R) : list R :=
    map (fun p : bool * (R * R) => if fst p then fst (snd p) else snd (snd p))
      (combine (map (fun p => outside (fst (fst p)) (snd (fst p)) (snd p)) (combine (combine lo up) zphot)) (combine new zphot)).

  Lemma merge_length zphot new : length zphot = length zs -> length new = length zs -> length (merge zphot new) = length zs.
  Proof. intros. unfold merge. rewrite map_length, combine_length, trunc_length, combine_length by assumption. lia. Qed.

  Lemma merge_nth zphot new i : length zphot = length zs -> length new = length zs -> (i < length zs)%nat ->
    nth i (merge zphot new) 0 = if outside (nth i lo 0) (nth i up None) (nth i zphot 0) then nth i new 0 else nth i zphot 0.
  Proof.
    intros Lz Ln Hi. apply nth_error_nth. unfold merge. rewrite nth_error_map', nth_error_combine, trunc_nth by assumption.
    rewrite nth_error_combine, (nth_error_nth' new 0), (nth_error_nth' zphot 0) by lia.
    cbn. destruct (outside _ _ _); reflexivity.
  Qed.

  Lemma merge_first zphot new rounds i v : length zphot = length zs -> length new = length zs -> (i < length zs)%nat ->
    first_accepted (ok i) (column i (merge zphot new :: rounds)) v <->
    first_accepted (ok i) (column i (zphot :: new :: rounds)) v.
  Proof.
    intros Lz Ln Hi. unfold column. cbn [map]. rewrite merge_nth by assumption.
    destruct (outside _ _ _) eqn:Q.
    - apply outside_true in Q. split; intro H.
      + apply accept_later; assumption.
      + inversion H; subst; [contradiction|assumption].
    - apply outside_spec in Q. split; intro H; inversion H; subst; try contradiction; apply accept_now; assumption.
  Qed.

  Lemma redraw_spec fuel zphot s out s' : length zphot = length zs ->
    redraw normal fuel zs sigmas lo up zphot s = Ok (out, s') ->
    exists rounds, draws sample s (repeat (zs, sigmas) (length rounds)) rounds s' /\
      length out = length zs /\
      Forall (fun d => length d = length zs) rounds /\
      (forall i, (i < length zs)%nat -> first_accepted (ok i) (column i (zphot :: rounds)) (nth i out 0)) /\
      (forall before d, rounds = before ++ [d] -> exists i, (i < length zs)%nat /\
        Forall (fun x => ~ ok i x) (column i (zphot :: before))).
  Proof.
    revert zphot s. induction fuel as [|fuel IH]; intros zphot s Lz; cbn [redraw];
      fold (merge zphot);
      destruct (existsb _ _) eqn:E.
    - discriminate.
    - intros [= <- <-]. exists []. split; [constructor|]. split; [exact Lz|]. split; [constructor|]. split.
      + intros i Hi. apply accept_now. apply (proj1 (existsb_trunc zphot Lz) E i Hi).
      + intros before d Q. destruct before; discriminate.
    - destruct (normal s zs sigmas) as [new s1] eqn:En.
      assert (Ln : length new = length zs) by (pose proof (normal_length s zs sigmas) as Q; rewrite En in Q; exact Q).
      fold (merge zphot new). intro H.
      apply IH in H; [|apply merge_length; assumption].
      destruct H as (rounds & Hd & Lo & Lr & Hf & Hm).
      exists (new :: rounds). split; [|split; [exact Lo|split; [constructor; assumption|split]]].
      + cbn [length repeat]. econstructor; [|exact Hd]. unfold sample. exact En.
      + intros i Hi. apply merge_first; auto.
      + intros before d Q. destruct before as [|b before].
        * assert (W : exists i, (i < length zs)%nat /\ ~ ok i (nth i zphot 0)).
          { apply existsb_exists in E as (b & Hb & Hb'). subst b. apply In_nth_error in Hb as (i & Hi).
            assert (L : (i < length zs)%nat) by (rewrite <- (trunc_length zphot Lz); apply nth_error_Some; congruence).
            exists i. split; [exact L|]. rewrite trunc_nth in Hi by assumption. injection Hi as Hi. apply outside_true, Hi. }
          destruct W as (i & Hi & Hn). exists i. split; [exact Hi|]. constructor; [exact Hn|constructor].
        * injection Q as <- Q. destruct (Hm before d Q) as (i & Hi & Hx). exists i. split; [exact Hi|].
          unfold column in Hx |- *. cbn [map] in Hx |- *. inversion Hx as [|x xs X1 X2 X3]; subst.
          rewrite merge_nth in X1 by assumption. destruct (outside _ _ _) eqn:Qo.
          -- apply outside_true in Qo. repeat constructor; assumption.
          -- apply outside_spec in Qo. contradiction.
    - intros [= <- <-]. exists []. split; [constructor|]. split; [exact Lz|]. split; [constructor|]. split.
      + intros i Hi. apply accept_now. apply (proj1 (existsb_trunc zphot Lz) E i Hi).
      + intros before d Q. destruct before; discriminate.
  Qed.

  (** Enough rounds end the loop. *)
  Lemma redraw_ends rounds fuel zphot s s1 : length zphot = length zs -> (length rounds <= fuel)%nat ->
    draws sample s (repeat (zs, sigmas) (length rounds)) rounds s1 ->
    (forall i, (i < length zs)%nat -> exists v, first_accepted (ok i) (column i (zphot :: rounds)) v) ->
    exists out s', redraw normal fuel zs sigmas lo up zphot s = Ok (out, s').
  Proof.
    revert fuel zphot s. induction rounds as [|new rounds IH]; intros fuel zphot s Lz Hf Hd Hv.
    - assert (E : forall i, (i < length zs)%nat -> ok i (nth i zphot 0)).
      { intros i Hi. destruct (Hv i Hi) as (v & Q). inversion Q as [? ? ?|? ? ? ? Q2]; subst; [assumption|inversion Q2]. }
      apply existsb_trunc in E; [|exact Lz]. exists zphot, s. destruct fuel; cbn [redraw]; rewrite E; reflexivity.
    - destruct fuel as [|fuel]; [cbn in Hf; lia|]. cbn [redraw]. destruct (existsb _ _) eqn:E; [|eauto].
      cbn [length repeat] in Hd. inversion Hd as [|? ? ? ? s2 ? ? Q1 Q2]; subst. unfold sample in Q1. cbn in Q1.
      rewrite Q1. assert (Ln : length new = length zs) by (pose proof (normal_length s zs sigmas) as Q; rewrite Q1 in Q; exact Q).
      fold (merge zphot new). apply IH; [apply merge_length; assumption|cbn in Hf; lia|exact Q2|].
      intros i Hi. destruct (Hv i Hi) as (v & Q). exists v. apply merge_first; assumption.
  Qed.
End Phz.

Lemma set_slice_single {A} u (l : list A) v : (0 < u <= length l)%nat ->
  exists l', set_slice 0 u l [v] = Ok l' /\ length l' = length l.
Proof.
  intro H. unfold set_slice. cbn [length]. destruct (Nat.eqb_spec 1 (u - 0)) as [E|E].
  - eexists. split; [reflexivity|]. cbn [firstn app]. cbn [length]. rewrite skipn_length. lia.
  - eexists. split; [reflexivity|]. rewrite !app_length, repeat_length, firstn_length, skipn_length. lia.
Qed.

(** One position for many objects. *)
Lemma lens_loop_single ang2pix chunk f n x y kappa gamma1 gamma2 k g a b c :
  (0 < chunk)%nat -> (1 < n)%nat -> length k = n -> length g = n ->
  nth_error kappa (ang2pix x y) = Some a -> nth_error gamma1 (ang2pix x y) = Some b -> nth_error gamma2 (ang2pix x y) = Some c ->
  ((n <= chunk)%nat -> exists k' g', lens_loop ang2pix chunk (S (S f)) 0 n [x] [y] kappa gamma1 gamma2 k g = Ok (k', g') /\
     length k' = n /\ length g' = n) /\
  ((chunk < n)%nat -> lens_loop ang2pix chunk (S (S f)) 0 n [x] [y] kappa gamma1 gamma2 k g = Err ValueError).
Proof.
  intros Hc Hn Lk Lg Ea Eb Ec. cbn [lens_loop]. destruct (Nat.leb_spec n 0); [lia|].
  cbn [Nat.add]. set (u := Nat.min n chunk).
  assert (Hu : (0 < u <= n)%nat) by (unfold u; lia).
  assert (Sl : forall v : R, slice 0 u [v] = [v]).
  { intro v. unfold slice. destruct u as [|u]; [lia|]. cbn. rewrite firstn_nil. reflexivity. }
  rewrite !Sl. unfold bzip at 1 3. cbn [length Nat.eqb combine map fst snd bind mapM].
  unfold index at 1 2 3 7 8 9. rewrite Ea, Eb, Ec. cbn [bind combine].
  destruct (set_slice_single u k a) as (k' & -> & Lk'); [lia|].
  unfold C in *. destruct (set_slice_single u g (b, c)) as (g' & Eg & Lg'); [lia|]. cbn [bind]. rewrite Eg. cbn [bind].
  split; intro L.
  - destruct (Nat.leb_spec n chunk); [|lia]. exists k', g'. unfold C in *. split; [reflexivity|]. lia.
  - destruct (Nat.leb_spec n chunk); [lia|].
    assert (Sn : forall (v : R) w, slice chunk w [v] = []).
    { intros v w. unfold slice. rewrite skipn_all2 by (cbn; lia). apply firstn_nil. }
    rewrite !Sn. unfold bzip. cbn [length Nat.eqb combine map mapM bind]. unfold set_slice at 1. cbn [length].
    destruct (Nat.eqb_spec 0 (Nat.min n (chunk + chunk) - chunk)); [lia|]. reflexivity.
Qed.
