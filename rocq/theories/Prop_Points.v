(** Theorems about bias, expected counts, uniform positions, weights and displacements. *)
From Coq Require Import Reals Lra Psatz.
From Coquelicot Require Import Coquelicot.
From Verif Require Import Base Model_Numeric Model_Arrays Model_Effective Model_Windows Model_Galaxies Model_Rng Model_Points
  Spec_Numeric Spec_Arrays Spec_Windows Spec_Galaxies Spec_Batch Spec_Rng Spec_Points
  Proof_Numeric Proof_Effective Proof_Windows Proof_Arrays Proof_Galaxies Proof_Observations Proof_Points Prop_Rng.
Local Open Scope R_scope.

(** C36 *)

(** The expected number of points in each pixel of each population: density times area of the pixel
    times one plus contrast times visibility, not below zero; with [remove_monopole] the mean of the
    contrast is subtracted. *)
Theorem expected_counts_formula bias_model ngal delta bias vis rm ld lv m dims
    (N : list nat -> R) (G V : list nat -> list R) : (0 < m)%nat ->
  ashape delta = ld ++ [m] -> (forall v, vis = Some v -> ashape v = lv ++ [m]) ->
  is_broadcast ([ashape ngal; ld] ++ match bias with Some b => [ashape b] | None => [] end
                                  ++ match vis with Some _ => [lv] | None => [] end) dims ->
  (forall k, inside dims k -> population bias_model ngal delta bias vis ld lv m k (N k) (G k) (V k)) ->
  exists ks lams, row_major dims ks /\ expected_counts bias_model ngal delta bias vis rm = Ok lams /\
    Forall2 (fun k lam => length lam = m /\
      forall i g v, nth_error (G k) i = Some g -> nth_error (V k) i = Some v ->
        nth_error lam i = Some (Rmax 0 (expected_points m (N k) (g - if rm then mean_of (G k) else 0) v))) ks lams.
Proof.
  intros Hm Ed Ev Hb H. exists (ndindex dims).
  assert (Hrow : forall x : array R, forall lx, ashape x = lx ++ [m] -> lead (x, 1%nat) = lx /\ trail (x, 1%nat) = [m]).
  { intros x lx E. unfold lead, trail; cbn [fst snd]. rewrite E, app_length. cbn [length].
    replace (length lx + 1 - 1)%nat with (length lx) by lia.
    rewrite firstn_app, skipn_app, Nat.sub_diag, firstn_all, skipn_all. cbn. rewrite app_nil_r. auto. }
  assert (Helt : forall x : array R, lead (x, 0%nat) = ashape x /\ trail (x, 0%nat) = []).
  { intro x. unfold lead, trail; cbn [fst snd]. rewrite Nat.sub_0_r, firstn_all, skipn_all. auto. }
  set (args := [(ngal, 0%nat); (delta, 1%nat)] ++ match bias with Some b => [(b, 0%nat)] | None => [] end
            ++ match vis with Some v => [(v, 1%nat)] | None => [] end).
  assert (Hlead : map lead args = [ashape ngal; ld] ++ match bias with Some b => [ashape b] | None => [] end
                                  ++ match vis with Some _ => [lv] | None => [] end).
  { unfold args. destruct bias as [b|], vis as [v|]; cbn [app map];
      rewrite ?(proj1 (Helt ngal)), ?(proj1 (Hrow delta ld Ed)), ?(proj1 (Helt _)), ?(proj1 (Hrow v lv (Ev v eq_refl))); reflexivity. }
  destruct (leading_ok args dims) as (arrs & E & F).
  { unfold args. destruct bias as [b|], vis as [v|]; cbn [app]; repeat constructor; cbn [fst snd]; try lia;
      rewrite ?Ed, ?(Ev v eq_refl), app_length; cbn; lia. }
  { rewrite Hlead. exact Hb. }
  (* the arrays after broadcasting *)
  assert (A : exists n' d' b' v',
     index arrs 0 = Ok n' /\ index arrs 1 = Ok d' /\
     match bias with Some _ => do b <- index arrs 2; Ok (Some b) | None => Ok None end = Ok b' /\
     match vis with Some _ => do v <- index arrs (length arrs - 1); Ok (Some v) | None => Ok None end = Ok v' /\
     (ashape n' = dims /\ forall i, length i = length dims -> exists j, comes_from (ashape ngal) i j /\ aget n' i = aget ngal j) /\
     (ashape d' = dims ++ [m] /\ forall i, length i = length (ashape d') -> exists j, comes_from (ashape delta) i j /\ aget d' i = aget delta j) /\
     match bias, b' with
     | Some b, Some b' => forall i, length i = length dims -> exists j, comes_from (ashape b) i j /\ aget b' i = aget b j
     | None, None => True | _, _ => False end /\
     match vis, v' with
     | Some v, Some v' => ashape v' = dims ++ [m] /\ forall i, length i = length (ashape v') -> exists j, comes_from (ashape v) i j /\ aget v' i = aget v j
     | None, None => True | _, _ => False end).
  { unfold args in F. clear E Hb H.
    destruct bias as [b|], vis as [v|]; cbn [app] in F;
      inversion F as [|? n' ? ? [S1 H1] F1]; subst; inversion F1 as [|? d' ? ? [S2 H2] F2]; subst;
      cbn [fst] in *; rewrite (proj2 (Helt ngal)), app_nil_r in S1; rewrite (proj2 (Hrow delta ld Ed)) in S2;
      rewrite S1 in H1.
    - inversion F2 as [|? b' ? ? [S3 H3] F3]; subst; inversion F3 as [|? v' ? ? [S4 H4] F4]; subst; inversion F4; subst.
      cbn [fst] in *. rewrite (proj2 (Helt b)), app_nil_r in S3. rewrite S3 in H3. rewrite (proj2 (Hrow v lv (Ev v eq_refl))) in S4.
      exists n', d', (Some b'), (Some v'). repeat (split; [auto; fail|]). auto.
    - inversion F2 as [|? b' ? ? [S3 H3] F3]; subst; inversion F3; subst.
      cbn [fst] in *. rewrite (proj2 (Helt b)), app_nil_r in S3. rewrite S3 in H3.
      exists n', d', (Some b'), None. repeat (split; [auto; fail|]). auto.
    - inversion F2 as [|? v' ? ? [S4 H4] F3]; subst; inversion F3; subst.
      cbn [fst] in *. rewrite (proj2 (Hrow v lv (Ev v eq_refl))) in S4.
      exists n', d', None, (Some v'). repeat (split; [auto; fail|]). auto.
    - inversion F2; subst. exists n', d', None, None. repeat (split; [auto; fail|]). auto. }
  destruct A as (n' & d' & b' & v' & I0 & I1 & I2 & I3 & [S1 H1] & [S2 H2] & Hb' & Hv').
  assert (Hk : forall k, In k (ndindex dims) -> exists lam,
    (do n <- match b' with None => Ok (row_at d' k (last (ashape d') 0%nat)) | Some b => bias_model (row_at d' k (last (ashape d') 0%nat)) (aget b k) end;
     do n <- expected_count (aget n' k) rm n;
     do n <- apply_visibility n (option_map (fun v => row_at v k (last (ashape v) 0%nat)) v');
     Ok (clip_zero n)) = Ok lam /\
    (length lam = m /\
      forall i g v, nth_error (G k) i = Some g -> nth_error (V k) i = Some v ->
        nth_error lam i = Some (Rmax 0 (expected_points m (N k) (g - if rm then mean_of (G k) else 0) v)))).
  { intros k Hin. apply ndindex_In in Hin. assert (Lk : length k = length dims) by exact (forall2_length _ _ _ Hin).
    destruct (H k Hin) as ((j & Hj & EN) & LG & LV & (D & HD & HG) & HV).
    destruct (H1 k Lk) as (j' & Hj' & En). rewrite (comes_from_fun _ _ _ _ Hj' Hj), <- EN in En.
    rewrite S2, last_last, (row_at_value delta d' ld m dims k D Ed S2 Lk H2 HD), En.
    assert (EG : match b' with None => Ok D | Some b => bias_model D (aget b k) end = Ok (G k)).
    { destruct bias as [b|], b' as [b'|]; try contradiction.
      - destruct HG as (B & (jb & Hjb & EB) & <-). destruct (Hb' k Lk) as (jb' & Hjb' & ->). rewrite (comes_from_fun _ _ _ _ Hjb' Hjb), <- EB. reflexivity.
      - rewrite HG. reflexivity. }
    rewrite EG. cbn [bind]. assert (NG : G k <> []) by (intro Q; rewrite Q in LG; cbn in LG; lia).
    rewrite (expected_count_spec (N k) rm (G k) NG). cbn [bind]. rewrite LG.
    set (n := map _ (G k)). assert (Ln : length n = m) by (unfold n; rewrite map_length; exact LG).
    assert (EV : exists n2, apply_visibility n (option_map (fun v => row_at v k (last (ashape v) 0%nat)) v') = Ok n2 /\ length n2 = m /\
        forall i x v, nth_error n i = Some x -> nth_error (V k) i = Some v -> nth_error n2 i = Some (x * v)).
    { destruct vis as [v|], v' as [v'|]; try contradiction; cbn [option_map].
      - destruct Hv' as [S4 H4]. rewrite S4, last_last, (row_at_value v v' lv m dims k (V k) (Ev v eq_refl) S4 Lk H4 HV).
        rewrite apply_visibility_same by lia. eexists. split; [reflexivity|]. split; [rewrite map_length, combine_length; lia|].
        intros i x y Hx Hy. rewrite nth_error_map', nth_error_combine, Hx, Hy. reflexivity.
      - exists n. split; [reflexivity|]. split; [exact Ln|]. intros i x y Hx Hy. rewrite HV in Hy.
        rewrite nth_error_repeat in Hy by (rewrite <- Ln; apply nth_error_Some; congruence). injection Hy as <-. rewrite Hx. f_equal. ring. }
    destruct EV as (n2 & -> & L2 & H2'). cbn [bind]. eexists. split; [reflexivity|].
    unfold clip_zero. split; [rewrite map_length; exact L2|]. intros i g v Hg Hv.
    rewrite nth_error_map', (H2' i (N k * (sphere_area / INR m) * (1 + (g - (if rm then mean_of (G k) else 0)))) v); [|unfold n; rewrite nth_error_map', Hg; reflexivity|exact Hv].
    cbn [option_map]. reflexivity. }
  destruct (mapM_rows' _ _ (ndindex dims) Hk) as (lams & El & Hl).
  exists lams. split; [apply ndindex_row_major|]. split; [|exact Hl].
  unfold expected_counts. fold args. rewrite E. cbn [bind]. rewrite I0. cbn [bind]. rewrite I1. cbn [bind]. rewrite I2. cbn [bind]. rewrite I3. cbn [bind].
  exact El.
Qed.
Print Assumptions expected_counts_formula.

(** No expected count is negative. *)
Theorem expected_counts_nonnegative bias_model ngal delta bias vis rm lams :
  expected_counts bias_model ngal delta bias vis rm = Ok lams -> Forall (Forall (fun x => 0 <= x)) lams.
Proof.
  intro H. unfold expected_counts in H.
  apply bind_ok in H as ([dims arrs] & _ & H). apply bind_ok in H as (n' & _ & H). apply bind_ok in H as (d' & _ & H).
  apply bind_ok in H as (b' & _ & H). apply bind_ok in H as (v' & _ & H). apply mapM_ok in H.
  induction H as [|k lam ks lams Hk _ IH]; constructor; [|exact IH].
  apply bind_ok in Hk as (n1 & _ & Hk). apply bind_ok in Hk as (n2 & _ & Hk). apply bind_ok in Hk as (n3 & _ & Hk).
  injection Hk as <-. apply Forall_forall. intros x Hx. unfold clip_zero in Hx. apply in_map_iff in Hx as (y & <- & _). apply Rmax_l.
Qed.
Print Assumptions expected_counts_nonnegative.

(** Where nothing is visible nothing is expected, and where more is visible not less is expected. *)
Theorem expected_counts_visibility bias_model ngal delta bias v1 v2 rm ld lv m dims
    (N : list nat -> R) (G V1 V2 : list nat -> list R) : (0 < m)%nat ->
  ashape delta = ld ++ [m] -> ashape v1 = lv ++ [m] -> ashape v2 = lv ++ [m] ->
  is_broadcast ([ashape ngal; ld] ++ match bias with Some b => [ashape b] | None => [] end ++ [lv]) dims ->
  (forall k, inside dims k -> population bias_model ngal delta bias (Some v1) ld lv m k (N k) (G k) (V1 k)) ->
  (forall k, inside dims k -> population bias_model ngal delta bias (Some v2) ld lv m k (N k) (G k) (V2 k)) ->
  (forall k, inside dims k -> Forall2 (fun a b => 0 <= a <= b) (V1 k) (V2 k)) ->
  exists ks l1 l2, row_major dims ks /\
    expected_counts bias_model ngal delta bias (Some v1) rm = Ok l1 /\
    expected_counts bias_model ngal delta bias (Some v2) rm = Ok l2 /\
    Forall2 (fun k l => forall i, nth_error (V1 k) i = Some 0 -> nth_error l i = Some 0) ks l1 /\
    Forall2 (Forall2 Rle) l1 l2.
Proof.
  intros Hm Ed E1 E2 Hb P1 P2 HV.
  destruct (expected_counts_formula bias_model ngal delta bias (Some v1) rm ld lv m dims N G V1 Hm Ed) as (ks & l1 & Hk & H1 & F1);
    [intros v Q; injection Q as <-; exact E1|exact Hb|exact P1|].
  destruct (expected_counts_formula bias_model ngal delta bias (Some v2) rm ld lv m dims N G V2 Hm Ed) as (ks' & l2 & Hk' & H2 & F2);
    [intros v Q; injection Q as <-; exact E2|exact Hb|exact P2|].
  assert (ks' = ks) by (eapply row_major_unique; eassumption). subst ks'.
  exists ks, l1, l2. split; [exact Hk|]. split; [exact H1|]. split; [exact H2|].
  assert (Hin : Forall (fun k => inside dims k) ks) by (apply Forall_forall; intros k; apply (proj1 Hk)).
  clear H1 H2 Hk Hk'. split.
  - clear F2. induction F1 as [|k lam ks lams [L1 F1] _ IH]; constructor; [|exact (IH (Forall_inv_tail Hin))].
    assert (Hik := Forall_inv Hin). intros i Hi.
    destruct (P1 k Hik) as (_ & LG & LV & _). assert (Hlt : (i < m)%nat) by (rewrite <- LV; apply nth_error_Some; congruence).
    destruct (nth_error (G k) i) as [g|] eqn:Eg; [|apply nth_error_None in Eg; lia].
    rewrite (F1 i g 0 Eg Hi). unfold expected_points. rewrite Rmult_0_r, Rmax_left by lra. reflexivity.
  - revert l2 F2. induction F1 as [|k lam ks lams [L1 F1] _ IH]; intros l2 F2; inversion F2 as [|? lam2 ? l2' [L2 F2h] F2t Ea Eb]; clear F2; constructor; [|exact (IH (Forall_inv_tail Hin) _ F2t)].
    assert (Hik := Forall_inv Hin).
    apply forall2_nth; [lia|]. intros i a b Ha Hb'.
    destruct (P1 k Hik) as (_ & LG & LV1 & _). destruct (P2 k Hik) as (_ & _ & LV2 & _).
    assert (Hlt : (i < m)%nat) by (rewrite <- L1; apply nth_error_Some; congruence).
    destruct (nth_error (G k) i) as [g|] eqn:Eg; [|apply nth_error_None in Eg; lia].
    destruct (nth_error (V1 k) i) as [vx|] eqn:Ex; [|apply nth_error_None in Ex; lia].
    destruct (nth_error (V2 k) i) as [vy|] eqn:Ey; [|apply nth_error_None in Ey; lia].
    rewrite (F1 i g vx Eg Ex) in Ha. rewrite (F2h i g vy Eg Ey) in Hb'. injection Ha as <-. injection Hb' as <-.
    assert (0 <= vx <= vy) by (eapply (forall2_at _ _ _ (HV k Hik)); eassumption).
    unfold expected_points. set (A := _ * (1 + _)). clearbody A.
    apply Rmax_lub; [apply Rmax_l|]. destruct (Rle_dec 0 A).
    + apply Rle_trans with (A * vy); [nra|apply Rmax_r].
    + apply Rle_trans with 0; [nra|apply Rmax_l].
Qed.
Print Assumptions expected_counts_visibility.

(** With the monopole removed and without a visibility map, the counts of a population add up to its
    density times the area of the sphere, as long as the contrast does not fall below -1. *)
Theorem expected_counts_total bias_model ngal delta bias ld m dims
    (N : list nat -> R) (G V : list nat -> list R) : (0 < m)%nat -> ashape delta = ld ++ [m] ->
  is_broadcast ([ashape ngal; ld] ++ match bias with Some b => [ashape b] | None => [] end) dims ->
  (forall k, inside dims k -> population bias_model ngal delta bias None ld [] m k (N k) (G k) (V k) /\
    0 <= N k /\ Forall (fun g => -1 <= g - mean_of (G k)) (G k)) ->
  exists ks lams, row_major dims ks /\ expected_counts bias_model ngal delta bias None true = Ok lams /\
    Forall2 (fun k lam => sum_of lam = N k * sphere_area) ks lams.
Proof.
  intros Hm Ed Hb H.
  destruct (expected_counts_formula bias_model ngal delta bias None true ld [] m dims N G V Hm Ed) as (ks & lams & Hk & E & F).
  { discriminate. }
  { rewrite app_nil_r. exact Hb. }
  { intros k Hi. apply H, Hi. }
  exists ks, lams. split; [exact Hk|]. split; [exact E|].
  assert (Hin : Forall (fun k => inside dims k) ks) by (apply Forall_forall; intros k; apply (proj1 Hk)).
  clear E Hk. induction F as [|k lam ks lams [L F] _ IH]; constructor; [|exact (IH (Forall_inv_tail Hin))].
  assert (Hik := Forall_inv Hin). destruct (H k Hik) as ((_ & LG & LV & _ & HV) & HN & Hg).
  assert (Hpos : 0 < INR m) by (apply lt_0_INR; exact Hm).
  assert (El : lam = map (fun g => N k * (sphere_area / INR m) * (1 + (g - mean_of (G k)))) (G k)).
  { apply nth_error_ext'. intro i. rewrite nth_error_map'. destruct (nth_error (G k) i) as [g|] eqn:Eg.
    - assert (Hlt : (i < m)%nat) by (rewrite <- LG; apply nth_error_Some; congruence).
      rewrite (F i g 1 Eg) by (rewrite HV; apply nth_error_repeat; exact Hlt). cbn [option_map]. f_equal. unfold expected_points.
      rewrite Rmult_1_r, Rmax_right; [reflexivity|].
      rewrite Forall_forall in Hg. pose proof (Hg g (nth_error_In _ _ Eg)).
      apply Rmult_le_pos; [|lra]. apply Rmult_le_pos; [exact HN|]. apply Rmult_le_pos; [|apply Rlt_le, Rinv_0_lt_compat, Hpos].
      unfold sphere_area. pose proof PI_RGT_0. apply Rmult_le_pos; [lra|apply pow2_ge_0].
    - apply nth_error_None in Eg. apply nth_error_None. lia. }
  remember (N k * (sphere_area / INR m)) as A eqn:EA. rewrite El.
  assert (S : forall c l, sum_of (map (fun g => A * (1 + (g - c))) l) = A * (INR (length l) + fold_right Rplus 0 l - INR (length l) * c)).
  { intros c l. induction l as [|x l IHl]; [cbn; ring|]. change (sum_of (map (fun g => A * (1 + (g - c))) (x :: l))) with (A * (1 + (x - c)) + sum_of (map (fun g => A * (1 + (g - c))) l)).
    rewrite IHl. cbn [length fold_right]. rewrite S_INR. ring. }
  rewrite S. unfold mean_of. rewrite LG, EA. field. lra.
Qed.
Print Assumptions expected_counts_total.

(** Where biasing takes the contrast below -1, clipping raises the total: a bias of 3 and a contrast of
    1 in one half of the sky, -1 in the other, double the number of points. *)
Theorem expected_counts_total_refuted :
  ~ (forall ngal delta bias m lams, ashape ngal = [] -> ashape delta = [m] -> ashape bias = [] -> (0 < m)%nat ->
       0 <= aget ngal [] -> (forall i, (i < m)%nat -> -1 <= aget delta [i]) ->
       expected_counts linear_bias ngal delta (Some bias) None true = Ok lams ->
       Forall (fun lam => sum_of lam = aget ngal [] * sphere_area) lams).
Proof.
  intro H.
  set (ngal := {| ashape := []; aget := fun _ : list nat => 1 |}).
  set (delta := {| ashape := [2%nat]; aget := fun i : list nat => match i with [0%nat] => 1 | _ => -1 end |}).
  set (bias := {| ashape := []; aget := fun _ : list nat => 3 |}).
  pose proof PI_RGT_0 as Hpi. assert (Hs : 0 < sphere_area).
  { unfold sphere_area. apply Rmult_lt_0_compat; [lra|]. apply pow_lt. apply Rdiv_lt_0_compat; lra. }
  assert (E : expected_counts linear_bias ngal delta (Some bias) None true = Ok [[2 * sphere_area; 0]]).
  { unfold expected_counts. cbn -[INR expected_count]. rewrite (expected_count_spec 1 true) by discriminate.
    cbn -[INR sphere_area mean_of Rmax]. unfold mean_of. cbn -[INR sphere_area Rmax]. unfold clip_zero. cbn -[INR sphere_area Rmax].
    replace (INR 2) with 2 by (cbn; ring). do 2 f_equal.
    replace (1 * (sphere_area / 2) * (1 + (3 * 1 - (3 * 1 + (3 * -1 + 0)) / 2))) with (2 * sphere_area) by field.
    replace (1 * (sphere_area / 2) * (1 + (3 * -1 - (3 * 1 + (3 * -1 + 0)) / 2))) with (- sphere_area) by field.
    rewrite Rmax_right, Rmax_left by lra. reflexivity. }
  assert (F := H ngal delta bias 2%nat [[2 * sphere_area; 0]] eq_refl eq_refl eq_refl (Nat.lt_0_succ 1)).
  assert (F' : Forall (fun lam => sum_of lam = aget ngal [] * sphere_area) [[2 * sphere_area; 0]]).
  { apply F; [cbn; lra| |exact E]. intros i Hi. destruct i as [|[|i]]; cbn; try lra; lia. }
  inversion F' as [|? ? Q _]; subst. cbn -[sphere_area] in Q. lra.
Qed.
Print Assumptions expected_counts_total_refuted.

(** From densities to positions: the counts of a population are drawn with its expected counts, and the
    positions have as many points in each pixel as were drawn. *)
Theorem positions_from_delta_sources {S U P} (mk : nat -> S) poisson random ring2ang npix2nside
    nside m fuel batch bias_model ngal delta bias vis rm (rng : option S) ld lv dims
    (N : list nat -> R) (G V : list nat -> list R) (pos : list (list (list P))) s : (0 < m)%nat ->
  ashape delta = ld ++ [m] -> (forall v, vis = Some v -> ashape v = lv ++ [m]) ->
  is_broadcast ([ashape ngal; ld] ++ match bias with Some b => [ashape b] | None => [] end
                                  ++ match vis with Some _ => [lv] | None => [] end) dims ->
  (forall k, inside dims k -> population bias_model ngal delta bias vis ld lv m k (N k) (G k) (V k)) ->
  (forall s n, length (fst (random s n)) = n) ->
  (forall s lam, length (fst (poisson s lam)) = length lam) ->
  npix2nside m = Ok nside -> (2 * m < fuel)%nat ->
  positions_from_delta (U:=U) mk poisson random ring2ang npix2nside fuel batch (Some bias_model) ngal delta bias vis rm rng = Ok (pos, s) ->
  exists ks lams counts, row_major dims ks /\
    Forall2 (fun k lam => length lam = m /\
      forall i g v, nth_error (G k) i = Some g -> nth_error (V k) i = Some v ->
        nth_error lam i = Some (Rmax 0 (expected_points m (N k) (g - if rm then mean_of (G k) else 0) v))) ks lams /\
    draws poisson (match rng with Some s0 => s0 | None => mk 42%nat end) lams counts s /\
    Forall2 (fun n p => exists pixels, concat pixels = all_points n /\
      Forall2 (fun px b => placed (ring2ang nside) px (fst (random (mk 42%nat) (length px))) b) pixels p)
      counts pos.
Proof.
  intros Hm Ed Ev Hb H Hr Hp Hn Hf E.
  destruct (expected_counts_formula bias_model ngal delta bias vis rm ld lv m dims N G V Hm Ed Ev Hb H) as (ks & lams & Hk & El & F).
  unfold positions_from_delta in E. rewrite El in E. cbn [bind] in E.
  assert (HL : forall lam, In lam lams -> length lam = m).
  { clear - F. induction F as [|? ? ? ? [L _] _ IH]; intros lam Q; [destruct Q|]. destruct Q as [<-|Q]; auto. }
  destruct (positions_sources mk poisson random ring2ang npix2nside nside m fuel batch rng lams pos s Hr) as (counts & Hd & Hc);
    [intros s0 lam Hin; rewrite Hp; apply HL, Hin|exact Hn|exact Hf|exact E|].
  exists ks, lams, counts. auto.
Qed.
Print Assumptions positions_from_delta_sources.

(** The bias model must be callable: positions are only returned if there is a function for the bias, and whatever else
    is passed, there is a TypeError without one. *)
Theorem positions_need_model {S U P} (mk : nat -> S) poisson (random : S -> nat -> list U * S) (ring2ang : nat -> nat -> U -> P) npix2nside
    fuel batch model ngal delta bias vis rm rng :
  ((exists r, positions_from_delta mk poisson random ring2ang npix2nside fuel batch model ngal delta bias vis rm rng = Ok r) -> exists f, model = Some f) /\
  (model = None -> positions_from_delta mk poisson random ring2ang npix2nside fuel batch model ngal delta bias vis rm rng = Err TypeError).
Proof. split; [intros (r & H); destruct model as [f|]; [exists f; reflexivity|discriminate]|intros ->; reflexivity]. Qed.
Print Assumptions positions_need_model.

Example positions_from_delta_rejects {S U P} (mk : nat -> S) poisson (random : S -> nat -> list U * S) (ring2ang : nat -> nat -> U -> P) npix2nside
    fuel batch ngal delta bias vis rm rng :
  positions_from_delta mk poisson random ring2ang npix2nside fuel batch None ngal delta bias vis rm rng = Err TypeError.
Proof. reflexivity. Qed.

(** The loglinear model raises the density [1 + delta] to the power of the bias; the result never
    falls below empty. *)
Theorem loglinear_bias_spec delta b out : loglinear_bias delta b = Ok out ->
  length out = length delta /\
  forall i d o, nth_error delta i = Some d -> nth_error out i = Some o ->
    -1 <= d /\ -1 <= o /\ (b = 1 -> o = d) /\ (d = -1 -> o = -1) /\
    (forall n, b = INR n -> (0 < n)%nat -> 1 + o = (1 + d) ^ n) /\
    (-1 < d -> 1 + o = Rpower (1 + d) b) /\
    (0 < b -> forall d' o', -1 <= d' -> d <= d' -> loglinear_bias [d'] b = Ok [o'] -> o <= o').
Proof.
  intro H. unfold loglinear_bias in H. apply mapM_ok in H. split; [symmetry; exact (forall2_length _ _ _ H)|].
  intros i d o Hd Ho. assert (E := forall2_at _ _ _ H i d o Hd Ho). cbv beta in E. clear H Hd Ho.
  destruct (Rlt_dec (-1) d) as [L|L].
  - injection E as <-. assert (0 < exp (ln (1 + d) * b)) by apply exp_pos.
    split; [lra|]. split; [lra|]. split; [|split; [|split; [|split]]].
    + intros ->. rewrite Rmult_1_r, exp_ln; lra.
    + lra.
    + intros n -> Hn. rewrite <- Rpower_pow by lra. unfold Rpower. rewrite (Rmult_comm (INR n)). ring.
    + intros _. unfold Rpower. rewrite (Rmult_comm b). ring.
    + intros Hb d' o' H' Hle Q. unfold loglinear_bias in Q. cbn [mapM] in Q. destruct (Rlt_dec (-1) d'); [|lra].
      cbn [bind] in Q. injection Q as <-. apply Rplus_le_compat_r.
      destruct (Req_dec d d') as [->|Nd]; [lra|]. apply Rlt_le, exp_increasing, Rmult_lt_compat_r; [exact Hb|]. apply ln_increasing; lra.
  - destruct (Req_EM_T d (-1)) as [->|]; [|discriminate]. destruct (Rlt_dec 0 b); [|discriminate]. injection E as <-.
    split; [lra|]. split; [lra|]. split; [|split; [|split; [|split]]].
    + lra.
    + lra.
    + intros n -> Hn. replace (1 + -1) with 0 by ring. rewrite pow_i by exact Hn. reflexivity.
    + lra.
    + intros _ d' o' H' Hle Q. unfold loglinear_bias in Q. cbn [mapM] in Q. destruct (Rlt_dec (-1) d').
      * cbn [bind] in Q. injection Q as <-. pose proof (exp_pos (ln (1 + d') * b)). lra.
      * destruct (Req_EM_T d' (-1)); [|lra]. destruct (Rlt_dec 0 b); [|lra]. cbn [bind] in Q. injection Q as <-. lra.
Qed.
Print Assumptions loglinear_bias_spec.

Example loglinear_bias_example : loglinear_bias [1; -1; 0] 2 = Ok [3; -1; 0].
Proof.
  unfold loglinear_bias. cbn [mapM].
  destruct (Rlt_dec (-1) 1); [|lra]. destruct (Rlt_dec (-1) (-1)); [lra|]. destruct (Req_EM_T (-1) (-1)); [|lra].
  destruct (Rlt_dec 0 2); [|lra]. destruct (Rlt_dec (-1) 0); [|lra]. cbn [bind].
  replace (ln (1 + 1) * 2) with (ln (2 * 2)) by (rewrite ln_mult by lra; replace (1 + 1) with 2 by ring; ring).
  rewrite exp_ln by lra. replace (1 + 0) with 1 by ring. rewrite ln_1, Rmult_0_l, exp_0.
  do 2 f_equal; [lra|]. do 2 f_equal. lra.
Qed.

Example expected_counts_example :
  (* two populations over two pixels, one of which is half visible *)
  expected_counts linear_bias
    {| ashape := [2%nat]; aget := fun i => match i with [0%nat] => 1 | _ => 2 end |}
    {| ashape := [2%nat]; aget := fun i => match i with [0%nat] => 1 | _ => 0 end |}
    (Some {| ashape := []; aget := fun _ => 1 / 2 |})
    (Some {| ashape := [1%nat; 2%nat]; aget := fun i => match i with [_; 0%nat] => 1 / 2 | _ => 1 end |}) true
  = Ok [[5 / 16 * sphere_area; 3 / 8 * sphere_area]; [5 / 8 * sphere_area; 3 / 4 * sphere_area]].
Proof.
  pose proof PI_RGT_0 as Hpi. assert (Hs : 0 < sphere_area).
  { unfold sphere_area. apply Rmult_lt_0_compat; [lra|]. apply pow_lt. apply Rdiv_lt_0_compat; lra. }
  unfold expected_counts, broadcast_leading_axes. cbn -[INR expected_count clip_zero Pos.to_nat]. change (Pos.to_nat 1) with 1%nat.
  cbn -[INR expected_count clip_zero]. rewrite !expected_count_spec by discriminate.
  cbn -[INR sphere_area mean_of Rmax clip_zero]. unfold mean_of. cbn -[INR sphere_area Rmax]. unfold clip_zero. cbn -[INR sphere_area Rmax].
  replace (INR 2) with 2 by (cbn; ring).
  rewrite !Rmax_right by lra. apply f_equal, f_equal2; [|apply f_equal2; [|reflexivity]];
  (apply f_equal2; [|apply f_equal2; [|reflexivity]]); field.
Qed.

(** C37 *)

(** For every population, in order: as many points as were drawn for the density times the area of the
    sphere, longitudes as drawn, latitudes whose sine was drawn, and counts that say which population
    it was. *)
Theorem uniform_positions_spec {S} (poisson : S -> list R -> list nat * S)
    (uniform : S -> R -> R -> nat -> list R * S) (ngal : array R) s :
  (forall s l, length (fst (poisson s l)) = length l) ->
  (forall s lo hi n, length (fst (uniform s lo hi n)) = n /\ Forall (fun x => lo <= x < hi) (fst (uniform s lo hi n))) ->
  exists ks counts s1 us out s2, row_major (ashape ngal) ks /\
    poisson s (map (fun k => sphere_area * aget ngal k) ks) = (counts, s1) /\
    draws (fun s '(lo, hi, n) => uniform s lo hi n) s1
      (concat (map (fun n => [(-180, 180, n); (-1, 1, n)]) counts)) (concat us) s2 /\
    uniform_positions poisson uniform ngal s = (out, s2) /\
    Forall2 (fun '(k, n) '(u, (lon, lat, c)) => exists x, u = [lon; x] /\
        length lon = n /\ length lat = n /\
        Forall (fun l => -180 <= l < 180) lon /\
        Forall2 (fun l v => -90 <= l <= 90 /\ sin (angle l) = v) lat x /\
        ashape c = ashape ngal /\ aget c k = n /\ forall i, i <> k -> aget c i = 0%nat)
      (combine ks counts) (combine us out) /\
    length counts = length ks /\ length us = length ks /\ length out = length ks.
Proof.
  intros Hp Hu. unfold uniform_positions.
  exists (ndindex (ashape ngal)).
  destruct (poisson s (map (fun k => ARCMIN2_SPHERE * aget ngal k) (ndindex (ashape ngal)))) as [counts s1] eqn:Ep.
  assert (Lc : length counts = length (ndindex (ashape ngal))).
  { pose proof (Hp s (map (fun k => ARCMIN2_SPHERE * aget ngal k) (ndindex (ashape ngal)))) as Q. rewrite Ep, map_length in Q. exact Q. }
  exists counts, s1.
  assert (L : forall dims ks counts s1, length counts = length ks -> exists us out s2,
    draws (fun s '(lo, hi, n) => uniform s lo hi n) s1
      (concat (map (fun n => [(-180, 180, n); (-1, 1, n)]) counts)) (concat us) s2 /\
    uniform_loop uniform dims ks counts s1 = (out, s2) /\
    Forall2 (fun '(k, n) '(u, (lon, lat, c)) => exists x, u = [lon; x] /\
        length lon = n /\ length lat = n /\
        Forall (fun l => -180 <= l < 180) lon /\
        Forall2 (fun l v => -90 <= l <= 90 /\ sin (angle l) = v) lat x /\
        ashape c = dims /\ aget c k = n /\ forall i, i <> k -> aget c i = 0%nat)
      (combine ks counts) (combine us out) /\ length us = length ks /\ length out = length ks).
  { clear - Hu. intros dims ks. induction ks as [|k ks IH]; intros [|n counts] s1 L; try discriminate.
    - exists [], [], s1. repeat split; constructor.
    - cbn [uniform_loop]. destruct (Hu s1 (-180) 180 n) as [L1 F1]. destruct (uniform s1 (-180) 180 n) as [lon s3] eqn:E1. cbn [fst] in L1, F1.
      destruct (Hu s3 (-1) 1 n) as [L2 F2]. destruct (uniform s3 (-1) 1 n) as [x s4] eqn:E2. cbn [fst] in L2, F2.
      destruct (IH counts s4) as (us & out & s2 & D & E & F & Lu & Lo); [injection L; auto|].
      rewrite E. eexists ([lon; x] :: us), _, s2. split; [|split; [reflexivity|]].
      + cbn [map concat app]. econstructor; [exact E1|]. econstructor; [exact E2|]. exact D.
      + split; [|cbn [length]; auto]. cbn [combine]. constructor; [|exact F].
        exists x. split; [reflexivity|]. split; [exact L1|]. split; [rewrite map_length; exact L2|]. split; [exact F1|].
        split; [|split; [reflexivity|split]].
        * clear - F2. induction F2 as [|v x Hv _ IH]; constructor; [|exact IH]. rewrite angle_degrees.
          split; [|apply sin_asin; lra]. pose proof (asin_bound v). pose proof PI_RGT_0.
          unfold degrees. replace (-90) with (- (PI / 2) * (180 / PI)) by (field; lra). replace 90 with (PI / 2 * (180 / PI)) by (field; lra).
          assert (0 < 180 / PI) by (apply Rdiv_lt_0_compat; lra). split; apply Rmult_le_compat_r; lra.
        * cbn [aget]. destruct (list_eq_dec Nat.eq_dec k k); [reflexivity|contradiction].
        * intros i Hi. cbn [aget]. destruct (list_eq_dec Nat.eq_dec i k); [contradiction|reflexivity]. }
  destruct (L (ashape ngal) (ndindex (ashape ngal)) counts s1 Lc) as (us & out & s2 & D & E & F & Lu & Lo).
  exists us, out, s2. split; [apply ndindex_row_major|]. split; [rewrite <- sphere_area_eq; exact Ep|].
  split; [exact D|]. split; [exact E|]. split; [exact F|]. auto.
Qed.
Print Assumptions uniform_positions_spec.

Example uniform_positions_example :
  (* one point for every 30000000 expected, the "generator" counts draws and gives the lower end plus 90 or 1/2 *)
  let uniform (s : nat) (lo hi : R) n := (repeat ((lo + lo + hi) / 2 + (hi - lo) / 4) n, (s + 1)%nat) in
  let poisson (s : nat) (l : list R) := (seq 1 (length l), (s + 1)%nat) in
  map (fun '(lon, lat, c) => (lon, map (fun l => sin (angle l)) lat, aget c [0%nat], aget c [1%nat]))
    (fst (uniform_positions poisson uniform {| ashape := [2%nat]; aget := fun _ => 1 |} 0%nat))
  = [([0], [0], 1%nat, 0%nat); ([0; 0], [0; 0], 0%nat, 2%nat)].
Proof.
  cbn -[asin sin angle degrees]. rewrite !angle_degrees, !sin_asin by lra.
  repeat (apply f_equal2 || reflexivity || field).
Qed.

(** C38 *)

(** Without bias the weights are the densities divided by their sum over the first axis. *)
Theorem position_weights_normalised densities n rest : ashape densities = n :: rest ->
  exists w, position_weights densities None = Ok w /\ ashape w = n :: rest /\
    (forall j i, aget w (j :: i) = aget densities (j :: i) / sum_of (first_axis densities n i)) /\
    (forall i, sum_of (first_axis densities n i) <> 0 -> sum_of (first_axis w n i) = 1) /\
    (forall c, c <> 0 -> forall d', ashape d' = n :: rest -> (forall i, aget d' i = c * aget densities i) ->
       exists w', position_weights d' None = Ok w' /\ ashape w' = ashape w /\
         forall j i, sum_of (first_axis densities n i) <> 0 -> aget w' (j :: i) = aget w (j :: i)).
Proof.
  intro E. unfold position_weights. rewrite E. eexists. split; [reflexivity|].
  assert (V : forall d, ashape d = n :: rest -> forall j i, aget (normalise_first d) (j :: i) = aget d (j :: i) / sum_of (first_axis d n i)).
  { intros d Ed j i. unfold normalise_first, sum_first, first_axis. cbn [aget tl]. rewrite Ed. cbn [hd]. rewrite total_fold. reflexivity. }
  split; [exact E|]. split; [apply V, E|]. split.
  - intros i Hi. unfold first_axis at 1.
    rewrite (map_ext _ (fun j => / sum_of (first_axis densities n i) * aget densities (j :: i)))
      by (intro j; rewrite (V densities E); unfold Rdiv; ring).
    set (S := sum_of (first_axis densities n i)) in *. unfold first_axis in S.
    assert (Q : forall l, sum_of (map (fun j => / S * aget densities (j :: i)) l) = / S * sum_of (map (fun j => aget densities (j :: i)) l)).
    { clearbody S. induction l as [|x l IH]; [cbn; ring|]. cbn [map sum_of fold_right]. unfold sum_of in *. cbn [fold_right]. rewrite IH. ring. }
    rewrite Q. fold S. field. exact Hi.
  - intros c Hc d' E' Hd. rewrite E'. eexists. split; [reflexivity|]. split; [cbn; rewrite E, E'; reflexivity|].
    intros j i Hi. rewrite (V _ E), (V _ E'), Hd.
    assert (Q : sum_of (first_axis d' n i) = c * sum_of (first_axis densities n i)).
    { unfold first_axis. generalize (seq 0 n) as l. induction l as [|x l IH]; [cbn; ring|].
      unfold sum_of in *. cbn [map fold_right]. rewrite IH, Hd. ring. }
    rewrite Q. field. auto.
Qed.
Print Assumptions position_weights_normalised.

(** With bias, both are broadcast over the axes after the first, and the weight is the normalised
    density times the bias. *)
Theorem position_weights_biased densities bias n nb rest rb c r :
  ashape densities = n :: rest -> ashape bias = nb :: rb ->
  is_broadcast [[n]; [nb]] [c] -> is_broadcast [rest; rb] r ->
  exists w, position_weights densities (Some bias) = Ok w /\ ashape w = c :: r /\
    forall y i, length i = length r -> exists jd jb, comes_from rest i jd /\ comes_from rb i jb /\
      let density y := aget densities ((if (n =? 1)%nat then 0%nat else y) :: jd) in
      aget w (y :: i) = density y / sum_of (map density (seq 0 c)) * aget bias ((if (nb =? 1)%nat then 0%nat else y) :: jb).
Proof.
  intros Ed Eb Hc Hr. unfold position_weights.
  destruct (first_ok [densities; bias] [(n, rest); (nb, rb)] c r) as (arrs & E & F).
  { discriminate. }
  { cbn. rewrite Ed, Eb. reflexivity. }
  { exact Hc. }
  { exact Hr. }
  rewrite E. cbn [bind]. inversion F as [|? d' ? ? [S1 H1] F1 Qa Qb]. subst arrs. inversion F1 as [|? b' ? ? [S2 H2] F2 Qc Qd]. subst. inversion F2. subst.
  rewrite S1. eexists. split; [reflexivity|]. split; [reflexivity|].
  intros y i Hi. destruct (H1 y i Hi) as (jd & Cd & Vd). destruct (H2 y i Hi) as (jb & Cb & Vb). rewrite Ed in Cd, Vd. rewrite Eb in Cb, Vb. cbn [tl hd] in *.
  exists jd, jb. split; [exact Cd|]. split; [exact Cb|]. cbn [aget]. unfold normalise_first, sum_first. cbn [aget tl]. rewrite S1, Vb, Vd. cbn [hd].
  f_equal. f_equal. rewrite total_fold. unfold sum_of. f_equal. apply map_ext_in. intros y' _.
  destruct (H1 y' i Hi) as (jd' & Cd' & Vd'). rewrite Ed in Cd', Vd'. cbn [tl hd] in *. rewrite Vd', (comes_from_fun _ _ _ _ Cd' Cd). reflexivity.
Qed.
Print Assumptions position_weights_biased.

Example position_weights_example :
  (* two shells, two populations; one bias per shell *)
  (do w <- position_weights {| ashape := [2%nat; 2%nat]; aget := fun i => match i with [0%nat; 0%nat] => 1 | [1%nat; 0%nat] => 3 | _ => 2 end |}
             (Some {| ashape := [2%nat; 1%nat]; aget := fun i => match i with [0%nat; _] => 2 | _ => 1 end |});
   Ok (ashape w, map (aget w) [[0%nat; 0%nat]; [1%nat; 0%nat]; [0%nat; 1%nat]; [1%nat; 1%nat]]))
  = Ok ([2%nat; 2%nat], [1 / 2; 3 / 4; 1; 1 / 2]) /\
  position_weights {| ashape := []; aget := fun _ => 1 |} None = Err ValueError.
Proof.
  split; [|reflexivity]. cbn. apply f_equal, f_equal. repeat (apply f_equal2; [field|]). reflexivity.
Qed.

(** C39 *)

(** The effective bias is the integral of the product of bias and window, taken as piecewise linear
    on the union of both grids, over the integral of the window; it lies between any two bounds of the
    bias over the part of the window that is not zero. *)
Theorem effective_bias_mean z bz w (B W : R -> R) z0 zn w0 wn norm :
  increasing z -> length z = length bz -> starts_with z z0 -> ends_with z zn ->
  interpolates B z bz -> passes_through B z bz ->
  increasing (za w) -> length (za w) = length (wa w) -> starts_with (za w) w0 -> ends_with (za w) wn ->
  interpolates W (za w) (wa w) -> passes_through W (za w) (wa w) ->
  z0 <= w0 -> wn <= zn -> integral W w0 wn norm -> norm <> 0 ->
  exists b, effective_bias z bz w = Ok b /\
    (exists grid g, increasing grid /\ starts_with grid w0 /\ ends_with grid wn /\
       (forall x, In x grid <-> (In x (za w) \/ (In x z /\ w0 <= x <= wn))) /\
       interpolates g grid (map (fun x => B x * W x) grid) /\ integral g w0 wn (b * norm)) /\
    ((forall v, In v (wa w) -> 0 <= v) -> forall lo hi,
       (forall x, w0 <= x <= wn -> 0 < W x -> lo <= B x <= hi) -> lo <= b <= hi).
Proof.
  intros Hz Lz Hz0 Hzn IB PB Hw Lw Hw0 Hwn IW PW H0 Hn HI HN.
  assert (Nz : z <> []) by (intros ->; discriminate). assert (Nw : za w <> []) by (intro Q; rewrite Q in Hw0; discriminate).
  unfold effective_bias.
  assert (Et : trapezoid (wa w) (za w) = Ok norm).
  { unfold trapezoid. rewrite <- Lw, Nat.eqb_refl. f_equal.
    refine (integral_unique W w0 wn _ _ (trapezoids_integral W (za w) (wa w) w0 wn _ _ _ _ _ _) HI); auto. }
  rewrite Et. cbn [bind]. rewrite (product2 z bz (za w) (wa w) Hz Lz Nz Hw Lw Nw z0 zn w0 wn Hz0 Hzn Hw0 Hwn). cbn [bind].
  destruct (common_grid z (za w) z0 zn w0 wn Hz Hw Hz0 Hzn Hw0 Hwn H0 Hn) as (Gi & G0 & Gn & Gin).
  set (grid := union1d (between w0 wn z) (between z0 zn (za w))) in *. clearbody grid.
  assert (Hr : forall x, In x grid -> w0 <= x <= wn).
  { intros x Hx. split; [exact (starts_min _ _ Gi G0 x Hx)|exact (ends_max _ _ Gi Gn x Hx)]. }
  assert (Ev : map (fun x => interp_value z bz None None x * interp_value (za w) (wa w) None None x) grid = map (fun x => B x * W x) grid).
  { apply map_ext_in. intros x Hx. pose proof (Hr x Hx).
    rewrite (interp_unique B z bz None None z0 zn x), (interp_unique W (za w) (wa w) None None w0 wn x); auto. lra. }
  rewrite Ev. set (p := total (trapezoids (combine grid (map (fun x => B x * W x) grid)))).
  exists (p / norm). split; [|split].
  - unfold fdiv. destruct (Req_EM_T norm 0); [contradiction|reflexivity].
  - exists grid, (interp_value grid (map (fun x => B x * W x) grid) None None).
    split; [exact Gi|]. split; [exact G0|]. split; [exact Gn|]. split; [exact Gin|].
    split; [apply value_interpolates; [exact Gi|symmetry; apply map_length]|].
    replace (p / norm * norm) with p by (field; exact HN).
    apply trapezoids_integral; auto; [symmetry; apply map_length|apply value_interpolates; [exact Gi|symmetry; apply map_length]|apply value_through; [exact Gi|symmetry; apply map_length]].
  - intros Hpos lo hi Hb.
    assert (Wpos : forall x, w0 <= x <= wn -> 0 <= W x).
    { intros x Hx. rewrite (interp_unique W (za w) (wa w) (Some 0) (Some 0) w0 wn x); auto. apply value_nonneg; auto. }
    assert (En : total (trapezoids (combine grid (map W grid))) = norm).
    { refine (integral_unique W w0 wn _ _ _ HI). apply (refined_integral W (za w) (wa w) grid w0 wn); auto; try lra.
      intros x Hx _. apply Gin. left. exact Hx. }
    assert (Npos : 0 < norm).
    { assert (0 <= norm); [|lra]. rewrite <- En, <- (Rmult_0_l (total (trapezoids (combine grid (map W grid))))), <- total_trapezoids_mult.
      apply total_trapezoids_le; [exact Gi|]. intros x Hx. pose proof (Wpos x (Hr x Hx)). lra. }
    assert (Hl : lo * norm <= p).
    { rewrite <- En, <- total_trapezoids_mult. apply total_trapezoids_le; [exact Gi|]. intros x Hx. pose proof (Wpos x (Hr x Hx)).
      destruct (Req_dec (W x) 0) as [->|]; [lra|]. destruct (Hb x (Hr x Hx)); [lra|]. apply Rmult_le_compat_r; lra. }
    assert (Hh : p <= hi * norm).
    { rewrite <- En, <- total_trapezoids_mult. apply total_trapezoids_le; [exact Gi|]. intros x Hx. pose proof (Wpos x (Hr x Hx)).
      destruct (Req_dec (W x) 0) as [->|]; [lra|]. destruct (Hb x (Hr x Hx)); [lra|]. apply Rmult_le_compat_r; lra. }
    split; apply Rmult_le_reg_r with norm; try exact Npos; unfold Rdiv; rewrite Rmult_assoc, Rinv_l, Rmult_1_r by lra; assumption.
Qed.
Print Assumptions effective_bias_mean.

(** A constant bias that is only sampled over a part of the window comes out too small: the window
    is normalised over all of its range, the product is taken over the common range. *)
Theorem effective_bias_range_refuted :
  ~ (forall z bz w b c, increasing z -> length z = length bz -> z <> [] -> (forall v, In v bz -> v = c) ->
       increasing (za w) -> length (za w) = length (wa w) -> (forall v, In v (wa w) -> 0 < v) ->
       effective_bias z bz w = Ok b -> b = c).
Proof.
  intro H.
  assert (E : effective_bias [0; 1] [1; 1] (Window [0; 2] [1; 1] 1) = Ok (1 / 2)).
  { unfold effective_bias. cbn [za wa].
    assert (Et : trapezoid [1; 1] [0; 2] = Ok 2) by (cbn; f_equal; lra).
    rewrite Et. cbn [bind].
    rewrite (product2 [0; 1] [1; 1] [0; 2] [1; 1]) with (x0 := 0) (xn := 1) (y0 := 0) (yn := 2);
      try reflexivity; try discriminate; try (apply increasing_two; [lra|]; apply increasing_one).
    cbn [bind].
    assert (Eb : between 0 2 [0; 1] = [0; 1]) by (cbn; rewrite !leb_true by lra; reflexivity).
    assert (Eb' : between 0 1 [0; 2] = [0]) by (cbn; rewrite (leb_false 2 1), !leb_true by lra; reflexivity).
    rewrite Eb, Eb'.
    assert (Eu : union1d [0; 1] [0] = [0; 1]).
    { unfold union1d. cbn. rewrite (ltb_false 1 0), (ltb_true 0 1) by lra. cbn. rewrite !(ltb_false 0 0) by lra. reflexivity. }
    rewrite Eu. cbn [map].
    assert (V : forall xs fs x, increasing xs -> length xs = length fs -> forall i, nth_error xs i = Some x -> nth_error fs i = Some 1 -> interp_value xs fs None None x = 1).
    { intros xs fs x Hx Hl i H1 H2. exact (value_through xs fs None None Hx Hl i x 1 H1 H2). }
    assert (I1 : increasing [0; 1]) by (apply increasing_two; [lra|]; apply increasing_one).
    assert (I2 : increasing [0; 2]) by (apply increasing_two; [lra|]; apply increasing_one).
    rewrite (V [0; 1] [1; 1] 0 I1 eq_refl 0%nat), (V [0; 1] [1; 1] 1 I1 eq_refl 1%nat), (V [0; 2] [1; 1] 0 I2 eq_refl 0%nat) by reflexivity.
    rewrite (value_segment [0; 2] [1; 1] None None 0 0 2 1 1 1) by (try reflexivity; try lra; apply increasing_nondecreasing, I2).
    cbn [combine trapezoids total]. unfold fdiv. destruct (Req_EM_T 2 0); [lra|]. f_equal. unfold total. cbn. field. }
  assert (Q := H [0; 1] [1; 1] (Window [0; 2] [1; 1] 1) (1 / 2) 1).
  assert (1 / 2 = 1); [|lra]. apply Q; try reflexivity; try discriminate; try exact E.
  - apply increasing_two; [lra|]; apply increasing_one.
  - cbn. intros v [<-|[<-|[]]]; reflexivity.
  - cbn. apply increasing_two; [lra|]; apply increasing_one.
  - cbn. intros v [<-|[<-|[]]]; lra.
Qed.
Print Assumptions effective_bias_range_refuted.

Example effective_bias_example :
  (* a bias that grows from 1 to 3 and a triangular window in the middle *)
  effective_bias [0; 2] [1; 3] (Window [0; 1; 2] [0; 1; 0] 1) = Ok 2.
Proof.
  unfold effective_bias. cbn [za wa].
  assert (Et : trapezoid [0; 1; 0] [0; 1; 2] = Ok 1) by (cbn; f_equal; lra).
  rewrite Et. cbn [bind].
  assert (I1 : increasing [0; 2]) by (apply increasing_two; [lra|]; apply increasing_one).
  assert (I2 : increasing [0; 1; 2]) by (repeat (apply increasing_two; [lra|]); apply increasing_one).
  rewrite (product2 [0; 2] [1; 3] [0; 1; 2] [0; 1; 0]) with (x0 := 0) (xn := 2) (y0 := 0) (yn := 2); try reflexivity; try discriminate; try assumption.
  cbn [bind].
  assert (Eb : between 0 2 [0; 2] = [0; 2]) by (cbn; rewrite !leb_true by lra; reflexivity).
  assert (Eb' : between 0 2 [0; 1; 2] = [0; 1; 2]) by (cbn; rewrite !leb_true by lra; reflexivity).
  rewrite Eb, Eb'.
  assert (Eu : union1d [0; 2] [0; 1; 2] = [0; 1; 2]).
  { unfold union1d. cbn.
    repeat (match goal with |- context [ltb ?a ?b] => first [rewrite (ltb_true a b) by lra | rewrite (ltb_false a b) by lra] end; cbn).
    reflexivity. }
  rewrite Eu. cbn [map].
  rewrite (value_through [0; 1; 2] [0; 1; 0] None None I2 eq_refl 0%nat 0 0 eq_refl eq_refl),
    (value_through [0; 1; 2] [0; 1; 0] None None I2 eq_refl 1%nat 1 1 eq_refl eq_refl),
    (value_through [0; 1; 2] [0; 1; 0] None None I2 eq_refl 2%nat 2 0 eq_refl eq_refl),
    (value_segment [0; 2] [1; 3] None None 0 0 2 1 3 1 (increasing_nondecreasing _ I1) eq_refl eq_refl eq_refl eq_refl eq_refl ltac:(lra)).
  cbn [combine trapezoids]. unfold fdiv. destruct (Req_EM_T 1 0); [lra|]. f_equal. unfold total. cbn. field.
Qed.

(** C40 *)

(** A displacement of modulus [a] and argument [g] goes the distance [a] along the great circle with
    bearing [g], from everywhere on the sphere, poles included. *)
Theorem displace_great_circle lon lat a g : 0 <= a ->
  let there := displace lon lat (a * cos g, a * sin g) in
  position there = along_great_circle (lon, lat) a g /\
  dot (position (lon, lat)) (position there) = cos a /\ -90 <= snd there <= 90.
Proof.
  intros Ha there. destruct (displace_position lon lat a g Ha) as [E L]. fold there in E, L.
  split; [exact E|]. split; [rewrite E; apply great_circle_distance|exact L].
Qed.
Print Assumptions displace_great_circle.

(** The displacement between two positions takes the one to the other along the shorter way. *)
Theorem displacement_reaches lon lat lon' lat' :
  let alpha := displacement lon lat lon' lat' in
  position (displace lon lat alpha) = position (lon', lat') /\
  Cmod alpha <= PI /\ cos (Cmod alpha) = dot (position (lon, lat)) (position (lon', lat')).
Proof.
  intro alpha. destruct (displacement_polar lon lat lon' lat') as (r & x & E & Hr & G). unfold alpha. rewrite E.
  assert (M : Cmod (r * cos x, r * sin x) = r).
  { transitivity (hypot (r * cos x) (r * sin x)); [unfold Cmod, hypot; cbn [fst snd]; f_equal; ring|]. apply hypot_eq; [lra|].
    pose proof (sc1 x). transitivity (r * r * (sin x * sin x + cos x * cos x)); [rewrite H; ring|ring]. }
  rewrite M. split; [|split; [lra|]].
  - rewrite <- G. apply displace_position. lra.
  - rewrite <- G, great_circle_distance. reflexivity.
Qed.
Print Assumptions displacement_reaches.

(** And it gives back every displacement shorter than half a turn. *)
Theorem displacement_of_displace lon lat (alpha : C) : Cmod alpha < PI ->
  let there := displace lon lat alpha in displacement lon lat (fst there) (snd there) = alpha.
Proof.
  intro H. destruct (polar_form alpha) as (a & g & Ha & Em & E). rewrite E. apply displacement_inverse. lra.
Qed.
Print Assumptions displacement_of_displace.

Example displace_example :
  (* a quarter turn to the east from the equator, and from the north pole along the meridian of 180 degrees *)
  position (displace 0 0 (0, PI / 2)) = (0, 1, 0) /\ position (displace 0 90 (PI / 2, 0)) = (-1, 0, 0).
Proof.
  pose proof PI_RGT_0. split.
  - replace ((0, PI / 2) : C) with ((PI / 2 * cos (PI / 2), PI / 2 * sin (PI / 2)) : C) by (rewrite cos_PI2, sin_PI2; apply f_equal2; ring).
    rewrite (proj1 (displace_position 0 0 (PI / 2) (PI / 2) ltac:(lra))).
    unfold along_great_circle, position, north, east, vplus, vscale, angle. cbn [fst snd].
    replace (0 * PI / 180) with 0 by field. rewrite cos_PI2, sin_PI2, cos_0, sin_0. apply f_equal2; [apply f_equal2|]; ring.
  - replace ((PI / 2, 0) : C) with ((PI / 2 * cos 0, PI / 2 * sin 0) : C) by (rewrite cos_0, sin_0; apply f_equal2; ring).
    rewrite (proj1 (displace_position 0 90 (PI / 2) 0 ltac:(lra))).
    unfold along_great_circle, position, north, east, vplus, vscale, angle. cbn [fst snd].
    replace (0 * PI / 180) with 0 by field. replace (90 * PI / 180) with (PI / 2) by field.
    rewrite cos_PI2, sin_PI2, cos_0, sin_0. apply f_equal2; [apply f_equal2|]; ring.
Qed.

(** C41 *)

(** A deflection goes the distance [a] with bearing [-g]: it is the displacement by the complex
    conjugate. *)
Theorem deflect_conjugate lon lat a g : 0 <= a ->
  let there := deflect lon lat (a * cos g, a * sin g) in
  position there = along_great_circle (lon, lat) a (- g) /\
  position there = position (displace lon lat (Cconj (a * cos g, a * sin g))) /\
  dot (position (lon, lat)) (position there) = cos a /\ -90 <= snd there <= 90.
Proof.
  intros Ha there. destruct (deflect_position lon lat a g Ha) as [E L]. fold there in E, L.
  split; [exact E|]. split; [|split; [rewrite E; apply great_circle_distance|exact L]].
  replace (Cconj (a * cos g, a * sin g)) with ((a * cos (- g), a * sin (- g)) : C) by (unfold Cconj; cbn [fst snd]; rewrite cos_neg, sin_neg; apply f_equal2; ring).
  rewrite E. symmetry. apply displace_position, Ha.
Qed.
Print Assumptions deflect_conjugate.

(** No deflection changes nothing, not even the numbers. *)
Theorem deflect_zero lon lat : -90 <= lat <= 90 -> deflect lon lat (0, 0) = (lon, lat).
Proof.
  intro H. pose proof PI_RGT_0. unfold deflect, navigate. cbn [fst snd].
  rewrite (hypot_eq 0 0 0) by lra.
  assert (E0 : atan2 0 0 = 0) by (unfold atan2; repeat (destruct (Rlt_dec _ _); try lra)).
  rewrite E0, sin_0, cos_0, angle_radians.
  assert (Hr : - (PI / 2) <= angle lat <= PI / 2) by (unfold angle; split; nra).
  assert (Hc : 0 <= cos (angle lat)) by (apply cos_ge_0; lra).
  assert (Ed : atan2 (0 * 0) (cos (angle lat) * 1 - sin (angle lat) * 0 * 1) = 0).
  { replace (0 * 0) with 0 by ring. unfold atan2. destruct (Rlt_dec _ _) as [L|L].
    - unfold Rdiv. rewrite Rmult_0_l. apply atan_0.
    - destruct (Rlt_dec _ _); [lra|]. destruct (Rlt_dec 0 0); lra. }
  rewrite Ed. rewrite (hypot_eq (cos (angle lat))) by (lra || ring).
  replace (sin (angle lat) * 1 + cos (angle lat) * 0 * 1) with (sin (angle lat)) by ring.
  assert (Et : atan2 (sin (angle lat)) (cos (angle lat)) = angle lat).
  { destruct (Rle_dec 0 (angle lat)); [apply atan2_sin_cos; lra|].
    unfold atan2. destruct (Req_dec (angle lat) (- (PI / 2))) as [->|N].
    - rewrite cos_neg, sin_neg, cos_PI2, sin_PI2. repeat (destruct (Rlt_dec _ _); try lra).
    - assert (0 < cos (angle lat)) by (apply cos_gt_0; lra). destruct (Rlt_dec _ _); [|lra].
      change (sin (angle lat) / cos (angle lat)) with (tan (angle lat)). apply atan_tan. lra. }
  rewrite Et. unfold degrees, angle. apply f_equal2; field; lra.
Qed.
Print Assumptions deflect_zero.

(** The documentation defines deflections and displacements by the same bearing, with 90 degrees for
    east; as [deflect] goes to smaller longitudes where [displace] goes to larger ones, only one of
    them can follow it. *)
Theorem deflect_bearing_refuted :
  ~ (forall lon lat a g, 0 <= a -> position (deflect lon lat (a * cos g, a * sin g)) = along_great_circle (lon, lat) a g).
Proof.
  intro H. pose proof PI_RGT_0. specialize (H 0 0 (PI / 2) (PI / 2) ltac:(lra)).
  rewrite (proj1 (deflect_position 0 0 (PI / 2) (PI / 2) ltac:(lra))) in H.
  unfold along_great_circle, position, north, east, vplus, vscale, angle in H. cbn [fst snd] in H.
  replace (0 * PI / 180) with 0 in H by field. rewrite cos_neg, sin_neg, cos_PI2, sin_PI2, cos_0, sin_0 in H.
  injection H as H1 H2 H3. lra.
Qed.
Print Assumptions deflect_bearing_refuted.

Example deflect_example :
  (* a quarter turn "to the east" from the equator *)
  position (deflect 0 0 (0, PI / 2)) = (0, -1, 0) /\ deflect 30 60 (0, 0) = (30, 60).
Proof.
  pose proof PI_RGT_0. split; [|apply deflect_zero; lra].
  replace ((0, PI / 2) : C) with ((PI / 2 * cos (PI / 2), PI / 2 * sin (PI / 2)) : C) by (rewrite cos_PI2, sin_PI2; apply f_equal2; ring).
  rewrite (proj1 (deflect_position 0 0 (PI / 2) (PI / 2) ltac:(lra))).
  unfold along_great_circle, position, north, east, vplus, vscale, angle. cbn [fst snd].
  replace (0 * PI / 180) with 0 by field. rewrite cos_neg, sin_neg, cos_PI2, sin_PI2, cos_0, sin_0. apply f_equal2; [apply f_equal2|]; ring.
Qed.
