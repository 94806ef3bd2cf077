From Verif Require Import RSum Model_Spectra Spec_Spectra Proof_Spectra Model_Fields Spec_Fields Proof_Fields
  Model_Iternorm Spec_Iternorm Proof_Iternorm Spec_Grf.
Local Open Scope nat_scope.

Lemma triangle_fun' n t t' : triangle n t -> triangle n t' -> t = t'.
Proof. unfold triangle. lia. Qed.

Lemma glass_alm_lt n t g l m : triangle n t -> in_glass_alm_order g l m -> l < n -> g < t.
Proof. unfold triangle, in_glass_alm_order. intros H [H1 H2] H3. nia. Qed.

Lemma scaled_mode w n z p : lead w = n -> triangle n (length z) ->
  exists r, multalm scale z (map (fun l => el w l p) (seq 0 (lead w))) = Ok r /\ length r = length z /\
    forall g l m, in_glass_alm_order g l m -> l < n ->
      nth_error r g = Some ((el w l p * re z g)%R, (el w l p * im z g)%R).
Proof.
  intros Hn Hz.
  destruct (multalm_modes scale z (map (fun l => el w l p) (seq 0 (lead w)))) as (r & E & Hl & Hm).
  - rewrite map_length, seq_length, Hn. exact Hz.
  - exists r. split; [exact E|]. split; [exact Hl|]. intros g l m Hg Hlt.
    pose proof (glass_alm_lt _ _ _ _ _ Hz Hg Hlt) as Hgl.
    destruct (nth_error z g) as [a|] eqn:Ea; [|apply nth_error_None in Ea; lia].
    rewrite (Hm g l m a (el w l p) Hg Ea).
    + unfold scale, re, im. rewrite (nth_error_nth _ _ _ Ea). rewrite !(Rmult_comm (el w l p)). reflexivity.
    + rewrite nth_error_map, Hn, nth_error_seq, (proj2 (Nat.ltb_lt _ _) Hlt). reflexivity.
Qed.

Lemma sum_alm_ok w n mis : lead w = n -> forall y o, y <> [] -> (forall z, In z y -> triangle n (length z)) ->
  exists r, sum_alm w mis (combine (seq o (length y)) y) = Ok r /\ triangle n (length r) /\
    forall g l m, in_glass_alm_order g l m -> l < n ->
      nth_error r g = Some (rsum (length y) (fun p => (el w l (o + p + mis)%nat * re (nth p y []) g)%R),
                            rsum (length y) (fun p => (el w l (o + p + mis)%nat * im (nth p y []) g)%R)).
Proof.
  intros Hn y. induction y as [|z y IH]; intros o Hne Hy; [contradiction|]. clear Hne.
  assert (Hz : triangle n (length z)) by (apply Hy; left; reflexivity).
  destruct (scaled_mode w n z (o + mis) Hn Hz) as (t & Et & Lt & Ht).
  destruct y as [|z' y].
  - exists t. cbn [length seq combine sum_alm]. split; [exact Et|]. split; [rewrite Lt; exact Hz|].
    intros g l m Hg Hl. rewrite (Ht g l m Hg Hl). cbn [rsum nth]. rewrite Nat.add_0_r, !Rplus_0_l. reflexivity.
  - destruct (IH (S o)) as (r & Er & Lr & Hr); [discriminate|intros x Hx; apply Hy; right; exact Hx|].
    set (Y := z' :: y) in *. cbn [length seq combine].
    assert (Es : sum_alm w mis ((o, z) :: combine (seq (S o) (length Y)) Y) =
       do t <- multalm scale z (map (fun l => el w l (o + mis)) (seq 0 (lead w)));
       do r <- sum_alm w mis (combine (seq (S o) (length Y)) Y); vadd t r) by reflexivity.
    rewrite Es, Et, Er. cbn [bind]. unfold vadd.
    assert (El : length t = length r) by (rewrite Lt; eapply triangle_fun'; eassumption).
    rewrite (proj2 (Nat.eqb_eq _ _) El). eexists. split; [reflexivity|]. split.
    + rewrite map_length, combine_length, <- El, Nat.min_id, Lt. exact Hz.
    + intros g l m Hg Hl. rewrite nth_error_map, nth_error_combine, (Ht g l m Hg Hl), (Hr g l m Hg Hl). cbn [option_map cadd fst snd].
      rewrite !(rsum_S_l (length Y)), Nat.add_0_r. cbn [nth]. unfold cadd. cbn [fst snd]. f_equal. f_equal; f_equal.
      * apply rsum_ext. intros p _. replace (o + S p) with (S o + p) by lia. reflexivity.
      * apply rsum_ext. intros p _. replace (o + S p) with (S o + p) by lia. reflexivity.
Qed.

Lemma healpix_m0 n h l m : in_healpix_alm_order n h l m -> (h < n <-> m = 0).
Proof.
  unfold in_healpix_alm_order. intros [[H1 H2] H3]. split; intro H.
  - destruct m as [|m]; [reflexivity|]. exfalso.
    assert (E : exists s, n = m + s + 2) by (exists (n - m - 2); lia). destruct E as (s & ->).
    replace (2 * (m + s + 2) - 1 - S m) with (m + 2 * s + 2) in H3 by lia. nia.
  - subst m. lia.
Qed.

Lemma finish_alm_ok n alm : triangle n (length alm) ->
  exists out, finish_alm n alm = Ok out /\ length out = length alm /\
    forall h g l m z, in_healpix_alm_order n h l m -> in_glass_alm_order g l m -> nth_error alm g = Some z ->
      nth_error out h = Some (if m =? 0 then ((fst z + snd z)%R, 0%R) else z).
Proof.
  intro Hn. destruct (alm_reorder alm n Hn) as (a & Ea & La & Ha).
  unfold finish_alm. rewrite Ea. cbn [bind]. eexists. split; [reflexivity|].
  assert (Hnl : n <= length a) by (rewrite La; unfold triangle in Hn; nia).
  split.
  - rewrite app_length, map_length, firstn_length, skipn_length. lia.
  - intros h g l m z Hh Hg Hz. rewrite nth_error_app, map_length, firstn_length, Nat.min_l by exact Hnl.
    pose proof (healpix_m0 n h l m Hh) as H0. destruct (Nat.ltb_spec h n) as [H|H].
    + rewrite (proj2 (Nat.eqb_eq m 0) (proj1 H0 H)), nth_error_map, nth_error_firstn.
       rewrite (proj2 (Nat.ltb_lt h n) H). rewrite (Ha h g l m Hh Hg), Hz. reflexivity.
    + destruct (Nat.eqb_spec m 0) as [E|E]; [apply H0 in E; lia|].
      rewrite nth_error_skipn. replace (n + (h - n)) with h by lia. rewrite (Ha h g l m Hh Hg). exact Hz.
Qed.

Section Loop.
  Context {M : Type} (alm2map : list C2 -> M).
  Variables (n K : nat) (draws : nat -> list C2) (W : list stack) (e : option exn).
  Hypothesis Hd : forall i, triangle n (length (draws i)).
  Hypothesis HK : 0 < K.

  Definition kept (i : nat) : list (list C2) := map draws (seq (i - Nat.min i K) (Nat.min i K)).

  Lemma kept_next i : let y := kept i ++ [draws i] in skipn (length y - K) y = kept (S i).
  Proof.
    cbv zeta. unfold kept. rewrite app_length, map_length, seq_length. cbn [length].
    assert (E : map draws (seq (i - Nat.min i K) (Nat.min i K)) ++ [draws i] = map draws (seq (i - Nat.min i K) (Nat.min i K + 1))).
    { rewrite Nat.add_1_r, seq_S, map_app. cbn [map]. do 3 f_equal. lia. }
    rewrite E, skipn_map, skipn_seq. f_equal. f_equal; lia.
  Qed.
  Lemma kept_length i : length (kept i) = Nat.min i K.
  Proof. unfold kept. rewrite map_length, seq_length. reflexivity. Qed.
  Lemma kept_nth i p : p < Nat.min i K -> nth p (kept i) [] = draws (i - Nat.min i K + p).
  Proof.
    intro Hp. apply nth_error_nth. unfold kept. rewrite nth_error_map, nth_error_seq, (proj2 (Nat.ltb_lt _ _) Hp). reflexivity.
  Qed.
  Lemma kept_In i z : In z (kept i) -> triangle n (length z).
  Proof. unfold kept. rewrite in_map_iff. intros (q & <- & _). apply Hd. Qed.

  Lemma grf_run : forall ws i,
    (forall j w, nth_error ws j = Some w -> lead w = n /\ width w = K) ->
    let '(out, e') := grf_loop alm2map n draws i (kept i) ws e in
    e' = e /\ length out = length ws /\
    forall j map y, nth_error out j = Some (map, y) -> exists w alm,
      nth_error ws j = Some w /\ map = alm2map alm /\ triangle n (length alm) /\ y = kept (S (i + j)) /\
      forall h g l m, in_healpix_alm_order n h l m -> in_glass_alm_order g l m ->
        nth_error alm h = Some (mixed (S (i + j)) (coefficient (K - 1) (el w l) (i + j)) draws g m).
  Proof.
    induction ws as [|w ws IH]; intros i Hw.
    - cbn. split; [reflexivity|]. split; [reflexivity|]. intros j ? ? H. destruct j; discriminate.
    - cbn [grf_loop]. destruct (Hw 0 w eq_refl) as (Hl & Hwd). rewrite Hwd.
      rewrite kept_next. unfold enum.
      destruct (sum_alm_ok w n (K - length (kept (S i))) Hl (kept (S i)) 0) as (r & Er & Lr & Hr).
      + intro H. apply (f_equal (@length _)) in H. rewrite kept_length in H. cbn [length] in H. lia.
      + intros z Hz. exact (kept_In _ _ Hz).
      + rewrite Er. cbn [bind]. destruct (finish_alm_ok n r Lr) as (alm & Ea & La & Ha). rewrite Ea.
        specialize (IH (i + 1)). replace (kept (i + 1)) with (kept (S i)) in IH by (rewrite Nat.add_1_r; reflexivity).
        destruct (grf_loop alm2map n draws (i + 1) (kept (S i)) ws e) as [out e'].
        destruct IH as (I1 & I2 & I3); [intros j x Hj; exact (Hw (S j) x Hj)|].
        cbn [yield_then]. split; [exact I1|]. split; [cbn [fst length]; rewrite I2; reflexivity|].
        intros j mp y Hj. destruct j as [|j].
        * cbn in Hj. injection Hj as <- <-. exists w, alm. split; [reflexivity|]. split; [reflexivity|].
          split; [rewrite La; exact Lr|]. rewrite Nat.add_0_r. split; [reflexivity|].
          intros h g l m Hh Hg.
          assert (Hln : l < n) by (destruct Hh; lia).
          rewrite (Ha h g l m _ Hh Hg (Hr g l m Hg Hln)). cbn [fst snd].
          assert (S1 : forall part : list C2 -> nat -> R,
            rsum (length (kept (S i))) (fun p => (el w l (0 + p + (K - length (kept (S i))))%nat * part (nth p (kept (S i)) []) g)%R)
            = rsum (S i) (fun q => (coefficient (K - 1) (el w l) i q * part (draws q) g)%R)).
          { intro part. rewrite kept_length. set (t := Nat.min (S i) K) in *.
            rewrite (rsum_ext t _ (fun p => (el w l (0 + p + (K - t))%nat * part (draws (S i - t + p)) g)%R)).
            - transitivity (rsum ((S i - t) + t) (fun q => (coefficient (K - 1) (el w l) i q * part (draws q) g)%R));
                [|f_equal; lia].
              rewrite rsum_split, (rsum_zero (S i - t)), Rplus_0_l.
              + apply rsum_ext. intros p Hp. unfold coefficient.
                rewrite (proj2 (Nat.leb_le i (S i - t + p + (K - 1)))) by lia.
                rewrite (proj2 (Nat.leb_le (S i - t + p) i)) by lia. cbn [andb].
                replace (0 + p + (K - t)) with (S i - t + p + (K - 1) - i) by lia. reflexivity.
              + intros q Hq. unfold coefficient. destruct (Nat.leb_spec i (q + (K - 1))) as [H|H]; [lia|]. cbn. lra.
            - intros p Hp. rewrite kept_nth by exact Hp. reflexivity. }
          rewrite (S1 re), (S1 im). unfold mixed. destruct (m =? 0); reflexivity.
        * destruct (I3 j mp y Hj) as (w' & alm' & A1 & A2 & A3 & A4 & A5). exists w', alm'.
          replace (i + S j) with (i + 1 + j) by lia. auto.
  Qed.
End Loop.

Lemma iter_step_error st row x : iter_step st row = Err x -> x = ValueError.
Proof.
  unfold iter_step, finish. destruct (width row =? 0); [congruence|]. destruct st as [st|].
  - destruct (negb _); [congruence|]. destruct (_ <? _); [congruence|]. destruct (existsb _ _); congruence.
  - destruct (existsb _ _); congruence.
Qed.

Lemma iter_rows_error : forall rows st e0 x, snd (iter_rows st rows e0) = Some x ->
  e0 = None \/ e0 = Some ValueError -> x = ValueError.
Proof.
  induction rows as [|row rows IH]; intros st e0 x H He; cbn in H.
  - destruct He; congruence.
  - destruct (iter_step st row) as [[st' w]|y] eqn:E.
    + cbn in H. exact (IH _ _ _ H He).
    + cbn in H. injection H as <-. exact (iter_step_error _ _ _ E).
Qed.

Lemma negative_auto_dec {A} (neg : A -> bool) cls j :
  negative_auto neg cls j \/ ~ negative_auto neg cls j.
Proof.
  pose proof (in_order_exists j j (le_n j)) as Hk. set (k := j * (j + 1) / 2 + j - j) in Hk.
  destruct (nth_error cls k) as [cl|] eqn:E.
  - destruct (existsb neg cl) eqn:X.
    + left. apply existsb_exists in X as (x & H1 & H2). exists cl, x.
      split; [exists k; rewrite Nat.max_id, Nat.min_id; auto|auto].
    + right. intros (cl' & x & (k' & Hk' & E') & H1 & H2). rewrite Nat.max_id, Nat.min_id in Hk'.
      rewrite (in_order_inj _ _ _ _ Hk' Hk), E in E'. injection E' as <-.
      assert (existsb neg cl = true) by (apply existsb_exists; eauto). congruence.
  - right. intros (cl' & x & (k' & Hk' & E') & _). rewrite Nat.max_id, Nat.min_id in Hk'.
    rewrite (in_order_inj _ _ _ _ Hk' Hk), E in E'. discriminate.
Qed.

Lemma first_negative {A} (neg : A -> bool) cls nf : exists m, m <= nf /\
  (forall i, i < m -> ~ negative_auto neg cls i) /\ (m < nf -> negative_auto neg cls m).
Proof.
  induction nf as [|nf (m & H1 & H2 & H3)].
  - exists 0. split; [lia|]. split; intros; lia.
  - destruct (Nat.eq_dec m nf) as [->|Hne].
    + destruct (negative_auto_dec neg cls nf) as [H|H].
      * exists nf. split; [lia|]. auto.
      * exists (S nf). split; [lia|]. split; [|lia]. intros i Hi.
        destruct (Nat.eq_dec i nf) as [->|]; [exact H|apply H2; lia].
    + exists m. split; [lia|]. split; [exact H2|]. intros _. apply H3. lia.
Qed.

Lemma covariance_row_entry gls nl nc j row : covariance_row 0%R (fun x => (x / 2)%R) gls nl nc j row ->
  forall d l cl, d <= nc -> d <= j -> l < nl -> spectrum_of gls j (j - d) cl ->
    el (stack_of_columns nl row) l d = (mode 0 cl l / 2)%R.
Proof.
  intros (_ & H) d l cl Hd Hj Hl Hcl. destruct (H d Hd) as (col & Hc & _ & He). cbn [stack_of_columns el].
  rewrite (nth_error_nth _ _ _ Hc). destruct (He l Hl) as [[_ C]|(cl' & _ & Hs & E)]; [lia|].
  rewrite (spectrum_unique _ _ _ _ _ Hcl Hs). exact (nth_error_nth _ _ _ E).
Qed.

Lemma rows_of_spectra gls ngrf n c : triangle ngrf (length gls) -> longest gls n ->
  exists rows e0,
    (let cov := cls2cov 0%R (fun x => (x / 2)%R) negative gls n ngrf c in
     (map (stack_of_columns n) (fst cov), snd cov)) = (rows, e0) /\
    length rows <= ngrf /\ (length rows = ngrf -> e0 = None) /\ (length rows < ngrf -> e0 = Some ValueError) /\
    ((forall i, i < ngrf -> ~ negative_auto negative gls i) -> length rows = ngrf) /\
    forall j row, nth_error rows j = Some row -> lead row = n /\ width row = c + 1 /\
      forall d l cl, d <= c -> d <= j -> l < n -> spectrum_of gls j (j - d) cl ->
        el row l d = (mode 0 cl l / 2)%R.
Proof.
  intros Ht (Hlen & _). destruct (first_negative negative gls ngrf) as (m & H1 & H2 & H3).
  pose proof (cls2cov_ok 0%R (fun x => (x / 2)%R) negative ltac:(cbv beta; field) gls ngrf n c m Ht Hlen H1 H2 H3) as H.
  destruct (cls2cov _ _ _ _ _ _ _) as [rows e0]. destruct H as (L & Hrow & He). cbn [fst snd].
  exists (map (stack_of_columns n) rows), e0. split; [reflexivity|]. rewrite map_length, L.
  split; [exact H1|].
  split. { intro E. rewrite He, E, Nat.ltb_irrefl. reflexivity. }
  split. { intro E. rewrite He, (proj2 (Nat.ltb_lt _ _) E). reflexivity. }
  split. { intro Hn. destruct (Nat.eq_dec m ngrf) as [E|E]; [exact E|]. exfalso. apply (Hn m); [lia|]. apply H3. lia. }
  intros j row Hj. rewrite nth_error_map in Hj. destruct (nth_error rows j) as [r|] eqn:E; [|discriminate].
  injection Hj as <-. specialize (Hrow j r E). split; [reflexivity|].
  split; [exact (proj1 Hrow)|]. intros d l cl Hd1 Hd2 Hl Hcl. exact (covariance_row_entry gls n c j r Hrow d l cl Hd1 Hd2 Hl Hcl).
Qed.

Lemma spectrum_of_sym {A} (cls : list (list A)) i j cl : spectrum_of cls i j cl <-> spectrum_of cls j i cl.
Proof. unfold spectrum_of. rewrite (Nat.max_comm i j), (Nat.min_comm i j). reflexivity. Qed.

Lemma doubled_covariance N c c' m : covariance (2 * N) (real_part_coefficients N c m) (real_part_coefficients N c' m)
  = if m =? 0 then (2 * covariance N c c')%R else covariance N c c'.
Proof.
  unfold covariance. replace (2 * N) with (N + N) by lia. rewrite rsum_split.
  rewrite (rsum_ext N _ (fun q => (c q * c' q)%R)).
  2:{ intros q Hq. unfold real_part_coefficients. rewrite (proj2 (Nat.ltb_lt _ _) Hq). reflexivity. }
  rewrite (rsum_ext N (fun i => _ (N + i)%nat * _)%R (fun q => if m =? 0 then (c q * c' q)%R else 0%R)).
  2:{ intros q Hq. unfold real_part_coefficients. rewrite (proj2 (Nat.ltb_ge _ _)) by lia.
      replace (N + q - N) with q by lia. destruct (m =? 0); [reflexivity|lra]. }
  destruct (m =? 0); [lra|]. rewrite (rsum_zero N (fun _ => 0%R)) by reflexivity. lra.
Qed.

Lemma real_part_sum N c draws g m :
  fst (mixed N c draws g m)
  = rsum (2 * N) (fun q => (real_part_coefficients N c m q * (if (q <? N)%nat then re (draws q) g else im (draws (q - N)%nat) g))%R).
Proof.
  replace (2 * N) with (N + N) by lia. rewrite rsum_split. unfold mixed.
  rewrite (rsum_ext N (fun q => real_part_coefficients N c m q * _)%R (fun q => (c q * re (draws q) g)%R)).
  2:{ intros q Hq. unfold real_part_coefficients. rewrite (proj2 (Nat.ltb_lt _ _) Hq). reflexivity. }
  rewrite (rsum_ext N (fun i => _ (N + i)%nat * _)%R (fun q => if m =? 0 then (c q * im (draws q) g)%R else 0%R)).
  2:{ intros q Hq. unfold real_part_coefficients. rewrite (proj2 (Nat.ltb_ge _ _)) by lia.
      replace (N + q - N) with q by lia. destruct (m =? 0); [reflexivity|lra]. }
  destruct (m =? 0); [reflexivity|]. cbn [fst]. rewrite (rsum_zero N (fun _ => 0%R)) by reflexivity. lra.
Qed.
