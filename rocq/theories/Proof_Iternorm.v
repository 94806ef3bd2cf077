From Verif Require Import RSum Model_Spectra Model_Fields Model_Iternorm Spec_Iternorm.
Local Open Scope nat_scope.

Definition delta (i j : nat) : R := if i =? j then 1%R else 0%R.

Lemma delta_same i : delta i i = 1%R.
Proof. unfold delta. rewrite Nat.eqb_refl. reflexivity. Qed.
Lemma delta_diff i j : i <> j -> delta i j = 0%R.
Proof. intro H. unfold delta. destruct (Nat.eqb_spec i j); [contradiction|reflexivity]. Qed.
Lemma rsum_delta_r n k f : k < n -> rsum n (fun i => (f i * delta i k)%R) = f k.
Proof.
  intro H. rewrite (rsum_single n k); [rewrite delta_same; lra|exact H|].
  intros i _ Hne. rewrite delta_diff by exact Hne. lra.
Qed.
Lemma rsum_delta_l n k f : k < n -> rsum n (fun i => (f i * delta k i)%R) = f k.
Proof.
  intro H. rewrite (rsum_single n k); [rewrite delta_same; lra|exact H|].
  intros i _ Hne. rewrite delta_diff by auto. lra.
Qed.

(** Coefficient at window position [b] of the field at window position [p]. *)
Definition wcoef (k : nat) (w : nat -> R) (p b : nat) : R :=
  if (p <=? b + k) && (b <=? p) then w (b + k - p) else 0%R.

Lemma wcoef_shift k w p b o : wcoef k w (p + o) (b + o) = wcoef k w p b.
Proof.
  unfold wcoef. replace (b + o + k - (p + o)) with (b + k - p) by lia.
  destruct (Nat.leb_spec (p + o) (b + o + k)), (Nat.leb_spec p (b + k)); try lia; cbn; [|reflexivity].
  destruct (Nat.leb_spec (b + o) (p + o)), (Nat.leb_spec b p); try lia; reflexivity.
Qed.
Lemma wcoef_upper k w p b : p < b -> wcoef k w p b = 0%R.
Proof. intro H. unfold wcoef. destruct (Nat.leb_spec b p); [lia|]. rewrite andb_false_r. reflexivity. Qed.
Lemma wcoef_coefficient k w i q : coefficient k w i q = wcoef k w i q.
Proof. reflexivity. Qed.

(** Past outputs: [ks f], [ws f] give the order and the weights for field [f].
    [inv i K M]: [M] (K by K) inverts the coefficients of the [K] fields before [i]. *)
Section Inv.
  Variable ks : nat -> nat.
  Variable ws : nat -> nat -> R.

  Record inv (i K : nat) (M : nat -> nat -> R) : Prop := {
    inv_lower : forall b e, b < K -> e < K -> b < e -> M b e = 0%R;
    inv_missing : forall b e, b < K -> e < K -> b + i < K -> M b e = 0%R;
    inv_left : forall p e, p < K -> e < K -> K <= p + i ->
      rsum K (fun b => (wcoef (ks (i + p - K)) (ws (i + p - K)) p b * M b e)%R) = delta p e;
    inv_right : forall p e, p < K -> e < K -> K <= p + i ->
      rsum K (fun b => (M p b * (if K <=? b + i then wcoef (ks (i + b - K)) (ws (i + b - K)) b e else 0))%R) = delta p e }.

  Lemma inv_start k : inv 0 k (fun _ _ => 0%R).
  Proof. split; intros; try reflexivity; lia. Qed.

  Lemma inv_trim i K k M : k <= K -> inv i K M ->
    inv i k (fun b e => M (b + (K - k)) (e + (K - k))).
  Proof.
    intros Hk [H1 H2 H3 H4]. set (o := K - k). assert (Eo : K = o + k) by (unfold o; lia).
    split.
    - intros b e Hb He Hl. apply H1; lia.
    - intros b e Hb He Hl. apply H2; lia.
    - intros p e Hp He Hl. specialize (H3 (p + o) (e + o) ltac:(lia) ltac:(lia) ltac:(lia)).
      rewrite Eo, rsum_split, rsum_zero, Rplus_0_l in H3.
      + replace (delta p e) with (delta (p + o) (e + o)); [rewrite <- H3|].
        * apply rsum_ext. intros b Hb. replace (o + b) with (b + o) by lia.
          rewrite wcoef_shift. replace (i + (p + o) - (o + k)) with (i + p - k) by lia. reflexivity.
        * unfold delta. destruct (Nat.eqb_spec (p + o) (e + o)), (Nat.eqb_spec p e); try lia; reflexivity.
      + intros b Hb. rewrite H1 by lia. lra.
    - intros p e Hp He Hl. specialize (H4 (p + o) (e + o) ltac:(lia) ltac:(lia) ltac:(lia)).
      rewrite Eo, rsum_split, rsum_zero, Rplus_0_l in H4.
      + replace (delta p e) with (delta (p + o) (e + o)); [rewrite <- H4|].
        * apply rsum_ext. intros b Hb. replace (o + b) with (b + o) by lia.
          rewrite wcoef_shift. replace (i + (b + o) - (o + k)) with (i + b - k) by lia.
          destruct (Nat.leb_spec k (b + i)), (Nat.leb_spec (o + k) (b + o + i)); try lia; reflexivity.
        * unfold delta. destruct (Nat.eqb_spec (p + o) (e + o)), (Nat.eqb_spec p e); try lia; reflexivity.
      + intros b Hb. destruct (_ <=? _); [rewrite wcoef_upper by lia|]; lra.
  Qed.

  Section Step.
    Variables (i k : nat) (M : nat -> nat -> R) (c a : nat -> R) (s : R).
    Hypothesis HI : inv i k M.
    Hypothesis Ha : forall b, b < k -> a b = rsum k (fun e => (M b e * c e)%R).
    Hypothesis Hs : (0 < s)%R.
    Hypothesis Hk : ks i = k.
    Hypothesis Hw : forall b, b <= k -> ws i b = if b <? k then a b else s.

    Lemma step_missing b : b < k -> b + i < k -> a b = 0%R.
    Proof.
      intros Hb Hm. rewrite Ha by exact Hb. apply rsum_zero. intros e He.
      rewrite (inv_missing _ _ _ HI) by assumption. lra.
    Qed.

    Lemma step_cov p : p < k -> k <= p + i ->
      rsum k (fun b => (a b * wcoef (ks (i + p - k)) (ws (i + p - k)) p b)%R) = c p.
    Proof.
      intros Hp Hm.
      rewrite (rsum_ext k _ (fun b => rsum k (fun e => (c e * (wcoef (ks (i + p - k)) (ws (i + p - k)) p b * M b e))%R))).
      - rewrite rsum_swap.
        rewrite (rsum_ext k _ (fun e => (c e * delta p e)%R)).
        + apply rsum_delta_l. exact Hp.
        + intros e He. rewrite rsum_scal, (inv_left _ _ _ HI p e Hp He Hm). reflexivity.
      - intros b Hb. rewrite Ha by exact Hb. rewrite <- rsum_scal_r. apply rsum_ext. intros e _. ring.
    Qed.

    Lemma wcoef_last b : b <= k -> wcoef k (ws i) k b = if b <? k then a b else s.
    Proof.
      intro Hb. unfold wcoef. rewrite (proj2 (Nat.leb_le k (b + k))) by lia.
      rewrite (proj2 (Nat.leb_le b k)) by lia. cbn. replace (b + k - k) with b by lia. apply Hw; exact Hb.
    Qed.

    Lemma extend_top b e : b < k -> extend k M a s b e = if e <? k then M b e else 0%R.
    Proof. intro H. unfold extend. rewrite (proj2 (Nat.ltb_lt _ _) H). reflexivity. Qed.
    Lemma extend_bottom e : extend k M a s k e =
      if e <? k then (- rsum k (fun b => (a b * M b e)%R) / s)%R else (1 / s)%R.
    Proof.
      unfold extend. rewrite Nat.ltb_irrefl. destruct (Rlt_dec 0 s) as [_|H]; [|contradiction].
      destruct (e <? k); reflexivity.
    Qed.

    Lemma inv_extend : inv (i + 1) (k + 1) (extend k M a s).
    Proof.
      split.
      - intros b e Hb He Hl. rewrite extend_top by lia.
        destruct (Nat.ltb_spec e k); [apply (inv_lower _ _ _ HI); lia|reflexivity].
      - intros b e Hb He Hl. rewrite extend_top by lia.
        destruct (Nat.ltb_spec e k); [apply (inv_missing _ _ _ HI); lia|reflexivity].
      - intros p e Hp He Hl. replace (i + 1 + p - (k + 1)) with (i + p - k) by lia.
        rewrite (Nat.add_1_r k). cbn [rsum]. destruct (Nat.eq_dec p k) as [->|Hne].
        + replace (i + k - k) with i by lia. rewrite Hk, wcoef_last, Nat.ltb_irrefl, extend_bottom by lia.
          rewrite (rsum_ext k _ (fun b => (a b * (if (e <? k)%nat then M b e else 0))%R)).
          2:{ intros b Hb. rewrite wcoef_last, extend_top by lia. rewrite (proj2 (Nat.ltb_lt _ _) Hb). reflexivity. }
          destruct (Nat.ltb_spec e k) as [Hek|Hek].
          * rewrite delta_diff by lia. set (S0 := rsum k _). field_simplify; [lra|lra].
          * replace e with k by lia. rewrite delta_same, rsum_zero by (intros; lra). field. lra.
        + rewrite (wcoef_upper _ _ p k) by lia. rewrite Rmult_0_l, Rplus_0_r.
          rewrite (rsum_ext k _ (fun b => (wcoef (ks (i + p - k)) (ws (i + p - k)) p b * (if (e <? k)%nat then M b e else 0))%R)).
          2:{ intros b Hb. rewrite extend_top by lia. reflexivity. }
          destruct (Nat.ltb_spec e k) as [Hek|Hek].
          * apply (inv_left _ _ _ HI); lia.
          * rewrite delta_diff by lia. apply rsum_zero. intros; lra.
      - intros p e Hp He Hl. rewrite (Nat.add_1_r k). cbn [rsum].
        rewrite (proj2 (Nat.leb_le (S k) (k + (i + 1)))) by lia.
        replace (i + 1 + k - S k) with i by lia. rewrite Hk, wcoef_last by lia.
        set (F := fun b => if S k <=? b + (i + 1) then wcoef (ks (i + 1 + b - S k)) (ws (i + 1 + b - S k)) b e else 0%R).
        set (G := fun b => if k <=? b + i then wcoef (ks (i + b - k)) (ws (i + b - k)) b e else 0%R).
        assert (FG : forall b, F b = G b).
        { intro b. unfold F, G. replace (i + 1 + b - S k) with (i + b - k) by lia.
          destruct (Nat.leb_spec (S k) (b + (i + 1))), (Nat.leb_spec k (b + i)); try lia; reflexivity. }
        assert (GZ : e = k -> forall b, b < k -> G b = 0%R).
        { intros -> b Hb. unfold G. destruct (k <=? b + i); [apply wcoef_upper; exact Hb|reflexivity]. }
        destruct (Nat.eq_dec p k) as [->|Hne].
        + rewrite !extend_bottom, Nat.ltb_irrefl.
          rewrite (rsum_ext k _ (fun b => (- (rsum k (fun b' => (a b' * M b' b)%R)) / s * G b)%R)).
          2:{ intros b Hb. rewrite extend_bottom. rewrite (proj2 (Nat.ltb_lt _ _) Hb). rewrite <- FG. reflexivity. }
          destruct (Nat.ltb_spec e k) as [Hek|Hek].
          * assert (E : rsum k (fun b => (- (rsum k (fun b' => (a b' * M b' b)%R)) / s * G b)%R) = (- a e / s)%R).
            { transitivity (rsum k (fun b => rsum k (fun b' => (-/ s * (a b' * (M b' b * G b)))%R))).
              - apply rsum_ext. intros b _. rewrite rsum_scal.
                rewrite (rsum_ext k (fun b' => (a b' * (M b' b * G b))%R) (fun b' => (a b' * M b' b * G b)%R)) by (intros; ring).
                rewrite rsum_scal_r. field. lra.
              - rewrite rsum_swap.
                rewrite (rsum_ext k _ (fun b' => ((- / s * a b') * delta b' e)%R)).
                + rewrite (rsum_delta_r k e (fun b' => (- / s * a b')%R) Hek). field. lra.
                + intros b' Hb'. rewrite rsum_scal, rsum_scal.
                  destruct (le_lt_dec k (b' + i)) as [Hx|Hx].
                  * unfold G. rewrite (inv_right _ _ _ HI b' e Hb' Hek Hx). ring.
                  * rewrite (step_missing b' Hb' Hx). ring. }
            rewrite E, delta_diff by lia. field. lra.
          * assert (e = k) by lia. subst e. rewrite delta_same, rsum_zero; [field; lra|].
            intros b Hb. rewrite GZ by auto. lra.
        + rewrite extend_top by lia. rewrite Nat.ltb_irrefl, Rmult_0_l, Rplus_0_r.
          rewrite (rsum_ext k _ (fun b => (M p b * G b)%R)).
          2:{ intros b Hb. rewrite extend_top by lia. rewrite (proj2 (Nat.ltb_lt _ _) Hb). rewrite <- FG. reflexivity. }
          destruct (Nat.eq_dec e k) as [->|Hek].
          * rewrite delta_diff by exact Hne. apply rsum_zero. intros b Hb. rewrite GZ by auto. lra.
          * apply (inv_right _ _ _ HI); lia.
    Qed.
  End Step.
End Inv.

Lemma negative_false x : negative x = false <-> (0 <= x)%R.
Proof. unfold negative. destruct (Rlt_dec x 0); split; intro; try discriminate; try reflexivity; lra. Qed.
Lemma negative_true x : negative x = true <-> (x < 0)%R.
Proof. unfold negative. destruct (Rlt_dec x 0); split; intro; try discriminate; try reflexivity; lra. Qed.

Lemma finish_ok n k size m row st' w : finish n k size m row = Ok (st', w) ->
  lead w = n /\ width w = k + 1 /\ st_n st' = n /\ st_k st' = k /\
  (forall l, st_m st' l = fun b e => m l (b + (size - k)) (e + (size - k))) /\
  (forall l b, st_a st' l b = rsum k (fun e => (st_m st' l b e * el row l (k - e))%R)) /\
  (forall l b, el w l b = if b <? k then st_a st' l b else st_s st' l) /\
  (forall l, l < n -> (st_s st' l * st_s st' l + rsum k (fun b => st_a st' l b * st_a st' l b))%R = el row l 0) /\
  (forall l, (0 <= st_s st' l)%R).
Proof.
  unfold finish. destruct (existsb _ _) eqn:E; [discriminate|]. intro H. injection H as <- <-. cbn.
  repeat split; auto.
  - intros l Hl. rewrite sqrt_sqrt; [ring|].
    apply negative_false. destruct (negative _) eqn:Hn; [|reflexivity].
    assert (Hx : existsb (fun l => negative (el row l 0 - rsum k (fun b => rsum k (fun e =>
      (m l (b + (size - k))%nat (e + (size - k))%nat * el row l (k - e)%nat))%R *
      rsum k (fun e => (m l (b + (size - k))%nat (e + (size - k))%nat * el row l (k - e)%nat)%R))%R)) (seq 0 n) = true).
    { apply existsb_exists. exists l. split; [apply in_seq; lia|exact Hn]. }
    congruence.
  - intro l. apply sqrt_pos.
Qed.

Section Run.
  Variable l : nat.
  Variable W : list stack.   (* all outputs *)
  Let ks f := width (nth f W {| lead := 0; width := 0; el := fun _ _ => 0%R |}) - 1.
  Let ws f := el (nth f W {| lead := 0; width := 0; el := fun _ _ => 0%R |}) l.
  Definition positive_before (i : nat) : Prop := forall f, f < i -> (0 < ws f (ks f))%R.

  Definition good_state (i n : nat) (st : option iter_state) : Prop :=
    match st with
    | None => i = 0
    | Some st => st_n st = n /\
        (forall b e, b < st_k st + 1 -> e < st_k st + 1 -> b + i < st_k st + 1 ->
           extend (st_k st) (st_m st l) (st_a st l) (st_s st l) b e = 0%R) /\
        (positive_before i -> inv ks ws i (st_k st + 1) (extend (st_k st) (st_m st l) (st_a st l) (st_s st l)))
    end.

  Definition good_output (i n : nat) (row w : stack) : Prop :=
    lead w = n /\ lead row = n /\ width w = width row /\ 0 < width w /\
    (0 <= el w l (width w - 1))%R /\
    (l < n -> rsum (width w) (fun b => (el w l b * el w l b)%R) = el row l 0) /\
    (forall b, b + 1 < width w -> b + i + 1 < width w -> el w l b = 0%R) /\
    (positive_before i ->
      (forall p, p + 1 < width w -> width w <= p + i + 1 ->
         rsum (width w - 1) (fun b => (el w l b * wcoef (ks (i + p + 1 - width w)) (ws (i + p + 1 - width w)) p b)%R)
         = el row l (width w - 1 - p))).

  Lemma step_run i n st row st' w : (forall s, st = Some s -> st_n s = n) -> (st = None -> lead row = n) ->
    good_state i n st -> nth_error W i = Some w ->
    iter_step st row = Ok (st', w) -> good_output i n row w /\ good_state (i + 1) n (Some st').
  Proof.
    intros Hn0 Hn1 HS HW H. unfold iter_step in H. destruct (Nat.eqb_spec (width row) 0) as [|Hw0]; [discriminate|].
    assert (Hks : ks i = width w - 1) by (unfold ks; rewrite (nth_error_nth _ _ _ HW); reflexivity).
    assert (Hws : ws i = el w l) by (unfold ws; rewrite (nth_error_nth _ _ _ HW); reflexivity).
    assert (HF : exists size m, width row - 1 <= size /\ lead row = n /\
        finish n (width row - 1) size m row = Ok (st', w) /\
        (forall b e, b < size -> e < size -> b + i < size -> m l b e = 0%R) /\
        (positive_before i -> inv ks ws i size (m l))).
    { destruct st as [s|].
      - destruct HS as (HS1 & HSm & HS2). destruct (Nat.eqb_spec (lead row) (st_n s)) as [El|]; cbn [negb] in H; [|discriminate].
        destruct (Nat.ltb_spec (st_k s + 1) (width row - 1)); [discriminate|].
        rewrite HS1 in H, El. exists (st_k s + 1). eexists. split; [lia|]. split; [exact El|].
        split; [exact H|]. split; [exact HSm|exact HS2].
      - cbn in HS. subst i. exists (width row - 1), (fun _ _ _ => 0%R). split; [lia|]. split; [auto|].
        rewrite (Hn1 eq_refl) in H. split; [exact H|]. split; [reflexivity|]. intros _. apply inv_start. }
    destruct HF as (size & m & Hsz & Hlead & HF & Hmis & Hinv).
    apply finish_ok in HF as (F1 & F2 & F3 & F4 & F5 & F6 & F7 & F8 & F9).
    set (k := width row - 1) in *.
    assert (Hwk : width w = k + 1) by exact F2. assert (Hkk : width w - 1 = k) by lia.
    assert (Hinv' : positive_before i -> inv ks ws i k (st_m st' l)).
    { intro Hp. rewrite F5. apply inv_trim; auto. }
    assert (Hmm : forall b e, b < k -> e < k -> b + i < k -> st_m st' l b e = 0%R).
    { intros b e Hb He Hm. rewrite F5. apply Hmis; lia. }
    assert (Hmis' : forall b, b < k -> b + i < k -> st_a st' l b = 0%R).
    { intros b Hb Hm. rewrite F6. apply rsum_zero. intros e He. rewrite (Hmm b e Hb He Hm). lra. }
    split.
    - split; [congruence|]. split; [exact Hlead|]. split; [lia|]. split; [lia|].
      rewrite Hkk. split; [rewrite F7, Nat.ltb_irrefl; apply F9|]. split.
      + intro Hl. rewrite <- (F8 l Hl), Hwk, Nat.add_1_r. cbn [rsum]. rewrite F7, Nat.ltb_irrefl.
        rewrite Rplus_comm. f_equal. apply rsum_ext. intros b Hb. rewrite F7.
        rewrite (proj2 (Nat.ltb_lt _ _) Hb). reflexivity.
      + split.
        * intros b Hb Hm. rewrite F7. rewrite (proj2 (Nat.ltb_lt b k)) by lia. exact (Hmis' b ltac:(lia) ltac:(lia)).
        * intros Hp p Hpk Hm. replace (i + p + 1 - width w) with (i + p - k) by lia.
          rewrite <- (step_cov ks ws i k (st_m st' l) (fun e => el row l (k - e)) (st_a st' l) (Hinv' Hp)); [|intros; apply F6|lia|lia].
          apply rsum_ext. intros b Hb. rewrite F7. rewrite (proj2 (Nat.ltb_lt b k)) by lia. reflexivity.
    - split; [exact F3|]. split.
      { intros b e Hb He Hm. rewrite F4 in *. unfold extend. rewrite (proj2 (Nat.ltb_lt b k)) by lia.
        destruct (Nat.ltb_spec e k); [apply Hmm; lia|reflexivity]. }
      intro Hp. rewrite F4.
      assert (Hpi : positive_before i) by (intros f Hf; apply Hp; lia).
      specialize (Hp i ltac:(lia)). rewrite Hks, Hws, Hkk, F7, Nat.ltb_irrefl in Hp.
      eapply inv_extend; [exact (Hinv' Hpi)|intros; apply F6|exact Hp|rewrite Hks; exact Hkk|].
      intros b Hb. rewrite Hws. apply F7.
  Qed.

  Lemma iter_run n e0 : forall rows i st, good_state i n st ->
    (forall s, st = Some s -> st_n s = n) -> (st = None -> forall row, nth_error rows 0 = Some row -> lead row = n) ->
    (forall j w, nth_error (fst (iter_rows st rows e0)) j = Some w -> nth_error W (i + j) = Some w) ->
    forall j w, nth_error (fst (iter_rows st rows e0)) j = Some w ->
      exists row, nth_error rows j = Some row /\ good_output (i + j) n row w.
  Proof.
    induction rows as [|row rows IH]; intros i st HS Hn0 Hn1 HW j w Hj.
    - destruct j; discriminate.
    - cbn [iter_rows] in HW, Hj. destruct (iter_step st row) as [[st' w0]|x] eqn:E.
      + assert (Hx := HW 0 w0 eq_refl). rewrite Nat.add_0_r in Hx.
        destruct (step_run i n st row st' w0) as [G1 G2]; auto.
        destruct j as [|j]; cbn in Hj.
        * injection Hj as <-. exists row. rewrite Nat.add_0_r. auto.
        * destruct (IH (i + 1) (Some st') G2) with (j := j) (w := w) as (row' & R1 & R2).
          -- intros s Hs; injection Hs as <-. exact (proj1 G2).
          -- discriminate.
          -- intros j' w' Hj'. replace (i + 1 + j') with (i + S j') by lia. apply HW. exact Hj'.
          -- exact Hj.
          -- exists row'. replace (i + S j) with (i + 1 + j) by lia. auto.
      + destruct j; discriminate.
  Qed.
End Run.

Definition empty_stack : stack := {| lead := 0; width := 0; el := fun _ _ => 0%R |}.
(** Factor of standard normal [q] in draw [i] of slice [l], for outputs [W]. *)
Definition out_coef (W : list stack) (l i q : nat) : R :=
  coefficient (width (nth i W empty_stack) - 1) (el (nth i W empty_stack) l) i q.

Lemma coefficient_upper k w i q : i < q -> coefficient k w i q = 0%R.
Proof. exact (wcoef_upper k w i q). Qed.

Lemma covariance_comm n x y : covariance n x y = covariance n y x.
Proof. apply rsum_ext. intros; ring. Qed.

Section OutCov.
  Variables (l : nat) (W : list stack) (i n : nat) (row w : stack).
  Hypothesis HW : nth_error W i = Some w.
  Hypothesis HO : good_output l W i n row w.

  Lemma out_coef_i q : q <= i -> out_coef W l i q =
    if i <=? q + (width w - 1) then el w l (q + (width w - 1) - i) else 0%R.
  Proof.
    intro Hq. unfold out_coef, coefficient. rewrite (nth_error_nth _ _ _ HW).
    rewrite (proj2 (Nat.leb_le q i) Hq), andb_true_r. reflexivity.
  Qed.

  Lemma output_variance N : i < N -> l < n ->
    covariance N (out_coef W l i) (out_coef W l i) = el row l 0.
  Proof.
    destruct HO as (_ & _ & Hw & Hw0 & _ & Hv & Hz & _). intros HN Hl. rewrite <- (Hv Hl).
    unfold covariance. rewrite (rsum_truncate (i + 1) N); [|lia|].
    2:{ intros q Hq. unfold out_coef. rewrite coefficient_upper by lia. lra. }
    set (k := width w - 1). assert (Ek : width w = k + 1) by (unfold k; lia). rewrite Ek.
    destruct (le_lt_dec k i) as [Hki|Hki].
    - replace (i + 1) with ((i - k) + (k + 1)) by lia. rewrite rsum_shift.
      + apply rsum_ext. intros b Hb. rewrite out_coef_i by lia. fold k.
        rewrite (proj2 (Nat.leb_le i (i - k + b + k))) by lia.
        replace (i - k + b + k - i) with b by lia. reflexivity.
      + intros q Hq. rewrite out_coef_i by lia. fold k.
        rewrite (proj2 (Nat.leb_gt i (q + k))) by lia. lra.
    - replace (k + 1) with ((k - i) + (i + 1)) by lia. rewrite (rsum_shift (i + 1) (k - i)).
      + apply rsum_ext. intros q Hq. rewrite out_coef_i by lia. fold k.
        rewrite (proj2 (Nat.leb_le i (q + k))) by lia.
        replace (k - i + q) with (q + k - i) by lia. reflexivity.
      + intros b Hb. rewrite Hz by lia. lra.
  Qed.

  Lemma output_covariance N f : positive_before l W i -> i < N -> f < i -> i < f + width w ->
    covariance N (out_coef W l i) (out_coef W l f) = el row l (i - f).
  Proof.
    destruct HO as (_ & _ & Hw & Hw0 & _ & Hv & Hz & Hc). intros Hp HN Hf Hd.
    pose proof (Hc Hp) as Hcov. clear Hc.
    set (k := width w - 1) in *. assert (Ek : width w = k + 1) by (unfold k; lia). rewrite Ek in *.
    specialize (Hcov (f + k - i) ltac:(lia) ltac:(lia)).
    replace (i + (f + k - i) + 1 - (k + 1)) with f in Hcov by lia.
    replace (k - (f + k - i)) with (i - f) in Hcov by lia. rewrite <- Hcov.
    unfold covariance. rewrite (rsum_truncate i N); [|lia|].
    2:{ intros q Hq. unfold out_coef at 2. rewrite coefficient_upper by lia. lra. }
    unfold out_coef at 2. fold empty_stack. set (kf := width (nth f W empty_stack) - 1). set (wf := el (nth f W empty_stack) l).
    destruct (le_lt_dec k i) as [Hki|Hki].
    - replace i with ((i - k) + k) at 1 by lia. rewrite rsum_shift.
      + apply rsum_ext. intros b Hb. rewrite out_coef_i by lia. fold k.
        rewrite (proj2 (Nat.leb_le i (i - k + b + k))) by lia.
        replace (i - k + b + k - i) with b by lia. f_equal.
        rewrite wcoef_coefficient. rewrite <- (wcoef_shift kf wf (f + k - i) b (i - k)).
        f_equal; lia.
      + intros q Hq. rewrite out_coef_i by lia. fold k.
        rewrite (proj2 (Nat.leb_gt i (q + k))) by lia. lra.
    - assert (Er : forall g, (forall b, b < k - i -> g b = 0%R) -> rsum k g = rsum i (fun q => g (k - i + q))).
      { intros g Hg. rewrite <- (rsum_shift i (k - i) g Hg). f_equal. lia. }
      rewrite Er.
      + apply rsum_ext. intros q Hq. rewrite out_coef_i by lia. fold k.
        rewrite (proj2 (Nat.leb_le i (q + k))) by lia.
        replace (k - i + q) with (q + k - i) by lia. f_equal.
        rewrite wcoef_coefficient. rewrite <- (wcoef_shift kf wf f q (k - i)). f_equal; lia.
      + intros b Hb. rewrite Hz by lia. lra.
  Qed.
End OutCov.

Lemma inv_ext ks ks' ws ws' i K M :
  (forall f, f < i -> ks f = ks' f /\ ws f = ws' f) -> inv ks ws i K M -> inv ks' ws' i K M.
Proof.
  intros H [H1 H2 H3 H4]. split; [exact H1|exact H2| |].
  - intros p e Hp He Hm. rewrite <- (H3 p e Hp He Hm).
    destruct (H (i + p - K) ltac:(lia)) as [-> ->]. reflexivity.
  - intros p e Hp He Hm. rewrite <- (H4 p e Hp He Hm). apply rsum_ext. intros b Hb.
    destruct (Nat.leb_spec K (b + i)) as [Hx|]; [|reflexivity].
    destruct (H (i + b - K) ltac:(lia)) as [-> ->]. reflexivity.
Qed.

Lemma positive_before_ext l W W' i : (forall f, f < i -> nth f W empty_stack = nth f W' empty_stack) ->
  positive_before l W i -> positive_before l W' i.
Proof.
  intros H Hp f Hf. specialize (Hp f Hf). unfold positive_before in *. fold empty_stack in *.
  rewrite <- (H f Hf). exact Hp.
Qed.

Lemma good_state_ext l W W' i n st : (forall f, f < i -> nth f W empty_stack = nth f W' empty_stack) ->
  good_state l W i n st -> good_state l W' i n st.
Proof.
  intros H. destruct st as [st|]; [|auto]. intros (H1 & H0 & H2). split; [exact H1|]. split; [exact H0|].
  intro Hp. eapply inv_ext; [|apply H2; eapply positive_before_ext; [|exact Hp]].
  - intros f Hf. cbv beta. fold empty_stack. rewrite (H f Hf). auto.
  - intros f Hf. symmetry. apply H; exact Hf.
Qed.

(** A lower triangular system has a solution. *)
Lemma triangular_solve (L : nat -> nat -> R) : forall i, (forall f q, f < q -> L f q = 0%R) -> (forall f, f < i -> L f f <> 0%R) ->
  forall A, exists v, forall q, q < i -> rsum i (fun f => (v f * L f q)%R) = A q.
Proof.
  induction i as [|i IH]; intros HL Hd A; [exists (fun _ => 0%R); lia|].
  destruct (IH HL ltac:(intros f Hf; apply Hd; lia) (fun q => (A q - A i / L i i * L i q)%R)) as (v & Hv).
  exists (fun f => if f =? i then (A i / L i i)%R else v f). intros q Hq. cbn [rsum]. rewrite Nat.eqb_refl.
  assert (E : rsum i (fun f => ((if f =? i then (A i / L i i)%R else v f) * L f q)%R) = rsum i (fun f => (v f * L f q)%R)).
  { apply rsum_ext. intros f Hf. destruct (Nat.eqb_spec f i); [lia|reflexivity]. }
  rewrite E. destruct (Nat.eq_dec q i) as [->|Hne].
  - rewrite rsum_zero; [field; apply Hd; lia|]. intros f Hf. rewrite HL by exact Hf. lra.
  - rewrite Hv by lia. lra.
Qed.

(** The variance that remains for draw [i], if [L] are the coefficients of the earlier draws and [A] those of the new
    one. *)
Section Definite.
  Variables (N i : nat) (c : nat -> nat -> R) (L : nat -> nat -> R) (A : nat -> R).
  Hypothesis Hi : i < N.
  Hypothesis Hdef : definite N c.
  Hypothesis HL : forall f q, f < q -> L f q = 0%R.
  Hypothesis Hd : forall f, f < i -> (0 < L f f)%R.
  Hypothesis Hgram : forall f g, f < i -> g < i -> rsum i (fun q => (L f q * L g q)%R) = c f g.
  Hypothesis Hrow : forall f, f < i -> rsum i (fun q => (A q * L f q)%R) = c i f.
  Let S2 := rsum i (fun q => (A q * A q)%R).

  Lemma residual_positive : (0 < c i i - S2)%R.
  Proof.
    destruct (triangular_solve L i HL ltac:(intros f Hf; specialize (Hd f Hf); lra) (fun q => (- A q)%R)) as (y & Hy).
    assert (cross : rsum i (fun f => (y f * c i f)%R) = (- S2)%R).
    { rewrite (rsum_ext i _ (fun f => rsum i (fun q => (A q * (y f * L f q))%R))).
      - rewrite rsum_swap. rewrite (rsum_ext i _ (fun q => (- (A q * A q))%R)).
        + apply rsum_opp.
        + intros q Hq. rewrite rsum_scal, Hy by exact Hq. ring.
      - intros f Hf. rewrite <- (Hrow f Hf), <- rsum_scal. apply rsum_ext. intros; ring. }
    assert (block : rsum i (fun f => rsum i (fun g => (y f * c f g * y g)%R)) = S2).
    { rewrite (rsum_ext i _ (fun f => rsum i (fun q => ((y f * L f q) * (- A q))%R))).
      - rewrite rsum_swap. apply rsum_ext. intros q Hq. rewrite rsum_scal_r, Hy by exact Hq. ring.
      - intros f Hf.
        rewrite (rsum_ext i _ (fun g => rsum i (fun q => (y f * L f q * (y g * L g q))%R))).
        + rewrite rsum_swap. apply rsum_ext. intros q Hq. rewrite rsum_scal, Hy by exact Hq. reflexivity.
        + intros g Hg. rewrite <- (Hgram f g Hf Hg), <- rsum_scal, <- rsum_scal_r.
          apply rsum_ext. intros; ring. }
    set (v := fun f => if f <? i then y f else if f =? i then 1%R else 0%R).
    assert (Vy : forall f, f < i -> v f = y f) by (intros f Hf; unfold v; rewrite (proj2 (Nat.ltb_lt _ _) Hf); reflexivity).
    destruct Hdef as [Hsym Hpos].
    assert (Hv : quadratic N c v = (c i i - S2)%R).
    { unfold quadratic. assert (Hz : forall g, S i <= g < N -> v g = 0%R).
      { intros g Hg. unfold v. rewrite (proj2 (Nat.ltb_ge g i)) by lia. destruct (Nat.eqb_spec g i); [lia|reflexivity]. }
      assert (Hvi : v i = 1%R) by (unfold v; rewrite Nat.ltb_irrefl, Nat.eqb_refl; reflexivity).
      rewrite (rsum_truncate (S i) N); [|lia|].
      2:{ intros f Hf. apply rsum_zero. intros g _. rewrite (Hz f Hf). ring. }
      rewrite (rsum_ext (S i) _ (fun f => rsum (S i) (fun g => (v f * c f g * v g)%R))).
      2:{ intros f _. apply rsum_truncate; [lia|]. intros g Hg. rewrite (Hz g Hg). ring. }
      cbn [rsum]. rewrite rsum_plus.
      rewrite (rsum_ext i (fun f => rsum i (fun g => (v f * c f g * v g)%R)) (fun f => rsum i (fun g => (y f * c f g * y g)%R))).
      2:{ intros f Hf. apply rsum_ext. intros g Hg. rewrite !Vy by assumption. reflexivity. }
      rewrite block.
      rewrite (rsum_ext i (fun j => (v i * c i j * v j)%R) (fun f => (y f * c i f)%R)).
      2:{ intros g Hg. rewrite Hvi, Vy by exact Hg. ring. }
      rewrite (rsum_ext i (fun f => (v f * c f i * v i)%R) (fun f => (y f * c i f)%R)).
      2:{ intros f Hf. rewrite Hvi, Vy, (Hsym f i) by lia. ring. }
      rewrite cross, Hvi. ring. }
    rewrite <- Hv. apply Hpos. exists i. split; [exact Hi|]. unfold v.
    rewrite Nat.ltb_irrefl, Nat.eqb_refl. lra.
  Qed.
End Definite.

(** Conversely, a product of a triangular matrix with positive diagonal and its transpose is positive definite. *)
Lemma gram_definite N c (L : nat -> nat -> R) : (forall f q, f < q -> L f q = 0%R) -> (forall f, f < N -> (0 < L f f)%R) ->
  (forall f g, f < N -> g < N -> covariance N (L f) (L g) = c f g) -> definite N c.
Proof.
  intros HL Hd Hg. split.
  - intros f g Hf Hgn. rewrite <- !Hg by assumption. apply rsum_ext. intros; ring.
  - intros v (i & Hi & Hv).
    set (y := fun q => rsum N (fun f => (v f * L f q)%R)).
    assert (E : quadratic N c v = rsum N (fun q => (y q * y q)%R)).
    { unfold quadratic. transitivity (rsum N (fun f => rsum N (fun q => ((v f * L f q) * y q)%R))).
      - apply rsum_ext. intros f Hf.
        transitivity (rsum N (fun g => rsum N (fun q => ((v f * L f q) * (v g * L g q))%R))).
        + apply rsum_ext. intros g Hgn. rewrite <- (Hg f g Hf Hgn). unfold covariance. rewrite <- rsum_scal, <- rsum_scal_r.
          apply rsum_ext. intros; ring.
        + rewrite rsum_swap. apply rsum_ext. intros q _. apply rsum_scal.
      - rewrite rsum_swap. apply rsum_ext. intros q _. apply rsum_scal_r. }
    rewrite E.
    (* the last index with a nonzero component *)
    assert (Hlast : exists m, m < N /\ v m <> 0%R /\ forall f, m < f -> f < N -> v f = 0%R).
    { assert (G : forall d m, d + m = N -> (exists i, i < N /\ v i <> 0%R) -> (forall f, m <= f -> f < N -> v f = 0%R) ->
        exists m, m < N /\ v m <> 0%R /\ forall f, m < f -> f < N -> v f = 0%R).
      { intros d m. revert d. induction m as [|m IH]; intros d Hdm (j & Hj & Hvj) Hz.
        - exfalso. apply Hvj. apply Hz; lia.
        - destruct (Req_EM_T (v m) 0) as [Z|Z].
          + apply (IH (S d)); [lia|eauto|]. intros f Hf HfN. destruct (Nat.eq_dec f m) as [->|]; [exact Z|apply Hz; lia].
          + exists m. split; [lia|]. split; [exact Z|]. intros f Hf HfN. apply Hz; lia. }
      apply (G 0 N); [lia|eauto|lia]. }
    destruct Hlast as (m & Hm & Hvm & Hz).
    assert (Ym : y m = (v m * L m m)%R).
    { unfold y. apply (rsum_single N m (fun f => (v f * L f m)%R)); [exact Hm|]. intros f Hf Hne.
      destruct (le_lt_dec f m) as [H|H]; [rewrite HL by lia; ring|rewrite Hz by assumption; ring]. }
    apply Rlt_le_trans with (y m * y m)%R.
    + assert (y m <> 0%R) as Hy. { rewrite Ym. specialize (Hd m Hm). apply Rmult_integral_contrapositive. split; lra. }
      apply Rsqr_pos_lt in Hy. exact Hy.
    + rewrite <- (rsum_delta_r N m (fun q => (y q * y q)%R) Hm). apply rsum_le. intros q _.
      destruct (Nat.eq_dec q m) as [->|Hq]; [rewrite delta_same; lra|]. rewrite delta_diff by exact Hq.
      pose proof (Rle_0_sqr (y q)). unfold Rsqr in *. lra.
Qed.

(** Sums over the weights of a row are sums over earlier draws. *)
Lemma band_sum i k (g : nat -> R) : (forall b, b < k -> b + i < k -> g b = 0%R) ->
  rsum k g = rsum i (fun q => if i <=? q + k then g (q + k - i) else 0%R).
Proof.
  intro Hg. destruct (le_lt_dec k i) as [Hki|Hki].
  - replace i with ((i - k) + k) at 1 by lia. rewrite rsum_shift.
    + apply rsum_ext. intros b Hb. rewrite (proj2 (Nat.leb_le i (i - k + b + k))) by lia. f_equal. lia.
    + intros q Hq. rewrite (proj2 (Nat.leb_gt i (q + k))) by lia. reflexivity.
  - replace k with ((k - i) + i) at 1 by lia. rewrite rsum_shift by (intros b Hb; apply Hg; lia).
    apply rsum_ext. intros q Hq. rewrite (proj2 (Nat.leb_le i (q + k))) by lia. f_equal. lia.
Qed.

Section Accept.
  Variables (N n k : nat) (c : nat -> nat -> nat -> R).
  Hypothesis HN : 0 < N.
  Hypothesis Hdef : forall l, l < n -> definite N (c l).
  Hypothesis Hband : forall l i f, l < n -> i < N -> f + k < i -> c l i f = 0%R.
  Definition row_of (i : nat) (row : stack) : Prop :=
    lead row = n /\ width row = k + 1 /\ forall l f, l < n -> f <= i -> i - f <= k -> el row l (i - f) = c l i f.

  Lemma finish_accepts (ks : nat -> nat -> nat) (ws : nat -> nat -> nat -> R) i size m row : row_of i row -> i < N -> k <= size ->
    (forall l, l < n -> inv (ks l) (ws l) i size (m l)) ->
    (forall l f, l < n -> f < i -> (0 < ws l f (ks l f))%R) ->
    (forall l f g, l < n -> f < i -> g < i ->
       rsum i (fun q => (coefficient (ks l f) (ws l f) f q * coefficient (ks l g) (ws l g) g q)%R) = c l f g) ->
    exists st' w, finish n k size m row = Ok (st', w) /\ forall l, l < n -> (0 < st_s st' l)%R.
  Proof.
    intros (R1 & R2 & R3) Hi Hsz Hinv Hpos Hgram. unfold finish.
    set (m' := fun l b e => m l (b + (size - k)) (e + (size - k))).
    set (a := fun l b => rsum k (fun e => (m' l b e * el row l (k - e))%R)).
    assert (Hres : forall l, l < n -> (0 < el row l 0 - rsum k (fun b => (a l b * a l b)%R))%R).
    { intros l Hl. replace (el row l 0) with (c l i i) by (rewrite <- R3 by lia; f_equal; lia).
      assert (HI : inv (ks l) (ws l) i k (m' l)) by (unfold m'; apply (inv_trim _ _ i size k); [exact Hsz|apply Hinv; exact Hl]).
      assert (Hm : forall b, b < k -> b + i < k -> a l b = 0%R).
      { intros b Hb Hbi. apply (step_missing (ks l) (ws l) i k (m' l) (fun e => el row l (k - e)) (a l) HI); [intros; reflexivity|exact Hb|exact Hbi]. }
      rewrite (band_sum i k) by (intros b Hb Hbi; rewrite (Hm b Hb Hbi); ring).
      set (A := fun q => if i <=? q + k then a l (q + k - i) else 0%R).
      replace (rsum i (fun q => if i <=? q + k then (a l (q + k - i)%nat * a l (q + k - i)%nat)%R else 0%R)) with (rsum i (fun q => (A q * A q)%R)).
      2:{ apply rsum_ext. intros q _. unfold A. destruct (i <=? q + k); ring. }
      apply (residual_positive N i (c l) (fun f q => coefficient (ks l f) (ws l f) f q) A Hi (Hdef l Hl)).
      - intros f q Hfq. apply coefficient_upper. exact Hfq.
      - intros f Hf. unfold coefficient. rewrite (proj2 (Nat.leb_le f (f + ks l f))), Nat.leb_refl by lia. cbn [andb].
        replace (f + ks l f - f) with (ks l f) by lia. apply Hpos; assumption.
      - intros f g Hf Hg. apply Hgram; assumption.
      - intros f Hf. destruct (le_lt_dec i (f + k)) as [Hfk|Hfk].
        + rewrite <- R3 by lia.
          pose proof (step_cov (ks l) (ws l) i k (m' l) (fun e => el row l (k - e)) (a l) HI ltac:(intros; reflexivity) (f + k - i) ltac:(lia) ltac:(lia)) as H.
          replace (i + (f + k - i) - k) with f in H by lia. replace (k - (f + k - i)) with (i - f) in H by lia. rewrite <- H.
          rewrite (band_sum i k) by (intros b Hb Hbi; rewrite (Hm b Hb Hbi); ring).
          apply rsum_ext. intros q Hq. unfold A. destruct (Nat.leb_spec i (q + k)) as [Hqk|Hqk]; [|ring]. f_equal.
          rewrite wcoef_coefficient. destruct (le_lt_dec k i) as [Hki|Hki].
          * rewrite <- (wcoef_shift _ _ (f + k - i) (q + k - i) (i - k)). f_equal; lia.
          * rewrite <- (wcoef_shift _ _ f q (k - i)). f_equal; lia.
        + rewrite Hband by assumption. apply rsum_zero. intros q Hq. unfold A. destruct (Nat.leb_spec i (q + k)); [|ring].
          rewrite coefficient_upper by lia. ring. }
    assert (E : existsb (fun l => negative (el row l 0 - rsum k (fun b => (a l b * a l b)%R))) (seq 0 n) = false).
    { apply not_true_iff_false. intro H. apply existsb_exists in H as (l & Hl & Hn). apply in_seq in Hl.
      apply negative_true in Hn. specialize (Hres l ltac:(lia)). lra. }
    fold a. cbv zeta. change (existsb (fun l => negative (el row l 0 - rsum k (fun b => (a l b * a l b)%R))%R) (seq 0 n)) with
      (existsb (fun l => negative (el row l 0 - rsum k (fun b => (a l b * a l b)%R))) (seq 0 n)).
    unfold a, m' in *. rewrite E. eexists. eexists. split; [reflexivity|].
    intros l Hl. cbn. apply sqrt_lt_R0. apply Hres. exact Hl.
  Qed.

  Lemma accept_rows : forall rows i st W,
    length W = i -> i + length rows <= N ->
    (forall j row, nth_error rows j = Some row -> row_of (i + j) row) ->
    (forall s, st = Some s -> st_n s = n /\ st_k s = k) ->
    (forall l, l < n -> good_state l W i n st) ->
    (forall l, l < n -> positive_before l W i) ->
    (forall l f g, l < n -> f < i -> g < i -> covariance i (out_coef W l f) (out_coef W l g) = c l f g) ->
    let '(ws, e) := iter_rows st rows None in
    e = None /\ length ws = length rows /\
    forall w l, In w ws -> l < n -> (0 < el w l (width w - 1))%R.
  Proof.
    induction rows as [|row rows IH]; intros i st W HL Hlen Hrows Hst HS Hpos Hgram.
    - cbn. split; [reflexivity|]. split; [reflexivity|]. intros w l [].
    - cbn [iter_rows]. cbn [length] in Hlen.
      pose proof (Hrows 0 row eq_refl) as Hrow. rewrite Nat.add_0_r in Hrow.
      assert (Hstep : exists st' w, iter_step st row = Ok (st', w) /\ st_n st' = n /\ st_k st' = k /\
                 width w = k + 1 /\ forall l, l < n -> (0 < el w l (width w - 1))%R).
      { assert (HF : exists size m, iter_step st row = finish n k size m row /\ k <= size /\
            forall l, l < n -> inv (fun f => width (nth f W empty_stack) - 1) (fun f => el (nth f W empty_stack) l) i size (m l)).
        { destruct Hrow as (R1 & R2 & R3). unfold iter_step. rewrite R1, R2.
          destruct (Nat.eqb_spec (k + 1) 0); [lia|]. replace (k + 1 - 1) with k by lia. destruct st as [s|].
          - destruct (Hst s eq_refl) as [S1 S2]. rewrite S1, Nat.eqb_refl, S2. cbn [negb].
            destruct (Nat.ltb_spec (k + 1) k); [lia|].
            eexists; eexists. split; [reflexivity|]. split; [lia|].
            intros l Hl. destruct (HS l Hl) as (_ & _ & HS2). rewrite S2 in HS2. exact (HS2 (Hpos l Hl)).
          - eexists; eexists. split; [reflexivity|]. split; [lia|].
            intros l Hl. specialize (HS l Hl). cbn in HS. rewrite HS. apply inv_start. }
        destruct HF as (size & m & HF & Hsz & Hinv).
        destruct (finish_accepts (fun l f => width (nth f W empty_stack) - 1) (fun l f => el (nth f W empty_stack) l)
                    i size m row Hrow ltac:(lia) Hsz Hinv) as (st' & w & E & P).
        { intros l f Hl Hf. exact (Hpos l Hl f Hf). }
        { intros l f g Hl Hf Hg. exact (Hgram l f g Hl Hf Hg). }
        exists st', w. rewrite HF. split; [exact E|].
        apply finish_ok in E as (F1 & F2 & F3 & F4 & F5 & F6 & F7 & F8 & F9).
        split; [exact F3|]. split; [exact F4|]. split; [lia|].
        intros l Hl. rewrite F2, F7. replace (k + 1 - 1) with k by lia. rewrite Nat.ltb_irrefl. apply P; exact Hl. }
      destruct Hstep as (st' & w & E & Hn' & Hk' & Hww & Hw). rewrite E.
      assert (Hold : forall f, f < i -> nth f W empty_stack = nth f (W ++ [w]) empty_stack)
        by (intros f Hf; rewrite app_nth1 by lia; reflexivity).
      assert (HWi : nth_error (W ++ [w]) i = Some w).
      { rewrite nth_error_app, HL, Nat.ltb_irrefl, Nat.sub_diag. reflexivity. }
      assert (Hrun : forall l, l < n -> good_output l (W ++ [w]) i n row w /\ good_state l (W ++ [w]) (i + 1) n (Some st')).
      { intros l Hl. apply (step_run l (W ++ [w]) i n st row st' w).
        - intros s Hs. exact (proj1 (Hst s Hs)).
        - intros _. exact (proj1 Hrow).
        - eapply good_state_ext; [exact Hold|exact (HS l Hl)].
        - exact HWi.
        - exact E. }
      assert (Hpos' : forall l, l < n -> positive_before l (W ++ [w]) i).
      { intros l Hl. eapply positive_before_ext; [exact Hold|exact (Hpos l Hl)]. }
      specialize (IH (i + 1) (Some st') (W ++ [w])).
      destruct (iter_rows (Some st') rows None) as [ws' e']. cbn [yield_then fst snd].
      destruct IH as (I1 & I2 & I3).
      + rewrite app_length. cbn. lia.
      + lia.
      + intros j row' Hj. replace (i + 1 + j) with (i + S j) by lia. apply Hrows. exact Hj.
      + intros s Hs. injection Hs as <-. auto.
      + intros l Hl. exact (proj2 (Hrun l Hl)).
      + intros l Hl f Hf. destruct (Nat.eq_dec f i) as [->|Hne].
        * cbv beta. fold empty_stack. rewrite (nth_error_nth _ _ _ HWi). apply Hw; exact Hl.
        * apply Hpos'; [exact Hl|lia].
      + intros l f g Hl Hf Hg.
        assert (Hlt : forall f g, f < i -> g < i ->
          covariance (i + 1) (out_coef (W ++ [w]) l f) (out_coef (W ++ [w]) l g) = c l f g).
        { intros f0 g0 Hf0 Hg0. rewrite <- (Hgram l f0 g0 Hl Hf0 Hg0). unfold covariance.
          rewrite Nat.add_1_r. cbn [rsum]. unfold out_coef. rewrite <- !Hold by assumption.
          rewrite (coefficient_upper _ _ f0 i) by lia. rewrite Rmult_0_l, Rplus_0_r. reflexivity. }
        destruct (Hrun l Hl) as [HO _].
        assert (Hif : forall f, f < i -> covariance (i + 1) (out_coef (W ++ [w]) l i) (out_coef (W ++ [w]) l f) = c l i f).
        { intros f0 Hf0. destruct (le_lt_dec i (f0 + k)) as [Hfk|Hfk].
          - rewrite (output_covariance l (W ++ [w]) i n row w HWi HO (i + 1) f0 (Hpos' l Hl)) by lia.
            destruct Hrow as (_ & _ & R3). apply R3; lia.
          - rewrite Hband by lia. unfold covariance. apply rsum_zero. intros q Hq. unfold out_coef.
            destruct (le_lt_dec q f0) as [H|H]; [|rewrite (coefficient_upper _ _ f0 q) by exact H; ring].
            unfold coefficient at 1. rewrite (nth_error_nth _ _ _ HWi), (proj2 (Nat.leb_gt i (q + (width w - 1)))) by lia. cbn [andb]. ring. }
        destruct (Nat.eq_dec f i) as [->|Hfi], (Nat.eq_dec g i) as [->|Hgi].
        * rewrite (output_variance l (W ++ [w]) i n row w HWi HO (i + 1)) by lia.
          destruct Hrow as (_ & _ & R3). rewrite <- (R3 l i Hl (le_n i) ltac:(lia)). f_equal. lia.
        * apply Hif; lia.
        * rewrite covariance_comm, Hif by lia. apply (Hdef l Hl); lia.
        * apply Hlt; lia.
      + split; [exact I1|]. split; [cbn; lia|]. intros w' l [<-|Hin] Hl; [apply Hw; exact Hl|].
        apply I3; assumption.
  Qed.
End Accept.

Lemma iternorm_outputs rows e0 l :
  forall j w, nth_error (fst (iternorm (rows, e0))) j = Some w ->
    exists row, nth_error rows j = Some row /\
      good_output l (fst (iternorm (rows, e0))) j (lead (nth 0 rows empty_stack)) row w.
Proof.
  intros j w Hj. unfold iternorm in *. cbn [fst snd] in *.
  apply (iter_run l (fst (iter_rows None rows e0)) (lead (nth 0 rows empty_stack)) e0 rows 0 None); auto.
  - reflexivity.
  - discriminate.
  - intros _ row H. rewrite (nth_error_nth _ _ _ H). reflexivity.
Qed.

Lemma iter_rows_length : forall rows st e0,
  length (fst (iter_rows st rows e0)) <= length rows /\
  (length (fst (iter_rows st rows e0)) = length rows -> snd (iter_rows st rows e0) = e0) /\
  (length (fst (iter_rows st rows e0)) < length rows -> exists e, snd (iter_rows st rows e0) = Some e).
Proof.
  induction rows as [|row rows IH]; intros st e0; cbn.
  - split; [lia|]. split; [reflexivity|lia].
  - destruct (iter_step st row) as [[st' w]|x]; cbn.
    + destruct (IH (Some st') e0) as (I1 & I2 & I3). split; [lia|]. split; intro H; [apply I2|apply I3]; lia.
    + split; [lia|]. split; [lia|]. intros _. eauto.
Qed.

Lemma finish_total n k size m row :
  (forall l, l < n -> let a b := rsum k (fun e => (m l (b + (size - k))%nat (e + (size - k))%nat * el row l (k - e)%nat)%R) in
     (0 <= el row l 0 - rsum k (fun b => (a b * a b)))%R) ->
  exists r, finish n k size m row = Ok r.
Proof.
  intro H. unfold finish. destruct (existsb _ _) eqn:E; [|eauto].
  apply existsb_exists in E as (l & Hl & Hn). apply in_seq in Hl. apply negative_true in Hn.
  specialize (H l ltac:(lia)). cbv zeta in H. lra.
Qed.

(** Slices without variance do not change the other slices, and stay zero. *)
Section Absent.
  Variable z : nat -> bool.

  Definition like_row (row row' : stack) : Prop :=
    lead row = lead row' /\ width row = width row' /\
    forall l, l < lead row -> if z l then el row l 0 = 0%R else forall d, el row l d = el row' l d.
  Definition like_state (n k : nat) (m : nat -> nat -> nat -> R) (a : nat -> nat -> R) (s : nat -> R)
      (m' : nat -> nat -> nat -> R) (a' : nat -> nat -> R) (s' : nat -> R) : Prop :=
    forall l, l < n -> if z l then (forall b e, m l b e = 0%R) /\ (forall b, a l b = 0%R) /\ s l = 0%R
                       else (forall b e, m l b e = m' l b e) /\ (forall b, a l b = a' l b) /\ s l = s' l.
  Definition like (st st' : iter_state) : Prop :=
    st_n st = st_n st' /\ st_k st = st_k st' /\
    like_state (st_n st) (st_k st) (st_m st) (st_a st) (st_s st) (st_m st') (st_a st') (st_s st').
  Definition like_output (w w' : stack) : Prop :=
    lead w = lead w' /\ width w = width w' /\
    forall l b, l < lead w -> el w l b = if z l then 0%R else el w' l b.

  Lemma like_finish n k size m m' row row' r' : lead row = n -> like_row row row' ->
    (forall l, l < n -> if z l then forall b e, m l b e = 0%R else forall b e, m l b e = m' l b e) ->
    finish n k size m' row' = Ok r' -> exists r, finish n k size m row = Ok r /\ like (fst r) (fst r') /\ like_output (snd r) (snd r').
  Proof.
    intros Hn (_ & _ & Hr) Hm H.
    assert (A : forall l b, l < n -> rsum k (fun e => (m l (b + (size - k))%nat (e + (size - k))%nat * el row l (k - e)%nat)%R)
      = if z l then 0%R else rsum k (fun e => (m' l (b + (size - k))%nat (e + (size - k))%nat * el row' l (k - e)%nat)%R)).
    { intros l b Hl. specialize (Hm l Hl). specialize (Hr l ltac:(lia)). destruct (z l).
      - apply rsum_zero. intros e _. rewrite Hm. ring.
      - apply rsum_ext. intros e _. rewrite Hm, Hr. reflexivity. }
    assert (B : forall l, l < n ->
      (el row l 0 - rsum k (fun b => rsum k (fun e => (m l (b + (size - k))%nat (e + (size - k))%nat * el row l (k - e)%nat)) *
         rsum k (fun e => (m l (b + (size - k))%nat (e + (size - k))%nat * el row l (k - e)%nat))))%R
      = if z l then 0%R else
      (el row' l 0 - rsum k (fun b => rsum k (fun e => (m' l (b + (size - k))%nat (e + (size - k))%nat * el row' l (k - e)%nat)) *
         rsum k (fun e => (m' l (b + (size - k))%nat (e + (size - k))%nat * el row' l (k - e)%nat))))%R).
    { intros l Hl.
      rewrite (rsum_ext k _ (fun b => ((if z l then 0 else rsum k (fun e => (m' l (b + (size - k))%nat (e + (size - k))%nat * el row' l (k - e)%nat))) *
        (if z l then 0 else rsum k (fun e => (m' l (b + (size - k))%nat (e + (size - k))%nat * el row' l (k - e)%nat))))%R))
        by (intros b _; rewrite A by exact Hl; reflexivity).
      specialize (Hr l ltac:(lia)). destruct (z l).
      - rewrite Hr, rsum_zero by (intros; ring). ring.
      - rewrite Hr. reflexivity. }
    unfold finish in *. cbv zeta beta in *. destruct (existsb _ (seq 0 n)) eqn:E' in H; [discriminate|]. injection H as <-.
    match goal with |- context [existsb ?f (seq 0 n)] => destruct (existsb f (seq 0 n)) eqn:E end.
    - exfalso. apply existsb_exists in E as (l & Hl & Hx). apply in_seq in Hl. apply negative_true in Hx.
      rewrite B in Hx by lia. destruct (z l); [lra|].
      assert (T : existsb (fun l => negative (el row' l 0 - rsum k (fun b => rsum k (fun e => (m' l (b + (size - k))%nat (e + (size - k))%nat * el row' l (k - e)%nat)) *
         rsum k (fun e => (m' l (b + (size - k))%nat (e + (size - k))%nat * el row' l (k - e)%nat))))%R) (seq 0 n) = true).
      { apply existsb_exists. exists l. split; [apply in_seq; lia|]. apply negative_true. exact Hx. }
      congruence.
    - eexists. split; [reflexivity|]. split.
      + split; [reflexivity|]. split; [reflexivity|]. intros l Hl. cbn [fst st_n st_m st_a st_s] in *.
        rewrite B by exact Hl. pose proof (fun b => A l b Hl) as Al. specialize (Hm l Hl). destruct (z l).
        * split; [intros; apply Hm|]. split; [exact Al|]. apply sqrt_0.
        * split; [intros; apply Hm|]. split; [exact Al|reflexivity].
      + split; [reflexivity|]. split; [reflexivity|]. intros l b Hl. cbn [snd lead el] in *.
        rewrite A, B by exact Hl. destruct (z l); [rewrite sqrt_0; destruct (b <? k); reflexivity|reflexivity].
  Qed.

  Lemma like_step st st' row row' r' : like_row row row' ->
    match st, st' with None, None => True | Some st, Some st' => like st st' | _, _ => False end ->
    iter_step st' row' = Ok r' -> exists r, iter_step st row = Ok r /\ like (fst r) (fst r') /\ like_output (snd r) (snd r').
  Proof.
    intros Hr Hs H. pose proof Hr as (R1 & R2 & R3). unfold iter_step in *. rewrite R2.
    destruct (width row' =? 0); [discriminate|]. destruct st as [st|], st' as [st'|]; try contradiction.
    - destruct Hs as (S1 & S2 & S3). rewrite R1, S1, S2.
      destruct (Nat.eqb_spec (lead row') (st_n st')) as [El|]; [|discriminate]. cbn [negb] in *.
      destruct (st_k st' + 1 <? width row' - 1); [discriminate|].
      refine (like_finish _ _ _ _ _ _ _ _ _ Hr _ H); [congruence|].
      intros l Hl. specialize (S3 l ltac:(lia)). destruct (z l); destruct S3 as (M & A & S); intros b e; unfold extend.
      + rewrite S. destruct (Rlt_dec 0 0); [lra|].
        rewrite rsum_zero by (intros; rewrite A; ring). rewrite M. destruct (b <? st_k st'), (e <? st_k st'); lra.
      + rewrite S. rewrite (rsum_ext (st_k st') (fun b => (st_a st l b * st_m st l b e)%R) (fun b => (st_a st' l b * st_m st' l b e)%R))
          by (intros; rewrite A, M; reflexivity). rewrite M. reflexivity.
    - rewrite R1. refine (like_finish _ _ _ _ _ _ _ _ _ Hr _ H); [congruence|].
      intros l _. destruct (z l); reflexivity.
  Qed.

  Lemma like_rows rows rows' e : Forall2 like_row rows rows' -> forall st st' ws',
    match st, st' with None, None => True | Some st, Some st' => like st st' | _, _ => False end ->
    iter_rows st' rows' e = (ws', e) -> length ws' = length rows' ->
    exists ws, iter_rows st rows e = (ws, e) /\ Forall2 like_output ws ws'.
  Proof.
    induction 1 as [|row row' rows rows' Hr _ IH]; intros st st' ws' Hs H Hl; cbn [iter_rows] in *.
    - injection H as <-. exists []. split; [reflexivity|constructor].
    - destruct (iter_step st' row') as [[s' w']|x] eqn:E.
      + destruct (like_step _ _ _ _ _ Hr Hs E) as ((s & w) & -> & L1 & L2). cbn [fst snd] in L1, L2.
        destruct (iter_rows (Some s') rows' e) as [out x] eqn:E'. cbn in H. injection H as <- ->. cbn in Hl.
        destruct (IH (Some s) (Some s') out L1 E' ltac:(lia)) as (ws & Ew & F). rewrite Ew. exists (w :: ws). split; [reflexivity|].
        constructor; assumption.
      + injection H as <- <-. discriminate.
  Qed.
End Absent.

Lemma banded_far k c i j : j + k < i -> banded k c i j = 0%R.
Proof. intro H. unfold banded. rewrite (proj2 (Nat.leb_gt i (j + k))) by exact H. reflexivity. Qed.
Lemma banded_near k c i j : j <= i -> i - j <= k -> banded k c i j = c i j.
Proof. intros H1 H2. unfold banded. rewrite (proj2 (Nat.leb_le i (j + k))), (proj2 (Nat.leb_le j (i + k))) by lia. reflexivity. Qed.
Lemma banded_all k c N i j : N <= k + 1 -> i < N -> j < N -> banded k c i j = c i j.
Proof. intros H1 H2 H3. unfold banded. rewrite (proj2 (Nat.leb_le i (j + k))), (proj2 (Nat.leb_le j (i + k))) by lia. reflexivity. Qed.
Lemma definite_ext N c c' : (forall i j, i < N -> j < N -> c i j = c' i j) -> definite N c -> definite N c'.
Proof.
  intros E (Hs & Hp). split.
  - intros i j Hi Hj. rewrite <- !E by assumption. apply Hs; assumption.
  - intros v Hv. replace (quadratic N c' v) with (quadratic N c v); [apply Hp; exact Hv|].
    apply rsum_ext. intros i Hi. apply rsum_ext. intros j Hj. rewrite E by assumption. reflexivity.
Qed.
Lemma absent_ext N c c' : (forall i j, i < N -> j < N -> c i j = c' i j) -> absent N c -> absent N c'.
Proof. intros E H i j Hi Hj. rewrite <- E by assumption. apply H; assumption. Qed.
