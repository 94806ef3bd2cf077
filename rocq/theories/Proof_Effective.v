From Verif Require Import RSum Model_Spectra Spec_Spectra Proof_Spectra Model_Fields Spec_Fields Proof_Fields
  Model_Arrays Spec_Arrays Model_Effective.
Local Open Scope nat_scope.

Lemma ndindex_In s i : In i (ndindex s) <-> inside s i.
Proof.
  revert i; induction s as [|d s IH]; intro i; cbn.
  - split; [intros [<-|[]]; constructor|]. intro H. inversion H. left; reflexivity.
  - rewrite in_flat_map. split.
    + intros (x & Hx & Hi). apply in_seq in Hx. apply in_map_iff in Hi as (r & <- & Hr).
      constructor; [lia|]. apply IH. exact Hr.
    + intro H. inversion H as [|x n r s' Hx Hr]; subst. exists x. split; [apply in_seq; lia|].
      apply in_map_iff. exists r. split; [reflexivity|]. apply IH. exact Hr.
Qed.

Lemma product_In {A B} (l : list A) (l' : list B) x y : In (x, y) (product l l') <-> In x l /\ In y l'.
Proof.
  unfold product. rewrite in_flat_map. split.
  - intros (a & Ha & H). apply in_map_iff in H as (b & E & Hb). injection E as -> ->. auto.
  - intros [Hx Hy]. exists x. split; [exact Hx|]. apply in_map_iff. eauto.
Qed.

Lemma combinations2_In {A} (l : list A) x y : In (x, y) (combinations2 l) -> In x l /\ In y l.
Proof.
  induction l as [|a l IH]; cbn; [intros []|].
  intros [E|H]; [injection E as -> ->; auto|]. apply in_app_or in H as [H|H].
  - apply in_map_iff in H as (b & E & Hb). injection E as -> ->. auto.
  - destruct (IH H). auto.
Qed.
Lemma combinations2_total {A} (l : list A) x y : In x l -> In y l ->
  In (x, y) (combinations2 l) \/ In (y, x) (combinations2 l).
Proof.
  induction l as [|a l IH]; cbn; [intros []|]. intros [->|Hx] [->|Hy].
  - left; left; reflexivity.
  - left; right. apply in_or_app; left. apply in_map_iff; eauto.
  - right; right. apply in_or_app; left. apply in_map_iff; eauto.
  - destruct (IH Hx Hy); [left|right]; right; apply in_or_app; right; assumption.
Qed.

Lemma getcl_modes_ok cls n i j k : triangle n (length cls) -> i < n -> j < n ->
  exists cl, spectrum_of cls i j cl /\ exists r, getcl_modes cls i j k = Ok r /\ length r = k /\
    forall l, l < k -> nth_error r l = Some (mode 0%R cl l).
Proof.
  intros Ht Hi Hj. unfold getcl_modes.
  assert (Ho := in_order_exists (Nat.max i j) (Nat.min i j) ltac:(lia)).
  set (q := _ + _ - _) in Ho. assert (Hq : q < length cls) by (apply (proj1 (in_order_lt _ _ _ _ _ Ht Ho)); lia).
  destruct (nth_error cls q) as [cl|] eqn:E; [|apply nth_error_None in E; lia].
  exists cl. split; [exists q; auto|].
  rewrite (proj2 (getcl_none 0%R cls i j cl)) by eauto. cbn [bind]. eexists. split; [reflexivity|]. unfold mode.
  destruct (Nat.ltb_spec k (length cl)) as [H|H].
  - split; [rewrite firstn_length; lia|]. intros l Hl. rewrite nth_error_firstn, (proj2 (Nat.ltb_lt _ _) Hl).
    apply nth_error_nth'. lia.
  - split; [rewrite app_length, repeat_length; lia|]. intros l Hl. rewrite nth_error_app.
    destruct (Nat.ltb_spec l (length cl)) as [H'|H']; [apply nth_error_nth'; exact H'|].
    rewrite nth_error_repeat', (proj2 (Nat.ltb_lt _ _)), nth_overflow by lia. reflexivity.
Qed.

Section Sum.
  Variables (cls : list (list R)) (n k : nat).
  Hypothesis Ht : triangle n (length cls).

  (** sum of [f a b l] over a list of pairs *)
  Fixpoint psum (f : nat -> nat -> R) (t : list (nat * nat)) : R :=
    match t with [] => 0%R | (a, b) :: t => (f a b + psum f t)%R end.

  Lemma add_terms_ok w1 w2 (c : nat -> nat -> nat -> R) :
    covariance_of 0%R cls k n c ->
    forall terms acc, (forall a b, In (a, b) terms -> a < n /\ b < n) -> length acc = k ->
    exists r, add_terms cls k w1 w2 terms acc = Ok r /\ length r = k /\
      forall l, l < k -> nth l r 0%R = (nth l acc 0 + psum (fun a b => w1 a * w2 b * c l a b) terms)%R.
  Proof.
    intros Hc. induction terms as [|[a b] terms IH]; intros acc Hin Ha.
    - exists acc. cbn. split; [reflexivity|]. split; [exact Ha|]. intros; lra.
    - destruct (Hin a b (or_introl eq_refl)) as [Hl1 Hl2].
      destruct (getcl_modes_ok cls n a b k Ht Hl1 Hl2) as (cl & Hs & r & E & Lr & Hr).
      cbn [add_terms psum]. rewrite E. cbn [bind].
      destruct (IH (map (fun '(s, x) => (s + w1 a * w2 b * x)%R) (combine acc r))) as (o & Eo & Lo & Ho).
      + intros x y H. apply Hin. right; exact H.
      + rewrite map_length, combine_length. lia.
      + exists o. split; [exact Eo|]. split; [exact Lo|]. intros l Hl. rewrite (Ho l Hl).
        assert (E1 : nth_error (map (fun '(s, x) => (s + w1 a * w2 b * x)%R) (combine acc r)) l
                     = Some (nth l acc 0 + w1 a * w2 b * c l a b)%R).
        { rewrite nth_error_map, nth_error_combine, (Hr l Hl).
          rewrite (nth_error_nth' acc 0%R) by lia. cbn [option_map].
          destruct (Hc l a b Hl Hl1 Hl2) as (cl' & Hs' & ->).
          rewrite (spectrum_unique _ _ _ _ _ Hs Hs'). reflexivity. }
        rewrite (nth_error_nth _ _ _ E1). lra.
  Qed.

  Lemma psum_app f t t' : psum f (t ++ t') = (psum f t + psum f t')%R.
  Proof. induction t as [|[a b] t IH]; cbn; [lra|]. rewrite IH. lra. Qed.
  Lemma psum_row f a m : psum f (map (fun y => (a, y)) (seq 0 m)) = rsum m (f a).
  Proof.
    induction m as [|m IH]; [reflexivity|]. rewrite seq_S, map_app, psum_app, IH. cbn. lra.
  Qed.
  Lemma psum_product f m m' : psum f (product (seq 0 m) (seq 0 m')) = rsum m (fun a => rsum m' (f a)).
  Proof.
    unfold product. induction m as [|m IH]; [reflexivity|].
    rewrite seq_S, flat_map_app, psum_app, IH. cbn [flat_map Nat.add]. rewrite app_nil_r, psum_row. reflexivity.
  Qed.

  (** The covariance exists. *)
  Lemma covariance_exists : exists c, covariance_of 0%R cls k n c.
  Proof.
    exists (fun l i j => match getcl 0%R cls i j None with Ok cl => mode 0%R cl l | Err _ => 0%R end).
    intros l i j Hl Hi Hj. destruct (getcl_modes_ok cls n i j k Ht Hi Hj) as (cl & Hs & _).
    exists cl. split; [exact Hs|]. destruct Hs as (q & H1 & H2).
    rewrite (proj2 (getcl_none 0%R cls i j cl)) by eauto. reflexivity.
  Qed.

  Lemma covariance_of_sym c : covariance_of 0%R cls k n c -> forall l i j, l < k -> i < n -> j < n -> c l i j = c l j i.
  Proof.
    intros Hc l i j Hl Hi Hj. destruct (Hc l i j Hl Hi Hj) as (cl & H1 & ->). destruct (Hc l j i Hl Hj Hi) as (cl' & H2 & ->).
    f_equal. apply (spectrum_unique cls i j); [exact H1|]. destruct H2 as (q & H2). exists q. rewrite Nat.max_comm, Nat.min_comm. exact H2.
  Qed.

  Section Fill.
    Variables (weights1 weights2 : array R) (same : bool) (s1 s2 : list nat) (c : nat -> nat -> nat -> R).
    Hypothesis Hsame : same = true -> weights1 = weights2 /\ s1 = s2.
    Hypothesis Hc : covariance_of 0%R cls k n c.

    Definition combined (j1 j2 : list nat) (v : list R) : Prop :=
      length v = k /\ forall l, l < k -> nth l v 0%R =
        rsum n (fun a => rsum n (fun b => (aget weights1 (a :: j1) * aget weights2 (b :: j2) * c l a b)%R)).

    Definition sound (out : store) : Prop :=
      forall i v, out i = Some v -> exists j1 j2, inside s1 j1 /\ inside s2 j2 /\ i = j1 ++ j2 /\ combined j1 j2 v.

    Lemma put_sound out j1 j2 v : inside s1 j1 -> inside s2 j2 -> combined j1 j2 v -> sound out -> sound (put out (j1 ++ j2) v).
    Proof.
      intros H1 H2 Hv Hs i x. unfold put. destruct (list_eq_dec Nat.eq_dec i (j1 ++ j2)) as [->|Hne].
      - intro E. injection E as <-. eauto 6.
      - apply Hs.
    Qed.

    Definition mono (out out' : store) : Prop := forall i v, out i = Some v -> exists v', out' i = Some v'.
    Lemma put_mono out i v : mono out (put out i v).
    Proof. intros i' x Hx. unfold put. destruct (list_eq_dec Nat.eq_dec i' i); eauto. Qed.

    Lemma fill_ok : forall pairs out,
      (forall j1 j2, In (j1, j2) pairs -> inside s1 j1 /\ inside s2 j2) -> sound out ->
      exists out', fill_out cls n k weights1 weights2 same pairs out = Ok out' /\ sound out' /\ mono out out' /\
        forall j1 j2, In (j1, j2) pairs ->
          (exists v, out' (j1 ++ j2) = Some v) /\ (same = true -> exists v, out' (j2 ++ j1) = Some v).
    Proof.
      induction pairs as [|[j1 j2] pairs IH]; intros out Hin Hs.
      - exists out. split; [reflexivity|]. split; [exact Hs|]. split; [intros i v; eauto|]. intros ? ? [].
      - cbn [fill_out]. destruct (Hin j1 j2 (or_introl eq_refl)) as [I1 I2].
        destruct (add_terms_ok (fun i => aget weights1 (i :: j1)) (fun i => aget weights2 (i :: j2)) c Hc
          (product (seq 0 n) (seq 0 n)) (repeat 0%R k)) as (v & Ev & Lv & Hv).
        { intros a b H. apply product_In in H. rewrite !in_seq in H. lia. }
        { apply repeat_length. }
        rewrite Ev. cbn [bind].
        assert (Cv : combined j1 j2 v).
        { split; [exact Lv|]. intros l Hl. rewrite (Hv l Hl), psum_product.
          rewrite nth_repeat. lra. }
        assert (Cv' : same = true -> combined j2 j1 v).
        { intro E. destruct (Hsame E) as [Ew _]. split; [exact Lv|]. intros l Hl. rewrite (proj2 Cv l Hl), Ew, rsum_swap.
          apply rsum_ext. intros b Hb. apply rsum_ext. intros a Ha.
          rewrite (covariance_of_sym c Hc l a b Hl Ha Hb). ring. }
        set (out1 := put out (j1 ++ j2) v).
        set (out2 := if same && _ then _ else out1).
        assert (S1 : sound out1) by (apply put_sound; assumption).
        assert (S2 : sound out2).
        { unfold out2. destruct same eqn:Es; [|exact S1]. cbn [andb]. destruct (list_eq_dec Nat.eq_dec j1 j2); [exact S1|].
          destruct (Hsame eq_refl) as [_ E2]. apply put_sound; [rewrite E2; exact I2|rewrite <- E2; exact I1|apply Cv'; reflexivity|exact S1]. }
        assert (M2 : mono out1 out2).
        { unfold out2. destruct (same && _); [apply put_mono|intros i x; eauto]. }
        destruct (IH out2) as (out' & Eo & So & Mo & Wo); [intros; apply Hin; right; assumption|exact S2|].
        exists out'. split; [exact Eo|]. split; [exact So|].
        assert (W1 : exists x, out1 (j1 ++ j2) = Some x).
        { unfold out1, put. destruct (list_eq_dec Nat.eq_dec (j1 ++ j2) (j1 ++ j2)); [eauto|contradiction]. }
        split.
        + intros i x Hx. destruct (put_mono out (j1 ++ j2) v i x Hx) as (y & Hy).
          destruct (M2 i y Hy) as (z & Hz). exact (Mo i z Hz).
        + intros a b [E|H]; [injection E as <- <-|exact (Wo a b H)].
          destruct W1 as (x & W1). split.
          * destruct (M2 _ _ W1) as (y & Hy). exact (Mo _ _ Hy).
          * intro Es. assert (Hz : exists z, out2 (j2 ++ j1) = Some z).
            { unfold out2. rewrite Es. cbn [andb]. destruct (list_eq_dec Nat.eq_dec j1 j2) as [E|E].
              - rewrite <- E in *. eauto.
              - unfold put. destruct (list_eq_dec Nat.eq_dec (j2 ++ j1) (j2 ++ j1)); [eauto|contradiction]. }
            destruct Hz as (z & Hz). exact (Mo _ _ Hz).
    Qed.
  End Fill.
End Sum.

Lemma inside_length s i : inside s i -> length i = length s.
Proof. unfold inside. induction 1; cbn; congruence. Qed.

Lemma app_split {A} (a b c d : list A) : length a = length c -> a ++ b = c ++ d -> a = c /\ b = d.
Proof.
  revert c; induction a as [|x a IH]; intros [|y c] Hl H; cbn in *; try discriminate; [auto|].
  injection H as -> H. destruct (IH c ltac:(lia) H) as [-> ->]. auto.
Qed.

Lemma longest_unique {A} (cls : list (list A)) k k' : longest cls k -> longest cls k' -> k = k'.
Proof.
  intros [H1 H2] [H3 H4]. apply Nat.le_antisymm.
  - destruct H2 as [->|(cl & H & <-)]; [lia|auto].
  - destruct H4 as [->|(cl & H & <-)]; [lia|auto].
Qed.

Lemma effective_cls_ok cls w1 w2 lmax n k s1 s2 (c : nat -> nat -> nat -> R) :
  let w2' := match w2 with Some w => w | None => w1 end in
  triangle n (length cls) -> ashape w1 = n :: s1 -> ashape w2' = n :: s2 ->
  match lmax with Some lm => k = lm + 1 | None => longest cls k end ->
  covariance_of 0%R cls k n c ->
  exists out, effective_cls cls w1 w2 lmax = Ok (s1 ++ s2 ++ [k], out) /\
    forall j1 j2, inside s1 j1 -> inside s2 j2 ->
      exists v, out (j1 ++ j2) = Some v /\ combined n k w1 w2' c j1 j2 v.
Proof.
  intros w2' Ht E1 E2 Hk Hc. unfold effective_cls.
  rewrite (proj2 (nfields_ok _ _) Ht). cbn [bind]. rewrite E1. fold w2'. rewrite E2, Nat.eqb_refl. cbn [andb negb].
  assert (Ek : match lmax with None => max_length (map (@length R) cls) | Some lm => lm + 1 end = k).
  { destruct lmax; [auto|]. apply (longest_unique cls); [apply max_length_spec|exact Hk]. }
  rewrite Ek.
  set (same := match w2 with None => true | Some _ => false end).
  set (pairs := if same then _ else _).
  assert (Hsame : same = true -> w1 = w2' /\ s1 = s2).
  { unfold same, w2' in *. destruct w2; [discriminate|]. intros _. split; [reflexivity|]. congruence. }
  assert (Hp : forall j1 j2, In (j1, j2) pairs -> inside s1 j1 /\ inside s2 j2).
  { intros j1 j2 H. unfold pairs in H. destruct same.
    - destruct (Hsame eq_refl) as [_ <-]. apply combinations2_In in H. rewrite !ndindex_In in H. exact H.
    - apply product_In in H. rewrite !ndindex_In in H. exact H. }
  destruct (fill_ok cls n k Ht w1 w2' same s1 s2 c Hsame Hc pairs (fun _ => None) Hp) as (out & Eo & So & _ & Wo).
  { intros i v; discriminate. }
  rewrite Eo. cbn [bind]. exists out. split; [reflexivity|].
  intros j1 j2 H1 H2.
  assert (Hv : exists v, out (j1 ++ j2) = Some v).
  { unfold pairs in Wo. destruct same eqn:Es.
    - destruct (Hsame eq_refl) as [_ <-].
      destruct (combinations2_total (ndindex s1) j1 j2) as [H|H]; try (apply ndindex_In; assumption).
      + exact (proj1 (Wo _ _ H)).
      + exact (proj2 (Wo _ _ H) eq_refl).
    - assert (H : In (j1, j2) (product (ndindex s1) (ndindex s2))) by (apply product_In; rewrite !ndindex_In; auto).
      exact (proj1 (Wo _ _ H)). }
  destruct Hv as (v & Hv). exists v. split; [exact Hv|].
  destruct (So _ _ Hv) as (a & b & A1 & A2 & E & Hcomb).
  apply app_split in E as [-> ->]; [exact Hcomb|].
  rewrite (inside_length _ _ H1), (inside_length _ _ A1). reflexivity.
Qed.
