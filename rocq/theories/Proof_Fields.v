From Verif Require Import Base Model_Spectra Spec_Spectra Proof_Spectra Model_Fields Spec_Fields.

Lemma nth_set_item {A} (l : list A) i j x :
  nth_error (set_item l i x) j = if (i =? j) && (i <? length l) then Some x else nth_error l j.
Proof.
  revert i j; induction l as [|y l IH]; intros [|i] [|j]; simpl; auto.
  - destruct (i =? j); reflexivity.
  - rewrite IH. reflexivity.
Qed.

Lemma set_item_length {A} (l : list A) i x : length (set_item l i x) = length l.
Proof. revert i; induction l as [|y l IH]; intros [|i]; simpl; auto. Qed.

Section Cls2cov.
  Context {A : Type} (zero : A) (half : A -> A) (neg : A -> bool).
  Hypothesis half_zero : half zero = zero.

  Lemma fill_row_ok nl : forall xs s cov,
    (forall cl, In cl xs -> length cl <= nl) ->
    (s = 0 -> forall cl, nth_error xs 0 = Some cl -> existsb neg cl = false) ->
    exists cov', fill_row zero neg nl cov (combine (seq s (length xs)) xs) = Ok cov' /\
      length cov' = length cov /\
      forall i, nth_error cov' i =
        if (s <=? i) && (i <? s + length xs) && (i <? length cov)
        then option_map (fun cl => cl ++ repeat zero (nl - length cl)) (nth_error xs (i - s))
        else nth_error cov i.
  Proof.
    induction xs as [|cl xs IH]; intros s cov Hl Hn.
    - exists cov. split; [reflexivity|]. split; [reflexivity|]. intro i. simpl.
      destruct (Nat.leb_spec s i), (Nat.ltb_spec i (s + 0)); try reflexivity. lia.
    - cbn [length seq combine fill_row].
      assert (E : (s =? 0) && existsb neg cl = false).
      { destruct (Nat.eqb_spec s 0) as [->|]; [|reflexivity]. simpl. apply Hn; reflexivity. }
      rewrite E. unfold put_column.
      assert (Hle : length cl <=? nl = true) by (apply Nat.leb_le, Hl; left; reflexivity).
      rewrite Hle. cbn [bind].
      destruct (IH (S s) (set_item cov s (cl ++ repeat zero (nl - length cl)))) as (cov' & E' & L & G).
      + intros c Hc. apply Hl. right; exact Hc.
      + intros H; discriminate H.
      + exists cov'. split; [exact E'|]. split; [rewrite L; apply set_item_length|].
        intro i. rewrite G, set_item_length, nth_set_item.
        destruct (Nat.leb_spec s i) as [H1|H1].
        * destruct (Nat.eqb_spec s i) as [<-|H2].
          -- assert (Hx : S s <=? s = false) by (apply Nat.leb_gt; lia). rewrite Hx. simpl.
             rewrite Nat.sub_diag. assert (Hy : s <? s + S (length xs) = true) by (apply Nat.ltb_lt; lia).
             rewrite Hy. simpl. destruct (s <? length cov); reflexivity.
          -- assert (Hx : S s <=? i = true) by (apply Nat.leb_le; lia). rewrite Hx.
             replace (s + S (length xs)) with (S s + length xs) by lia. simpl andb.
             replace (i - s) with (S (i - S s)) by lia. reflexivity.
        * assert (Hx : S s <=? i = false) by (apply Nat.leb_gt; lia). rewrite Hx. simpl.
          destruct (Nat.eqb_spec s i); [lia|]. reflexivity.
  Qed.

  Lemma fill_row_neg nl cov cl xs : existsb neg cl = true ->
    fill_row zero neg nl cov (enum (cl :: xs)) = Err ValueError.
  Proof. intro H. unfold enum. cbn [length seq combine fill_row]. rewrite H. reflexivity. Qed.

  (** The spectra of block [j] of a complete list. *)
  Lemma block_nth (cls : list (list A)) nf j nc i : triangle nf (length cls) -> j < nf ->
    let t := j * (j + 1) / 2 in
    nth_error (firstn (nc + 1) (firstn (t + j + 1 - t) (skipn t cls))) i =
    if (i <? nc + 1) && (i <? j + 1) then nth_error cls (t + i) else None.
  Proof.
    intros Ht Hj t. rewrite !nth_error_firstn, nth_error_skipn.
    replace (t + j + 1 - t) with (j + 1) by lia.
    destruct (i <? nc + 1), (i <? j + 1); reflexivity.
  Qed.

  Lemma block_length (cls : list (list A)) nf j nc : triangle nf (length cls) -> j < nf ->
    let t := j * (j + 1) / 2 in
    length (firstn (nc + 1) (firstn (t + j + 1 - t) (skipn t cls))) = Nat.min (nc + 1) (j + 1).
  Proof.
    intros Ht Hj t. rewrite !firstn_length, skipn_length.
    assert (Hb : t + j + 1 <= length cls).
    { unfold triangle in Ht. pose proof (tri2 j) as T. fold t in T. nia. }
    lia.
  Qed.

  Lemma block_spectrum (cls : list (list A)) nf j i : triangle nf (length cls) -> j < nf -> i <= j ->
    exists cl, nth_error cls (j * (j + 1) / 2 + i) = Some cl /\ spectrum_of cls j (j - i) cl.
  Proof.
    intros Ht Hj Hi. pose proof (tri2 j) as T. set (t := j * (j + 1) / 2) in *.
    assert (Hb : t + i < length cls) by (unfold triangle in Ht; nia).
    destruct (nth_error cls (t + i)) as [cl|] eqn:E; [|apply nth_error_None in E; lia].
    exists cl. split; [reflexivity|]. exists (t + i). split; [|exact E].
    rewrite Nat.max_l, Nat.min_r by lia. unfold in_order. split; [lia|].
    replace (j - (j - i)) with i by lia. lia.
  Qed.

  Lemma spectrum_unique (cls : list (list A)) i j cl cl' :
    spectrum_of cls i j cl -> spectrum_of cls i j cl' -> cl = cl'.
  Proof.
    intros (k & H1 & H2) (k' & H1' & H2'). rewrite (in_order_inj _ _ _ _ H1 H1') in H2. congruence.
  Qed.

  Lemma pad_mode (cl : list A) nl l : length cl <= nl -> l < nl ->
    nth_error (cl ++ repeat zero (nl - length cl)) l = Some (mode zero cl l).
  Proof.
    intros H1 H2. rewrite nth_error_app. unfold mode. destruct (Nat.ltb_spec l (length cl)).
    - apply nth_error_nth'. exact H.
    - rewrite nth_error_repeat'. assert (E : l - length cl <? nl - length cl = true) by (apply Nat.ltb_lt; lia).
      rewrite E. rewrite nth_overflow by exact H. reflexivity.
  Qed.

  Definition zero_from (nl nc j : nat) (cov : list (list A)) : Prop :=
    length cov = nc + 1 /\
    (forall i col, nth_error cov i = Some col -> length col = nl) /\
    forall i col l, j <= i -> nth_error cov i = Some col -> l < nl -> nth_error col l = Some zero.

  Lemma row_step cls nf nl nc j cov : triangle nf (length cls) -> j < nf ->
    (forall cl, In cl cls -> length cl <= nl) ->
    zero_from nl nc j cov -> ~ negative_auto neg cls j ->
    let t := j * (j + 1) / 2 in
    exists cov', fill_row zero neg nl cov (enum (firstn (nc + 1) (firstn (t + j + 1 - t) (skipn t cls)))) = Ok cov' /\
      covariance_row zero half cls nl nc j (map (map half) cov') /\
      zero_from nl nc (j + 1) (map (map half) cov').
  Proof.
    intros Ht Hj Hl (Z1 & Z2 & Z3) Hn t.
    pose proof (block_nth cls nf j nc) as HB. pose proof (block_length cls nf j nc Ht Hj) as HBl.
    cbv zeta in HB, HBl. fold t in HB, HBl.
    set (xs := firstn (nc + 1) (firstn (t + j + 1 - t) (skipn t cls))) in *.
    destruct (fill_row_ok nl xs 0 cov) as (cov' & E & L & G).
    - intros cl Hc. apply Hl. apply In_nth_error in Hc as [i Hi]. rewrite HB in Hi by assumption.
      destruct ((i <? nc + 1) && (i <? j + 1)); [|discriminate]. eapply nth_error_In; exact Hi.
    - intros _ cl Hc. rewrite HB in Hc by assumption.
      destruct (block_spectrum cls nf j 0 Ht Hj ltac:(lia)) as (cl' & Hc' & Hs).
      fold t in Hc'. assert (E1 : (0 <? nc + 1) && (0 <? j + 1) = true)
        by (apply andb_true_iff; split; apply Nat.ltb_lt; lia).
      rewrite E1 in Hc. rewrite Hc' in Hc. injection Hc as ->. rewrite Nat.sub_0_r in Hs.
      destruct (existsb neg cl) eqn:Ex; [|reflexivity]. exfalso. apply Hn.
      apply existsb_exists in Ex as (x & Hx & Hneg). exists cl, x. auto.
    - exists cov'. split; [exact E|]. split.
      + split; [rewrite map_length, L; exact Z1|]. intros i Hi.
        rewrite nth_error_map', G. cbn [Nat.leb Nat.add andb]. rewrite Nat.sub_0_r.
        assert (Hic : i <? length cov = true) by (apply Nat.ltb_lt; lia). rewrite Hic, andb_true_r.
        destruct (Nat.ltb_spec i (length xs)) as [Hlt|Hge].
        * rewrite HBl in Hlt. destruct (block_spectrum cls nf j i Ht Hj ltac:(lia)) as (cl & Hc & Hs).
          fold t in Hc. rewrite HB by assumption.
          assert (E1 : (i <? nc + 1) && (i <? j + 1) = true)
            by (apply andb_true_iff; split; apply Nat.ltb_lt; lia).
          rewrite E1, Hc. cbn [option_map].
          assert (Hcl : length cl <= nl) by (apply Hl; eapply nth_error_In; exact Hc).
          eexists. split; [reflexivity|]. split.
          { rewrite map_length, app_length, repeat_length. lia. }
          intros l Hll. right. exists cl. split; [lia|]. split; [exact Hs|].
          rewrite nth_error_map', pad_mode by assumption. reflexivity.
        * rewrite HBl in Hge. destruct (nth_error cov i) as [col|] eqn:Ec; [|apply nth_error_None in Ec; lia].
          cbn [option_map]. eexists. split; [reflexivity|].
          split; [rewrite map_length; exact (Z2 i col Ec)|].
          intros l Hll. left. split; [|lia].
          rewrite nth_error_map', (Z3 i col l) by (try lia; assumption). cbn [option_map].
          rewrite half_zero. reflexivity.
      + split; [rewrite map_length, L; exact Z1|].
        assert (W : forall i col, nth_error cov' i = Some col -> length col = nl /\
            (j + 1 <= i -> nth_error cov i = Some col)).
        { intros i col Hc. rewrite G in Hc. cbn [Nat.leb Nat.add andb] in Hc. rewrite Nat.sub_0_r in Hc.
          destruct (Nat.ltb_spec i (length xs)) as [Hlt|Hge]; cbn [andb] in Hc.
          - destruct (Nat.ltb_spec i (length cov)) as [Hlc|Hlc].
            + split; [|intro; rewrite HBl in Hlt; lia].
              destruct (nth_error xs i) as [cl|] eqn:Ex; cbn [option_map] in Hc; [|discriminate].
              injection Hc as <-. rewrite app_length, repeat_length.
              assert (Hcl : length cl <= nl).
              { apply Hl. rewrite HB in Ex by assumption.
                destruct ((i <? nc + 1) && (i <? j + 1)); [|discriminate]. eapply nth_error_In; exact Ex. }
              lia.
            + split; [exact (Z2 i col Hc)|intros _; exact Hc].
          - split; [exact (Z2 i col Hc)|intros _; exact Hc]. }
        split.
        * intros i col Hc. rewrite nth_error_map' in Hc.
          destruct (nth_error cov' i) as [col'|] eqn:Ec; cbn [option_map] in Hc; [|discriminate].
          injection Hc as <-. rewrite map_length. exact (proj1 (W i col' Ec)).
        * intros i col l Hi Hc Hll. rewrite nth_error_map' in Hc.
          destruct (nth_error cov' i) as [col'|] eqn:Ec; cbn [option_map] in Hc; [|discriminate].
          injection Hc as <-. rewrite nth_error_map'.
          rewrite (Z3 i col' l) by (try lia; try assumption; exact (proj2 (W i col' Ec) Hi)).
          cbn [option_map]. rewrite half_zero. reflexivity.
  Qed.

  Lemma tri_step j : j * (j + 1) / 2 + j + 1 = (j + 1) * (j + 1 + 1) / 2.
  Proof. pose proof (tri2 j). pose proof (tri2 (j + 1)). nia. Qed.

  Lemma cov_rows_ok cls nf nl nc : triangle nf (length cls) ->
    (forall cl, In cl cls -> length cl <= nl) ->
    forall rem j cov m, j + rem = nf -> zero_from nl nc j cov -> j <= m <= nf ->
    (forall i, i < m -> ~ negative_auto neg cls i) ->
    (m < nf -> negative_auto neg cls m) ->
    let '(rows, e) := cov_rows zero half neg cls nl nc rem j (j * (j + 1) / 2) cov in
    length rows = m - j /\
    (forall i row, nth_error rows i = Some row -> covariance_row zero half cls nl nc (j + i) row) /\
    e = if m <? nf then Some ValueError else None.
  Proof.
    intros Ht Hl. induction rem as [|rem IH]; intros j cov m Hr Hz Hm Hok Hbad.
    - simpl. split; [lia|]. split; [intros [|i] row H; discriminate H|].
      assert (E : m <? nf = false) by (apply Nat.ltb_ge; lia). rewrite E. reflexivity.
    - cbn [cov_rows]. cbv zeta.
      destruct (Nat.eq_dec j m) as [->|Hne].
      + (* the failing field *)
        assert (Hlt : m < nf) by lia. destruct (Hbad Hlt) as (cl & x & Hs & Hx & Hneg).
        destruct (block_spectrum cls nf m 0 Ht Hlt ltac:(lia)) as (cl' & Hc & Hs').
        rewrite Nat.sub_0_r in Hs'. rewrite (spectrum_unique cls m m cl' cl Hs' Hs) in Hc.
        pose proof (block_nth cls nf m nc 0 Ht Hlt) as B0. cbv zeta in B0.
        assert (E1 : (0 <? nc + 1) && (0 <? m + 1) = true)
          by (apply andb_true_iff; split; apply Nat.ltb_lt; lia).
        rewrite E1, Hc in B0.
        destruct (firstn (nc + 1) _) as [|c0 xs] eqn:Ex; [discriminate B0|].
        simpl in B0. injection B0 as ->.
        rewrite fill_row_neg; [|apply existsb_exists; exists x; auto].
        simpl. split; [lia|]. split; [intros [|i] row H; discriminate H|].
        assert (E : m <? nf = true) by (apply Nat.ltb_lt; lia). rewrite E. reflexivity.
      + destruct (row_step cls nf nl nc j cov Ht ltac:(lia) Hl Hz (Hok j ltac:(lia))) as (cov' & E & R & Z).
        rewrite E. specialize (IH (j + 1) (map (map half) cov') m ltac:(lia) Z ltac:(lia) Hok Hbad).
        rewrite <- tri_step in IH.
        destruct (cov_rows zero half neg cls nl nc rem (j + 1) (j * (j + 1) / 2 + j + 1) (map (map half) cov'))
          as [rows e]. destruct IH as (I1 & I2 & I3).
        cbn. split; [lia|]. split; [|exact I3].
        intros [|i] row H; cbn in H.
        * injection H as <-. rewrite Nat.add_0_r. exact R.
        * replace (j + S i) with (j + 1 + i) by lia. exact (I2 i row H).
  Qed.

  Lemma zero_from_start nl nc : zero_from nl nc 0 (repeat (repeat zero nl) (nc + 1)).
  Proof.
    split; [apply repeat_length|]. split.
    - intros i col H. apply nth_error_In, repeat_spec in H. subst. apply repeat_length.
    - intros i col l _ H Hl. apply nth_error_In, repeat_spec in H. subst.
      rewrite nth_error_repeat'. apply Nat.ltb_lt in Hl. rewrite Hl. reflexivity.
  Qed.

  Lemma cls2cov_ok cls nf nl nc m : triangle nf (length cls) ->
    (forall cl, In cl cls -> length cl <= nl) -> m <= nf ->
    (forall i, i < m -> ~ negative_auto neg cls i) ->
    (m < nf -> negative_auto neg cls m) ->
    let '(rows, e) := cls2cov zero half neg cls nl nf nc in
    length rows = m /\
    (forall j row, nth_error rows j = Some row -> covariance_row zero half cls nl nc j row) /\
    e = if m <? nf then Some ValueError else None.
  Proof.
    intros Ht Hl Hm Hok Hbad. unfold cls2cov.
    pose proof (cov_rows_ok cls nf nl nc Ht Hl nf 0 _ m eq_refl (zero_from_start nl nc) ltac:(lia) Hok Hbad) as H.
    change (0 * (0 + 1) / 2) with 0 in H.
    destruct (cov_rows zero half neg cls nl nc nf 0 0 _) as [rows e].
    destruct H as (H1 & H2 & H3). split; [lia|]. split; [exact H2|exact H3].
  Qed.

  (** * heap version *)
  Lemma cov_rows_heap_sim cls nl nc : forall rem j stop addr h cov,
    nth_error h addr = Some cov ->
    let '(rows, e) := cov_rows zero half neg cls nl nc rem j stop cov in
    let '(yields, e') := cov_rows_heap zero half neg cls nl nc rem j stop addr h in
    e = e' /\ length yields = length rows /\
    forall i H a, nth_error yields i = Some (H, a) ->
      a = addr /\ nth_error H a = nth_error rows i /\
      forall b, b <> addr -> nth_error H b = nth_error h b.
  Proof.
    induction rem as [|rem IH]; intros j stop addr h cov Hh.
    - simpl. split; [reflexivity|]. split; [reflexivity|]. intros [|i] H a E; discriminate E.
    - cbn [cov_rows cov_rows_heap]. cbv zeta. rewrite Hh.
      destruct (fill_row zero neg nl cov _) as [cov'|e].
      + set (h' := set_item h addr (map (map half) cov')).
        assert (Hlt : addr <? length h = true) by (apply Nat.ltb_lt, nth_error_Some; congruence).
        assert (Hh' : nth_error h' addr = Some (map (map half) cov'))
          by (unfold h'; rewrite nth_set_item, Nat.eqb_refl, Hlt; reflexivity).
        specialize (IH (j + 1) (stop + j + 1) addr h' (map (map half) cov') Hh').
        destruct (cov_rows zero half neg cls nl nc rem _ _ _) as [rows e].
        destruct (cov_rows_heap zero half neg cls nl nc rem _ _ _ _) as [yields e'].
        destruct IH as (I1 & I2 & I3). cbn. split; [exact I1|]. split; [lia|].
        intros [|i] H a E; cbn in E.
        * injection E as <- <-. split; [reflexivity|]. split; [exact Hh'|].
          intros b Hb. unfold h'. rewrite nth_set_item. destruct (Nat.eqb_spec addr b); [congruence|reflexivity].
        * destruct (I3 i H a E) as (J1 & J2 & J3). split; [exact J1|]. split; [exact J2|].
          intros b Hb. rewrite (J3 b Hb). unfold h'. rewrite nth_set_item.
          destruct (Nat.eqb_spec addr b); [congruence|reflexivity].
      + simpl. split; [reflexivity|]. split; [reflexivity|]. intros [|i] H a E; discriminate E.
  Qed.
End Cls2cov.

(** * cov_from_spectra *)
Section Covariance.
  Context {A : Type} (zero : A).

  Lemma fill_cube_ok (n : nat) : forall (items : list (nat * nat * option (list A))) (c : cube A),
    cn c = n ->
    (forall i j cl, In (i, j, cl) items -> j <= i < n /\ cl <> None) ->
    NoDup (map fst items) ->
    exists c', fill_cube c items = Ok c' /\ ck c' = ck c /\ cn c' = cn c /\
      (forall i j cl, In (i, j, Some cl) items -> forall l,
          cget c' l i j = (if l <? Nat.min (ck c) (length cl) then nth l cl zero else cget c l i j) /\
          cget c' l j i = (if l <? Nat.min (ck c) (length cl) then nth l cl zero else cget c l j i)) /\
      (forall i j, ~ In (i, j) (map fst items) -> ~ In (j, i) (map fst items) ->
          forall l, cget c' l i j = cget c l i j).
  Proof.
    induction items as [|[[i j] cl] items IH]; intros c Hn Hin Hd.
    - exists c. repeat split; intros; contradiction.
    - destruct (Hin i j cl (or_introl eq_refl)) as [[Hj Hi] Hcl].
      destruct cl as [cl|]; [|congruence].
      cbn [fill_cube]. unfold cset.
      assert (Ei : i <? cn c = true) by (apply Nat.ltb_lt; lia).
      assert (Ej : j <? cn c = true) by (apply Nat.ltb_lt; lia).
      rewrite Ei, Ej. cbn [andb bind cn ck cget]. rewrite Ei, Ej. cbn [andb bind].
      set (size := Nat.min (ck c) (length cl)).
      set (c2 := {| ck := ck c; cn := cn c; cget := _ |}).
      inversion Hd as [|? ? Hd1 Hd2]; subst.
      destruct (IH c2 eq_refl) as (c' & E & K & N & G1 & G2).
      { intros a b x H. apply Hin. right; exact H. }
      { exact Hd2. }
      assert (C2 : forall l a b, cget c2 l a b =
          if (a =? i) && (b =? j) || (a =? j) && (b =? i)
          then if l <? size then nth l cl zero else cget c l a b else cget c l a b).
      { intros l a b. unfold c2; cbn [cget].
        assert (F : nth_error (firstn size cl) l = if l <? size then Some (nth l cl zero) else None).
        { rewrite nth_error_firstn. destruct (Nat.ltb_spec l size); [|reflexivity].
          apply nth_error_nth'. unfold size in *. lia. }
        rewrite F. destruct ((a =? i) && (b =? j)), ((a =? j) && (b =? i)), (l <? size); reflexivity. }
      assert (Hsym : ~ In (j, i) (map fst items) \/ i = j).
      { destruct (Nat.eq_dec i j); [right; assumption|left]. intro H.
        apply in_map_iff in H as ([[a b] x] & E1 & H1). cbn in E1. injection E1 as -> ->.
        destruct (Hin j i x (or_intror H1)) as [[? ?] _]. lia. }
      assert (Hno : ~ In (j, i) (map fst items)) by (destruct Hsym as [H|E1]; [exact H|rewrite <- E1 at 1; rewrite E1 in *; exact Hd1]).
      exists c'. split; [exact E|]. split; [exact K|]. split; [exact N|]. split.
      + intros a b x [Heq|H] l.
        * injection Heq as -> -> ->. rewrite !G2 by assumption. rewrite !C2, !Nat.eqb_refl. cbn [andb orb].
          rewrite orb_true_r. auto.
        * destruct (G1 a b x H l) as [H1 H2]. change (ck c2) with (ck c) in *.
          rewrite H1, H2. rewrite !C2.
          assert (Hab : (a =? i) && (b =? j) || (a =? j) && (b =? i) = false).
          { apply not_true_iff_false. intro Hx. apply orb_true_iff in Hx.
            rewrite !andb_true_iff, !Nat.eqb_eq in Hx.
            assert (Hin' : In (a, b) (map fst items)) by (apply in_map_iff; exists (a, b, Some x); auto).
            destruct Hx as [[-> ->]|[-> ->]]; contradiction. }
          rewrite Hab. assert (Hba : (b =? i) && (a =? j) || (b =? j) && (a =? i) = false).
          { rewrite orb_comm, (andb_comm (b =? j)), (andb_comm (b =? i)). exact Hab. }
          rewrite Hba. auto.
      + intros a b H1 H2 l. cbn [map fst] in H1, H2. rewrite G2 by (intro; firstorder).
        rewrite C2.
        assert (Hab : (a =? i) && (b =? j) || (a =? j) && (b =? i) = false).
        { apply not_true_iff_false. intro Hx. apply orb_true_iff in Hx.
          rewrite !andb_true_iff, !Nat.eqb_eq in Hx. destruct Hx as [[-> ->]|[-> ->]];
            [apply H1|apply H2]; left; reflexivity. }
        rewrite Hab. reflexivity.
  Qed.
End Covariance.

Section Covariance2.
  Context {A : Type} (zero : A).

  Lemma enumerate_In {B} (l : list B) i j x :
    In (i, j, x) (enumerate_spectra l) <-> exists k, in_order k i j /\ nth_error l k = Some x.
  Proof.
    split.
    - intro H. apply In_nth_error in H as [k H]. rewrite enumerate_nth in H.
      destruct (nth_error l k) as [y|] eqn:E; cbn in H; [|discriminate].
      injection H as <- <- <-. exists k. split; [|exact E].
      exact (proj2 (counter_in_order k)).
    - intros (k & H & E). apply nth_error_In with k. rewrite enumerate_nth, E. cbn [option_map].
      destruct (counter_in_order k) as [_ H']. cbv zeta.
      destruct (in_order_fun _ _ _ _ _ H H') as [<- <-]. reflexivity.
  Qed.

  Lemma max_length_spec (cls : list (list A)) : longest cls (max_length (map (@length A) cls)).
  Proof.
    induction cls as [|c cls [IH1 IH2]]; cbn.
    - split; [intros cl []|left; reflexivity].
    - split.
      + intros cl [<-|H]; [lia|]. specialize (IH1 cl H). unfold max_length in IH1. lia.
      + fold (max_length (map (@length A) cls)).
        destruct (Nat.max_spec (length c) (max_length (map (@length A) cls))) as [[H ->]|[H ->]].
        * destruct IH2 as [IH2|(cl & H1 & H2)]; [lia|]. right. exists cl. split; [right; exact H1|exact H2].
        * right. exists c. split; [left|]; reflexivity.
  Qed.

  Lemma cov_from_spectra_ok (cls : list (list A)) n lmax : cls <> [] -> triangle n (length cls) ->
    exists c, cov_from_spectra zero (map Some cls) lmax = Ok c /\ cn c = n /\
      match lmax with Some lm => ck c = lm + 1 | None => longest cls (ck c) end /\
      covariance_of zero cls (ck c) n (cget c).
  Proof.
    intros Hne Ht. unfold cov_from_spectra. rewrite map_length.
    pose proof (proj2 (nfields_ok _ _) Ht) as En. rewrite En. cbn [bind].
    set (K := match lmax with None => do ls <- mapM shape0 (map Some cls); Ok (max_length ls)
              | Some lm => Ok (lm + 1) end).
    assert (HK : exists k, K = Ok k /\ match lmax with Some lm => k = lm + 1 | None => longest cls k end).
    { unfold K. destruct lmax as [lm|]; [eexists; split; reflexivity|].
      assert (E : mapM shape0 (map Some cls) = Ok (map (@length A) cls)).
      { clear. induction cls as [|c cls IH]; [reflexivity|]. cbn. rewrite IH. reflexivity. }
      rewrite E. cbn [bind]. eexists; split; [reflexivity|]. apply max_length_spec. }
    destruct HK as (k & -> & Hk). cbn [bind].
    destruct cls as [|c0 cls0]; [congruence|]. set (cls := c0 :: cls0) in *.
    change (index (map Some cls) 0) with (@Ok (option (list A)) (Some c0)). cbn [bind shape0].
    assert (Ht' : triangle n (length (map Some cls))) by (rewrite map_length; exact Ht).
    destruct (enumerate_is_indices (map Some cls) n Ht') as [Hf _].
    destruct (fill_cube_ok zero n (enumerate_spectra (map Some cls))
      {| ck := k; cn := n; cget := fun _ _ _ => zero |} eq_refl) as (c & E & K' & N & G & _).
    - intros i j cl H. split.
      + apply indices_In. rewrite <- Hf. apply in_map_iff. exists (i, j, cl). auto.
      + apply enumerate_In in H as (p & _ & H). rewrite nth_error_map' in H.
        destruct (nth_error cls p); cbn in H; congruence.
    - rewrite Hf. apply indices_NoDup.
    - exists c. split; [exact E|]. cbn in K', N. rewrite K', N. split; [reflexivity|].
      split; [exact Hk|].
      assert (Hlow : forall l i j, l < k -> j <= i < n -> exists cl,
          spectrum_of cls i j cl /\ cget c l i j = mode zero cl l /\ cget c l j i = mode zero cl l).
      { intros l i j Hl Hij. pose proof (in_order_exists i j ltac:(lia)) as Ho.
        set (p := i * (i + 1) / 2 + i - j) in *.
        assert (Hp : p < length cls) by (apply (proj1 (in_order_lt n _ p i j Ht Ho)); lia).
        destruct (nth_error cls p) as [cl|] eqn:Ec; [|apply nth_error_None in Ec; lia].
        exists cl. split.
        { exists p. rewrite Nat.max_l, Nat.min_r by lia. auto. }
        destruct (G i j cl) with (l := l) as [G1 G2].
        { apply enumerate_In. exists p. split; [exact Ho|]. rewrite nth_error_map', Ec. reflexivity. }
        rewrite G1, G2. cbn [ck cget]. unfold mode.
        destruct (Nat.ltb_spec l (Nat.min k (length cl))); [auto|].
        rewrite nth_overflow by lia. auto. }
      intros l i j Hl Hi Hj. destruct (le_lt_dec j i) as [H|H].
      + destruct (Hlow l i j Hl ltac:(lia)) as (cl & H1 & H2 & _). exists cl. auto.
      + destruct (Hlow l j i Hl ltac:(lia)) as (cl & H1 & _ & H2). exists cl.
        split; [|exact H2]. unfold spectrum_of in *. rewrite Nat.max_comm, Nat.min_comm. exact H1.
  Qed.

  Lemma read_out_ok (cls : list (list A)) n c : triangle n (length cls) -> cn c = n ->
    covariance_of zero cls (ck c) n (cget c) ->
    length (read_out c) = length cls /\
    forall k cl out, nth_error cls k = Some cl -> nth_error (read_out c) k = Some out ->
      resized zero (ck c) cl out.
  Proof.
    intros Ht Hn Hc. unfold read_out. rewrite Hn. split.
    - rewrite map_length, indices_length. eapply triangle_fun; [apply tril_length|exact Ht].
    - intros k cl out Hk Ho. rewrite nth_error_map' in Ho.
      destruct (nth_error (spectra_indices n) k) as [[i j]|] eqn:E; cbn in Ho; [|discriminate].
      injection Ho as <-. apply indices_nth in E as [Hi Ho].
      split; [rewrite map_length, seq_length; reflexivity|].
      intros l Hl. rewrite nth_error_map', nth_error_seq. apply Nat.ltb_lt in Hl as Hl'. rewrite Hl'.
      cbn [option_map Nat.add]. destruct (Hc l i j Hl Hi ltac:(unfold in_order in Ho; lia)) as (cl' & (p & Hp & Hp') & ->).
      unfold in_order in Ho. rewrite Nat.max_l, Nat.min_r in Hp by lia.
      rewrite (in_order_inj _ _ _ _ Hp Ho) in Hp'. congruence.
  Qed.

  Lemma resized_self (cl : list A) out : resized zero (length cl) cl out -> out = cl.
  Proof.
    intros [H1 H2]. apply nth_error_ext'. intro l. destruct (le_lt_dec (length cl) l).
    - rewrite !(proj2 (nth_error_None _ _)) by lia. reflexivity.
    - rewrite H2 by assumption. symmetry. apply nth_error_nth'. exact l0.
  Qed.
End Covariance2.

(** * Gaussian spectra *)
Section Gaussian.
  Context {F A : Type} (zero : A) (is_zero : A -> bool).

  Lemma mapM_enumerate_ok {B} (f : nat * nat * list A -> result B) (spectra : list (list A)) out :
    mapM f (enumerate_spectra spectra) = Ok out ->
    length out = length spectra /\
    forall k i j cl, in_order k i j -> nth_error spectra k = Some cl ->
      exists y, nth_error out k = Some y /\ f (i, j, cl) = Ok y.
  Proof.
    intro H. apply mapM_ok, Forall2_nth in H as [H1 H2]. rewrite enumerate_length in H1.
    split; [congruence|]. intros k i j cl Ho Hk.
    assert (Hlt : k < length out) by (rewrite <- H1; apply nth_error_Some; congruence).
    destruct (nth_error out k) as [y|] eqn:Ey; [|apply nth_error_None in Ey; lia].
    exists y. split; [reflexivity|]. apply (H2 k); [|exact Ey].
    rewrite enumerate_nth, Hk. cbn [option_map]. cbv zeta.
    destruct (in_order_fun _ _ _ _ _ Ho (proj2 (counter_in_order k))) as [<- <-]. reflexivity.
  Qed.

  Lemma mapM_err {B C} (f : B -> result C) l e : mapM f l = Err e -> exists x, In x l /\ f x = Err e.
  Proof.
    induction l as [|x l IH]; cbn; [discriminate|].
    destruct (f x) as [y|e'] eqn:E; cbn.
    - destruct (mapM f l) as [ys|e'']; cbn; [discriminate|]. intro H. injection H as ->.
      destruct (IH eq_refl) as (x' & H1 & H2). exists x'. auto.
    - intro H. injection H as ->. exists x. auto.
  Qed.

  Lemma entry_exists (fields : list F) (spectra : list (list A)) k i j cl :
    triangle (length fields) (length spectra) -> in_order k i j -> nth_error spectra k = Some cl ->
    exists t1 t2, entry_of fields spectra k i j t1 t2 cl.
  Proof.
    intros Ht Ho Hk.
    assert (Hlt : k < length spectra) by (apply nth_error_Some; congruence).
    assert (Hi : i < length fields) by (apply (proj2 (in_order_lt _ _ _ _ _ Ht Ho)); exact Hlt).
    assert (Hj : j < length fields) by (unfold in_order in Ho; lia).
    destruct (nth_error fields i) as [t1|] eqn:E1; [|apply nth_error_None in E1; lia].
    destruct (nth_error fields j) as [t2|] eqn:E2; [|apply nth_error_None in E2; lia].
    exists t1, t2. unfold entry_of; auto.
  Qed.

  Lemma triangle_check n t : negb (t =? n * (n + 1) / 2) = false <-> triangle n t.
  Proof.
    rewrite negb_false_iff, Nat.eqb_eq. split.
    - intros ->. apply triangle_tri.
    - intro H. eapply triangle_fun; [exact H|apply triangle_tri].
  Qed.

  Section Compute.
    Variable compute : list A -> F -> F -> result (list A).

    Lemma compute_ok fields spectra gls :
      compute_gaussian_spectra zero compute fields spectra = Ok gls ->
      triangle (length fields) (length spectra) /\ length gls = length spectra /\
      forall k i j t1 t2 cl, entry_of fields spectra k i j t1 t2 cl ->
        exists gl, nth_error gls k = Some gl /\
          (cl = [] -> gl = []) /\ (cl <> [] -> compute cl t1 t2 = Ok gl).
    Proof.
      unfold compute_gaussian_spectra. destruct (negb _) eqn:E; [discriminate|].
      apply triangle_check in E. intro H. apply mapM_enumerate_ok in H as [H1 H2].
      split; [exact E|]. split; [exact H1|].
      intros k i j t1 t2 cl (Ho & Hk & Hi & Hj). destruct (H2 k i j cl Ho Hk) as (gl & Hg & Hf).
      exists gl. split; [exact Hg|]. destruct cl as [|c cl].
      - cbn in Hf. injection Hf as <-. split; congruence.
      - change (0 <? length (c :: cl)) with true in Hf. unfold index in Hf. rewrite Hi, Hj in Hf.
        cbn [bind] in Hf. split; [discriminate|]. intros _; exact Hf.
    Qed.

    Lemma compute_err fields spectra e :
      compute_gaussian_spectra zero compute fields spectra = Err e ->
      (~ triangle (length fields) (length spectra) /\ e = ValueError) \/
      (triangle (length fields) (length spectra) /\
       exists k i j t1 t2 cl, entry_of fields spectra k i j t1 t2 cl /\ cl <> [] /\
        compute cl t1 t2 = Err e).
    Proof.
      unfold compute_gaussian_spectra. destruct (negb _) eqn:E.
      - intro H. injection H as <-. left. split; [|reflexivity]. intro Ht.
        apply triangle_check in Ht. congruence.
      - apply triangle_check in E. intro H. right. split; [exact E|].
        apply mapM_err in H as ([[i j] cl] & Hin & Hf). apply enumerate_In in Hin as (k & Ho & Hk).
        destruct (entry_exists fields spectra k i j cl E Ho Hk) as (t1 & t2 & He).
        exists k, i, j, t1, t2, cl. split; [exact He|].
        destruct He as (_ & _ & Hi & Hj). destruct cl as [|c cl]; [discriminate|].
        change (0 <? length (c :: cl)) with true in Hf. unfold index in Hf. rewrite Hi, Hj in Hf.
        split; [discriminate|exact Hf].
    Qed.
  End Compute.

  Section Solve.
    Variable solve : list A -> F -> F -> nat -> option A -> result (list A * nat).

    Definition solve_step (fields : list F) (item : nat * nat * list A) : result (list A * list (nat * nat)) :=
      let '(i, j, cl) := item in
      if 0 <? length cl then
         do t1 <- index fields i; do t2 <- index fields j;
         do c0 <- index cl 0;
         let pad := 2 * length cl in
         let monopole := if is_zero c0 then Some zero else None in
         do s <- solve cl t1 t2 pad monopole;
         let '(gl, info) := s in
         Ok (gl, if info =? 0 then [(i, j)] else [])
       else Ok (map (fun _ => zero) cl, []).

    Lemma solve_all_mapM fields items :
      solve_all zero is_zero solve fields items =
      do rs <- mapM (solve_step fields) items; Ok (map fst rs, concat (map snd rs)).
    Proof.
      induction items as [|[[i j] cl] items IH]; [reflexivity|].
      cbn [solve_all mapM]. rewrite IH. change (
        (do r <- solve_step fields (i, j, cl);
         do rest <- (do rs <- mapM (solve_step fields) items; Ok (map fst rs, concat (map snd rs)));
         let '(gl, w) := r in let '(gls, ws) := rest in Ok (gl :: gls, w ++ ws)) =
        (do rs <- (do y <- solve_step fields (i, j, cl); do ys <- mapM (solve_step fields) items; Ok (y :: ys));
         Ok (map fst rs, concat (map snd rs)))).
      destruct (solve_step fields (i, j, cl)) as [[gl w]|e]; cbn [bind]; [|reflexivity].
      destruct (mapM (solve_step fields) items) as [rs|e]; reflexivity.
    Qed.

    Lemma solve_unfold fields spectra :
      solve_gaussian_spectra zero is_zero solve fields spectra =
      if negb (length spectra =? length fields * (length fields + 1) / 2) then Err ValueError
      else do rs <- mapM (solve_step fields) (enumerate_spectra spectra);
           Ok (map fst rs, concat (map snd rs)).
    Proof.
      unfold solve_gaussian_spectra. destruct (negb _); [reflexivity|].
      destruct spectra as [|c spectra]; [reflexivity|]. cbn [length Nat.eqb].
      apply solve_all_mapM.
    Qed.

    Lemma solve_step_ok fields spectra k i j t1 t2 cl gl w :
      entry_of fields spectra k i j t1 t2 cl ->
      solve_step fields (i, j, cl) = Ok (gl, w) ->
      (cl = [] /\ gl = [] /\ w = []) \/
      (exists c0 rest info, cl = c0 :: rest /\
        solve cl t1 t2 (2 * length cl) (if is_zero c0 then Some zero else None) = Ok (gl, info) /\
        w = if info =? 0 then [(i, j)] else []).
    Proof.
      intros (_ & _ & Hi & Hj) H. destruct cl as [|c0 rest].
      - left. cbn in H. injection H as <- <-. auto.
      - right. unfold solve_step in H. change (0 <? length (c0 :: rest)) with true in H.
        unfold index in H. rewrite Hi, Hj in H. cbn [bind nth_error] in H.
        apply bind_ok in H as ([gl' info] & H1 & H2). injection H2 as <- <-.
        exists c0, rest, info. auto.
    Qed.

    Lemma solve_ok fields spectra gls ws :
      solve_gaussian_spectra zero is_zero solve fields spectra = Ok (gls, ws) ->
      triangle (length fields) (length spectra) /\ length gls = length spectra /\
      (forall k i j t1 t2 cl, entry_of fields spectra k i j t1 t2 cl ->
        exists gl, nth_error gls k = Some gl /\
          (cl = [] -> gl = [] /\ ~ In (i, j) ws) /\
          (forall c0 rest, cl = c0 :: rest -> exists info,
             solve cl t1 t2 (2 * length cl) (if is_zero c0 then Some zero else None) = Ok (gl, info) /\
             (In (i, j) ws <-> info = 0))) /\
      NoDup ws /\
      (forall i j, In (i, j) ws -> j <= i < length fields).
    Proof.
      rewrite solve_unfold. destruct (negb _) eqn:E; [discriminate|]. apply triangle_check in E.
      intro H. apply bind_ok in H as (rs & H & Hr). injection Hr as <- <-.
      pose proof (proj1 (mapM_ok _ _ _) H) as HF.
      apply mapM_enumerate_ok in H as [H1 H2].
      assert (Hw : forall i j, In (i, j) (concat (map snd rs)) <->
         exists k gl w cl, in_order k i j /\ nth_error spectra k = Some cl /\ nth_error rs k = Some (gl, w) /\ w = [(i, j)]).
      { intros i j. rewrite in_concat. split.
        - intros (w & Hw1 & Hw2). apply in_map_iff in Hw1 as ([gl w'] & <- & Hin). cbn in Hw2.
          apply In_nth_error in Hin as [k Hk].
          assert (Hlt : k < length spectra) by (rewrite <- H1; apply nth_error_Some; congruence).
          destruct (nth_error spectra k) as [cl|] eqn:Ec; [|apply nth_error_None in Ec; lia].
          destruct (order_total _ _ k E Hlt) as (a & b & Ha & Hab).
          destruct (H2 k a b cl Hab Ec) as (y & Hy & Hs). rewrite Hk in Hy. injection Hy as <-.
          destruct (entry_exists fields spectra k a b cl E Hab Ec) as (t1 & t2 & He).
          destruct (solve_step_ok _ _ _ _ _ _ _ _ _ _ He Hs) as [(_ & _ & ->)|(c0 & rest & info & -> & _ & Hw')].
          + contradiction.
          + destruct (info =? 0); subst w'; [|contradiction]. destruct Hw2 as [Hw2|[]].
            injection Hw2 as -> ->. exists k, gl, [(i, j)], (c0 :: rest). auto.
        - intros (k & gl & w & cl & _ & _ & Hk & ->). exists [(i, j)]. split; [|left; reflexivity].
          apply in_map_iff. exists (gl, [(i, j)]). split; [reflexivity|]. eapply nth_error_In; exact Hk. }
      split; [exact E|]. split; [rewrite map_length; exact H1|]. split; [|split].
      - intros k i j t1 t2 cl He. pose proof He as (Ho & Hk & Hi & Hj).
        destruct (H2 k i j cl Ho Hk) as ([gl w] & Hg & Hs).
        exists gl. split; [rewrite nth_error_map', Hg; reflexivity|].
        assert (HwI : In (i, j) (concat (map snd rs)) <-> w = [(i, j)]).
        { rewrite Hw. split.
          - intros (k' & gl' & w' & cl' & Ho' & _ & Hk' & ->). rewrite (in_order_inj _ _ _ _ Ho' Ho) in Hk'.
            rewrite Hg in Hk'. injection Hk' as _ ->. reflexivity.
          - intros ->. exists k, gl, [(i, j)], cl. auto. }
        destruct (solve_step_ok _ _ _ _ _ _ _ _ _ _ He Hs) as [(-> & -> & ->)|(c0 & rest & info & -> & Hsol & Hw')].
        + split; [intros _; split; [reflexivity|rewrite HwI; discriminate]|discriminate].
        + split; [discriminate|]. intros c1 rest1 Heq. injection Heq as <- <-. exists info. split; [exact Hsol|].
          rewrite HwI, Hw'. destruct (Nat.eqb_spec info 0); split; congruence.
      - (* each pair is reported at most once *)
        clear Hw H2. assert (Hnd : NoDup (map fst (enumerate_spectra spectra))).
        { destruct (enumerate_is_indices spectra _ E) as [-> _]. apply indices_NoDup. }
        revert HF Hnd. generalize (enumerate_spectra spectra). clear. intros items HF.
        assert (Hsub : forall items (rs : list (list A * list (nat * nat))), Forall2 (fun x y => solve_step fields x = Ok y) items rs ->
          forall p, In p (concat (map snd rs)) -> In p (map fst items)).
        { clear. intros items rs HF. induction HF as [|[[i j] cl] [gl w] items rs Hx HF IH]; cbn; [auto|].
          intros p Hp. apply in_app_or in Hp as [Hp|Hp]; [left|right; apply IH; exact Hp].
          unfold solve_step in Hx. destruct (0 <? length cl).
          - apply bind_ok in Hx as (t1 & _ & Hx). apply bind_ok in Hx as (t2 & _ & Hx).
            apply bind_ok in Hx as (c0 & _ & Hx). apply bind_ok in Hx as ([g info] & _ & Hx).
            injection Hx as _ <-. destruct (info =? 0); [|contradiction]. destruct Hp as [<-|[]]. reflexivity.
          - injection Hx as _ <-. contradiction. }
        induction HF as [|[[i j] cl] [gl w] items rs Hx HF IH]; cbn; intro Hnd; [constructor|].
        inversion Hnd as [|? ? Hn1 Hn2]; subst. specialize (IH Hn2).
        assert (Hw : w = [] \/ w = [(i, j)]).
        { unfold solve_step in Hx. destruct (0 <? length cl).
          - apply bind_ok in Hx as (t1 & _ & Hx). apply bind_ok in Hx as (t2 & _ & Hx).
            apply bind_ok in Hx as (c0 & _ & Hx). apply bind_ok in Hx as ([g info] & _ & Hx).
            injection Hx as _ <-. destruct (info =? 0); auto.
          - injection Hx as _ <-. auto. }
        destruct Hw as [-> | ->]; [exact IH|]. cbn. constructor; [|exact IH].
        intro Hin. apply Hn1. exact (Hsub items rs HF _ Hin).
      - intros i j Hin. apply Hw in Hin as (k & _ & _ & cl & Ho & Hk & _ & _).
        destruct (entry_exists fields spectra k i j cl E Ho Hk) as (t1 & t2 & _ & _ & Hi & _).
        split; [exact (proj1 Ho)|]. apply nth_error_Some. congruence.
    Qed.

    Lemma solve_err fields spectra e :
      solve_gaussian_spectra zero is_zero solve fields spectra = Err e ->
      (~ triangle (length fields) (length spectra) /\ e = ValueError) \/
      (triangle (length fields) (length spectra) /\
       exists k i j t1 t2 c0 rest, entry_of fields spectra k i j t1 t2 (c0 :: rest) /\
        solve (c0 :: rest) t1 t2 (2 * length (c0 :: rest)) (if is_zero c0 then Some zero else None) = Err e).
    Proof.
      rewrite solve_unfold. destruct (negb _) eqn:E.
      - intro H. injection H as <-. left. split; [|reflexivity]. intro Ht.
        apply triangle_check in Ht. congruence.
      - apply triangle_check in E. intro H. right. split; [exact E|].
        destruct (mapM _ _) as [rs|e'] eqn:Em; cbn in H; [discriminate|]. injection H as ->.
        apply mapM_err in Em as ([[i j] cl] & Hin & Hf). apply enumerate_In in Hin as (k & Ho & Hk).
        destruct (entry_exists fields spectra k i j cl E Ho Hk) as (t1 & t2 & He).
        destruct cl as [|c0 rest]; [discriminate|].
        exists k, i, j, t1, t2, c0, rest. split; [exact He|].
        destruct He as (_ & _ & Hi & Hj).
        unfold solve_step in Hf. change (0 <? length (c0 :: rest)) with true in Hf.
        unfold index in Hf. rewrite Hi, Hj in Hf. cbn [bind nth_error] in Hf.
        destruct (solve _ _ _ _ _) as [[gl info]|e']; cbn [bind] in Hf; [discriminate|]. injection Hf as ->. reflexivity.
    Qed.
  End Solve.
End Gaussian.

(** * generate *)
Section Generate.
  Context {A M T : Type}.
  Variable apply : T -> M -> A -> result M.

  Lemma transform_prefix : forall fields xs eg vars i y,
    nth_error (fst (transform_all apply fields (xs, eg) vars)) i = Some y ->
    exists t x v, nth_error fields i = Some t /\ nth_error xs i = Some x /\
      nth_error vars i = Some (Ok v) /\ apply t x v = Ok y.
  Proof.
    induction fields as [|t fields IH]; intros xs eg vars i y H.
    - cbn in H. destruct xs; [|destruct i; discriminate H].
      destruct eg; [destruct i; discriminate H|].
      destruct vars as [|[v|e] vars]; destruct i; discriminate H.
    - cbn [transform_all fst snd] in H. destruct xs as [|x xs]; [destruct i; discriminate H|].
      destruct vars as [|[v|e] vars]; [destruct i; discriminate H| |destruct i; discriminate H].
      destruct (apply t x v) as [z|e] eqn:E; [|destruct i; discriminate H].
      destruct i as [|i]; cbn in H.
      + injection H as <-. exists t, x, v. auto.
      + exact (IH xs eg vars i y H).
  Qed.

Lemma transform_ends fields : forall grf vars ys,
  transform_all apply fields grf vars = (ys, None) ->
  length ys = length fields /\ snd grf = None /\ length (fst grf) = length fields.
Proof.
  induction fields as [|t fields IH]; intros [xs e] vars ys H; cbn [transform_all fst snd] in *.
  - destruct xs as [|x xs]; [|discriminate]. destruct e; [discriminate|]. destruct vars as [|[v|e] vars]; try discriminate.
    injection H as <-. auto.
  - destruct xs as [|x xs]; [discriminate|]. destruct vars as [|[v|e'] vars]; try discriminate.
    destruct (apply t x v) as [y|e']; [|discriminate].
    destruct (transform_all apply fields (xs, e) vars) as [ys' e'] eqn:E. unfold yield_then in H. cbn in H. injection H as <- ->.
    destruct (IH _ _ _ E) as (H1 & H2 & H3). cbn [fst snd length] in *. auto.
Qed.

Lemma transform_full : forall fields xs vars,
    length xs = length fields -> length vars = length fields ->
    (forall i t x r, nth_error fields i = Some t -> nth_error xs i = Some x -> nth_error vars i = Some r ->
       exists v y, r = Ok v /\ apply t x v = Ok y) ->
    length (fst (transform_all apply fields (xs, None) vars)) = length fields /\
    snd (transform_all apply fields (xs, None) vars) = None.
  Proof.
    induction fields as [|t fields IH]; intros xs vars Hx Hv H.
    - destruct xs, vars; try discriminate. split; reflexivity.
    - destruct xs as [|x xs]; [discriminate|]. destruct vars as [|r vars]; [discriminate|].
      destruct (H 0 t x r eq_refl eq_refl eq_refl) as (v & y & -> & E).
      cbn [transform_all fst snd]. rewrite E. cbn.
      destruct (IH xs vars) as [I1 I2]; [injection Hx; auto|injection Hv; auto| |].
      { intros i t' x' r' H1 H2 H3. exact (H (S i) t' x' r' H1 H2 H3). }
      rewrite I1, I2. auto.
  Qed.

  (** When the map generator fails after some maps, so does the result. *)
  Lemma transform_fail : forall fields xs vars e,
    length xs <= length fields -> length vars = length fields ->
    (forall i t x r, nth_error fields i = Some t -> nth_error xs i = Some x -> nth_error vars i = Some r ->
       exists v y, r = Ok v /\ apply t x v = Ok y) ->
    length (fst (transform_all apply fields (xs, Some e) vars)) = length xs /\
    snd (transform_all apply fields (xs, Some e) vars) = Some e.
  Proof.
    induction fields as [|t fields IH]; intros xs vars e Hx Hv H.
    - destruct xs; [|cbn in Hx; lia]. split; reflexivity.
    - destruct xs as [|x xs]; [split; reflexivity|]. destruct vars as [|r vars]; [discriminate|].
      destruct (H 0 t x r eq_refl eq_refl eq_refl) as (v & y & -> & E).
      cbn [transform_all fst snd]. rewrite E. cbn.
      destruct (IH xs vars e) as [I1 I2]; [cbn in Hx; lia|injection Hv; auto| |].
      { intros i t' x' r' H1 H2 H3. exact (H (S i) t' x' r' H1 H2 H3). }
      rewrite I1, I2. auto.
  Qed.
End Generate.

Section GenerateSame.
  Context {A M T : Type}.

  Lemma variances_ok (zero : A) (cltovar : list A -> result A) gls n :
    triangle n (length gls) -> (forall cl, In cl gls -> exists v, cltovar cl = Ok v) ->
    forall i r, nth_error (map (fun i => do cl <- getcl zero gls i i None; cltovar cl) (seq 0 n)) i = Some r ->
    exists cl v, spectrum_of gls i i cl /\ cltovar cl = Ok v /\ r = Ok v.
  Proof.
    intros Ht Hv i r H. rewrite nth_error_map', nth_error_seq in H.
    destruct (Nat.ltb_spec i n) as [Hi|]; cbn in H; [|discriminate]. injection H as <-.
    pose proof (in_order_exists i i (le_n i)) as Ho.
    assert (Hlt : i * (i + 1) / 2 + i - i < length gls) by (apply (proj1 (in_order_lt _ _ _ _ _ Ht Ho)); exact Hi).
    destruct (nth_error gls (i * (i + 1) / 2 + i - i)) as [cl|] eqn:Ec; [|apply nth_error_None in Ec; lia].
    assert (Hs : spectrum_of gls i i cl).
    { exists (i * (i + 1) / 2 + i - i). rewrite Nat.max_id, Nat.min_id. auto. }
    assert (Eg' : getcl zero gls i i None = Ok cl).
    { destruct Hs as (k & H1 & H2). apply getcl_none. exists k. auto. }
    rewrite Eg'. cbn [bind]. destruct (Hv cl (nth_error_In _ _ Ec)) as [v Ev]. rewrite Ev. eauto.
  Qed.

  Lemma same_fields (zero : A) (cltovar : list A -> result A)
      (apply : T -> M -> A -> result M) grf gls ncorr (normal lognormal : T) (logn : M -> A -> M) n xs e :
    triangle n (length gls) -> grf gls ncorr = (xs, e) -> length xs <= n -> (e = None -> length xs = n) ->
    (forall cl, In cl gls -> exists v, cltovar cl = Ok v) ->
    (forall x v, apply normal x v = Ok x) -> (forall x v, apply lognormal x v = Ok (logn x v)) ->
    generate_same zero cltovar apply grf normal gls ncorr = (xs, e) /\
    exists ls, generate_same zero cltovar apply grf lognormal gls ncorr = (ls, e) /\ length ls = length xs /\
      forall i x, nth_error xs i = Some x -> exists cl v,
        spectrum_of gls i i cl /\ cltovar cl = Ok v /\ nth_error ls i = Some (logn x v).
  Proof.
    intros Ht Eg Hx Hf Hv Hn Hl.
    assert (G : forall t (f : M -> A -> M), (forall x v, apply t x v = Ok (f x v)) ->
      exists ls, generate_same zero cltovar apply grf t gls ncorr = (ls, e) /\ length ls = length xs /\
      forall i x, nth_error xs i = Some x -> exists cl v,
        spectrum_of gls i i cl /\ cltovar cl = Ok v /\ nth_error ls i = Some (f x v)).
    { intros t f Hap. unfold generate_same, generate.
      rewrite (proj2 (nfields_ok _ _) Ht), repeat_length, (proj2 (triangle_check _ _) Ht), Eg.
      set (vars := map _ _).
      assert (Hvl : length vars = length (repeat t n)) by (unfold vars; rewrite map_length, seq_length, repeat_length; reflexivity).
      assert (Hok : forall i t0 x r, nth_error (repeat t n) i = Some t0 -> nth_error xs i = Some x ->
         nth_error vars i = Some r -> exists v y, r = Ok v /\ apply t0 x v = Ok y).
      { intros i t0 x r H1 _ H3. destruct (variances_ok zero cltovar gls n Ht Hv i r H3) as (cl & v & _ & _ & ->).
        apply nth_error_In, repeat_spec in H1. subst t0. exists v, (f x v). auto. }
      assert (Hfull : length (fst (transform_all apply (repeat t n) (xs, e) vars)) = length xs /\
                      snd (transform_all apply (repeat t n) (xs, e) vars) = e).
      { destruct e as [e|].
        - apply transform_fail; [rewrite repeat_length; exact Hx|exact Hvl|exact Hok].
        - specialize (Hf eq_refl). assert (Hxl : length xs = length (repeat t n)) by (rewrite repeat_length; exact Hf).
          rewrite Hxl. apply transform_full; [exact Hxl|exact Hvl|exact Hok]. }
      destruct Hfull as [F1 F2].
      exists (fst (transform_all apply (repeat t n) (xs, e) vars)). split.
      { revert F2. destruct (transform_all apply (repeat t n) (xs, e) vars); cbn. congruence. }
      split; [exact F1|]. intros i x Hi.
      assert (Hlt : i < length (fst (transform_all apply (repeat t n) (xs, e) vars)))
        by (rewrite F1; apply nth_error_Some; congruence).
      destruct (nth_error (fst (transform_all apply (repeat t n) (xs, e) vars)) i) as [y|] eqn:Ey;
        [|apply nth_error_None in Ey; lia].
      destruct (transform_prefix apply _ _ _ _ _ _ Ey) as (t0 & x0 & v & H1 & H2 & H3 & H4).
      apply nth_error_In, repeat_spec in H1. subst t0. rewrite Hi in H2. injection H2 as <-.
      destruct (variances_ok zero cltovar gls n Ht Hv i _ H3) as (cl & v' & S1 & S2 & S3).
      injection S3 as <-. exists cl, v. split; [exact S1|]. split; [exact S2|].
      rewrite Hap in H4. congruence. }
    split; [|apply G; exact Hl].
    destruct (G normal (fun x _ => x) Hn) as (ls & E & L & R).
    rewrite E. f_equal. apply nth_error_ext'. intro i.
    destruct (nth_error xs i) as [x|] eqn:Ei.
    - destruct (R i x Ei) as (_ & _ & _ & _ & ->). reflexivity.
    - apply nth_error_None in Ei. apply nth_error_None. lia.
  Qed.
End GenerateSame.

Lemma mapM_fails {B C} (f : B -> result C) l x0 e0 : In x0 l ->
  (forall x e, In x l -> f x = Err e -> e = e0) -> f x0 = Err e0 -> mapM f l = Err e0.
Proof.
  induction l as [|x l IH]; [contradiction|]. intros Hin Hu Hf. cbn.
  destruct (f x) as [y|e] eqn:E.
  - cbn. destruct Hin as [->|Hin]; [congruence|].
    rewrite IH; auto. intros x' e' H1 H2. apply (Hu x'); [right; exact H1|exact H2].
  - cbn. f_equal. apply (Hu x); [left; reflexivity|exact E].
Qed.

Lemma fill_cube_none {A} (n : nat) : forall (items : list (nat * nat * option (list A))) (c : cube A) i0 j0,
  cn c = n -> (forall i j cl, In (i, j, cl) items -> j <= i < n) ->
  In (i0, j0, None) items -> fill_cube c items = Err AttributeError.
Proof.
  induction items as [|[[i j] cl] items IH]; [contradiction|].
  intros c i0 j0 Hn Hb Hin. cbn [fill_cube]. destruct cl as [cl|]; [|reflexivity].
  destruct Hin as [Hin|Hin]; [discriminate|].
  assert (Hij := Hb i j _ (or_introl eq_refl)). unfold cset.
  assert (Ei : i <? cn c = true) by (apply Nat.ltb_lt; lia).
  assert (Ej : j <? cn c = true) by (apply Nat.ltb_lt; lia).
  rewrite Ei, Ej. cbn [andb bind cn ck]. rewrite Ei, Ej. cbn [andb bind].
  apply (IH _ i0 j0); [exact Hn| |exact Hin]. intros; eapply Hb; right; eassumption.
Qed.

Lemma cov_from_spectra_none {A} (zero : A) (spectra : list (option (list A))) n lmax :
  triangle n (length spectra) -> In None spectra ->
  cov_from_spectra zero spectra lmax = Err AttributeError.
Proof.
  intros Ht Hin. unfold cov_from_spectra. rewrite (proj2 (nfields_ok _ _) Ht). cbn [bind].
  assert (Hm : mapM shape0 spectra = Err AttributeError).
  { apply (mapM_fails _ _ None); [exact Hin| |reflexivity].
    intros [x|] e _; cbn; [discriminate|]. intro H; injection H as <-; reflexivity. }
  destruct lmax as [lm|]; [|rewrite Hm; reflexivity]. cbn [bind].
  assert (Hall : fill_cube {| ck := lm + 1; cn := n; cget := fun _ _ _ => zero |} (enumerate_spectra spectra) = Err AttributeError).
  { apply In_nth_error in Hin as [k Hk].
    apply (fill_cube_none n _ _ (row_of_counter k) (row_of_counter k * (row_of_counter k + 3) / 2 - k)); [reflexivity| |].
    - intros i j cl H. apply enumerate_In in H as (p & Ho & Hp).
      assert (Hlt : p < length spectra) by (apply nth_error_Some; congruence).
      split; [exact (proj1 Ho)|]. apply (proj2 (in_order_lt _ _ _ _ _ Ht Ho)); exact Hlt.
    - apply enumerate_In. exists k. split; [exact (proj2 (counter_in_order k))|exact Hk]. }
  destruct spectra as [|[c|] spectra]; [contradiction| |reflexivity].
  cbn [index nth_error bind shape0]. exact Hall.
Qed.
