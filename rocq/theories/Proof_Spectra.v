From Verif Require Import Base Model_Spectra Spec_Spectra.
Require Import Permutation.

(** * Triangle numbers *)
Lemma tri2 i : 2 * (i * (i + 1) / 2) = i * (i + 1).
Proof.
  assert (H : exists q, i * (i + 1) = 2 * q).
  { induction i as [|i [q IH]]; [exists 0; reflexivity|].
    exists (q + i + 1). lia. }
  destruct H as [q ->]. rewrite (Nat.mul_comm 2 q), Nat.div_mul by lia. lia.
Qed.

Lemma triangle_tri n : triangle n (n * (n + 1) / 2).
Proof. unfold triangle. apply tri2. Qed.

Lemma triangle_inj n m t : triangle n t -> triangle m t -> n = m.
Proof. unfold triangle; intros; nia. Qed.

Lemma triangle_fun n t t' : triangle n t -> triangle n t' -> t = t'.
Proof. unfold triangle; intros; lia. Qed.

Lemma sqrt_triangle n t : triangle n t -> Nat.sqrt (2 * t) = n.
Proof.
  unfold triangle; intros ->. apply Nat.sqrt_unique. nia.
Qed.

Lemma inv_triangle_ok t n : inv_triangle_number t = Ok n <-> triangle n t.
Proof.
  unfold inv_triangle_number. split.
  - destruct (Nat.eqb_spec (Nat.sqrt (2 * t) * (Nat.sqrt (2 * t) + 1) / 2) t) as [E|E];
      simpl; intro H; [|discriminate].
    injection H as <-. pose proof (triangle_tri (Nat.sqrt (2 * t))) as Ht.
    rewrite E in Ht. exact Ht.
  - intro H. pose proof (sqrt_triangle _ _ H) as ->.
    rewrite (triangle_fun n _ t (triangle_tri n) H), Nat.eqb_refl. reflexivity.
Qed.

Lemma inv_triangle_cases t :
  (exists n, inv_triangle_number t = Ok n) \/ inv_triangle_number t = Err ValueError.
Proof.
  unfold inv_triangle_number.
  destruct (negb _); [right; reflexivity | left; eexists; reflexivity].
Qed.

Lemma nfields_inv t : nfields_from_nspectra t = inv_triangle_number t.
Proof.
  unfold nfields_from_nspectra.
  destruct (inv_triangle_cases t) as [[n ->]| ->]; reflexivity.
Qed.

Lemma nfields_ok t n : nfields_from_nspectra t = Ok n <-> triangle n t.
Proof. rewrite nfields_inv. apply inv_triangle_ok. Qed.

Lemma nfields_err t :
  nfields_from_nspectra t = Err ValueError <-> (forall n, ~ triangle n t).
Proof.
  split.
  - intros H n Hn. apply nfields_ok in Hn. congruence.
  - intro H. rewrite nfields_inv.
    destruct (inv_triangle_cases t) as [[n E]|E]; [|exact E].
    apply inv_triangle_ok in E. exfalso; exact (H n E).
Qed.

(** * The counter *)
Lemma row_bounds k : let i := row_of_counter k in
  i * (i + 1) <= 2 * k < (i + 1) * (i + 2).
Proof.
  unfold row_of_counter; cbv zeta.
  set (s := Nat.sqrt (8 * k + 1)).
  assert (Hs : s * s <= 8 * k + 1 < (s + 1) * (s + 1)).
  { pose proof (Nat.sqrt_spec (8 * k + 1) (Nat.le_0_l _)) as H.
    fold s in H. nia. }
  assert (Hs1 : 1 <= s) by nia.
  pose proof (Nat.div_mod (s - 1) 2 ltac:(lia)) as Hd.
  pose proof (Nat.mod_upper_bound (s - 1) 2 ltac:(lia)) as Hm.
  set (i := (s - 1) / 2) in *. nia.
Qed.

Lemma row_unique k i : i * (i + 1) <= 2 * k < (i + 1) * (i + 2) -> row_of_counter k = i.
Proof. intro H. pose proof (row_bounds k) as H'; cbv zeta in H'. nia. Qed.

Lemma tri3 i : 2 * (i * (i + 3) / 2) = i * (i + 3).
Proof.
  assert (H : exists q, i * (i + 3) = 2 * q).
  { induction i as [|i [q IH]]; [exists 0; reflexivity|]. exists (q + i + 2). lia. }
  destruct H as [q ->]. rewrite (Nat.mul_comm 2 q), Nat.div_mul by lia. lia.
Qed.

Lemma counter_in_order k :
  let i := row_of_counter k in
  k <= i * (i + 3) / 2 /\ in_order k i (i * (i + 3) / 2 - k).
Proof.
  cbv zeta. pose proof (row_bounds k) as H; cbv zeta in H.
  set (i := row_of_counter k) in *. pose proof (tri3 i).
  unfold in_order. nia.
Qed.

Lemma in_order_row k i j : in_order k i j -> row_of_counter k = i.
Proof. intros [H1 H2]. apply row_unique. nia. Qed.

Lemma in_order_fun k i j i' j' : in_order k i j -> in_order k i' j' -> i = i' /\ j = j'.
Proof.
  intros H H'. pose proof (in_order_row _ _ _ H) as E1.
  pose proof (in_order_row _ _ _ H') as E2.
  assert (E : i = i') by congruence. split; [exact E|].
  destruct H, H'. rewrite E in *. lia.
Qed.

Lemma in_order_inj k k' i j : in_order k i j -> in_order k' i j -> k = k'.
Proof. intros [_ H] [_ H']. lia. Qed.

Lemma in_order_exists i j : j <= i -> in_order (i * (i + 1) / 2 + i - j) i j.
Proof. intro H. pose proof (tri2 i). unfold in_order. lia. Qed.

Lemma in_order_lt n t k i j : triangle n t -> in_order k i j -> (i < n <-> k < t).
Proof. unfold triangle; intros Ht [H1 H2]. split; intro; nia. Qed.

(** * enumerate_spectra *)
Lemma enumerate_nth {A} (l : list A) k :
  nth_error (enumerate_spectra l) k =
  option_map (fun cl => let i := row_of_counter k in (i, i * (i + 3) / 2 - k, cl))
             (nth_error l k).
Proof.
  unfold enumerate_spectra. rewrite nth_error_map', nth_error_enum.
  destruct (nth_error l k); reflexivity.
Qed.

Lemma enumerate_length {A} (l : list A) : length (enumerate_spectra l) = length l.
Proof. unfold enumerate_spectra. rewrite map_length, length_enum. reflexivity. Qed.

(** * tril_indices / spectra_indices *)
Lemma flat_map_seq_S {B} (f : nat -> list B) n :
  flat_map f (seq 0 (S n)) = flat_map f (seq 0 n) ++ f n.
Proof. rewrite seq_S, flat_map_app. cbn [flat_map Nat.add]. rewrite app_nil_r. reflexivity. Qed.

Lemma tril_S n : tril_indices (S n) = tril_indices n ++ map (fun j => (n, j)) (seq 0 (S n)).
Proof.
  unfold tril_indices. apply (flat_map_seq_S (fun i => map (fun j => (i, j)) (seq 0 (S i)))).
Qed.

Lemma tril_length n : triangle n (length (tril_indices n)).
Proof.
  unfold triangle. induction n as [|n IH]; [reflexivity|].
  rewrite tril_S, app_length, map_length, seq_length. lia.
Qed.

Lemma tril_nth n k i j :
  nth_error (tril_indices n) k = Some (i, j) <->
  i < n /\ j <= i /\ 2 * k = i * (i + 1) + 2 * j.
Proof.
  induction n as [|n IH].
  - simpl. destruct k; simpl; split; [discriminate|lia|discriminate|lia].
  - rewrite tril_S, nth_error_app. pose proof (tril_length n) as Hl.
    unfold triangle in Hl.
    destruct (Nat.ltb_spec k (length (tril_indices n))) as [Hk|Hk].
    + rewrite IH. split; [lia|]. intros (H1 & H2 & H3).
      split; [|lia]. assert (i <> n); [|lia]. intros ->. nia.
    + rewrite nth_error_map', nth_error_seq. set (d := k - length (tril_indices n)).
      destruct (Nat.ltb_spec d (S n)) as [Hd|Hd]; simpl.
      * split.
        -- intro H; injection H as <- <-. unfold d in *. nia.
        -- intros (H1 & H2 & H3). assert (i = n) by (unfold d in *; nia). subst i.
           assert (j = d) by (unfold d in *; nia). subst j. reflexivity.
      * split; [discriminate|]. intros (H1 & H2 & H3). unfold d in *. nia.
Qed.

Lemma indices_length n : length (spectra_indices n) = length (tril_indices n).
Proof. unfold spectra_indices. apply map_length. Qed.

Lemma indices_nth n k i j :
  nth_error (spectra_indices n) k = Some (i, j) <-> i < n /\ in_order k i j.
Proof.
  unfold spectra_indices. rewrite nth_error_map'. unfold in_order.
  destruct (nth_error (tril_indices n) k) as [[a b]|] eqn:E; simpl.
  - apply tril_nth in E. split.
    + intro H; injection H as <- <-. lia.
    + intros (H1 & H2 & H3). assert (a = i) by nia. subst a.
      f_equal. f_equal. lia.
  - split; [discriminate|]. intros (H1 & H2 & H3).
    assert (H4 : nth_error (tril_indices n) k = Some (i, i - j)) by (apply tril_nth; lia).
    congruence.
Qed.

Lemma indices_In n i j : In (i, j) (spectra_indices n) <-> j <= i < n.
Proof.
  split.
  - intro H. apply In_nth_error in H as [k H]. apply indices_nth in H as (H1 & H2 & _). lia.
  - intros [H1 H2]. eapply nth_error_In. apply indices_nth. split; [exact H2|].
    apply in_order_exists; exact H1.
Qed.

Lemma indices_NoDup n : NoDup (spectra_indices n).
Proof.
  apply NoDup_nth_error. intros k k' Hk E.
  destruct (nth_error (spectra_indices n) k) as [[i j]|] eqn:E1.
  - symmetry in E. apply indices_nth in E1 as [_ H1]. apply indices_nth in E as [_ H2].
    eapply in_order_inj; eassumption.
  - apply nth_error_None in E1. lia.
Qed.

Lemma enumerate_is_indices {A} (l : list A) n : triangle n (length l) ->
  map fst (enumerate_spectra l) = spectra_indices n /\
  map snd (enumerate_spectra l) = l.
Proof.
  intro Hn. split; apply nth_error_ext'; intro k; rewrite nth_error_map', enumerate_nth.
  - destruct (nth_error l k) as [cl|] eqn:E; simpl.
    + symmetry. apply indices_nth. pose proof (counter_in_order k) as [H1 H2].
      split; [|exact H2]. apply (in_order_lt n (length l) k _ _ Hn H2).
      apply nth_error_Some. congruence.
    + symmetry. apply nth_error_None. rewrite indices_length.
      apply nth_error_None in E. pose proof (triangle_fun n _ _ Hn (tril_length n)). lia.
  - destruct (nth_error l k); reflexivity.
Qed.

(** * getcl *)
Lemma getcl_swap {A} (z : A) cls i j lm : getcl z cls i j lm = getcl z cls j i lm.
Proof.
  unfold getcl. destruct (Nat.ltb_spec i j); destruct (Nat.ltb_spec j i); try lia; auto.
  assert (i = j) by lia; subst; reflexivity.
Qed.

Lemma getcl_none {A} (z : A) cls i j cl :
  getcl z cls i j None = Ok cl <->
  exists k, nth_error cls k = Some cl /\ in_order k (Nat.max i j) (Nat.min i j).
Proof.
  assert (Hwlog : forall i j, j <= i ->
    (getcl z cls i j None = Ok cl <-> exists k, nth_error cls k = Some cl /\ in_order k i j)).
  { clear. intros i j Hij. unfold getcl.
    destruct (Nat.ltb_spec i j); [lia|]. unfold index.
    pose proof (in_order_exists i j Hij) as Ho.
    destruct (nth_error cls (i * (i + 1) / 2 + i - j)) as [c|] eqn:E; simpl.
    - split.
      + intro H'; injection H' as <-. eauto.
      + intros (k & Hk & Hk'). rewrite (in_order_inj _ _ _ _ Hk' Ho) in Hk. congruence.
    - split; [discriminate|]. intros (k & Hk & Hk').
      rewrite (in_order_inj _ _ _ _ Hk' Ho) in Hk. congruence. }
  destruct (Nat.le_ge_cases j i) as [H|H].
  - rewrite (Hwlog i j H). rewrite Nat.max_l, Nat.min_r by exact H. reflexivity.
  - rewrite getcl_swap. rewrite (Hwlog j i H). rewrite Nat.max_r, Nat.min_l by exact H.
    reflexivity.
Qed.

Lemma getcl_none_err {A} (z : A) cls i j :
  (exists cl, getcl z cls i j None = Ok cl) \/ getcl z cls i j None = Err IndexError.
Proof.
  unfold getcl, index. destruct (if i <? j then (j, i) else (i, j)) as [a b].
  destruct (nth_error cls (a * (a + 1) / 2 + a - b)); simpl; [left; eauto|right; reflexivity].
Qed.

Lemma getcl_lmax {A} (z : A) cls i j lm :
  getcl z cls i j (Some lm) =
  do cl <- getcl z cls i j None;
  Ok (if lm + 1 <? length cl then firstn (lm + 1) cl
      else cl ++ repeat z (lm + 1 - length cl)).
Proof.
  unfold getcl. destruct (if i <? j then (j, i) else (i, j)) as [a b].
  destruct (index cls (a * (a + 1) / 2 + a - b)) as [c|e]; simpl; [|reflexivity].
  destruct (lm + 1 <? length c); reflexivity.
Qed.

Lemma pad_nth {A} (z : A) cl lm l :
  nth_error (if lm + 1 <? length cl then firstn (lm + 1) cl
             else cl ++ repeat z (lm + 1 - length cl)) l =
  if l <=? lm then Some (nth l cl z) else None.
Proof.
  destruct (Nat.ltb_spec (lm + 1) (length cl)) as [H|H].
  - rewrite nth_error_firstn. destruct (Nat.leb_spec l lm).
    + rewrite (proj2 (Nat.ltb_lt l (lm + 1))) by lia. apply nth_error_nth'. lia.
    + rewrite (proj2 (Nat.ltb_ge l (lm + 1))) by lia. reflexivity.
  - rewrite nth_error_app, nth_error_repeat'.
    destruct (Nat.ltb_spec l (length cl)) as [H1|H1].
    + rewrite (nth_error_nth' cl z H1). destruct (Nat.leb_spec l lm); [reflexivity|lia].
    + rewrite nth_overflow by lia.
      destruct (Nat.leb_spec l lm); destruct (Nat.ltb_spec (l - length cl) (lm + 1 - length cl));
        auto; lia.
Qed.

Lemma pad_length {A} (z : A) cl lm :
  length (if lm + 1 <? length cl then firstn (lm + 1) cl
             else cl ++ repeat z (lm + 1 - length cl)) = lm + 1.
Proof.
  destruct (Nat.ltb_spec (lm + 1) (length cl)).
  - apply firstn_length_le. lia.
  - rewrite app_length, repeat_length. lia.
Qed.

(** * HEALPix ordering *)
Lemma pair_eqb_spec p q : reflect (p = q) (pair_eqb p q).
Proof.
  destruct p as [a b], q as [c d]. unfold pair_eqb. simpl.
  destruct (Nat.eqb_spec a c); destruct (Nat.eqb_spec b d); simpl; constructor; congruence.
Qed.

(** The diagonal-major enumeration restricted to the first [d] diagonals. *)
Lemma hp_prefix_nth n d h i j : d <= n ->
  nth_error (flat_map (fun k => map (fun i => (i + k, i)) (seq 0 (n - k))) (seq 0 d)) h = Some (i, j) <->
  i < n /\ j <= i /\ i - j < d /\ h = diagonals_before n (i - j) + j.
Proof.
  revert h i j. induction d as [|d IH]; intros h i j Hd.
  - simpl. destruct h; simpl; split; try discriminate; lia.
  - rewrite seq_S, flat_map_app. simpl. rewrite app_nil_r.
    assert (Hlen : forall e, length (flat_map (fun k => map (fun i => (i + k, i)) (seq 0 (n - k))) (seq 0 e)) = diagonals_before n e).
    { induction e as [|e IHe]; [reflexivity|]. rewrite seq_S, flat_map_app, app_length, IHe.
      simpl. rewrite app_nil_r, map_length, seq_length. reflexivity. }
    assert (Hmono : forall a b, a < b -> diagonals_before n a + (n - a) <= diagonals_before n b).
    { clear. intros a b H. induction b as [|b IHb]; [lia|]. simpl.
      destruct (Nat.eq_dec a b); [subst; lia|]. specialize (IHb ltac:(lia)). lia. }
    rewrite nth_error_app, Hlen.
    destruct (Nat.ltb_spec h (diagonals_before n d)) as [Hh|Hh].
    + rewrite IH by lia. split; [lia|]. intros (H1 & H2 & H3 & H4).
      assert (i - j <> d) by (intro E; rewrite E in H4; lia). lia.
    + rewrite nth_error_map', nth_error_seq.
      destruct (Nat.ltb_spec (h - diagonals_before n d) (n - d)) as [Hk|Hk]; simpl.
      * split.
        -- intro H; injection H as <- <-. replace (h - diagonals_before n d + d - (h - diagonals_before n d)) with d by lia. lia.
        -- intros (H1 & H2 & H3 & H4).
           assert (E : i - j = d).
           { destruct (Nat.eq_dec (i - j) d) as [E|E]; [exact E|].
             specialize (Hmono (i - j) d ltac:(lia)). lia. }
           rewrite E in H4. f_equal. f_equal; lia.
      * split; [discriminate|]. intros (H1 & H2 & H3 & H4).
        destruct (Nat.eq_dec (i - j) d) as [E|E].
        -- rewrite E in H4. lia.
        -- specialize (Hmono (i - j) d ltac:(lia)). lia.
Qed.

Lemma healpix_nth n h i j :
  nth_error (healpix_pairs n) h = Some (i, j) <-> in_healpix_order n h i j.
Proof.
  unfold healpix_pairs, in_healpix_order. rewrite hp_prefix_nth by lia.
  split; intros; lia.
Qed.

Lemma healpix_order_fun n h i j h' : in_healpix_order n h i j -> in_healpix_order n h' i j -> h = h'.
Proof. unfold in_healpix_order. lia. Qed.

Lemma diagonals_triangle n : triangle n (diagonals_before n n).
Proof.
  unfold triangle.
  assert (H : forall d, d <= n -> 2 * diagonals_before n d + d * (d - 1) = 2 * d * n).
  { induction d as [|d IH]; intro Hd; [reflexivity|]. simpl.
    specialize (IH ltac:(lia)). destruct d; nia. }
  specialize (H n (le_n n)). destruct n; nia.
Qed.

Lemma healpix_length n : triangle n (length (healpix_pairs n)).
Proof.
  replace (length (healpix_pairs n)) with (diagonals_before n n); [apply diagonals_triangle|].
  unfold healpix_pairs. symmetry.
  assert (Hlen : forall e, length (flat_map (fun k => map (fun i => (i + k, i)) (seq 0 (n - k))) (seq 0 e)) = diagonals_before n e).
  { induction e as [|e IHe]; [reflexivity|]. rewrite seq_S, flat_map_app, app_length, IHe.
    simpl. rewrite app_nil_r, map_length, seq_length. reflexivity. }
  apply Hlen.
Qed.

Lemma dict_get_spec kvs p v : (forall p v v', In (p, v) kvs -> In (p, v') kvs -> v = v') ->
  (dict_get kvs p = Ok v <-> In (p, v) kvs).
Proof.
  induction kvs as [|[q w] kvs IH]; intro Hf; simpl.
  - split; [discriminate|contradiction].
  - destruct (pair_eqb_spec q p) as [->|Hne].
    + split.
      * intro H; injection H as ->. left; reflexivity.
      * intro H. f_equal. apply (Hf p); [left; reflexivity|exact H].
    + rewrite IH by (intros; eapply Hf; right; eassumption).
      split; [auto|]. intros [E|E]; [injection E; congruence|exact E].
Qed.

Lemma comb_get n p k :
  dict_get (dict_of (map (fun '(pos, idx) => (idx, pos)) (enum (spectra_indices n)))) p = Ok k <->
  nth_error (spectra_indices n) k = Some p.
Proof.
  assert (HIn : forall p v, In (p, v) (dict_of (map (fun '(pos, idx) => (idx, pos)) (enum (spectra_indices n)))) <-> nth_error (spectra_indices n) v = Some p).
  { intros q v. unfold dict_of. rewrite <- in_rev, in_map_iff. split.
    - intros ([pos idx] & E & H). injection E as <- <-.
      apply In_nth_error in H as [k' H]. rewrite nth_error_enum in H.
      destruct (nth_error (spectra_indices n) k') eqn:E; [|discriminate].
      simpl in H. injection H as <- <-. exact E.
    - intro H. exists (v, q). split; [reflexivity|].
      apply nth_error_In with v. rewrite nth_error_enum, H. reflexivity. }
  rewrite dict_get_spec; [apply HIn|].
  intros q v v' H1 H2. apply HIn in H1, H2.
  destruct q as [i j]. apply indices_nth in H1 as [_ H1]. apply indices_nth in H2 as [_ H2].
  eapply in_order_inj; eassumption.
Qed.

Lemma list_index_spec l p k : NoDup l ->
  (list_index l p = Ok k <-> nth_error l k = Some p).
Proof.
  revert k; induction l as [|q l IH]; intros k Hnd; simpl.
  - destruct k; split; discriminate.
  - inversion Hnd as [|? ? Hq Hl]; subst.
    destruct (pair_eqb_spec q p) as [->|Hne].
    + destruct k; simpl; split; try congruence.
      intro H. apply nth_error_In in H. contradiction.
    + rewrite bind_ok. destruct k as [|k]; simpl.
      * split; [intros (a & _ & H); discriminate|congruence].
      * rewrite <- IH by assumption. split.
        -- intros (a & Ha & E). injection E as <-. exact Ha.
        -- intros H. exists k; auto.
Qed.

Lemma healpix_NoDup n : NoDup (healpix_pairs n).
Proof.
  apply NoDup_nth_error. intros k k' Hk E.
  destruct (nth_error (healpix_pairs n) k) as [[i j]|] eqn:E1.
  - symmetry in E. apply healpix_nth in E1, E. eapply healpix_order_fun; eassumption.
  - apply nth_error_None in E1. lia.
Qed.

Lemma Forall2_nth {A B} (P : A -> B -> Prop) l l' :
  Forall2 P l l' <->
  length l = length l' /\
  forall k x y, nth_error l k = Some x -> nth_error l' k = Some y -> P x y.
Proof.
  split.
  - intro H. induction H as [|x y l l' Hxy H [IH1 IH2]].
    + split; [reflexivity|]. intros [|k]; discriminate.
    + split; [simpl; congruence|]. intros [|k] a b Ha Hb; simpl in *.
      * injection Ha as <-; injection Hb as <-; exact Hxy.
      * eapply IH2; eassumption.
  - revert l'; induction l as [|x l IH]; intros [|y l'] [Hl H]; simpl in Hl; try discriminate;
      constructor.
    + exact (H 0 x y eq_refl eq_refl).
    + apply IH. split; [lia|]. intros k a b Ha Hb. exact (H (S k) a b Ha Hb).
Qed.

Lemma Forall_exists_Forall2 {A B} (P : A -> B -> Prop) l :
  (forall x, In x l -> exists y, P x y) -> exists l', Forall2 P l l'.
Proof.
  induction l as [|x l IH]; intro H; [exists []; constructor|].
  destruct (H x (or_introl eq_refl)) as [y Hy].
  destruct IH as [l' Hl']; [intros; apply H; right; assumption|].
  exists (y :: l'). constructor; assumption.
Qed.

Lemma index_ok {A} (l : list A) k x : index l k = Ok x <-> nth_error l k = Some x.
Proof. unfold index. destruct (nth_error l k); split; congruence. Qed.

Lemma to_healpix_spec {A} (s : list A) n : triangle n (length s) ->
  exists t, glass_to_healpix_spectra s = Ok t /\ length t = length s /\
    forall k h i j, i < n -> in_order k i j -> in_healpix_order n h i j ->
      nth_error t h = nth_error s k.
Proof.
  intro Hn. unfold glass_to_healpix_spectra.
  rewrite (proj2 (nfields_ok _ n) Hn). cbn [bind].
  set (comb := dict_of _).
  assert (Hex : forall p, In p (healpix_pairs n) -> exists x,
     (do k <- dict_get comb p; index s k) = Ok x).
  { intros [i j] Hp. apply In_nth_error in Hp as [h Hp]. apply healpix_nth in Hp as (H1 & H2 & H3).
    assert (Hc : dict_get comb (i, j) = Ok (i * (i + 1) / 2 + i - j)).
    { apply comb_get. apply indices_nth. split; [exact H2|apply in_order_exists; exact H1]. }
    rewrite Hc. cbn [bind]. unfold index.
    destruct (nth_error s (i * (i + 1) / 2 + i - j)) eqn:E; [eexists; reflexivity|].
    apply nth_error_None in E. pose proof (in_order_exists i j H1) as Ho.
    pose proof (proj1 (in_order_lt _ _ _ _ _ Hn Ho) H2). lia. }
  destruct (Forall_exists_Forall2 _ _ Hex) as [t Ht].
  exists t. split; [apply mapM_ok; exact Ht|].
  apply Forall2_nth in Ht as [Hl Ht]. split.
  { rewrite <- Hl. eapply triangle_fun; [apply healpix_length|exact Hn]. }
  intros k h i j Hi Ho Hh.
  assert (Hp : nth_error (healpix_pairs n) h = Some (i, j)) by (apply healpix_nth; exact Hh).
  destruct (nth_error t h) as [y|] eqn:Ey.
  - specialize (Ht h (i, j) y Hp Ey). apply bind_ok in Ht as (k' & Hk' & Hx).
    apply comb_get in Hk'. apply indices_nth in Hk' as [_ Hk'].
    rewrite (in_order_inj _ _ _ _ Hk' Ho) in Hx. apply index_ok in Hx. congruence.
  - apply nth_error_None in Ey. assert (h < length (healpix_pairs n)); [|lia].
    apply nth_error_Some. congruence.
Qed.

Lemma to_glass_spec {A} (t : list A) n : triangle n (length t) ->
  exists s, healpix_to_glass_spectra t = Ok s /\ length s = length t /\
    forall k h i j, i < n -> in_order k i j -> in_healpix_order n h i j ->
      nth_error s k = nth_error t h.
Proof.
  intro Hn. unfold healpix_to_glass_spectra.
  rewrite (proj2 (nfields_ok _ n) Hn). cbn [bind].
  assert (Hex : forall p, In p (spectra_indices n) -> exists x,
     (do k <- list_index (healpix_pairs n) p; index t k) = Ok x).
  { intros [i j] Hp. apply indices_In in Hp as [H1 H2].
    assert (Hh : in_healpix_order n (diagonals_before n (i - j) + j) i j)
      by (unfold in_healpix_order; auto).
    assert (Hc : list_index (healpix_pairs n) (i, j) = Ok (diagonals_before n (i - j) + j)).
    { apply list_index_spec; [apply healpix_NoDup|]. apply healpix_nth; exact Hh. }
    rewrite Hc. cbn [bind]. unfold index.
    destruct (nth_error t (diagonals_before n (i - j) + j)) eqn:E; [eexists; reflexivity|].
    apply nth_error_None in E. apply healpix_nth in Hh.
    assert (diagonals_before n (i - j) + j < length (healpix_pairs n)) by (apply nth_error_Some; congruence).
    pose proof (triangle_fun _ _ _ (healpix_length n) Hn). lia. }
  destruct (Forall_exists_Forall2 _ _ Hex) as [s Hs].
  exists s. split; [apply mapM_ok; exact Hs|].
  apply Forall2_nth in Hs as [Hl Hs]. split.
  { rewrite <- Hl, indices_length. eapply triangle_fun; [apply tril_length|exact Hn]. }
  intros k h i j Hi Ho Hh.
  assert (Hp : nth_error (spectra_indices n) k = Some (i, j)) by (apply indices_nth; auto).
  destruct (nth_error s k) as [y|] eqn:Ey.
  - specialize (Hs k (i, j) y Hp Ey). apply bind_ok in Hs as (k' & Hk' & Hx).
    apply list_index_spec in Hk'; [|apply healpix_NoDup]. apply healpix_nth in Hk'.
    rewrite (healpix_order_fun _ _ _ _ _ Hk' Hh) in Hx. apply index_ok in Hx. congruence.
  - apply nth_error_None in Ey. assert (k < length (spectra_indices n)); [|lia].
    apply nth_error_Some. congruence.
Qed.

(** Every position below the total belongs to some pair, in either order. *)
Lemma order_total n t k : triangle n t -> k < t -> exists i j, i < n /\ in_order k i j.
Proof.
  intros Hn Hk. pose proof (counter_in_order k) as [_ H].
  exists (row_of_counter k), (row_of_counter k * (row_of_counter k + 3) / 2 - k).
  split; [|exact H]. eapply in_order_lt; eassumption.
Qed.

Lemma healpix_total n t h : triangle n t -> h < t -> exists i j, in_healpix_order n h i j.
Proof.
  intros Hn Hh.
  destruct (nth_error (healpix_pairs n) h) as [[i j]|] eqn:E.
  - exists i, j. apply healpix_nth; exact E.
  - apply nth_error_None in E. pose proof (triangle_fun _ _ _ (healpix_length n) Hn). lia.
Qed.

Lemma roundtrip_gh {A} (s : list A) n : triangle n (length s) ->
  exists t, glass_to_healpix_spectra s = Ok t /\ healpix_to_glass_spectra t = Ok s.
Proof.
  intro Hn. destruct (to_healpix_spec s n Hn) as (t & Ht & Hlt & Hst).
  exists t. split; [exact Ht|].
  assert (Hn' : triangle n (length t)) by (rewrite Hlt; exact Hn).
  destruct (to_glass_spec t n Hn') as (s' & Hs' & Hls & Hts).
  rewrite Hs'. f_equal. apply nth_error_ext'. intro k.
  destruct (Nat.lt_ge_cases k (length s)) as [Hk|Hk].
  - destruct (order_total n _ k Hn Hk) as (i & j & Hi & Ho).
    assert (Hh : in_healpix_order n (diagonals_before n (i - j) + j) i j).
    { unfold in_healpix_order. destruct Ho; auto. }
    rewrite (Hts k _ i j Hi Ho Hh). exact (Hst k _ i j Hi Ho Hh).
  - rewrite (proj2 (nth_error_None s' k)) by lia. symmetry. apply nth_error_None; lia.
Qed.

Lemma roundtrip_hg {A} (t : list A) n : triangle n (length t) ->
  exists s, healpix_to_glass_spectra t = Ok s /\ glass_to_healpix_spectra s = Ok t.
Proof.
  intro Hn. destruct (to_glass_spec t n Hn) as (s & Hs & Hls & Hst).
  exists s. split; [exact Hs|].
  assert (Hn' : triangle n (length s)) by (rewrite Hls; exact Hn).
  destruct (to_healpix_spec s n Hn') as (t' & Ht' & Hlt & Hts).
  rewrite Ht'. f_equal. apply nth_error_ext'. intro h.
  destruct (Nat.lt_ge_cases h (length t)) as [Hh|Hh].
  - destruct (healpix_total n _ h Hn Hh) as (i & j & Ho).
    assert (Hk : in_order (i * (i + 1) / 2 + i - j) i j)
      by (apply in_order_exists; apply Ho).
    assert (Hi : i < n) by apply Ho.
    rewrite (Hts _ h i j Hi Hk Ho). exact (Hst _ h i j Hi Hk Ho).
  - rewrite (proj2 (nth_error_None t' h)) by lia. symmetry. apply nth_error_None; lia.
Qed.

Lemma healpix_err {A} (s : list A) : (forall n, ~ triangle n (length s)) ->
  glass_to_healpix_spectra s = Err ValueError /\ healpix_to_glass_spectra s = Err ValueError.
Proof.
  intro H. unfold glass_to_healpix_spectra, healpix_to_glass_spectra.
  rewrite (proj2 (nfields_err _) H). split; reflexivity.
Qed.

(** A reindexing that is injective and total on positions is a permutation. *)
Lemma reindex_perm {A} (s t : list A) (f : nat -> nat) :
  length t = length s ->
  (forall h, h < length t -> f h < length s) ->
  (forall h h', h < length t -> h' < length t -> f h = f h' -> h = h') ->
  (forall h, h < length t -> nth_error t h = nth_error s (f h)) ->
  Permutation s t.
Proof.
  intros Hl Hb Hi He. destruct s as [|d s0].
  - destruct t; [constructor|discriminate].
  - set (s := d :: s0) in *. apply (Permutation_nth _ _ d).
    split; [exact Hl|]. exists f. split; [|split].
    + intros h Hh. rewrite <- Hl in Hh. apply Hb; exact Hh.
    + intros h h' Hh Hh'. apply Hi; lia.
    + intros h Hh. rewrite <- Hl in Hh. specialize (He h Hh).
      rewrite (nth_error_nth' t d) in He by exact Hh.
      rewrite (nth_error_nth' s d) in He by (apply Hb; exact Hh). congruence.
Qed.

Lemma to_healpix_perm {A} (s t : list A) :
  glass_to_healpix_spectra s = Ok t -> Permutation s t.
Proof.
  intro H.
  assert (Hn : exists n, triangle n (length s)).
  { unfold glass_to_healpix_spectra in H. apply bind_ok in H as (n & Hn & _).
    exists n. apply nfields_ok; exact Hn. }
  destruct Hn as [n Hn]. destruct (to_healpix_spec s n Hn) as (t' & Ht & Hl & Hst).
  assert (t' = t) by congruence. subst t'.
  set (f := fun h => match nth_error (healpix_pairs n) h with
                     | Some (i, j) => i * (i + 1) / 2 + i - j | None => 0 end).
  assert (Hf : forall h, h < length t -> exists i j, in_healpix_order n h i j /\
                 in_order (f h) i j /\ i < n).
  { intros h Hh. rewrite Hl in Hh. destruct (healpix_total n _ h Hn Hh) as (i & j & Ho).
    exists i, j. split; [exact Ho|]. unfold f.
    rewrite (proj2 (healpix_nth n h i j) Ho).
    split; [apply in_order_exists; apply Ho|apply Ho]. }
  apply (reindex_perm s t f Hl).
  - intros h Hh. destruct (Hf h Hh) as (i & j & _ & Ho & Hi).
    apply (proj1 (in_order_lt _ _ _ _ _ Hn Ho)); exact Hi.
  - intros h h' Hh Hh' E. destruct (Hf h Hh) as (i & j & Hp & Ho & Hi).
    destruct (Hf h' Hh') as (i' & j' & Hp' & Ho' & Hi').
    rewrite E in Ho. destruct (in_order_fun _ _ _ _ _ Ho Ho') as [-> ->].
    eapply healpix_order_fun; eassumption.
  - intros h Hh. destruct (Hf h Hh) as (i & j & Hp & Ho & Hi).
    eapply Hst; eassumption.
Qed.

(** * Blocks of a flat_map *)
Lemma flat_map_nth {A B} (f : A -> list B) xs k x d :
  nth_error xs k = Some x -> d < length (f x) ->
  nth_error (flat_map f xs) (length (flat_map f (firstn k xs)) + d) = nth_error (f x) d.
Proof.
  revert k; induction xs as [|y xs IH]; intros [|k] Hx Hd; simpl in *; try discriminate.
  - injection Hx as ->. rewrite nth_error_app1 by exact Hd. reflexivity.
  - rewrite app_length, <- Nat.add_assoc, nth_error_app2 by lia.
    rewrite <- (IH k Hx Hd). f_equal. lia.
Qed.

Lemma skipn_seq m s n : skipn m (seq s n) = seq (s + m) (n - m).
Proof.
  revert s n; induction m as [|m IH]; intros s n; simpl.
  - rewrite Nat.add_0_r, Nat.sub_0_r. reflexivity.
  - destruct n as [|n]; simpl; [reflexivity|]. rewrite IH. f_equal; lia.
Qed.

Lemma firstn_seq m s n : firstn m (seq s n) = seq s (Nat.min m n).
Proof.
  revert s n; induction m as [|m IH]; intros s n; simpl; [reflexivity|].
  destruct n as [|n]; simpl; [reflexivity|]. rewrite IH. reflexivity.
Qed.

(** * a_lm reordering *)
Section Alm.
Context {A : Type} (alm : list A) (n : nat) (Hn : triangle n (length alm)).

Let get (d : A) (l m : nat) : A := nth (l * (l + 1) / 2 + m) alm d.

Lemma alm_in_range l m : m <= l -> l < n -> l * (l + 1) / 2 + m < length alm.
Proof using Hn. unfold triangle in Hn. intros. pose proof (tri2 l). nia. Qed.

Lemma alm_blocks d :
  glass_to_healpix_alm alm =
  Ok (flat_map (fun m => map (fun l => get d l m) (seq m (n - m))) (seq 0 n)).
Proof using Hn.
  unfold glass_to_healpix_alm. rewrite (proj2 (inv_triangle_ok _ n) Hn). cbn [bind].
  rewrite (mapM_pure _ (fun m => map (fun l => get d l m) (seq m (n - m)))).
  - cbn [bind]. rewrite <- flat_map_concat_map. reflexivity.
  - intros m Hm. apply in_seq in Hm. rewrite skipn_seq. simpl (0 + m).
    apply mapM_pure. intros l Hl. apply in_seq in Hl. unfold index, get.
    rewrite (nth_error_nth' alm d); [reflexivity|]. apply alm_in_range; lia.
Qed.

Lemma blocks_length (f : nat -> nat -> A) k : k <= n ->
  2 * length (flat_map (fun m => map (fun l => f l m) (seq m (n - m))) (seq 0 k)) + k * k
  = k * (2 * n + 1).
Proof.
  induction k as [|k IH]; intro Hk; [reflexivity|].
  rewrite flat_map_seq_S, app_length, map_length, seq_length.
  specialize (IH ltac:(lia)). nia.
Qed.

Lemma alm_reorder :
  exists out, glass_to_healpix_alm alm = Ok out /\ length out = length alm /\
    forall h g l m, in_healpix_alm_order n h l m -> in_glass_alm_order g l m ->
      nth_error out h = nth_error alm g.
Proof using Hn.
  assert (Hcase : length alm = 0 \/ exists d : A, True).
  { clear. destruct alm as [|d a]; [left; reflexivity|right; exists d; exact I]. }
  destruct Hcase as [H0|[d _]].
  - exists []. assert (E : alm = []) by (apply length_zero_iff_nil; exact H0).
    unfold triangle in Hn. assert (n = 0) by nia.
    split; [rewrite E; reflexivity|]. split; [rewrite E; reflexivity|].
    intros h g l m [[H1 H2] H3] H4. lia.
  - eexists. split; [apply (alm_blocks d)|]. split.
    + pose proof (blocks_length (get d) n (le_n n)) as H. unfold triangle in Hn. nia.
    + intros h g l m [[Hml Hln] Hh] [_ Hg].
      set (f := fun m => map (fun l => get d l m) (seq m (n - m))).
      pose proof (blocks_length (get d) m ltac:(lia)) as HB. fold f in HB.
      assert (Eh : h = length (flat_map f (firstn m (seq 0 n))) + (l - m)).
      { rewrite firstn_seq, Nat.min_l by lia.
        revert HB. generalize (length (flat_map f (seq 0 m))). intros L HB.
        clearbody f. clear - Hml Hln Hh HB.
        assert (Hw : exists w, 2 * n = w + 1 + m) by (exists (2 * n - 1 - m); lia).
        destruct Hw as [w Hw]. rewrite Hw in HB. replace (2 * n - 1 - m) with w in Hh by lia.
        lia. }
      rewrite Eh, (flat_map_nth f _ _ m).
      * unfold f. rewrite nth_error_map', nth_error_seq.
        rewrite (proj2 (Nat.ltb_lt _ _)) by lia. cbn [option_map]. unfold get.
        replace (m + (l - m)) with l by lia.
        assert (Eg : g = l * (l + 1) / 2 + m) by (pose proof (tri2 l); lia).
        rewrite Eg. symmetry. apply nth_error_nth'. apply alm_in_range; lia.
      * rewrite nth_error_seq. rewrite (proj2 (Nat.ltb_lt _ _)) by lia. reflexivity.
      * unfold f. rewrite map_length, seq_length. lia.
Qed.
End Alm.

Lemma alm_err {A} (alm : list A) : (forall n, ~ triangle n (length alm)) ->
  glass_to_healpix_alm alm = Err ValueError.
Proof.
  intro H. unfold glass_to_healpix_alm.
  destruct (inv_triangle_cases (length alm)) as [[n E]| ->]; [|reflexivity].
  apply inv_triangle_ok in E. exfalso; exact (H n E).
Qed.

(** Positions of the two orders are in bijection. *)
Lemma glass_alm_total n t g : triangle n t -> g < t ->
  exists l m, l < n /\ in_glass_alm_order g l m.
Proof.
  intros Hn Hg. destruct (order_total n t g Hn Hg) as (i & j & Hi & Hj & Ho).
  exists i, (i - j). split; [exact Hi|]. unfold in_glass_alm_order. lia.
Qed.

Lemma glass_alm_fun g l m l' m' : in_glass_alm_order g l m -> in_glass_alm_order g l' m' ->
  l = l' /\ m = m'.
Proof. unfold in_glass_alm_order. intros [H1 H2] [H3 H4]. assert (l = l') by nia. subst; lia. Qed.

Lemma healpix_alm_exists n l m : m <= l < n ->
  exists h, in_healpix_alm_order n h l m /\ 2 * h < n * (n + 1).
Proof.
  intros [H1 H2].
  assert (He : exists q, m * (2 * n - 1 - m) = 2 * q).
  { destruct (Nat.Even_or_Odd m) as [[q ->]|[q ->]].
    - exists (q * (2 * n - 1 - 2 * q)). lia.
    - exists ((2 * q + 1) * (n - 1 - q)). replace (2 * n - 1 - (2 * q + 1)) with (2 * (n - 1 - q)) by lia. lia. }
  destruct He as [q Hq]. exists (q + l). unfold in_healpix_alm_order.
  split; [lia|].
  assert (exists r, n = S (l + r)) by (exists (n - l - 1); lia). destruct H as [r ->].
  assert (exists e, l = m + e) by (exists (l - m); lia). destruct H as [e ->].
  replace (2 * S (m + e + r) - 1 - m) with (m + 2 * e + 2 * r + 1) in Hq by lia. nia.
Qed.

Lemma healpix_alm_lt n h l m l' m' : m < m' ->
  in_healpix_alm_order n h l m -> in_healpix_alm_order n h l' m' -> False.
Proof.
  unfold in_healpix_alm_order. intros H [[H1 H2] H3] [[H4 H5] H6].
  assert (E : exists e s, m' = m + 1 + e /\ n = m + e + s + 2).
  { exists (m' - m - 1), (n - m' - 1). lia. }
  destruct E as (e & s & -> & ->).
  replace (2 * (m + e + s + 2) - 1 - m) with (m + 2 * e + 2 * s + 3) in H3 by lia.
  replace (2 * (m + e + s + 2) - 1 - (m + 1 + e)) with (m + e + 2 * s + 2) in H6 by lia.
  nia.
Qed.

Lemma healpix_alm_inj n h l m l' m' :
  in_healpix_alm_order n h l m -> in_healpix_alm_order n h l' m' -> l = l' /\ m = m'.
Proof.
  intros H H'. destruct (Nat.lt_trichotomy m m') as [C|[C|C]].
  - destruct (healpix_alm_lt _ _ _ _ _ _ C H H').
  - subst m'. destruct H, H'. lia.
  - destruct (healpix_alm_lt _ _ _ _ _ _ C H' H).
Qed.

Lemma alm_perm {A} (alm out : list A) :
  glass_to_healpix_alm alm = Ok out -> Permutation alm out.
Proof.
  intro H.
  assert (Hn : exists n, triangle n (length alm)).
  { unfold glass_to_healpix_alm in H. apply bind_ok in H as (n & Hn & _).
    exists n. apply inv_triangle_ok; exact Hn. }
  destruct Hn as [n Hn]. destruct (alm_reorder alm n Hn) as (o & Ho & Hl & Hs).
  assert (o = out) by congruence. subst o. apply Permutation_sym.
  set (lm := fun g => let i := row_of_counter g in (i, g - i * (i + 1) / 2)).
  set (f := fun g => let '(l, m) := lm g in m * (2 * n - 1 - m) / 2 + l).
  assert (Hf : forall g, g < length alm -> exists l m,
            in_glass_alm_order g l m /\ in_healpix_alm_order n (f g) l m /\ f g < length out).
  { intros g Hg. pose proof (row_bounds g) as Hr. cbv zeta in Hr.
    set (i := row_of_counter g) in *. pose proof (tri2 i) as Ht.
    assert (Hi : i < n) by (unfold triangle in Hn; nia).
    exists i, (g - i * (i + 1) / 2). split; [unfold in_glass_alm_order; nia|].
    destruct (healpix_alm_exists n i (g - i * (i + 1) / 2)) as (h & Hh & Hb); [nia|].
    assert (E : f g = h).
    { unfold f, lm. fold i. cbv zeta beta iota. set (m := g - i * (i + 1) / 2) in *.
      destruct Hh as [_ Hh].
      remember (m * (2 * n - 1 - m)) as q eqn:Eq. clear Eq.
      assert (Eq : q = (h - i) * 2) by lia.
      rewrite Eq, Nat.div_mul by lia. lia. }
    rewrite E. split; [exact Hh|]. unfold triangle in Hn. lia. }
  apply (reindex_perm out alm f (eq_sym Hl)).
  - intros g Hg. destruct (Hf g Hg) as (l & m & _ & _ & Hb). exact Hb.
  - intros g g' Hg Hg' E. destruct (Hf g Hg) as (l & m & H1 & H2 & _).
    destruct (Hf g' Hg') as (l' & m' & H1' & H2' & _). rewrite E in H2.
    destruct (healpix_alm_inj _ _ _ _ _ _ H2 H2') as [-> ->].
    destruct H1, H1'. lia.
  - intros g Hg. destruct (Hf g Hg) as (l & m & H1 & H2 & _). symmetry. eapply Hs; eassumption.
Qed.

(** * multalm *)
Lemma firstn_enum {A} (l : list A) k : firstn k (enum l) = enum (firstn k l).
Proof.
  unfold enum. rewrite combine_firstn, firstn_seq, firstn_length. reflexivity.
Qed.

Lemma enum_snoc {A} (l : list A) x : enum (l ++ [x]) = enum l ++ [(length l, x)].
Proof.
  apply nth_error_ext'. intro k. rewrite nth_error_enum, !nth_error_app, length_enum, nth_error_enum.
  destruct (Nat.ltb_spec k (length l)); [reflexivity|].
  destruct (k - length l) as [|q] eqn:E; simpl.
  - f_equal. f_equal. lia.
  - destruct q; reflexivity.
Qed.

Lemma repeat_counts_length {A} (bl : list A) : triangle (length bl) (length (repeat_counts bl)).
Proof.
  unfold triangle. induction bl as [|b bl IH] using rev_ind; [reflexivity|].
  unfold repeat_counts in *. rewrite enum_snoc, flat_map_app, app_length, app_length.
  cbn [flat_map app length]. rewrite app_nil_r, repeat_length. simpl (length [b]). nia.
Qed.

Lemma repeat_counts_nth {A} (bl : list A) g l m :
  in_glass_alm_order g l m -> l < length bl ->
  nth_error (repeat_counts bl) g = nth_error bl l.
Proof.
  intros [Hm Hg] Hl. unfold repeat_counts.
  destruct (nth_error bl l) as [b|] eqn:E; [|apply nth_error_None in E; lia].
  assert (Ex : nth_error (enum bl) l = Some (l, b)) by (rewrite nth_error_enum, E; reflexivity).
  pose proof (repeat_counts_length (firstn l bl)) as HP. unfold repeat_counts in HP.
  rewrite firstn_length_le in HP by lia. unfold triangle in HP.
  assert (Eg : g = length (flat_map (fun '(l0, b0) => repeat b0 (l0 + 1)) (firstn l (enum bl))) + m).
  { rewrite firstn_enum. lia. }
  rewrite Eg, (flat_map_nth _ _ _ (l, b) m Ex).
  - rewrite nth_error_repeat'. rewrite (proj2 (Nat.ltb_lt _ _)) by lia. reflexivity.
  - rewrite repeat_length. lia.
Qed.

Lemma multalm_modes {A B} (mul : A -> B -> A) alm bl :
  triangle (length bl) (length alm) ->
  exists out, multalm mul alm bl = Ok out /\ length out = length alm /\
    forall g l m a b, in_glass_alm_order g l m ->
      nth_error alm g = Some a -> nth_error bl l = Some b ->
      nth_error out g = Some (mul a b).
Proof.
  intro Hn. unfold multalm, broadcast_mul.
  assert (E : length (repeat_counts bl) = length alm)
    by (eapply triangle_fun; [apply repeat_counts_length|exact Hn]).
  rewrite E, Nat.eqb_refl. eexists. split; [reflexivity|]. split.
  - rewrite map_length, combine_length, E. lia.
  - intros g l m a b Hg Ha Hb. rewrite nth_error_map', nth_error_combine, Ha.
    rewrite (repeat_counts_nth bl g l m Hg), Hb; [reflexivity|].
    apply nth_error_Some. congruence.
Qed.

Lemma multalm_mismatch {A B} (mul : A -> B -> A) alm (bl : list B) :
  ~ triangle (length bl) (length alm) -> length alm <> 1 -> length bl <> 1 ->
  multalm mul alm bl = Err ValueError.
Proof.
  intros Hn H1 H2. unfold multalm, broadcast_mul.
  pose proof (repeat_counts_length bl) as Ht.
  destruct (Nat.eqb_spec (length alm) (length (repeat_counts bl))) as [E|E].
  - rewrite <- E in Ht. contradiction.
  - destruct alm as [|a [|a' alm]]; destruct (repeat_counts bl) as [|x [|x' r]];
      try reflexivity; simpl in *; try lia; unfold triangle in Ht; nia.
Qed.

Lemma multalm_single {A B} (mul : A -> B -> A) alm b :
  multalm mul alm [b] = Ok (map (fun a => mul a b) alm).
Proof.
  unfold multalm, broadcast_mul, repeat_counts. simpl.
  destruct alm as [|a [|a' alm]]; reflexivity.
Qed.

(** * discretized_cls *)
Section Discretized.
Context {A P : Type} (mulpw : A -> P -> A).

Let discretize_one (lmax : option nat) (pixwin : option (list P)) (cl : list A) : list A :=
  if 0 <? length cl then
    let cl := match lmax with None => cl | Some lm => firstn (lm + 1) cl end in
    match pixwin with
    | None => cl
    | Some pw =>
        let n := Nat.min (length cl) (length pw) in
        map (fun '(c, p) => mulpw c p) (combine (firstn n cl) (firstn n pw))
    end
  else cl.

Lemma discretize_one_nth lmax pixwin cl l :
  nth_error (discretize_one lmax pixwin cl) l =
  if within l lmax then smoothed mulpw pixwin cl l else None.
Proof.
  assert (Ht : forall cl : list A, nth_error (match lmax with None => cl | Some lm => firstn (lm + 1) cl end) l
               = if within l lmax then nth_error cl l else None).
  { intro c. unfold within. destruct lmax as [lm|]; [|reflexivity].
    rewrite nth_error_firstn. destruct (Nat.ltb_spec l (lm + 1)); destruct (Nat.leb_spec l lm); auto; lia. }
  unfold discretize_one. destruct cl as [|c cl].
  - simpl. unfold smoothed. destruct pixwin; destruct (within l lmax); destruct l; reflexivity.
  - cbn [length Nat.ltb Nat.leb]. set (full := c :: cl). cbv zeta.
    set (tr := match lmax with None => full | Some lm => firstn (lm + 1) full end) in *.
    specialize (Ht full). fold tr in Ht.
    destruct pixwin as [pw|]; [|exact Ht].
    rewrite nth_error_map', nth_error_combine, !nth_error_firstn.
    destruct (Nat.ltb_spec l (Nat.min (length tr) (length pw))) as [Hl|Hl].
    + rewrite Ht. unfold smoothed. destruct (within l lmax); simpl.
      * destruct (nth_error full l); [|reflexivity]. destruct (nth_error pw l); reflexivity.
      * reflexivity.
    + simpl. unfold smoothed.
      destruct (Nat.min_spec (length tr) (length pw)) as [[Hm E]|[Hm E]]; rewrite E in Hl.
      * apply nth_error_None in Hl. rewrite Ht in Hl.
        destruct (within l lmax); [|reflexivity]. rewrite Hl. reflexivity.
      * apply nth_error_None in Hl. rewrite Hl.
        destruct (within l lmax); [|reflexivity]. destruct (nth_error full l); reflexivity.
Qed.

Lemma discretized_unfold cls lmax ncorr pixwin : cls <> [] ->
  discretized_cls mulpw cls lmax ncorr pixwin =
  do cls <- match ncorr with
            | None => Ok cls
            | Some nc =>
                do n <- nfields_from_nspectra (length cls);
                mapM (fun '(i, j) =>
                        if j <=? nc then index cls (i * (i + 1) / 2 + j) else Ok [])
                     (tril_indices n)
            end;
  Ok (map (discretize_one lmax pixwin) cls).
Proof. destruct cls; [congruence|reflexivity]. Qed.

Lemma discretized_spec cls lmax ncorr pixwin :
  (ncorr <> None -> exists n, triangle n (length cls)) ->
  exists gls, discretized_cls mulpw cls lmax ncorr pixwin = Ok gls /\
    length gls = length cls /\
    forall k i j cl g, in_order k i j ->
      nth_error cls k = Some cl -> nth_error gls k = Some g ->
      forall l, nth_error g l =
        if within (i - j) ncorr && within l lmax then smoothed mulpw pixwin cl l else None.
Proof.
  intro Hn. destruct cls as [|c0 cls0] eqn:Ec.
  { exists []. split; [reflexivity|]. split; [reflexivity|].
    intros [|k]; discriminate. }
  assert (Hne : cls <> []) by (rewrite Ec; discriminate).
  rewrite <- Ec. rewrite <- Ec in Hn. clear Ec c0 cls0.
  rewrite discretized_unfold by exact Hne.
  set (sel := match ncorr with None => Ok cls | Some nc => _ end).
  assert (Hsel : exists cls', sel = Ok cls' /\ length cls' = length cls /\
     forall k i j cl, in_order k i j -> nth_error cls k = Some cl ->
       nth_error cls' k = Some (if within (i - j) ncorr then cl else [])).
  { destruct ncorr as [nc|].
    - destruct (Hn ltac:(discriminate)) as [n Htri]. unfold sel.
      rewrite (proj2 (nfields_ok _ n) Htri). cbn [bind].
      assert (Hlt : length (tril_indices n) = length cls)
        by (eapply triangle_fun; [apply tril_length|exact Htri]).
      assert (Hpure : forall p, In p (tril_indices n) ->
         (fun '(i, j) => if j <=? nc then index cls (i * (i + 1) / 2 + j) else Ok []) p =
         Ok ((fun '(i, j) => if j <=? nc then nth (i * (i + 1) / 2 + j) cls [] else []) p)).
      { intros [i j] Hp. apply In_nth_error in Hp as [k Hp]. pose proof Hp as Hp'.
        apply tril_nth in Hp as (H1 & H2 & H3). destruct (j <=? nc); [|reflexivity].
        unfold index. rewrite (nth_error_nth' cls []); [reflexivity|].
        pose proof (tri2 i). replace (i * (i + 1) / 2 + j) with k by lia.
        rewrite <- Hlt. apply nth_error_Some. congruence. }
      rewrite (mapM_pure _ _ _ Hpure). eexists. split; [reflexivity|].
      split; [rewrite map_length; exact Hlt|].
      intros k i j cl [Ho1 Ho2] Hcl. rewrite nth_error_map'.
      assert (Hk : k < length cls) by (apply nth_error_Some; congruence).
      assert (Hi : i < n) by (unfold triangle in Htri; nia).
      rewrite (proj2 (tril_nth n k i (i - j))) by lia. cbn [option_map].
      unfold within. destruct (i - j <=? nc); [|reflexivity].
      f_equal. apply nth_error_nth.
      assert (EX : i * (i + 1) / 2 + (i - j) = k) by (pose proof (tri2 i); lia).
      rewrite EX. exact Hcl.
    - exists cls. unfold sel, within. auto. }
  destruct Hsel as (cls' & -> & Hlen & Hnth). cbn [bind].
  eexists. split; [reflexivity|]. split; [rewrite map_length; exact Hlen|].
  intros k i j cl g Ho Hcl Hg l.
  rewrite nth_error_map', (Hnth k i j cl Ho Hcl) in Hg. simpl in Hg. injection Hg as <-.
  rewrite discretize_one_nth. destruct (within (i - j) ncorr); simpl; [reflexivity|].
  destruct (within l lmax); [|reflexivity]. unfold smoothed. destruct pixwin; destruct l; reflexivity.
Qed.

Lemma discretized_err cls lmax nc pixwin :
  (forall n, ~ triangle n (length cls)) ->
  discretized_cls mulpw cls lmax (Some nc) pixwin = Err ValueError.
Proof.
  intro H. unfold discretized_cls. destruct cls as [|c cls].
  - exfalso. apply (H 0). reflexivity.
  - rewrite (proj2 (nfields_err _) H). reflexivity.
Qed.
End Discretized.
