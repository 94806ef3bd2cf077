From Verif Require Import Base Model_Batch Spec_Batch.

Lemma list_sum_app l l' : list_sum (l ++ l') = list_sum l + list_sum l'.
Proof. induction l as [|x l IH]; simpl; [reflexivity|]. unfold list_sum in *. simpl. lia. Qed.

Lemma cumsum_last s l x : last_item (cumsum_from s (l ++ [x])) = Ok (s + list_sum l + x).
Proof.
  unfold last_item.
  assert (H : exists q, cumsum_from s (l ++ [x]) = q ++ [s + list_sum l + x]).
  { revert s; induction l as [|y l IH]; intro s; simpl.
    - exists []. simpl. f_equal. lia.
    - destruct (IH (s + y)) as [q ->]. exists ((s + y) :: q). simpl. do 3 f_equal.
      unfold list_sum; simpl. lia. }
  destruct H as [q ->]. rewrite rev_app_distr. reflexivity.
Qed.

Lemma cumsum_last_ne l : l <> [] -> last_item (cumsum l) = Ok (list_sum l).
Proof.
  intro H. destruct (exists_last H) as (l' & x & ->). unfold cumsum.
  rewrite cumsum_last, list_sum_app. unfold list_sum at 3; simpl. f_equal. lia.
Qed.

Lemma search_le q v : searchsorted_right q v <= length q.
Proof. induction q as [|x q IH]; simpl; [lia|]. destruct (_ <=? _)%Z; lia. Qed.

(** What the binary search returns on cumulative sums: the longest prefix whose
    total does not exceed the bound. *)
Lemma search_prefix s l v :
  let k := searchsorted_right (cumsum_from s l) v in
  k <= length l /\
  (0 < k -> (Z.of_nat (s + list_sum (firstn k l)) <= v)%Z) /\
  (k < length l -> (v < Z.of_nat (s + list_sum (firstn (S k) l)))%Z).
Proof.
  revert s; induction l as [|x l IH]; intro s; cbn [cumsum_from searchsorted_right].
  - cbn. lia.
  - destruct (Z.leb_spec (Z.of_nat (s + x)) v) as [H|H].
    + specialize (IH (s + x)). cbv zeta in IH.
      set (k := searchsorted_right (cumsum_from (s + x) l) v) in *.
      destruct IH as (H1 & H2 & H3). cbv zeta. cbn [length]. split; [lia|]. split.
      * intros _. cbn [firstn]. change (list_sum (x :: firstn k l)) with (x + list_sum (firstn k l)).
        destruct (Nat.eq_dec k 0) as [E|E].
        -- rewrite E. simpl. lia.
        -- specialize (H2 ltac:(lia)). lia.
      * intro Hk. specialize (H3 ltac:(lia)).
        change (firstn (S (S k)) (x :: l)) with (x :: firstn (S k) l).
        change (list_sum (x :: firstn (S k) l)) with (x + list_sum (firstn (S k) l)). lia.
    + cbv zeta. split; [lia|]. split; [lia|]. intros _. cbn [firstn list_sum fold_right].
      destruct l; simpl; lia.
Qed.

Lemma slice_full {A} (l : list A) a : slice l a (length l) = skipn a l.
Proof. unfold slice. apply firstn_all2. rewrite skipn_length. lia. Qed.

Lemma slice_nth {A} (l : list A) a b k :
  nth_error (slice l a b) k = if k <? b - a then nth_error l (a + k) else None.
Proof. unfold slice. rewrite nth_error_firstn, nth_error_skipn. reflexivity. Qed.

Lemma slice_length {A} (l : list A) a b : b <= length l -> length (slice l a b) = b - a.
Proof. intro H. unfold slice. rewrite firstn_length_le; [reflexivity|]. rewrite skipn_length. lia. Qed.

Lemma slice_app {A} (l : list A) a b c : a <= b <= c -> c <= length l ->
  slice l a b ++ slice l b c = slice l a c.
Proof.
  intros H Hc. apply nth_error_ext'. intro k.
  rewrite nth_error_app, slice_length, !slice_nth by lia.
  destruct (Nat.ltb_spec k (b - a)); destruct (Nat.ltb_spec k (c - a)); try lia; try reflexivity.
  - destruct (Nat.ltb_spec (k - (b - a)) (c - b)); [f_equal; lia|lia].
  - destruct (Nat.ltb_spec (k - (b - a)) (c - b)); [lia|reflexivity].
Qed.

Lemma slice_firstn {A} (l : list A) a b k : a + k <= b -> firstn k (slice l a b) = slice l a (a + k).
Proof.
  intro H. unfold slice. rewrite firstn_firstn. f_equal. lia.
Qed.

Lemma pixels_from_length i n : length (pixels_from i n) = list_sum n.
Proof.
  revert i; induction n as [|c n IH]; intro i; simpl; [reflexivity|].
  rewrite app_length, repeat_length, IH. reflexivity.
Qed.

Lemma pixels_from_app i n m : pixels_from i (n ++ m) = pixels_from i n ++ pixels_from (i + length n) m.
Proof.
  revert i; induction n as [|c n IH]; intro i; simpl.
  - rewrite Nat.add_0_r; reflexivity.
  - rewrite IH, app_assoc. do 2 f_equal. lia.
Qed.

Lemma repeat_range_ok start stop ns : length ns = stop - start ->
  repeat_range start stop ns = Ok (pixels_from start ns).
Proof.
  intro H. unfold repeat_range. rewrite H, Nat.eqb_refl. f_equal. rewrite <- H. clear H.
  revert start; induction ns as [|c ns IH]; intro start; simpl; [reflexivity|].
  rewrite IH. reflexivity.
Qed.

Section Loop.
Context (step batch : nat) (n : list nat) (Hstep : 0 < step).

Lemma list_sum_skip a : a <= length n -> list_sum (slice n a (length n)) = list_sum (skipn a n).
Proof. intro. rewrite slice_full. reflexivity. Qed.

Lemma loop_correct fuel start stop size count :
  start <= stop <= length n ->
  size = list_sum (slice n start stop) ->
  count = list_sum (slice n start (length n)) ->
  (size < count \/ (start = stop)) ->
  (start < stop -> size < batch) ->
  (length n - start) + (length n - stop) < fuel ->
  exists bs, sample_loop fuel step batch n start stop size count = Ok bs /\
    concat bs = pixels_from start (slice n start (length n)) /\
    Forall (batch_within batch) bs.
Proof using Hstep.
  revert start stop size count.
  induction fuel as [|fuel IH]; intros start stop size count Hss Hsize Hcount Hsc Hb Hfuel; [lia|].
  cbn [sample_loop]. destruct (Nat.eqb_spec count 0) as [E0|E0].
  - assert (start = stop) by lia. subst stop.
    rewrite <- list_sum_skip, <- Hcount, E0 by lia. simpl.
    exists []. split; [reflexivity|]. split; [|constructor].
    symmetry. apply length_zero_iff_nil. rewrite pixels_from_length. lia.
  - assert (Hlt : stop < length n).
    { destruct (Nat.eq_dec stop (length n)) as [E|E]; [|lia]. subst stop.
      destruct Hsc as [Hsc|Hsc]; [lia|]. subst start.
      unfold slice in Hcount. rewrite Nat.sub_diag in Hcount. simpl in Hcount. lia. }
    set (e := Nat.min (length n) (stop + step)).
    assert (He : stop < e <= length n) by (unfold e; lia).
    set (g := slice n stop e).
    assert (Hg : length g = e - stop) by (apply slice_length; lia).
    assert (Hg0 : g <> []) by (intro E; rewrite E in Hg; simpl in Hg; lia).
    rewrite (cumsum_last_ne g Hg0). cbn [bind].
    assert (Hsum : size + list_sum g = list_sum (slice n start e)).
    { rewrite Hsize, <- list_sum_app. unfold g. rewrite slice_app by lia. reflexivity. }
    assert (Htot : list_sum (slice n start e) + list_sum (slice n e (length n)) = count).
    { rewrite Hcount, <- list_sum_app, slice_app by lia. reflexivity. }
    destruct (Nat.ltb_spec (size + list_sum g) (Nat.min batch count)) as [Hc|Hc].
    + assert (Ee : e = stop + step).
      { unfold e. destruct (Nat.min_spec (length n) (stop + step)) as [[H1 H2]|[H1 H2]]; [|exact H2].
        exfalso. assert (e = length n) by (unfold e; lia).
        rewrite H in Htot. unfold slice at 2 in Htot. rewrite Nat.sub_diag in Htot. simpl in Htot.
        rewrite H in Hsum. lia. }
      rewrite <- Ee. apply IH; try lia.
    + set (k := searchsorted_right (cumsum g) (Z.of_nat batch - Z.of_nat size)).
      pose proof (search_prefix 0 g (Z.of_nat batch - Z.of_nat size)) as Hk.
      cbv zeta in Hk. fold (cumsum g) in Hk. fold k in Hk. destruct Hk as (Hk1 & Hk2 & Hk3).
      set (stop' := if stop + k =? start then stop + k + 1 else stop + k).
      assert (Hs' : start < stop' <= length n /\ stop <= stop').
      { unfold stop'. destruct (Nat.eqb_spec (stop + k) start); lia. }
      rewrite (repeat_range_ok start stop') by (apply slice_length; lia). cbn [bind].
      rewrite pixels_from_length.
      assert (Hrest : list_sum (slice n start stop') + list_sum (slice n stop' (length n)) = count).
      { rewrite Hcount, <- list_sum_app, slice_app by lia. reflexivity. }
      destruct (IH stop' stop' 0 (count - list_sum (slice n start stop'))) as (bs & E & Hcat & HF).
      * lia.
      * unfold slice. rewrite Nat.sub_diag. reflexivity.
      * lia.
      * right; reflexivity.
      * lia.
      * lia.
      * rewrite E. cbn [bind]. eexists. split; [reflexivity|]. split.
        -- cbn [concat]. rewrite Hcat. rewrite <- (slice_app n start stop' (length n)) by lia.
           rewrite pixels_from_app, slice_length by lia. do 2 f_equal. lia.
        -- constructor; [|exact HF]. unfold batch_within. rewrite pixels_from_length.
           unfold stop'. destruct (Nat.eqb_spec (stop + k) start) as [Es|Es].
           ++ right. exists start. assert (k = 0) by lia. assert (stop = start) by lia. 
              replace (stop + k + 1) with (start + 1) by lia.
              unfold slice. replace (start + 1 - start) with 1 by lia.
              destruct (skipn start n) as [|c r]; simpl; [constructor|].
              rewrite app_nil_r. apply Forall_forall. intros x Hx.
              apply repeat_spec in Hx. congruence.
           ++ left. destruct (Nat.eq_dec k 0) as [Ek|Ek].
              ** rewrite Ek, Nat.add_0_r, <- Hsize. specialize (Hb ltac:(lia)). lia.
              ** specialize (Hk2 ltac:(lia)). rewrite Nat.add_0_l in Hk2.
                 unfold g in Hk2. rewrite slice_firstn in Hk2 by lia.
                 rewrite <- (slice_app n start stop (stop + k)) by lia.
                 rewrite list_sum_app, <- Hsize. lia.
Qed.

(** Full batches are not wasteful: the next pixel would not have fitted. *)
End Loop.

Lemma sample_correct npix2nside nside batch n fuel :
  npix2nside (length n) = Ok nside -> 2 * length n < fuel ->
  exists bs, sample_galaxies_per_pixel npix2nside fuel batch n = Ok bs /\
    concat bs = all_points n /\ Forall (batch_within batch) bs.
Proof.
  intros Hns Hf. unfold sample_galaxies_per_pixel.
  destruct (Nat.eqb_spec (list_sum n) 0) as [E|E].
  - exists []. split; [reflexivity|]. split; [|constructor].
    symmetry. apply length_zero_iff_nil. unfold all_points. rewrite pixels_from_length. exact E.
  - rewrite Hns. cbn [bind].
    assert (Hfull : slice n 0 (length n) = n) by (rewrite slice_full; reflexivity).
    destruct (loop_correct pixel_step batch n ltac:(unfold pixel_step; lia) fuel 0 0 0 (list_sum n))
      as (bs & E1 & E2 & E3); try lia.
    + reflexivity.
    + rewrite Hfull. reflexivity.
    + exists bs. split; [exact E1|]. split; [|exact E3]. rewrite E2, Hfull. reflexivity.
Qed.

Lemma loop_fuel step batch n fuel start stop size count bs :
  sample_loop fuel step batch n start stop size count = Ok bs ->
  sample_loop (S fuel) step batch n start stop size count = Ok bs.
Proof.
  revert start stop size count bs.
  induction fuel as [|fuel IH]; intros start stop size count bs H; [discriminate|].
  cbn [sample_loop] in H. remember (S fuel) as f. cbn [sample_loop]. subst f.
  destruct (count =? 0); [exact H|].
  destruct (last_item _) as [ql|e]; [|exact H]. cbn [bind] in *.
  destruct (size + ql <? Nat.min batch count); [apply IH; exact H|].
  apply bind_ok in H as (ipix & E & H). rewrite E. cbn [bind].
  apply bind_ok in H as (rest & E' & H). rewrite (IH _ _ _ _ _ E'). exact H.
Qed.

Lemma sample_fuel npix2nside fuel fuel' batch n bs : fuel <= fuel' ->
  sample_galaxies_per_pixel npix2nside fuel batch n = Ok bs ->
  sample_galaxies_per_pixel npix2nside fuel' batch n = Ok bs.
Proof.
  intros Hf. unfold sample_galaxies_per_pixel. destruct (list_sum n =? 0); [auto|].
  destruct (npix2nside (length n)); [|auto]. cbn [bind].
  induction Hf as [|f Hf IH]; [auto|]. intro H. apply loop_fuel. apply IH; exact H.
Qed.

Lemma sample_terminates npix2nside nside batch n :
  npix2nside (length n) = Ok nside ->
  exists bs, (forall fuel, 2 * length n < fuel ->
       sample_galaxies_per_pixel npix2nside fuel batch n = Ok bs) /\
    concat bs = all_points n /\ Forall (batch_within batch) bs.
Proof.
  intro H. destruct (sample_correct npix2nside nside batch n (S (2 * length n)) H (Nat.lt_succ_diag_r _))
    as (bs & E & E1 & E2).
  exists bs. split; [|auto]. intros fuel Hf. eapply sample_fuel; [|exact E]. lia.
Qed.

Lemma concat_length_sum {A} (bs : list (list A)) :
  length (concat bs) = list_sum (map (@length A) bs).
Proof. induction bs as [|b bs IH]; simpl; [reflexivity|]. rewrite app_length, IH. reflexivity. Qed.

Lemma count_occ_pixels i n k : i <= k ->
  count_occ Nat.eq_dec (pixels_from i n) k = nth (k - i) n 0.
Proof.
  revert i k; induction n as [|c n IH]; intros i k H; simpl.
  - destruct (k - i); reflexivity.
  - rewrite count_occ_app.
    assert (Hz : forall j m, k < j -> count_occ Nat.eq_dec (pixels_from j m) k = 0).
    { clear. intros j m; revert j; induction m as [|c m IH]; intros j H; simpl; [reflexivity|].
      rewrite count_occ_app, IH by lia.
      assert (E : count_occ Nat.eq_dec (repeat j c) k = 0).
      { apply count_occ_not_In. intro Hi. apply repeat_spec in Hi. lia. }
      lia. }
    destruct (Nat.eq_dec i k) as [E|E].
    + subst. rewrite Nat.sub_diag, (Hz (S k)) by lia.
      assert (Er : count_occ Nat.eq_dec (repeat k c) k = c).
      { clear. induction c as [|c IH]; simpl; [reflexivity|]. destruct (Nat.eq_dec k k); congruence. }
      lia.
    + assert (Er : count_occ Nat.eq_dec (repeat i c) k = 0).
      { apply count_occ_not_In. intro Hi. apply repeat_spec in Hi. congruence. }
      rewrite Er, IH by lia. replace (k - i) with (S (k - S i)) by lia. reflexivity.
Qed.
