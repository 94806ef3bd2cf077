(** Lemmas for Prop_Points.v. *)
From Coq Require Import Reals Lra Psatz.
From Coquelicot Require Import Coquelicot.
From Verif Require Import Base Model_Numeric Model_Arrays Model_Effective Model_Windows Model_Galaxies Model_Points
  Spec_Numeric Spec_Arrays Spec_Windows Spec_Galaxies Spec_Points
  Proof_Numeric Proof_Windows Proof_Arrays Proof_Galaxies Proof_Observations.
Local Open Scope R_scope.

(** ** Polar coordinates *)
Lemma hypot_nonneg x y : 0 <= hypot x y.
Proof. apply sqrt_pos. Qed.
Lemma hypot_sq x y : hypot x y * hypot x y = x * x + y * y.
Proof. unfold hypot. apply sqrt_sqrt. nra. Qed.
Lemma hypot_eq r x y : 0 <= r -> r * r = x * x + y * y -> hypot x y = r.
Proof. intros Hr E. unfold hypot. rewrite <- E. apply sqrt_square. exact Hr. Qed.

Lemma sqrt_ratio x y : x <> 0 -> sqrt (1 + Rsqr (y / x)) = hypot x y / Rabs x.
Proof.
  intro Hx. assert (Ha : 0 < Rabs x) by (apply Rabs_pos_lt; exact Hx).
  rewrite <- (sqrt_square (hypot x y / Rabs x)).
  - f_equal. replace (hypot x y / Rabs x * (hypot x y / Rabs x)) with (hypot x y * hypot x y / (Rabs x * Rabs x)) by (field; lra).
    rewrite hypot_sq. rewrite <- Rabs_mult, (Rabs_right (x * x)) by nra. unfold Rsqr. field. exact Hx.
  - apply Rmult_le_pos; [apply hypot_nonneg|]. apply Rlt_le, Rinv_0_lt_compat, Ha.
Qed.

Lemma polar y x : x = hypot x y * cos (atan2 y x) /\ y = hypot x y * sin (atan2 y x).
Proof.
  unfold atan2. destruct (Rlt_dec 0 x) as [H|H]; [|destruct (Rlt_dec x 0) as [H'|H']].
  - assert (Hh : 0 < hypot x y) by (apply sqrt_lt_R0; nra).
    rewrite cos_atan, sin_atan, sqrt_ratio, Rabs_right by lra. split; field; lra.
  - assert (Hh : 0 < hypot x y) by (apply sqrt_lt_R0; nra).
    assert (Ea : Rabs x = - x) by (apply Rabs_left; exact H').
    destruct (Rle_dec 0 y).
    + rewrite neg_cos, neg_sin, cos_atan, sin_atan, sqrt_ratio, Ea by lra. split; field; lra.
    + unfold Rminus. rewrite cos_plus, sin_plus, cos_neg, sin_neg, cos_PI, sin_PI, cos_atan, sin_atan, sqrt_ratio, Ea by lra. split; field; lra.
  - assert (x = 0) by lra. subst x. destruct (Rlt_dec 0 y); [|destruct (Rlt_dec y 0)].
    + rewrite (hypot_eq y) by lra. rewrite cos_PI2, sin_PI2. lra.
    + rewrite (hypot_eq (- y)) by lra. rewrite cos_neg, sin_neg, cos_PI2, sin_PI2. lra.
    + assert (y = 0) by lra. subst y. rewrite (hypot_eq 0) by lra. lra.
Qed.

Lemma atan2_range y x : - PI < atan2 y x <= PI.
Proof.
  pose proof PI_RGT_0. unfold atan2. destruct (Rlt_dec 0 x) as [H'|H']; [|destruct (Rlt_dec x 0) as [H0|H0]].
  - pose proof (atan_bound (y / x)). lra.
  - pose proof (atan_bound (y / x)). destruct (Rle_dec 0 y).
    + split; [lra|]. assert (atan (y / x) <= 0); [|lra]. rewrite <- atan_0.
      assert (y / x <= 0).
      { unfold Rdiv. assert (/ x < 0) by (apply Rinv_lt_0_compat; exact H0). nra. }
      destruct (Req_dec (y / x) 0) as [->|]; [lra|]. apply Rlt_le, atan_increasing. lra.
    + split; [|lra]. assert (0 < atan (y / x)); [|lra]. rewrite <- atan_0. apply atan_increasing.
      unfold Rdiv. assert (/ x < 0) by (apply Rinv_lt_0_compat; exact H0). nra.
  - destruct (Rlt_dec 0 y); [lra|]. destruct (Rlt_dec y 0); lra.
Qed.

Lemma atan2_upper y x : 0 <= y -> 0 <= atan2 y x <= PI.
Proof.
  intro Hy. pose proof PI_RGT_0. pose proof (atan2_range y x). split; [|lra].
  unfold atan2 in *. destruct (Rlt_dec 0 x) as [H'|H']; [|destruct (Rlt_dec x 0) as [H0'|H0']].
  - assert (0 <= y / x). { apply Rmult_le_pos; [exact Hy|]. apply Rlt_le, Rinv_0_lt_compat, H'. }
    rewrite <- atan_0. destruct (Req_dec (y / x) 0) as [->|]; [lra|]. apply Rlt_le, atan_increasing. lra.
  - destruct (Rle_dec 0 y); [|lra]. pose proof (atan_bound (y / x)). lra.
  - destruct (Rlt_dec 0 y); [lra|]. destruct (Rlt_dec y 0); lra.
Qed.

Lemma atan2_sin_cos a : 0 <= a <= PI -> atan2 (sin a) (cos a) = a.
Proof.
  intro Ha. pose proof PI_RGT_0. unfold atan2. destruct (Rtotal_order a (PI / 2)) as [H1|[->|H1]].
  - assert (0 < cos a) by (apply cos_gt_0; lra). destruct (Rlt_dec 0 (cos a)); [|lra].
    change (sin a / cos a) with (tan a). apply atan_tan. lra.
  - rewrite cos_PI2, sin_PI2. destruct (Rlt_dec 0 0); [lra|]. destruct (Rlt_dec 0 1); lra.
  - assert (cos a < 0) by (apply cos_lt_0; lra). assert (0 <= sin a) by (apply sin_ge_0; lra).
    destruct (Rlt_dec 0 (cos a)); [lra|]. destruct (Rlt_dec (cos a) 0); [|lra]. destruct (Rle_dec 0 (sin a)); [|lra].
    replace (sin a / cos a) with (tan (a - PI)).
    + rewrite atan_tan by lra. ring.
    + unfold tan. rewrite sin_minus, cos_minus, cos_PI, sin_PI. field. lra.
Qed.

Lemma atan2_right y x : 0 <= x -> - (PI / 2) <= atan2 y x <= PI / 2.
Proof.
  intro Hx. pose proof PI_RGT_0. unfold atan2. destruct (Rlt_dec 0 x).
  - pose proof (atan_bound (y / x)). lra.
  - destruct (Rlt_dec x 0); [lra|]. destruct (Rlt_dec 0 y); [lra|]. destruct (Rlt_dec y 0); lra.
Qed.

Lemma sc1 x : sin x * sin x + cos x * cos x = 1.
Proof. pose proof (sin2_cos2 x) as H. unfold Rsqr in H. exact H. Qed.

(** The new latitude and the change of longitude. *)
Lemma navigate_spec t a g tp d : 0 <= a -> navigate t (a * cos g) (a * sin g) = (tp, d) ->
  sin tp = sin t * cos a + cos t * (sin a * cos g) /\
  cos tp * cos d = cos t * cos a - sin t * (sin a * cos g) /\
  cos tp * sin d = sin a * sin g /\ - (PI / 2) <= tp <= PI / 2.
Proof.
  intros Ha E. unfold navigate in E.
  assert (Eh : hypot (a * cos g) (a * sin g) = a).
  { apply hypot_eq; [exact Ha|]. pose proof (sc1 g). nra. }
  rewrite Eh in E.
  set (g' := atan2 (a * sin g) (a * cos g)) in *.
  assert (Ec : sin a * cos g' = sin a * cos g /\ sin a * sin g' = sin a * sin g).
  { destruct (Req_dec a 0) as [->|N]; [rewrite sin_0; lra|].
    destruct (polar (a * sin g) (a * cos g)) as [P1 P2]. rewrite Eh in P1, P2. fold g' in P1, P2.
    apply Rmult_eq_reg_l in P1, P2; try exact N. rewrite P1, P2. split; reflexivity. }
  destruct Ec as [Ec Es].
  set (Y := sin t * cos a + cos t * sin a * cos g') in *.
  set (X := hypot (sin t * sin a - cos t * cos a * cos g') (cos t * sin g')) in *.
  set (dy := sin a * sin g') in *. set (dx := cos t * cos a - sin t * sin a * cos g') in *.
  injection E as <- <-.
  pose proof (sc1 t) as S1. pose proof (sc1 a) as S2. pose proof (sc1 g') as S3.
  assert (EX : X * X = dx * dx + dy * dy).
  { unfold X. rewrite hypot_sq. unfold dx, dy.
    replace (sin a * sin g' * (sin a * sin g')) with (sin a * sin a * (sin g' * sin g')) by ring.
    replace (cos t * sin g' * (cos t * sin g')) with (cos t * cos t * (sin g' * sin g')) by ring.
    replace (sin g' * sin g') with (1 - cos g' * cos g') by lra.
    replace ((sin t * sin a - cos t * cos a * cos g') * (sin t * sin a - cos t * cos a * cos g'))
      with ((sin t * sin t) * (sin a * sin a) - 2 * sin t * sin a * cos t * cos a * cos g' + (cos t * cos t) * (cos a * cos a) * (cos g' * cos g')) by ring.
    replace ((cos t * cos a - sin t * sin a * cos g') * (cos t * cos a - sin t * sin a * cos g'))
      with ((cos t * cos t) * (cos a * cos a) - 2 * sin t * sin a * cos t * cos a * cos g' + (sin t * sin t) * (sin a * sin a) * (cos g' * cos g')) by ring.
    replace (sin t * sin t) with (1 - cos t * cos t) by lra. replace (sin a * sin a) with (1 - cos a * cos a) by lra. ring. }
  assert (E1 : X * X + Y * Y = 1).
  { rewrite EX. unfold dx, dy, Y.
    replace (sin a * sin g' * (sin a * sin g')) with (sin a * sin a * (sin g' * sin g')) by ring.
    replace (sin g' * sin g') with (1 - cos g' * cos g') by lra.
    replace ((cos t * cos a - sin t * sin a * cos g') * (cos t * cos a - sin t * sin a * cos g') + sin a * sin a * (1 - cos g' * cos g') +
       (sin t * cos a + cos t * sin a * cos g') * (sin t * cos a + cos t * sin a * cos g'))
      with ((sin t * sin t + cos t * cos t) * (cos a * cos a) + (sin t * sin t + cos t * cos t) * (sin a * sin a) * (cos g' * cos g') + sin a * sin a * (1 - cos g' * cos g')) by ring.
    rewrite S1. replace (sin a * sin a) with (1 - cos a * cos a) by lra. ring. }
  destruct (polar Y X) as [PX PY]. rewrite (hypot_eq 1) in PX, PY by lra. rewrite Rmult_1_l in PX, PY.
  destruct (polar dy dx) as [Pdx Pdy].
  assert (EH : hypot dx dy = X) by (apply hypot_eq; [apply hypot_nonneg|exact EX]). rewrite EH in Pdx, Pdy.
  rewrite <- PX, <- PY, <- Pdx, <- Pdy. split; [|split; [|split]].
  - unfold Y. rewrite <- Ec. ring.
  - unfold dx. rewrite <- Ec. ring.
  - exact Es.
  - apply atan2_right, hypot_nonneg.
Qed.

Lemma angle_radians x : radians x = angle x.
Proof. unfold radians, angle. field. Qed.
Lemma angle_degrees x : angle (degrees x) = x.
Proof. pose proof PI_RGT_0. unfold angle, degrees. field. lra. Qed.

Lemma arrives p tp d a g lon' lat' : angle lon' = angle (fst p) + d -> angle lat' = tp ->
  sin tp = sin (angle (snd p)) * cos a + cos (angle (snd p)) * (sin a * cos g) ->
  cos tp * cos d = cos (angle (snd p)) * cos a - sin (angle (snd p)) * (sin a * cos g) ->
  cos tp * sin d = sin a * sin g ->
  position (lon', lat') = along_great_circle p a g.
Proof.
  destruct p as [lon lat]. cbn [fst snd]. intros E1 E2 H1 H2 H3.
  unfold position, along_great_circle, position, north, east, vplus, vscale. cbn [fst snd]. rewrite E1, E2.
  assert (X : cos tp * cos (angle lon + d) = cos (angle lon) * (cos tp * cos d) - sin (angle lon) * (cos tp * sin d)) by (rewrite cos_plus; ring).
  assert (Y : cos tp * sin (angle lon + d) = sin (angle lon) * (cos tp * cos d) + cos (angle lon) * (cos tp * sin d)) by (rewrite sin_plus; ring).
  rewrite X, Y, H1, H2, H3. apply f_equal2; [apply f_equal2|]; ring.
Qed.

Lemma polar_form (alpha : C) : exists a g, 0 <= a /\ a = Cmod alpha /\ alpha = (a * cos g, a * sin g).
Proof.
  exists (hypot (fst alpha) (snd alpha)), (atan2 (snd alpha) (fst alpha)). split; [apply hypot_nonneg|]. split.
  - unfold hypot, Cmod. f_equal. ring.
  - destruct (polar (snd alpha) (fst alpha)) as [<- <-]. destruct alpha; reflexivity.
Qed.

(** ** Products of sampled functions *)
Lemma product2 xs fs ys gs : increasing xs -> length xs = length fs -> xs <> [] ->
  increasing ys -> length ys = length gs -> ys <> [] ->
  forall x0 xn y0 yn, starts_with xs x0 -> ends_with xs xn -> starts_with ys y0 -> ends_with ys yn ->
  let grid := union1d (between y0 yn xs) (between x0 xn ys) in
  trapezoid_product (xs, fs) [(ys, gs)] =
    Ok (total (trapezoids (combine grid (map (fun x => interp_value xs fs None None x * interp_value ys gs None None x) grid)))).
Proof.
  intros Hx Lx Nx Hy Ly Ny x0 xn y0 yn Hx0 Hxn Hy0 Hyn grid. unfold trapezoid_product. cbn [fst snd product_grid].
  assert (F : forall l a, starts_with l a -> first_of l = Ok a).
  { intros l a H. destruct l; [discriminate|]. injection H as ->. reflexivity. }
  assert (La : forall l a, ends_with l a -> last_of l = Ok a).
  { intros l a H. destruct l as [|b l]; [discriminate|]. cbn. f_equal. exact (ends_fun _ _ _ (ends_last b l) H). }
  rewrite (F _ _ Hy0), (La _ _ Hyn), (F _ _ Hx0), (La _ _ Hxn). cbn [bind]. fold grid.
  rewrite (mapM_pure _ (interp_value xs fs None None)) by (intros; apply interp_ok; assumption). cbn [bind product_values].
  rewrite (mapM_pure _ (interp_value ys gs None None)) by (intros; apply interp_ok; assumption). cbn [bind].
  unfold trapezoid. rewrite map_length, combine_length, !map_length, Nat.min_id, Nat.eqb_refl.
  do 4 f_equal. clear. induction grid as [|x grid IH]; cbn; [reflexivity|]. rewrite IH. reflexivity.
Qed.

(** ** Expected counts *)
Lemma sphere_area_eq : ARCMIN2_SPHERE = sphere_area.
Proof.
  unfold ARCMIN2_SPHERE, sphere_area. change (60 ^ 6 / 100)%Z with 466560000%Z. pose proof PI_RGT_0. field. lra.
Qed.

Lemma expected_count_spec ngal rm n : n <> [] ->
  expected_count ngal rm n = Ok (map (fun x =>
    ngal * (sphere_area / INR (length n)) * (1 + (x - if rm then mean_of n else 0))) n).
Proof.
  intro Hne. assert (HN : 0 < INR (length n)) by (apply lt_0_INR; destruct n; [contradiction|cbn; lia]).
  unfold expected_count, fdiv. destruct rm.
  - destruct (Req_EM_T (INR (length n)) 0); [lra|]. cbn [bind]. rewrite !map_length.
    destruct (Req_EM_T (INR (length n)) 0); [lra|]. cbn [bind]. rewrite !map_map, sphere_area_eq.
    f_equal. apply map_ext. intro x. unfold mean_of. rewrite total_fold. field. lra.
  - cbn [bind]. rewrite !map_length. destruct (Req_EM_T (INR (length n)) 0); [lra|]. cbn [bind]. rewrite !map_map, sphere_area_eq.
    f_equal. apply map_ext. intro x. field. lra.
Qed.

Lemma apply_visibility_same n vis : length vis = length n ->
  apply_visibility n (Some vis) = Ok (map (fun p => fst p * snd p) (combine n vis)).
Proof.
  intro H. unfold apply_visibility. destruct vis as [|v [|v' vis]].
  - destruct n; [reflexivity|discriminate].
  - destruct n as [|x [|]]; try discriminate. reflexivity.
  - rewrite H, Nat.eqb_refl. reflexivity.
Qed.

Lemma row_at_value (x r : array R) lz m dims k row :
  ashape x = lz ++ [m] -> ashape r = dims ++ [m] -> length k = length dims ->
  (forall i, length i = length (ashape r) -> exists j, comes_from (ashape x) i j /\ aget r i = aget x j) ->
  row_for x lz m k row -> row_at r k m = row.
Proof.
  intros Ex Er Hk H (j & Hj & Hlen & Hrow). unfold row_at.
  apply nth_error_ext'. intro i. rewrite nth_error_map', nth_error_seq.
  destruct (Nat.ltb_spec i m) as [L|L].
  - cbn [option_map Nat.add]. rewrite (Hrow i L). f_equal.
    destruct (H (k ++ [i])) as (j' & Hj' & E).
    { rewrite Er, !app_length, Hk. reflexivity. }
    rewrite E. f_equal.
    rewrite Ex in Hj'. apply comes_from_snoc in Hj' as (j0 & -> & Hj0).
    rewrite (comes_from_fun _ _ _ _ Hj0 Hj). destruct (Nat.eqb_spec m 1); [|reflexivity].
    do 2 f_equal. lia.
  - cbn [option_map]. symmetry. apply nth_error_None. lia.
Qed.

Lemma start_of l a : increasing l -> In a l -> (forall x, In x l -> a <= x) -> starts_with l a.
Proof.
  intros Hi Hin Hmin. destruct l as [|b l]; [contradiction|]. unfold starts_with. cbn. f_equal.
  pose proof (Hmin b (or_introl eq_refl)). pose proof (starts_min (b :: l) b Hi eq_refl a Hin). lra.
Qed.
Lemma end_of l a : increasing l -> In a l -> (forall x, In x l -> x <= a) -> ends_with l a.
Proof.
  intros Hi Hin Hmax. destruct l as [|b l]; [contradiction|].
  assert (He := ends_last b l). assert (H1 := Hmax (last l b) (nth_error_In _ _ He)). assert (H2 := ends_max _ _ Hi He a Hin).
  assert (a = last l b) by lra. subst a. exact He.
Qed.
Lemma starts_in {A} (l : list A) a : starts_with l a -> In a l.
Proof. apply nth_error_In. Qed.
Lemma ends_in {A} (l : list A) a : ends_with l a -> In a l.
Proof. apply nth_error_In. Qed.

Lemma total_trapezoids_le l f g : increasing l -> (forall x, In x l -> f x <= g x) ->
  total (trapezoids (combine l (map f l))) <= total (trapezoids (combine l (map g l))).
Proof.
  induction l as [|x [|y l] IH]; intros Hi H; cbn [map combine trapezoids total]; [lra|lra|].
  pose proof (Hi 0%nat x y eq_refl eq_refl).
  assert (IH' := IH (increasing_tail _ _ Hi) (fun x Hx => H x (or_intror Hx))). cbn [map combine trapezoids total] in IH'.
  pose proof (H x (or_introl eq_refl)). pose proof (H y (or_intror (or_introl eq_refl))).
  assert ((f y + f x) * (1 / 2) * (y - x) <= (g y + g x) * (1 / 2) * (y - x)) by (apply Rmult_le_compat_r; lra).
  unfold total in *. cbn [fold_right] in *. lra.
Qed.

Lemma total_trapezoids_mult l c f :
  total (trapezoids (combine l (map (fun x => c * f x) l))) = c * total (trapezoids (combine l (map f l))).
Proof.
  induction l as [|x [|y l] IH]; cbn [map combine trapezoids total]; [lra|lra|].
  cbn [map combine trapezoids total] in IH. unfold total in *. cbn [fold_right] in *. lra.
Qed.

(** The common grid of two samplings, the second inside of the first. *)
Lemma common_grid xs ys x0 xn y0 yn : increasing xs -> increasing ys ->
  starts_with xs x0 -> ends_with xs xn -> starts_with ys y0 -> ends_with ys yn -> x0 <= y0 -> yn <= xn ->
  let grid := union1d (between y0 yn xs) (between x0 xn ys) in
  increasing grid /\ starts_with grid y0 /\ ends_with grid yn /\ forall x, In x grid <-> (In x ys \/ (In x xs /\ y0 <= x <= yn)).
Proof.
  intros Hx Hy Hx0 Hxn Hy0 Hyn H0 Hn grid.
  assert (Hin : forall x, In x grid <-> (In x ys \/ (In x xs /\ y0 <= x <= yn))).
  { intro x. unfold grid. rewrite union1d_In, !between_In. split; [tauto|]. intros [H|H]; [right|left; exact H].
    split; [exact H|]. pose proof (starts_min _ _ Hy Hy0 _ H). pose proof (ends_max _ _ Hy Hyn _ H). lra. }
  assert (Hi : increasing grid) by apply union1d_increasing.
  split; [exact Hi|]. split; [|split; [|exact Hin]].
  - apply start_of; [exact Hi| |].
    + apply Hin. left. apply starts_in, Hy0.
    + intros x Hx'. apply Hin in Hx' as [H|[_ H]]; [|lra]. apply (starts_min _ _ Hy Hy0 _ H).
  - apply end_of; [exact Hi| |].
    + apply Hin. left. apply ends_in, Hyn.
    + intros x Hx'. apply Hin in Hx' as [H|[_ H]]; [|lra]. apply (ends_max _ _ Hy Hyn _ H).
Qed.

Lemma mapM_rows' {A B} (f : A -> result B) (P : A -> B -> Prop) l :
  (forall x, In x l -> exists r, f x = Ok r /\ P x r) -> exists rows, mapM f l = Ok rows /\ Forall2 P l rows.
Proof.
  induction l as [|x l IH]; intro H; [exists []; split; [reflexivity|constructor]|].
  destruct (H x (or_introl eq_refl)) as (r & E & Hr). destruct IH as (rows & Er & Hf); [intros; apply H; right; assumption|].
  exists (r :: rows). cbn [mapM]. rewrite E. cbn [bind]. rewrite Er. split; [reflexivity|constructor; assumption].
Qed.

Lemma forall2_at {A B} (P : A -> B -> Prop) l l' : Forall2 P l l' ->
  forall i x y, nth_error l i = Some x -> nth_error l' i = Some y -> P x y.
Proof.
  induction 1 as [|x y l l' H _ IH]; intros [|i] a b Ha Hb; try discriminate.
  - injection Ha as <-. injection Hb as <-. exact H.
  - exact (IH i a b Ha Hb).
Qed.
Lemma forall2_nth {A B} (P : A -> B -> Prop) l l' : length l = length l' ->
  (forall i x y, nth_error l i = Some x -> nth_error l' i = Some y -> P x y) -> Forall2 P l l'.
Proof.
  revert l'. induction l as [|x l IH]; intros [|y l'] H HP; try discriminate; constructor.
  - exact (HP 0%nat x y eq_refl eq_refl).
  - apply IH; [injection H; auto|]. intros i. exact (HP (S i)).
Qed.

Lemma comes_before_asym k l : comes_before k l -> comes_before l k -> False.
Proof.
  induction 1 as [a b l m H|a l m H IH]; intro Q; inversion Q; subst; try lia. auto.
Qed.
Lemma comes_before_irrefl k : ~ comes_before k k.
Proof. intro H. exact (comes_before_asym k k H H). Qed.
Lemma row_major_unique d ks ks' : row_major d ks -> row_major d ks' -> ks = ks'.
Proof.
  assert (G : forall ks ks', (forall k, In k ks <-> In k ks') ->
     (forall i j k l, (i < j)%nat -> nth_error ks i = Some k -> nth_error ks j = Some l -> comes_before k l) ->
     (forall i j k l, (i < j)%nat -> nth_error ks' i = Some k -> nth_error ks' j = Some l -> comes_before k l) -> ks = ks').
  { clear. induction ks as [|k ks IH]; intros [|k' ks'] E H H'.
    - reflexivity.
    - destruct (proj2 (E k') (or_introl eq_refl)).
    - destruct (proj1 (E k) (or_introl eq_refl)).
    - assert (B : forall (k : list nat) ks, (forall i j k' l, (i < j)%nat -> nth_error (k :: ks) i = Some k' -> nth_error (k :: ks) j = Some l -> comes_before k' l) ->
        forall l, In l ks -> comes_before k l).
      { intros q qs Hq l Hl. apply In_nth_error in Hl as (j & Hj). exact (Hq 0%nat (S j) q l ltac:(lia) eq_refl Hj). }
      assert (k = k').
      { destruct (proj1 (E k) (or_introl eq_refl)) as [Q|Q]; [auto|]. destruct (proj2 (E k') (or_introl eq_refl)) as [Q'|Q']; [auto|].
        destruct (comes_before_asym k k'); [apply (B k ks H _ Q')|apply (B k' ks' H' _ Q)]. }
      subst k'. f_equal. apply IH.
      + intro l. split; intro Hl.
        * destruct (proj1 (E l) (or_intror Hl)) as [<-|Q]; [|exact Q]. destruct (comes_before_irrefl k). exact (B k ks H _ Hl).
        * destruct (proj2 (E l) (or_intror Hl)) as [<-|Q]; [|exact Q]. destruct (comes_before_irrefl k). exact (B k ks' H' _ Hl).
      + intros i j a b Hij. exact (H (S i) (S j) a b ltac:(lia)).
      + intros i j a b Hij. exact (H' (S i) (S j) a b ltac:(lia)). }
  intros [H1 H2] [H1' H2']. apply G; auto. intro k. rewrite H1, H1'. reflexivity.
Qed.

(** Between its end points a piecewise linear function is the interpolated value. *)
Lemma interp_unique g xs fs l r a b x : increasing xs -> length xs = length fs ->
  interpolates g xs fs -> passes_through g xs fs -> starts_with xs a -> ends_with xs b -> a <= x <= b ->
  g x = interp_value xs fs l r x.
Proof.
  intros Hs Hl Hi Hp Ha Hb Hx. destruct (Req_dec x b) as [->|N].
  - destruct (nth_error_same _ _ _ _ Hl Hb) as (fb & Hfb).
    rewrite (value_through xs fs l r Hs Hl _ _ _ Hb Hfb). exact (Hp _ _ _ Hb Hfb).
  - destruct (locate xs a b x Hs Ha Hb ltac:(lra)) as (i & c & d & Hc & Hd & Hcd).
    destruct (nth_error_same _ _ _ _ Hl Hc) as (fc & Hfc). destruct (nth_error_same _ _ _ _ Hl Hd) as (fd & Hfd).
    apply Rmult_eq_reg_r with (d - c); [|lra].
    rewrite (Hi _ _ _ _ _ x Hc Hd Hfc Hfd ltac:(lra)).
    rewrite (value_interpolates xs fs l r Hs Hl _ _ _ _ _ x Hc Hd Hfc Hfd ltac:(lra)). reflexivity.
Qed.

(** ** Directions *)
Lemma position_dots p : dot (position p) (position p) = 1 /\ dot (position p) (north p) = 0 /\ dot (position p) (east p) = 0 /\
  dot (north p) (north p) = 1 /\ dot (east p) (east p) = 1 /\ dot (north p) (east p) = 0.
Proof.
  destruct p as [lon lat]. unfold dot, position, north, east. cbn [fst snd].
  pose proof (sc1 (angle lon)). pose proof (sc1 (angle lat)).
  set (sl := sin (angle lon)) in *. set (cl := cos (angle lon)) in *. set (st := sin (angle lat)) in *. set (ct := cos (angle lat)) in *.
  clearbody sl cl st ct.
  assert (A : cl * cl = 1 - sl * sl) by lra. assert (B : ct * ct = 1 - st * st) by lra.
  repeat split; try ring.
  - replace (ct * cl * (ct * cl) + ct * sl * (ct * sl) + st * st) with (ct * ct * (sl * sl + cl * cl) + st * st) by ring. rewrite H. lra.
  - replace (ct * cl * - (st * cl) + ct * sl * - (st * sl) + st * ct) with (- (ct * st) * (sl * sl + cl * cl) + st * ct) by ring. rewrite H. ring.
  - replace (- (st * cl) * - (st * cl) + - (st * sl) * - (st * sl) + ct * ct) with (st * st * (sl * sl + cl * cl) + ct * ct) by ring. rewrite H. lra.
  - replace (- sl * - sl + cl * cl + 0 * 0) with (sl * sl + cl * cl) by ring. exact H.
Qed.

Lemma dot_plus u v w : dot u (vplus v w) = dot u v + dot u w.
Proof. destruct u as [[u1 u2] u3], v as [[v1 v2] v3], w as [[w1 w2] w3]. unfold dot, vplus. cbn [fst snd]. ring. Qed.
Lemma dot_scale c u v : dot u (vscale c v) = c * dot u v.
Proof. destruct u as [[u1 u2] u3], v as [[v1 v2] v3]. unfold dot, vscale. cbn [fst snd]. ring. Qed.
Lemma great_circle_distance p a g : dot (position p) (along_great_circle p a g) = cos a.
Proof.
  destruct (position_dots p) as (H1 & H2 & H3 & _). unfold along_great_circle.
  rewrite dot_plus, !dot_scale, dot_plus, !dot_scale, H1, H2, H3. ring.
Qed.

Lemma along_negative p a g : along_great_circle p a (g + 2 * PI) = along_great_circle p a g.
Proof. unfold along_great_circle. rewrite cos_plus, sin_plus, cos_2PI, sin_2PI. do 3 f_equal; f_equal; ring. Qed.

Lemma displace_position lon lat a g : 0 <= a ->
  position (displace lon lat (a * cos g, a * sin g)) = along_great_circle (lon, lat) a g /\
  -90 <= snd (displace lon lat (a * cos g, a * sin g)) <= 90.
Proof.
  intro Ha. unfold displace. cbn [fst snd]. pose proof PI_RGT_0.
  destruct (navigate (lat / 180 * PI) (a * cos g) (a * sin g)) as [tp d] eqn:E.
  destruct (navigate_spec _ _ _ _ _ Ha E) as (H1 & H2 & H3 & H4).
  replace (lat / 180 * PI) with (angle lat) in H1, H2 by (unfold angle; field). split.
  - apply (arrives (lon, lat) tp d); cbn [fst snd]; try assumption; unfold angle; field; lra.
  - cbn [snd]. unfold Rdiv. assert (0 < / PI) by (apply Rinv_0_lt_compat; lra).
    replace (-90) with (- (PI / 2) * / PI * 180) by (field; lra). replace 90 with (PI / 2 * / PI * 180) by (field; lra).
    split; apply Rmult_le_compat_r; try lra; apply Rmult_le_compat_r; lra.
Qed.

Lemma deflect_position lon lat a g : 0 <= a ->
  position (deflect lon lat (a * cos g, a * sin g)) = along_great_circle (lon, lat) a (- g) /\
  -90 <= snd (deflect lon lat (a * cos g, a * sin g)) <= 90.
Proof.
  intro Ha. unfold deflect. cbn [fst snd]. pose proof PI_RGT_0.
  destruct (navigate (radians lat) (a * cos g) (a * sin g)) as [tp d] eqn:E.
  destruct (navigate_spec _ _ _ _ _ Ha E) as (H1 & H2 & H3 & H4). rewrite angle_radians in H1, H2. split.
  - apply (arrives (lon, lat) tp (- d)); cbn [fst snd]; rewrite ?cos_neg, ?sin_neg.
    + unfold angle, degrees. field. lra.
    + apply angle_degrees.
    + exact H1.
    + exact H2.
    + rewrite <- Ropp_mult_distr_r, H3. ring.
  - cbn [snd]. unfold degrees. assert (0 < 180 / PI) by (apply Rdiv_lt_0_compat; lra).
    replace (-90) with (- (PI / 2) * (180 / PI)) by (field; lra). replace 90 with (PI / 2 * (180 / PI)) by (field; lra).
    split; apply Rmult_le_compat_r; lra.
Qed.

Lemma displacement_polar lon lat lon' lat' : exists r x,
  displacement lon lat lon' lat' = (r * cos x, r * sin x) /\ 0 <= r <= PI /\
  along_great_circle (lon, lat) r x = position (lon', lat').
Proof.
  unfold displacement. rewrite !angle_radians.
  set (A := cos (angle lat') * sin (angle (lon' - lon))).
  set (B := cos (angle lat) * sin (angle lat') - sin (angle lat) * cos (angle lat') * cos (angle (lon' - lon))).
  set (D := sin (angle lat) * sin (angle lat') + cos (angle lat) * cos (angle lat') * cos (angle (lon' - lon))).
  exists (atan2 (hypot A B) D), (atan2 A B). split; [reflexivity|]. split; [apply atan2_upper, hypot_nonneg|].
  assert (Eg : angle lon' = angle lon + angle (lon' - lon)) by (unfold angle; field).
  pose proof (sc1 (angle lat)) as S1. pose proof (sc1 (angle lat')) as S2. pose proof (sc1 (angle (lon' - lon))) as S3. pose proof (sc1 (angle lon)) as S4.
  assert (EH : hypot B A = hypot A B) by (apply hypot_eq; [apply hypot_nonneg|rewrite hypot_sq; ring]).
  assert (E1 : hypot A B * hypot A B + D * D = 1).
  { rewrite hypot_sq. unfold A, B, D.
    set (s := sin (angle lat)) in *. set (c := cos (angle lat)) in *. set (s' := sin (angle lat')) in *. set (c' := cos (angle lat')) in *.
    set (sg := sin (angle (lon' - lon))) in *. set (cg := cos (angle (lon' - lon))) in *. clearbody s c s' c' sg cg.
    replace (c' * sg * (c' * sg) + (c * s' - s * c' * cg) * (c * s' - s * c' * cg) + (s * s' + c * c' * cg) * (s * s' + c * c' * cg))
      with (c' * c' * (sg * sg) + (s * s + c * c) * (s' * s') + (s * s + c * c) * (c' * c') * (cg * cg)) by ring.
    rewrite S1. replace (sg * sg) with (1 - cg * cg) by lra. replace (s' * s') with (1 - c' * c') by lra. ring. }
  destruct (polar (hypot A B) D) as [P1 P2]. rewrite (hypot_eq 1 D (hypot A B)), Rmult_1_l in P1, P2 by lra.
  destruct (polar A B) as [P3 P4]. rewrite EH in P3, P4.
  set (r := atan2 (hypot A B) D) in *. set (x := atan2 A B) in *.
  assert (EB : sin r * cos x = B) by (rewrite <- P2; symmetry; exact P3).
  assert (EA : sin r * sin x = A) by (rewrite <- P2; symmetry; exact P4).
  unfold along_great_circle, position, north, east, vplus, vscale. cbn [fst snd]. rewrite <- P1, Eg, cos_plus, sin_plus.
  clearbody r x. clear P1 P2 P3 P4 EH E1 Eg.
  assert (T : forall n e, D * n + sin r * (cos x * e) = D * n + B * e) by (intros; rewrite <- EB; ring).
  assert (T2 : forall n e f, D * n + sin r * (cos x * e + sin x * f) = D * n + B * e + A * f) by (intros; rewrite <- EB, <- EA; ring).
  rewrite !T2. unfold A, B, D. clear EA EB T T2 A B D.
  set (s := sin (angle lat)) in *. set (c := cos (angle lat)) in *. set (s' := sin (angle lat')) in *. set (c' := cos (angle lat')) in *.
  set (sg := sin (angle (lon' - lon))) in *. set (cg := cos (angle (lon' - lon))) in *.
  set (sl := sin (angle lon)) in *. set (cl := cos (angle lon)) in *. clearbody s c s' c' sg cg sl cl.
  apply f_equal2; [apply f_equal2|].
  - transitivity ((s * s + c * c) * (c' * cg * cl) - c' * sg * sl); [ring|]. rewrite S1. ring.
  - transitivity ((s * s + c * c) * (c' * cg * sl) + c' * sg * cl); [ring|]. rewrite S1. ring.
  - transitivity ((s * s + c * c) * s'); [ring|]. rewrite S1. ring.
Qed.

Lemma displacement_inverse lon lat a g : 0 <= a < PI ->
  displacement lon lat (fst (displace lon lat (a * cos g, a * sin g))) (snd (displace lon lat (a * cos g, a * sin g))) = (a * cos g, a * sin g).
Proof.
  intro Ha. unfold displace. cbn [fst snd]. pose proof PI_RGT_0.
  destruct (navigate (lat / 180 * PI) (a * cos g) (a * sin g)) as [tp d] eqn:E.
  destruct (navigate_spec _ _ _ _ _ (proj1 Ha) E) as (H1 & H2 & H3 & H4). cbn [fst snd].
  replace (lat / 180 * PI) with (angle lat) in H1, H2 by (unfold angle; field).
  unfold displacement. rewrite !angle_radians.
  replace (angle (tp / PI * 180)) with tp by (unfold angle; field; lra).
  replace (angle (lon + d / PI * 180 - lon)) with d by (unfold angle; field; lra).
  rewrite H3. pose proof (sc1 (angle lat)) as S1.
  assert (EB : cos (angle lat) * sin tp - sin (angle lat) * cos tp * cos d = sin a * cos g).
  { rewrite Rmult_assoc, H2, H1. set (s := sin (angle lat)) in *. set (c := cos (angle lat)) in *. clearbody s c.
    transitivity ((s * s + c * c) * (sin a * cos g)); [ring|]. rewrite S1. ring. }
  assert (ED : sin (angle lat) * sin tp + cos (angle lat) * cos tp * cos d = cos a).
  { rewrite Rmult_assoc, H2, H1. set (s := sin (angle lat)) in *. set (c := cos (angle lat)) in *. clearbody s c.
    transitivity ((s * s + c * c) * cos a); [ring|]. rewrite S1. ring. }
  rewrite EB, ED.
  assert (Hs : 0 <= sin a) by (apply sin_ge_0; lra).
  assert (EH : forall u v, u * u + v * v = 1 -> hypot (sin a * u) (sin a * v) = sin a).
  { intros u v Q. apply hypot_eq; [exact Hs|]. transitivity (sin a * sin a * (u * u + v * v)); [rewrite Q; ring|ring]. }
  rewrite (EH (sin g) (cos g) (sc1 g)), atan2_sin_cos by lra.
  destruct (Req_dec a 0) as [->|N]; [apply f_equal2; ring|].
  assert (0 < sin a) by (apply sin_gt_0; lra).
  destruct (polar (sin a * sin g) (sin a * cos g)) as [P1 P2].
  rewrite (EH (cos g) (sin g)) in P1, P2 by (rewrite Rplus_comm; apply sc1).
  apply Rmult_eq_reg_l in P1, P2; try lra. rewrite <- P1, <- P2. reflexivity.
Qed.
