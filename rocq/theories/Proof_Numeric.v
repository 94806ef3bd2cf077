(** Interpolation and trapezoidal integration. *)
From Coq Require Import Reals Lra.
From Coquelicot Require Import Coquelicot.
From Verif Require Import Base Model_Numeric Spec_Numeric.
Local Open Scope R_scope.

Lemma leb_true a b : a <= b -> leb a b = true.
Proof. unfold leb; destruct (Rle_dec a b); [reflexivity|contradiction]. Qed.
Lemma leb_false a b : b < a -> leb a b = false.
Proof. unfold leb; destruct (Rle_dec a b); [lra|reflexivity]. Qed.
Lemma ltb_true a b : a < b -> ltb a b = true.
Proof. unfold ltb; destruct (Rlt_dec a b); [reflexivity|contradiction]. Qed.
Lemma ltb_false a b : b <= a -> ltb a b = false.
Proof. unfold ltb; destruct (Rlt_dec a b); [lra|reflexivity]. Qed.
Lemma leb_iff a b : leb a b = true <-> a <= b.
Proof. unfold leb; destruct (Rle_dec a b); split; auto; discriminate. Qed.
Lemma ltb_iff a b : ltb a b = true <-> a < b.
Proof. unfold ltb; destruct (Rlt_dec a b); split; auto; discriminate. Qed.

(** ** Sorted grids *)
Lemma increasing_tail a xs : increasing (a :: xs) -> increasing xs.
Proof. intros H i; apply (H (S i)). Qed.
Lemma nondecreasing_tail a xs : nondecreasing (a :: xs) -> nondecreasing xs.
Proof. intros H i; apply (H (S i)). Qed.
Lemma increasing_nondecreasing xs : increasing xs -> nondecreasing xs.
Proof. intros H i a b Ha Hb. left; eapply H; eassumption. Qed.

Lemma nondecreasing_le xs : nondecreasing xs -> forall i j a b, (i <= j)%nat ->
  nth_error xs i = Some a -> nth_error xs j = Some b -> a <= b.
Proof.
  intros H i j; induction j as [|j IH]; intros a b Hij Ha Hb.
  - assert (i = 0)%nat by lia; subst. rewrite Ha in Hb; injection Hb as ->; lra.
  - destruct (Nat.eq_dec i (S j)) as [->|Hne].
    + rewrite Ha in Hb; injection Hb as ->; lra.
    + destruct (nth_error xs j) as [c|] eqn:Hc.
      * apply Rle_trans with c; [apply (IH a c); auto; lia|]. eapply H; eassumption.
      * apply nth_error_None in Hc. assert (nth_error xs (S j) <> None) by congruence.
        apply nth_error_Some in H0. lia.
Qed.

Lemma increasing_lt xs : increasing xs -> forall i j a b, (i < j)%nat ->
  nth_error xs i = Some a -> nth_error xs j = Some b -> a < b.
Proof.
  intros H i j; induction j as [|j IH]; intros a b Hij Ha Hb; [lia|].
  destruct (Nat.eq_dec i j) as [->|Hne]; [eapply H; eassumption|].
  destruct (nth_error xs j) as [c|] eqn:Hc.
  - apply Rlt_trans with c; [apply (IH a c); auto; lia|]. eapply H; eassumption.
  - apply nth_error_None in Hc. assert (nth_error xs (S j) <> None) by congruence.
    apply nth_error_Some in H0. lia.
Qed.

Lemma increasing_inj xs : increasing xs -> forall i j a,
  nth_error xs i = Some a -> nth_error xs j = Some a -> i = j.
Proof.
  intros H i j a Hi Hj. destruct (Nat.lt_trichotomy i j) as [L|[E|L]]; [|exact E|];
    exfalso; pose proof (increasing_lt _ H _ _ _ _ L ltac:(eassumption) ltac:(eassumption)); lra.
Qed.

Lemma increasing_first a xs : increasing (a :: xs) -> forall b, In b xs -> a < b.
Proof.
  intros H b Hb. apply In_nth_error in Hb as (k & Hk).
  apply (increasing_lt _ H 0 (S k)); [lia|reflexivity|exact Hk].
Qed.

Lemma increasing_cons a xs : (forall b, In b xs -> a < b) -> increasing xs ->
  increasing (a :: xs).
Proof.
  intros Ha H [|i] c d Hc Hd.
  - injection Hc as <-. apply Ha, nth_error_In with 0%nat; exact Hd.
  - apply (H i); assumption.
Qed.

Lemma increasing_one a : increasing [a].
Proof. intros [|[|i]] b c; discriminate. Qed.

Lemma increasing_two a b xs : a < b -> increasing (b :: xs) -> increasing (a :: b :: xs).
Proof.
  intros Hab H [|i] c d Hc Hd; [|apply (H i); assumption].
  injection Hc as <-; injection Hd as <-; exact Hab.
Qed.

Lemma starts_first {A} (a : A) xs : starts_with (a :: xs) a.
Proof. reflexivity. Qed.

Lemma last_cons {A} (l : list A) : forall a b, last (b :: l) a = last l b.
Proof.
  induction l as [|c l IH]; intros a b; [reflexivity|].
  change (last (b :: c :: l) a) with (last (c :: l) a). rewrite !IH. reflexivity.
Qed.

Lemma ends_last {A} (a : A) xs : ends_with (a :: xs) (last xs a).
Proof.
  unfold ends_with; revert a; induction xs as [|b xs IH]; intros a; [reflexivity|].
  rewrite last_cons. specialize (IH b). cbn [length] in *.
  replace (S (S (length xs)) - 1)%nat with (S (S (length xs) - 1)) by lia. exact IH.
Qed.

Lemma starts_inv {A} (xs : list A) a : starts_with xs a -> exists xs', xs = a :: xs'.
Proof. destruct xs as [|b xs]; intro H; [discriminate|]. injection H as ->; eauto. Qed.

Lemma starts_fun {A} (xs : list A) a b : starts_with xs a -> starts_with xs b -> a = b.
Proof. unfold starts_with; congruence. Qed.
Lemma ends_fun {A} (xs : list A) a b : ends_with xs a -> ends_with xs b -> a = b.
Proof. unfold ends_with; congruence. Qed.

(** ** Interpolation *)
Lemma map_fst_combine {A B} (xs : list A) (fs : list B) :
  length xs = length fs -> map fst (combine xs fs) = xs.
Proof.
  revert fs; induction xs as [|x xs IH]; intros [|f fs] H; try discriminate; [reflexivity|].
  cbn. f_equal; apply IH; injection H as H; exact H.
Qed.

Lemma map_snd_combine {A B} (xs : list A) (fs : list B) :
  length xs = length fs -> map snd (combine xs fs) = fs.
Proof.
  revert fs; induction xs as [|x xs IH]; intros [|f fs] H; try discriminate; [reflexivity|].
  cbn. f_equal; apply IH; injection H as H; exact H.
Qed.

Lemma scan_segment rest : forall x0 f0 i a fa b fb x right,
  nondecreasing (map fst ((x0, f0) :: rest)) ->
  nth_error ((x0, f0) :: rest) i = Some (a, fa) ->
  nth_error ((x0, f0) :: rest) (S i) = Some (b, fb) ->
  a <= x < b ->
  interp_scan x0 f0 rest right x = (fb - fa) / (b - a) * (x - a) + fa.
Proof.
  induction rest as [|(x1, f1) rest IH]; intros x0 f0 i a fa b fb x right Hs Ha Hb Hx.
  - destruct i; discriminate.
  - destruct i as [|i]; cbn [nth_error interp_scan] in *.
    + injection Ha as -> ->; injection Hb as -> ->.
      rewrite leb_false by lra; reflexivity.
    + rewrite leb_true.
      * apply (IH x1 f1 i a fa b fb); auto. eapply nondecreasing_tail; exact Hs.
      * apply Rle_trans with a; [|lra].
        apply (nondecreasing_le _ (nondecreasing_tail _ _ Hs) 0 i); [lia|reflexivity|].
        change (nth_error (map fst ((x1, f1) :: rest)) i = Some (fst (a, fa))).
        apply map_nth_error; exact Ha.
Qed.

Lemma scan_past rest : forall x0 f0 x right,
  nondecreasing (map fst ((x0, f0) :: rest)) ->
  last (map fst rest) x0 <= x ->
  interp_scan x0 f0 rest right x
  = if ltb (last (map fst rest) x0) x then right else last_value f0 rest.
Proof.
  induction rest as [|(x1, f1) rest IH]; intros x0 f0 x right Hs Hx; [reflexivity|].
  cbn [interp_scan last_value map fst] in *. rewrite last_cons in *.
  rewrite leb_true.
  - apply IH; [eapply nondecreasing_tail; exact Hs|exact Hx].
  - apply Rle_trans with (last (map fst rest) x1); [|exact Hx].
    apply (nondecreasing_le _ (nondecreasing_tail _ _ Hs) 0 (length (map fst rest))); [lia|reflexivity|].
    pose proof (ends_last x1 (map fst rest)) as E. unfold ends_with in E.
    cbn [length] in E. replace (S (length (map fst rest)) - 1)%nat with (length (map fst rest)) in E by lia.
    exact E.
Qed.

Lemma last_value_last rest : forall f0, last_value f0 rest = last (map snd rest) f0.
Proof.
  induction rest as [|(x1, f1) rest IH]; intros f0; [reflexivity|].
  cbn [last_value map snd]. rewrite last_cons. apply IH.
Qed.

(** The value computed by [interp] when it does not raise. *)
Definition interp_value (xs fs : list R) (left right : option R) (x : R) : R :=
  match combine xs fs with
  | [] => 0
  | (x0, f0) :: rest =>
      if ltb x x0 then (match left with Some v => v | None => f0 end)
      else interp_scan x0 f0 rest
             (match right with Some v => v | None => last_value f0 rest end) x
  end.

Lemma interp_ok xs fs left right x : length xs = length fs -> xs <> [] ->
  interp x xs fs left right = Ok (interp_value xs fs left right x).
Proof.
  intros Hl Hne. unfold interp, interp_value. rewrite Hl, Nat.eqb_refl.
  destruct xs as [|x0 xs]; [contradiction|]. destruct fs as [|f0 fs]; [discriminate|].
  cbn [combine]. destruct (ltb x x0); reflexivity.
Qed.

Lemma interp_err xs fs left right x : length xs <> length fs \/ xs = [] ->
  interp x xs fs left right = Err ValueError.
Proof.
  intros H. unfold interp. destruct (Nat.eqb (length xs) (length fs)) eqn:E; [|reflexivity].
  apply Nat.eqb_eq in E. destruct H as [H|H]; [contradiction|subst; reflexivity].
Qed.

Lemma value_left xs fs left right x a fa : length xs = length fs ->
  starts_with xs a -> starts_with fs fa -> x < a ->
  interp_value xs fs left right x = match left with Some v => v | None => fa end.
Proof.
  intros _ Ha Hf Hx. apply starts_inv in Ha as (xs' & ->). apply starts_inv in Hf as (fs' & ->).
  unfold interp_value; cbn [combine]. rewrite ltb_true by exact Hx. reflexivity.
Qed.

Lemma value_last xs fs left right b fb : nondecreasing xs -> length xs = length fs ->
  ends_with xs b -> ends_with fs fb -> interp_value xs fs left right b = fb.
Proof.
  intros Hs Hl Hb Hf.
  destruct xs as [|x0 xs]; [discriminate|]. destruct fs as [|f0 fs]; [discriminate|].
  assert (Hl' : length xs = length fs) by (cbn in Hl; lia).
  pose proof (ends_fun _ _ _ Hb (ends_last x0 xs)) as ->.
  pose proof (ends_fun _ _ _ Hf (ends_last f0 fs)) as ->.
  unfold interp_value; cbn [combine].
  assert (Hge : x0 <= last xs x0).
  { apply (nondecreasing_le _ Hs 0 (length (x0 :: xs) - 1)); [cbn; lia|reflexivity|apply ends_last]. }
  rewrite ltb_false by exact Hge. rewrite scan_past.
  - rewrite map_fst_combine by exact Hl'. rewrite ltb_false by lra.
    rewrite last_value_last, map_snd_combine by exact Hl'. reflexivity.
  - cbn [map fst]. rewrite map_fst_combine by exact Hl'. exact Hs.
  - rewrite map_fst_combine by exact Hl'. lra.
Qed.

Lemma value_right xs fs left right x b fb : nondecreasing xs -> length xs = length fs ->
  ends_with xs b -> ends_with fs fb -> b < x ->
  interp_value xs fs left right x = match right with Some v => v | None => fb end.
Proof.
  intros Hs Hl Hb Hf Hx.
  destruct xs as [|x0 xs]; [discriminate|]. destruct fs as [|f0 fs]; [discriminate|].
  assert (Hl' : length xs = length fs) by (cbn in Hl; lia).
  pose proof (ends_fun _ _ _ Hb (ends_last x0 xs)) as ->.
  pose proof (ends_fun _ _ _ Hf (ends_last f0 fs)) as ->.
  unfold interp_value; cbn [combine].
  assert (Hge : x0 <= last xs x0).
  { apply (nondecreasing_le _ Hs 0 (length (x0 :: xs) - 1)); [cbn; lia|reflexivity|apply ends_last]. }
  rewrite ltb_false by lra. rewrite scan_past.
  - rewrite map_fst_combine by exact Hl'. rewrite ltb_true by lra.
    rewrite last_value_last, map_snd_combine by exact Hl'. reflexivity.
  - cbn [map fst]. rewrite map_fst_combine by exact Hl'. exact Hs.
  - rewrite map_fst_combine by exact Hl'. lra.
Qed.

Lemma value_segment xs fs left right i a b fa fb x :
  nondecreasing xs -> length xs = length fs ->
  nth_error xs i = Some a -> nth_error xs (S i) = Some b ->
  nth_error fs i = Some fa -> nth_error fs (S i) = Some fb ->
  a <= x < b ->
  interp_value xs fs left right x = (fb - fa) / (b - a) * (x - a) + fa.
Proof.
  intros Hs Hl Ha Hb Hfa Hfb Hx.
  destruct xs as [|x0 xs]; [destruct i; discriminate|].
  destruct fs as [|f0 fs]; [discriminate|].
  assert (Hl' : length xs = length fs) by (cbn in Hl; lia).
  unfold interp_value; cbn [combine].
  assert (Hge : x0 <= a) by (apply (nondecreasing_le _ Hs 0 i); [lia|reflexivity|exact Ha]).
  rewrite ltb_false by lra.
  apply scan_segment with i; auto.
  - cbn [map fst]. rewrite map_fst_combine by exact Hl'. exact Hs.
  - change ((x0, f0) :: combine xs fs) with (combine (x0 :: xs) (f0 :: fs)).
    rewrite nth_error_combine, Ha, Hfa; reflexivity.
  - change ((x0, f0) :: combine xs fs) with (combine (x0 :: xs) (f0 :: fs)).
    rewrite nth_error_combine, Hb, Hfb; reflexivity.
Qed.

Lemma nth_error_same {A B} (xs : list A) (fs : list B) i a : length xs = length fs ->
  nth_error xs i = Some a -> exists f, nth_error fs i = Some f.
Proof.
  intros Hl H. destruct (nth_error fs i) as [f|] eqn:E; [eauto|].
  apply nth_error_None in E. assert (nth_error xs i <> None) as N by congruence.
  apply nth_error_Some in N. lia.
Qed.

Lemma value_through xs fs left right : increasing xs -> length xs = length fs ->
  passes_through (interp_value xs fs left right) xs fs.
Proof.
  intros Hs Hl i a fa Ha Hfa.
  destruct (nth_error xs (S i)) as [b|] eqn:Hb.
  - destruct (nth_error_same _ _ _ _ Hl Hb) as (fb & Hfb).
    pose proof (Hs _ _ _ Ha Hb).
    rewrite (value_segment xs fs left right i a b fa fb);
      auto using increasing_nondecreasing; [|lra].
    field; lra.
  - apply nth_error_None in Hb.
    assert (L : (i < length xs)%nat) by (apply nth_error_Some; congruence).
    assert (i = length xs - 1)%nat by lia; subst i.
    apply value_last; auto using increasing_nondecreasing.
    unfold ends_with; rewrite <- Hl; exact Hfa.
Qed.

Lemma value_interpolates xs fs left right : increasing xs -> length xs = length fs ->
  interpolates (interp_value xs fs left right) xs fs.
Proof.
  intros Hs Hl i a b fa fb x Ha Hb Hfa Hfb Hx.
  pose proof (Hs _ _ _ Ha Hb).
  destruct (Req_dec x b) as [->|Hne].
  - rewrite (value_through xs fs left right Hs Hl _ _ _ Hb Hfb). ring.
  - rewrite (value_segment xs fs left right i a b fa fb);
      auto using increasing_nondecreasing; [|lra]. field; lra.
Qed.

(** ** Integration *)
Lemma integral_affine g a b : a <= b ->
  (forall x, a <= x <= b -> g x * (b - a) = g a * (b - x) + g b * (x - a)) ->
  is_RInt g a b ((g b + g a) * (1 / 2) * (b - a)).
Proof.
  intros Hab H. destruct (Req_dec a b) as [->|Hne].
  - replace ((g b + g b) * (1 / 2) * (b - b)) with 0 by ring. apply (is_RInt_point g b).
  - set (s := (g b - g a) / (b - a)).
    apply (is_RInt_ext (fun x => g a + s * (x - a))).
    + intros x Hx. rewrite Rmin_left, Rmax_right in Hx by lra.
      apply Rmult_eq_reg_r with (b - a); [|lra].
      rewrite H by lra. unfold s; field; lra.
    + replace ((g b + g a) * (1 / 2) * (b - a))
        with (minus (g a * b + s * ((b - a) * (b - a) / 2)) (g a * a + s * ((a - a) * (a - a) / 2))).
      * apply (is_RInt_derive (fun x => g a * x + s * ((x - a) * (x - a) / 2))
                 (fun x => g a + s * (x - a))).
        -- intros x _. auto_derive; [exact I|]. field.
        -- intros x _. apply (@ex_derive_continuous R_AbsRing R_NormedModule).
           auto_derive. exact I.
      * unfold minus, plus, opp; cbn. unfold s; field; lra.
Qed.

Lemma interpolates_tail g x0 f0 xs fs :
  interpolates g (x0 :: xs) (f0 :: fs) -> interpolates g xs fs.
Proof. intros H i; apply (H (S i)). Qed.
Lemma through_tail g x0 f0 xs fs :
  passes_through g (x0 :: xs) (f0 :: fs) -> passes_through g xs fs.
Proof. intros H i; apply (H (S i)). Qed.

Lemma segment_integral g x0 f0 x1 f1 xs fs : increasing (x0 :: x1 :: xs) ->
  interpolates g (x0 :: x1 :: xs) (f0 :: f1 :: fs) ->
  passes_through g (x0 :: x1 :: xs) (f0 :: f1 :: fs) ->
  is_RInt g x0 x1 ((f1 + f0) * (1 / 2) * (x1 - x0)).
Proof.
  intros Hs Hi Hp.
  pose proof (Hs 0%nat x0 x1 eq_refl eq_refl).
  pose proof (Hp 0%nat x0 f0 eq_refl eq_refl) as E0.
  pose proof (Hp 1%nat x1 f1 eq_refl eq_refl) as E1.
  rewrite <- E0, <- E1. apply integral_affine; [lra|].
  intros x Hx. rewrite E0, E1. apply (Hi 0%nat); auto.
Qed.

Lemma cumulative_integral g xs : forall fs acc k a b c,
  increasing xs -> length xs = length fs -> interpolates g xs fs -> passes_through g xs fs ->
  starts_with xs a -> nth_error xs k = Some b ->
  nth_error (cumulative_sum acc (trapezoids (combine xs fs))) k = Some c ->
  is_RInt g a b (c - acc).
Proof.
  induction xs as [|x0 xs IH]; intros fs acc k a b c Hs Hl Hi Hp Ha Hb Hc; [discriminate|].
  injection Ha as <-. destruct fs as [|f0 fs]; [discriminate|].
  destruct k as [|k].
  - injection Hb as <-. assert (c = acc).
    { destruct xs, fs; cbn in Hc; congruence. }
    subst c. replace (acc - acc) with 0 by ring. apply (is_RInt_point g x0).
  - destruct xs as [|x1 xs]; [destruct k; discriminate|]. destruct fs as [|f1 fs]; [discriminate|].
    cbn [combine trapezoids cumulative_sum] in Hc. cbn [nth_error] in Hb, Hc.
    set (t := (f1 + f0) * (1 / 2) * (x1 - x0)) in *.
    pose proof (segment_integral g x0 f0 x1 f1 xs fs Hs Hi Hp) as H1. fold t in H1.
    assert (H2 : is_RInt g x1 b (c - (acc + t))).
    { apply (IH (f1 :: fs) (acc + t) k); auto.
      - eapply increasing_tail; eassumption.
      - eapply interpolates_tail; eassumption.
      - eapply through_tail; eassumption.
      - reflexivity. }
    replace (c - acc) with (plus t (c - (acc + t))).
    + exact (is_RInt_Chasles (V := R_NormedModule) g x0 x1 b t (c - (acc + t)) H1 H2).
    + unfold plus; cbn; ring.
Qed.

Lemma cumulative_length acc l : length (cumulative_sum acc l) = S (length l).
Proof. revert acc; induction l; intros; cbn; [reflexivity|]. rewrite IHl; reflexivity. Qed.

Lemma trapezoids_length pts : length (trapezoids pts) = (length pts - 1)%nat.
Proof.
  induction pts as [|(x0, f0) pts IH]; [reflexivity|].
  destruct pts as [|(x1, f1) pts]; [reflexivity|].
  cbn [trapezoids length] in *. rewrite IH. lia.
Qed.

Lemma cumulative_last acc l :
  nth_error (cumulative_sum acc l) (length l) = Some (acc + total l).
Proof.
  revert acc; induction l as [|a l IH]; intros acc; cbn [cumulative_sum length nth_error total].
  - f_equal; ring.
  - rewrite IH. f_equal; ring.
Qed.

Lemma trapezoids_integral g xs fs a b :
  increasing xs -> length xs = length fs -> interpolates g xs fs -> passes_through g xs fs ->
  starts_with xs a -> ends_with xs b ->
  is_RInt g a b (total (trapezoids (combine xs fs))).
Proof.
  intros Hs Hl Hi Hp Ha Hb.
  replace (total (trapezoids (combine xs fs)))
    with ((0 + total (trapezoids (combine xs fs))) - 0) by ring.
  eapply cumulative_integral with (xs := xs) (fs := fs); try eassumption.
  rewrite <- (cumulative_last 0 (trapezoids (combine xs fs))). f_equal.
  rewrite trapezoids_length, combine_length, <- Hl. rewrite Nat.min_id. reflexivity.
Qed.

Lemma cumulative_monotone acc l : (forall a, In a l -> 0 <= a) ->
  nondecreasing (cumulative_sum acc l).
Proof.
  revert acc; induction l as [|a l IH]; intros acc H i c d Hc Hd.
  - destruct i as [|i]; [discriminate|destruct i; discriminate].
  - cbn [cumulative_sum] in Hc, Hd. destruct i as [|i].
    + injection Hc as <-. assert (d = acc + a) by (destruct l; cbn in Hd; congruence).
      subst. pose proof (H a (or_introl eq_refl)). lra.
    + apply (IH (acc + a) ltac:(intros; apply H; right; assumption) i c d Hc Hd).
Qed.

Lemma trapezoids_nonneg xs fs : nondecreasing xs -> length xs = length fs ->
  (forall f, In f fs -> 0 <= f) -> forall t, In t (trapezoids (combine xs fs)) -> 0 <= t.
Proof.
  revert fs; induction xs as [|x0 xs IH]; intros fs Hs Hl Hf t Ht; [contradiction|].
  destruct fs as [|f0 fs]; [discriminate|].
  destruct xs as [|x1 xs]; [destruct fs; contradiction|].
  destruct fs as [|f1 fs]; [discriminate|].
  cbn [combine trapezoids] in Ht. destruct Ht as [<-|Ht].
  - pose proof (Hs 0%nat x0 x1 eq_refl eq_refl).
    pose proof (Hf f0 (or_introl eq_refl)). pose proof (Hf f1 (or_intror (or_introl eq_refl))).
    apply Rmult_le_pos; lra.
  - apply (IH (f1 :: fs)); auto.
    + eapply nondecreasing_tail; eassumption.
    + intros f Hin; apply Hf; right; exact Hin.
Qed.

(** The interval of a grid that contains a given point. *)
Lemma locate xs : forall a b x, increasing xs -> starts_with xs a -> ends_with xs b ->
  a <= x < b -> exists i c d, nth_error xs i = Some c /\ nth_error xs (S i) = Some d /\ c <= x < d.
Proof.
  induction xs as [|x0 xs IH]; intros a b x Hs Ha Hb Hx; [discriminate|].
  injection Ha as <-. destruct xs as [|x1 xs].
  - injection Hb as <-. lra.
  - destruct (Rlt_dec x x1) as [L|L].
    + exists 0%nat, x0, x1. repeat split; lra.
    + destruct (IH x1 b x) as (i & c & d & Hc & Hd & Hcd).
      * eapply increasing_tail; eassumption.
      * reflexivity.
      * unfold ends_with in *. cbn [length] in *.
        replace (S (S (length xs)) - 1)%nat with (S (S (length xs) - 1)) in Hb by lia. exact Hb.
      * lra.
      * exists (S i), c, d. auto.
Qed.

(** Between two points that have no node strictly in between, an
    interpolating function is affine. *)
Lemma affine_between g xs fs a b y z : increasing xs -> length xs = length fs ->
  interpolates g xs fs -> starts_with xs a -> ends_with xs b ->
  a <= y -> y < z -> z <= b -> (forall x, In x xs -> y < x -> z <= x) ->
  forall t, y <= t <= z -> g t * (z - y) = g y * (z - t) + g z * (t - y).
Proof.
  intros Hs Hl Hi Ha Hb Hay Hyz Hzb Hno t Ht.
  destruct (locate xs a b y Hs Ha Hb ltac:(lra)) as (i & c & d & Hc & Hd & Hcd).
  destruct (nth_error_same _ _ _ _ Hl Hc) as (fc & Hfc).
  destruct (nth_error_same _ _ _ _ Hl Hd) as (fd & Hfd).
  assert (z <= d) by (apply Hno; [eapply nth_error_In; eassumption|lra]).
  pose proof (Hi _ _ _ _ _ y Hc Hd Hfc Hfd ltac:(lra)) as Ey.
  pose proof (Hi _ _ _ _ _ z Hc Hd Hfc Hfd ltac:(lra)) as Ez.
  pose proof (Hi _ _ _ _ _ t Hc Hd Hfc Hfd ltac:(lra)) as Et.
  apply Rmult_eq_reg_r with (d - c); [|lra].
  replace (g t * (z - y) * (d - c)) with ((g t * (d - c)) * (z - y)) by ring.
  replace ((g y * (z - t) + g z * (t - y)) * (d - c))
    with ((g y * (d - c)) * (z - t) + (g z * (d - c)) * (t - y)) by ring.
  rewrite Ey, Ez, Et. ring.
Qed.

Lemma increasing_gap ys i y z x : increasing ys -> nth_error ys i = Some y ->
  nth_error ys (S i) = Some z -> In x ys -> y < x -> z <= x.
Proof.
  intros Hs Hy Hz Hx Hlt. apply In_nth_error in Hx as (k & Hk).
  destruct (Nat.le_gt_cases k i) as [L|L].
  - pose proof (nondecreasing_le _ (increasing_nondecreasing _ Hs) _ _ _ _ L Hk Hy). lra.
  - apply (nondecreasing_le _ (increasing_nondecreasing _ Hs) (S i) k); auto.
Qed.

Lemma ends_max ys b : increasing ys -> ends_with ys b -> forall y, In y ys -> y <= b.
Proof.
  intros Hs Hb y Hy. apply In_nth_error in Hy as (k & Hk).
  apply (nondecreasing_le _ (increasing_nondecreasing _ Hs) k (length ys - 1)); auto.
  assert (k < length ys)%nat by (apply nth_error_Some; congruence). lia.
Qed.
Lemma starts_min ys a : increasing ys -> starts_with ys a -> forall y, In y ys -> a <= y.
Proof.
  intros Hs Ha y Hy. apply In_nth_error in Hy as (k & Hk).
  apply (nondecreasing_le _ (increasing_nondecreasing _ Hs) 0 k); auto. lia.
Qed.

(** A grid that contains the nodes in its own range interpolates the
    same function. *)
Lemma refined_interpolates g xs fs ys a b y0 yn : increasing xs -> length xs = length fs ->
  interpolates g xs fs -> starts_with xs a -> ends_with xs b ->
  increasing ys -> starts_with ys y0 -> ends_with ys yn -> a <= y0 -> yn <= b ->
  (forall x, In x xs -> y0 <= x <= yn -> In x ys) ->
  interpolates g ys (map g ys).
Proof.
  intros Hs Hl Hi Ha Hb Hy Hy0 Hyn H0 Hn Hsub i y z fy fz t Ey Ez Efy Efz Ht.
  rewrite (map_nth_error g _ _ Ey) in Efy. injection Efy as <-.
  rewrite (map_nth_error g _ _ Ez) in Efz. injection Efz as <-.
  pose proof (Hy _ _ _ Ey Ez) as Hyz.
  pose proof (starts_min _ _ Hy Hy0 y (nth_error_In _ _ Ey)).
  pose proof (ends_max _ _ Hy Hyn z (nth_error_In _ _ Ez)).
  apply (affine_between g xs fs a b); auto; try lra.
  intros x Hx Hlt. destruct (Rle_dec x yn) as [L|L]; [|lra].
  apply (increasing_gap ys i y z x); auto. apply Hsub; auto. lra.
Qed.

Lemma through_map g ys : passes_through g ys (map g ys).
Proof. intros i a fa Ha Hfa. rewrite (map_nth_error g _ _ Ha) in Hfa. congruence. Qed.

Lemma refined_integral g xs fs ys a b y0 yn : increasing xs -> length xs = length fs ->
  interpolates g xs fs -> starts_with xs a -> ends_with xs b ->
  increasing ys -> starts_with ys y0 -> ends_with ys yn -> a <= y0 -> yn <= b ->
  (forall x, In x xs -> y0 <= x <= yn -> In x ys) ->
  is_RInt g y0 yn (total (trapezoids (combine ys (map g ys)))).
Proof.
  intros. apply trapezoids_integral; auto.
  - rewrite map_length; reflexivity.
  - eapply refined_interpolates with (xs := xs) (fs := fs); eauto.
  - apply through_map.
Qed.

Lemma integral_unique (g : R -> R) a b v w : is_RInt g a b v -> is_RInt g a b w -> v = w.
Proof.
  intros Hv Hw. rewrite <- (is_RInt_unique _ _ _ _ Hv). apply is_RInt_unique; exact Hw.
Qed.

(** ** Unions of grids *)
Lemma insert_In a l x : In x (insert a l) <-> x = a \/ In x l.
Proof.
  induction l as [|b l IH]; cbn [insert].
  - cbn; intuition auto.
  - destruct (ltb a b) eqn:E1; [cbn; intuition auto|].
    destruct (ltb b a) eqn:E2.
    + cbn [In]. rewrite IH. intuition auto.
    + assert (a = b).
      { destruct (Rtotal_order a b) as [L|[E|L]]; [|exact E|].
        - rewrite (ltb_true _ _ L) in E1; discriminate.
        - rewrite (ltb_true _ _ L) in E2; discriminate. }
      subst. cbn; intuition auto.
Qed.

Lemma insert_increasing a l : increasing l -> increasing (insert a l).
Proof.
  induction l as [|b l IH]; intros H; cbn [insert].
  - intros [|i] c d; [discriminate|destruct i; discriminate].
  - destruct (ltb a b) eqn:E1.
    + apply ltb_iff in E1. apply increasing_cons; auto.
      intros c [<-|Hc]; [exact E1|]. pose proof (increasing_first _ _ H c Hc). lra.
    + destruct (ltb b a) eqn:E2; [|exact H].
      apply ltb_iff in E2. apply increasing_cons.
      * intros c Hc. apply insert_In in Hc as [->|Hc]; [exact E2|].
        apply (increasing_first _ _ H); exact Hc.
      * apply IH. eapply increasing_tail; eassumption.
Qed.

Lemma increasing_nil : increasing [].
Proof. intros [|i]; discriminate. Qed.

Lemma union1d_In a b x : In x (union1d a b) <-> In x a \/ In x b.
Proof.
  unfold union1d. rewrite <- in_app_iff. induction (a ++ b) as [|c l IH]; cbn; [reflexivity|].
  rewrite insert_In, IH. intuition auto.
Qed.

Lemma union1d_increasing a b : increasing (union1d a b).
Proof.
  unfold union1d. induction (a ++ b) as [|c l IH]; cbn; [apply increasing_nil|].
  apply insert_increasing; exact IH.
Qed.

Lemma between_In lo hi l x : In x (between lo hi l) <-> In x l /\ lo <= x <= hi.
Proof. unfold between. rewrite filter_In, andb_true_iff, !leb_iff. intuition auto. Qed.
