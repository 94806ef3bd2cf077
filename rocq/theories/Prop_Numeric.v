(** Linear interpolation and trapezoidal integration. *)
From Coq Require Import Reals Lra.
From Coquelicot Require Import Coquelicot.
From Verif Require Import Base Model_Numeric Spec_Numeric Proof_Numeric.
Local Open Scope R_scope.

(** C29 *)

(** On a strictly increasing grid [interp] evaluates the piecewise
    linear function through the samples, and [left]/[right] (or the end
    values) outside. *)
Theorem interp_contract xs fs left right :
  increasing xs -> length xs = length fs -> xs <> [] ->
  exists g,
    (forall x, interp x xs fs left right = Ok (g x)) /\
    interpolates g xs fs /\ passes_through g xs fs /\
    (forall x a fa, starts_with xs a -> starts_with fs fa -> x < a ->
       g x = match left with Some v => v | None => fa end) /\
    (forall x b fb, ends_with xs b -> ends_with fs fb -> b < x ->
       g x = match right with Some v => v | None => fb end).
Proof.
  intros Hs Hl Hne. exists (interp_value xs fs left right). repeat split.
  - intros x. apply interp_ok; assumption.
  - apply value_interpolates; assumption.
  - apply value_through; assumption.
  - intros x a fa Ha Hf Hx. apply (value_left xs fs left right x a fa); assumption.
  - intros x b fb Hb Hf Hx. apply (value_right xs fs left right x b fb); auto.
    apply increasing_nondecreasing; assumption.
Qed.
Print Assumptions interp_contract.

(** Three samples, three abscissae: inside, at a node, to the right. *)
Example interp_example :
  interp (3 / 2) [0; 1; 3] [0; 2; 8] None None = Ok (7 / 2) /\
  interp 1 [0; 1; 3] [0; 2; 8] None None = Ok 2 /\
  interp 4 [0; 1; 3] [0; 2; 8] (Some 5) (Some 0) = Ok 0 /\
  interp 4 [0; 1; 3] [0; 2; 8] None None = Ok 8.
Proof.
  assert (Hs : increasing [0; 1; 3]).
  { repeat (apply increasing_two; [lra|]). apply increasing_one. }
  assert (H : forall l r, exists g, (forall x, interp x [0; 1; 3] [0; 2; 8] l r = Ok (g x)) /\
    interpolates g [0; 1; 3] [0; 2; 8] /\ passes_through g [0; 1; 3] [0; 2; 8] /\
    (forall x b fb, ends_with [0; 1; 3] b -> ends_with [0; 2; 8] fb -> b < x ->
       g x = match r with Some v => v | None => fb end)).
  { intros l r. destruct (interp_contract [0; 1; 3] [0; 2; 8] l r Hs eq_refl ltac:(discriminate))
      as (g & H1 & H2 & H3 & _ & H5). exists g; auto. }
  repeat split.
  - destruct (H None None) as (g & -> & Hi & _). f_equal.
    pose proof (Hi 1%nat 1 3 2 8 (3 / 2) eq_refl eq_refl eq_refl eq_refl ltac:(lra)). lra.
  - destruct (H None None) as (g & -> & _ & Hp & _). f_equal. apply (Hp 1%nat); reflexivity.
  - destruct (H (Some 5) (Some 0)) as (g & -> & _ & _ & Hr). f_equal.
    apply (Hr 4 3 8); [reflexivity|reflexivity|lra].
  - destruct (H None None) as (g & -> & _ & _ & Hr). f_equal.
    apply (Hr 4 3 8); [reflexivity|reflexivity|lra].
Qed.

(** The result lies between the two neighbouring samples. *)
Theorem interp_between_samples xs fs left right i a b fa fb x v :
  increasing xs -> length xs = length fs ->
  nth_error xs i = Some a -> nth_error xs (S i) = Some b ->
  nth_error fs i = Some fa -> nth_error fs (S i) = Some fb ->
  a <= x <= b -> interp x xs fs left right = Ok v ->
  Rmin fa fb <= v <= Rmax fa fb.
Proof.
  intros Hs Hl Ha Hb Hfa Hfb Hx Hv.
  assert (Hne : xs <> []) by (intros ->; destruct i; discriminate).
  rewrite (interp_ok _ _ _ _ _ Hl Hne) in Hv. injection Hv as <-.
  pose proof (Hs _ _ _ Ha Hb) as Hab.
  pose proof (value_interpolates xs fs left right Hs Hl _ _ _ _ _ _ Ha Hb Hfa Hfb Hx) as E.
  set (v := interp_value xs fs left right x) in *.
  pose proof (Rmin_l fa fb). pose proof (Rmin_r fa fb).
  pose proof (Rmax_l fa fb). pose proof (Rmax_r fa fb).
  assert (E1 : Rmin fa fb * (b - a) <= v * (b - a)).
  { rewrite E. replace (Rmin fa fb * (b - a))
      with (Rmin fa fb * (b - x) + Rmin fa fb * (x - a)) by ring.
    apply Rplus_le_compat; apply Rmult_le_compat_r; lra. }
  assert (E2 : v * (b - a) <= Rmax fa fb * (b - a)).
  { rewrite E. replace (Rmax fa fb * (b - a))
      with (Rmax fa fb * (b - x) + Rmax fa fb * (x - a)) by ring.
    apply Rplus_le_compat; apply Rmult_le_compat_r; lra. }
  split; [apply Rmult_le_reg_r with (b - a)|apply Rmult_le_reg_r with (b - a)]; lra.
Qed.
Print Assumptions interp_between_samples.

(** [c * o1 + d * o2] for optional fill values that are both given or
    both absent. *)
Definition fill_combination (c d : R) (o1 o2 o3 : option R) : Prop :=
  match o1, o2, o3 with
  | None, None, None => True
  | Some u, Some v, Some w => w = c * u + d * v
  | _, _, _ => False
  end.

(** Interpolation is linear in the sampled values, on any grid. *)
Theorem interp_linear c d x xs fs hs l1 l2 l3 r1 r2 r3 u v :
  length fs = length hs ->
  fill_combination c d l1 l2 l3 -> fill_combination c d r1 r2 r3 ->
  interp x xs fs l1 r1 = Ok u -> interp x xs hs l2 r2 = Ok v ->
  interp x xs (map (fun p => c * fst p + d * snd p) (combine fs hs)) l3 r3
  = Ok (c * u + d * v).
Proof.
  intros Hl HL HR Hu Hv.
  assert (E : length xs = length fs).
  { unfold interp in Hu. destruct (Nat.eqb (length xs) (length fs)) eqn:E; [|discriminate].
    apply Nat.eqb_eq; exact E. }
  assert (Hne : xs <> []).
  { intros ->. destruct fs; discriminate. }
  rewrite (interp_ok _ _ _ _ _ E Hne) in Hu. injection Hu as <-.
  rewrite (interp_ok _ _ _ _ _ (eq_trans E Hl) Hne) in Hv. injection Hv as <-.
  rewrite interp_ok; [|rewrite map_length, combine_length, <- Hl, Nat.min_id; exact E|exact Hne].
  f_equal. unfold interp_value.
  destruct xs as [|x0 xs]; [contradiction|]. destruct fs as [|f0 fs]; [discriminate|].
  destruct hs as [|h0 hs]; [discriminate|]. cbn [combine map fst snd].
  injection E as E. injection Hl as Hl.
  assert (HV : forall f0 h0, last_value (c * f0 + d * h0)
      (combine xs (map (fun p => c * fst p + d * snd p) (combine fs hs)))
      = c * last_value f0 (combine xs fs) + d * last_value h0 (combine xs hs)).
  { clear HL HR Hne. revert fs hs E Hl. induction xs as [|x1 xs IH]; intros fs hs E Hl f1 h1.
    - reflexivity.
    - destruct fs as [|f2 fs]; [discriminate|]. destruct hs as [|h2 hs]; [discriminate|].
      cbn. apply IH; cbn in *; lia. }
  destruct (ltb x x0).
  - destruct l1, l2, l3; cbn in HL; try contradiction; [exact HL|reflexivity].
  - assert (HS : forall R1 R2 R3, R3 = c * R1 + d * R2 -> forall x0 f0 h0,
      interp_scan x0 (c * f0 + d * h0)
        (combine xs (map (fun p => c * fst p + d * snd p) (combine fs hs))) R3 x
      = c * interp_scan x0 f0 (combine xs fs) R1 x
        + d * interp_scan x0 h0 (combine xs hs) R2 x).
    { intros R1 R2 R3 HR3. clear HL HR Hne HV. revert fs hs E Hl.
      induction xs as [|x1 xs IH]; intros fs hs E Hl x2 f2 h2.
      - cbn. destruct (ltb x2 x); [exact HR3|reflexivity].
      - destruct fs as [|f3 fs]; [discriminate|]. destruct hs as [|h3 hs]; [discriminate|].
        cbn [combine map fst snd interp_scan]. destruct (leb x1 x).
        + apply IH; cbn in *; lia.
        + unfold Rdiv; ring. }
    apply HS. destruct r1, r2, r3; cbn in HR; try contradiction; [exact HR|apply HV].
Qed.
Print Assumptions interp_linear.

Example interp_linear_example :
  interp (1 / 2) [0; 1] [2; 4] (Some 0) None = Ok 3 /\
  interp (-1) [0; 1] [2; 4] (Some 0) None = Ok 0.
Proof.
  split.
  - unfold interp; cbn. rewrite ltb_false, leb_false by lra. f_equal; field.
  - unfold interp; cbn. rewrite ltb_true by lra. reflexivity.
Qed.

(** Samples of different lengths, or none, are rejected. *)
Theorem interp_rejects x xs fs left right :
  interp x xs fs left right = Err ValueError <-> length xs <> length fs \/ xs = [].
Proof.
  split; [|apply interp_err].
  intro H. destruct (Nat.eq_dec (length xs) (length fs)) as [E|E]; [|left; exact E].
  destruct xs as [|x0 xs]; [right; reflexivity|].
  rewrite interp_ok in H by (auto; discriminate). discriminate.
Qed.
Print Assumptions interp_rejects.

Example interp_rejects_example : interp 1 [0; 1] [2] None None = Err ValueError.
Proof. reflexivity. Qed.

(** C30 *)

(** The trapezoidal rule is the exact integral of the piecewise linear
    function that [interp] evaluates. *)
Theorem trapezoid_is_integral xs fs a b :
  increasing xs -> length xs = length fs -> starts_with xs a -> ends_with xs b ->
  exists v g, trapezoid fs xs = Ok v /\
    (forall x, interp x xs fs None None = Ok (g x)) /\ integral g a b v.
Proof.
  intros Hs Hl Ha Hb.
  assert (Hne : xs <> []) by (intros ->; discriminate).
  exists (total (trapezoids (combine xs fs))), (interp_value xs fs None None).
  repeat split.
  - unfold trapezoid. rewrite <- Hl, Nat.eqb_refl. reflexivity.
  - intros x; apply interp_ok; assumption.
  - apply trapezoids_integral; auto; [apply value_interpolates|apply value_through]; assumption.
Qed.
Print Assumptions trapezoid_is_integral.

Example trapezoid_example : trapezoid [0; 2; 8] [0; 1; 3] = Ok 11.
Proof. unfold trapezoid; cbn. f_equal; lra. Qed.

(** Entry [j] of the cumulative integral minus entry [i] is the integral
    between the two nodes; so it starts at zero, is additive, and ends at
    the trapezoidal rule. *)
Theorem cumulative_trapezoid_additive xs fs :
  increasing xs -> length xs = length fs -> xs <> [] ->
  exists cs g v, cumulative_trapezoid fs xs = Ok cs /\ length cs = length xs /\
    (forall x, interp x xs fs None None = Ok (g x)) /\
    trapezoid fs xs = Ok v /\ starts_with cs 0 /\ ends_with cs v /\
    forall i j a b ca cb, nth_error xs i = Some a -> nth_error xs j = Some b ->
      nth_error cs i = Some ca -> nth_error cs j = Some cb ->
      integral g a b (cb - ca).
Proof.
  intros Hs Hl Hne.
  exists (cumulative_sum 0 (trapezoids (combine xs fs))), (interp_value xs fs None None),
    (total (trapezoids (combine xs fs))).
  assert (Hn : length (trapezoids (combine xs fs)) = (length xs - 1)%nat).
  { rewrite trapezoids_length, combine_length, <- Hl, Nat.min_id; reflexivity. }
  assert (Hpos : (length xs > 0)%nat) by (destruct xs; [contradiction|cbn; lia]).
  assert (Hc : length (cumulative_sum 0 (trapezoids (combine xs fs))) = length xs).
  { rewrite cumulative_length, Hn. lia. }
  repeat split.
  - unfold cumulative_trapezoid. rewrite <- Hl, Nat.eqb_refl. reflexivity.
  - exact Hc.
  - intros x; apply interp_ok; assumption.
  - unfold trapezoid. rewrite <- Hl, Nat.eqb_refl. reflexivity.
  - unfold starts_with. destruct (trapezoids (combine xs fs)); reflexivity.
  - unfold ends_with. rewrite Hc, <- Hn, cumulative_last. f_equal; ring.
  - intros i j a b ca cb Ha Hb Hca Hcb. unfold integral.
    destruct xs as [|x0 xs]; [contradiction|].
    pose proof (value_interpolates _ fs None None Hs Hl) as Hi.
    pose proof (value_through _ fs None None Hs Hl) as Hp.
    pose proof (cumulative_integral _ _ fs 0 i x0 a ca Hs Hl Hi Hp eq_refl Ha Hca) as I1.
    pose proof (cumulative_integral _ _ fs 0 j x0 b cb Hs Hl Hi Hp eq_refl Hb Hcb) as I2.
    pose proof (is_RInt_Chasles (V := R_NormedModule) _ a x0 b _ _
                  (is_RInt_swap (V := R_NormedModule) _ _ _ _ I1) I2) as I3.
    unfold plus, opp in I3; cbn in I3.
    replace (cb - ca) with (- (ca - 0) + (cb - 0)) by ring. exact I3.
Qed.
Print Assumptions cumulative_trapezoid_additive.

(** Non-negative samples give a non-decreasing cumulative integral. *)
Theorem cumulative_trapezoid_monotone xs fs cs :
  increasing xs -> (forall f, In f fs -> 0 <= f) ->
  cumulative_trapezoid fs xs = Ok cs -> nondecreasing cs.
Proof.
  intros Hs Hf H. unfold cumulative_trapezoid in H.
  destruct (Nat.eqb (length fs) (length xs)) eqn:E; [|discriminate].
  apply Nat.eqb_eq in E. injection H as <-.
  apply cumulative_monotone. apply trapezoids_nonneg; auto using increasing_nondecreasing.
Qed.
Print Assumptions cumulative_trapezoid_monotone.

Example cumulative_example : cumulative_trapezoid [0; 2; 8] [0; 1; 3] = Ok [0; 1; 11].
Proof. unfold cumulative_trapezoid; cbn. f_equal. f_equal; f_equal; [lra|f_equal; lra]. Qed.

(** Adding nodes whose values are interpolated does not change the
    integral. *)
Theorem trapezoid_refinement xs fs ys a b vs :
  increasing xs -> length xs = length fs -> starts_with xs a -> ends_with xs b ->
  increasing ys -> starts_with ys a -> ends_with ys b ->
  (forall x, In x xs -> In x ys) ->
  mapM (fun y => interp y xs fs None None) ys = Ok vs ->
  trapezoid vs ys = trapezoid fs xs.
Proof.
  intros Hs Hl Ha Hb Hy Hya Hyb Hsub Hv.
  assert (Hne : xs <> []) by (intros ->; discriminate).
  set (g := interp_value xs fs None None).
  assert (Ev : vs = map g ys).
  { rewrite (mapM_pure _ g) in Hv by (intros; apply interp_ok; assumption).
    injection Hv as <-. reflexivity. }
  subst vs. unfold trapezoid. rewrite map_length, Nat.eqb_refl, <- Hl, Nat.eqb_refl.
  f_equal. apply (integral_unique g a b).
  - apply (refined_integral g xs fs ys a b a b); auto; try lra. apply value_interpolates; assumption.
  - apply trapezoids_integral; auto; [apply value_interpolates|apply value_through]; assumption.
Qed.
Print Assumptions trapezoid_refinement.

Example trapezoid_refinement_example :
  trapezoid [0; 1; 2; 8] [0; 1 / 2; 1; 3] = trapezoid [0; 2; 8] [0; 1; 3].
Proof. unfold trapezoid; cbn. f_equal; lra. Qed.

(** Integrating the interpolant over part of its range, on a grid that
    contains the nodes in that part, gives the exact integral. *)
Theorem trapezoid_subrange xs fs ys a b y0 yn vs :
  increasing xs -> length xs = length fs -> starts_with xs a -> ends_with xs b ->
  increasing ys -> starts_with ys y0 -> ends_with ys yn -> a <= y0 -> yn <= b ->
  (forall x, In x xs -> y0 <= x <= yn -> In x ys) ->
  mapM (fun y => interp y xs fs None None) ys = Ok vs ->
  exists v g, trapezoid vs ys = Ok v /\
    (forall x, interp x xs fs None None = Ok (g x)) /\ integral g y0 yn v.
Proof.
  intros Hs Hl Ha Hb Hy Hy0 Hyn H0 Hn Hsub Hv.
  assert (Hne : xs <> []) by (intros ->; discriminate).
  set (g := interp_value xs fs None None).
  assert (Ev : vs = map g ys).
  { rewrite (mapM_pure _ g) in Hv by (intros; apply interp_ok; assumption).
    injection Hv as <-. reflexivity. }
  subst vs. exists (total (trapezoids (combine ys (map g ys)))), g. repeat split.
  - unfold trapezoid. rewrite map_length, Nat.eqb_refl. reflexivity.
  - intros x; apply interp_ok; assumption.
  - apply (refined_integral g xs fs ys a b y0 yn); auto. apply value_interpolates; assumption.
Qed.
Print Assumptions trapezoid_subrange.
