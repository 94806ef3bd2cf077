From Coq Require Import Reals Lra Psatz.
From Flocq Require Import Core.Raux.
From Coquelicot Require Import Coquelicot.
From Verif Require Import Base Model_Numeric Model_Windows Model_Galaxies Model_Observations
  Spec_Numeric Spec_Windows Spec_Galaxies Spec_Rng Spec_Observations Proof_Numeric Proof_Windows Proof_Galaxies.
Local Open Scope R_scope.

(** ** Normalisation *)
Lemma total_scale c l : total (map (fun x => x * c) l) = total l * c.
Proof. induction l as [|x l IH]; cbn [map total]; [ring|rewrite IH; ring]. Qed.

Lemma trapezoids_scale c z nz : length z = length nz ->
  trapezoids (combine z (map (fun x => x * c) nz)) = map (fun x => x * c) (trapezoids (combine z nz)).
Proof.
  revert nz. induction z as [|a z IH]; intros [|f nz] H; try discriminate; [reflexivity|].
  destruct z as [|b z], nz as [|g nz]; try discriminate; [reflexivity|].
  specialize (IH (g :: nz) ltac:(cbn in *; lia)). cbn [map combine trapezoids] in IH |- *.
  rewrite IH. f_equal. ring.
Qed.

Lemma total_scaled c z nz : length z = length nz ->
  total (trapezoids (combine z (map (fun x => x * c) nz))) = total (trapezoids (combine z nz)) * c.
Proof. intro H. rewrite trapezoids_scale, total_scale by exact H. reflexivity. Qed.

Lemma integral_of_total z nz : increasing z -> length z = length nz -> z <> [] ->
  exists g a b, interpolates g z nz /\ passes_through g z nz /\ starts_with z a /\ ends_with z b /\
    integral g a b (total (trapezoids (combine z nz))).
Proof.
  intros Hi Hl Hne. destruct z as [|a z]; [contradiction|].
  exists (interp_value (a :: z) nz None None), a, (last z a).
  pose proof (ends_last a z) as He.
  split; [apply value_interpolates; assumption|]. split; [apply value_through; assumption|].
  split; [reflexivity|]. split; [exact He|].
  apply trapezoids_integral; auto; [apply value_interpolates|apply value_through|reflexivity]; assumption.
Qed.

Lemma total_positive z nz : increasing z -> length z = length nz -> (2 <= length z)%nat ->
  (forall f, In f nz -> 0 <= f) -> (exists f, In f nz /\ 0 < f) -> 0 < total (trapezoids (combine z nz)).
Proof.
  intros Hi Hl H2 Hf (f & Hin & Hpos). apply In_nth_error in Hin as (i & Hn).
  assert (Li : (i < length z)%nat) by (rewrite Hl; apply nth_error_Some; congruence).
  destruct i as [|i].
  - apply (trapezoids_positive z nz 0 1 f); auto. apply nth_error_Some. lia.
  - apply (trapezoids_positive z nz (S i) i f); auto. apply nth_error_Some. lia.
Qed.

(** One normalised row. *)
Lemma normalise_spec (f : R -> R) z : increasing z -> (2 <= length z)%nat ->
  (forall x, In x z -> 0 <= f x) -> (exists x, In x z /\ 0 < f x) ->
  exists nz, normalise z (map f z) = Ok nz /\ forall c, normalised_to f z (map (fun y => y * c) nz) c.
Proof.
  intros Hi H2 Hf (x & Hx & Hp).
  set (t := total (trapezoids (combine z (map f z)))).
  assert (Ht : 0 < t).
  { apply total_positive; auto; [rewrite map_length; reflexivity| |].
    - intros y Hy. apply in_map_iff in Hy as (w & <- & Hw). auto.
    - exists (f x). split; [apply in_map, Hx|exact Hp]. }
  exists (map (fun y => y / t) (map f z)). split.
  - unfold normalise, trapezoid. rewrite map_length, Nat.eqb_refl. cbn [bind]. fold t.
    destruct (Req_EM_T t 0); [lra|reflexivity].
  - intro c. split.
    + exists (c / t). rewrite !map_map. apply map_ext. intro y. unfold Rdiv. ring.
    + assert (Em : map (fun y => y * c) (map (fun y => y / t) (map f z)) = map (fun y => y * (/ t * c)) (map f z)).
      { rewrite !map_map. apply map_ext. intro y. unfold Rdiv. ring. }
      rewrite Em.
      destruct (integral_of_total z (map (fun y => y * (/ t * c)) (map f z)) Hi) as (g & a & b & G1 & G2 & G3 & G4 & G5).
      * rewrite !map_length. reflexivity.
      * intros ->. cbn in H2. lia.
      * exists g, a, b. repeat (split; [assumption|]).
        rewrite total_scaled in G5 by (rewrite map_length; reflexivity). fold t in G5.
        replace (t * (/ t * c)) with c in G5 by (field; lra). exact G5.
Qed.

(** ** Bins *)
Lemma pairwise_contiguous edges a b : starts_with edges a -> ends_with edges b -> contiguous a (pairwise edges) b.
Proof.
  revert a. induction edges as [|e edges IH]; intros a Ha Hb; [discriminate|]. injection Ha as ->.
  destruct edges as [|e' edges].
  - injection Hb as ->. constructor.
  - change (pairwise (a :: e' :: edges)) with ((a, e') :: pairwise (e' :: edges)). constructor. apply IH; [reflexivity|].
    unfold ends_with in *. cbn [length] in *. replace (S (S (length edges)) - 1)%nat with (S (S (length edges) - 1)) in Hb by lia. exact Hb.
Qed.
Lemma pairwise_length {A} (l : list A) : length (pairwise l) = (length l - 1)%nat.
Proof. unfold pairwise. rewrite combine_length. destruct l; cbn [tl length]; lia. Qed.
Lemma pairwise_nth {A} (l : list A) i a b : nth_error (pairwise l) i = Some (a, b) <->
  nth_error l i = Some a /\ nth_error l (S i) = Some b.
Proof.
  unfold pairwise. rewrite nth_error_combine.
  assert (E : nth_error (tl l) i = nth_error l (S i)) by (destruct l; [destruct i|]; reflexivity).
  rewrite E. destruct (nth_error l i), (nth_error l (S i)); split; try (intros [Q1 Q2]); try (intros Q); try discriminate; congruence || (injection Q as <- <-; auto).
Qed.

(** ** Assignment to shells *)
Lemma sampled_weight_value xs fs : increasing xs -> length xs = length fs -> xs <> [] ->
  sampled_weight xs fs (interp_value xs fs (Some 0) (Some 0)).
Proof.
  intros Hs Hl Hne. split; [apply value_interpolates; assumption|]. split; [apply value_through; assumption|].
  intros x a b Ha Hb [H|H].
  - destruct (nth_error_same _ _ _ _ Hl Ha) as (fa & Hfa). apply (value_left xs fs (Some 0) (Some 0) x a fa); auto.
  - destruct (nth_error_same _ _ _ _ Hl Hb) as (fb & Hfb).
    apply (value_right xs fs (Some 0) (Some 0) x b fb); auto using increasing_nondecreasing.
    unfold ends_with. rewrite <- Hl. exact Hfb.
Qed.

Lemma total_fold l : total l = fold_right Rplus 0 l.
Proof. induction l; cbn; congruence. Qed.

Lemma fold_nonneg l : (forall x, In x l -> 0 <= x) -> 0 <= fold_right Rplus 0 l.
Proof.
  induction l as [|x l IH]; intro H; cbn; [lra|].
  specialize (IH (fun y Hy => H y (or_intror Hy))). pose proof (H x (or_introl eq_refl)). lra.
Qed.

Lemma fold_pos l x : (forall x, In x l -> 0 <= x) -> In x l -> x <> 0 -> 0 < fold_right Rplus 0 l.
Proof.
  induction l as [|y l IH]; intros H Hin Hx; [contradiction|]. cbn.
  pose proof (fold_nonneg l (fun y Hy => H y (or_intror Hy))). pose proof (H y (or_introl eq_refl)).
  destruct Hin as [->|Hin]; [lra|]. specialize (IH (fun y Hy => H y (or_intror Hy)) Hin Hx). lra.
Qed.

Lemma fold_zero {A} (l : list A) : fold_right Rplus 0 (map (fun _ => 0) l) = 0.
Proof. induction l; cbn; lra. Qed.

Lemma fold_scale {A} (f : A -> R) c l : fold_right Rplus 0 (map (fun x => f x / c) l) = fold_right Rplus 0 (map f l) / c.
Proof. induction l as [|x l IH]; cbn; [unfold Rdiv; ring|rewrite IH; unfold Rdiv; ring]. Qed.

Lemma argmax_zeros row : forall k i, (forall j x, nth_error row j = Some x -> (x <= 1)%nat) -> argmax_from 1 k i row = k.
Proof.
  induction row as [|x row IH]; intros k i H; [reflexivity|]. cbn [argmax_from].
  pose proof (H 0%nat x eq_refl). destruct (Nat.ltb_spec 1 x); [lia|]. apply IH. intros j. apply (H (S j)).
Qed.

Lemma argmax_from_event row : forall k i j, single_event row j -> argmax_from 0 k i row = (i + j)%nat.
Proof.
  induction row as [|x row IH]; intros k i j [H1 H2]; [destruct j; discriminate|]. cbn [argmax_from].
  destruct j as [|j].
  - injection H1 as ->. cbn [Nat.ltb Nat.leb]. rewrite argmax_zeros; [lia|].
    intros j x Hj. specialize (H2 (S j) x Hj ltac:(lia)). lia.
  - rewrite (H2 0%nat x eq_refl ltac:(lia)). cbn [Nat.ltb Nat.leb]. rewrite (IH k (i + 1)%nat j); [lia|].
    split; [exact H1|]. intros m y Hm Hne. apply (H2 (S m)); [exact Hm|lia].
Qed.

Lemma argmax_event row j : single_event row j -> argmax row = j.
Proof.
  intro H. destruct row as [|x row]; [destruct H as [H _]; destruct j; discriminate|]. cbn [argmax]. destruct H as [H1 H2].
  destruct j as [|j].
  - injection H1 as ->. apply argmax_zeros. intros j x Hj. specialize (H2 (S j) x Hj ltac:(lia)). lia.
  - rewrite (H2 0%nat x eq_refl ltac:(lia)). apply (argmax_from_event row 0 1 j). split; [exact H1|].
    intros m y Hm Hne. apply (H2 (S m)); [exact Hm|lia].
Qed.

Definition weight_of (w : window) : R -> R := interp_value (za w) (wa w) (Some 0) (Some 0).
Definition good_shell (w : window) : Prop :=
  increasing (za w) /\ length (za w) = length (wa w) /\ za w <> [] /\ forall f, In f (wa w) -> 0 <= f.

Lemma weight_nonneg w x : good_shell w -> 0 <= weight_of w x.
Proof. intros (Hs & Hl & Hne & Hf). apply value_nonneg; assumption. Qed.

Lemma shell_weights_spec shells z : (forall w, In w shells -> good_shell w) ->
  exists row, shell_weights shells z = Ok row /\ shell_probabilities (map weight_of shells) z row /\
    length row = (length shells + 1)%nat /\
    (forall p, In p row -> 0 <= p) /\ fold_right Rplus 0 row = 1.
Proof.
  intro Hg. unfold shell_weights.
  rewrite (mapM_pure _ (fun w => weight_of w z)) by (intros w Hw; destruct (Hg w Hw) as (_ & Hl & Hne & _); apply interp_ok; assumption).
  cbn [bind]. eexists. split; [reflexivity|]. rewrite total_fold.
  set (ws := map (fun w => weight_of w z) shells).
  assert (Hp : forall x, In x ws -> 0 <= x).
  { intros x Hx. apply in_map_iff in Hx as (w & <- & Hw). apply weight_nonneg, Hg, Hw. }
  assert (Em : map (fun W : R -> R => W z) (map weight_of shells) = ws) by (rewrite map_map; reflexivity).
  destruct (Req_EM_T (fold_right Rplus 0 ws) 0) as [E|E].
  - assert (Hz : forall x, In x ws -> x = 0).
    { intros x Hx. destruct (Req_dec x 0) as [|N]; [assumption|]. pose proof (fold_pos ws x Hp Hx N). lra. }
    assert (Er : map (fun x => x / 1) ws = map (fun _ => 0) shells).
    { unfold ws. rewrite map_map. apply map_ext_in. intros w Hw. rewrite (Hz (weight_of w z)); [field|]. apply in_map_iff. exists w; auto. }
    rewrite Er. split; [left; split|split].
    + intros W HW. apply in_map_iff in HW as (w & <- & Hw). apply Hz, in_map_iff. exists w; auto.
    + rewrite map_map. reflexivity.
    + cbn. rewrite map_length. lia.
    + split; [|cbn [fold_right]; rewrite fold_zero; lra]. intros p [<-|Hin]; [lra|]. apply in_map_iff in Hin as (? & <- & _). lra.
  - assert (P : 0 < fold_right Rplus 0 ws) by (pose proof (fold_nonneg ws Hp); lra).
    split; [right; split|split].
    + assert (Q : exists x, In x ws /\ x <> 0).
      { clear - E. induction ws as [|x ws IH]; [contradiction E; reflexivity|]. destruct (Req_dec x 0) as [->|N]; [|exists x; split; [left; reflexivity|exact N]].
        cbn in E. rewrite Rplus_0_l in E. destruct (IH E) as (y & Hy & Ny). exists y. split; [right; exact Hy|exact Ny]. }
      destruct Q as (x & Hx & Nx). apply in_map_iff in Hx as (w & <- & Hw). exists (weight_of w). split; [apply in_map; exact Hw|exact Nx].
    + rewrite Em. f_equal. unfold ws at 2. rewrite !map_map. reflexivity.
    + cbn. unfold ws. rewrite !map_length. lia.
    + split.
      * intros p [<-|Hin]; [lra|]. apply in_map_iff in Hin as (x & <- & Hx). apply Rmult_le_pos; [apply Hp; exact Hx|].
        apply Rlt_le, Rinv_0_lt_compat, P.
      * cbn [fold_right]. rewrite (fold_scale (fun x => x)), map_id. field. lra.
Qed.

Section Distribute.
  Context {S : Type}.
  Variable multinomial : S -> list (list R) -> list (list nat) * S.
  Hypothesis Hm : categorical multinomial.

  Lemma distribute_loop_spec batch shells : (0 < batch)%nat -> shells <> [] -> (forall w, In w shells -> good_shell w) ->
    forall fuel zs s, (length zs <= fuel)%nat ->
    exists idx s' rows counts, distribute_loop multinomial batch fuel zs shells s = Ok (idx, s') /\
      draws multinomial s rows counts s' /\
      Forall2 (shell_probabilities (map weight_of shells)) zs (concat rows) /\
      batches_of batch rows /\
      Forall2 (fun w row => exists j p, single_event row j /\ nth_error w j = Some p /\ 0 < p) (concat rows) (concat counts) /\
      Forall2 (fun row k => exists j, single_event row j /\ k = (Z.of_nat j - 1)%Z) (concat counts) idx.
  Proof.
    intros Hb Hne Hg. induction fuel as [|fuel IH]; intros zs s Hl.
    - destruct zs as [|z zs]; [|cbn in Hl; lia]. exists [], s, [], []. split; [reflexivity|]. split; [constructor|]. split; [constructor|].
      split; [intros i r Hi; destruct i; discriminate|]. split; constructor.
    - destruct zs as [|z zs].
      { exists [], s, [], []. split; [reflexivity|]. split; [constructor|]. split; [constructor|].
        split; [intros i r Hi; destruct i; discriminate|]. split; constructor. }
      set (l := z :: zs) in *.
      assert (Hmap : exists ws, mapM (shell_weights shells) (firstn batch l) = Ok ws /\
        Forall2 (fun z row => shell_probabilities (map weight_of shells) z row /\
          (forall p, In p row -> 0 <= p) /\ fold_right Rplus 0 row = 1) (firstn batch l) ws).
      { generalize (firstn batch l). intro m. induction m as [|y m IHm]; [exists []; split; [reflexivity|constructor]|].
        destruct (shell_weights_spec shells y Hg) as (row & E & H1 & _ & H2 & H3). destruct IHm as (ws & Ew & Hw).
        exists (row :: ws). cbn [mapM]. rewrite E. cbn [bind]. rewrite Ew. split; [reflexivity|]. constructor; auto. }
      destruct Hmap as (ws & Ew & Hw).
      destruct (multinomial s ws) as [counts s1] eqn:Em.
      assert (Hc : Forall2 (fun w row => length row = length w /\ exists j p, single_event row j /\ nth_error w j = Some p /\ 0 < p) ws counts).
      { apply (Hm s ws counts s1 Em). intros w Hin. clear - Hw Hin. induction Hw as [|? ? ? ? H _ IH]; [contradiction|].
        destruct Hin as [<-|Hin]; [apply H|auto]. }
      destruct (IH (skipn batch l) s1) as (idx & s' & rows & cs & E & Hd & Hp & Hbt & He & Hi).
      { rewrite skipn_length. assert (0 < length l)%nat by (unfold l; cbn; lia). clearbody l. lia. }
      exists (map (fun row => (Z.of_nat (argmax row) - 1)%Z) counts ++ idx), s', (ws :: rows), (counts :: cs).
      split.
      + cbn [distribute_loop]. unfold l at 1. destruct shells as [|w0 shells]; [contradiction|].
        rewrite Ew. cbn [bind]. rewrite Em. cbn beta iota. rewrite E. reflexivity.
      + split; [econstructor; eassumption|]. cbn [concat]. split.
        * rewrite <- (firstn_skipn batch l). apply Forall2_app; [|exact Hp].
          clear - Hw. induction Hw as [|? ? ? ? H _ IH]; constructor; [apply H|exact IH].
        * split.
          -- assert (Lw : length ws = Nat.min batch (length l)).
             { rewrite <- (forall2_length _ _ _ Hw). apply firstn_length. }
             intros [|i] r Hi'.
             ++ injection Hi' as <-. destruct (Nat.le_gt_cases batch (length l)); [left; lia|]. right.
                assert (Es : skipn batch l = []) by (apply skipn_all2; lia). rewrite Es in Hp.
                assert (rows = []).
                { pose proof (forall2_length _ _ _ Hp) as Q. destruct rows as [|r0 rows]; [reflexivity|]. exfalso.
                  cbn [concat length] in Q. rewrite app_length in Q. destruct r0; [|cbn in Q; lia].
                  destruct (Hbt 0%nat [] eq_refl) as [Q'|[_ Q']]; cbn in Q'; lia. }
                subst rows. split; [reflexivity|]. rewrite Lw. unfold l in *. cbn [length] in *. lia.
             ++ cbn in Hi'. destruct (Hbt i r Hi') as [|[]]; [left; assumption|right]. cbn [length]. split; [lia|assumption].
          -- split; apply Forall2_app; try assumption.
             ++ clear - Hc. induction Hc as [|? ? ? ? H _ IH]; constructor; [apply H|exact IH].
             ++ clear - Hc. induction Hc as [|w row ? ? H _ IH]; cbn [map]; constructor; [|exact IH].
                destruct H as (_ & j & p & Hj & _). exists j. rewrite (argmax_event _ _ Hj). auto.
  Qed.
End Distribute.

(** ** Lognormal shift *)
Lemma shift_increasing x y : 0 <= x -> x < y -> lognormal_shift x < lognormal_shift y.
Proof.
  intros Hx Hy. unfold lognormal_shift.
  set (s := x + y). set (d := (y - x) * (y - x)).
  assert (Q : y * (8 / 1000 + y * (29 / 1000 + y * (- (79 / 10000) + y * (65 / 100000)))) -
              x * (8 / 1000 + x * (29 / 1000 + x * (- (79 / 10000) + x * (65 / 100000)))) =
    (y - x) * (8 / 1000 + 29 / 1000 * s - 5925 / 1000000 * (s * s) + 325 / 1000000 * (s * s * s)
               + d * (325 / 1000000 * s - 1975 / 1000000))) by (unfold s, d; field).
  assert (Hs : 0 < s) by (unfold s; lra).
  assert (Hd : 0 <= d <= s * s) by (unfold s, d; split; nra).
  assert (P : 0 < 8 / 1000 + 29 / 1000 * s - 5925 / 1000000 * (s * s) + 325 / 1000000 * (s * s * s)
               + d * (325 / 1000000 * s - 1975 / 1000000)).
  { (* affine in d: positive at both ends *)
    assert (P0 : 0 < 8 / 1000 + 29 / 1000 * s - 5925 / 1000000 * (s * s) + 325 / 1000000 * (s * s * s)).
    { assert (0 <= s * (29 / 1000 - 5925 / 1000000 * s + 325 / 1000000 * (s * s))).
      { apply Rmult_le_pos; [lra|]. pose proof (Rle_0_sqr (s - 9)). unfold Rsqr in *. nra. } nra. }
    assert (P1 : 0 < 8 / 1000 + 29 / 1000 * s - 79 / 10000 * (s * s) + 65 / 100000 * (s * s * s)).
    { assert (0 <= s * (29 / 1000 - 79 / 10000 * s + 65 / 100000 * (s * s))).
      { apply Rmult_le_pos; [lra|]. pose proof (Rle_0_sqr (s - 6)). unfold Rsqr in *. nra. } nra. }
    destruct (Rle_dec 0 (325 / 1000000 * s - 1975 / 1000000)) as [K|K].
    - assert (0 <= d * (325 / 1000000 * s - 1975 / 1000000)) by (apply Rmult_le_pos; lra). lra.
    - assert (s * s * (325 / 1000000 * s - 1975 / 1000000) <= d * (325 / 1000000 * s - 1975 / 1000000)) by nra. nra. }
  assert (0 < (y - x) * (8 / 1000 + 29 / 1000 * s - 5925 / 1000000 * (s * s) + 325 / 1000000 * (s * s * s)
               + d * (325 / 1000000 * s - 1975 / 1000000))) by (apply Rmult_lt_0_compat; lra).
  lra.
Qed.
