(** Every symmetric matrix has an orthonormal system of eigenvectors. *)
From Coq Require Import Reals Lra Lia Psatz List.
From Verif Require Import Base RSum Spec_Cov Proof_Cov Proof_Partition.
Open Scope R_scope.

Lemma abs_bounds x t : Rabs x <= t -> - t <= x <= t.
Proof. unfold Rabs. destruct (Rcase_abs x); lra. Qed.

(** * Maxima of Lipschitz functions on a cube *)
Definition replace_at (x : nat -> R) (n : nat) (t : R) : nat -> R := fun i => if (i =? n)%nat then t else x i.
Definition gap (n : nat) (x y : nat -> R) : R := rsum n (fun i => Rabs (x i - y i)).
Definition lipschitz (n : nat) (K : R) (f : (nat -> R) -> R) : Prop := forall x y, Rabs (f x - f y) <= K * gap n x y.
Definition cube (M : R) (n : nat) (x : nat -> R) : Prop := forall i, (i < n)%nat -> Rabs (x i) <= M.

Lemma gap_replace n x y s t : gap (S n) (replace_at x n s) (replace_at y n t) = gap n x y + Rabs (s - t).
Proof.
  unfold gap. cbn [rsum]. unfold replace_at at 3 4. rewrite Nat.eqb_refl. f_equal.
  apply rsum_ext. intros i Hi. unfold replace_at. replace (i =? n)%nat with false; [reflexivity|].
  symmetry. apply Nat.eqb_neq. lia.
Qed.

Lemma gap_same n x : gap n x x = 0.
Proof. apply rsum_zero. intros i _. rewrite Rminus_diag_eq by reflexivity. apply Rabs_R0. Qed.

Lemma lipschitz_continuous g K c : 0 <= K -> (forall s t, Rabs (g s - g t) <= K * Rabs (s - t)) -> continuity_pt g c.
Proof.
  intros HK H eps He. exists (eps / (K + 1)). split; [apply Rdiv_lt_0_compat; lra|].
  intros x [_ Hx]. simpl in *. unfold R_dist in *. apply Rle_lt_trans with (1 := H x c).
  apply Rle_lt_trans with (K * (eps / (K + 1))); [apply Rmult_le_compat_l; lra|].
  assert (P : 0 < eps / (K + 1)) by (apply Rdiv_lt_0_compat; lra).
  replace (K * (eps / (K + 1))) with (eps - eps / (K + 1)) by (field; lra). lra.
Qed.

Lemma maximum_exists M n : 0 <= M -> forall f K, 0 <= K -> lipschitz n K f ->
  exists x, cube M n x /\ forall y, cube M n y -> f y <= f x.
Proof.
  intro HM. induction n as [|n IH]; intros f K HK Lf.
  - exists (fun _ => 0). split; [intros i Hi; lia|]. intros y _.
    specialize (Lf y (fun _ => 0)). unfold gap in Lf. cbn [rsum] in Lf. rewrite Rmult_0_r in Lf.
    apply abs_bounds in Lf. lra.
  - assert (IHt : forall t, exists x, cube M n x /\ forall y, cube M n y -> f (replace_at y n t) <= f (replace_at x n t)).
    { intro t. apply (IH (fun x => f (replace_at x n t)) K HK). intros x y.
      apply Rle_trans with (1 := Lf _ _). rewrite gap_replace, (Rminus_diag_eq t t eq_refl), Rabs_R0. lra. }
    set (E := fun t v => exists x, cube M n x /\ v = f (replace_at x n t)).
    assert (Eb : forall t, bound (E t)).
    { intro t. destruct (IHt t) as (x & _ & Hx). exists (f (replace_at x n t)). intros v (y & Hy & Ev). rewrite Ev. apply Hx, Hy. }
    assert (Ei : forall t, exists v, E t v).
    { intro t. destruct (IHt t) as (x & Hx & _). exists (f (replace_at x n t)), x. auto. }
    set (g := fun t => proj1_sig (completeness (E t) (Eb t) (Ei t))).
    assert (Gu : forall t x, cube M n x -> f (replace_at x n t) <= g t).
    { intros t x Hx. unfold g. destruct (completeness (E t) (Eb t) (Ei t)) as [m Lm]. simpl. apply Lm. exists x. auto. }
    assert (Ga : forall t, exists x, cube M n x /\ g t = f (replace_at x n t)).
    { intro t. destruct (IHt t) as (x & Hx & Hm). exists x. split; [exact Hx|]. apply Rle_antisym; [|apply Gu, Hx].
      unfold g. destruct (completeness (E t) (Eb t) (Ei t)) as [m Lm]. simpl. apply Lm. intros v (y & Hy & Ev). rewrite Ev. apply Hm, Hy. }
    assert (Gl : forall s t, g s <= g t + K * Rabs (s - t)).
    { intros s t. destruct (Ga s) as (x & Hx & ->). pose proof (Gu t x Hx) as U.
      pose proof (Lf (replace_at x n s) (replace_at x n t)) as L. rewrite gap_replace, gap_same, Rplus_0_l in L.
      apply abs_bounds in L. lra. }
    assert (Gc : forall s t, Rabs (g s - g t) <= K * Rabs (s - t)).
    { intros s t. apply Rabs_le. pose proof (Gl s t). pose proof (Gl t s) as G'. rewrite Rabs_minus_sym in G'. lra. }
    destruct (continuity_ab_maj g (- M) M) as (t & Ht & Hb); [lra| |].
    { intros c _. apply (lipschitz_continuous g K c HK Gc). }
    destruct (Ga t) as (x & Hx & Gt). exists (replace_at x n t). split.
    + intros i Hi. unfold replace_at. destruct (Nat.eqb_spec i n) as [->|N]; [apply Rabs_le; lra|apply Hx; lia].
    + intros y Hy. rewrite <- Gt. apply Rle_trans with (g (y n)).
      * apply Rle_trans with (f (replace_at y n (y n))).
        -- pose proof (Lf y (replace_at y n (y n))) as L. replace (gap (S n) y (replace_at y n (y n))) with 0 in L.
           ++ rewrite Rmult_0_r in L. apply abs_bounds in L. lra.
           ++ symmetry. apply rsum_zero. intros i _. unfold replace_at. destruct (Nat.eqb_spec i n) as [->|_];
                rewrite Rminus_diag_eq, Rabs_R0; reflexivity.
        -- apply Gu. intros i Hi. apply Hy. lia.
      * apply Ht. apply abs_bounds. apply Hy. lia.
Qed.

(** * Functions that are bounded and Lipschitz on the cube *)
Section Tame.
  Variables (M : R) (n : nat).
  Hypothesis HM : 0 <= M.

  Definition tame (f : (nat -> R) -> R) : Prop := exists K B, 0 <= K /\ 0 <= B /\
    forall x y, cube M n x -> cube M n y -> Rabs (f x) <= B /\ Rabs (f x - f y) <= K * gap n x y.

  Lemma gap_nonneg x y : 0 <= gap n x y.
  Proof. apply rsum_nonneg. intros. apply Rabs_pos. Qed.

  Lemma tame_const c : tame (fun _ => c).
  Proof.
    exists 0, (Rabs c). split; [lra|]. split; [apply Rabs_pos|]. intros x y _ _. split; [lra|].
    rewrite Rminus_diag_eq, Rabs_R0 by reflexivity. lra.
  Qed.
  Lemma tame_coord i : (i < n)%nat -> tame (fun x => x i).
  Proof.
    intro Hi. exists 1, M. split; [lra|]. split; [exact HM|]. intros x y Hx Hy. split; [apply Hx, Hi|].
    rewrite Rmult_1_l. unfold gap. rewrite <- (rsum_delta n i (fun i => Rabs (x i - y i)) Hi) at 1.
    apply rsum_le. intros j _. destruct (j =? i)%nat; [lra|apply Rabs_pos].
  Qed.
  Lemma tame_plus f g : tame f -> tame g -> tame (fun x => f x + g x).
  Proof.
    intros (K & B & HK & HB & F) (K' & B' & HK' & HB' & G). exists (K + K'), (B + B'). split; [lra|]. split; [lra|].
    intros x y Hx Hy. destruct (F x y Hx Hy) as [F1 F2]. destruct (G x y Hx Hy) as [G1 G2].
    apply abs_bounds in F1, F2, G1, G2. split; apply Rabs_le; lra.
  Qed.
  Lemma tame_mult f g : tame f -> tame g -> tame (fun x => f x * g x).
  Proof.
    intros (K & B & HK & HB & F) (K' & B' & HK' & HB' & G). exists (K * B' + B * K'), (B * B').
    split; [apply Rplus_le_le_0_compat; apply Rmult_le_pos; assumption|]. split; [apply Rmult_le_pos; assumption|].
    intros x y Hx Hy. destruct (F x y Hx Hy) as [F1 F2]. destruct (G x y Hx Hy) as [G1 G2].
    destruct (F y x Hy Hx) as [F3 _]. pose proof (gap_nonneg x y) as Gp. split.
    - rewrite Rabs_mult. apply Rmult_le_compat; try apply Rabs_pos; assumption.
    - replace (f x * g x - f y * g y) with ((f x - f y) * g x + f y * (g x - g y)) by ring.
      apply Rle_trans with (1 := Rabs_triang _ _). rewrite !Rabs_mult.
      replace ((K * B' + B * K') * gap n x y) with (K * gap n x y * B' + B * (K' * gap n x y)) by ring.
      apply Rplus_le_compat; apply Rmult_le_compat; try apply Rabs_pos; assumption.
  Qed.
  Lemma tame_rsum k (f : nat -> (nat -> R) -> R) : (forall i, (i < k)%nat -> tame (f i)) -> tame (fun x => rsum k (fun i => f i x)).
  Proof.
    induction k as [|k IH]; intro H; cbn [rsum]; [apply tame_const|].
    apply tame_plus; [apply IH; intros; apply H; lia|apply H; lia].
  Qed.

  Definition clamp (t : R) : R := Rmax (- M) (Rmin M t).
  Lemma clamp_bound t : Rabs (clamp t) <= M.
  Proof. apply Rabs_le. unfold clamp, Rmax, Rmin. repeat destruct (Rle_dec _ _); lra. Qed.
  Lemma clamp_close s t : Rabs (clamp s - clamp t) <= Rabs (s - t).
  Proof.
    unfold clamp, Rmax, Rmin. repeat destruct (Rle_dec _ _); unfold Rabs; repeat destruct (Rcase_abs _); lra.
  Qed.
  Lemma clamp_id t : Rabs t <= M -> clamp t = t.
  Proof. intro H. apply abs_bounds in H. unfold clamp, Rmax, Rmin. repeat destruct (Rle_dec _ _); lra. Qed.

  Lemma tame_maximum f : tame f -> exists x, cube M n x /\ forall y, cube M n y -> f y <= f x.
  Proof.
    intros (K & B & HK & HB & F). set (cl := fun (x : nat -> R) i => clamp (x i)).
    assert (Cc : forall x, cube M n (cl x)) by (intros x i _; apply clamp_bound).
    destruct (maximum_exists M n HM (fun x => f (cl x)) K HK) as (x & Hx & Hm).
    { intros x y. destruct (F (cl x) (cl y) (Cc x) (Cc y)) as [_ L]. apply Rle_trans with (1 := L).
      apply Rmult_le_compat_l; [exact HK|]. apply rsum_le. intros i _. apply clamp_close. }
    exists (cl x). split; [apply Cc|]. intros y Hy. apply Rle_trans with (f (cl y)); [|apply Hm, Hy].
    destruct (F y (cl y) Hy (Cc y)) as [_ L]. replace (gap n y (cl y)) with 0 in L.
    - rewrite Rmult_0_r in L. apply abs_bounds in L. lra.
    - symmetry. apply rsum_zero. intros i Hi. unfold cl. rewrite clamp_id by (apply Hy, Hi).
      rewrite Rminus_diag_eq, Rabs_R0; reflexivity.
  Qed.
End Tame.

(** * The largest eigenvalue *)
Section Top.
  Variables (n : nat) (A : nat -> nat -> R).
  Hypothesis Hs : symmetric n A.

  Definition apply_matrix (B : nat -> nat -> R) (x : nat -> R) (i : nat) : R := rsum n (fun j => B i j * x j).
  Definition dot (x y : nat -> R) : R := rsum n (fun i => x i * y i).

  Lemma quad_apply B x : quad n B x = dot x (apply_matrix B x).
  Proof.
    unfold quad, dot, apply_matrix. apply rsum_ext. intros i _. rewrite <- rsum_scal. apply rsum_ext. intros. ring.
  Qed.
  Lemma normsq_dot x : normsq n x = dot x x.
  Proof. unfold normsq, dot. apply rsum_ext. intros. ring. Qed.
  Lemma normsq_nonneg x : 0 <= normsq n x.
  Proof. unfold normsq. apply rsum_nonneg. intros. apply pow2_ge_0. Qed.
  Lemma coord_le x i : (i < n)%nat -> x i ^ 2 <= normsq n x.
  Proof.
    intro Hi. unfold normsq. rewrite <- (rsum_delta n i (fun i => x i ^ 2) Hi). apply rsum_le.
    intros j _. destruct (j =? i)%nat; [lra|apply pow2_ge_0].
  Qed.
  Lemma dot_sym x y : dot x y = dot y x.
  Proof. apply rsum_ext. intros. ring. Qed.
  Lemma apply_dot B x y : symmetric n B -> dot x (apply_matrix B y) = dot y (apply_matrix B x).
  Proof.
    intro S. unfold dot, apply_matrix.
    rewrite (rsum_ext n _ (fun i => rsum n (fun j => x i * B i j * y j))) by (intros; rewrite <- rsum_scal; apply rsum_ext; intros; ring).
    rewrite rsum_swap. apply rsum_ext. intros i Hi. rewrite <- rsum_scal. apply rsum_ext. intros j Hj. rewrite (S j i Hj Hi). ring.
  Qed.
  Lemma dot_plus_r x y z t : dot x (fun i => y i + t * z i) = dot x y + t * dot x z.
  Proof. unfold dot. rewrite <- rsum_scal, <- rsum_plus. apply rsum_ext. intros. ring. Qed.
  Lemma dot_plus_l x y z t : dot (fun i => y i + t * z i) x = dot y x + t * dot z x.
  Proof. unfold dot. rewrite <- rsum_scal, <- rsum_plus. apply rsum_ext. intros. ring. Qed.
  Lemma apply_plus B x y t i : apply_matrix B (fun i => x i + t * y i) i = apply_matrix B x i + t * apply_matrix B y i.
  Proof. unfold apply_matrix. rewrite <- rsum_scal, <- rsum_plus. apply rsum_ext. intros. ring. Qed.
  Lemma dot_ext x y z : (forall i, (i < n)%nat -> y i = z i) -> dot x y = dot x z.
  Proof. intro H. apply rsum_ext. intros i Hi. rewrite (H i Hi). reflexivity. Qed.

  Lemma quad_plus x y t : quad n A (fun i => x i + t * y i) = quad n A x + 2 * t * dot y (apply_matrix A x) + t ^ 2 * quad n A y.
  Proof.
    rewrite !quad_apply.
    rewrite (dot_ext _ _ (fun i => apply_matrix A x i + t * apply_matrix A y i)) by (intros; apply apply_plus).
    rewrite dot_plus_r, !dot_plus_l, (apply_dot A x y Hs). ring.
  Qed.
  Lemma normsq_plus x y t : normsq n (fun i => x i + t * y i) = normsq n x + 2 * t * dot x y + t ^ 2 * normsq n y.
  Proof.
    rewrite !normsq_dot, dot_plus_r, !dot_plus_l, (dot_sym y x). ring.
  Qed.

  Definition total : R := rsum n (fun i => rsum n (fun j => Rabs (A i j))).
  Lemma total_nonneg : 0 <= total.
  Proof. apply rsum_nonneg. intros. apply rsum_nonneg. intros. apply Rabs_pos. Qed.
  Lemma quad_bound x : Rabs (quad n A x) <= total * normsq n x.
  Proof.
    assert (T : forall k f, Rabs (rsum k f) <= rsum k (fun i => Rabs (f i))).
    { induction k as [|k IH]; intro f; cbn [rsum]; [rewrite Rabs_R0; lra|].
      apply Rle_trans with (1 := Rabs_triang _ _). specialize (IH f). lra. }
    unfold quad, total. apply Rle_trans with (1 := T _ _). rewrite <- rsum_scal_r. apply rsum_le. intros i Hi.
    apply Rle_trans with (1 := T _ _). rewrite <- rsum_scal_r. apply rsum_le. intros j Hj.
    rewrite !Rabs_mult. pose proof (coord_le x i Hi) as X. pose proof (coord_le x j Hj) as Y.
    replace (Rabs (x i) * Rabs (A i j) * Rabs (x j)) with (Rabs (A i j) * (Rabs (x i) * Rabs (x j))) by ring.
    apply Rmult_le_compat_l; [apply Rabs_pos|].
    rewrite <- (Rabs_pos_eq (x i ^ 2)) in X by apply pow2_ge_0. rewrite <- (Rabs_pos_eq (x j ^ 2)) in Y by apply pow2_ge_0.
    rewrite <- RPow_abs in X, Y. pose proof (pow2_ge_0 (Rabs (x i) - Rabs (x j))). nra.
  Qed.
  Lemma quad_scale B x r : quad n B (fun i => r * x i) = r ^ 2 * quad n B x.
  Proof. unfold quad. rewrite <- rsum_scal. apply rsum_ext. intros. rewrite <- rsum_scal. apply rsum_ext. intros. ring. Qed.
  Lemma normsq_scale x r : normsq n (fun i => r * x i) = r ^ 2 * normsq n x.
  Proof. unfold normsq. rewrite <- rsum_scal. apply rsum_ext. intros. ring. Qed.

  Lemma tame_quad M : 0 <= M -> tame M n (quad n A).
  Proof.
    intro HM. unfold quad. apply tame_rsum. intros i Hi. apply tame_rsum. intros j Hj.
    apply tame_mult; [apply tame_mult|]; [apply tame_coord; assumption|apply tame_const|apply tame_coord; assumption].
  Qed.
  Lemma tame_normsq M : 0 <= M -> tame M n (normsq n).
  Proof.
    intro HM. unfold normsq. apply tame_rsum. intros i Hi. cbn [pow].
    apply tame_mult; [apply tame_coord; assumption|]. apply tame_mult; [apply tame_coord; assumption|apply tame_const].
  Qed.

  Lemma dot_axis i y : (i < n)%nat -> dot (axis i) y = y i.
  Proof.
    intro Hi. unfold dot, axis. rewrite (rsum_ext n _ (fun j => if (j =? i)%nat then y j else 0)).
    - apply (rsum_delta n i y Hi).
    - intros j _. destruct (j =? i)%nat; ring.
  Qed.

  Lemma critical (f : R -> R) a b c a' b' c' d : 0 < d ->
    (forall t, f t = a + b * t + c * t ^ 2 - (a' + b' * t + c' * t ^ 2) ^ 2 / 2) ->
    (forall t, - d < t < d -> f t <= f 0) -> b = a' * b'.
  Proof.
    intros Hd Hf Hm.
    assert (D : derivable_pt_lim f 0 (b - a' * b')).
    { intros eps He.
      set (P := Rabs c + Rabs (a' * c') + b' ^ 2 + Rabs (b' * c') + c' ^ 2).
      assert (P0 : 0 <= P).
      { unfold P. pose proof (Rabs_pos c). pose proof (Rabs_pos (a' * c')). pose proof (pow2_ge_0 b'). pose proof (Rabs_pos (b' * c')). pose proof (pow2_ge_0 c'). lra. }
      assert (Dp : 0 < Rmin 1 (eps / (P + 1))) by (apply Rmin_glb_lt; [lra|apply Rdiv_lt_0_compat; lra]).
      exists (mkposreal _ Dp). intros h Hh Hl. simpl in Hl.
      rewrite !Hf.
      replace ((a + b * (0 + h) + c * (0 + h) ^ 2 - (a' + b' * (0 + h) + c' * (0 + h) ^ 2) ^ 2 / 2 -
                (a + b * 0 + c * 0 ^ 2 - (a' + b' * 0 + c' * 0 ^ 2) ^ 2 / 2)) / h - (b - a' * b'))
        with (h * (c - a' * c' - b' ^ 2 / 2 - b' * c' * h - c' ^ 2 / 2 * h ^ 2)) by (field; exact Hh).
      assert (H1 : Rabs h < 1) by (apply Rlt_le_trans with (1 := Hl); apply Rmin_l).
      assert (H2 : Rabs h < eps / (P + 1)) by (apply Rlt_le_trans with (1 := Hl); apply Rmin_r).
      assert (B : Rabs (c - a' * c' - b' ^ 2 / 2 - b' * c' * h - c' ^ 2 / 2 * h ^ 2) <= P).
      { assert (X1 : Rabs (b' * c' * h) <= Rabs (b' * c')).
        { rewrite Rabs_mult. rewrite <- (Rmult_1_r (Rabs (b' * c'))) at 2. apply Rmult_le_compat_l; [apply Rabs_pos|lra]. }
        assert (X2 : 0 <= h ^ 2 <= 1).
        { split; [apply pow2_ge_0|]. apply Rabs_def2 in H1. nra. }
        assert (X3 : 0 <= c' ^ 2 * h ^ 2 <= c' ^ 2).
        { pose proof (pow2_ge_0 c'). split; [apply Rmult_le_pos; lra|]. rewrite <- (Rmult_1_r (c' ^ 2)) at 2. apply Rmult_le_compat_l; lra. }
        pose proof (pow2_ge_0 b'). pose proof (Rle_abs c). pose proof (Rle_abs (- c)) as N1. rewrite Rabs_Ropp in N1.
        pose proof (Rle_abs (a' * c')). pose proof (Rle_abs (- (a' * c'))) as N2. rewrite Rabs_Ropp in N2.
        apply abs_bounds in X1. unfold P. apply Rabs_le. split; lra. }
      rewrite Rabs_mult. apply Rle_lt_trans with (Rabs h * P); [apply Rmult_le_compat_l; [apply Rabs_pos|exact B]|].
      apply Rle_lt_trans with (eps / (P + 1) * P); [apply Rmult_le_compat_r; lra|].
      assert (Q : 0 < eps / (P + 1)) by (apply Rdiv_lt_0_compat; lra).
      replace (eps / (P + 1) * P) with (eps - eps / (P + 1)) by (field; lra). lra. }
    set (pr := exist (fun l => derivable_pt_abs f 0 l) (b - a' * b') D : derivable_pt f 0).
    pose proof (deriv_maximum f (- d) d 0 pr ltac:(lra) Hd (fun t H1 H2 => Hm t (conj H1 H2))) as Z.
    assert (E : derive_pt f 0 pr = b - a' * b') by reflexivity. lra.
  Qed.

  Lemma top_eigenvector : (1 <= n)%nat ->
    exists l x, normsq n x = 1 /\ (forall i, (i < n)%nat -> apply_matrix A x i = l * x i) /\ at_most n l A.
  Proof.
    intro Hn. pose proof total_nonneg as T0. set (c := total + 1). set (C := 2 * total + 1). set (M := 2 * C).
    assert (HC : 1 <= C) by (unfold C; lra). assert (HM : 0 <= M) by (unfold M; lra).
    set (h := fun x => quad n A x + c * normsq n x + -1 / 2 * (normsq n x * normsq n x)).
    assert (Q1 : forall x, normsq n x <= quad n A x + c * normsq n x <= C * normsq n x).
    { intro x. pose proof (quad_bound x) as B. apply abs_bounds in B. unfold c, C. lra. }
    destruct (tame_maximum M n HM h) as (x & Hx & Hm).
    { unfold h. apply tame_plus; [apply tame_plus|]; [apply tame_quad; exact HM| |].
      - apply tame_mult; [apply tame_const|apply tame_normsq; exact HM].
      - apply tame_mult; [apply tame_const|apply tame_mult; apply tame_normsq; exact HM]. }
    set (s := normsq n x).
    assert (Hpos : 0 < h x).
    { apply Rlt_le_trans with (h (axis 0)).
      - unfold h. pose proof (Q1 (axis 0)) as Q. assert (E : normsq n (axis 0) = 1) by (rewrite normsq_dot, dot_axis by lia; reflexivity).
        rewrite E in *. lra.
      - apply Hm. intros i _. unfold axis. destruct (i =? 0)%nat; rewrite ?Rabs_R1, ?Rabs_R0; unfold M; lra. }
    pose proof (normsq_nonneg x) as S0. fold s in S0.
    assert (S1 : 0 < s < 2 * C).
    { pose proof (Q1 x) as Q. unfold h in Hpos. fold s in Hpos, Q.
      assert (X : 0 < s * (2 * C - s)) by nra.
      assert (s <> 0) by (intro Z; rewrite Z in X; lra).
      assert (Y : 0 < 2 * C - s).
      { apply Rmult_lt_reg_l with s; lra. }
      lra. }
    assert (In : forall i, (i < n)%nat -> Rabs (x i) < M).
    { intros i Hi. pose proof (coord_le x i Hi) as K. fold s in K. pose proof (pow2_abs (x i)) as P.
      pose proof (Rabs_pos (x i)) as P0. unfold M. apply Rnot_le_lt. intro F.
      assert ((2 * C) ^ 2 <= Rabs (x i) ^ 2) by (apply pow_incr; lra). nra. }
    assert (Eig : forall i, (i < n)%nat -> apply_matrix A x i = (s - c) * x i).
    { intros i Hi. specialize (In i Hi).
      assert (E : 2 * apply_matrix A x i + c * (2 * x i) = s * (2 * x i)).
      { apply (critical (fun t => h (fun j => x j + t * axis i j)) (quad n A x + c * s) _
                 (quad n A (axis i) + c * normsq n (axis i)) s _ (normsq n (axis i)) (M - Rabs (x i))); [lra| |].
        - intro t. unfold h. rewrite quad_plus, normsq_plus. fold s.
          rewrite (dot_sym x), !dot_axis by exact Hi. field.
        - intros t Ht. apply Rle_trans with (h x).
          + apply Hm. intros j Hj. unfold axis. destruct (Nat.eqb_spec j i) as [->|N].
            * rewrite Rmult_1_r. apply Rle_trans with (1 := Rabs_triang _ _).
              assert (Rabs t <= M - Rabs (x i)) by (apply Rabs_le; lra). lra.
            * rewrite Rmult_0_r, Rplus_0_r. apply Hx, Hj.
          + apply Req_le. unfold h. rewrite quad_plus, normsq_plus. field. }
      lra. }
    assert (Hqx : quad n A x = (s - c) * s).
    { rewrite quad_apply, (dot_ext _ _ (fun i => (s - c) * x i)) by exact Eig. unfold s. rewrite normsq_dot.
      unfold dot. rewrite <- rsum_scal. apply rsum_ext. intros. ring. }
    exists (s - c), (fun i => / sqrt s * x i). pose proof (sqrt_lt_R0 s ltac:(lra)) as Sp.
    pose proof (sqrt_sqrt s ltac:(lra)) as Sq. split; [|split].
    - rewrite normsq_scale. fold s. replace ((/ sqrt s) ^ 2) with (/ (sqrt s * sqrt s)) by (field; lra). rewrite Sq. field. lra.
    - intros i Hi. unfold apply_matrix. rewrite (rsum_ext n _ (fun j => / sqrt s * (A i j * x j))) by (intros; ring).
      rewrite rsum_scal. fold (apply_matrix A x i). rewrite (Eig i Hi). ring.
    - intro y. pose proof (Q1 y) as Qy. pose proof (normsq_nonneg y) as Y0.
      destruct (Req_dec (normsq n y) 0) as [Z|Z].
      { pose proof (quad_bound y) as B. rewrite Z, Rmult_0_r in B. apply abs_bounds in B. rewrite Z. lra. }
      set (N := normsq n y) in *. set (mu := (quad n A y + c * N) / N).
      assert (Emu : quad n A y + c * N = mu * N) by (unfold mu; field; lra).
      assert (Hmu : 1 <= mu <= C).
      { split; apply Rmult_le_reg_r with N; lra. }
      set (r := sqrt (mu / N)).
      assert (Hr : r ^ 2 = mu / N).
      { unfold r. rewrite <- Rsqr_pow2. apply Rsqr_sqrt. apply Rlt_le, Rdiv_lt_0_compat; lra. }
      assert (Hz : h (fun i => r * y i) <= h x).
      { apply Hm. intros i Hi. pose proof (coord_le (fun i => r * y i) i Hi) as K. cbv beta in K.
        rewrite normsq_scale, Hr in K. fold N in K. replace (mu / N * N) with mu in K by (field; lra).
        rewrite <- pow2_abs in K. pose proof (Rabs_pos (r * y i)) as P0. apply Rnot_lt_le. intro F. unfold M in F.
        assert ((2 * C) ^ 2 <= Rabs (r * y i) ^ 2) by (apply pow_incr; lra). nra. }
      unfold h in Hz. rewrite quad_scale, normsq_scale, Hr, Hqx in Hz. fold s in Hz. fold N in Hz.
      replace (mu / N * N) with mu in Hz by (field; lra).
      replace (mu / N * quad n A y + c * mu) with (mu * mu) in Hz.
      2:{ replace (quad n A y) with (mu * N - c * N) by lra. field. lra. }
      assert (mu <= s) by nra.
      assert (mu * N <= s * N) by (apply Rmult_le_compat_r; lra). lra.
  Qed.
End Top.

(** * All eigenvalues *)
Lemma rsum_reverse n f : rsum n (fun k => f (n - 1 - k)%nat) = rsum n f.
Proof.
  induction n as [|n IH]; [reflexivity|]. rewrite rsum_S_l. cbn [rsum]. rewrite <- IH, Rplus_comm.
  f_equal; [apply rsum_ext; intros i Hi|]; f_equal; lia.
Qed.

Section Spectral.
  Variables (n : nat) (A : nat -> nat -> R).
  Hypothesis Hs : symmetric n A.
  Notation column q k := (fun i => q i k).

  (** The [k] largest eigenvalues, in descending order. *)
  Definition found (k : nat) (q : nat -> nat -> R) (w : nat -> R) : Prop :=
    orthonormal n q k /\
    (forall j i, (j < k)%nat -> (i < n)%nat -> apply_matrix n A (column q j) i = w j * q i j) /\
    (forall j y, (j < k)%nat -> (forall l, (l < j)%nat -> dot n (column q l) y = 0) -> quad n A y <= w j * normsq n y).

  Lemma find_next k q w : (k < n)%nat -> found k q w -> exists q' w', found (S k) q' w'.
  Proof.
    intros Hk (O & Eig & Top). set (b := total n A + 1). pose proof (total_nonneg n A) as T0.
    set (B := fun i j => A i j - rsum k (fun l => (w l + b) * q i l * q j l)).
    assert (SB : symmetric n B).
    { intros i j Hi Hj. unfold B. rewrite (Hs i j Hi Hj). f_equal. apply rsum_ext. intros. ring. }
    assert (AB : forall y i, apply_matrix n B y i = apply_matrix n A y i - rsum k (fun l => (w l + b) * q i l * dot n (column q l) y)).
    { intros y i. unfold apply_matrix, B, dot.
      rewrite (rsum_ext n _ (fun j => A i j * y j - rsum k (fun l => (w l + b) * q i l * (q j l * y j))))
        by (intros j _; rewrite Rmult_minus_distr_r, <- rsum_scal_r; f_equal; apply rsum_ext; intros; ring).
      rewrite rsum_minus, rsum_swap. f_equal. apply rsum_ext. intros l _. rewrite rsum_scal. reflexivity. }
    assert (AO : forall y i, (forall l, (l < k)%nat -> dot n (column q l) y = 0) -> apply_matrix n B y i = apply_matrix n A y i).
    { intros y i H. rewrite AB, rsum_zero; [ring|]. intros l Hl. rewrite (H l Hl). ring. }
    assert (QO : forall y, (forall l, (l < k)%nat -> dot n (column q l) y = 0) -> quad n B y = quad n A y).
    { intros y H. rewrite !quad_apply. apply dot_ext. intros i _. apply AO, H. }
    destruct (top_eigenvector n B SB ltac:(lia)) as (lam & x & Hx & Ex & Tx).
    assert (Hl : - total n A <= lam).
    { destruct (next_spec n q k (fun _ => 0) O Hk) as (N1 & N2 & _). set (y := next n q k (fun _ => 0)) in *.
      assert (Ny : normsq n y = 1) by (rewrite normsq_dot; exact N1).
      specialize (Tx y). rewrite Ny, Rmult_1_r, (QO y N2) in Tx.
      pose proof (quad_bound n A y) as Qb. rewrite Ny, Rmult_1_r in Qb. apply abs_bounds in Qb. lra. }
    assert (Xo : forall l, (l < k)%nat -> dot n (column q l) x = 0).
    { intros l Hlk. set (d := dot n (column q l) x).
      assert (E1 : dot n (column q l) (apply_matrix n B x) = lam * d).
      { rewrite (dot_ext n _ _ (fun i => lam * x i)) by exact Ex. unfold d, dot. rewrite <- rsum_scal. apply rsum_ext. intros. ring. }
      assert (E2 : dot n (column q l) (apply_matrix n B x) = - b * d).
      { rewrite (apply_dot n B _ _ SB), (dot_ext n _ _ (fun i => - b * q i l)).
        - unfold d. rewrite (dot_sym n (column q l) x). unfold dot. rewrite <- rsum_scal. apply rsum_ext. intros. ring.
        - intros i Hi. rewrite AB, (Eig l i Hlk Hi).
          rewrite (rsum_ext k _ (fun m => if (m =? l)%nat then (w m + b) * q i m else 0)).
          + rewrite (rsum_delta k l (fun m => (w m + b) * q i m) Hlk). ring.
          + intros m Hm. unfold dot. rewrite (O m l Hm Hlk). destruct (m =? l)%nat; ring. }
      assert (F : (lam + b) * d = 0) by lra. apply Rmult_integral in F. unfold b in F. destruct F; lra. }
    exists (fun i j => if (j =? k)%nat then x i else q i j), (fun j => if (j =? k)%nat then lam else w j).
    assert (Nk : forall l, (l < k)%nat -> (l =? k)%nat = false) by (intros; apply Nat.eqb_neq; lia).
    split; [|split].
    - intros l m Hl' Hm'. destruct (Nat.eqb_spec l k) as [->|N1]; destruct (Nat.eqb_spec m k) as [->|N2].
      + rewrite Nat.eqb_refl. rewrite <- Hx, normsq_dot. reflexivity.
      + replace (k =? m)%nat with false by (symmetry; apply Nat.eqb_neq; lia).
        rewrite <- (Xo m ltac:(lia)). unfold dot. apply rsum_ext. intros. ring.
      + replace (l =? k)%nat with false by (symmetry; apply Nat.eqb_neq; lia). apply (Xo l). lia.
      + apply O; lia.
    - intros j i Hj Hi. destruct (Nat.eqb_spec j k) as [->|N].
      + rewrite <- (Ex i Hi), (AO x i Xo). reflexivity.
      + apply Eig; [lia|exact Hi].
    - intros j y Hj Hy. destruct (Nat.eqb_spec j k) as [->|N].
      + rewrite <- QO; [apply Tx|]. intros l Hlk. specialize (Hy l Hlk). rewrite (Nk l Hlk) in Hy. exact Hy.
      + apply Top; [lia|]. intros l Hlj. specialize (Hy l Hlj). rewrite (Nk l) in Hy by lia. exact Hy.
  Qed.

  Lemma find_all k : (k <= n)%nat -> exists q w, found k q w.
  Proof.
    induction k as [|k IH]; intro Hk.
    - exists (fun _ _ => 0), (fun _ => 0). split; [intros l m Hl; lia|]. split; intros; lia.
    - destruct IH as (q & w & F); [lia|]. apply (find_next k q w); [lia|exact F].
  Qed.

  Lemma spectral : exists w v, eigensystem n A w v.
  Proof.
    destruct (find_all n (Nat.le_refl n)) as (q & w & O & Eig & Top).
    exists (fun k => w (n - 1 - k)%nat), (fun i k => q i (n - 1 - k)%nat).
    assert (Rows : forall i j, (i < n)%nat -> (j < n)%nat -> rsum n (fun k => q i k * q j k) = if (i =? j)%nat then 1 else 0).
    { intros i j Hi Hj. pose proof (complete n q (axis j) O i Hi) as C. unfold axis at 1 in C. rewrite C.
      apply rsum_ext. intros k _. rewrite along_axis by exact Hj. reflexivity. }
    split; [|split; [|split]].
    - intros k l Hk Hl. rewrite (O (n - 1 - k)%nat (n - 1 - l)%nat) by lia.
      destruct (Nat.eqb_spec k l); destruct (Nat.eqb_spec (n - 1 - k) (n - 1 - l)); try reflexivity; lia.
    - intros i j Hi Hj. rewrite (rsum_reverse n (fun k => q i k * q j k)). apply Rows; assumption.
    - intros i j Hi Hj. rewrite (rsum_reverse n (fun k => w k * q i k * q j k)).
      transitivity (rsum n (fun m => A i m * axis j m)).
      { unfold axis. rewrite (rsum_ext n _ (fun m => if (m =? j)%nat then A i m else 0)).
        - rewrite (rsum_delta n j (fun m => A i m) Hj). reflexivity.
        - intros m _. destruct (m =? j)%nat; ring. }
      rewrite (rsum_ext n _ (fun m => rsum n (fun k => q j k * (A i m * q m k)))).
      + rewrite rsum_swap. apply rsum_ext. intros k Hk. rewrite rsum_scal.
        pose proof (Eig k i Hk Hi) as E. unfold apply_matrix in E. rewrite E. ring.
      + intros m Hm. unfold axis. rewrite <- (Rows m j Hm Hj), <- rsum_scal. apply rsum_ext. intros. ring.
    - intros k l [Hkl Hl]. set (a := (n - 1 - l)%nat). set (b := (n - 1 - k)%nat).
      pose proof (Top a (column q b) ltac:(unfold a; lia)) as T.
      assert (Nb : normsq n (column q b) = 1).
      { rewrite normsq_dot. unfold dot. rewrite (O b b), Nat.eqb_refl by (unfold b; lia). reflexivity. }
      assert (Qb : quad n A (column q b) = w b).
      { rewrite quad_apply, (dot_ext n _ _ (fun i => w b * q i b)) by (intros i Hi; apply Eig; [unfold b; lia|exact Hi]).
        transitivity (w b * normsq n (column q b)); [|rewrite Nb; ring].
        rewrite normsq_dot. unfold dot. rewrite <- rsum_scal. apply rsum_ext. intros. ring. }
      rewrite Nb, Qb, Rmult_1_r in T. apply T. intros m Hm. unfold dot. rewrite (O m b) by (unfold a, b in *; lia).
      replace (m =? b)%nat with false; [reflexivity|]. symmetry. apply Nat.eqb_neq. unfold a, b in *. lia.
  Qed.
End Spectral.
