(** Convergence of the iteration for the nearest correlation matrix: it is gradient descent for the dual problem. *)
From Coq Require Import Reals Lra Lia List Arith Bool.
From Verif Require Import Base RSum Model_Numeric Proof_Numeric Model_Arrays Spec_Arrays Proof_Arrays Model_Effective Proof_Effective
  Model_Cov Spec_Cov Proof_Cov.
Import ListNotations.
Local Open Scope R_scope.

(** ** Inner products of matrices *)
Section Inner.
  Variable n : nat.
  Definition ip (X Y : mat) : R := rsum n (fun i => rsum n (fun j => X i j * Y i j)).
  Definition axpy (a : R) (X Y : mat) : mat := fun i j => a * X i j + Y i j.

  Lemma ip_ext X X' Y Y' : same n X X' -> same n Y Y' -> ip X Y = ip X' Y'.
  Proof. intros H K. apply rsum_ext. intros i Hi. apply rsum_ext. intros j Hj. rewrite (H i j Hi Hj), (K i j Hi Hj). reflexivity. Qed.
  Lemma ip_sym X Y : ip X Y = ip Y X.
  Proof. apply rsum_ext. intros i Hi. apply rsum_ext. intros j Hj. ring. Qed.
  Lemma ip_axpy a X Y Z : ip (axpy a X Y) Z = a * ip X Z + ip Y Z.
  Proof.
    unfold ip, axpy. rewrite <- rsum_scal, <- rsum_plus. apply rsum_ext. intros i _.
    rewrite <- rsum_scal, <- rsum_plus. apply rsum_ext. intros j _. ring.
  Qed.
  Lemma ip_axpy_r a X Y Z : ip Z (axpy a X Y) = a * ip Z X + ip Z Y.
  Proof. rewrite ip_sym, ip_axpy, (ip_sym X), (ip_sym Y). reflexivity. Qed.
  Lemma ip_minus X Y Z : ip (minus X Y) Z = ip X Z - ip Y Z.
  Proof. transitivity (ip (axpy (-1) Y X) Z); [apply ip_ext; intros i j _ _; unfold axpy, minus; ring|]. rewrite ip_axpy. ring. Qed.
  Lemma ip_minus_r X Y Z : ip Z (minus X Y) = ip Z X - ip Z Y.
  Proof. rewrite ip_sym, ip_minus, (ip_sym X), (ip_sym Y). reflexivity. Qed.
  Lemma ip_nonneg X : 0 <= ip X X.
  Proof. apply rsum_nonneg. intros i _. apply rsum_nonneg. intros j _. pose proof (pow2_ge_0 (X i j)). lra. Qed.
  Lemma ip_distance X Y : distance n X Y = ip (minus X Y) (minus X Y).
  Proof. apply rsum_ext. intros i _. apply rsum_ext. intros j _. unfold minus. ring. Qed.

  (** Diagonal matrices. *)
  Definition diag (d : nat -> R) : mat := fun i j => if (i =? j)%nat then d i else 0.
  Lemma ip_diag d X : ip (diag d) X = rsum n (fun i => d i * X i i).
  Proof.
    apply rsum_ext. intros i Hi. rewrite (rsum_single n i); [unfold diag; rewrite Nat.eqb_refl; reflexivity|exact Hi|].
    intros j Hj N. unfold diag. destruct (Nat.eqb_spec i j) as [E|_]; [subst; contradiction|ring].
  Qed.
  Lemma quad_diag d x : quad n (diag d) x = rsum n (fun i => d i * x i ^ 2).
  Proof.
    apply rsum_ext. intros i Hi. rewrite (rsum_single n i); [unfold diag; rewrite Nat.eqb_refl; ring|exact Hi|].
    intros j Hj N. unfold diag. destruct (Nat.eqb_spec i j) as [E|_]; [subst; contradiction|ring].
  Qed.
  Lemma quad_ip A x : quad n A x = ip A (fun i j => x i * x j).
  Proof. apply rsum_ext. intros i _. apply rsum_ext. intros j _. ring. Qed.
  Lemma square_psd x : positive_semidefinite n (fun i j => x i * x j).
  Proof.
    intro y. unfold quad. replace (rsum n (fun i => rsum n (fun j => y i * (x i * x j) * y j))) with (rsum n (fun i => y i * x i) * rsum n (fun j => x j * y j)).
    - replace (rsum n (fun j => x j * y j)) with (rsum n (fun i => y i * x i)) by (apply rsum_ext; intros; ring).
      pose proof (pow2_ge_0 (rsum n (fun i => y i * x i))). lra.
    - rewrite rsum_mult. apply rsum_ext. intros i _. apply rsum_ext. intros j _. ring.
  Qed.
  Lemma square_norm x : ip (fun i j => x i * x j) (fun i j => x i * x j) = normsq n x ^ 2.
  Proof.
    unfold ip. replace (normsq n x ^ 2) with (normsq n x * normsq n x) by ring. unfold normsq. rewrite rsum_mult.
    apply rsum_ext. intros i _. apply rsum_ext. intros j _. ring.
  Qed.
  Lemma psd_scal a X : 0 <= a -> positive_semidefinite n X -> positive_semidefinite n (fun i j => a * X i j).
  Proof.
    intros Ha H x. unfold quad. replace (rsum n _) with (a * quad n X x); [apply Rmult_le_pos; [exact Ha|apply H]|].
    unfold quad. rewrite <- rsum_scal. apply rsum_ext. intros i _. rewrite <- rsum_scal. apply rsum_ext. intros j _. ring.
  Qed.
  Lemma ip_scal a X Y : ip (fun i j => a * X i j) Y = a * ip X Y.
  Proof. unfold ip. rewrite <- rsum_scal. apply rsum_ext. intros i _. rewrite <- rsum_scal. apply rsum_ext. intros j _. ring. Qed.
End Inner.

(** ** The iteration: [P] is the projection of [R] to the positive semi-definite matrices, [X] a matrix nearby *)
Section Descent.
  Variables (n : nat) (A : mat) (R X P : nat -> mat) (l : nat -> Rdefinitions.R) (r : Rdefinitions.R).
  Hypothesis R_0 : same n (R 0%nat) A.
  Hypothesis R_S : forall k i j, (i < n)%nat -> (j < n)%nat -> R (S k) i j = R k i j + (if (i =? j)%nat then 1 - X k i i else 0).
  Hypothesis P_psd : forall k, positive_semidefinite n (P k).
  Hypothesis P_near : forall k C, positive_semidefinite n C -> ip n (minus (R k) (P k)) (minus C (P k)) <= 0.
  Hypothesis X_near : forall k i, (i < n)%nat -> 0 <= X k i i - P k i i <= r * l k.
  Hypothesis R_top : forall k, 0 <= l k /\ top n (R k) (l k).
  Hypothesis Hr : 0 <= r.

  Definition gap (M : mat) : Rdefinitions.R := rsum n (fun i => (1 - M i i) ^ 2).
  Definition shift k i : Rdefinitions.R := R k i i - A i i.
  (** Twice the function that is minimised. *)
  Definition theta k : Rdefinitions.R := ip n (P k) (P k) - 2 * rsum n (shift k).

  Lemma polar k : ip n (minus (R k) (P k)) (P k) = 0 /\ forall C, positive_semidefinite n C -> ip n (minus (R k) (P k)) C <= 0.
  Proof.
    assert (Z : ip n (minus (R k) (P k)) (P k) = 0).
    { pose proof (P_near k (fun i j => 0 * P k i j) (psd_scal n 0 _ (Rle_refl 0) (P_psd k))) as H0.
      pose proof (P_near k (fun i j => 2 * P k i j) (psd_scal n 2 _ ltac:(lra) (P_psd k))) as H2.
      rewrite ip_minus_r, ip_sym, ip_scal in H0. rewrite ip_minus_r, (ip_sym n _ (fun i j => 2 * P k i j)), ip_scal in H2.
      rewrite (ip_sym n (P k)) in H0. rewrite (ip_sym n (P k)) in H2. lra. }
    split; [exact Z|]. intros C HC. pose proof (P_near k C HC) as H. rewrite ip_minus_r, Z in H. lra.
  Qed.

  Lemma R_shift k : same n (R k) (minus A (diag (fun i => - shift k i))).
  Proof.
    induction k as [|k IH]; intros i j Hi Hj.
    - rewrite (R_0 i j Hi Hj). unfold minus, diag, shift. destruct (Nat.eqb_spec i j) as [<-|_]; [rewrite (R_0 i i Hi Hi); ring|ring].
    - rewrite (R_S k i j Hi Hj). unfold minus, diag. destruct (Nat.eqb_spec i j) as [<-|N].
      + unfold shift. rewrite (R_S k i i Hi Hi), Nat.eqb_refl. ring.
      + rewrite (IH i j Hi Hj). unfold minus, diag. destruct (Nat.eqb_spec i j); [contradiction|ring].
  Qed.

  Lemma ip_R k C : ip n (R k) C = ip n A C + rsum n (fun i => shift k i * C i i).
  Proof.
    rewrite (ip_ext n _ _ C C (R_shift k)) by (intros i j _ _; reflexivity). rewrite ip_minus, ip_diag.
    replace (rsum n (fun i => - shift k i * C i i)) with (- rsum n (fun i => shift k i * C i i)); [ring|].
    rewrite <- rsum_opp. apply rsum_ext. intros; ring.
  Qed.

  (** The squared length of the projection grows at most as that of the matrix moved. *)
  Lemma theta_step k : theta (S k) <= theta k - gap (X k) / 2 + 2 * rsum n (fun i => (X k i i - P k i i) ^ 2).
  Proof.
    set (h := fun i => 1 - X k i i).
    assert (M : same n (R (S k)) (axpy 1 (diag h) (R k))).
    { intros i j Hi Hj. rewrite (R_S k i j Hi Hj). unfold axpy, diag, h. destruct (Nat.eqb_spec i j) as [<-|_]; ring. }
    (* the projection of the new matrix *)
    set (N := minus (R k) (P k)). set (N' := minus (R (S k)) (P (S k))).
    destruct (polar k) as [Z Po]. destruct (polar (S k)) as [Z' Po']. fold N in Z, Po. fold N' in Z', Po'.
    assert (G : ip n (P (S k)) (P (S k)) <= ip n (axpy 1 (diag h) (P k)) (axpy 1 (diag h) (P k))).
    { assert (Sm : same n (axpy 1 (diag h) (P k)) (axpy 1 (P (S k)) (minus N' N))).
      { intros i j Hi Hj. unfold axpy, N', N, minus. rewrite (M i j Hi Hj). unfold axpy. ring. }
      rewrite (ip_ext n _ _ _ _ Sm Sm). rewrite ip_axpy, !ip_axpy_r.
      assert (K1 : ip n (minus N' N) (P (S k)) = ip n N' (P (S k)) - ip n N (P (S k))) by apply ip_minus.
      assert (K2 := ip_sym n (P (S k)) (minus N' N)). pose proof (Po (P (S k)) (P_psd (S k))). pose proof (ip_nonneg n (minus N' N)). lra. }
    rewrite ip_axpy, !ip_axpy_r, (ip_sym n (P k) (diag h)), !ip_diag in G.
    assert (S1 : rsum n (shift (S k)) = rsum n (shift k) + rsum n h).
    { rewrite <- rsum_plus. apply rsum_ext. intros i Hi. unfold shift. rewrite (R_S k i i Hi Hi), Nat.eqb_refl. unfold h. ring. }
    assert (D : rsum n (fun i => h i * diag h i i) = gap (X k)).
    { apply rsum_ext. intros i _. unfold diag. rewrite Nat.eqb_refl. unfold h. ring. }
    rewrite D in G. unfold theta. rewrite S1.
    assert (B : 2 * rsum n (fun i => h i * P k i i) - 2 * rsum n h <= - (3 / 2) * gap (X k) + 2 * rsum n (fun i => (X k i i - P k i i) ^ 2)).
    { unfold gap. rewrite <- !rsum_scal, <- rsum_minus, <- rsum_plus. apply rsum_le. intros i _. fold (h i).
      set (e := X k i i - P k i i). replace (P k i i) with (1 - h i - e) by (unfold h, e; ring). pose proof (pow2_ge_0 (h i + 2 * e)). nra. }
    lra.
  Qed.

  Section Bounds.
    Variable C : mat.
    Hypothesis C_unit : unit_diag n C.
    Hypothesis C_psd : positive_semidefinite n C.

    Lemma theta_lower k : ip n (minus (P k) C) (minus (P k) C) - ip n C C + 2 * ip n A C <= theta k.
    Proof.
      destruct (polar k) as [_ Po]. specialize (Po C C_psd). rewrite ip_minus, ip_R in Po.
      rewrite ip_minus, !ip_minus_r, (ip_sym n C (P k)). unfold theta.
      replace (rsum n (fun i => shift k i * C i i)) with (rsum n (shift k)) in Po; [lra|].
      apply rsum_ext. intros i Hi. rewrite (C_unit i Hi). ring.
    Qed.
  End Bounds.

  Lemma theta_0 : theta 0 <= ip n A A.
  Proof.
    unfold theta. replace (rsum n (shift 0)) with 0 by (symmetry; apply rsum_zero; intros i Hi; unfold shift; rewrite (R_0 i i Hi Hi); ring).
    destruct (polar 0) as [Z _]. pose proof (ip_nonneg n (minus (R 0%nat) (P 0%nat))) as G. rewrite ip_minus_r, Z, ip_minus in G.
    rewrite ip_minus in Z. rewrite <- (ip_ext n _ _ _ _ R_0 R_0). rewrite (ip_sym n (R 0%nat) (P 0%nat)) in Z. lra.
  Qed.

  (** The largest eigenvalue stays bounded. *)
  Lemma top_bound C m k : unit_diag n C -> positive_semidefinite n C -> at_most n m C -> theta k <= ip n A A ->
    l k <= sqrt (distance n A C) + m.
  Proof.
    intros UC PC MC T. destruct (R_top k) as [Hl [_ (u & Nu & Qu)]]. rewrite quad_ip in Qu.
    destruct (polar k) as [_ Po]. specialize (Po _ (square_psd n u)). set (U := fun i j => u i * u j) in *. rewrite ip_minus, Qu in Po.
    pose proof (theta_lower C UC PC k) as L.
    assert (D : ip n (minus (P k) C) (minus (P k) C) <= distance n A C).
    { rewrite ip_distance, !ip_minus, !ip_minus_r, (ip_sym n C A). rewrite !ip_minus, !ip_minus_r in L. lra. }
    set (E := minus (P k) C) in *. set (s := ip n E U).
    assert (S1 : s ^ 2 <= ip n E E).
    { pose proof (ip_nonneg n (axpy (- s) U E)) as G. rewrite ip_axpy, !ip_axpy_r, (ip_sym n U E) in G. fold s in G.
      assert (NU : ip n U U = 1) by (unfold U; rewrite square_norm, Nu; ring). rewrite NU in G. nra. }
    assert (S2 : s <= sqrt (distance n A C)).
    { destruct (Rle_dec s 0) as [K|K]; [eapply Rle_trans; [exact K|apply sqrt_pos]|]. rewrite <- (sqrt_pow2 s) by lra. apply sqrt_le_1_alt. lra. }
    assert (S3 : ip n C U <= m) by (pose proof (MC u) as Q; rewrite quad_ip, Nu in Q; fold U in Q; lra).
    assert (S4 : s = ip n (P k) U - ip n C U) by apply ip_minus. lra.
  Qed.

  (** As long as the gap is large, the function decreases. *)
  Lemma descent C m t k : unit_diag n C -> positive_semidefinite n C -> at_most n m C ->
    0 <= t -> 4 * (r * (sqrt (distance n A C) + m)) <= t -> (forall j, (j < k)%nat -> INR n * t ^ 2 <= gap (X j)) ->
    theta k <= ip n A A - 3 / 8 * rsum k (fun j => gap (X j)).
  Proof.
    intros UC PC MC Ht HT. induction k as [|k IH]; intro Hg.
    - cbn [rsum]. pose proof theta_0. lra.
    - assert (Tk : theta k <= ip n A A - 3 / 8 * rsum k (fun j => gap (X j))) by (apply IH; intros j Hj; apply Hg; lia).
      assert (G : forall j, 0 <= gap (X j)) by (intro j; apply rsum_nonneg; intros; apply pow2_ge_0).
      assert (Gs : 0 <= rsum k (fun j => gap (X j))) by (apply rsum_nonneg; intros; apply G).
      pose proof (top_bound C m k UC PC MC ltac:(lra)) as Hl.
      assert (E : rsum n (fun i => (X k i i - P k i i) ^ 2) <= INR n * (t / 4) ^ 2).
      { rewrite <- rsum_const. apply rsum_le. intros i Hi. pose proof (X_near k i Hi) as [E1 E2].
        assert (r * l k <= r * (sqrt (distance n A C) + m)) by (apply Rmult_le_compat_l; assumption).
        apply pow_incr. lra. }
      pose proof (theta_step k) as St. specialize (Hg k ltac:(lia)). cbn [rsum]. lra.
  Qed.

  (** So it cannot be large for long. *)
  Lemma descent_rounds C m t k : unit_diag n C -> positive_semidefinite n C -> at_most n m C ->
    0 <= t -> 4 * (r * (sqrt (distance n A C) + m)) <= t -> (forall j, (j < k)%nat -> INR n * t ^ 2 <= gap (X j)) ->
    INR k * (INR n * t ^ 2) <= 8 / 3 * distance n A C.
  Proof.
    intros UC PC MC Ht HT Hg. pose proof (descent C m t k UC PC MC Ht HT Hg) as D. pose proof (theta_lower C UC PC k) as L.
    pose proof (ip_nonneg n (minus (P k) C)) as G.
    assert (K : INR k * (INR n * t ^ 2) <= rsum k (fun j => gap (X j))) by (rewrite <- rsum_const; apply rsum_le; exact Hg).
    rewrite ip_distance, ip_minus, !ip_minus_r, (ip_sym n C A). lra.
  Qed.

  (** And when it is small, the projection is nearly the nearest. *)
  Lemma nearly C k : unit_diag n C -> positive_semidefinite n C -> theta k <= ip n A A ->
    distance n A (P k) + distance n (P k) C <= distance n A C + 2 * (ip n A A + 2 * (INR n + 1)) * sqrt (gap (P k)).
  Proof.
    intros UC PC T. destruct (polar k) as [Z Po].
    assert (G0 : 0 <= gap (P k)) by (apply rsum_nonneg; intros; apply pow2_ge_0).
    set (s := sqrt (gap (P k))). assert (Hs : s * s = gap (P k)) by (apply sqrt_sqrt; exact G0). assert (Hs0 : 0 <= s) by apply sqrt_pos.
    assert (B : - rsum n (fun i => shift k i * (1 - P k i i)) <= (ip n A A + 2 * (INR n + 1)) * s).
    { destruct (Req_dec s 0) as [E|E].
      - rewrite E, Rmult_0_r in *. rewrite rsum_zero; [lra|]. intros i Hi.
        assert (Q : (1 - P k i i) ^ 2 <= gap (P k)).
        { unfold gap. eapply Rle_trans; [|apply (rsum_le n (fun j => (if (j =? i)%nat then 1 else 0) * (1 - P k j j) ^ 2))].
          - rewrite (rsum_if n i (fun j => (1 - P k j j) ^ 2)) by exact Hi. apply Rle_refl.
          - intros j _. pose proof (pow2_ge_0 (1 - P k j j)). destruct (j =? i)%nat; lra. }
        rewrite <- Hs in Q. assert (1 - P k i i = 0) by (apply Rsqr_0_uniq; unfold Rsqr; pose proof (pow2_ge_0 (1 - P k i i)); lra). rewrite H. ring.
      - set (e := fun i => - (1 - P k i i) / s). set (c := fun i => 1 + e i).
        assert (Se : rsum n (fun i => e i ^ 2) = 1).
        { transitivity (rsum n (fun i => / (s * s) * (1 - P k i i) ^ 2)); [apply rsum_ext; intros; unfold e; field; exact E|].
          rewrite rsum_scal. fold (gap (P k)). rewrite <- Hs. field. exact E. }
        assert (E1 : forall i, (i < n)%nat -> 0 <= c i).
        { intros i Hi. assert (Q : e i ^ 2 <= 1).
          { rewrite <- Se. eapply Rle_trans; [|apply (rsum_le n (fun j => (if (j =? i)%nat then 1 else 0) * e j ^ 2))].
            - rewrite (rsum_if n i (fun j => e j ^ 2)) by exact Hi. apply Rle_refl.
            - intros j _. pose proof (pow2_ge_0 (e j)). destruct (j =? i)%nat; lra. }
          unfold c. nra. }
        assert (Pd : positive_semidefinite n (diag c)).
        { intro x. rewrite quad_diag. apply rsum_nonneg. intros i Hi. apply Rmult_le_pos; [apply E1; exact Hi|apply pow2_ge_0]. }
        pose proof (Po _ Pd) as H. rewrite ip_minus, ip_R in H.
        assert (H1 : rsum n (fun i => shift k i * diag c i i) = rsum n (shift k) + rsum n (fun i => shift k i * e i)).
        { rewrite <- rsum_plus. apply rsum_ext. intros i _. unfold diag, c. rewrite Nat.eqb_refl. ring. }
        rewrite H1 in H.
        assert (Cc : ip n (diag c) (diag c) <= 2 * (INR n + 1)).
        { rewrite ip_diag. replace (2 * (INR n + 1)) with (rsum n (fun _ => 2) + 2 * rsum n (fun i => e i ^ 2)) by (rewrite Se, rsum_const; ring).
          rewrite <- rsum_scal, <- rsum_plus. apply rsum_le. intros i _. unfold diag. rewrite Nat.eqb_refl. unfold c. pose proof (pow2_ge_0 (1 - e i)). lra. }
        pose proof (ip_nonneg n (axpy 1 A (diag c))) as G1. rewrite ip_axpy, !ip_axpy_r, (ip_sym n (diag c) A) in G1.
        pose proof (ip_nonneg n (minus (P k) (diag c))) as G2. rewrite ip_minus, !ip_minus_r, (ip_sym n (diag c) (P k)) in G2.
        unfold theta in T.
        assert (F : rsum n (fun i => shift k i * e i) <= ip n A A + 2 * (INR n + 1)) by lra.
        replace (- rsum n (fun i => shift k i * (1 - P k i i))) with (rsum n (fun i => shift k i * e i) * s).
        + apply Rmult_le_compat_r; assumption.
        + rewrite <- rsum_scal_r, <- rsum_opp. apply rsum_ext. intros i _. unfold e. field. exact E. }
    assert (I : ip n (minus A (P k)) (minus C (P k)) <= (ip n A A + 2 * (INR n + 1)) * s).
    { pose proof (P_near k C PC) as H. rewrite ip_minus, ip_R in H. rewrite ip_minus.
      assert (Q : rsum n (fun i => shift k i * minus C (P k) i i) = rsum n (fun i => shift k i * (1 - P k i i))).
      { apply rsum_ext. intros i Hi. unfold minus. rewrite (UC i Hi). reflexivity. }
      rewrite Q in H. lra. }
    rewrite ip_minus, !ip_minus_r in I. rewrite !ip_distance, !ip_minus, !ip_minus_r, (ip_sym n C A), (ip_sym n C (P k)), (ip_sym n (P k) A). lra.
  Qed.
End Descent.

(** ** The matrices of the loop *)
Section Loop.
  Variable eigh : nat -> mat -> (nat -> R) * mat.
  Variable eps : R.
  Variable n : nat.
  Hypothesis Hn : (0 < n)%nat.
  Hypothesis eigh_ok : forall A, symmetric n A -> eigensystem n A (fst (eigh n A)) (snd (eigh n A)).
  Hypothesis eps_ok : 0 <= INR n * eps <= 1.

  Lemma ip_combination v (e : nat -> R) Z : ip n (with_eigenvalues n v e) Z = rsum n (fun k => e k * quad n Z (fun i => v i k)).
  Proof.
    unfold ip, with_eigenvalues, quad.
    transitivity (rsum n (fun i => rsum n (fun k => rsum n (fun j => e k * (v i k * Z i j * v j k))))).
    - apply rsum_ext. intros i _. rewrite rsum_swap. apply rsum_ext. intros j _. rewrite <- rsum_scal_r. apply rsum_ext. intros k _. ring.
    - rewrite rsum_swap. apply rsum_ext. intros k _. rewrite <- rsum_scal. apply rsum_ext. intros i _. rewrite rsum_scal. reflexivity.
  Qed.

  (** The clipped matrix is close to the projection. *)
  Lemma clip_both M l : symmetric n M -> top n M l -> 0 <= l ->
    exists X P, clip_matrix eigh eps n None M = Some X /\ clip_matrix eigh eps n (Some 0) M = Some P /\
      symmetric n X /\ symmetric n P /\ positive_semidefinite n P /\
      (forall C, positive_semidefinite n C -> ip n (minus M P) (minus C P) <= 0) /\
      (forall i, (i < n)%nat -> 0 <= X i i - P i i <= INR n * eps * l) /\ distance n X P <= INR n * (INR n * eps * l) ^ 2.
  Proof.
    intros Sy T Hl. pose proof (eigh_ok M Sy) as Es. destruct (eigh n M) as [w v] eqn:Ee. cbn [fst snd] in Es.
    pose proof (proj1 (system_top n M w v Es l Hn) T) as Tl.
    destruct (clip_matrix_spec eigh eps n Hn (Some 0) M w v l Ee Es T (Rle_refl 0) Hl) as (P & EP & SP & LP & _ & _ & _ & VP & _).
    destruct (clip_matrix_eq eigh eps n (Some 0) M w v Ee) as [H0 _]. cbv zeta in H0. rewrite <- Tl, Rmult_0_l in H0.
    destruct (H0 (Rle_refl 0)) as (P' & EP' & WP & _). rewrite EP in EP'. injection EP' as <-.
    destruct (clip_matrix_eq eigh eps n None M w v Ee) as [H1 _]. cbv zeta in H1. rewrite <- Tl in H1.
    set (c := INR n * eps * l) in *. assert (Hc : 0 <= c) by (apply Rmult_le_pos; [apply eps_ok|exact Hl]).
    destruct (H1 Hc) as (X & EX & WX & SX). exists X, P. split; [exact EX|]. split; [exact EP|]. split; [exact SX|]. split; [exact SP|].
    split; [intro x; specialize (LP x); lra|]. split.
    { intros C HC. apply VP. intro x. specialize (HC x). lra. }
    set (e := fun k => Rmax (w k) c - Rmax (w k) 0).
    assert (Be : forall k, 0 <= e k <= c).
    { intro k. unfold e, Rmax. destruct (Rle_dec (w k) c), (Rle_dec (w k) 0); lra. }
    assert (WE : same n (minus X P) (with_eigenvalues n v e)).
    { intros i j Hi Hj. unfold minus. rewrite (WX i j Hi Hj), (WP i j Hi Hj). unfold with_eigenvalues. rewrite <- rsum_minus.
      apply rsum_ext. intros k _. unfold e. ring. }
    split.
    - intros i Hi. change (X i i - P i i) with (minus X P i i). rewrite (WE i i Hi Hi).
      pose proof (with_at_least n M w v Es e 0 ltac:(intros; apply Be)) as L0. pose proof (with_at_most n M w v Es e c ltac:(intros; apply Be)) as L1.
      specialize (L0 (fun k => if (k =? i)%nat then 1 else 0)). specialize (L1 (fun k => if (k =? i)%nat then 1 else 0)).
      rewrite unit_vector, quad_unit in L0, L1 by exact Hi. lra.
    - rewrite ip_distance, (ip_ext n _ _ _ _ WE WE), ip_combination. rewrite <- rsum_const. apply rsum_le. intros k Hk.
      destruct (Be k) as [B0 B1].
      pose proof (with_at_most n M w v Es e c ltac:(intros; apply Be) (fun i => v i k)) as L1.
      assert (Nv : normsq n (fun i => v i k) = 1).
      { destruct Es as (O & _). specialize (O k k Hk Hk). rewrite Nat.eqb_refl in O. rewrite <- O. apply rsum_ext. intros; ring. }
      rewrite Nv, Rmult_1_r in L1.
      pose proof (with_at_least n M w v Es e 0 ltac:(intros; apply Be) (fun i => v i k)) as L0. rewrite Rmult_0_l in L0.
      replace (c ^ 2) with (c * c) by ring. apply Rmult_le_compat; lra.
  Qed.

  Variable A : mat.
  Hypothesis A_sym : symmetric n A.
  Hypothesis A_up : exists x, normsq n x = 1 /\ 0 <= quad n A x.

  Definition start : option (mat * mat) := Some (A, fun _ _ => 0).
  Definition Rk (k : nat) : mat := match rounds eigh eps n k start with Some (Y, D) => minus Y D | None => A end.
  Definition Xk (k : nat) : mat := match clip_matrix eigh eps n None (Rk k) with Some X => X | None => A end.
  Definition Pk (k : nat) : mat := match clip_matrix eigh eps n (Some 0) (Rk k) with Some X => X | None => A end.
  Definition lk (k : nat) : R := largest n (fst (eigh n (Rk k))).

  Lemma round_k k : exists Y D, rounds eigh eps n k start = Some (Y, D) /\ Rk k = minus Y D /\ symmetric n (Rk k) /\ 0 <= lk k /\ top n (Rk k) (lk k).
  Proof.
    destruct (inv_rounds eigh eps n Hn eigh_ok eps_ok A k A_sym A_up) as ([Y D] & E & I). exists Y, D. unfold Rk, start. rewrite E. split; [reflexivity|].
    split; [reflexivity|]. destruct I as (Sy & _ & x & Nx & Qx). cbn [fst snd] in *. split; [exact Sy|].
    assert (T : top n (minus Y D) (lk k)) by (unfold lk, Rk, start; rewrite E; apply top_exists; assumption).
    split; [|exact T]. destruct T as [T _]. specialize (T x). rewrite Nx in T. lra.
  Qed.

  Lemma clip_k k : clip_matrix eigh eps n None (Rk k) = Some (Xk k) /\ symmetric n (Xk k) /\ symmetric n (Pk k) /\ positive_semidefinite n (Pk k) /\
      (forall C, positive_semidefinite n C -> ip n (minus (Rk k) (Pk k)) (minus C (Pk k)) <= 0) /\
      (forall i, (i < n)%nat -> 0 <= Xk k i i - Pk k i i <= INR n * eps * lk k) /\ distance n (Xk k) (Pk k) <= INR n * (INR n * eps * lk k) ^ 2.
  Proof.
    destruct (round_k k) as (Y & D & E & ER & Sy & Hl & T). destruct (clip_both (Rk k) (lk k) Sy T Hl) as (X & P & EX & EP & H).
    unfold Xk, Pk. rewrite EX, EP. split; [reflexivity|exact H].
  Qed.

  Lemma Rk_0 : same n (Rk 0) A.
  Proof. intros i j _ _. unfold Rk, start. cbn [rounds]. unfold minus. ring. Qed.
  Lemma Rk_S k i j : (i < n)%nat -> (j < n)%nat -> Rk (S k) i j = Rk k i j + (if (i =? j)%nat then 1 - Xk k i i else 0).
  Proof.
    intros _ _. destruct (round_k k) as (Y & D & E & ER & _). destruct (clip_k k) as (EX & _). rewrite ER in EX.
    unfold Rk at 1. rewrite rounds_S, E. cbn [next]. rewrite EX, ER. unfold minus, unit_diagonal. destruct (Nat.eqb_spec i j) as [<-|_]; ring.
  Qed.

  Lemma round_value k : option_map fst (rounds eigh eps n (S k) start) = Some (unit_diagonal (Xk k)).
  Proof.
    destruct (round_k k) as (Y & D & E & ER & _). destruct (clip_k k) as (EX & _). rewrite ER in EX. rewrite rounds_S, E. cbn [next]. rewrite EX. reflexivity.
  Qed.

  Lemma frob_gap X : frob n (minus (unit_diagonal X) X) = sqrt (gap n X).
  Proof.
    unfold frob, gap. f_equal. apply rsum_ext. intros i Hi. rewrite (rsum_single n i); [|exact Hi|].
    - unfold minus, unit_diagonal. rewrite Nat.eqb_refl. ring.
    - intros j Hj N. unfold minus, unit_diagonal. destruct (Nat.eqb_spec i j) as [K|_]; [subst; contradiction|ring].
  Qed.
  Lemma frob_unit X : INR n <= rsum n (fun i => rsum n (fun j => unit_diagonal X i j ^ 2)).
  Proof.
    replace (INR n) with (rsum n (fun _ => 1)) by (rewrite rsum_const; ring). apply rsum_le. intros i Hi.
    eapply Rle_trans; [|apply (rsum_le n (fun j => (if (j =? i)%nat then 1 else 0) * unit_diagonal X i j ^ 2))].
    - rewrite (rsum_if n i (fun j => unit_diagonal X i j ^ 2)) by exact Hi. unfold unit_diagonal. rewrite Nat.eqb_refl. lra.
    - intros j _. pose proof (pow2_ge_0 (unit_diagonal X i j)). destruct (j =? i)%nat; lra.
  Qed.
  (** A round after which the loop goes on has a large gap. *)
  Lemma gap_large t X : 0 <= t -> ~ frob n (minus (unit_diagonal X) X) <= t * frob n (unit_diagonal X) -> INR n * t ^ 2 <= gap n X.
  Proof.
    intros Ht H. rewrite frob_gap in H. unfold frob in H. pose proof (frob_unit X) as U. set (u := rsum n _) in *.
    assert (G : 0 <= gap n X) by (apply rsum_nonneg; intros; apply pow2_ge_0).
    pose proof (pos_INR n). assert (Q : t * sqrt u <= sqrt (gap n X)) by lra.
    assert (Q2 : (t * sqrt u) ^ 2 <= sqrt (gap n X) ^ 2) by (apply pow_incr; split; [apply Rmult_le_pos; [exact Ht|apply sqrt_pos]|exact Q]).
    replace ((t * sqrt u) ^ 2) with (t ^ 2 * (sqrt u * sqrt u)) in Q2 by ring.
    replace (sqrt (gap n X) ^ 2) with (sqrt (gap n X) * sqrt (gap n X)) in Q2 by ring.
    rewrite !sqrt_sqrt in Q2 by lra. pose proof (pow2_ge_0 t). nra.
  Qed.

  (** The conclusions for this sequence. *)
  Lemma loop_rounds C m t k : unit_diag n C -> positive_semidefinite n C -> at_most n m C ->
    0 <= t -> 4 * (INR n * eps * (sqrt (distance n A C) + m)) <= t -> (forall j, (j < k)%nat -> INR n * t ^ 2 <= gap n (Xk j)) ->
    INR k * (INR n * t ^ 2) <= 8 / 3 * distance n A C.
  Proof.
    intros. apply (descent_rounds n A Rk Xk Pk lk (INR n * eps) Rk_0 Rk_S) with (m := m); try assumption.
    - intro; apply clip_k.
    - intros j C'. apply (clip_k j).
    - intros j i Hi. apply (clip_k j). exact Hi.
    - intro j. destruct (round_k j) as (_ & _ & _ & _ & _ & R1). exact R1.
    - apply eps_ok.
  Qed.

  Lemma loop_nearly C m t k C' : unit_diag n C -> positive_semidefinite n C -> at_most n m C ->
    0 <= t -> 4 * (INR n * eps * (sqrt (distance n A C) + m)) <= t -> (forall j, (j < k)%nat -> INR n * t ^ 2 <= gap n (Xk j)) ->
    unit_diag n C' -> positive_semidefinite n C' ->
    4 * (INR n * eps * lk k) <= t /\
    distance n A (Pk k) + distance n (Pk k) C' <= distance n A C' + 2 * (distance n A (fun _ _ => 0) + 2 * (INR n + 1)) * sqrt (gap n (Pk k)).
  Proof.
    intros UC PC MC Ht HT Hg UC' PC'.
    assert (Th : theta n A Rk Pk k <= ip n A A).
    { pose proof (descent n A Rk Xk Pk lk (INR n * eps) Rk_0 Rk_S ltac:(intro; apply clip_k) ltac:(intros j C0; apply (clip_k j))
        ltac:(intros j i Hi; apply (clip_k j); exact Hi) ltac:(intro j; destruct (round_k j) as (_ & _ & _ & _ & _ & R1); exact R1) (proj1 eps_ok)
        C m t k UC PC MC Ht HT Hg) as D.
      assert (0 <= rsum k (fun j => gap n (Xk j))) by (apply rsum_nonneg; intros; apply rsum_nonneg; intros; apply pow2_ge_0). lra. }
    split.
    - pose proof (top_bound n A Rk Xk Pk lk Rk_0 Rk_S ltac:(intro; apply clip_k) ltac:(intros j C0; apply (clip_k j))
        ltac:(intro j; destruct (round_k j) as (_ & _ & _ & _ & _ & R1); exact R1) C m k UC PC MC Th) as B.
      assert (INR n * eps * lk k <= INR n * eps * (sqrt (distance n A C) + m)) by (apply Rmult_le_compat_l; [apply eps_ok|exact B]). lra.
    - replace (distance n A (fun _ _ => 0)) with (ip n A A) by (apply rsum_ext; intros; apply rsum_ext; intros; ring).
      apply (nearly n A Rk Xk Pk Rk_0 Rk_S); try assumption; [intro; apply clip_k|intros j C0; apply (clip_k j)].
  Qed.

  Lemma gap_distance X P : gap n P <= distance n (unit_diagonal X) P.
  Proof.
    apply rsum_le. intros i Hi.
    eapply Rle_trans; [|apply (rsum_le n (fun j => (if (j =? i)%nat then 1 else 0) * (unit_diagonal X i j - P i j) ^ 2))].
    - rewrite (rsum_if n i (fun j => (unit_diagonal X i j - P i j) ^ 2)) by exact Hi. unfold unit_diagonal. rewrite Nat.eqb_refl.
      right. ring.
    - intros j _. pose proof (pow2_ge_0 (unit_diagonal X i j - P i j)). destruct (j =? i)%nat; lra.
  Qed.

  Lemma distance_twice (X Y Z : mat) : distance n X Z <= 2 * distance n X Y + 2 * distance n Y Z.
  Proof.
    unfold distance. rewrite <- !rsum_scal, <- rsum_plus. apply rsum_le. intros i _. rewrite <- !rsum_scal, <- rsum_plus. apply rsum_le. intros j _.
    pose proof (pow2_ge_0 (X i j - Y i j - (Y i j - Z i j))). lra.
  Qed.

  (** Without rounding up of eigenvalues every round makes progress. *)
  Lemma loop_exact C k : eps = 0 -> unit_diag n C -> positive_semidefinite n C -> rsum k (fun j => gap n (Xk j)) <= 2 * distance n A C.
  Proof.
    intros E0 UC PC.
    assert (Th : theta n A Rk Pk k <= ip n A A - / 2 * rsum k (fun j => gap n (Xk j))).
    { induction k as [|k IH].
      - cbn [rsum]. pose proof (theta_0 n A Rk Pk Rk_0 ltac:(intro; apply clip_k) ltac:(intros j C0; apply (clip_k j))). lra.
      - pose proof (theta_step n A Rk Xk Pk Rk_S ltac:(intro; apply clip_k) ltac:(intros j C0; apply (clip_k j)) k) as St.
        rewrite (rsum_zero n (fun i => (Xk k i i - Pk k i i) ^ 2)) in St.
        + cbn [rsum]. lra.
        + intros i Hi. destruct (clip_k k) as (_ & _ & _ & _ & _ & H & _). specialize (H i Hi). rewrite E0, Rmult_0_r, Rmult_0_l in H.
          replace (Xk k i i - Pk k i i) with 0 by lra. ring. }
    pose proof (theta_lower n A Rk Xk Pk Rk_0 Rk_S ltac:(intro; apply clip_k) ltac:(intros j C0; apply (clip_k j)) C UC PC k) as L.
    pose proof (ip_nonneg n (minus (Pk k) C)) as G.
    rewrite ip_distance, !ip_minus, !ip_minus_r, (ip_sym n C A). lra.
  Qed.
End Loop.
