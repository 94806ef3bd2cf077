(** Lemmas about covariance matrices. *)
From Coq Require Import Reals Lra Lia List Arith Bool.
From Verif Require Import Base RSum Model_Numeric Proof_Numeric Model_Arrays Proof_Arrays Model_Effective Proof_Effective Model_Cov Spec_Cov Spec_Arrays.
Import ListNotations.
Local Open Scope R_scope.

Lemma largest_ge n w k : (k < n)%nat -> w k <= largest n w.
Proof.
  induction n as [|n IH]; [lia|]. intro H. destruct n as [|n].
  - replace k with O by lia. cbn. lra.
  - change (largest (S (S n)) w) with (Rmax (largest (S n) w) (w (S n))). destruct (Nat.eq_dec k (S n)) as [->|N].
    + apply Rmax_r.
    + eapply Rle_trans; [apply IH; lia|apply Rmax_l].
Qed.
Lemma largest_in n w : (0 < n)%nat -> exists k, (k < n)%nat /\ largest n w = w k.
Proof.
  induction n as [|n IH]; [lia|]. intros _. destruct n as [|n].
  - exists O. split; [lia|reflexivity].
  - change (largest (S (S n)) w) with (Rmax (largest (S n) w) (w (S n))).
    destruct (IH ltac:(lia)) as (k & Hk & E). unfold Rmax. destruct (Rle_dec (largest (S n) w) (w (S n))).
    + exists (S n). split; [lia|reflexivity].
    + exists k. split; [lia|exact E].
Qed.

(** ** Sums *)
Lemma rsum_if n k f : (k < n)%nat -> rsum n (fun i => (if (i =? k)%nat then 1 else 0) * f i) = f k.
Proof.
  intro H. rewrite (rsum_single n k); [rewrite Nat.eqb_refl; ring|exact H|].
  intros i _ N. destruct (Nat.eqb_spec i k); [contradiction|ring].
Qed.
Lemma rsum_mult n m f g : rsum n f * rsum m g = rsum n (fun i => rsum m (fun j => f i * g j)).
Proof. rewrite <- rsum_scal_r. apply rsum_ext. intros i _. rewrite <- rsum_scal. reflexivity. Qed.

Section Matrix.
  Variable n : nat.
  Implicit Types A B C : nat -> nat -> R.

  Lemma normsq_nonneg x : 0 <= normsq n x.
  Proof. apply rsum_nonneg. intros i _. apply pow2_ge_0. Qed.

  Lemma quad_ext A B x : same n A B -> quad n A x = quad n B x.
  Proof. intro H. apply rsum_ext. intros i Hi. apply rsum_ext. intros j Hj. rewrite (H i j Hi Hj). reflexivity. Qed.

  Lemma quad_combination (d : nat -> R) (v : nat -> nat -> R) x :
    quad n (fun i j => rsum n (fun k => d k * v i k * v j k)) x = rsum n (fun k => d k * (rsum n (fun i => v i k * x i)) ^ 2).
  Proof.
    unfold quad.
    transitivity (rsum n (fun i => rsum n (fun j => rsum n (fun k => d k * ((v i k * x i) * (v j k * x j)))))).
    - apply rsum_ext. intros i Hi. apply rsum_ext. intros j Hj. rewrite <- rsum_scal, <- rsum_scal_r. apply rsum_ext. intros k Hk. ring.
    - transitivity (rsum n (fun i => rsum n (fun k => rsum n (fun j => d k * ((v i k * x i) * (v j k * x j)))))).
      { apply rsum_ext. intros i Hi. apply rsum_swap. }
      rewrite rsum_swap. apply rsum_ext. intros k Hk. replace ((rsum n (fun i => v i k * x i)) ^ 2) with
        (rsum n (fun i => v i k * x i) * rsum n (fun i => v i k * x i)) by ring.
      rewrite rsum_mult, <- rsum_scal. apply rsum_ext. intros i Hi. rewrite <- rsum_scal. reflexivity.
  Qed.

  (** Inner product of matrices, with a combination of squares of vectors. *)
  Lemma inner_combination (d : nat -> R) (v : nat -> nat -> R) C :
    rsum n (fun i => rsum n (fun j => rsum n (fun k => d k * v i k * v j k) * C i j)) =
    rsum n (fun k => d k * quad n C (fun i => v i k)).
  Proof.
    transitivity (rsum n (fun i => rsum n (fun j => rsum n (fun k => d k * (v i k * C i j * v j k))))).
    - apply rsum_ext. intros i Hi. apply rsum_ext. intros j Hj. rewrite <- rsum_scal_r. apply rsum_ext. intros k Hk. ring.
    - transitivity (rsum n (fun i => rsum n (fun k => rsum n (fun j => d k * (v i k * C i j * v j k))))).
      { apply rsum_ext. intros i Hi. apply rsum_swap. }
      rewrite rsum_swap. apply rsum_ext. intros k Hk. unfold quad. rewrite <- rsum_scal. apply rsum_ext. intros i Hi.
      rewrite <- rsum_scal. reflexivity.
  Qed.

  Section System.
    Variables (A : nat -> nat -> R) (w : nat -> R) (v : nat -> nat -> R).
    Hypothesis E : eigensystem n A w v.

    Lemma projections x : rsum n (fun k => (rsum n (fun i => v i k * x i)) ^ 2) = normsq n x.
    Proof.
      destruct E as (_ & O & _).
      transitivity (rsum n (fun k => 1 * (rsum n (fun i => v i k * x i)) ^ 2)); [apply rsum_ext; intros; ring|].
      rewrite <- (quad_combination (fun _ => 1) v x). unfold quad, normsq. apply rsum_ext. intros i Hi.
      transitivity (rsum n (fun j => (if (j =? i)%nat then 1 else 0) * (x i * x j))).
      - apply rsum_ext. intros j Hj. replace (rsum n (fun k => 1 * v i k * v j k)) with (rsum n (fun k => v i k * v j k)) by (apply rsum_ext; intros; ring).
        rewrite (O i j Hi Hj), (Nat.eqb_sym j i). ring.
      - rewrite rsum_if by exact Hi. ring.
    Qed.

    Lemma column_norm k : (k < n)%nat -> normsq n (fun i => v i k) = 1.
    Proof.
      intro Hk. destruct E as (O & _). unfold normsq. transitivity (rsum n (fun i => v i k * v i k)); [apply rsum_ext; intros; ring|].
      rewrite (O k k Hk Hk), Nat.eqb_refl. reflexivity.
    Qed.

    Lemma column_quad (d : nat -> R) k : (k < n)%nat -> quad n (fun i j => rsum n (fun k => d k * v i k * v j k)) (fun i => v i k) = d k.
    Proof.
      intro Hk. destruct E as (O & _). rewrite quad_combination.
      rewrite (rsum_single n k); [|exact Hk|].
      - rewrite (O k k Hk Hk), Nat.eqb_refl. ring.
      - intros l Hl N. rewrite (O l k Hl Hk). destruct (Nat.eqb_spec l k); [contradiction|ring].
    Qed.

    Lemma system_quad x : quad n A x = rsum n (fun k => w k * (rsum n (fun i => v i k * x i)) ^ 2).
    Proof. destruct E as (_ & _ & D & _). rewrite (quad_ext A _ x D). apply quad_combination. Qed.

    Lemma system_column k : (k < n)%nat -> quad n A (fun i => v i k) = w k.
    Proof. intro Hk. destruct E as (_ & _ & D & _). rewrite (quad_ext A _ _ D). apply column_quad. exact Hk. Qed.

    Lemma system_top l : (0 < n)%nat -> (top n A l <-> l = largest n w).
    Proof.
      intro Hn.
      assert (U : at_most n (largest n w) A).
      { intro x. rewrite system_quad, <- projections, <- rsum_scal. apply rsum_le. intros k Hk.
        apply Rmult_le_compat_r; [apply pow2_ge_0|]. apply largest_ge. exact Hk. }
      destruct (largest_in n w Hn) as (k & Hk & Ek). split.
      - intros [T (x & Nx & Qx)]. apply Rle_antisym.
        + rewrite <- Qx. pose proof (U x) as H. rewrite Nx in H. lra.
        + rewrite Ek, <- (system_column k Hk). pose proof (T (fun i => v i k)) as H. rewrite column_norm in H by exact Hk. lra.
      - intros ->. split; [exact U|]. exists (fun i => v i k). split; [apply column_norm; exact Hk|]. rewrite system_column by exact Hk. symmetry. exact Ek.
    Qed.

    (** The matrix with other eigenvalues. *)
    Variable d : nat -> R.
    Definition with_eigenvalues : nat -> nat -> R := fun i j => rsum n (fun k => d k * v i k * v j k).

    Lemma with_at_least c : (forall k, (k < n)%nat -> c <= d k) -> at_least n c with_eigenvalues.
    Proof.
      intros H x. unfold with_eigenvalues. rewrite quad_combination, <- projections, <- rsum_scal. apply rsum_le. intros k Hk.
      apply Rmult_le_compat_r; [apply pow2_ge_0|]. apply H. exact Hk.
    Qed.
    Lemma with_at_most c : (forall k, (k < n)%nat -> d k <= c) -> at_most n c with_eigenvalues.
    Proof.
      intros H x. unfold with_eigenvalues. rewrite quad_combination, <- projections, <- rsum_scal. apply rsum_le. intros k Hk.
      apply Rmult_le_compat_r; [apply pow2_ge_0|]. apply H. exact Hk.
    Qed.

    (** The projection inequality. *)
    Lemma projection c C : (forall k, (k < n)%nat -> d k = Rmax (w k) c) -> at_least n c C ->
      rsum n (fun i => rsum n (fun j => (A i j - with_eigenvalues i j) * (C i j - with_eigenvalues i j))) <= 0.
    Proof.
      intros Hd Hc. destruct E as (_ & _ & D & _).
      assert (S1 : rsum n (fun i => rsum n (fun j => (A i j - with_eigenvalues i j) * (C i j - with_eigenvalues i j))) =
        rsum n (fun k => (w k - d k) * quad n C (fun i => v i k)) - rsum n (fun k => (w k - d k) * quad n with_eigenvalues (fun i => v i k))).
      { rewrite <- !inner_combination, <- rsum_minus. apply rsum_ext. intros i Hi. rewrite <- rsum_minus. apply rsum_ext. intros j Hj.
        assert (Q : A i j - with_eigenvalues i j = rsum n (fun k => (w k - d k) * v i k * v j k)).
        { rewrite (D i j Hi Hj). unfold with_eigenvalues. rewrite <- rsum_minus. apply rsum_ext. intros; ring. }
        rewrite Q. ring. }
      rewrite S1, <- rsum_minus.
      replace 0 with (- rsum n (fun _ => 0)) by (rewrite rsum_const; ring). rewrite <- rsum_opp. apply rsum_le. intros k Hk.
      rewrite (column_quad d k Hk : quad n with_eigenvalues _ = _).
      pose proof (Hc (fun i => v i k)) as Q. rewrite column_norm in Q by exact Hk. rewrite (Hd k Hk).
      unfold Rmax. destruct (Rle_dec (w k) c); [|nra]. assert (0 <= (c - w k) * (quad n C (fun i => v i k) - c)) by (apply Rmult_le_pos; lra). lra.
    Qed.

    Lemma projection_distance c C : (forall k, (k < n)%nat -> d k = Rmax (w k) c) -> at_least n c C ->
      distance n A with_eigenvalues + distance n with_eigenvalues C <= distance n A C.
    Proof.
      intros Hd Hc. pose proof (projection c C Hd Hc) as P.
      assert (S1 : distance n A C = distance n A with_eigenvalues + distance n with_eigenvalues C -
        2 * rsum n (fun i => rsum n (fun j => (A i j - with_eigenvalues i j) * (C i j - with_eigenvalues i j)))).
      { unfold distance. rewrite <- rsum_scal, <- rsum_plus, <- rsum_minus. apply rsum_ext. intros i Hi.
        rewrite <- rsum_scal, <- rsum_plus, <- rsum_minus. apply rsum_ext. intros j Hj. ring. }
      lra.
    Qed.
  End System.

  Lemma distance_nonneg A B : 0 <= distance n A B.
  Proof. apply rsum_nonneg. intros i _. apply rsum_nonneg. intros j _. apply pow2_ge_0. Qed.
End Matrix.

(** ** Clipping *)
Section Clip.
  Variable eigh : nat -> mat -> (nat -> R) * mat.
  Variable eps : R.
  Variable n : nat.
  Hypothesis Hn : (0 < n)%nat.

  Lemma clip_matrix_eq rtol A w v : eigh n A = (w, v) ->
    let c := match rtol with Some r => r | None => INR n * eps end * largest n w in
    (0 <= c -> exists B, clip_matrix eigh eps n rtol A = Some B /\ same n B (with_eigenvalues n v (fun k => Rmax (w k) c)) /\ symmetric n B) /\
    (forall B, clip_matrix eigh eps n rtol A = Some B -> symmetric n B).
  Proof.
    intros E c. unfold clip_matrix. rewrite E. fold c. split.
    - intro Hc.
      assert (P : forall k, 0 <= Rmax (w k) c) by (intro k; eapply Rle_trans; [exact Hc|apply Rmax_r]).
      assert (F : forallb (fun k => leb 0 (Rmax (w k) c)) (seq 0 n) = true).
      { apply forallb_forall. intros k _. apply leb_true. apply P. }
      rewrite F. eexists. split; [reflexivity|]. split.
      + intros i j _ _. unfold with_eigenvalues. apply rsum_ext. intros k _. pose proof (sqrt_sqrt _ (P k)) as Q.
        transitivity (sqrt (Rmax (w k) c) * sqrt (Rmax (w k) c) * v i k * v j k); [ring|]. rewrite Q. reflexivity.
      + intros i j _ _. apply rsum_ext. intros; ring.
    - destruct (forallb _ _); [|discriminate]. intros B [= <-] i j _ _. apply rsum_ext. intros; ring.
  Qed.

  (** Everything about a clipped matrix. *)
  Lemma clip_matrix_spec rtol A w v l : eigh n A = (w, v) -> eigensystem n A w v -> top n A l ->
    let r := match rtol with Some r => r | None => INR n * eps end in
    0 <= r -> 0 <= l -> exists B, clip_matrix eigh eps n rtol A = Some B /\ symmetric n B /\ at_least n (r * l) B /\
      (r <= 1 -> at_most n l B) /\ (at_least n (r * l) A -> same n B A) /\
      (forall C, at_least n (r * l) C -> distance n A B + distance n B C <= distance n A C) /\
      (forall C, at_least n (r * l) C -> rsum n (fun i => rsum n (fun j => (A i j - B i j) * (C i j - B i j))) <= 0) /\
      l <= rsum n (fun i => B i i).
  Proof.
    intros Ee Es T r Hr Hl. apply (system_top n A w v Es l Hn) in T.
    destruct (clip_matrix_eq rtol A w v Ee) as [H _]. fold r in H. rewrite <- T in H. cbv zeta in H.
    assert (Hc : 0 <= r * l) by (apply Rmult_le_pos; assumption).
    destruct (H Hc) as (B & EB & SB & YB). exists B. split; [exact EB|]. split; [exact YB|].
    set (d := fun k => Rmax (w k) (r * l)) in *.
    assert (D : forall k, (k < n)%nat -> d k = Rmax (w k) (r * l)) by reflexivity.
    assert (DB : forall C, distance n B C = distance n (with_eigenvalues n v d) C).
    { intro C. apply rsum_ext. intros i Hi. apply rsum_ext. intros j Hj. rewrite (SB i j Hi Hj). reflexivity. }
    split.
    - intro x. rewrite (quad_ext n _ _ x SB). apply (with_at_least n A w v Es). intros k _. apply Rmax_r.
    - split.
      + intros Hr1 x. rewrite (quad_ext n _ _ x SB). apply (with_at_most n A w v Es). intros k Hk. apply Rmax_lub.
        * rewrite T. apply largest_ge. exact Hk.
        * rewrite <- (Rmult_1_l l) at 2. apply Rmult_le_compat_r; assumption.
      + split.
        * intros HA i j Hi Hj. rewrite (SB i j Hi Hj). pose proof Es as (_ & _ & DA & _). rewrite (DA i j Hi Hj).
          apply rsum_ext. intros k Hk. unfold d. rewrite Rmax_left; [reflexivity|].
          rewrite <- (system_column n A w v Es k Hk). pose proof (HA (fun i => v i k)) as Q.
          rewrite (column_norm n A w v Es k Hk) in Q. lra.
        * split.
          -- intros C HC. rewrite DB.
             assert (DA : distance n A B = distance n A (with_eigenvalues n v d)).
             { apply rsum_ext. intros i Hi. apply rsum_ext. intros j Hj. rewrite (SB i j Hi Hj). reflexivity. }
             rewrite DA. exact (projection_distance n A w v Es d (r * l) C D HC).
          -- split.
             ++ intros C HC. eapply Rle_trans; [|exact (projection n A w v Es d (r * l) C D HC)]. apply Req_le.
                apply rsum_ext. intros i Hi. apply rsum_ext. intros j Hj. rewrite (SB i j Hi Hj). reflexivity.
             ++ assert (Tr : rsum n (fun i => B i i) = rsum n d).
                { transitivity (rsum n (fun i => with_eigenvalues n v d i i)); [apply rsum_ext; intros i Hi; apply SB; exact Hi|].
                  unfold with_eigenvalues. rewrite rsum_swap. apply rsum_ext. intros k Hk.
                  transitivity (d k * normsq n (fun i => v i k)).
                  - unfold normsq. rewrite <- rsum_scal. apply rsum_ext. intros; ring.
                  - rewrite (column_norm n A w v Es k Hk). ring. }
                rewrite Tr. destruct (largest_in n w Hn) as (k & Hk & Ek). rewrite T, Ek.
                assert (Dp : forall i, 0 <= d i) by (intro i; eapply Rle_trans; [exact Hc|apply Rmax_r]).
                eapply Rle_trans; [apply (Rmax_l (w k) (r * l))|]. fold (d k).
                rewrite <- (rsum_if n k d Hk). apply rsum_le. intros i _. destruct (i =? k)%nat; [lra|]. rewrite Rmult_0_l. apply Dp.
  Qed.
End Clip.

(** ** Stacks with at most one leading axis *)
Definition leading (N : nat) (s : shape) : Prop := s = [N] \/ (N = 1%nat /\ s = []).
(** Element number [i]. *)
Definition element (a : stack) (i : nat) : option mat := aget a (match ashape a with [] => [] | _ => [i] end).

Lemma source_self N i : (i < N)%nat -> source [N] [i] = [i].
Proof. intro H. unfold source. cbn. destruct (Nat.eqb_spec N 1); [|reflexivity]. replace i with O by lia. reflexivity. Qed.

Lemma binary_leading N f a b : ashape a = [N] -> leading N (ashape b) -> exists c,
  binary f a b = Ok c /\ ashape c = [N] /\ forall i, (i < N)%nat ->
    element c i = match element a i, element b i with Some A, Some B => Some (f A B) | _, _ => None end.
Proof.
  intros Ha Hb. unfold binary. rewrite Ha. destruct Hb as [Hb|[-> Hb]]; rewrite Hb.
  - unfold broadcast2. cbn [rev app brev bind]. unfold bdim. rewrite Nat.eqb_refl. cbn [bind rev app].
    unfold broadcast_to. rewrite Ha, Hb. cbn [rev app to_rev]. rewrite Nat.eqb_refl. cbn [orb andb bind].
    eexists. split; [reflexivity|]. split; [reflexivity|]. intros i Hi. unfold element. cbn [ashape aget]. rewrite Ha, Hb, source_self by exact Hi. reflexivity.
  - unfold broadcast2. cbn [rev app brev bind]. unfold broadcast_to. rewrite Ha, Hb. cbn [rev app to_rev]. cbn [Nat.eqb orb andb bind].
    eexists. split; [reflexivity|]. split; [reflexivity|]. intros i Hi. unfold element. cbn [ashape aget]. rewrite Ha, Hb, source_self by exact Hi. reflexivity.
Qed.

Lemma element_elementwise f a i : element (elementwise f a) i = match element a i with Some A => f A | None => None end.
Proof. reflexivity. Qed.

Lemma ndindex_one N : ndindex [N] = map (fun i => [i]) (seq 0 N).
Proof. cbn [ndindex]. induction (seq 0 N) as [|x l IH]; [reflexivity|]. cbn [flat_map map app]. f_equal. Qed.
Lemma ndindex_one_length N : length (ndindex [N]) = N.
Proof. rewrite ndindex_one, map_length, seq_length. reflexivity. Qed.

Lemma position_one N i : (i < N)%nat -> position [i] (ndindex [N]) = i.
Proof.
  rewrite ndindex_one. intro H.
  assert (G : forall o m, (i < m)%nat -> position [(o + i)%nat] (map (fun i => [i]) (seq o m)) = i).
  { induction i as [|i IH]; intros o m Hm; (destruct m as [|m]; [lia|]); cbn [seq map position].
    - destruct (list_eq_dec Nat.eq_dec [(o + 0)%nat] [o]) as [_|K]; [reflexivity|]. exfalso. apply K. f_equal. lia.
    - destruct (list_eq_dec Nat.eq_dec [(o + S i)%nat] [o]) as [K|_]; [injection K; lia|]. apply (f_equal S).
      replace (o + S i)%nat with (S o + i)%nat by lia. apply (IH ltac:(lia)). lia. }
  exact (G O N H).
Qed.

(** Reshaping between no and one axis. *)
Lemma reshape_leading N a s : leading N (ashape a) -> leading N s -> exists b,
  reshape a s = Ok b /\ ashape b = s /\ forall i, (i < N)%nat -> element b i = element a i.
Proof.
  intros Ha Hs. unfold reshape.
  assert (La : length (ndindex (ashape a)) = N).
  { destruct Ha as [->|[-> ->]]; [apply ndindex_one_length|reflexivity]. }
  assert (Ls : length (ndindex s) = N).
  { destruct Hs as [->|[-> ->]]; [apply ndindex_one_length|reflexivity]. }
  rewrite La, Ls, Nat.eqb_refl. eexists. split; [reflexivity|]. split; [reflexivity|]. intros i Hi.
  unfold element. cbn [ashape aget]. f_equal.
  assert (P : position match s with [] => [] | _ :: _ => [i] end (ndindex s) = i).
  { destruct Hs as [->|[-> ->]]; [apply position_one; exact Hi|]. cbn. lia. }
  rewrite P. destruct Ha as [->|[-> ->]].
  - rewrite ndindex_one. apply nth_error_nth. rewrite nth_error_map', nth_error_seq. destruct (Nat.ltb_spec i N); [|lia]. reflexivity.
  - replace i with O by lia. reflexivity.
Qed.

Lemma inside_leading N s k : leading N s -> inside s k -> exists i, (i < N)%nat /\ k = match s with [] => [] | _ => [i] end.
Proof.
  intros [->|[-> ->]] H.
  - apply ndindex_In in H. rewrite ndindex_one in H. apply in_map_iff in H. destruct H as (i & <- & Hi). apply in_seq in Hi. exists i. split; [lia|reflexivity].
  - apply ndindex_In in H. cbn in H. destruct H as [<-|[]]. exists O. split; [lia|reflexivity].
Qed.

(** ** The loop *)
Section Loop.
  Variable eigh : nat -> mat -> (nat -> R) * mat.
  Variable eps : R.
  Variable n : nat.
  Hypothesis Hn : (0 < n)%nat.

  Definition next (s : option (mat * mat)) : option (mat * mat) :=
    match s with
    | Some (Y, D) =>
        match clip_matrix eigh eps n None (minus Y D) with
        | Some X => Some (unit_diagonal X, minus X (minus Y D))
        | None => None
        end
    | None => None
    end.
  Fixpoint rounds (k : nat) (s : option (mat * mat)) : option (mat * mat) :=
    match k with O => s | S k => rounds k (next s) end.

  Lemma rounds_S k s : rounds (S k) s = next (rounds k s).
  Proof. revert s. induction k as [|k IH]; intro s; [reflexivity|]. cbn [rounds] in *. rewrite <- IH. reflexivity. Qed.

  Definition pair (o d : option mat) : option (mat * mat) := match o, d with Some Y, Some D => Some (Y, D) | _, _ => None end.

  Lemma loop_spec N tol niter y ds : ashape y = [N] -> leading N (ashape ds) ->
    exists y' found k, nearcorr_loop eigh eps niter n tol y ds = Ok (y', found) /\ ashape y' = [N] /\ (k <= niter)%nat /\
      (k = O -> niter = O) /\
      (forall i, (i < N)%nat -> (k = O -> element y' i = element y i) /\
         ((0 < k)%nat -> element y' i = option_map fst (rounds k (pair (element y i) (element ds i))))) /\
      (found = true <-> exists j, k = S j /\ forall i, (i < N)%nat -> exists Y D X,
         rounds j (pair (element y i) (element ds i)) = Some (Y, D) /\ clip_matrix eigh eps n None (minus Y D) = Some X /\
         frob n (minus (unit_diagonal X) X) <= tol * frob n (unit_diagonal X)) /\
      (found = false -> k = niter).
  Proof.
    revert y ds. induction niter as [|niter IH]; intros y ds Hy Hd.
    - exists y, false, O. cbn [nearcorr_loop]. repeat split; auto; try lia; try discriminate. intros (j & K & _). discriminate.
    - cbn [nearcorr_loop].
      destruct (binary_leading N minus y ds Hy Hd) as (r & Er & Sr & Vr). rewrite Er. cbn [bind].
      unfold cov_clip. destruct (Nat.eqb_spec n 0) as [K|_]; [lia|]. cbn [bind].
      set (x := elementwise (clip_matrix eigh eps n None) r).
      assert (Sx : ashape x = [N]) by exact Sr.
      destruct (binary_leading N minus x r Sx (or_introl Sr)) as (ds' & Ed & Sd & Vd). rewrite Ed. cbn [bind].
      set (y1 := elementwise (fun X => Some (unit_diagonal X)) x).
      assert (Sy : ashape y1 = [N]) by exact Sr.
      assert (St : forall i, (i < N)%nat -> pair (element y1 i) (element ds' i) = next (pair (element y i) (element ds i)) /\
        element y1 i = option_map fst (next (pair (element y i) (element ds i))) /\
        element x i = match pair (element y i) (element ds i) with Some (Y, D) => clip_matrix eigh eps n None (minus Y D) | None => None end).
      { intros i Hi. rewrite (Vd i Hi). unfold y1, x. rewrite !element_elementwise, (Vr i Hi). unfold next, pair.
        destruct (element y i) as [Y|]; [|auto]. destruct (element ds i) as [D|]; [|auto].
        destruct (clip_matrix eigh eps n None (minus Y D)) as [X|]; auto. }
      assert (Cv : converged n tol y1 x = true <-> forall i, (i < N)%nat -> exists Y D X,
         rounds 0 (pair (element y i) (element ds i)) = Some (Y, D) /\ clip_matrix eigh eps n None (minus Y D) = Some X /\
         frob n (minus (unit_diagonal X) X) <= tol * frob n (unit_diagonal X)).
      { unfold converged. rewrite forallb_forall, Sy.
        assert (G : forall i, (i < N)%nat -> (match aget y1 [i], aget x [i] with Some Y, Some X => leb (frob n (minus Y X)) (tol * frob n Y) | _, _ => false end) = true <->
          exists Y D X, rounds 0 (pair (element y i) (element ds i)) = Some (Y, D) /\ clip_matrix eigh eps n None (minus Y D) = Some X /\
            frob n (minus (unit_diagonal X) X) <= tol * frob n (unit_diagonal X)).
        { intros i Hi. destruct (St i Hi) as (_ & G1 & G2). unfold element in G1 at 1. unfold element in G2 at 1. rewrite Sy in G1. rewrite Sx in G2.
          rewrite G1, G2. cbn [rounds]. unfold next.
          destruct (pair (element y i) (element ds i)) as [[Y D]|] eqn:Ep.
          - destruct (clip_matrix eigh eps n None (minus Y D)) as [X|] eqn:Ec; cbn [option_map fst].
            + rewrite leb_iff. split.
              * intro L. exists Y, D, X. auto.
              * intros (Y' & D' & X' & [= -> ->] & Q & L). rewrite Ec in Q. injection Q as ->. exact L.
            + split; [discriminate|]. intros (Y' & D' & X' & [= -> ->] & Q & L). congruence.
          - split; [discriminate|]. intros (Y' & D' & X' & Q & _). discriminate. }
        split.
        - intros H i Hi. apply G; [exact Hi|]. apply H. rewrite ndindex_one. apply in_map_iff. exists i. split; [reflexivity|]. apply in_seq. lia.
        - intros H k Hk. rewrite ndindex_one in Hk. apply in_map_iff in Hk. destruct Hk as (i & <- & Hi). apply in_seq in Hi.
          apply G; [lia|]. apply H. lia. }
      destruct (converged n tol y1 x) eqn:Ec.
      + exists y1, true, 1%nat. split; [reflexivity|]. split; [exact Sy|]. split; [lia|]. split; [discriminate|]. split.
        { intros i Hi. split; [discriminate|]. intros _. cbn [rounds]. apply St. exact Hi. }
        split; [|discriminate]. split; [|reflexivity]. intros _. exists O. split; [reflexivity|]. apply Cv. reflexivity.
      + destruct (IH y1 ds' Sy (or_introl Sd)) as (y' & found & k & El & Sl & Hk & K0 & Vl & Fl & Nl).
        exists y', found, (S k). split; [exact El|]. split; [exact Sl|]. split; [lia|]. split; [discriminate|]. split.
        { intros i Hi. split; [discriminate|]. intros _. destruct (Vl i Hi) as [V0 V1]. destruct (St i Hi) as (S1 & S2 & _).
          destruct k as [|k]; [rewrite (V0 eq_refl); cbn [rounds]; exact S2|]. rewrite (V1 ltac:(lia)), S1. reflexivity. }
        split; [|intro F; f_equal; apply Nl; exact F].
        rewrite Fl. split.
        * intros (j & -> & G). exists (S j). split; [reflexivity|]. intros i Hi. destruct (G i Hi) as (Y & D & X & G1 & G2).
          exists Y, D, X. cbn [rounds]. rewrite <- (proj1 (St i Hi)). auto.
        * intros (j & [= ->] & G). destruct j as [|j].
          -- exfalso. assert (Q : false = true) by (apply Cv; exact G). discriminate.
          -- exists j. split; [reflexivity|]. intros i Hi. destruct (G i Hi) as (Y & D & X & G1 & G2).
             exists Y, D, X. rewrite (proj1 (St i Hi)). auto.
  Qed.

  Lemma nearcorr_spec N a tol niter : leading N (ashape a) ->
    exists b found k, nearcorr eigh eps n n a tol niter = Ok (b, found) /\ ashape b = ashape a /\ (k <= niter)%nat /\
      (k = O -> niter = O) /\
      (forall i, (i < N)%nat -> element b i = match k, element a i with
         | O, _ => element a i
         | _, Some A => option_map fst (rounds k (Some (A, fun _ _ => 0)))
         | _, None => None end) /\
      (found = true <-> exists j, k = S j /\ forall i, (i < N)%nat -> exists A Y D X, element a i = Some A /\
         rounds j (Some (A, fun _ _ => 0)) = Some (Y, D) /\ clip_matrix eigh eps n None (minus Y D) = Some X /\
         frob n (minus (unit_diagonal X) X) <= match tol with Some t => t | None => INR n * eps end * frob n (unit_diagonal X)) /\
      (found = false -> k = niter).
  Proof.
    intro Ha. unfold nearcorr. rewrite Nat.eqb_refl. cbn [negb]. destruct (Nat.eqb_spec n 0) as [K|_]; [lia|].
    set (t := match tol with Some t => t | None => _ end).
    assert (La : length (ndindex (ashape a)) = N).
    { destruct Ha as [->|[-> ->]]; [apply ndindex_one_length|reflexivity]. }
    rewrite La. destruct (reshape_leading N a [N] Ha (or_introl eq_refl)) as (y & Ey & Sy & Vy). rewrite Ey. cbn [bind].
    set (ds := elementwise (fun _ => Some (fun _ _ => 0)) a).
    destruct (loop_spec N t niter y ds Sy Ha) as (y' & found & k & El & Sl & Hk & K0 & Vl & Fl & Nl). rewrite El. cbn [bind fst snd].
    destruct (reshape_leading N y' (ashape a) (or_introl Sl) Ha) as (b & Eb & Sb & Vb). rewrite Eb. cbn [bind].
    exists b, found, k. split; [reflexivity|]. split; [exact Sb|]. split; [exact Hk|]. split; [exact K0|].
    assert (P : forall i, (i < N)%nat -> pair (element y i) (element ds i) = match element a i with Some A => Some (A, fun _ _ => 0) | None => None end).
    { intros i Hi. rewrite (Vy i Hi). unfold ds. rewrite element_elementwise. destruct (element a i); reflexivity. }
    assert (NN : forall k, rounds k None = None) by (intro k0; induction k0; [reflexivity|assumption]).
    split; [|split; [|exact Nl]].
    - intros i Hi. rewrite (Vb i Hi). destruct (Vl i Hi) as [V0 V1]. destruct k as [|k].
      + rewrite (V0 eq_refl), (Vy i Hi). reflexivity.
      + rewrite (V1 ltac:(lia)), (P i Hi). destruct (element a i) as [A|]; [reflexivity|]. rewrite NN. reflexivity.
    - rewrite Fl. split; intros (j & Ej & G); exists j; (split; [exact Ej|]); intros i Hi; specialize (G i Hi).
      + destruct G as (Y & D & X & G1 & G2). rewrite (P i Hi) in G1. destruct (element a i) as [A|]; [|rewrite NN in G1; discriminate].
        exists A, Y, D, X. auto.
      + destruct G as (A & Y & D & X & G0 & G1 & G2). exists Y, D, X. rewrite (P i Hi), G0. auto.
  Qed.

  (** ** A single matrix *)
  Hypothesis eigh_ok : forall A, symmetric n A -> eigensystem n A (fst (eigh n A)) (snd (eigh n A)).
  Hypothesis eps_ok : 0 <= INR n * eps <= 1.

  Lemma top_exists A : symmetric n A -> top n A (largest n (fst (eigh n A))).
  Proof. intro H. apply (system_top n A _ _ (eigh_ok A H)); [exact Hn|reflexivity]. Qed.

  Lemma unit_symmetric X : symmetric n X -> symmetric n (unit_diagonal X).
  Proof. intros H i j Hi Hj. unfold unit_diagonal. rewrite (Nat.eqb_sym j i), (H i j Hi Hj). reflexivity. Qed.
  Lemma unit_unit X : unit_diag n (unit_diagonal X).
  Proof. intros i Hi. unfold unit_diagonal. rewrite Nat.eqb_refl. ring. Qed.

  (** Result of any number of rounds. *)
  Lemma rounds_shape k A Y D : rounds (S k) (Some (A, fun _ _ => 0)) = Some (Y, D) -> unit_diag n Y /\ symmetric n Y.
  Proof.
    rewrite rounds_S. unfold next. destruct (rounds k _) as [[Y0 D0]|]; [|discriminate].
    destruct (clip_matrix eigh eps n None (minus Y0 D0)) as [X|] eqn:Ec; [|discriminate]. intros [= <- <-].
    split; [apply unit_unit|]. apply unit_symmetric.
    destruct (eigh n (minus Y0 D0)) as [w v] eqn:Ee. exact (proj2 (clip_matrix_eq eigh eps n None _ w v Ee) X Ec).
  Qed.

  Definition inv (A : mat) (s : mat * mat) : Prop :=
    let R := minus (fst s) (snd s) in
    symmetric n R /\ (forall i j, (i < n)%nat -> (j < n)%nat -> i <> j -> R i j = A i j) /\ exists x, normsq n x = 1 /\ 0 <= quad n R x.

  Lemma inv_top A s : inv A s -> exists l, 0 <= l /\ top n (minus (fst s) (snd s)) l.
  Proof.
    intros (Sy & _ & x & Nx & Qx). exists (largest n (fst (eigh n (minus (fst s) (snd s))))). pose proof (top_exists _ Sy) as T.
    split; [|exact T]. destruct T as [T _]. specialize (T x). rewrite Nx in T. lra.
  Qed.

  Lemma unit_vector i : (i < n)%nat -> normsq n (fun k => if (k =? i)%nat then 1 else 0) = 1.
  Proof.
    intro Hi. unfold normsq. transitivity (rsum n (fun k => (if (k =? i)%nat then 1 else 0) * 1)).
    - apply rsum_ext. intros k _. destruct (k =? i)%nat; ring.
    - rewrite rsum_if by exact Hi. reflexivity.
  Qed.
  Lemma quad_unit A i : (i < n)%nat -> quad n A (fun k => if (k =? i)%nat then 1 else 0) = A i i.
  Proof.
    intro Hi. unfold quad. transitivity (rsum n (fun k => (if (k =? i)%nat then 1 else 0) * A k i)).
    - apply rsum_ext. intros k Hk. transitivity (rsum n (fun j => (if (j =? i)%nat then 1 else 0) * ((if (k =? i)%nat then 1 else 0) * A k j))).
      + apply rsum_ext. intros j _. ring.
      + rewrite rsum_if by exact Hi. reflexivity.
    - exact (rsum_if n i (fun k => A k i) Hi).
  Qed.

  Lemma inv_next A s : inv A s -> exists X s', clip_matrix eigh eps n None (minus (fst s) (snd s)) = Some X /\ next (Some s) = Some s' /\
    fst s' = unit_diagonal X /\ inv A s'.
  Proof.
    intros I. pose proof I as (Sy & Off & _). destruct (inv_top A s I) as (l & Hl & T).
    destruct s as [Y D]. cbn [fst snd] in *. set (R := minus Y D) in *.
    destruct (eigh n R) as [w v] eqn:Ee. pose proof (eigh_ok R Sy) as Es. rewrite Ee in Es. cbn [fst snd] in Es.
    destruct (clip_matrix_spec eigh eps n Hn None R w v l Ee Es T (proj1 eps_ok) Hl) as (X & EX & SX & _ & MX & _ & _ & _).
    specialize (MX (proj2 eps_ok)).
    exists X, (unit_diagonal X, minus X R). split; [exact EX|]. split; [unfold next; fold R; rewrite EX; reflexivity|]. split; [reflexivity|].
    unfold inv. cbn [fst snd].
    assert (V : forall i j, (i < n)%nat -> (j < n)%nat -> minus (unit_diagonal X) (minus X R) i j = R i j + (if (i =? j)%nat then 1 - X i i else 0)).
    { intros i j _ _. unfold minus, unit_diagonal. destruct (Nat.eqb_spec i j) as [->|_]; ring. }
    split; [|split].
    - intros i j Hi Hj. rewrite (V i j Hi Hj), (V j i Hj Hi), (Sy i j Hi Hj), (Nat.eqb_sym j i). destruct (Nat.eqb_spec i j) as [->|_]; reflexivity.
    - intros i j Hi Hj N. rewrite (V i j Hi Hj). destruct (Nat.eqb_spec i j); [contradiction|]. rewrite (Off i j Hi Hj N). ring.
    - destruct T as [_ (u & Nu & Qu)]. exists u. split; [exact Nu|].
      assert (Q : quad n (minus (unit_diagonal X) (minus X R)) u = quad n R u + rsum n (fun i => (1 - X i i) * u i ^ 2)).
      { unfold quad. rewrite <- rsum_plus. apply rsum_ext. intros i Hi.
        transitivity (rsum n (fun j => u i * R i j * u j) + rsum n (fun j => (if (j =? i)%nat then 1 else 0) * (u i * (1 - X i i) * u j))).
        - rewrite <- rsum_plus. apply rsum_ext. intros j Hj. rewrite (V i j Hi Hj), (Nat.eqb_sym j i). destruct (i =? j)%nat; ring.
        - rewrite rsum_if by exact Hi. ring. }
      rewrite Q, Qu.
      assert (B : (1 - l) * 1 <= rsum n (fun i => (1 - X i i) * u i ^ 2)).
      { rewrite <- Nu. unfold normsq. rewrite <- rsum_scal. apply rsum_le. intros i Hi. apply Rmult_le_compat_r; [apply pow2_ge_0|].
        pose proof (MX (fun k => if (k =? i)%nat then 1 else 0)) as M. rewrite unit_vector, quad_unit in M by exact Hi. lra. }
      lra.
  Qed.

  Lemma inv_rounds A k : symmetric n A -> (exists x, normsq n x = 1 /\ 0 <= quad n A x) ->
    exists s, rounds k (Some (A, fun _ _ => 0)) = Some s /\ inv A s.
  Proof.
    intros Sy (x & Nx & Qx). induction k as [|k IH].
    - exists (A, fun _ _ => 0). split; [reflexivity|]. unfold inv. cbn [fst snd].
      assert (V : forall i j, minus A (fun _ _ => 0) i j = A i j) by (intros; unfold minus; ring).
      split; [intros i j Hi Hj; rewrite !V; apply Sy; assumption|]. split; [intros; apply V|]. exists x. split; [exact Nx|].
      rewrite (quad_ext n _ A); [exact Qx|]. intros i j _ _. apply V.
    - destruct IH as (s & Es & I). destruct (inv_next A s I) as (X & s' & _ & E' & _ & I'). exists s'. rewrite rounds_S, Es. auto.
  Qed.
End Loop.
