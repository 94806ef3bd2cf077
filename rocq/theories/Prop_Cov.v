(** Claims about covariance matrices (C15, C16, C17). *)
From Coq Require Import Reals Lra Lia List Arith Bool.
From Verif Require Import Base RSum Model_Numeric Proof_Numeric Model_Arrays Spec_Arrays Proof_Arrays Model_Effective Proof_Effective
  Model_Cov Spec_Cov Proof_Cov.
Import ListNotations.
Local Open Scope R_scope.

(** A decomposition for all matrices with two rows, used in the examples. *)
Definition eigh2 (n : nat) (A : mat) : (nat -> R) * mat :=
  let h := (A 0%nat 0%nat - A 1%nat 1%nat) / 2 in
  let m := (A 0%nat 0%nat + A 1%nat 1%nat) / 2 in
  let b := A 1%nat 0%nat in
  let s := sqrt (h ^ 2 + b ^ 2) in
  let c := if Req_EM_T s 0 then 1 else sqrt ((1 + h / s) / 2) in
  let t := if Req_EM_T s 0 then 0 else if Rlt_dec b 0 then - sqrt ((1 - h / s) / 2) else sqrt ((1 - h / s) / 2) in
  (fun k => match k with O => m - s | _ => m + s end,
   fun i k => match i, k with O, O => - t | O, _ => c | _, O => c | _, _ => t end).

Lemma eigh2_ok A : symmetric 2 A -> eigensystem 2 A (fst (eigh2 2 A)) (snd (eigh2 2 A)).
Proof.
  intro Sy. unfold eigh2. set (h := (A 0%nat 0%nat - A 1%nat 1%nat) / 2). set (m := (A 0%nat 0%nat + A 1%nat 1%nat) / 2).
  set (b := A 1%nat 0%nat). set (s := sqrt (h ^ 2 + b ^ 2)).
  set (c := if Req_EM_T s 0 then 1 else sqrt ((1 + h / s) / 2)).
  set (t := if Req_EM_T s 0 then 0 else if Rlt_dec b 0 then - sqrt ((1 - h / s) / 2) else sqrt ((1 - h / s) / 2)).
  pose proof (pow2_ge_0 h) as Ph. pose proof (pow2_ge_0 b) as Pb.
  assert (Ps : 0 <= s) by apply sqrt_pos. assert (Ss : s * s = h ^ 2 + b ^ 2) by (apply sqrt_sqrt; lra).
  assert (K : c ^ 2 + t ^ 2 = 1 /\ s * (c ^ 2 - t ^ 2) = h /\ 2 * s * (c * t) = b).
  { unfold c, t. destruct (Req_EM_T s 0) as [Z|Z].
    - rewrite Z in *. assert (h ^ 2 = 0 /\ b ^ 2 = 0) as [Zh Zb] by lra.
      assert (h = 0) by (apply Rsqr_0_uniq; unfold Rsqr; lra). assert (b = 0) by (apply Rsqr_0_uniq; unfold Rsqr; lra). repeat split; lra.
    - assert (Ps' : 0 < s) by lra.
      assert (Bd : -1 <= h / s <= 1).
      { assert (- s <= h <= s) by (split; nra). split.
        - apply (Rmult_le_reg_r s); [exact Ps'|]. unfold Rdiv. rewrite Rmult_assoc, Rinv_l by exact Z. lra.
        - apply (Rmult_le_reg_r s); [exact Ps'|]. unfold Rdiv. rewrite Rmult_assoc, Rinv_l by exact Z. lra. }
      set (q := h / s) in *. assert (Hq : h = q * s) by (unfold q; field; exact Z).
      pose proof (sqrt_sqrt ((1 + q) / 2) ltac:(lra)) as S1. pose proof (sqrt_sqrt ((1 - q) / 2) ltac:(lra)) as S2.
      set (x := sqrt ((1 + q) / 2)) in *. set (y := sqrt ((1 - q) / 2)) in *.
      assert (Px : 0 <= x) by apply sqrt_pos. assert (Py : 0 <= y) by apply sqrt_pos.
      assert (Hb : (2 * s * (x * y)) ^ 2 = b ^ 2).
      { replace ((2 * s * (x * y)) ^ 2) with (4 * (s * s) * ((x * x) * (y * y))) by ring. rewrite S1, S2.
        replace (4 * (s * s) * ((1 + q) / 2 * ((1 - q) / 2))) with (s * s - (q * s) ^ 2) by field. rewrite <- Hq. lra. }
      assert (P : 0 <= 2 * s * (x * y)) by (apply Rmult_le_pos; [lra|apply Rmult_le_pos; assumption]).
      assert (Q1 : x ^ 2 = (1 + q) / 2) by (rewrite <- S1; ring). assert (Q2 : y ^ 2 = (1 - q) / 2) by (rewrite <- S2; ring).
      assert (Ab : 2 * s * (x * y) = Rabs b).
      { rewrite <- (sqrt_pow2 (2 * s * (x * y)) P), Hb, <- (sqrt_Rsqr_abs b). f_equal. unfold Rsqr. ring. }
      destruct (Rlt_dec b 0) as [N|N].
      + rewrite Rabs_left in Ab by exact N. replace ((- y) ^ 2) with (y ^ 2) by ring. rewrite Q1, Q2. repeat split; [field|rewrite Hq; field|].
        replace (2 * s * (x * - y)) with (- (2 * s * (x * y))) by ring. lra.
      + rewrite Rabs_right in Ab by lra. rewrite Q1, Q2. repeat split; [field|rewrite Hq; field|lra]. }
  destruct K as (K1 & K2 & K3). clearbody c t. cbn [fst snd].
  assert (Two : forall i, (i < 2)%nat -> i = 0%nat \/ i = 1%nat) by (intros; lia).
  unfold eigensystem. split; [|split; [|split]].
  - intros k l Hk Hl. destruct (Two k Hk) as [->| ->], (Two l Hl) as [->| ->]; cbn; lra.
  - intros i j Hi Hj. destruct (Two i Hi) as [->| ->], (Two j Hj) as [->| ->]; cbn; lra.
  - assert (E00 : A 0%nat 0%nat = m + h) by (unfold m, h; field). assert (E11 : A 1%nat 1%nat = m - h) by (unfold m, h; field).
    assert (E01 : A 0%nat 1%nat = b) by (apply Sy; lia).
    intros i j Hi Hj. destruct (Two i Hi) as [->| ->], (Two j Hj) as [->| ->]; cbn.
    + rewrite E00. transitivity (m * (c ^ 2 + t ^ 2) + s * (c ^ 2 - t ^ 2)); [rewrite K1, K2; ring|ring].
    + rewrite E01. transitivity (2 * s * (c * t)); [symmetry; exact K3|ring].
    + fold b. transitivity (2 * s * (c * t)); [symmetry; exact K3|ring].
    + rewrite E11. transitivity (m * (c ^ 2 + t ^ 2) - s * (c ^ 2 - t ^ 2)); [rewrite K1, K2; ring|ring].
  - intros k l Hkl. destruct (Two k ltac:(lia)) as [->| ->], (Two l ltac:(lia)) as [->| ->]; cbn; try lra. lia.
Qed.

(** C15 *)

(** The clipped matrix: symmetric, its eigenvalues at least [r] times the largest eigenvalue [l] of the input and not
    above it, the input if that was so already, and of all such matrices the nearest to the input. *)
Theorem cov_clip_nearest eigh eps n cov rtol : (0 < n)%nat ->
  let r := match rtol with Some r => r | None => INR n * eps end in 0 <= r ->
  exists b, cov_clip eigh eps n cov rtol = Ok b /\ ashape b = ashape cov /\
    forall i A l, aget cov i = Some A -> eigensystem n A (fst (eigh n A)) (snd (eigh n A)) -> top n A l -> 0 <= l ->
      exists B, aget b i = Some B /\ symmetric n B /\ positive_semidefinite n B /\ at_least n (r * l) B /\
        (r <= 1 -> at_most n l B) /\ (at_least n (r * l) A -> same n B A) /\
        forall C, at_least n (r * l) C -> distance n A B + distance n B C <= distance n A C.
Proof.
  intros Hn r Hr. unfold cov_clip. destruct (Nat.eqb_spec n 0) as [K|_]; [lia|]. eexists. split; [reflexivity|]. split; [reflexivity|].
  intros i A l EA Es T Hl. cbn [elementwise aget]. rewrite EA.
  destruct (eigh n A) as [w v] eqn:Ee. cbn [fst snd] in Es.
  destruct (clip_matrix_spec eigh eps n Hn rtol A w v l Ee Es T Hr Hl) as (B & EB & SB & LB & MB & UB & DB & _).
  exists B. split; [exact EB|]. split; [exact SB|]. split; [|auto].
  intro x. eapply Rle_trans; [|apply LB]. apply Rmult_le_pos; [apply Rmult_le_pos; assumption|apply normsq_nonneg].
Qed.
Print Assumptions cov_clip_nearest.

(** A result for matrices with rows, whatever is in them; without rows there is no largest eigenvalue to compare to, and
    an error instead. *)
Theorem cov_clip_total eigh eps n cov rtol :
  match cov_clip eigh eps n cov rtol with Ok b => (0 < n)%nat /\ ashape b = ashape cov | Err e => n = 0%nat /\ e = ValueError end.
Proof. unfold cov_clip. destruct (Nat.eqb_spec n 0) as [K|K]; cbn; split; try reflexivity; lia. Qed.
Print Assumptions cov_clip_total.

(** Without a non-negative eigenvalue and with positive tolerance the result is not a matrix of numbers. *)
Theorem cov_clip_negative eigh eps n cov rtol b i A l : (0 < n)%nat -> cov_clip eigh eps n cov rtol = Ok b ->
  0 < match rtol with Some r => r | None => INR n * eps end ->
  aget cov i = Some A -> eigensystem n A (fst (eigh n A)) (snd (eigh n A)) -> top n A l -> l < 0 -> aget b i = None.
Proof.
  intros Hn. set (r := match rtol with Some r => r | None => _ end). unfold cov_clip. destruct (Nat.eqb_spec n 0) as [K|_]; [lia|].
  intros [= <-] Hr EA Es T Hl. cbn [elementwise aget]. rewrite EA. unfold clip_matrix. fold r.
  destruct (eigh n A) as [w v]. cbn [fst snd] in Es. apply (system_top n A w v Es l Hn) in T. rewrite <- T.
  destruct (forallb (fun k => leb 0 (Rmax (w k) (r * l))) (seq 0 n)) eqn:F; [|reflexivity]. exfalso.
  rewrite forallb_forall in F. specialize (F 0%nat ltac:(apply in_seq; lia)). apply leb_iff in F.
  pose proof (largest_ge n w 0 Hn) as G. rewrite <- T in G. revert F. unfold Rmax. destruct (Rle_dec (w 0%nat) (r * l)); nra.
Qed.
Print Assumptions cov_clip_negative.

(** So it is not so that every symmetric matrix can be clipped, as with the default tolerance and the matrix -1. *)
Theorem cov_clip_refuted : exists eigh A, symmetric 1 A /\ eigensystem 1 A (fst (eigh 1%nat A)) (snd (eigh 1%nat A)) /\
  forall eps, 0 < eps -> exists b, cov_clip eigh eps 1 {| ashape := []; aget := fun _ => Some A |} None = Ok b /\ aget b [] = None.
Proof.
  exists (fun _ A => (fun _ => A 0%nat 0%nat, fun _ _ => 1)), (fun _ _ => -1). split; [intros i j _ _; reflexivity|].
  assert (Es : eigensystem 1 (fun _ _ => -1) (fun _ => -1) (fun _ _ => 1)).
  { unfold eigensystem. cbn. repeat split.
    - intros k l Hk Hl. replace k with 0%nat by lia. replace l with 0%nat by lia. cbn. ring.
    - intros k l Hk Hl. replace k with 0%nat by lia. replace l with 0%nat by lia. cbn. ring.
    - intros. ring.
    - intros. lra. }
  split; [exact Es|]. intros eps He. eexists. split; [reflexivity|].
  refine (cov_clip_negative (fun _ A => (fun _ => A 0%nat 0%nat, fun _ _ => 1)) eps 1 {| ashape := []; aget := fun _ => Some (fun _ _ => -1) |} None _ [] _ (-1) _ eq_refl _ eq_refl Es _ _);
    try lia; try lra; [cbn; lra|]. apply (system_top 1 _ _ _ Es); [lia|reflexivity].
Qed.
Print Assumptions cov_clip_refuted.

(** The matrix with zero diagonal and ones elsewhere has the eigenvalues -1 and 1; clipping gives one half everywhere. *)
Example cov_clip_example eps : exists b B, cov_clip eigh2 eps 2 {| ashape := []; aget := fun _ => Some (fun i j => if (i =? j)%nat then 0 else 1) |} (Some 0) = Ok b /\
  aget b [] = Some B /\ same 2 B (fun _ _ => 1 / 2).
Proof.
  set (A := fun i j : nat => if (i =? j)%nat then 0 else 1).
  assert (Sy : symmetric 2 A) by (intros i j _ _; unfold A; rewrite Nat.eqb_sym; reflexivity).
  destruct (cov_clip_nearest eigh2 eps 2 {| ashape := []; aget := fun _ => Some A |} (Some 0) ltac:(lia) ltac:(lra)) as (b & Eb & _ & H).
  assert (T : top 2 A 1).
  { split.
    - intro x. unfold quad, normsq, A. cbn. pose proof (Rle_0_sqr (x 0%nat - x 1%nat)) as P. unfold Rsqr in P. lra.
    - exists (fun _ => sqrt (1 / 2)). pose proof (sqrt_sqrt (1 / 2) ltac:(lra)) as S2. unfold quad, normsq, A. cbn. split; lra. }
  destruct (H [] A 1 eq_refl (eigh2_ok A Sy) T ltac:(lra)) as (B & EB & SB & PB & LB & MB & UB & DB). exists b, B. split; [exact Eb|]. split; [exact EB|].
  (* the nearest: compare with the matrix of halves *)
  assert (HC : at_least 2 (0 * 1) (fun _ _ => 1 / 2)).
  { intro x. unfold quad, normsq. cbn. pose proof (Rle_0_sqr (x 0%nat + x 1%nat)) as P. unfold Rsqr in P. lra. }
  pose proof (DB _ HC) as D.
  assert (M1 := MB ltac:(lra) (fun _ => 1)). assert (P1 := PB (fun i => if (i =? 0)%nat then 1 else -1)).
  assert (S01 := SB 0%nat 1%nat ltac:(lia) ltac:(lia)).
  unfold distance, quad, normsq, A in *. cbn in *.
  set (p := B 0%nat 0%nat) in *. set (q := B 0%nat 1%nat) in *. set (q' := B 1%nat 0%nat) in *. set (u := B 1%nat 1%nat) in *.
  assert (Z : (p - 1 / 2) ^ 2 + (q - 1 / 2) ^ 2 + (q' - 1 / 2) ^ 2 + (u - 1 / 2) ^ 2 <= 0) by nra.
  pose proof (pow2_ge_0 (p - 1 / 2)). pose proof (pow2_ge_0 (q - 1 / 2)). pose proof (pow2_ge_0 (q' - 1 / 2)). pose proof (pow2_ge_0 (u - 1 / 2)).
  assert (Sq : forall z, z ^ 2 = 0 -> z = 0) by (intros z Hz; apply Rsqr_0_uniq; unfold Rsqr; lra).
  assert (p - 1 / 2 = 0) by (apply Sq; lra). assert (q - 1 / 2 = 0) by (apply Sq; lra).
  assert (q' - 1 / 2 = 0) by (apply Sq; lra). assert (u - 1 / 2 = 0) by (apply Sq; lra).
  intros i j Hi Hj. destruct i as [|[|i]]; [| |lia]; (destruct j as [|[|j]]; [| |lia]); fold p q q' u; lra.
Qed.

(** C16 *)

(** At most one leading axis. *)
Lemma few_axes (s : shape) : (length s <= 1)%nat -> exists N, leading N s.
Proof. destruct s as [|N [|? ?]]; cbn; intro H; [exists 1%nat; right; auto|exists N; left; reflexivity|lia]. Qed.

Lemma element_at (N : nat) (a : stack) k : leading N (ashape a) -> inside (ashape a) k -> exists i, (i < N)%nat /\ element a i = aget a k /\
  forall b : stack, ashape b = ashape a -> element b i = aget b k.
Proof.
  intros L H. destruct (inside_leading N _ k L H) as (i & Hi & ->). exists i. split; [exact Hi|]. split; [reflexivity|].
  intros b Hb. unfold element. rewrite Hb. reflexivity.
Qed.

Lemma length_concat_const {T} q (l : list (list T)) : (forall x, In x l -> length x = q) -> length (concat l) = (length l * q)%nat.
Proof.
  induction l as [|x l IH]; intro H; [reflexivity|]. cbn [concat length]. rewrite app_length, (H x (or_introl eq_refl)), IH; [lia|].
  intros y Hy. apply H. right. exact Hy.
Qed.

Section Nearest.
  Variable eigh : nat -> mat -> (nat -> R) * mat.
  Variable eps : R.

  (** Matrices that are not square, and empty ones, are rejected. *)
  Theorem nearcorr_rejected m n a tol niter : m <> n \/ n = 0%nat -> nearcorr eigh eps m n a tol niter = Err ValueError.
  Proof.
    intro H. unfold nearcorr. destruct (Nat.eqb_spec m n) as [E|E]; [|reflexivity]. cbn [negb].
    destruct (Nat.eqb_spec n 0); [reflexivity|]. destruct H; contradiction.
  Qed.

  (** Whatever the input and the number of iterations: each result is symmetric with unit diagonal. *)
  Theorem nearcorr_diagonal n a tol niter b found : (0 < n)%nat -> (length (ashape a) <= 1)%nat -> (1 <= niter)%nat ->
    nearcorr eigh eps n n a tol niter = Ok (b, found) ->
    ashape b = ashape a /\ forall k B, inside (ashape a) k -> aget b k = Some B -> unit_diag n B /\ symmetric n B.
  Proof.
    intros Hn Hs Hi H. destruct (few_axes _ Hs) as [N L].
    destruct (nearcorr_spec eigh eps n Hn N a tol niter L) as (b' & found' & k' & E & Sb & Hk & K0 & V & _). rewrite H in E. injection E as <- <-.
    split; [exact Sb|]. intros k B Ik EB. destruct (element_at N a k L Ik) as (i & Hi' & Ea & Eb). rewrite <- (Eb b Sb), (V i Hi') in EB.
    destruct k' as [|k']; [specialize (K0 eq_refl); lia|]. destruct (element a i) as [A|]; [|discriminate].
    destruct (rounds eigh eps n (S k') (Some (A, fun _ _ => 0))) as [[Y D]|] eqn:Er; [|discriminate]. injection EB as <-.
    exact (rounds_shape eigh eps n k' A Y D Er).
  Qed.

  (** In the following the eigenvalue decomposition is one, and the machine precision is not too large. *)
  Variable n : nat.
  Hypothesis Hn : (0 < n)%nat.
  Hypothesis eigh_ok : forall A, symmetric n A -> eigensystem n A (fst (eigh n A)) (snd (eigh n A)).
  Hypothesis eps_ok : 0 <= INR n * eps <= 1.

  (** There is a result, for symmetric matrices that have a non-negative eigenvalue.  If there is no warning, it is
      close to a positive semi-definite matrix. *)
  Theorem nearcorr_total a tol niter : (length (ashape a) <= 1)%nat -> (1 <= niter)%nat ->
    (forall k, inside (ashape a) k -> exists A x, aget a k = Some A /\ symmetric n A /\ normsq n x = 1 /\ 0 <= quad n A x) ->
    exists b found, nearcorr eigh eps n n a tol niter = Ok (b, found) /\ ashape b = ashape a /\
      forall k, inside (ashape a) k -> exists B, aget b k = Some B /\ unit_diag n B /\ symmetric n B /\
        (found = true -> exists X, symmetric n X /\ positive_semidefinite n X /\
           sqrt (distance n B X) <= match tol with Some t => t | None => INR n * eps end * sqrt (distance n B (fun _ _ => 0))).
  Proof.
    intros Hs Hi HA. destruct (few_axes _ Hs) as [N L].
    destruct (nearcorr_spec eigh eps n Hn N a tol niter L) as (b & found & k' & E & Sb & Hk & K0 & V & F & _).
    exists b, found. split; [exact E|]. split; [exact Sb|]. intros k Ik. destruct (HA k Ik) as (A & x & EA & SA & Nx & Qx).
    destruct (element_at N a k L Ik) as (i & Hi' & Ea & Eb). rewrite EA in Ea.
    destruct k' as [|k']; [specialize (K0 eq_refl); lia|].
    destruct (inv_rounds eigh eps n Hn eigh_ok eps_ok A (S k') SA (ex_intro _ x (conj Nx Qx))) as ([Y D] & Er & _).
    exists Y. rewrite <- (Eb b Sb), (V i Hi'), Ea, Er. split; [reflexivity|].
    destruct (rounds_shape eigh eps n k' A Y D Er) as [U S']. split; [exact U|]. split; [exact S'|].
    intro Ft. apply F in Ft. destruct Ft as (j & [= <-] & G). destruct (G i Hi') as (A' & Y0 & D0 & X & EA' & E0 & EX & Le).
    rewrite Ea in EA'. injection EA' as <-. rewrite rounds_S, E0 in Er. cbn [next] in Er. rewrite EX in Er. injection Er as <- <-.
    destruct (inv_rounds eigh eps n Hn eigh_ok eps_ok A k' SA (ex_intro _ x (conj Nx Qx))) as (s0 & E0' & I0). rewrite E0 in E0'. injection E0' as <-.
    destruct (inv_top eigh n Hn eigh_ok A _ I0) as (l & Hl & T). cbn [fst snd] in T.
    destruct I0 as (Sy & _). cbn [fst snd] in Sy. pose proof (eigh_ok _ Sy) as Es.
    destruct (eigh n (minus Y0 D0)) as [w v] eqn:Ee. cbn [fst snd] in Es.
    destruct (clip_matrix_spec eigh eps n Hn None _ w v l Ee Es T (proj1 eps_ok) Hl) as (X' & EX' & SX & LX & _).
    rewrite EX in EX'. injection EX' as <-. exists X. split; [exact SX|]. split.
    - intro y. eapply Rle_trans; [|apply LX]. apply Rmult_le_pos; [apply Rmult_le_pos; [apply eps_ok|exact Hl]|apply normsq_nonneg].
    - assert (Q1 : distance n (unit_diagonal X) X = rsum n (fun i => rsum n (fun j => minus (unit_diagonal X) X i j ^ 2))) by reflexivity.
      assert (Q2 : distance n (unit_diagonal X) (fun _ _ => 0) = rsum n (fun i => rsum n (fun j => unit_diagonal X i j ^ 2))).
      { apply rsum_ext. intros p Hp. apply rsum_ext. intros q Hq. ring. }
      rewrite Q1, Q2. exact Le.
  Qed.

  (** Matrices that are correlation matrices already are kept, if their eigenvalues are not too small compared to the
      largest, [l]. *)
  Theorem nearcorr_unchanged a tol niter : (length (ashape a) <= 1)%nat -> (1 <= niter)%nat ->
    0 <= match tol with Some t => t | None => INR n * eps end ->
    (forall k, inside (ashape a) k -> exists A l, aget a k = Some A /\ symmetric n A /\ unit_diag n A /\ top n A l /\ at_least n (INR n * eps * l) A) ->
    exists b, nearcorr eigh eps n n a tol niter = Ok (b, true) /\ ashape b = ashape a /\
      forall k A, inside (ashape a) k -> aget a k = Some A -> exists B, aget b k = Some B /\ same n B A.
  Proof.
    intros Hs Hi Ht HA. destruct (few_axes _ Hs) as [N L].
    destruct (nearcorr_spec eigh eps n Hn N a tol niter L) as (b & found & k' & E & Sb & Hk & K0 & V & F & Nf).
    set (t := match tol with Some t => t | None => _ end) in *.
    (* a fixed point of the rounds *)
    assert (Fix : forall A l, symmetric n A -> unit_diag n A -> top n A l -> at_least n (INR n * eps * l) A -> forall j,
      exists Y D X, rounds eigh eps n j (Some (A, fun _ _ => 0)) = Some (Y, D) /\ clip_matrix eigh eps n None (minus Y D) = Some X /\
        same n Y A /\ same n X A /\ same n D (fun _ _ => 0)).
    { intros A l SA UA TA LA.
      assert (Hl : 0 <= l).
      { destruct TA as [TA _]. pose proof (TA (fun k => if (k =? 0)%nat then 1 else 0)) as Q.
        rewrite unit_vector, quad_unit, UA in Q by exact Hn. lra. }
      assert (Clip : forall Y D, same n Y A -> same n D (fun _ _ => 0) -> exists X, clip_matrix eigh eps n None (minus Y D) = Some X /\ same n X A).
      { intros Y D SY SD.
        assert (SR : same n (minus Y D) A) by (intros i j Hi' Hj; unfold minus; rewrite (SY i j Hi' Hj), (SD i j Hi' Hj); ring).
        assert (SyR : symmetric n (minus Y D)) by (intros i j Hi' Hj; rewrite (SR i j Hi' Hj), (SR j i Hj Hi'); apply SA; assumption).
        pose proof (eigh_ok _ SyR) as Es. destruct (eigh n (minus Y D)) as [w v] eqn:Ee. cbn [fst snd] in Es.
        assert (TR : top n (minus Y D) l).
        { destruct TA as [TA (u & Nu & Qu)]. split; [intro y; rewrite (quad_ext n _ _ y SR); apply TA|]. exists u. split; [exact Nu|].
          rewrite (quad_ext n _ _ u SR). exact Qu. }
        destruct (clip_matrix_spec eigh eps n Hn None _ w v l Ee Es TR (proj1 eps_ok) Hl) as (X & EX & _ & _ & _ & UX & _).
        exists X. split; [exact EX|]. assert (SX : same n X (minus Y D)).
        { apply UX. intro y. rewrite (quad_ext n _ _ y SR). apply LA. }
        intros i j Hi' Hj. rewrite (SX i j Hi' Hj). apply SR; assumption. }
      induction j as [|j IH].
      - destruct (Clip A (fun _ _ => 0)) as (X & EX & SX); [intros p q _ _; reflexivity|intros p q _ _; reflexivity|].
        exists A, (fun _ _ => 0), X. split; [reflexivity|]. split; [exact EX|]. repeat split; auto; intros p q _ _; reflexivity.
      - destruct IH as (Y & D & X & Er & EX & SY & SX & SD).
        assert (SY' : same n (unit_diagonal X) A).
        { intros i q Hi' Hj. unfold unit_diagonal. rewrite (SX i q Hi' Hj). destruct (Nat.eqb_spec i q) as [<-|_]; [rewrite (UA i Hi'); ring|ring]. }
        assert (SD' : same n (minus X (minus Y D)) (fun _ _ => 0)).
        { intros i q Hi' Hj. unfold minus. rewrite (SX i q Hi' Hj), (SY i q Hi' Hj), (SD i q Hi' Hj). ring. }
        destruct (Clip _ _ SY' SD') as (X' & EX' & SX'). exists (unit_diagonal X), (minus X (minus Y D)), X'.
        split; [|auto]. rewrite rounds_S, Er. cbn [next]. rewrite EX. reflexivity. }
    assert (Ft : found = true).
    { destruct found; [reflexivity|]. apply F. specialize (Nf eq_refl). subst k'. destruct niter as [|j]; [lia|]. exists j. split; [reflexivity|].
      intros i Hi'.
      assert (Ik : inside (ashape a) (match ashape a with [] => [] | _ => [i] end)).
      { destruct L as [->|[-> ->]]; [repeat constructor; exact Hi'|constructor]. }
      destruct (HA _ Ik) as (A & l & EA & SA & UA & TA & LA). destruct (Fix A l SA UA TA LA j) as (Y & D & X & Er & EX & SY & SX & SD).
      exists A, Y, D, X. split; [exact EA|]. split; [exact Er|]. split; [exact EX|].
      assert (Z : frob n (minus (unit_diagonal X) X) = 0).
      { unfold frob. rewrite rsum_zero; [apply sqrt_0|]. intros p Hp. apply rsum_zero. intros q Hq. unfold minus, unit_diagonal.
        rewrite (SX p q Hp Hq). destruct (Nat.eqb_spec p q) as [<-|_]; [rewrite (UA p Hp); ring|ring]. }
      rewrite Z. apply Rmult_le_pos; [exact Ht|apply sqrt_pos]. }
    subst found. exists b. split; [exact E|]. split; [exact Sb|]. intros k A Ik EA. destruct (HA k Ik) as (A' & l & EA' & SA & UA & TA & LA).
    rewrite EA in EA'. injection EA' as <-. destruct (element_at N a k L Ik) as (i & Hi' & Ea & Eb). rewrite EA in Ea.
    destruct k' as [|k']; [specialize (K0 eq_refl); lia|].
    destruct (Fix A l SA UA TA LA (S k')) as (Y & D & X & Er & EX & SY & SX & SD).
    exists Y. rewrite <- (Eb b Sb), (V i Hi'), Ea, Er. split; [reflexivity|exact SY].
  Qed.

  (** When the loop ends without warning for the tolerance zero, the result is the nearest correlation matrix: nearer to
      the input than every other matrix with unit diagonal whose eigenvalues are not tiny. *)
  Theorem nearcorr_nearest a niter b : (length (ashape a) <= 1)%nat -> nearcorr eigh eps n n a (Some 0) niter = Ok (b, true) ->
    forall k A x, inside (ashape a) k -> aget a k = Some A -> symmetric n A -> normsq n x = 1 -> 0 <= quad n A x ->
    exists B, aget b k = Some B /\ unit_diag n B /\ symmetric n B /\ positive_semidefinite n B /\
      forall C, unit_diag n C -> at_least n (INR n ^ 2 * eps) C -> distance n A B + distance n B C <= distance n A C.
  Proof.
    intros Hs H k A x Ik EA SA Nx Qx. destruct (few_axes _ Hs) as [N L].
    destruct (nearcorr_spec eigh eps n Hn N a (Some 0) niter L) as (b' & found & k' & E & Sb & Hk & K0 & V & F & Nf).
    rewrite H in E. injection E as <- <-. destruct (proj1 F eq_refl) as (j & -> & G).
    destruct (element_at N a k L Ik) as (i & Hi' & Ea & Eb). rewrite EA in Ea.
    destruct (G i Hi') as (A' & Y0 & D0 & X & EA' & E0 & EX & Le). rewrite Ea in EA'. injection EA' as <-.
    destruct (inv_rounds eigh eps n Hn eigh_ok eps_ok A j SA (ex_intro _ x (conj Nx Qx))) as (s0 & E0' & I0). rewrite E0 in E0'. injection E0' as <-.
    destruct (inv_top eigh n Hn eigh_ok A _ I0) as (l & Hl & T). cbn [fst snd] in T.
    destruct I0 as (Sy & Off & _). cbn [fst snd] in Sy, Off. pose proof (eigh_ok _ Sy) as Es.
    destruct (eigh n (minus Y0 D0)) as [w v] eqn:Ee. cbn [fst snd] in Es.
    destruct (clip_matrix_spec eigh eps n Hn None _ w v l Ee Es T (proj1 eps_ok) Hl) as (X' & EX' & SX & LX & MX & _ & _ & PX & TX).
    rewrite EX in EX'. injection EX' as <-.
    exists (unit_diagonal X). rewrite <- (Eb b Sb), (V i Hi'), Ea, rounds_S, E0. cbn [next]. rewrite EX. split; [reflexivity|].
    (* the last projection has changed nothing *)
    assert (Z : same n (unit_diagonal X) X).
    { rewrite Rmult_0_l in Le. unfold frob in Le.
      assert (Z2 : rsum n (fun i => rsum n (fun j => minus (unit_diagonal X) X i j ^ 2)) = 0).
      { apply sqrt_eq_0; [apply rsum_nonneg; intros; apply rsum_nonneg; intros; apply pow2_ge_0|].
        apply Rle_antisym; [exact Le|apply sqrt_pos]. }
      intros p q Hp Hq.
      assert (Z3 : minus (unit_diagonal X) X p q ^ 2 <= 0).
      { rewrite <- Z2.
        eapply Rle_trans; [|apply (rsum_le n (fun i => (if (i =? p)%nat then 1 else 0) * rsum n (fun j => minus (unit_diagonal X) X i j ^ 2)))].
        - rewrite rsum_if by exact Hp.
          eapply Rle_trans; [|apply (rsum_le n (fun j => (if (j =? q)%nat then 1 else 0) * minus (unit_diagonal X) X p j ^ 2))].
          + rewrite (rsum_if n q (fun j => minus (unit_diagonal X) X p j ^ 2)) by exact Hq. apply Rle_refl.
          + intros j0 _. pose proof (pow2_ge_0 (minus (unit_diagonal X) X p j0)). destruct (j0 =? q)%nat; lra.
        - intros i0 _. assert (0 <= rsum n (fun j => minus (unit_diagonal X) X i0 j ^ 2)) by (apply rsum_nonneg; intros; apply pow2_ge_0).
          destruct (i0 =? p)%nat; lra. }
      assert (Z4 : minus (unit_diagonal X) X p q = 0).
      { apply Rsqr_0_uniq. unfold Rsqr. pose proof (pow2_ge_0 (minus (unit_diagonal X) X p q)). lra. }
      unfold minus in Z4. lra. }
    assert (UX : unit_diag n X) by (intros p Hp; rewrite <- (Z p p Hp Hp); exact (unit_unit n X p Hp)).
    split; [apply unit_unit|]. split; [apply unit_symmetric; exact SX|]. split.
    - intro y. rewrite (quad_ext n _ _ y Z). eapply Rle_trans; [|apply LX].
      apply Rmult_le_pos; [apply Rmult_le_pos; [apply eps_ok|exact Hl]|apply normsq_nonneg].
    - intros C UC LC.
      assert (HC : at_least n (INR n * eps * l) C).
      { intro y. eapply Rle_trans; [|apply LC]. apply Rmult_le_compat_r; [apply normsq_nonneg|].
        assert (Tr : rsum n (fun i => X i i) = INR n).
        { transitivity (rsum n (fun _ => 1)); [apply rsum_ext; intros p Hp; apply UX; exact Hp|]. rewrite rsum_const. ring. }
        rewrite Tr in TX. replace (INR n ^ 2 * eps) with (INR n * eps * INR n) by ring. apply Rmult_le_compat_l; [apply eps_ok|exact TX]. }
      specialize (PX C HC).
      assert (In : rsum n (fun i => rsum n (fun j => (A i j - X i j) * (C i j - X i j))) =
        rsum n (fun i => rsum n (fun j => (minus Y0 D0 i j - X i j) * (C i j - X i j)))).
      { apply rsum_ext. intros p Hp. apply rsum_ext. intros q Hq. destruct (Nat.eq_dec p q) as [<-|Npq].
        - rewrite (UC p Hp), (UX p Hp). ring.
        - rewrite (Off p q Hp Hq Npq). reflexivity. }
      assert (D1 : forall M, distance n (unit_diagonal X) M = distance n X M).
      { intro M. apply rsum_ext. intros p Hp. apply rsum_ext. intros q Hq. rewrite (Z p q Hp Hq). reflexivity. }
      assert (D2 : distance n A (unit_diagonal X) = distance n A X).
      { apply rsum_ext. intros p Hp. apply rsum_ext. intros q Hq. rewrite (Z p q Hp Hq). reflexivity. }
      rewrite D1, D2.
      assert (S1 : distance n A C = distance n A X + distance n X C - 2 * rsum n (fun i => rsum n (fun j => (A i j - X i j) * (C i j - X i j)))).
      { unfold distance. rewrite <- rsum_scal, <- rsum_plus, <- rsum_minus. apply rsum_ext. intros p Hp.
        rewrite <- rsum_scal, <- rsum_plus, <- rsum_minus. apply rsum_ext. intros q Hq. ring. }
      rewrite S1, In. lra.
  Qed.
End Nearest.
Print Assumptions nearcorr_rejected.
Print Assumptions nearcorr_diagonal.
Print Assumptions nearcorr_total.
Print Assumptions nearcorr_unchanged.
Print Assumptions nearcorr_nearest.

(** Once found, the result is the same for every larger number of iterations. *)
Theorem nearcorr_more eigh eps m n a tol niter b more : nearcorr eigh eps m n a tol niter = Ok (b, true) -> (niter <= more)%nat ->
  nearcorr eigh eps m n a tol more = Ok (b, true).
Proof.
  unfold nearcorr. destruct (negb (m =? n)%nat); [auto|]. destruct (n =? 0)%nat; [auto|].
  set (t := match tol with Some t => t | None => _ end). destruct (reshape a _) as [y|e]; cbn [bind]; [|auto].
  set (ds := elementwise _ a). clearbody ds. intros H L.
  assert (G : forall niter more y ds z, nearcorr_loop eigh eps niter n t y ds = Ok (z, true) -> (niter <= more)%nat ->
    nearcorr_loop eigh eps more n t y ds = Ok (z, true)).
  { clear. induction niter as [|niter IH]; intros more y ds z H L; [discriminate|]. destruct more as [|more]; [lia|]. cbn [nearcorr_loop] in *.
    destruct (binary minus y ds) as [r|]; cbn [bind] in *; [|discriminate]. destruct (cov_clip eigh eps n r None) as [x|]; cbn [bind] in *; [|discriminate].
    destruct (binary minus x r) as [d|]; cbn [bind] in *; [|discriminate].
    destruct (converged n t (elementwise (fun X => Some (unit_diagonal X)) x) x); [exact H|]. apply IH; [exact H|lia]. }
  destruct (nearcorr_loop eigh eps niter n t y ds) as [[z f]|] eqn:E; cbn [bind fst snd] in H; [|discriminate].
  assert (f = true). { destruct (reshape z (ashape a)); cbn [bind] in H; [|discriminate]. injection H as _ H. exact H. }
  subst f. rewrite (G _ _ _ _ _ E L). exact H.
Qed.
Print Assumptions nearcorr_more.

(** Not every correlation matrix is kept: the one with all entries one, which is not regular, is made so. *)
Theorem nearcorr_unchanged_refuted eigh eps niter : (forall A, symmetric 2 A -> eigensystem 2 A (fst (eigh 2%nat A)) (snd (eigh 2%nat A))) ->
  0 < eps <= 1 / 2 -> (1 <= niter)%nat ->
  unit_diag 2 (fun _ _ => 1) /\ symmetric 2 (fun _ _ => 1) /\ positive_semidefinite 2 (fun _ _ => 1) /\
  exists b B, nearcorr eigh eps 2 2 {| ashape := []; aget := fun _ => Some (fun _ _ => 1) |} None niter = Ok (b, true) /\
    aget b [] = Some B /\ B 0%nat 1%nat = 1 - 2 * eps.
Proof.
  intros Ok' He Hi. split; [intros i _; reflexivity|]. assert (Sy : symmetric 2 (fun _ _ => 1)) by (intros i j _ _; reflexivity).
  split; [exact Sy|]. split.
  { intro x. unfold quad. cbn. pose proof (pow2_ge_0 (x 0%nat + x 1%nat)). lra. }
  set (a := {| ashape := []; aget := fun _ => Some (fun _ _ => 1) |}).
  assert (L : leading 1 (ashape a)) by (right; auto).
  assert (SyR : symmetric 2 (minus (fun _ _ => 1) (fun _ _ => 0))) by (intros i j _ _; reflexivity).
  assert (T : top 2 (minus (fun _ _ => 1) (fun _ _ => 0)) 2).
  { split.
    - intro x. unfold quad, normsq, minus. cbn. pose proof (pow2_ge_0 (x 0%nat - x 1%nat)). lra.
    - exists (fun _ => sqrt (1 / 2)). pose proof (sqrt_sqrt (1 / 2) ltac:(lra)). unfold quad, normsq, minus. cbn. split; lra. }
  pose proof (Ok' _ SyR) as Es. destruct (eigh 2%nat (minus (fun _ _ => 1) (fun _ _ => 0))) as [w v] eqn:Ee. cbn [fst snd] in Es.
  destruct (clip_matrix_spec eigh eps 2 ltac:(lia) None _ w v 2 Ee Es T ltac:(cbn; lra) ltac:(lra)) as (X & EX & SX & LX & MX & _ & DX & _).
  set (C := fun i j : nat => if (i =? j)%nat then 1 + 2 * eps else 1 - 2 * eps).
  assert (HC : at_least 2 (INR 2 * eps * 2) C).
  { intro x. unfold quad, normsq, C. cbn. pose proof (pow2_ge_0 (x 0%nat + x 1%nat)) as P.
    assert (Q : 0 <= (1 - 2 * eps) * (x 0%nat + x 1%nat) ^ 2) by (apply Rmult_le_pos; lra). lra. }
  pose proof (DX C HC) as D. assert (P1 := LX (fun i => if (i =? 0)%nat then 1 else -1)).
  assert (SXC : same 2 X C).
  { assert (S01 := SX 0%nat 1%nat ltac:(lia) ltac:(lia)). unfold distance, quad, normsq, minus, C in *. cbn in D, P1, S01. clear - D P1 S01 He.
    set (p := X 0%nat 0%nat) in *. set (q := X 0%nat 1%nat) in *. set (q' := X 1%nat 0%nat) in *. set (u := X 1%nat 1%nat) in *.
    rewrite <- S01 in *.
    assert (P2 : 8 * eps <= p + u - 2 * q) by lra.
    assert (P3 : (8 * eps) ^ 2 <= (p + u - 2 * q) ^ 2) by (apply pow_incr; lra).
    assert (P4 : (p + u - 2 * q) ^ 2 <= 4 * ((1 - p) ^ 2 + 2 * (1 - q) ^ 2 + (1 - u) ^ 2)).
    { pose proof (pow2_ge_0 (p - u)). pose proof (pow2_ge_0 (p + q - 2)). pose proof (pow2_ge_0 (u + q - 2)). nra. }
    assert (Z : (p - (1 + 2 * eps)) ^ 2 + (q - (1 - 2 * eps)) ^ 2 + (q - (1 - 2 * eps)) ^ 2 + (u - (1 + 2 * eps)) ^ 2 <= 0) by nra.
    pose proof (pow2_ge_0 (p - (1 + 2 * eps))). pose proof (pow2_ge_0 (q - (1 - 2 * eps))). pose proof (pow2_ge_0 (u - (1 + 2 * eps))).
    assert (Sq : forall z, z ^ 2 = 0 -> z = 0) by (intros z Hz; apply Rsqr_0_uniq; unfold Rsqr; lra).
    assert (p - (1 + 2 * eps) = 0) by (apply Sq; lra). assert (q - (1 - 2 * eps) = 0) by (apply Sq; lra).
    assert (u - (1 + 2 * eps) = 0) by (apply Sq; lra).
    intros i j Hi Hj. destruct i as [|[|i]]; [| |lia]; (destruct j as [|[|j]]; [| |lia]); cbn; fold p q q' u; lra. }
  destruct (nearcorr_spec eigh eps 2 ltac:(lia) 1 a None 1 L) as (b & found & k & E & Sb & Hk & K0 & V & F & Nf).
  assert (k = 1%nat) by (destruct k; [specialize (K0 eq_refl); lia|lia]). subst k.
  specialize (V 0%nat ltac:(lia)). unfold element in V. rewrite Sb in V. cbn [a ashape aget rounds next] in V. rewrite EX in V. cbn [option_map fst] in V.
  assert (found = true).
  { apply F. exists 0%nat. split; [reflexivity|]. intros i H0. exists (fun _ _ => 1), (fun _ _ => 1), (fun _ _ => 0), X.
    split; [reflexivity|]. split; [reflexivity|]. split; [exact EX|].
    assert (E00 := SXC 0%nat 0%nat ltac:(lia) ltac:(lia)). assert (E01 := SXC 0%nat 1%nat ltac:(lia) ltac:(lia)).
    assert (E10 := SXC 1%nat 0%nat ltac:(lia) ltac:(lia)). assert (E11 := SXC 1%nat 1%nat ltac:(lia) ltac:(lia)).
    unfold frob, minus, unit_diagonal. cbn. rewrite E00, E01, E10, E11. unfold C. cbn.
    rewrite <- (sqrt_pow2 ((1 + 1) * eps)) by lra. rewrite <- sqrt_mult_alt by (apply pow2_ge_0). apply sqrt_le_1_alt.
    pose proof (pow2_ge_0 (eps * (1 - 2 * eps))). nra. }
  subst found. exists b, (unit_diagonal X). split; [exact (nearcorr_more _ _ _ _ _ _ _ _ _ E Hi)|]. split; [exact V|].
  unfold unit_diagonal. cbn. rewrite (SXC 0%nat 1%nat) by lia. unfold C. cbn. ring.
Qed.
Print Assumptions nearcorr_unchanged_refuted.

(** Contrary to the documentation a stack of matrices with two leading axes is rejected, since the correction is not
    flattened. *)
Theorem nearcorr_stack_refuted eigh eps n a p q tol niter : (0 < n)%nat -> (2 <= p)%nat -> (2 <= q)%nat -> (1 <= niter)%nat ->
  ashape a = [p; q] -> nearcorr eigh eps n n a tol niter = Err ValueError.
Proof.
  intros Hn Hp Hq Hi Sa. unfold nearcorr. rewrite Nat.eqb_refl. cbn [negb]. destruct (Nat.eqb_spec n 0) as [K|_]; [lia|].
  set (t := match tol with Some t => t | None => _ end). rewrite Sa.
  assert (Ln : length (ndindex [p; q]) = (p * q)%nat).
  { cbn [ndindex]. rewrite flat_map_concat_map. rewrite (length_concat_const q), map_length, seq_length; [reflexivity|].
    intros x Hx. apply in_map_iff in Hx. destruct Hx as (i & <- & _). rewrite map_length. apply (ndindex_one_length q). }
  unfold reshape at 1. rewrite Sa, Ln, ndindex_one_length, Nat.eqb_refl. cbn [bind]. destruct niter as [|niter]; [lia|]. cbn [nearcorr_loop].
  unfold binary at 1. cbn [ashape elementwise]. rewrite Sa. unfold broadcast2. cbn [rev app brev]. unfold bdim.
  destruct (Nat.eqb_spec (p * q) q) as [K|_]; [nia|]. destruct (Nat.eqb_spec (p * q) 1) as [K|_]; [nia|].
  destruct (Nat.eqb_spec q 1) as [K|_]; [lia|]. reflexivity.
Qed.
Print Assumptions nearcorr_stack_refuted.

(** A matrix that is kept, with eps at most one sixth. *)
Example nearcorr_example : exists b B, nearcorr eigh2 (1 / 8) 2 2 {| ashape := [3%nat]; aget := fun _ => Some (fun i j => if (i =? j)%nat then 1 else 1 / 2) |} None 100 = Ok (b, true) /\
  aget b [1%nat] = Some B /\ B 0%nat 1%nat = 1 / 2 /\ B 1%nat 1%nat = 1.
Proof.
  set (A := fun i j : nat => if (i =? j)%nat then 1 else 1 / 2).
  destruct (nearcorr_unchanged eigh2 (1 / 8) 2 ltac:(lia) eigh2_ok ltac:(cbn; lra) {| ashape := [3%nat]; aget := fun _ => Some A |} None 100) as (b & Eb & Sb & V);
    [cbn; lia|lia|cbn; lra| |].
  - intros k _. exists A, (3 / 2). split; [reflexivity|]. split; [intros i j _ _; unfold A; rewrite Nat.eqb_sym; reflexivity|].
    split; [intros i _; unfold A; rewrite Nat.eqb_refl; reflexivity|]. split; [split|].
    + intro x. unfold quad, normsq, A. cbn. pose proof (pow2_ge_0 (x 0%nat - x 1%nat)). lra.
    + exists (fun _ => sqrt (1 / 2)). pose proof (sqrt_sqrt (1 / 2) ltac:(lra)). unfold quad, normsq, A. cbn. split; lra.
    + intro x. unfold quad, normsq, A. cbn. pose proof (pow2_ge_0 (x 0%nat + x 1%nat)). pose proof (pow2_ge_0 (x 0%nat)). pose proof (pow2_ge_0 (x 1%nat)). lra.
  - destruct (V [1%nat] A) as (B & EB & SB); [repeat constructor|reflexivity|]. exists b, B. split; [exact Eb|]. split; [exact EB|].
    rewrite (SB 0%nat 1%nat), (SB 1%nat 1%nat) by lia. split; reflexivity.
Qed.

(** C17 *)

Section Variances.
  Variable eigh : nat -> mat -> (nat -> R) * mat.
  Variable eps : R.
  Variable n : nat.

  (** The diagonal is not negative. *)
  Definition variances (A : mat) : Prop := forall i, (i < n)%nat -> 0 <= A i i.

  Lemma binary_same f (a b : stack) : (length (ashape a) <= 1)%nat -> ashape b = ashape a -> exists c,
    binary f a b = Ok c /\ ashape c = ashape a /\ forall k, inside (ashape a) k ->
      aget c k = match aget a k, aget b k with Some A, Some B => Some (f A B) | _, _ => None end.
  Proof.
    intros H Hb. destruct (ashape a) as [|N [|? ?]] eqn:Sa; [| |cbn in H; lia].
    - unfold binary. rewrite Sa, Hb. cbn. unfold broadcast_to. rewrite Sa, Hb. cbn [rev app to_rev bind]. eexists. split; [reflexivity|]. split; [reflexivity|].
      intros k Hk. cbn [aget]. apply ndindex_In in Hk. cbn in Hk. destruct Hk as [<-|[]]. rewrite ?Sa, ?Hb. reflexivity.
    - destruct (binary_leading N f a b Sa (or_introl Hb)) as (c & Ec & Sc & V). exists c. split; [exact Ec|]. split; [exact Sc|].
      intros k Hk. destruct (inside_leading N [N] k (or_introl eq_refl) Hk) as (i & Hi & ->). specialize (V i Hi). unfold element in V.
      rewrite Sa, Sc, Hb in V. exact V.
  Qed.

  (** A negative variance is an error. *)
  Theorem cov_nearest_rejected cov tol niter k A i : inside (ashape cov) k -> aget cov k = Some A -> (i < n)%nat -> A i i < 0 ->
    cov_nearest eigh eps n cov tol niter = Err ValueError.
  Proof.
    intros Ik EA Hi HA. unfold cov_nearest. replace (existsb _ (ndindex (ashape cov))) with true; [reflexivity|]. symmetry.
    apply existsb_exists. exists k. split; [apply ndindex_In; exact Ik|]. rewrite EA. apply existsb_exists. exists i.
    split; [apply in_seq; lia|]. apply ltb_iff. exact HA.
  Qed.

  (** What the function does without negative variances. *)
  Lemma cov_nearest_spec cov tol niter : (length (ashape cov) <= 1)%nat ->
    (forall k A, inside (ashape cov) k -> aget cov k = Some A -> variances A) ->
    let norm := fun (A : mat) (i j : nat) => sqrt (A j j) * sqrt (A i i) in
    let corr := elementwise (fun A => Some (fun i j => A i j / (if ltb 0 (norm A i j) then norm A i j else 1))) cov in
    forall y found, nearcorr eigh eps n n corr tol niter = Ok (y, found) -> ashape y = ashape cov ->
    exists b, cov_nearest eigh eps n cov tol niter = Ok (b, found) /\ ashape b = ashape cov /\
      forall k, inside (ashape cov) k -> aget b k = match aget y k, aget cov k with Some Y, Some A => Some (fun i j => Y i j * norm A i j) | _, _ => None end.
  Proof.
    intros Hs HV norm corr y found E Sy. unfold cov_nearest. replace (existsb _ (ndindex (ashape cov))) with false.
    - cbv zeta. match goal with |- context [nearcorr eigh eps n n ?c] => change c with corr end. rewrite E. cbn [bind fst snd].
      destruct (binary_same (fun Y A i j => Y i j * norm A i j) y cov ltac:(rewrite Sy; exact Hs) (eq_sym Sy)) as (b & Eb & Sb & V).
      match goal with |- context [binary ?f y cov] => change f with (fun Y A i j => Y i j * norm A i j) end. rewrite Eb. cbn [bind]. exists b. split; [reflexivity|]. split; [congruence|]. intros k Ik. apply V. rewrite Sy. exact Ik.
    - symmetry. apply not_true_iff_false. intro K. apply existsb_exists in K. destruct K as (k & Ik & K). apply ndindex_In in Ik.
      destruct (aget cov k) as [A|] eqn:EA; [|discriminate]. apply existsb_exists in K. destruct K as (i & Hi & K). apply in_seq in Hi. apply ltb_iff in K.
      specialize (HV k A Ik EA i ltac:(lia)). lra.
  Qed.

  (** Otherwise there is a result, with the variances of the input exactly, zeros in rows and columns of zero variance, and
      symmetric if the input is or if there was any iteration. *)
  Theorem cov_nearest_diagonal cov tol niter : (0 < n)%nat -> (length (ashape cov) <= 1)%nat ->
    (forall k A, inside (ashape cov) k -> aget cov k = Some A -> variances A) ->
    exists b found, cov_nearest eigh eps n cov tol niter = Ok (b, found) /\ ashape b = ashape cov /\
      forall k A B, inside (ashape cov) k -> aget cov k = Some A -> aget b k = Some B ->
        (forall i, (i < n)%nat -> B i i = A i i) /\
        (forall i j, (i < n)%nat -> (j < n)%nat -> A i i = 0 \/ A j j = 0 -> B i j = 0) /\
        ((1 <= niter)%nat \/ symmetric n A -> symmetric n B).
  Proof.
    intros Hn Hs HV. set (norm := fun (A : mat) (i j : nat) => sqrt (A j j) * sqrt (A i i)).
    set (corr := elementwise (fun A => Some (fun i j => A i j / (if ltb 0 (norm A i j) then norm A i j else 1))) cov).
    destruct (few_axes _ Hs) as [N L].
    destruct (nearcorr_spec eigh eps n Hn N corr tol niter L) as (y & found & k' & E & Sy & Hk & K0 & V & _).
    destruct (cov_nearest_spec cov tol niter Hs HV y found E Sy) as (b & Eb & Sb & Vb). fold norm in Vb.
    exists b, found. split; [exact Eb|]. split; [exact Sb|]. intros k A B Ik EA EB.
    rewrite (Vb k Ik), EA in EB. destruct (aget y k) as [Y|] eqn:EY; [|discriminate]. injection EB as <-.
    assert (Sn : forall i j, norm A i j = norm A j i) by (intros; unfold norm; ring).
    assert (Yk : (1 <= niter)%nat /\ unit_diag n Y /\ symmetric n Y \/
      niter = 0%nat /\ forall i j, Y i j = A i j / (if ltb 0 (norm A i j) then norm A i j else 1)).
    { destruct niter as [|niter].
      - right. split; [reflexivity|]. assert (k' = 0%nat) by lia. subst k'.
        destruct (element_at N corr k L Ik) as (i & Hi & Ec & Ey). rewrite <- (Ey y Sy), (V i Hi), Ec in EY. cbn [corr elementwise aget] in EY. rewrite EA in EY.
        injection EY as <-. reflexivity.
      - left. split; [lia|]. destruct (nearcorr_diagonal eigh eps n corr tol (S niter) y found Hn Hs ltac:(lia) E) as [_ G]. exact (G k Y Ik EY). }
    pose proof (HV k A Ik EA) as Va.
    split; [|split].
    - intros i Hi. pose proof (sqrt_sqrt (A i i) (Va i Hi)) as Sq. destruct Yk as [(_ & U & _)|(_ & U)].
      + rewrite (U i Hi). unfold norm. lra.
      + rewrite U. assert (Nn : norm A i i = A i i) by exact Sq. rewrite Nn. unfold ltb. destruct (Rlt_dec 0 (A i i)) as [P|P]; cbv iota.
        * rewrite Sq. field. lra.
        * specialize (Va i Hi). assert (Z : A i i = 0) by lra. rewrite Sq, Z. lra.
    - intros i j Hi Hj Z. assert (Zn : norm A i j = 0).
      { unfold norm. destruct Z as [Z|Z]; rewrite Z, sqrt_0; ring. }
      change (Y i j * norm A i j = 0). rewrite Zn. ring.
    - intros Q i j Hi Hj. change (Y i j * norm A i j = Y j i * norm A j i). rewrite (Sn i j). f_equal. destruct Yk as [(_ & _ & SY)|(Z & U)]; [apply SY; assumption|].
      destruct Q as [Q|Q]; [lia|]. rewrite !U, (Sn i j), (Q i j Hi Hj). reflexivity.
  Qed.

  Hypothesis Hn : (0 < n)%nat.
  Hypothesis eigh_ok : forall A, symmetric n A -> eigensystem n A (fst (eigh n A)) (snd (eigh n A)).
  Hypothesis eps_ok : 0 <= INR n * eps <= 1.

  (** For symmetric input all entries are numbers; and positive semi-definite if there is no warning for the tolerance
      zero. *)
  Theorem cov_nearest_total cov tol niter : (length (ashape cov) <= 1)%nat -> (1 <= niter)%nat ->
    (forall k, inside (ashape cov) k -> exists A, aget cov k = Some A /\ symmetric n A /\ variances A) ->
    exists b found, cov_nearest eigh eps n cov tol niter = Ok (b, found) /\
      forall k, inside (ashape cov) k -> exists B, aget b k = Some B /\ (found = true -> tol = Some 0 -> positive_semidefinite n B).
  Proof.
    intros Hs Hi HA. set (norm := fun (A : mat) (i j : nat) => sqrt (A j j) * sqrt (A i i)).
    set (corr := elementwise (fun A => Some (fun i j => A i j / (if ltb 0 (norm A i j) then norm A i j else 1))) cov).
    assert (Sn : forall A i j, norm A i j = norm A j i) by (intros; unfold norm; ring).
    assert (HC : forall k, inside (ashape corr) k -> exists C x, aget corr k = Some C /\ symmetric n C /\ normsq n x = 1 /\ 0 <= quad n C x).
    { intros k Ik. destruct (HA k Ik) as (A & EA & SA & VA). eexists. exists (fun k => if (k =? 0)%nat then 1 else 0). split; [|split; [|split]].
      - cbn [corr elementwise aget]. rewrite EA. reflexivity.
      - intros i j Hi' Hj. cbn beta. rewrite (Sn A i j), (SA i j Hi' Hj). reflexivity.
      - apply unit_vector. exact Hn.
      - rewrite quad_unit by exact Hn. unfold ltb. destruct (Rlt_dec 0 (norm A 0%nat 0%nat)) as [P|P]; cbv iota.
        + apply Rmult_le_pos; [apply VA; exact Hn|]. left. apply Rinv_0_lt_compat. exact P.
        + unfold Rdiv; rewrite Rinv_1, Rmult_1_r. apply VA. exact Hn. }
    destruct (nearcorr_total eigh eps n Hn eigh_ok eps_ok corr tol niter Hs Hi HC) as (y & found & E & Sy & G).
    destruct (cov_nearest_spec cov tol niter Hs) with (y := y) (found := found) as (b & Eb & Sb & Vb); [|exact E|exact Sy|].
    { intros k A Ik EA. destruct (HA k Ik) as (A' & EA' & _ & VA). rewrite EA in EA'. injection EA' as <-. exact VA. }
    fold norm in Vb. exists b, found. split; [exact Eb|]. intros k Ik. destruct (HA k Ik) as (A & EA & SA & VA).
    destruct (G k Ik) as (Y & EY & _). rewrite (Vb k Ik), EY, EA. eexists. split; [reflexivity|].
    intros -> ->. destruct (HC k Ik) as (C & x & EC & SC & Nx & Qx).
    destruct (nearcorr_nearest eigh eps n Hn eigh_ok eps_ok corr niter y Hs E k C x Ik EC SC Nx Qx) as (Y' & EY' & _ & _ & PY & _).
    rewrite EY in EY'. injection EY' as <-. intro z.
    eapply Rle_trans; [apply (PY (fun i => sqrt (A i i) * z i))|]. apply Req_le. unfold quad. apply rsum_ext. intros i Hi'. apply rsum_ext. intros j Hj.
    unfold norm. ring.
  Qed.

  (** A covariance matrix with positive variances [s i ^ 2] and correlations [C] is kept, if the eigenvalues of [C] are not
      too small compared to the largest. *)
  Theorem cov_nearest_unchanged cov tol niter : (length (ashape cov) <= 1)%nat -> (1 <= niter)%nat ->
    0 <= match tol with Some t => t | None => INR n * eps end ->
    (forall k, inside (ashape cov) k -> exists A C s l, aget cov k = Some A /\
       (forall i j, (i < n)%nat -> (j < n)%nat -> A i j = s i * s j * C i j) /\ (forall i, (i < n)%nat -> 0 < s i) /\
       symmetric n C /\ unit_diag n C /\ top n C l /\ at_least n (INR n * eps * l) C) ->
    exists b, cov_nearest eigh eps n cov tol niter = Ok (b, true) /\ ashape b = ashape cov /\
      forall k A, inside (ashape cov) k -> aget cov k = Some A -> exists B, aget b k = Some B /\ same n B A.
  Proof.
    intros Hs Hi Ht HA. set (norm := fun (A : mat) (i j : nat) => sqrt (A j j) * sqrt (A i i)).
    set (corr := elementwise (fun A => Some (fun i j => A i j / (if ltb 0 (norm A i j) then norm A i j else 1))) cov).
    assert (Nm : forall (A C : mat) (s : nat -> R), (forall i j, (i < n)%nat -> (j < n)%nat -> A i j = s i * s j * C i j) ->
      (forall i, (i < n)%nat -> 0 < s i) -> unit_diag n C -> forall i j, (i < n)%nat -> (j < n)%nat -> norm A i j = s i * s j /\ 0 < s i * s j).
    { intros A C s HAC Ps U i j Hi' Hj. unfold norm. rewrite (HAC i i), (HAC j j), (U i), (U j) by assumption.
      rewrite !Rmult_1_r, !sqrt_square by (left; apply Ps; assumption). split; [ring|]. apply Rmult_lt_0_compat; apply Ps; assumption. }
    assert (HC : forall k, inside (ashape corr) k -> exists A l, aget corr k = Some A /\ symmetric n A /\ unit_diag n A /\ top n A l /\ at_least n (INR n * eps * l) A).
    { intros k Ik. destruct (HA k Ik) as (A & C & s & l & EA & HAC & Ps & SC & UC & TC & LC).
      set (M := fun i j => A i j / (if ltb 0 (norm A i j) then norm A i j else 1)).
      assert (SM : same n M C).
      { intros i j Hi' Hj. unfold M. destruct (Nm A C s HAC Ps UC i j Hi' Hj) as [-> P]. rewrite (ltb_true _ _ P).
        rewrite (HAC i j Hi' Hj). field. split; apply Rgt_not_eq, Ps; assumption. }
      exists M, l. split; [cbn [corr elementwise aget]; rewrite EA; reflexivity|].
      split; [intros i j Hi' Hj; rewrite (SM i j), (SM j i) by assumption; apply SC; assumption|].
      split; [intros i Hi'; rewrite (SM i i) by assumption; apply UC; assumption|].
      destruct TC as [TC (u & Nu & Qu)]. split; [split|].
      - intro z. rewrite (quad_ext n _ _ z SM). apply TC.
      - exists u. split; [exact Nu|]. rewrite (quad_ext n _ _ u SM). exact Qu.
      - intro z. rewrite (quad_ext n _ _ z SM). apply LC. }
    destruct (nearcorr_unchanged eigh eps n Hn eigh_ok eps_ok corr tol niter Hs Hi Ht HC) as (y & E & Sy & G).
    destruct (cov_nearest_spec cov tol niter Hs) with (y := y) (found := true) as (b & Eb & Sb & Vb); [|exact E|exact Sy|].
    { intros k A Ik EA i Hi'. destruct (HA k Ik) as (A' & C & s & l & EA' & HAC & Ps & SC & UC & _). rewrite EA in EA'. injection EA' as <-.
      rewrite (HAC i i), (UC i) by assumption. specialize (Ps i Hi'). nra. }
    fold norm in Vb. exists b. split; [exact Eb|]. split; [exact Sb|]. intros k A Ik EA.
    destruct (HA k Ik) as (A' & C & s & l & EA' & HAC & Ps & SC & UC & _). rewrite EA in EA'. injection EA' as <-.
    destruct (G k _ Ik ltac:(cbn [corr elementwise aget]; rewrite EA; reflexivity)) as (Y & EY & SY).
    rewrite (Vb k Ik), EY, EA. eexists. split; [reflexivity|]. intros i j Hi' Hj. cbn beta. rewrite (SY i j Hi' Hj).
    change (A i j / (if ltb 0 (norm A i j) then norm A i j else 1) * norm A i j = A i j).
    destruct (Nm A C s HAC Ps UC i j Hi' Hj) as [-> P]. rewrite (ltb_true _ _ P).
    field. split; apply Rgt_not_eq, Ps; assumption.
  Qed.
End Variances.
Print Assumptions cov_nearest_rejected.
Print Assumptions cov_nearest_diagonal.
Print Assumptions cov_nearest_total.
Print Assumptions cov_nearest_unchanged.

(** Covariances 4, 1, 1 are kept; a zero variance with non-zero covariances gives a matrix with the diagonal 0, 1. *)
Example cov_nearest_example : (exists b B, cov_nearest eigh2 (1 / 8) 2 {| ashape := []; aget := fun _ => Some (fun i j => if (i =? j)%nat then (if (i =? 0)%nat then 4 else 1) else 1) |} None 100 = Ok (b, true) /\
    aget b [] = Some B /\ B 0%nat 0%nat = 4 /\ B 0%nat 1%nat = 1) /\
  exists b found B, cov_nearest eigh2 (1 / 8) 2 {| ashape := []; aget := fun _ => Some (fun i j => if (i =? j)%nat then INR i else 5) |} None 7 = Ok (b, found) /\
    aget b [] = Some B /\ B 0%nat 0%nat = 0 /\ B 0%nat 1%nat = 0 /\ B 1%nat 1%nat = 1.
Proof.
  split.
  - set (A := fun i j : nat => if (i =? j)%nat then (if (i =? 0)%nat then 4 else 1) else 1).
    destruct (cov_nearest_unchanged eigh2 (1 / 8) 2 ltac:(lia) eigh2_ok ltac:(cbn; lra) {| ashape := []; aget := fun _ => Some A |} None 100) as (b & Eb & Sb & V);
      [cbn; lia|lia|cbn; lra| |].
    + intros k _. exists A, (fun i j => if (i =? j)%nat then 1 else 1 / 2), (fun i => if (i =? 0)%nat then 2 else 1), (3 / 2). split; [reflexivity|].
      split; [intros i j Hi Hj; unfold A; destruct i as [|[|i]]; [| |lia]; (destruct j as [|[|j]]; [| |lia]); cbn; lra|].
      split; [intros i _; destruct (i =? 0)%nat; lra|].
      split; [intros i j _ _; rewrite Nat.eqb_sym; reflexivity|].
      split; [intros i _; rewrite Nat.eqb_refl; reflexivity|]. split; [split|].
      * intro x. unfold quad, normsq. cbn. pose proof (pow2_ge_0 (x 0%nat - x 1%nat)). lra.
      * exists (fun _ => sqrt (1 / 2)). pose proof (sqrt_sqrt (1 / 2) ltac:(lra)). unfold quad, normsq. cbn. split; lra.
      * intro x. unfold quad, normsq. cbn. pose proof (pow2_ge_0 (x 0%nat + x 1%nat)). pose proof (pow2_ge_0 (x 0%nat)). pose proof (pow2_ge_0 (x 1%nat)). lra.
    + destruct (V [] A) as (B & EB & SB); [constructor|reflexivity|]. exists b, B. split; [exact Eb|]. split; [exact EB|].
      rewrite (SB 0%nat 1%nat), (SB 0%nat 0%nat) by lia. split; reflexivity.
  - set (A := fun i j : nat => if (i =? j)%nat then INR i else 5).
    assert (VA : variances 2 A) by (intros i _; unfold A; rewrite Nat.eqb_refl; apply pos_INR).
    assert (SA : symmetric 2 A).
    { intros i j _ _. unfold A. rewrite Nat.eqb_sym. destruct (Nat.eqb_spec j i) as [->|_]; reflexivity. }
    destruct (cov_nearest_total eigh2 (1 / 8) 2 ltac:(lia) eigh2_ok ltac:(cbn; lra) {| ashape := []; aget := fun _ => Some A |} None 7) as (b & found & Eb & G);
      [cbn; lia|lia|intros k _; exists A; auto|].
    destruct (G [] ltac:(constructor)) as (B & EB & _).
    destruct (cov_nearest_diagonal eigh2 (1 / 8) 2 {| ashape := []; aget := fun _ => Some A |} None 7 ltac:(lia) ltac:(cbn; lia)) as (b' & f' & Eb' & _ & D).
    { intros k A' _ [= <-]. exact VA. }
    rewrite Eb in Eb'. injection Eb' as <- <-. destruct (D [] A B ltac:(constructor) eq_refl EB) as (D1 & D2 & _).
    exists b, found, B. split; [exact Eb|]. split; [exact EB|]. split; [rewrite (D1 0%nat) by lia; reflexivity|]. split; [apply D2; [lia|lia|left; reflexivity]|]. rewrite (D1 1%nat) by lia. reflexivity.
Qed.
