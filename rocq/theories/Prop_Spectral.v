(** Claims about covariance matrices that need no particular eigenvalue decomposition (C15, C16, C17, C66, C73). *)
From Coq Require Import Reals Lra Lia List Arith Bool.
From Verif Require Import Base RSum Model_Numeric Proof_Numeric Model_Arrays Spec_Arrays Proof_Arrays Model_Effective Proof_Effective
  Model_Cov Spec_Cov Proof_Cov Prop_Cov Proof_Spectral.
Import ListNotations.
Local Open Scope R_scope.

(** C15, C16, C17, C66, C73 *)

(** Every symmetric matrix has eigenvalues and eigenvectors as [xp.linalg.eigh] should find them, whatever its size. *)
Theorem symmetric_eigensystem n A : symmetric n A -> exists w v, eigensystem n A w v.
Proof. intro H. exact (spectral n A H). Qed.
Print Assumptions symmetric_eigensystem.

Lemma distance_zero n A B : distance n A B <= 0 -> same n A B.
Proof.
  intros H i j Hi Hj. unfold distance in H.
  assert (P : forall i, 0 <= rsum n (fun j => (A i j - B i j) ^ 2)) by (intro; apply rsum_nonneg; intros; apply pow2_ge_0).
  assert (Z : (A i j - B i j) ^ 2 <= 0).
  { eapply Rle_trans; [|exact H].
    eapply Rle_trans; [|apply (rsum_le n (fun p => (if (p =? i)%nat then 1 else 0) * rsum n (fun q => (A p q - B p q) ^ 2)))].
    - rewrite rsum_if by exact Hi.
      eapply Rle_trans; [|apply (rsum_le n (fun q => (if (q =? j)%nat then 1 else 0) * (A i q - B i q) ^ 2))].
      + rewrite (rsum_if n j (fun q => (A i q - B i q) ^ 2)) by exact Hj. apply Rle_refl.
      + intros q _. pose proof (pow2_ge_0 (A i q - B i q)). destruct (q =? j)%nat; lra.
    - intros p _. specialize (P p). destruct (p =? i)%nat; lra. }
  assert (A i j - B i j = 0) by (apply Rsqr_0_uniq; unfold Rsqr; pose proof (pow2_ge_0 (A i j - B i j)); lra). lra.
Qed.

(** C15, C73 *)

(** The largest eigenvalue of a symmetric matrix exists. *)
Theorem largest_eigenvalue n A : (0 < n)%nat -> symmetric n A -> exists l, top n A l.
Proof.
  intros Hn H. destruct (spectral n A H) as (w & v & E). exists (largest n w). apply (system_top n A w v E _ Hn). reflexivity.
Qed.
Print Assumptions largest_eigenvalue.

Lemma clip_same eigh1 eigh2 eps n rtol A1 A2 l : (0 < n)%nat -> same n A1 A2 ->
  eigensystem n A1 (fst (eigh1 n A1)) (snd (eigh1 n A1)) -> eigensystem n A2 (fst (eigh2 n A2)) (snd (eigh2 n A2)) ->
  0 <= match rtol with Some r => r | None => INR n * eps end -> top n A1 l -> 0 <= l ->
  exists B1 B2, clip_matrix eigh1 eps n rtol A1 = Some B1 /\ clip_matrix eigh2 eps n rtol A2 = Some B2 /\ same n B1 B2.
Proof.
  intros Hn Sa E1 E2 Hr T Hl.
  assert (T2 : top n A2 l).
  { destruct T as [T (x & Nx & Qx)]. split; [intro y; rewrite <- (quad_ext n _ _ y Sa); apply T|]. exists x. split; [exact Nx|].
    rewrite <- (quad_ext n _ _ x Sa). exact Qx. }
  destruct (eigh1 n A1) as [w1 v1] eqn:Ee1. destruct (eigh2 n A2) as [w2 v2] eqn:Ee2. cbn [fst snd] in E1, E2.
  destruct (clip_matrix_spec eigh1 eps n Hn rtol A1 w1 v1 l Ee1 E1 T Hr Hl) as (B1 & H1 & _ & L1 & _ & _ & D1 & _).
  destruct (clip_matrix_spec eigh2 eps n Hn rtol A2 w2 v2 l Ee2 E2 T2 Hr Hl) as (B2 & H2 & _ & L2 & _ & _ & D2 & _).
  exists B1, B2. split; [exact H1|]. split; [exact H2|]. apply distance_zero.
  specialize (D1 B2 L2). specialize (D2 B1 L1).
  assert (X : forall C, distance n A2 C = distance n A1 C).
  { intro C. apply rsum_ext. intros i Hi. apply rsum_ext. intros j Hj. rewrite (Sa i j Hi Hj). reflexivity. }
  rewrite !X in D2.
  assert (Y : distance n B2 B1 = distance n B1 B2).
  { apply rsum_ext. intros i Hi. apply rsum_ext. intros j Hj. ring. }
  lra.
Qed.

(** The clipped matrix does not depend on how the decomposition was done: which eigenvectors were taken of an eigenvalue
    that occurs more than once, and with which sign. *)
Theorem cov_clip_determined eigh1 eigh2 eps n cov rtol : (0 < n)%nat ->
  0 <= match rtol with Some r => r | None => INR n * eps end ->
  exists b1 b2, cov_clip eigh1 eps n cov rtol = Ok b1 /\ cov_clip eigh2 eps n cov rtol = Ok b2 /\
    forall i A x, aget cov i = Some A -> normsq n x = 1 -> 0 <= quad n A x ->
      eigensystem n A (fst (eigh1 n A)) (snd (eigh1 n A)) -> eigensystem n A (fst (eigh2 n A)) (snd (eigh2 n A)) ->
      exists B1 B2, aget b1 i = Some B1 /\ aget b2 i = Some B2 /\ same n B1 B2.
Proof.
  intros Hn Hr. unfold cov_clip. destruct (Nat.eqb_spec n 0) as [K|_]; [lia|]. do 2 eexists. split; [reflexivity|]. split; [reflexivity|].
  intros i A x EA Nx Qx E1 E2. cbn [elementwise aget]. rewrite EA.
  assert (T : top n A (largest n (fst (eigh1 n A)))) by (apply (system_top n A _ _ E1 _ Hn); reflexivity).
  apply (clip_same eigh1 eigh2 eps n rtol A A (largest n (fst (eigh1 n A))) Hn); try assumption; [intros p q _ _; reflexivity|].
  destruct T as [T _]. specialize (T x). rewrite Nx in T. lra.
Qed.
Print Assumptions cov_clip_determined.

(** With the first of the eigenvectors of [eigh2] negated. *)
Definition eigh2' (n : nat) (A : mat) : (nat -> R) * mat :=
  let '(w, v) := eigh2 n A in (w, fun i k => if (k =? 0)%nat then - v i k else v i k).

Lemma eigh2'_ok A : symmetric 2 A -> eigensystem 2 A (fst (eigh2' 2 A)) (snd (eigh2' 2 A)).
Proof.
  intro Sy. pose proof (eigh2_ok A Sy) as (O & R & E & M). unfold eigh2'. destruct (eigh2 2 A) as [w v]. cbn [fst snd] in *.
  split; [|split; [|split; [|exact M]]].
  - intros k l Hk Hl. pose proof (O k l Hk Hl) as H. rewrite <- H.
    destruct k as [|[|k]]; [| |lia]; (destruct l as [|[|l]]; [| |lia]); cbn in *; lra.
  - intros i j Hi Hj. pose proof (R i j Hi Hj) as H. rewrite <- H. apply rsum_ext. intros k _. destruct (k =? 0)%nat; ring.
  - intros i j Hi Hj. rewrite (E i j Hi Hj). apply rsum_ext. intros k _. destruct (k =? 0)%nat; ring.
Qed.

Example cov_clip_determined_example eps : exists b1 b2 B1 B2,
  cov_clip eigh2 eps 2 {| ashape := []; aget := fun _ => Some (fun i j => if (i =? j)%nat then 0 else 1) |} (Some 0) = Ok b1 /\
  cov_clip eigh2' eps 2 {| ashape := []; aget := fun _ => Some (fun i j => if (i =? j)%nat then 0 else 1) |} (Some 0) = Ok b2 /\
  aget b1 [] = Some B1 /\ aget b2 [] = Some B2 /\ same 2 B1 (fun _ _ => 1 / 2) /\ same 2 B2 (fun _ _ => 1 / 2).
Proof.
  set (A := fun i j : nat => if (i =? j)%nat then 0 else 1).
  assert (Sy : symmetric 2 A) by (intros i j _ _; unfold A; rewrite Nat.eqb_sym; reflexivity).
  destruct (cov_clip_determined eigh2 eigh2' eps 2 {| ashape := []; aget := fun _ => Some A |} (Some 0) ltac:(lia) ltac:(lra))
    as (b1 & b2 & H1 & H2 & H).
  destruct (H [] A (fun i => if (i =? 0)%nat then 1 else 0) eq_refl) as (B1 & B2 & V1 & V2 & S12).
  - unfold normsq. cbn. lra.
  - unfold quad, A. cbn. lra.
  - apply eigh2_ok. exact Sy.
  - apply eigh2'_ok. exact Sy.
  - destruct (cov_clip_example eps) as (b & B & E & V & S). fold A in E. rewrite H1 in E. injection E as <-. rewrite V1 in V. injection V as <-.
    exists b1, b2, B1, B2. repeat (split; [assumption|]). intros i j Hi Hj. rewrite <- (S12 i j Hi Hj). apply S; assumption.
Qed.

(** C16, C73 *)
Section Determined.
  Variables (eigh1 eigh2 : nat -> mat -> (nat -> R) * mat) (eps : R) (n : nat).
  Hypothesis Hn : (0 < n)%nat.
  Hypothesis ok1 : forall A, symmetric n A -> eigensystem n A (fst (eigh1 n A)) (snd (eigh1 n A)).
  Hypothesis ok2 : forall A, symmetric n A -> eigensystem n A (fst (eigh2 n A)) (snd (eigh2 n A)).
  Hypothesis eps_ok : 0 <= INR n * eps <= 1.

  Lemma rounds_both A k : symmetric n A -> (exists x, normsq n x = 1 /\ 0 <= quad n A x) ->
    exists Y1 D1 X1 Y2 D2 X2,
      rounds eigh1 eps n k (Some (A, fun _ _ => 0)) = Some (Y1, D1) /\ clip_matrix eigh1 eps n None (minus Y1 D1) = Some X1 /\
      rounds eigh2 eps n k (Some (A, fun _ _ => 0)) = Some (Y2, D2) /\ clip_matrix eigh2 eps n None (minus Y2 D2) = Some X2 /\
      same n Y1 Y2 /\ same n X1 X2.
  Proof.
    intros SA Ex.
    enough (H : exists Y1 D1 Y2 D2, rounds eigh1 eps n k (Some (A, fun _ _ => 0)) = Some (Y1, D1) /\
      rounds eigh2 eps n k (Some (A, fun _ _ => 0)) = Some (Y2, D2) /\ same n Y1 Y2 /\ same n D1 D2 /\
      exists X1 X2, clip_matrix eigh1 eps n None (minus Y1 D1) = Some X1 /\ clip_matrix eigh2 eps n None (minus Y2 D2) = Some X2 /\ same n X1 X2).
    { destruct H as (Y1 & D1 & Y2 & D2 & R1 & R2 & SY & _ & X1 & X2 & C1 & C2 & SX). exists Y1, D1, X1, Y2, D2, X2. auto 10. }
    assert (Clip : forall Y1 D1 Y2 D2, inv n A (Y1, D1) -> same n Y1 Y2 -> same n D1 D2 ->
      exists X1 X2, clip_matrix eigh1 eps n None (minus Y1 D1) = Some X1 /\ clip_matrix eigh2 eps n None (minus Y2 D2) = Some X2 /\ same n X1 X2).
    { intros Y1 D1 Y2 D2 I SY SD. destruct (inv_top eigh1 n Hn ok1 A _ I) as (l & Hl & T). cbn [fst snd] in T.
      destruct I as (Sy & _). cbn [fst snd] in Sy.
      assert (SR : same n (minus Y1 D1) (minus Y2 D2)) by (intros i j Hi Hj; unfold minus; rewrite (SY i j Hi Hj), (SD i j Hi Hj); reflexivity).
      apply (clip_same eigh1 eigh2 eps n None _ _ l Hn SR); [apply ok1; exact Sy|apply ok2|apply eps_ok|exact T|exact Hl].
      intros i j Hi Hj. rewrite <- (SR i j Hi Hj), <- (SR j i Hj Hi). apply Sy; assumption. }
    induction k as [|k IH].
    - exists A, (fun _ _ => 0), A, (fun _ _ => 0). split; [reflexivity|]. split; [reflexivity|].
      split; [intros i j _ _; reflexivity|]. split; [intros i j _ _; reflexivity|].
      destruct (inv_rounds eigh1 eps n Hn ok1 eps_ok A 0 SA Ex) as (s & Es & I). injection Es as <-.
      apply Clip; [exact I|intros i j _ _; reflexivity|intros i j _ _; reflexivity].
    - destruct IH as (Y1 & D1 & Y2 & D2 & R1 & R2 & SY & SD & X1 & X2 & C1 & C2 & SX).
      exists (unit_diagonal X1), (minus X1 (minus Y1 D1)), (unit_diagonal X2), (minus X2 (minus Y2 D2)).
      assert (E1 : rounds eigh1 eps n (S k) (Some (A, fun _ _ => 0)) = Some (unit_diagonal X1, minus X1 (minus Y1 D1))).
      { rewrite rounds_S, R1. cbn [next]. rewrite C1. reflexivity. }
      split; [exact E1|]. split; [rewrite rounds_S, R2; cbn [next]; rewrite C2; reflexivity|].
      assert (S1 : same n (unit_diagonal X1) (unit_diagonal X2)) by (intros i j Hi Hj; unfold unit_diagonal; rewrite (SX i j Hi Hj); reflexivity).
      assert (S2 : same n (minus X1 (minus Y1 D1)) (minus X2 (minus Y2 D2))).
      { intros i j Hi Hj. unfold minus. rewrite (SX i j Hi Hj), (SY i j Hi Hj), (SD i j Hi Hj). reflexivity. }
      split; [exact S1|]. split; [exact S2|].
      destruct (inv_rounds eigh1 eps n Hn ok1 eps_ok A (S k) SA Ex) as (s & Es & I). rewrite E1 in Es. injection Es as <-.
      apply Clip; [exact I|exact S1|exact S2].
  Qed.

  (** The nearest correlation matrix that is returned, and whether there is a warning, do not depend on how the
      decompositions were done. *)
  Theorem nearcorr_determined a tol niter : (length (ashape a) <= 1)%nat ->
    (forall k, inside (ashape a) k -> exists A x, aget a k = Some A /\ symmetric n A /\ normsq n x = 1 /\ 0 <= quad n A x) ->
    exists b1 b2 found, nearcorr eigh1 eps n n a tol niter = Ok (b1, found) /\ nearcorr eigh2 eps n n a tol niter = Ok (b2, found) /\
      ashape b1 = ashape b2 /\
      forall k, inside (ashape a) k -> exists B1 B2, aget b1 k = Some B1 /\ aget b2 k = Some B2 /\ same n B1 B2.
  Proof.
    intros Hs HA. destruct (few_axes _ Hs) as [N L].
    set (t := match tol with Some t => t | None => INR n * eps end).
    set (P := fun (eigh : nat -> mat -> (nat -> R) * mat) j => forall i, (i < N)%nat -> exists A Y D X, element a i = Some A /\
         rounds eigh eps n j (Some (A, fun _ _ => 0)) = Some (Y, D) /\ clip_matrix eigh eps n None (minus Y D) = Some X /\
         frob n (minus (unit_diagonal X) X) <= t * frob n (unit_diagonal X)).
    assert (HE : forall i, (i < N)%nat -> exists A, element a i = Some A /\ symmetric n A /\ exists x, normsq n x = 1 /\ 0 <= quad n A x).
    { intros i Hi. assert (Ik : inside (ashape a) (match ashape a with [] => [] | _ => [i] end)).
      { destruct L as [->|[-> ->]]; [repeat constructor; exact Hi|constructor]. }
      destruct (HA _ Ik) as (A & x & EA & SA & Nx & Qx). exists A. split; [exact EA|]. split; [exact SA|]. exists x. auto. }
    assert (Fr : forall X1 X2, same n X1 X2 -> frob n X1 = frob n X2).
    { intros X1 X2 SX. unfold frob. f_equal. apply rsum_ext. intros i Hi. apply rsum_ext. intros j Hj. rewrite (SX i j Hi Hj). reflexivity. }
    assert (PP : forall j, P eigh1 j <-> P eigh2 j).
    { intro j. split; intros H i Hi; destruct (H i Hi) as (A & Y & D & X & EA & Er & EX & Le); destruct (HE i Hi) as (A' & EA' & SA & Ex);
        rewrite EA in EA'; injection EA' as <-; destruct (rounds_both A j SA Ex) as (Y1 & D1 & X1 & Y2 & D2 & X2 & R1 & C1 & R2 & C2 & SY & SX).
      - exists A, Y2, D2, X2. split; [exact EA|]. split; [exact R2|]. split; [exact C2|].
        rewrite Er in R1. injection R1 as <- <-. rewrite EX in C1. injection C1 as <-.
        rewrite <- (Fr (minus (unit_diagonal X) X) (minus (unit_diagonal X2) X2)), <- (Fr (unit_diagonal X) (unit_diagonal X2)); [exact Le| |];
          intros p q Hp Hq; unfold minus, unit_diagonal; rewrite (SX p q Hp Hq); reflexivity.
      - exists A, Y1, D1, X1. split; [exact EA|]. split; [exact R1|]. split; [exact C1|].
        rewrite Er in R2. injection R2 as <- <-. rewrite EX in C2. injection C2 as <-.
        rewrite (Fr (minus (unit_diagonal X1) X1) (minus (unit_diagonal X) X)), (Fr (unit_diagonal X1) (unit_diagonal X)); [exact Le| |];
          intros p q Hp Hq; unfold minus, unit_diagonal; rewrite (SX p q Hp Hq); reflexivity. }
    set (val := fun (eigh : nat -> mat -> (nat -> R) * mat) (b : stack) k => forall i, (i < N)%nat -> element b i = match k, element a i with
         | O, _ => element a i
         | _, Some A => option_map fst (rounds eigh eps n k (Some (A, fun _ _ => 0)))
         | _, None => None end).
    assert (Ind : exists b1 b2 found k, nearcorr eigh1 eps n n a tol niter = Ok (b1, found) /\ nearcorr eigh2 eps n n a tol niter = Ok (b2, found) /\
      ashape b1 = ashape a /\ ashape b2 = ashape a /\ val eigh1 b1 k /\ val eigh2 b2 k /\ (found = false -> forall j, (j < niter)%nat -> ~ P eigh1 j)).
    { induction niter as [|m IH].
      - destruct (nearcorr_spec eigh1 eps n Hn N a tol 0 L) as (b1 & f1 & k1 & N1 & S1 & K1 & _ & V1 & F1 & _).
        destruct (nearcorr_spec eigh2 eps n Hn N a tol 0 L) as (b2 & f2 & k2 & N2 & S2 & K2 & _ & V2 & F2 & _).
        assert (k1 = 0%nat) by lia. assert (k2 = 0%nat) by lia. subst k1 k2.
        assert (f1 = false) by (destruct f1; [destruct (proj1 F1 eq_refl) as (j & K & _); discriminate|reflexivity]).
        assert (f2 = false) by (destruct f2; [destruct (proj1 F2 eq_refl) as (j & K & _); discriminate|reflexivity]). subst f1 f2.
        exists b1, b2, false, 0%nat. repeat (split; [assumption|]). intros _ j Hj. lia.
      - destruct IH as (b1 & b2 & found & k & N1 & N2 & S1 & S2 & V1 & V2 & Not). destruct found.
        + exists b1, b2, true, k. split; [apply (nearcorr_more _ _ _ _ _ _ m); [exact N1|lia]|].
          split; [apply (nearcorr_more _ _ _ _ _ _ m); [exact N2|lia]|]. repeat (split; [assumption|]). discriminate.
        + specialize (Not eq_refl). clear b1 b2 N1 N2 S1 S2 V1 V2.
          destruct (nearcorr_spec eigh1 eps n Hn N a tol (S m) L) as (b1 & f1 & k1 & N1 & S1 & K1 & _ & V1 & F1 & Nf1).
          destruct (nearcorr_spec eigh2 eps n Hn N a tol (S m) L) as (b2 & f2 & k2 & N2 & S2 & K2 & _ & V2 & F2 & Nf2).
          fold t in F1, F2. change (f1 = true <-> exists j, k1 = S j /\ P eigh1 j) in F1. change (f2 = true <-> exists j, k2 = S j /\ P eigh2 j) in F2.
          assert (E1 : k1 = S m).
          { destruct f1; [|auto]. destruct (proj1 F1 eq_refl) as (j & -> & Pj). destruct (Nat.eq_dec j m) as [->|]; [reflexivity|].
            exfalso. apply (Not j); [lia|exact Pj]. }
          assert (E2 : k2 = S m).
          { destruct f2; [|auto]. destruct (proj1 F2 eq_refl) as (j & -> & Pj). destruct (Nat.eq_dec j m) as [->|]; [reflexivity|].
            exfalso. apply (Not j); [lia|]. apply PP. exact Pj. }
          subst k1 k2.
          assert (E : f1 = f2).
          { destruct f1, f2; try reflexivity.
            - destruct (proj1 F1 eq_refl) as (j & [= <-] & Pj). symmetry. apply F2. exists m. split; [reflexivity|apply PP; exact Pj].
            - destruct (proj1 F2 eq_refl) as (j & [= <-] & Pj). apply F1. exists m. split; [reflexivity|apply PP; exact Pj]. }
          subst f2. exists b1, b2, f1, (S m). repeat (split; [assumption|]). intros -> j Hj Pj. destruct (Nat.eq_dec j m) as [->|].
          * enough (false = true) by discriminate. apply F1. exists m. auto.
          * apply (Not j); [lia|exact Pj]. }
    destruct Ind as (b1 & b2 & found & k & N1 & N2 & S1 & S2 & V1 & V2 & _). exists b1, b2, found. split; [exact N1|]. split; [exact N2|].
    split; [rewrite S1, S2; reflexivity|]. intros q Iq. destruct (element_at N a q L Iq) as (i & Hi & Ea & Eb).
    destruct (HE i Hi) as (A & EA & SA & Ex). rewrite <- (Eb b1 S1), <- (Eb b2 S2), (V1 i Hi), (V2 i Hi), EA.
    destruct k as [|k]; [exists A, A; split; [reflexivity|]; split; [reflexivity|]; intros p r _ _; reflexivity|].
    destruct (rounds_both A (S k) SA Ex) as (Y1 & D1 & X1 & Y2 & D2 & X2 & R1 & _ & R2 & _ & SY & _).
    rewrite R1, R2. exists Y1, Y2. auto.
  Qed.
End Determined.
Print Assumptions nearcorr_determined.

(** Ones on the diagonal and twos elsewhere, which is not the correlation matrix of anything. *)
Example nearcorr_determined_example niter : exists b1 b2 found B1 B2,
  nearcorr eigh2 (1 / 1024) 2 2 {| ashape := []; aget := fun _ => Some (fun i j => if (i =? j)%nat then 1 else 2) |} None niter = Ok (b1, found) /\
  nearcorr eigh2' (1 / 1024) 2 2 {| ashape := []; aget := fun _ => Some (fun i j => if (i =? j)%nat then 1 else 2) |} None niter = Ok (b2, found) /\
  aget b1 [] = Some B1 /\ aget b2 [] = Some B2 /\ B1 0%nat 1%nat = B2 0%nat 1%nat.
Proof.
  set (A := fun i j : nat => if (i =? j)%nat then 1 else 2).
  assert (Sy : symmetric 2 A) by (intros i j _ _; unfold A; rewrite Nat.eqb_sym; reflexivity).
  destruct (nearcorr_determined eigh2 eigh2' (1 / 1024) 2 ltac:(lia) eigh2_ok eigh2'_ok ltac:(cbn; lra) {| ashape := []; aget := fun _ => Some A |} None niter)
    as (b1 & b2 & found & N1 & N2 & _ & H); [cbn; lia| |].
  - intros k _. exists A, (fun i => if (i =? 0)%nat then 1 else 0). split; [reflexivity|]. split; [exact Sy|]. unfold normsq, quad, A. cbn. lra.
  - destruct (H [] ltac:(constructor)) as (B1 & B2 & V1 & V2 & S). exists b1, b2, found, B1, B2. repeat (split; [assumption|]). apply S; lia.
Qed.
