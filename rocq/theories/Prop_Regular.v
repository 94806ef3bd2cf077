(** Claims about the regularisation of spectra (C66). *)
From Coq Require Import String Reals Lra Lia List Arith Bool.
From Verif Require Import Base RSum Model_Numeric Proof_Numeric Model_Arrays Spec_Arrays Proof_Arrays Model_Spectra Spec_Spectra Proof_Spectra
  Model_Fields Spec_Fields Proof_Fields Model_Effective Proof_Effective Model_Cov Spec_Cov Proof_Cov Prop_Cov Model_Regular.
Import ListNotations.
Local Open Scope R_scope.

Lemma read_out_length {A} (c : cube A) cls : triangle (cn c) (length cls) -> @length (list A) (read_out c) = @length (list R) cls /\
  forall cl, In cl (read_out c) -> length cl = ck c.
Proof.
  intro Ht. unfold read_out. split.
  - rewrite map_length, indices_length. eapply triangle_fun; [apply tril_length|exact Ht].
  - intros cl H. apply in_map_iff in H. destruct H as ([i j] & <- & _). rewrite map_length, seq_length. reflexivity.
Qed.

Lemma read_out_covariance (c : cube R) : (forall l i j, (l < ck c)%nat -> (i < cn c)%nat -> (j < cn c)%nat -> cget c l i j = cget c l j i) ->
  covariance_of 0 (read_out c) (ck c) (cn c) (cget c).
Proof.
  intros Sy l i j Hl Hi Hj. set (p := Nat.max i j). set (q := Nat.min i j).
  assert (Ek : exists k, in_order k p q).
  { assert (I : In (p, q) (spectra_indices (cn c))) by (apply indices_In; lia). apply In_nth_error in I. destruct I as [k I].
    apply indices_nth in I. exists k. apply I. }
  destruct Ek as [k Hk].
  assert (E : nth_error (spectra_indices (cn c)) k = Some (p, q)) by (apply indices_nth; split; [lia|exact Hk]).
  exists (map (fun l => cget c l p q) (seq 0 (ck c))). split.
  - exists k. split; [exact Hk|]. unfold read_out. rewrite nth_error_map', E. reflexivity.
  - unfold mode. rewrite (nth_indep _ 0 (cget c 0 p q)) by (rewrite map_length, seq_length; exact Hl).
    rewrite (map_nth (fun l => cget c l p q) (seq 0 (ck c)) 0%nat l), seq_nth by exact Hl. cbn [Nat.add].
    destruct (Nat.le_ge_cases i j).
    + replace p with j by lia. replace q with i by lia. apply Sy; assumption.
    + replace p with i by lia. replace q with j by lia. reflexivity.
Qed.

Lemma read_out_some (k n : nat) (s : stack) (g : nat -> nat -> nat -> R) :
  (forall l, (l < k)%nat -> exists M, aget s [l] = Some M /\ forall i j, M i j = g l i j) ->
  read_out (cube_of k n s) = map (map Some) (read_out {| ck := k; cn := n; cget := g |}).
Proof.
  intro H. unfold read_out. cbn [ck cn cube_of cget]. rewrite map_map. apply map_ext. intros [i j]. rewrite map_map. apply map_ext_in.
  intros l Hl. apply in_seq in Hl. destruct (H l ltac:(lia)) as (M & -> & V). rewrite V. reflexivity.
Qed.

(** The matrix of a mode that is known to be there. *)
Definition matrix_at (s : stack) (l : nat) : mat := match aget s [l] with Some M => M | None => fun _ _ => 0 end.

Lemma stack_inside k l : (l < k)%nat -> inside [k] [l].
Proof. intro H. repeat constructor. exact H. Qed.
Lemma stack_inside_inv k i : inside [k] i -> exists l, i = [l] /\ (l < k)%nat.
Proof. intro H. inversion H as [|x y a b Hx Hr]; subst. inversion Hr; subst. eauto. Qed.

(** C66 *)

(** The test is whether the matrices of all modes are positive semi-definite. *)
Theorem check_posdef_iff eigh cls n : cls <> [] -> triangle n (length cls) ->
  (forall A, symmetric n A -> eigensystem n A (fst (eigh n A)) (snd (eigh n A))) ->
  exists r k c, check_posdef_spectra eigh (map Some cls) = Ok r /\ longest cls k /\ covariance_of 0 cls k n c /\
    (r = true <-> forall l, (l < k)%nat -> positive_semidefinite n (c l)).
Proof.
  intros Hne Ht Eo. destruct (cov_from_spectra_ok 0 cls n None Hne Ht) as (c & E & N & K & C). cbn in K.
  unfold check_posdef_spectra. rewrite E. cbn [bind]. rewrite N. eexists. exists (ck c), (cget c). split; [reflexivity|]. split; [exact K|]. split; [exact C|].
  assert (Sy : forall l, (l < ck c)%nat -> symmetric n (cget c l)).
  { intros l Hl i j Hi Hj. destruct (C l i j Hl Hi Hj) as (cl & S & ->). destruct (C l j i Hl Hj Hi) as (cl' & S' & ->).
    f_equal. eapply spectrum_unique; [exact S|]. unfold spectrum_of in *. rewrite Nat.max_comm, Nat.min_comm. exact S'. }
  rewrite forallb_forall. split.
  - intros H l Hl x. specialize (H l ltac:(apply in_seq; lia)). rewrite forallb_forall in H. pose proof (Eo _ (Sy l Hl)) as Es.
    rewrite (system_quad n _ _ _ Es). apply rsum_nonneg. intros k Hk. apply Rmult_le_pos; [|apply pow2_ge_0].
    apply leb_iff. apply H. apply in_seq. lia.
  - intros H l Hl. apply in_seq in Hl. apply forallb_forall. intros k Hk. apply in_seq in Hk. apply leb_iff. pose proof (Eo _ (Sy l ltac:(lia))) as Es.
    rewrite <- (system_column n _ _ _ Es k ltac:(lia)). apply H. lia.
Qed.
Print Assumptions check_posdef_iff.

(** Other methods than clip and nearest are rejected. *)
Theorem regularize_unknown eigh eps method rtol tol niter spectra lmax : method <> "clip"%string -> method <> "nearest"%string ->
  regularize eigh eps method rtol tol niter spectra lmax = Err ValueError.
Proof.
  intros H1 H2. unfold regularize. destruct (String.eqb_spec method "clip"); [contradiction|]. destruct (String.eqb_spec method "nearest"); [contradiction|reflexivity].
Qed.
Print Assumptions regularize_unknown.

(** Clipping: if each mode has a spectrum of a field with itself that is not negative, the result is a valid covariance
    for each mode, of all those that are as well conditioned the nearest, and unchanged where valid already. *)
Theorem regularize_clip eigh eps cls n lmax rtol tol niter : cls <> [] -> triangle n (length cls) ->
  (forall A, symmetric n A -> eigensystem n A (fst (eigh n A)) (snd (eigh n A))) ->
  let r := match rtol with Some r => r | None => INR n * eps end in 0 <= r ->
  exists k c, match lmax with Some lm => k = (lm + 1)%nat | None => longest cls k end /\ covariance_of 0 cls k n c /\
    ((forall l, (l < k)%nat -> exists i, (i < n)%nat /\ 0 <= c l i i) ->
     exists out c', regularize eigh eps "clip" rtol tol niter (map Some cls) lmax = Ok (map (map Some) out, true) /\
       length out = length cls /\ (forall cl, In cl out -> length cl = k) /\ covariance_of 0 out k n c' /\
       (forall l, (l < k)%nat -> positive_semidefinite n (c' l)) /\
       forall l t, (l < k)%nat -> top n (c l) t -> at_least n (r * t) (c' l) /\
         (at_least n (r * t) (c l) -> same n (c' l) (c l)) /\
         forall B, at_least n (r * t) B -> distance n (c l) (c' l) + distance n (c' l) B <= distance n (c l) B).
Proof.
  intros Hne Ht Eo r Hr. destruct (cov_from_spectra_ok 0 cls n lmax Hne Ht) as (c & E & N & K & C).
  exists (ck c), (cget c). split; [exact K|]. split; [exact C|]. intro Pos.
  assert (Hn : (0 < n)%nat).
  { destruct n; [|lia]. unfold triangle in Ht. destruct cls; [contradiction|cbn in Ht; lia]. }
  assert (Sy : forall l, (l < ck c)%nat -> symmetric n (cget c l)).
  { intros l Hl i j Hi Hj. destruct (C l i j Hl Hi Hj) as (cl & S & ->). destruct (C l j i Hl Hj Hi) as (cl' & S' & ->).
    f_equal. eapply spectrum_unique; [exact S|]. unfold spectrum_of in *. rewrite Nat.max_comm, Nat.min_comm. exact S'. }
  destruct (cov_clip_nearest eigh eps n (stack_of c) rtol Hn Hr) as (b & Eb & Sb & G).
  assert (G' : forall l, (l < ck c)%nat -> exists B, aget b [l] = Some B /\ symmetric n B /\ positive_semidefinite n B /\ forall t, top n (cget c l) t ->
    at_least n (r * t) B /\ (at_least n (r * t) (cget c l) -> same n B (cget c l)) /\
    forall D, at_least n (r * t) D -> distance n (cget c l) B + distance n B D <= distance n (cget c l) D).
  { intros l Hl. pose proof (Eo _ (Sy l Hl)) as Es.
    assert (Tp : forall t, top n (cget c l) t -> 0 <= t).
    { intros t [T _]. destruct (Pos l Hl) as (i & Hi & P). specialize (T (fun k => if (k =? i)%nat then 1 else 0)).
      rewrite unit_vector, quad_unit in T by exact Hi. lra. }
    pose proof (proj2 (system_top n _ _ _ Es _ Hn) eq_refl) as T0.
    destruct (G [l] (cget c l) _ eq_refl Es T0 (Tp _ T0)) as (B & EB & SB & PB & LB & MB & UB & DB).
    exists B. split; [exact EB|]. split; [exact SB|]. split; [exact PB|]. intros t T. apply (system_top n _ _ _ Es _ Hn) in T. subst t. auto. }
  set (c1 := {| ck := ck c; cn := n; cget := matrix_at b |}).
  assert (V1 : forall l, (l < ck c)%nat -> exists M, aget b [l] = Some M /\ forall i j, M i j = matrix_at b l i j).
  { intros l Hl. destruct (G' l Hl) as (B & EB & _). exists B. split; [exact EB|]. unfold matrix_at. rewrite EB. reflexivity. }
  exists (read_out c1), (matrix_at b). unfold regularize. cbn [String.eqb Ascii.eqb Bool.eqb]. rewrite E. cbn [bind]. rewrite N, Eb. cbn [bind].
  rewrite (read_out_some (ck c) n b (matrix_at b) V1). split; [reflexivity|].
  destruct (read_out_length c1 cls Ht) as [L1 L2]. split; [exact L1|]. split; [exact L2|]. split.
  - apply (read_out_covariance c1). cbn [c1 ck cn cget]. intros l i j Hl Hi Hj. destruct (G' l Hl) as (B & EB & SB & _). unfold matrix_at. rewrite EB. apply SB; assumption.
  - split; intros l.
    + intro Hl. destruct (G' l Hl) as (B & EB & SB & PB & _). unfold matrix_at. rewrite EB. exact PB.
    + intros t Hl T. destruct (G' l Hl) as (B & EB & SB & PB & P). unfold matrix_at. rewrite EB. apply P. exact T.
Qed.
Print Assumptions regularize_clip.

(** Spectra which are valid are only cut and padded to the length. *)
Theorem regularize_clip_valid eigh eps cls n lmax tol niter k c : cls <> [] -> triangle n (length cls) ->
  (forall A, symmetric n A -> eigensystem n A (fst (eigh n A)) (snd (eigh n A))) ->
  match lmax with Some lm => k = (lm + 1)%nat | None => longest cls k end -> covariance_of 0 cls k n c ->
  (forall l, (l < k)%nat -> positive_semidefinite n (c l)) ->
  exists out, regularize eigh eps "clip" (Some 0) tol niter (map Some cls) lmax = Ok (map (map Some) out, true) /\ Forall2 (resized 0 k) cls out.
Proof.
  intros Hne Ht Eo Hk Hc Pc. destruct (regularize_clip eigh eps cls n lmax (Some 0) tol niter Hne Ht Eo (Rle_refl 0)) as (k0 & c0 & K0 & C0 & G).
  assert (k0 = k).
  { destruct lmax as [lm|]; [congruence|]. destruct Hk as [H1 H2], K0 as [H3 H4].
    destruct H2 as [->|(x & Ix & <-)], H4 as [->|(y & Iy & <-)]; try reflexivity.
    - pose proof (H1 _ Iy). lia.
    - pose proof (H3 _ Ix). lia.
    - pose proof (H1 _ Iy). pose proof (H3 _ Ix). lia. }
  subst k0. assert (Ec : forall l i j, (l < k)%nat -> (i < n)%nat -> (j < n)%nat -> c l i j = c0 l i j).
  { intros l i j Hl Hi Hj. destruct (Hc l i j Hl Hi Hj) as (x & Sx & ->). destruct (C0 l i j Hl Hi Hj) as (y & Sy & ->).
    rewrite (spectrum_unique _ _ _ _ _ Sx Sy). reflexivity. }
  assert (P0 : forall l, (l < k)%nat -> positive_semidefinite n (c0 l)).
  { intros l Hl x. rewrite <- (quad_ext n (c l) (c0 l) x); [apply Pc; exact Hl|]. intros i j Hi Hj. apply Ec; assumption. }
  assert (Hn : (0 < n)%nat).
  { destruct n; [|lia]. unfold triangle in Ht. destruct cls; [contradiction|cbn in Ht; lia]. }
  destruct G as (out & c' & E & L & Ls & C' & _ & G).
  { intros l Hl. exists 0%nat. split; [exact Hn|]. rewrite <- (quad_unit n (c0 l) 0 Hn). apply P0. exact Hl. }
  exists out. split; [exact E|].
  assert (Nth : forall m x y, nth_error cls m = Some x -> nth_error out m = Some y -> resized 0 k x y).
  { intros m x y Hx Hy. split; [apply Ls; eapply nth_error_In; exact Hy|]. intros l Hl.
    assert (Sm : (m < length (spectra_indices n))%nat).
    { rewrite indices_length, (triangle_fun _ _ _ (tril_length n) Ht). apply nth_error_Some. congruence. }
    apply nth_error_Some in Sm. destruct (nth_error (spectra_indices n) m) as [[i j]|] eqn:Em; [|contradiction]. apply indices_nth in Em. destruct Em as [Hi Ho].
    assert (Hj : (j <= i)%nat) by apply Ho.
    assert (Mx : Nat.max i j = i) by lia. assert (Mn : Nat.min i j = j) by lia.
    assert (Sx : spectrum_of cls i j x) by (exists m; rewrite Mx, Mn; auto). assert (Sy : spectrum_of out i j y) by (exists m; rewrite Mx, Mn; auto).
    destruct (C0 l i j Hl Hi ltac:(lia)) as (x' & Sx' & V0). rewrite (spectrum_unique _ _ _ _ _ Sx' Sx) in V0.
    destruct (C' l i j Hl Hi ltac:(lia)) as (y' & Sy' & V1). rewrite (spectrum_unique _ _ _ _ _ Sy' Sy) in V1.
    destruct (C0 l 0%nat 0%nat Hl Hn Hn) as (z & Sz & _).
    assert (Sy0 : symmetric n (c0 l)).
    { intros a b Ha Hb. destruct (C0 l a b Hl Ha Hb) as (u & Su & ->). destruct (C0 l b a Hl Hb Ha) as (v & Sv & ->).
      f_equal. eapply spectrum_unique; [exact Su|]. unfold spectrum_of in *. rewrite Nat.max_comm, Nat.min_comm. exact Sv. }
    pose proof (Eo _ Sy0) as Es. pose proof (proj2 (system_top n _ _ _ Es _ Hn) eq_refl) as T0.
    destruct (G l _ Hl T0) as (_ & U & _). rewrite <- V0, <- (U ltac:(intro q; rewrite Rmult_0_l, Rmult_0_l; apply P0; exact Hl) i j Hi ltac:(lia)), V1.
    unfold mode. apply nth_error_nth'. rewrite (Ls y (nth_error_In _ _ Hy)). exact Hl. }
  clear - L Nth. revert out L Nth. induction cls as [|x cls IH]; intros [|y out] L Nth; try discriminate; constructor.
  - apply (Nth 0%nat); reflexivity.
  - apply IH; [cbn in L; lia|]. intros m. apply (Nth (S m)).
Qed.
Print Assumptions regularize_clip_valid.

(** Nearest correlations: spectra of fields with themselves are kept exactly, and cut to the length; the result is a valid
    covariance for each mode if the tolerance zero is reached. *)
Theorem regularize_nearest eigh eps cls n lmax rtol tol niter : cls <> [] -> triangle n (length cls) -> (1 <= niter)%nat ->
  (forall A, symmetric n A -> eigensystem n A (fst (eigh n A)) (snd (eigh n A))) -> 0 <= INR n * eps <= 1 ->
  exists k c, match lmax with Some lm => k = (lm + 1)%nat | None => longest cls k end /\ covariance_of 0 cls k n c /\
    ((exists l i, (l < k)%nat /\ (i < n)%nat /\ c l i i < 0) -> regularize eigh eps "nearest" rtol tol niter (map Some cls) lmax = Err ValueError) /\
    ((forall l i, (l < k)%nat -> (i < n)%nat -> 0 <= c l i i) ->
     exists out c' found, regularize eigh eps "nearest" rtol tol niter (map Some cls) lmax = Ok (map (map Some) out, found) /\
       length out = length cls /\ (forall cl, In cl out -> length cl = k) /\ covariance_of 0 out k n c' /\
       forall l, (l < k)%nat ->
         (forall i, (i < n)%nat -> c' l i i = c l i i) /\
         (forall i j, (i < n)%nat -> (j < n)%nat -> c l i i = 0 -> c' l i j = 0) /\
         (found = true -> tol = Some 0 -> positive_semidefinite n (c' l))).
Proof.
  intros Hne Ht Hi Eo He. destruct (cov_from_spectra_ok 0 cls n lmax Hne Ht) as (c & E & N & K & C).
  exists (ck c), (cget c). split; [exact K|]. split; [exact C|].
  assert (Hn : (0 < n)%nat).
  { destruct n; [|lia]. unfold triangle in Ht. destruct cls; [contradiction|cbn in Ht; lia]. }
  assert (Sy : forall l, (l < ck c)%nat -> symmetric n (cget c l)).
  { intros l Hl i j Hi' Hj. destruct (C l i j Hl Hi' Hj) as (cl & S & ->). destruct (C l j i Hl Hj Hi') as (cl' & S' & ->).
    f_equal. eapply spectrum_unique; [exact S|]. unfold spectrum_of in *. rewrite Nat.max_comm, Nat.min_comm. exact S'. }
  unfold regularize. cbn [String.eqb Ascii.eqb Bool.eqb]. rewrite E. cbn [bind]. rewrite N. split.
  - intros (l & i & Hl & Hi' & Ng).
    rewrite (cov_nearest_rejected eigh eps n (stack_of c) tol niter [l] (cget c l) i (stack_inside _ _ Hl) eq_refl Hi' Ng). reflexivity.
  - intro Pos.
    assert (Va : forall k A, inside (ashape (stack_of c)) k -> aget (stack_of c) k = Some A -> variances n A).
    { intros k A Ik EA. apply stack_inside_inv in Ik. destruct Ik as (l & -> & Hl). injection EA as <-. intros i Hi'. apply Pos; assumption. }
    destruct (cov_nearest_diagonal eigh eps n (stack_of c) tol niter Hn ltac:(cbn; lia) Va) as (b & found & Eb & Sb & D).
    destruct (cov_nearest_total eigh eps n Hn Eo He (stack_of c) tol niter ltac:(cbn; lia) Hi) as (b' & found' & Eb' & T).
    { intros k Ik. apply stack_inside_inv in Ik. destruct Ik as (l & -> & Hl). exists (cget c l). split; [reflexivity|]. split; [apply Sy; exact Hl|].
      intros i Hi'. apply Pos; assumption. }
    rewrite Eb in Eb'. injection Eb' as <- <-. rewrite Eb. cbn [bind fst snd].
    set (c1 := {| ck := ck c; cn := n; cget := matrix_at b |}).
    assert (V1 : forall l, (l < ck c)%nat -> exists M, aget b [l] = Some M /\ forall i j, M i j = matrix_at b l i j).
    { intros l Hl. destruct (T [l] (stack_inside _ _ Hl)) as (B & EB & _). exists B. split; [exact EB|]. unfold matrix_at. rewrite EB. reflexivity. }
    exists (read_out c1), (matrix_at b), found. rewrite (read_out_some (ck c) n b (matrix_at b) V1). split; [reflexivity|].
    destruct (read_out_length c1 cls Ht) as [L1 L2]. split; [exact L1|]. split; [exact L2|]. split.
    + apply (read_out_covariance c1). cbn [c1 ck cn cget]. intros l i j Hl Hi' Hj. destruct (T [l] (stack_inside _ _ Hl)) as (B & EB & _). unfold matrix_at. rewrite EB.
      destruct (D [l] (cget c l) B (stack_inside _ _ Hl) eq_refl EB) as (_ & _ & S). apply S; auto.
    + intros l Hl. destruct (T [l] (stack_inside _ _ Hl)) as (B & EB & P). unfold matrix_at. rewrite EB.
      destruct (D [l] (cget c l) B (stack_inside _ _ Hl) eq_refl EB) as (D1 & D2 & _). split; [exact D1|]. split; [|exact P].
      intros i j Hi' Hj Z. apply D2; auto.
Qed.
Print Assumptions regularize_nearest.

(** Two fields: the matrix of the only mode. *)
Lemma two_fields a b d k c : longest [[a]; [b]; [d]] k -> covariance_of 0 [[a]; [b]; [d]] k 2 c ->
  k = 1%nat /\ c 0%nat 0%nat 0%nat = a /\ c 0%nat 1%nat 1%nat = b /\ c 0%nat 0%nat 1%nat = d /\ c 0%nat 1%nat 0%nat = d.
Proof.
  intros Hk C. assert (K : k = 1%nat).
  { destruct Hk as [H1 [->|(cl & I & E)]]; [specialize (H1 [a] (or_introl eq_refl)); cbn in H1; lia|]. destruct I as [<-|[<-|[<-|[]]]]; cbn in E; lia. }
  subst k. split; [reflexivity|].
  assert (S : forall i j x, (i < 2)%nat -> (j < 2)%nat -> spectrum_of [[a]; [b]; [d]] i j [x] -> c 0%nat i j = x).
  { intros i j x Hi Hj Sx. destruct (C 0%nat i j ltac:(lia) Hi Hj) as (cl & Sc & ->). rewrite (spectrum_unique _ _ _ _ _ Sc Sx). reflexivity. }
  repeat split; apply S; try lia.
  - exists 0%nat. split; [split; cbn; lia|reflexivity].
  - exists 1%nat. split; [split; cbn; lia|reflexivity].
  - exists 2%nat. split; [split; cbn; lia|reflexivity].
  - exists 2%nat. split; [split; cbn; lia|reflexivity].
Qed.

(** The matrix with zero variances and covariance 1 is not valid; clipping makes all entries 1/2. *)
Example regularize_clip_example eps : check_posdef_spectra eigh2 [Some [0]; Some [0]; Some [1]] = Ok false /\
  check_posdef_spectra eigh2 [Some [1]; Some [1]; Some [1]] = Ok true /\
  regularize eigh2 eps "clip" (Some 0) None 0 [Some [0]; Some [0]; Some [1]] None = Ok ([[Some (1 / 2)]; [Some (1 / 2)]; [Some (1 / 2)]], true) /\
  regularize eigh2 eps "clip" (Some 0) None 0 [Some [4]; Some [1]; Some [1]] (Some 1%nat) = Ok ([[Some 4; Some 0]; [Some 1; Some 0]; [Some 1; Some 0]], true).
Proof.
  split; [|split; [|split]].
  - destruct (check_posdef_iff eigh2 [[0]; [0]; [1]] 2 ltac:(discriminate) ltac:(reflexivity) eigh2_ok) as (r & k & c & E & K & C & I).
    cbn [map] in E. rewrite E. destruct r; [|reflexivity]. exfalso. destruct (two_fields _ _ _ _ _ K C) as (-> & E00 & E11 & E01 & E10).
    pose proof (proj1 I eq_refl 0%nat ltac:(lia) (fun i => if (i =? 0)%nat then 1 else -1)) as P.
    unfold quad in P. cbn in P. rewrite E00, E11, E01, E10 in P. lra.
  - destruct (check_posdef_iff eigh2 [[1]; [1]; [1]] 2 ltac:(discriminate) ltac:(reflexivity) eigh2_ok) as (r & k & c & E & K & C & I).
    cbn [map] in E. rewrite E. f_equal. apply I. intros l Hl x. destruct (two_fields _ _ _ _ _ K C) as (-> & E00 & E11 & E01 & E10). replace l with 0%nat by lia.
    unfold quad. cbn. rewrite E00, E11, E01, E10. pose proof (pow2_ge_0 (x 0%nat + x 1%nat)). lra.
  - destruct (regularize_clip eigh2 eps [[0]; [0]; [1]] 2 None (Some 0) None 0 ltac:(discriminate) ltac:(reflexivity) eigh2_ok ltac:(cbn; lra)) as (k & c & K & C & G).
    destruct (two_fields _ _ _ _ _ K C) as (-> & E00 & E11 & E01 & E10).
    destruct G as (out & c' & E & L & Ls & C' & PB & G). { intros l Hl. exists 0%nat. replace l with 0%nat by lia. rewrite E00. split; [lia|lra]. }
    cbn [map] in E. rewrite E. specialize (PB 0%nat ltac:(lia)).
    assert (T : top 2 (c 0%nat) 1).
    { split.
      - intro x. unfold quad, normsq. cbn. rewrite E00, E11, E01, E10. pose proof (Rle_0_sqr (x 0%nat - x 1%nat)) as P. unfold Rsqr in P. lra.
      - exists (fun _ => sqrt (1 / 2)). pose proof (sqrt_sqrt (1 / 2) ltac:(lra)) as S2. unfold quad, normsq. cbn. rewrite E00, E11, E01, E10. split; lra. }
    destruct (G 0%nat 1 ltac:(lia) T) as (_ & _ & DB).
    assert (HC : at_least 2 (0 * 1) (fun _ _ => 1 / 2)).
    { intro x. unfold quad, normsq. cbn. pose proof (Rle_0_sqr (x 0%nat + x 1%nat)) as P. unfold Rsqr in P. lra. }
    pose proof (DB _ HC) as D.
    assert (P1 := PB (fun i => if (i =? 0)%nat then 1 else -1)).
    destruct out as [|o1 [|o2 [|o3 [|]]]]; cbn in L; try lia.
    pose proof (Ls o1 ltac:(cbn; auto)) as L1. pose proof (Ls o2 ltac:(cbn; auto)) as L2. pose proof (Ls o3 ltac:(cbn; auto)) as L3.
    destruct o1 as [|p [|]]; cbn in L1; try lia. destruct o2 as [|u [|]]; cbn in L2; try lia. destruct o3 as [|q [|]]; cbn in L3; try lia.
    assert (K' : longest [[p]; [u]; [q]] 1). { split; [intros cl [<-|[<-|[<-|[]]]]; cbn; lia|right; exists [p]; cbn; auto]. }
    destruct (two_fields _ _ _ _ _ K' C') as (_ & F00 & F11 & F01 & F10).
    unfold distance, quad in D, P1. cbn in D, P1. rewrite ?F00, ?F11, ?F01, ?F10, ?E00, ?E11, ?E01, ?E10 in D. rewrite ?F00, ?F11, ?F01, ?F10 in P1.
    assert (Z : (p - 1 / 2) ^ 2 + (q - 1 / 2) ^ 2 + (q - 1 / 2) ^ 2 + (u - 1 / 2) ^ 2 <= 0) by nra.
    pose proof (pow2_ge_0 (p - 1 / 2)). pose proof (pow2_ge_0 (q - 1 / 2)). pose proof (pow2_ge_0 (u - 1 / 2)).
    assert (Sq : forall z, z ^ 2 = 0 -> z = 0) by (intros z Hz; apply Rsqr_0_uniq; unfold Rsqr; lra).
    assert (p - 1 / 2 = 0) by (apply Sq; lra). assert (q - 1 / 2 = 0) by (apply Sq; lra). assert (u - 1 / 2 = 0) by (apply Sq; lra).
    replace p with (1 / 2) by lra. replace q with (1 / 2) by lra. replace u with (1 / 2) by lra. reflexivity.
  - set (c := fun l i j : nat => if (l =? 0)%nat then (if (i =? j)%nat then (if (i =? 0)%nat then 4 else 1) else 1) else 0).
    destruct (regularize_clip_valid eigh2 eps [[4]; [1]; [1]] 2 (Some 1%nat) None 0 2 c ltac:(discriminate) ltac:(reflexivity) eigh2_ok eq_refl) as (out & E & F).
    + intros l i j Hl Hi Hj. destruct i as [|[|i]]; [| |lia]; (destruct j as [|[|j]]; [| |lia]).
      * exists [4]. split; [exists 0%nat; split; [split; cbn; lia|reflexivity]|]. destruct l as [|[|l]]; reflexivity.
      * exists [1]. split; [exists 2%nat; split; [split; cbn; lia|reflexivity]|]. destruct l as [|[|l]]; reflexivity.
      * exists [1]. split; [exists 2%nat; split; [split; cbn; lia|reflexivity]|]. destruct l as [|[|l]]; reflexivity.
      * exists [1]. split; [exists 1%nat; split; [split; cbn; lia|reflexivity]|]. destruct l as [|[|l]]; reflexivity.
    + intros l Hl x. unfold quad, c. destruct l as [|[|l]]; [| |lia]; cbn; [|lra].
      pose proof (pow2_ge_0 (x 0%nat + x 1%nat)). pose proof (pow2_ge_0 (x 0%nat)). lra.
    + cbn [map] in E. rewrite E.
      assert (R : forall x y : R, forall o, resized 0 2 [x] o -> o = [x; 0]).
      { intros x _ o [Lo V]. destruct o as [|u [|v [|]]]; cbn in Lo; try lia. pose proof (V 0%nat ltac:(lia)) as V0. pose proof (V 1%nat ltac:(lia)) as V1.
        cbn in V0, V1. congruence. }
      inversion F as [|x1 y1 a1 b1 R1 F1]; subst. inversion F1 as [|x2 y2 a2 b2 R2 F2]; subst. inversion F2 as [|x3 y3 a3 b3 R3 F3]; subst. inversion F3; subst.
      rewrite (R _ 0 _ R1), (R _ 0 _ R2), (R _ 0 _ R3). reflexivity.
Qed.

(** Zero variance of the first field: its correlations are removed.  A negative spectrum is rejected. *)
Example regularize_nearest_example :
  (exists found, regularize eigh2 (1 / 8) "nearest" None None 7 [Some [0]; Some [1]; Some [5]] None = Ok ([[Some 0]; [Some 1]; [Some 0]], found)) /\
  regularize eigh2 (1 / 8) "nearest" None None 7 [Some [0]; Some [-1]; Some [5]] None = Err ValueError.
Proof.
  split.
  - destruct (regularize_nearest eigh2 (1 / 8) [[0]; [1]; [5]] 2 None None None 7 ltac:(discriminate) ltac:(reflexivity) ltac:(lia) eigh2_ok ltac:(cbn; lra))
      as (k & c & K & C & _ & G).
    destruct (two_fields _ _ _ _ _ K C) as (-> & E00 & E11 & E01 & E10).
    destruct G as (out & c' & found & E & L & Ls & C' & G).
    { intros l i Hl Hi. replace l with 0%nat by lia. destruct i as [|[|i]]; [| |lia]; lra. }
    exists found. cbn [map] in E. rewrite E. destruct (G 0%nat ltac:(lia)) as (D1 & D2 & _).
    destruct out as [|o1 [|o2 [|o3 [|]]]]; cbn in L; try lia.
    pose proof (Ls o1 ltac:(cbn; auto)) as L1. pose proof (Ls o2 ltac:(cbn; auto)) as L2. pose proof (Ls o3 ltac:(cbn; auto)) as L3.
    destruct o1 as [|p [|]]; cbn in L1; try lia. destruct o2 as [|u [|]]; cbn in L2; try lia. destruct o3 as [|q [|]]; cbn in L3; try lia.
    assert (K' : longest [[p]; [u]; [q]] 1). { split; [intros cl [<-|[<-|[<-|[]]]]; cbn; lia|right; exists [p]; cbn; auto]. }
    destruct (two_fields _ _ _ _ _ K' C') as (_ & F00 & F11 & F01 & F10).
    pose proof (D1 0%nat ltac:(lia)). pose proof (D1 1%nat ltac:(lia)). pose proof (D2 0%nat 1%nat ltac:(lia) ltac:(lia) E00).
    cbn. replace p with 0 by lra. replace u with 1 by lra. replace q with 0 by lra. reflexivity.
  - destruct (regularize_nearest eigh2 (1 / 8) [[0]; [-1]; [5]] 2 None None None 7 ltac:(discriminate) ltac:(reflexivity) ltac:(lia) eigh2_ok ltac:(cbn; lra))
      as (k & c & K & C & G & _).
    destruct (two_fields _ _ _ _ _ K C) as (-> & E00 & E11 & E01 & E10). apply G. exists 0%nat, 1%nat. rewrite E11. repeat split; try lia; lra.
Qed.
