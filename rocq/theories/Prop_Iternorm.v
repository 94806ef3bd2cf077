(** Theorems about the iterative normal sampler. *)
From Verif Require Import RSum Model_Spectra Model_Fields Model_Iternorm Spec_Iternorm Proof_Iternorm.
Local Open Scope nat_scope.

(** C09 *)
(** Draw [i] correlates with draw [j] as requested by row [i], for every lag covered by the row,
    in every slice [l] in which the standard deviations yielded for earlier draws are positive. *)
Theorem iternorm_covariance rows e0 ws e i j wi wj row l N :
  iternorm (rows, e0) = (ws, e) ->
  nth_error ws i = Some wi -> nth_error ws j = Some wj -> nth_error rows i = Some row ->
  j <= i < N -> i - j < width row -> l < lead row ->
  (forall f w, f < i -> nth_error ws f = Some w -> (0 < el w l (width w - 1))%R) ->
  covariance N (coefficient (width wi - 1) (el wi l) i) (coefficient (width wj - 1) (el wj l) j)
  = el row l (i - j).
Proof.
  intros E Hi Hj Hr Hij Hd Hl Hpos.
  pose proof (iternorm_outputs rows e0 l i wi) as H. rewrite E in H. cbn [fst] in H.
  destruct (H Hi) as (row' & Hr' & HO). rewrite Hr in Hr'. injection Hr' as <-.
  assert (Ci : out_coef ws l i = coefficient (width wi - 1) (el wi l) i)
    by (unfold out_coef; rewrite (nth_error_nth _ _ _ Hi); reflexivity).
  assert (Cj : out_coef ws l j = coefficient (width wj - 1) (el wj l) j)
    by (unfold out_coef; rewrite (nth_error_nth _ _ _ Hj); reflexivity).
  destruct (Nat.eq_dec i j) as [->|Hne].
  - rewrite <- Cj. rewrite Hi in Hj. injection Hj as <-. rewrite <- Ci, Nat.sub_diag.
    apply (output_variance l ws j _ row wi Hi HO); [lia|]. destruct HO as (_ & HO & _). rewrite <- HO. exact Hl.
  - rewrite <- Ci, <- Cj. apply (output_covariance l ws i _ row wi Hi HO); try lia.
    + intros f Hf. destruct (nth_error ws f) as [w|] eqn:Ef.
      * fold empty_stack. rewrite (nth_error_nth _ _ _ Ef). exact (Hpos f w Hf Ef).
      * apply nth_error_None in Ef. assert (i < length ws) by (apply nth_error_Some; congruence). lia.
    + destruct HO as (_ & _ & HO & _). lia.
Qed.
Print Assumptions iternorm_covariance.

(** The variance of every draw is exact, degenerate or not. *)
Theorem iternorm_variance rows e0 ws e i w row l N :
  iternorm (rows, e0) = (ws, e) ->
  nth_error ws i = Some w -> nth_error rows i = Some row -> l < lead row -> i < N ->
  let x := coefficient (width w - 1) (el w l) i in covariance N x x = el row l 0.
Proof.
  intros E Hi Hr Hl HN x.
  pose proof (iternorm_outputs rows e0 l i w) as H. rewrite E in H. cbn [fst] in H.
  destruct (H Hi) as (row' & Hr' & HO). rewrite Hr in Hr'. injection Hr' as <-.
  assert (Ci : out_coef ws l i = x)
    by (unfold out_coef, x; rewrite (nth_error_nth _ _ _ Hi); reflexivity).
  rewrite <- Ci. apply (output_variance l ws i _ row w Hi HO N HN).
  destruct HO as (_ & HO & _). rewrite <- HO. exact Hl.
Qed.
Print Assumptions iternorm_variance.

(** One vector of matching shape per row, until the rows end or one of them is rejected; the last entry
    (the standard deviation) is never negative. *)
Theorem iternorm_shapes rows e0 ws e :
  iternorm (rows, e0) = (ws, e) ->
  length ws <= length rows /\
  (length ws = length rows -> e = e0) /\ (length ws < length rows -> exists x, e = Some x) /\
  forall i w row, nth_error ws i = Some w -> nth_error rows i = Some row ->
    lead w = lead row /\ width w = width row /\ forall l, (0 <= el w l (width w - 1))%R.
Proof.
  intro E. pose proof (iter_rows_length rows None e0) as H. unfold iternorm in E. cbn [fst snd] in E.
  rewrite E in H. cbn [fst snd] in H. destruct H as (H1 & H2 & H3).
  split; [exact H1|]. split; [exact H2|]. split; [exact H3|].
  intros i w row Hi Hr.
  assert (HO : forall l, good_output l ws i (lead (nth 0 rows empty_stack)) row w).
  { intro l. pose proof (iternorm_outputs rows e0 l i w) as H. unfold iternorm in H. cbn [fst snd] in H.
    rewrite E in H. cbn [fst] in H. destruct (H Hi) as (row' & Hr' & HO). congruence. }
  destruct (HO 0) as (A1 & A2 & A3 & _). split; [congruence|]. split; [exact A3|].
  intro l. exact (proj1 (proj2 (proj2 (proj2 (proj2 (HO l)))))).
Qed.
Print Assumptions iternorm_shapes.

(** With positive standard deviations the factors are those of the banded Cholesky factorisation: no other
    lower triangular matrix with as many diagonals as the rows have entries, and a positive main diagonal,
    has the requested products. *)
Theorem iternorm_cholesky rows e0 ws e l (L : nat -> nat -> R) :
  iternorm (rows, e0) = (ws, e) ->
  (forall i row, nth_error rows i = Some row -> l < lead row /\ 0 < width row) ->
  (forall i w, nth_error ws i = Some w -> (0 < el w l (width w - 1))%R) ->
  (forall i w q, nth_error ws i = Some w -> i < q \/ q + width w <= i -> L i q = 0%R) ->
  (forall i, i < length ws -> (0 < L i i)%R) ->
  (forall i j row, nth_error rows i = Some row -> i < length ws -> j <= i -> i - j < width row ->
     covariance (S i) (L i) (L j) = el row l (i - j)) ->
  forall i w q, nth_error ws i = Some w -> L i q = coefficient (width w - 1) (el w l) i q.
Proof.
  intros E Hrow Hpos Hband Hdiag Hcov.
  destruct (iternorm_shapes _ _ _ _ E) as (Hlen & _ & _ & Hsh).
  induction i as [i IH] using lt_wf_ind. intros w q Hw.
  assert (Hi : i < length ws) by (apply nth_error_Some; congruence).
  destruct (nth_error rows i) as [row|] eqn:Er; [|apply nth_error_None in Er; lia].
  destruct (Hrow i row Er) as (Hl & Hwd). destruct (Hsh i w row Hw Er) as (_ & Wd & _).
  revert q. induction q as [q IHq] using lt_wf_ind.
  destruct (Nat.leb_spec (q + width w) i) as [Hout|Hin].
  { rewrite (Hband i w q Hw) by lia. unfold coefficient.
    destruct (Nat.leb_spec i (q + (width w - 1))); [lia|]. reflexivity. }
  destruct (Nat.ltb_spec i q) as [Hout|Hqi].
  { rewrite (Hband i w q Hw) by lia. unfold coefficient.
    destruct (Nat.leb_spec q i); [lia|]. rewrite andb_false_r. reflexivity. }
  destruct (nth_error ws q) as [wq|] eqn:Eq; [|apply nth_error_None in Eq; lia].
  destruct (nth_error rows q) as [rowq|] eqn:Erq; [|apply nth_error_None in Erq; lia].
  destruct (Hsh q wq rowq Eq Erq) as (_ & Wdq & _). destruct (Hrow q rowq Erq) as (_ & Hwdq).
  pose proof (Hcov i q row Er Hi Hqi ltac:(lia)) as C1.
  pose proof (iternorm_covariance rows e0 ws e i q w wq row l (S i) E Hw Eq Er ltac:(lia) ltac:(lia) Hl
                (fun f wf _ Hf => Hpos f wf Hf)) as C2.
  rewrite <- C1 in C2. clear C1. unfold covariance in C2.
  set (A := coefficient (width w - 1) (el w l) i) in *. set (B := coefficient (width wq - 1) (el wq l) q) in *.
  rewrite !(rsum_truncate (S q) (S i)) in C2; try lia.
  2: { intros p Hp. rewrite (Hband q wq p Eq) by lia. ring. }
  2: { intros p Hp. unfold B, coefficient. destruct (Nat.leb_spec p q); [lia|]. rewrite andb_false_r. ring. }
  cbn [rsum] in C2.
  assert (S0 : rsum q (fun p => (A p * B p)%R) = rsum q (fun p => (L i p * L q p)%R)).
  { apply rsum_ext. intros p Hp. rewrite (IHq p Hp). f_equal.
    destruct (Nat.eq_dec q i) as [->|Hne].
    - rewrite (IHq p Hp). unfold A, B. rewrite Hw in Eq. injection Eq as <-. reflexivity.
    - symmetry. apply IH; [lia|exact Eq]. }
  rewrite S0 in C2. apply Rplus_eq_reg_l in C2.
  assert (Bpos : (0 < B q)%R).
  { unfold B, coefficient. rewrite Nat.leb_refl, andb_true_r. destruct (Nat.leb_spec q (q + (width wq - 1))); [|lia].
    replace (q + (width wq - 1) - q) with (width wq - 1) by lia. exact (Hpos q wq Eq). }
  destruct (Nat.eq_dec q i) as [->|Hne].
  - rewrite Hw in Eq. injection Eq as <-. fold A in B. change B with A in *. pose proof (Hdiag i Hi). nra.
  - rewrite (IH q ltac:(lia) wq q Eq) in C2. fold B in C2. apply Rmult_eq_reg_r in C2; [|lra]. symmetry. exact C2.
Qed.
Print Assumptions iternorm_cholesky.

(** C82 *)
(** With [k] correlations, a stack of matrices is accepted with positive standard deviations, so that the first theorem
    applies to all pairs of draws, exactly if the matrices are positive definite after removing everything else. *)
Theorem iternorm_accepts_banded N n k c rows :
  0 < N -> length rows = N -> (forall l, l < n -> symmetric N (c l)) ->
  (forall i row, nth_error rows i = Some row ->
     lead row = n /\ width row = k + 1 /\ forall l f, l < n -> f <= i -> i - f <= k -> el row l (i - f) = c l i f) ->
  (forall l, l < n -> definite N (banded k (c l))) <->
  exists ws, iternorm (rows, None) = (ws, None) /\ length ws = N /\
    forall w l, In w ws -> l < n -> (0 < el w l (width w - 1))%R.
Proof.
  intros HN Hlen Hsym Hrows. split.
  - intro Hdef.
    pose proof (accept_rows N n k (fun l => banded k (c l)) HN Hdef) as H.
    specialize (H ltac:(intros; apply banded_far; assumption) rows 0 None []).
    unfold iternorm. cbn [fst snd]. destruct (iter_rows None rows None) as [ws e].
    destruct H as (H1 & H2 & H3).
    + reflexivity.
    + lia.
    + intros i row Hi. destruct (Hrows i row Hi) as (A & B & C). split; [exact A|]. split; [exact B|]. cbn [Nat.add].
      intros l f Hl Hf Hk. rewrite banded_near by assumption. apply C; assumption.
    + discriminate.
    + intros l _. reflexivity.
    + intros l _ f Hf. lia.
    + intros; lia.
    + exists ws. subst e. split; [reflexivity|]. split; [lia|]. exact H3.
  - intros (ws & E & Hl & Hpos) l Hln. destruct (iternorm_shapes _ _ _ _ E) as (_ & _ & _ & Hsh).
    apply (gram_definite N (banded k (c l)) (fun i q => match nth_error ws i with Some w => coefficient k (el w l) i q | None => 0%R end)).
    + intros f q Hfq. destruct (nth_error ws f); [apply coefficient_upper; exact Hfq|reflexivity].
    + intros f Hf. destruct (nth_error ws f) as [w|] eqn:Ew; [|apply nth_error_None in Ew; lia].
      destruct (nth_error rows f) as [row|] eqn:Er; [|apply nth_error_None in Er; lia].
      destruct (Hsh f w row Ew Er) as (_ & W & _). destruct (Hrows f row Er) as (_ & W' & _).
      specialize (Hpos w l (nth_error_In _ _ Ew) Hln). unfold coefficient. rewrite Nat.leb_refl, (proj2 (Nat.leb_le f (f + k))) by lia.
      cbn [andb]. replace (f + k - f) with (width w - 1) by lia. exact Hpos.
    + assert (Hlow : forall f g, f < N -> g <= f -> covariance N
        (fun q => match nth_error ws f with Some w => coefficient k (el w l) f q | None => 0%R end)
        (fun q => match nth_error ws g with Some w => coefficient k (el w l) g q | None => 0%R end) = banded k (c l) f g).
      { intros f g Hf Hg. destruct (nth_error ws f) as [wf|] eqn:Ef; [|apply nth_error_None in Ef; lia].
        destruct (nth_error ws g) as [wg|] eqn:Eg; [|apply nth_error_None in Eg; lia].
        destruct (nth_error rows f) as [rf|] eqn:Rf; [|apply nth_error_None in Rf; lia].
        destruct (nth_error rows g) as [rg|] eqn:Rg; [|apply nth_error_None in Rg; lia].
        destruct (Hsh f wf rf Ef Rf) as (_ & Wf & _). destruct (Hrows f rf Rf) as (Lf & Wf' & Cf).
        destruct (Hsh g wg rg Eg Rg) as (_ & Wg & _). destruct (Hrows g rg Rg) as (_ & Wg' & _).
        destruct (le_lt_dec f (g + k)) as [Hk|Hk].
        - rewrite banded_near, <- Cf by lia.
          transitivity (covariance N (coefficient (width wf - 1) (el wf l) f) (coefficient (width wg - 1) (el wg l) g));
            [replace (width wf - 1) with k by lia; replace (width wg - 1) with k by lia; reflexivity|].
          eapply iternorm_covariance; [exact E|exact Ef|exact Eg|exact Rf|lia|lia|lia|].
          intros f' w Hf' Hw. apply Hpos; [eapply nth_error_In; exact Hw|exact Hln].
        - rewrite banded_far by exact Hk. apply rsum_zero. intros q _. destruct (le_lt_dec q g) as [H|H].
          + unfold coefficient at 1. rewrite (proj2 (Nat.leb_gt f (q + k))) by lia. cbn [andb]. ring.
          + rewrite (coefficient_upper k (el wg l) g q) by exact H. ring. }
      intros f g Hf Hg. destruct (le_lt_dec g f) as [H|H]; [apply Hlow; assumption|].
      rewrite covariance_comm, Hlow by lia. unfold banded. rewrite (Hsym l Hln g f) by assumption. rewrite andb_comm. reflexivity.
Qed.
Print Assumptions iternorm_accepts_banded.

(** C09 *)
(** In particular, every stack of positive definite matrices is accepted if all fields are correlated. *)
Theorem iternorm_accepts_definite N n c rows :
  0 < N -> length rows = N -> (forall l, l < n -> definite N (c l)) ->
  (forall i row, nth_error rows i = Some row ->
     lead row = n /\ width row = N /\ forall l f, l < n -> f <= i -> el row l (i - f) = c l i f) ->
  exists ws, iternorm (rows, None) = (ws, None) /\ length ws = N /\
    forall w l, In w ws -> l < n -> (0 < el w l (width w - 1))%R.
Proof.
  intros HN Hlen Hdef Hrows. apply (iternorm_accepts_banded N n (N - 1) c rows HN Hlen).
  - intros l Hl. apply Hdef; exact Hl.
  - intros i row Hi. destruct (Hrows i row Hi) as (A & B & C). split; [exact A|]. split; [lia|]. intros; apply C; assumption.
  - intros l Hl. eapply definite_ext; [|apply Hdef; exact Hl]. intros i j Hi Hj. symmetry. apply (banded_all _ _ N); lia.
Qed.
Print Assumptions iternorm_accepts_definite.

(** The factors of the covariance matrix ((4, 2), (2, 5)) are recovered. *)
Example iternorm_cholesky_example :
  let c := fun i j : nat => if i =? j then (if i =? 0 then 4%R else 5%R) else 2%R in
  let rows := map (fun i => {| lead := 1; width := 2; el := fun _ d => c i (i - d) |}) [0; 1] in
  exists w0 w1, iternorm (rows, None) = ([w0; w1], None) /\
    el w0 0 1 = 2%R /\ el w1 0 0 = 1%R /\ el w1 0 1 = 2%R.
Proof.
  cbv zeta. set (c := fun i j : nat => if i =? j then (if i =? 0 then 4%R else 5%R) else 2%R).
  set (rows := map (fun i => {| lead := 1; width := 2; el := fun _ d => c i (i - d) |}) [0; 1]).
  assert (Hrows : forall i row, nth_error rows i = Some row ->
     lead row = 1 /\ width row = 2 /\ forall l f, l < 1 -> f <= i -> el row l (i - f) = c i f).
  { intros i row H. destruct i as [|[|i]]; cbn in H; [| |destruct i; discriminate]; injection H as <-; cbn;
      (split; [reflexivity|split; [reflexivity|]]); intros l f Hl Hf.
    - replace f with 0 by lia. reflexivity.
    - destruct f as [|[|f]]; [reflexivity|reflexivity|lia]. }
  destruct (iternorm_accepts_definite 2 1 (fun _ => c) rows ltac:(lia) eq_refl) as (ws & E & Hl & Hpos).
  { intros l _. split.
    - intros i j Hi Hj. unfold c. rewrite (Nat.eqb_sym j i). destruct (Nat.eqb_spec i j) as [->|]; reflexivity.
    - intros v (i & Hi & Hv). unfold quadratic, c. cbn [rsum Nat.eqb].
      pose proof (Rle_0_sqr (v 0%nat)) as S0. pose proof (Rle_0_sqr (v 0%nat + v 1%nat)) as S1.
      pose proof (Rle_0_sqr (v 1%nat)) as S2. pose proof (Rsqr_pos_lt _ Hv) as S3. unfold Rsqr in *.
      assert (Hc : i = 0 \/ i = 1) by lia. destruct Hc as [-> | ->]; lra. }
  { exact Hrows. }
  destruct ws as [|w0 [|w1 [|w2 ws]]]; try discriminate. exists w0, w1. split; [exact E|].
  destruct (iternorm_shapes _ _ _ _ E) as (_ & _ & _ & Hsh).
  assert (W : forall i w, nth_error [w0; w1] i = Some w -> width w = 2).
  { intros i w Hw. destruct (nth_error rows i) as [row|] eqn:Er.
    - destruct (Hsh i w row Hw Er) as (_ & -> & _). apply (Hrows i row Er).
    - apply nth_error_None in Er. assert (i < 2) by (apply (nth_error_Some [w0; w1]); congruence). cbn in Er. lia. }
  set (L := fun i q : nat => if i <? q then 0%R else if i =? 0 then 2%R else if i =? 1 then (if q =? 0 then 1%R else 2%R) else 0%R).
  pose proof (iternorm_cholesky rows None _ None 0 L E) as H.
  assert (K : forall i w q, nth_error [w0; w1] i = Some w -> L i q = coefficient (width w - 1) (el w 0) i q).
  { apply H; clear H.
    - intros i row Hr. destruct (Hrows i row Hr) as (-> & -> & _). lia.
    - intros i w Hw. apply Hpos; [eapply nth_error_In; exact Hw|lia].
    - intros i w q Hw Hq. assert (i < 2) by (apply (nth_error_Some [w0; w1]); congruence).
      rewrite (W i w Hw) in Hq. unfold L. destruct (Nat.ltb_spec i q); [reflexivity|]. lia.
    - intros i Hi. cbn in Hi. destruct i as [|[|i]]; [| |lia]; cbn; lra.
    - intros i j row Hr Hi Hji Hd. destruct (Hrows i row Hr) as (_ & _ & ->); [|lia|exact Hji]. cbn in Hi.
      destruct i as [|[|i]]; [| |lia]; (destruct j as [|[|j]]; [| |lia]); try lia; unfold covariance, L, c; cbn; lra. }
  pose proof (K 0 w0 0 eq_refl) as K0. pose proof (K 1 w1 0 eq_refl) as K1. pose proof (K 1 w1 1 eq_refl) as K2.
  rewrite (W 0 w0 eq_refl) in K0. rewrite (W 1 w1 eq_refl) in K1, K2. cbn in K0, K1, K2. auto.
Qed.

(** C82 *)
(** The covariance matrix is reproduced up to the requested distance from the diagonal; beyond, the draws are
    independent. *)
Theorem iternorm_banded_covariance N n k c rows :
  0 < N -> length rows = N -> (forall l, l < n -> definite N (banded k (c l))) ->
  (forall i row, nth_error rows i = Some row ->
     lead row = n /\ width row = k + 1 /\ forall l f, l < n -> f <= i -> i - f <= k -> el row l (i - f) = c l i f) ->
  exists ws, iternorm (rows, None) = (ws, None) /\ length ws = N /\
    forall i j, i < N -> j < N -> exists wi wj, nth_error ws i = Some wi /\ nth_error ws j = Some wj /\
      forall l, l < n ->
        covariance N (coefficient k (el wi l) i) (coefficient k (el wj l) j) = banded k (c l) i j.
Proof.
  intros HN Hlen Hdef Hrows.
  assert (HB : forall i row, nth_error rows i = Some row ->
     lead row = n /\ width row = k + 1 /\ forall l f, l < n -> f <= i -> i - f <= k -> el row l (i - f) = banded k (c l) i f).
  { intros i row Hi. destruct (Hrows i row Hi) as (A & B & C). split; [exact A|]. split; [exact B|].
    intros l f Hl Hf Hk. rewrite banded_near by assumption. apply C; assumption. }
  assert (BB : forall l i j, banded k (banded k (c l)) i j = banded k (c l) i j).
  { intros l i j. unfold banded. destruct ((i <=? j + k) && (j <=? i + k)); reflexivity. }
  destruct (proj1 (iternorm_accepts_banded N n k (fun l => banded k (c l)) rows HN Hlen ltac:(intros l Hl; apply Hdef; exact Hl) HB)) as (ws & E & Hl & Hpos).
  { intros l Hln. eapply definite_ext; [|apply Hdef; exact Hln]. intros i j _ _. symmetry. apply BB. }
  exists ws. split; [exact E|]. split; [exact Hl|].
  destruct (iternorm_shapes _ _ _ _ E) as (_ & _ & _ & Hsh).
  assert (Hget : forall i, i < N -> exists w row, nth_error ws i = Some w /\ nth_error rows i = Some row /\ width w = k + 1).
  { intros i Hi. destruct (nth_error ws i) as [w|] eqn:Ew; [|apply nth_error_None in Ew; lia].
    destruct (nth_error rows i) as [row|] eqn:Er; [|apply nth_error_None in Er; lia].
    exists w, row. split; [reflexivity|]. split; [reflexivity|].
    destruct (Hsh i w row Ew Er) as (_ & -> & _). apply (Hrows i row Er). }
  assert (Hlow : forall i j, j <= i -> i < N -> exists wi wj, nth_error ws i = Some wi /\ nth_error ws j = Some wj /\
      forall l, l < n ->
        covariance N (coefficient k (el wi l) i) (coefficient k (el wj l) j) = banded k (c l) i j).
  { intros i j Hij Hi. destruct (Hget i Hi) as (wi & row & Ei & Er & Wi).
    destruct (Hget j ltac:(lia)) as (wj & rowj & Ej & Erj & Wj). exists wi, wj.
    split; [exact Ei|]. split; [exact Ej|]. intros l Hln.
    destruct (HB i row Er) as (R1 & R2 & R3). destruct (le_lt_dec i (j + k)) as [Hk|Hk].
    - rewrite <- (R3 l j Hln Hij ltac:(lia)).
      transitivity (covariance N (coefficient (width wi - 1) (el wi l) i) (coefficient (width wj - 1) (el wj l) j));
        [replace (width wi - 1) with k by lia; replace (width wj - 1) with k by lia; reflexivity|].
      eapply iternorm_covariance; [exact E|exact Ei|exact Ej|exact Er|lia|lia|lia|].
      intros f w Hf Hw. apply Hpos; [eapply nth_error_In; exact Hw|exact Hln].
    - rewrite banded_far by exact Hk. apply rsum_zero. intros q _. destruct (le_lt_dec q j) as [H|H].
      + unfold coefficient at 1. rewrite (proj2 (Nat.leb_gt i (q + k))) by lia. cbn [andb]. ring.
      + rewrite (coefficient_upper k (el wj l) j q) by exact H. ring. }
  intros i j Hi Hj. destruct (le_lt_dec j i) as [H|H]; [exact (Hlow i j H Hi)|].
  destruct (Hlow j i ltac:(lia) Hj) as (wj & wi & Ej & Ei & Hc). exists wi, wj.
  split; [exact Ei|]. split; [exact Ej|]. intros l Hln. rewrite covariance_comm, Hc by exact Hln.
  apply (Hdef l Hln); assumption.
Qed.
Print Assumptions iternorm_banded_covariance.

(** C09 *)
(** Hence the whole covariance matrix is reproduced if all fields are correlated. *)
Theorem iternorm_definite_covariance N n c rows :
  0 < N -> length rows = N -> (forall l, l < n -> definite N (c l)) ->
  (forall i row, nth_error rows i = Some row ->
     lead row = n /\ width row = N /\ forall l f, l < n -> f <= i -> el row l (i - f) = c l i f) ->
  exists ws, iternorm (rows, None) = (ws, None) /\
    forall i j, i < N -> j < N -> exists wi wj, nth_error ws i = Some wi /\ nth_error ws j = Some wj /\
      forall l, l < n ->
        covariance N (coefficient (N - 1) (el wi l) i) (coefficient (N - 1) (el wj l) j) = c l i j.
Proof.
  intros HN Hlen Hdef Hrows. destruct (iternorm_banded_covariance N n (N - 1) c rows HN Hlen) as (ws & E & _ & C).
  - intros l Hl. eapply definite_ext; [|apply Hdef; exact Hl]. intros i j Hi Hj. symmetry. apply (banded_all _ _ N); lia.
  - intros i row Hi. destruct (Hrows i row Hi) as (A & B & C). split; [exact A|]. split; [lia|]. intros; apply C; assumption.
  - exists ws. split; [exact E|]. intros i j Hi Hj. destruct (C i j Hi Hj) as (wi & wj & Ei & Ej & H). exists wi, wj.
    split; [exact Ei|]. split; [exact Ej|]. intros l Hl. rewrite (H l Hl). apply (banded_all _ _ N); lia.
Qed.
Print Assumptions iternorm_definite_covariance.

(** Two slices of 2-by-2 matrices satisfying the hypotheses. *)
Example iternorm_definite_example :
  let c := fun l i j : nat => if i =? j then 2%R else INR l in
  let rows := map (fun i => {| lead := 2; width := 2; el := fun l d => c l i (i - d) |}) [0; 1] in
  (forall l, l < 2 -> definite 2 (c l)) /\
  forall i row, nth_error rows i = Some row ->
     lead row = 2 /\ width row = 2 /\ forall l f, l < 2 -> f <= i -> el row l (i - f) = c l i f.
Proof.
  cbv zeta. split.
  - intros l Hl. split.
    + intros i j Hi Hj. rewrite (Nat.eqb_sym j i). reflexivity.
    + intros v (i & Hi & Hv). unfold quadratic. cbn [rsum Nat.eqb].
      assert (Hx : (0 <= INR l <= 1)%R).
      { split; [apply pos_INR|]. replace 1%R with (INR 1) by reflexivity. apply le_INR. lia. }
      assert (E : (0 + (0 + v 0%nat * 2 * v 0%nat + v 0%nat * INR l * v 1%nat) + (0 + v 1%nat * INR l * v 0%nat + v 1%nat * 2 * v 1%nat)
        = INR l * (v 0%nat + v 1%nat) * (v 0%nat + v 1%nat) + (2 - INR l) * (v 0%nat * v 0%nat + v 1%nat * v 1%nat))%R) by ring.
      rewrite E.
      assert (H0 : (0 <= INR l * (v 0%nat + v 1%nat) * (v 0%nat + v 1%nat))%R).
      { rewrite Rmult_assoc. apply Rmult_le_pos; [lra|]. apply Rle_0_sqr. }
      assert (H1 : (0 < v 0%nat * v 0%nat + v 1%nat * v 1%nat)%R).
      { pose proof (Rle_0_sqr (v 0)) as S0. pose proof (Rle_0_sqr (v 1)) as S1. unfold Rsqr in *.
        assert (Hc : i = 0 \/ i = 1) by lia. destruct Hc as [-> | ->].
        - pose proof (Rsqr_pos_lt _ Hv) as S2. unfold Rsqr in S2. lra.
        - pose proof (Rsqr_pos_lt _ Hv) as S2. unfold Rsqr in S2. lra. }
      assert (0 < (2 - INR l) * (v 0%nat * v 0%nat + v 1%nat * v 1%nat))%R by (apply Rmult_lt_0_compat; lra).
      lra.
  - intros i row H. destruct i as [|[|i]]; cbn in H; [| |destruct i; discriminate]; injection H as <-; cbn;
      (split; [reflexivity|split; [reflexivity|]]); intros l f Hl Hf.
    + replace f with 0 by lia. reflexivity.
    + destruct f as [|[|f]]; [reflexivity|reflexivity|lia].
Qed.

(** C82 *)
(** The covariance is also reproduced if in some slices nothing varies: the weights of these slices are zero, and they do not change the others. *)
Theorem iternorm_banded_or_absent N n k c rows :
  0 < N -> length rows = N -> (forall l, l < n -> definite N (banded k (c l)) \/ absent N (banded k (c l))) ->
  (forall i row, nth_error rows i = Some row ->
     lead row = n /\ width row = k + 1 /\ forall l f, l < n -> f <= i -> i - f <= k -> el row l (i - f) = c l i f) ->
  exists ws, iternorm (rows, None) = (ws, None) /\ length ws = N /\
    (forall w l d, In w ws -> l < n -> absent N (banded k (c l)) -> el w l d = 0%R) /\
    forall i j, i < N -> j < N -> exists wi wj, nth_error ws i = Some wi /\ nth_error ws j = Some wj /\
      forall l, l < n ->
        covariance N (coefficient k (el wi l) i) (coefficient k (el wj l) j) = banded k (c l) i j.
Proof.
  intros HN Hlen Hdef Hrows0.
  assert (Hrows : forall i row, nth_error rows i = Some row ->
     lead row = n /\ width row = k + 1 /\ forall l f, l < n -> f <= i -> i - f <= k -> el row l (i - f) = banded k (c l) i f).
  { intros i row Hi. destruct (Hrows0 i row Hi) as (A & B & C). split; [exact A|]. split; [exact B|].
    intros l f Hl Hf Hk. rewrite banded_near by assumption. apply C; assumption. }
  assert (Hfar : forall l i j, j + k < i -> banded k (c l) i j = 0%R) by (intros; apply banded_far; assumption).
  assert (Hidem : forall l i j, banded k (banded k (c l)) i j = banded k (c l) i j).
  { intros l i j. unfold banded. destruct ((i <=? j + k) && (j <=? i + k)); reflexivity. }
  clear Hrows0. set (b := fun l => banded k (c l)).
  change (forall l, l < n -> definite N (b l) \/ absent N (b l)) in Hdef.
  change (forall l i j, banded k (b l) i j = b l i j) in Hidem. change (forall l i j, j + k < i -> b l i j = 0%R) in Hfar.
  change (forall i row, nth_error rows i = Some row ->
     lead row = n /\ width row = k + 1 /\ forall l f, l < n -> f <= i -> i - f <= k -> el row l (i - f) = b l i f) in Hrows.
  change (exists ws, iternorm (rows, None) = (ws, None) /\ length ws = N /\
    (forall w l d, In w ws -> l < n -> absent N (b l) -> el w l d = 0%R) /\
    forall i j, i < N -> j < N -> exists wi wj, nth_error ws i = Some wi /\ nth_error ws j = Some wj /\
      forall l, l < n -> covariance N (coefficient k (el wi l) i) (coefficient k (el wj l) j) = b l i j).
  clearbody b. clear c. rename b into c.
  set (z := fun l => if Req_EM_T (c l 0 0) 0 then true else false).
  assert (Hz : forall l, l < n -> if z l then absent N (c l) else definite N (c l)).
  { intros l Hl. unfold z. destruct (Req_EM_T (c l 0 0) 0) as [E|E]; destruct (Hdef l Hl) as [D|A]; try assumption.
    - exfalso. destruct D as (_ & D). specialize (D (fun a => delta a 0)).
      assert (Q : (0 < quadratic N (c l) (fun a => delta a 0))%R) by (apply D; exists 0; split; [exact HN|]; cbv beta; rewrite delta_same; lra).
      unfold quadratic in Q. rewrite (rsum_single N 0) in Q; [|exact HN|].
      + rewrite (rsum_single N 0) in Q; [|exact HN|].
        * rewrite delta_same in Q. lra.
        * intros b _ Hb. rewrite (delta_diff b 0) by exact Hb. lra.
      + intros a _ Ha. apply rsum_zero. intros b _. rewrite (delta_diff a 0) by exact Ha. lra.
    - exfalso. apply E. apply A; exact HN. }
  set (rows' := map (fun row => {| lead := lead row; width := width row;
    el := fun l d => if z l then delta d 0 else el row l d |}) rows).
  set (c' := fun l i j => if z l then delta i j else c l i j).
  assert (HD : forall l, l < n -> definite N (c' l)).
  { intros l Hl. unfold c'. specialize (Hz l Hl). destruct (z l); [|exact Hz]. split.
    - intros i j _ _. destruct (Nat.eq_dec i j) as [->|Hij]; [reflexivity|]. rewrite !delta_diff by auto. reflexivity.
    - intros v (i & Hi & Hv). unfold quadratic.
      rewrite (rsum_ext N _ (fun i => (v i * v i)%R)).
      + apply Rlt_le_trans with (v i * v i)%R; [apply Rsqr_pos_lt in Hv; exact Hv|].
        rewrite <- (rsum_delta_r N i (fun i => (v i * v i)%R) Hi). apply rsum_le. intros q _.
        destruct (Nat.eq_dec q i) as [->|Hq]; [rewrite delta_same; lra|]. rewrite delta_diff by exact Hq.
        pose proof (Rle_0_sqr (v q)). unfold Rsqr in *. lra.
      + intros a Ha. rewrite (rsum_single N a); [rewrite delta_same; ring|exact Ha|].
        intros b _ Hb. rewrite delta_diff by auto. ring. }
  assert (HR : forall i row, nth_error rows' i = Some row ->
     lead row = n /\ width row = k + 1 /\ forall l f, l < n -> f <= i -> i - f <= k -> el row l (i - f) = c' l i f).
  { intros i row' H. unfold rows' in H. rewrite nth_error_map' in H. destruct (nth_error rows i) as [row|] eqn:E; [|discriminate].
    injection H as <-. destruct (Hrows i row E) as (A & B & C). split; [exact A|]. split; [exact B|]. intros l f Hl Hf Hk.
    cbn [el]. unfold c'. destruct (z l); [|apply C; assumption].
    destruct (Nat.eq_dec i f) as [->|Hif]; [rewrite Nat.sub_diag, !delta_same; reflexivity|]. rewrite !delta_diff by lia. reflexivity. }
  assert (HL : length rows' = N) by (unfold rows'; rewrite map_length; exact Hlen).
  assert (HB : forall l i j, banded k (c' l) i j = c' l i j).
  { intros l i j. unfold c'. destruct (z l); [|apply Hidem]. unfold banded. destruct (Nat.eq_dec i j) as [->|Hij].
    - rewrite (proj2 (Nat.leb_le j (j + k))) by lia. reflexivity.
    - rewrite delta_diff by exact Hij. destruct ((i <=? j + k) && (j <=? i + k)); reflexivity. }
  destruct (iternorm_banded_covariance N n k c' rows' HN HL) as (ws' & E' & L' & C').
  { intros l Hl. eapply definite_ext; [|apply HD; exact Hl]. intros i j _ _. symmetry. apply HB. }
  { exact HR. }
  assert (HF : Forall2 (like_row z) rows rows').
  { assert (G : forall rs, (forall row, In row rs -> In row rows) ->
      Forall2 (like_row z) rs (map (fun row => {| lead := lead row; width := width row; el := fun l d => if z l then delta d 0 else el row l d |}) rs)).
    { induction rs as [|row rs IH]; intro Hin; [constructor|]. cbn [map]. constructor; [|apply IH; intros; apply Hin; right; assumption].
      split; [reflexivity|]. split; [reflexivity|]. cbn [lead el]. intros l Hl.
      destruct (In_nth_error _ _ (Hin row (or_introl eq_refl))) as (i & Hi). destruct (Hrows i row Hi) as (A & _ & C).
      destruct (z l) eqn:Z; [|reflexivity]. assert (Hi' : i < N) by (rewrite <- Hlen; apply nth_error_Some; congruence).
      specialize (C l i ltac:(lia) ltac:(lia) ltac:(lia)). rewrite Nat.sub_diag in C. rewrite C. specialize (Hz l ltac:(lia)). rewrite Z in Hz.
      apply Hz; exact Hi'. }
    apply G. auto. }
  destruct (like_rows z rows rows' None HF None None ws' I E' ltac:(lia)) as (ws & E & F).
  assert (N2 : forall i w', nth_error ws' i = Some w' -> exists w, nth_error ws i = Some w /\ like_output z w w').
  { clear - F. induction F as [|w w' ws ws' H F IH]; intros i w0 Hi; [destruct i; discriminate|].
    destruct i as [|i]; [injection Hi as <-; exists w; split; [reflexivity|exact H]|]. exact (IH i w0 Hi). }
  assert (Lw : length ws = N) by (rewrite <- L'; clear - F; induction F; cbn; congruence).
  assert (lead_ws : forall w, In w ws -> lead w = n).
  { intros w Hw. destruct (In_nth_error _ _ Hw) as (i & Hi). assert (Hi' : i < length ws) by (apply nth_error_Some; congruence).
    destruct (nth_error rows i) as [row|] eqn:Er; [|apply nth_error_None in Er; lia].
    destruct (iternorm_shapes _ _ _ _ E) as (_ & _ & _ & S). destruct (S i w row Hi Er) as (-> & _). apply (Hrows i row Er). }
  exists ws. split; [exact E|]. split; [exact Lw|]. split.
  - intros w l d Hw Hl A. destruct (In_nth_error _ _ Hw) as (i & Hi).
    assert (Hi' : i < length ws) by (apply nth_error_Some; congruence).
    destruct (nth_error ws' i) as [w'|] eqn:Ew'; [|apply nth_error_None in Ew'; lia].
    destruct (N2 i w' Ew') as (w0 & Ew0 & (_ & _ & H)). assert (w0 = w) as -> by congruence.
    rewrite H by (rewrite lead_ws; assumption). unfold z. destruct (Req_EM_T (c l 0 0) 0) as [_|Ne]; [reflexivity|].
    exfalso. apply Ne. apply A; exact HN.
  - intros i j Hi Hj. destruct (C' i j Hi Hj) as (wi' & wj' & Ei' & Ej' & Cij).
    destruct (N2 i wi' Ei') as (wi & Ei & (_ & _ & Oi)). destruct (N2 j wj' Ej') as (wj & Ej & (_ & _ & Oj)).
    exists wi, wj. split; [exact Ei|]. split; [exact Ej|]. intros l Hl.
    pose proof (lead_ws wi (nth_error_In _ _ Ei)) as Li. pose proof (lead_ws wj (nth_error_In _ _ Ej)) as Lj.
    specialize (Cij l Hl). rewrite HB in Cij. unfold c' in Cij. specialize (Hz l Hl).
    assert (Pi : forall b, el wi l b = if z l then 0%R else el wi' l b) by (intro; apply Oi; lia).
    assert (Pj : forall b, el wj l b = if z l then 0%R else el wj' l b) by (intro; apply Oj; lia).
    destruct (z l).
    + rewrite (Hz i j Hi Hj). unfold covariance. apply rsum_zero. intros q _. unfold coefficient. rewrite Pi.
      destruct ((i <=? q + k) && (q <=? i)); ring.
    + rewrite <- Cij. unfold covariance. apply rsum_ext. intros q _. unfold coefficient. rewrite Pi, Pj. reflexivity.
Qed.
Print Assumptions iternorm_banded_or_absent.

(** C09 *)
(** And with all fields correlated. *)
Theorem iternorm_definite_or_absent N n c rows :
  0 < N -> length rows = N -> (forall l, l < n -> definite N (c l) \/ absent N (c l)) ->
  (forall i row, nth_error rows i = Some row ->
     lead row = n /\ width row = N /\ forall l f, l < n -> f <= i -> el row l (i - f) = c l i f) ->
  exists ws, iternorm (rows, None) = (ws, None) /\ length ws = N /\
    (forall w l d, In w ws -> l < n -> absent N (c l) -> el w l d = 0%R) /\
    forall i j, i < N -> j < N -> exists wi wj, nth_error ws i = Some wi /\ nth_error ws j = Some wj /\
      forall l, l < n ->
        covariance N (coefficient (N - 1) (el wi l) i) (coefficient (N - 1) (el wj l) j) = c l i j.
Proof.
  intros HN Hlen Hdef Hrows.
  assert (HE : forall l i j, i < N -> j < N -> c l i j = banded (N - 1) (c l) i j) by (intros; symmetry; apply (banded_all _ _ N); lia).
  destruct (iternorm_banded_or_absent N n (N - 1) c rows HN Hlen) as (ws & E & L & Z & C).
  - intros l Hl. destruct (Hdef l Hl) as [D|A]; [left; eapply definite_ext|right; eapply absent_ext]; [|exact D| |exact A]; auto.
  - intros i row Hi. destruct (Hrows i row Hi) as (A & B & C). split; [exact A|]. split; [lia|]. intros; apply C; assumption.
  - exists ws. split; [exact E|]. split; [exact L|]. split.
    + intros w l d Hw Hl A. apply Z; [exact Hw|exact Hl|]. eapply absent_ext; [|exact A]. auto.
    + intros i j Hi Hj. destruct (C i j Hi Hj) as (wi & wj & Ei & Ej & H). exists wi, wj.
      split; [exact Ei|]. split; [exact Ej|]. intros l Hl. rewrite (H l Hl). symmetry. apply HE; assumption.
Qed.
Print Assumptions iternorm_definite_or_absent.

(** A slice without variance before one with unit variances and covariance one half: its weights are zero, those of
    the other one are as they would be alone. *)
Example iternorm_absent_example :
  let c := fun l i j : nat => match l with 0 => 0%R | _ => if i =? j then 1%R else (/ 2)%R end in
  let rows := map (fun i => {| lead := 2; width := 2; el := fun l d => c l i (i - d) |}) [0; 1] in
  absent 2 (c 0) /\ definite 2 (c 1) /\
  exists ws, iternorm (rows, None) = (ws, None) /\ length ws = 2 /\
    forall w, In w ws -> el w 0 1 = 0%R.
Proof.
  intros c rows. assert (A : absent 2 (c 0)) by (intros i j _ _; reflexivity).
  assert (D : definite 2 (c 1)).
  { split; [intros i j _ _; unfold c; rewrite (Nat.eqb_sym j i); reflexivity|].
    intros v (i & Hi & Hv). unfold quadratic, c. cbn [rsum Nat.eqb].
    pose proof (Rle_0_sqr (v 0%nat + v 1%nat)) as S0. pose proof (Rle_0_sqr (v 0%nat)) as S1. pose proof (Rle_0_sqr (v 1%nat)) as S2.
    pose proof (Rsqr_pos_lt _ Hv) as S3. unfold Rsqr in *.
    assert (Hc : i = 0 \/ i = 1) by lia. destruct Hc as [-> | ->]; lra. }
  split; [exact A|]. split; [exact D|].
  destruct (iternorm_definite_or_absent 2 2 c rows ltac:(lia) eq_refl) as (ws & E & L & Z & _).
  - intros l Hl. destruct l as [|[|l]]; [right; exact A|left; exact D|lia].
  - intros i row H. destruct i as [|[|i]]; cbn in H; [| |destruct i; discriminate]; injection H as <-; cbn;
      (split; [reflexivity|split; [reflexivity|]]); intros l f Hl Hf.
    + replace f with 0 by lia. reflexivity.
    + destruct f as [|[|f]]; [reflexivity|reflexivity|lia].
  - exists ws. split; [exact E|]. split; [exact L|]. intros w Hw. apply Z; [exact Hw|lia|exact A].
Qed.

(** C82 *)
(** A positive definite matrix can be rejected if only some of its correlations are kept: the draws beyond are then
    required to be independent, which may be impossible. *)
Definition close (i j : nat) : R := if i =? j then 1%R else if (i =? j + 1) || (j =? i + 1) then (9/10)%R else (4/5)%R.
Definition close_rows : list stack := map (fun i => {| lead := 1; width := 2; el := fun _ d => close i (i - d) |}) [0; 1; 2].
Lemma close_definite : definite 3 close.
Proof.
  split.
  - intros i j _ _. unfold close. rewrite (Nat.eqb_sym j i), (orb_comm (j =? i + 1)). reflexivity.
  - intros v (i & Hi & Hv). unfold quadratic, close. cbn.
    pose proof (Rle_0_sqr (v 0%nat + 9/10 * v 1%nat + 4/5 * v 2%nat)) as H0.
    pose proof (Rle_0_sqr (v 1%nat + v 2%nat)) as H1.
    assert (H : (0 < v 0%nat * v 0%nat + v 1%nat * v 1%nat + v 2%nat * v 2%nat)%R).
    { pose proof (Rle_0_sqr (v 0%nat)) as S0. pose proof (Rle_0_sqr (v 1%nat)) as S1. pose proof (Rle_0_sqr (v 2%nat)) as S2.
      pose proof (Rsqr_pos_lt _ Hv) as S3. unfold Rsqr in *.
      assert (Hc : i = 0 \/ i = 1 \/ i = 2) by lia. destruct Hc as [->|[->| ->]]; lra. }
    unfold Rsqr in *.
    destruct (Rle_lt_dec (v 1%nat * v 1%nat + v 2%nat * v 2%nat) 0) as [Z|Z].
    + assert (S1 : (v 1%nat * v 1%nat = 0)%R) by (pose proof (Rle_0_sqr (v 1%nat)); pose proof (Rle_0_sqr (v 2%nat)); unfold Rsqr in *; lra).
      assert (S2 : (v 2%nat * v 2%nat = 0)%R) by (pose proof (Rle_0_sqr (v 1%nat)); pose proof (Rle_0_sqr (v 2%nat)); unfold Rsqr in *; lra).
      apply Rmult_integral in S1. apply Rmult_integral in S2.
      assert (V1 : v 1%nat = 0%R) by (destruct S1; assumption). assert (V2 : v 2%nat = 0%R) by (destruct S2; assumption).
      rewrite V1, V2 in *. lra.
    + pose proof (Rle_0_sqr (19/100 * v 1%nat + 18/100 * v 2%nat)) as H3. unfold Rsqr in H3.
      pose proof (Rle_0_sqr (18/100 * v 1%nat + 36/100 * v 2%nat)) as H4. unfold Rsqr in H4.
      pose proof (Rle_0_sqr (v 1%nat)) as H5. pose proof (Rle_0_sqr (v 2%nat)) as H6. unfold Rsqr in H5, H6. lra.
Qed.
Theorem iternorm_accepts_limited_refuted :
  ~ (forall N k c rows, 0 < N -> length rows = N -> definite N c ->
       (forall i row, nth_error rows i = Some row ->
          lead row = 1 /\ width row = k + 1 /\ forall f, f <= i -> i - f <= k -> el row 0 (i - f) = c i f) ->
       snd (iternorm (rows, None)) = None).
Proof.
  intro H. specialize (H 3 1 close close_rows ltac:(lia) eq_refl close_definite).
  assert (Hr : forall i row, nth_error close_rows i = Some row ->
          lead row = 1 /\ width row = 2 /\ forall d, el row 0 d = close i (i - d)).
  { intros i row Hi. destruct i as [|[|[|i]]]; cbn in Hi; [| | |destruct i; discriminate]; injection Hi as <-; cbn [lead width el]; auto. }
  destruct (iternorm (close_rows, None)) as [ws e] eqn:E. cbn [snd] in H.
  assert (He : e = None).
  { apply H. intros i row Hi. destruct (Hr i row Hi) as (A & B & C). split; [exact A|]. split; [exact B|]. intros f Hf _. rewrite C. f_equal. lia. }
  subst e. destruct (iternorm_shapes _ _ _ _ E) as (L1 & _ & L3 & Sh). change (length close_rows) with 3 in *.
  assert (L : length ws = 3) by (destruct (Nat.eq_dec (length ws) 3) as [X|X]; [exact X|destruct (L3 ltac:(lia)) as (x & Y); discriminate]).
  destruct ws as [|w0 [|w1 [|w2 [|w3 ws]]]]; try discriminate. clear L L1 L3 H.
  destruct (Sh 0 w0 _ eq_refl eq_refl) as (_ & W0 & P0). destruct (Sh 1 w1 _ eq_refl eq_refl) as (_ & W1 & P1).
  destruct (Sh 2 w2 _ eq_refl eq_refl) as (_ & W2 & P2). cbn [width] in W0, W1, W2.
  specialize (P0 0). specialize (P1 0). specialize (P2 0). rewrite W0 in P0. rewrite W1 in P1. rewrite W2 in P2. cbn [Nat.sub] in P0, P1, P2.
  pose proof (iternorm_variance _ _ _ _ 0 w0 _ 0 3 E eq_refl eq_refl ltac:(cbn; lia) ltac:(lia)) as V0.
  pose proof (iternorm_variance _ _ _ _ 1 w1 _ 0 3 E eq_refl eq_refl ltac:(cbn; lia) ltac:(lia)) as V1.
  pose proof (iternorm_variance _ _ _ _ 2 w2 _ 0 3 E eq_refl eq_refl ltac:(cbn; lia) ltac:(lia)) as V2.
  cbv zeta in V0, V1, V2. rewrite W0 in V0. rewrite W1 in V1. rewrite W2 in V2. unfold covariance, close in V0, V1, V2. cbn in V0, V1, V2.
  assert (S0 : (0 < el w0 0 1)%R) by (destruct P0 as [P0|P0]; [exact P0|rewrite <- P0 in V0; lra]).
  pose proof (iternorm_covariance _ _ _ _ 1 0 w1 w0 _ 0 3 E eq_refl eq_refl eq_refl ltac:(lia) ltac:(cbn; lia) ltac:(cbn; lia)) as C1.
  specialize (C1 ltac:(intros [|f] w Hf Hw; [injection Hw as <-; rewrite W0; exact S0|lia])).
  rewrite W0, W1 in C1. unfold covariance, close in C1. cbn in C1.
  assert (E0 : el w0 0 1 = 1%R).
  { assert (Q : ((el w0 0 1 - 1) * (el w0 0 1 + 1) = 0)%R) by lra. apply Rmult_integral in Q. destruct Q; lra. }
  rewrite E0 in C1. assert (E1 : el w1 0 0 = (9/10)%R) by lra. rewrite E1 in V1.
  assert (S1 : (0 < el w1 0 1)%R) by (destruct P1 as [P1|P1]; [exact P1|rewrite <- P1 in V1; lra]).
  pose proof (iternorm_covariance _ _ _ _ 2 1 w2 w1 _ 0 3 E eq_refl eq_refl eq_refl ltac:(lia) ltac:(cbn; lia) ltac:(cbn; lia)) as C2.
  specialize (C2 ltac:(intros [|[|f]] w Hf Hw; [injection Hw as <-; rewrite W0; exact S0|injection Hw as <-; rewrite W1; exact S1|lia])).
  rewrite W1, W2 in C2. unfold covariance, close in C2. cbn in C2.
  assert (D : (el w2 0 0 * el w1 0 1 = 9/10)%R) by lra.
  assert (D2 : (el w2 0 0 * el w2 0 0 * (el w1 0 1 * el w1 0 1) = 81/100)%R).
  { transitivity ((el w2 0 0 * el w1 0 1) * (el w2 0 0 * el w1 0 1))%R; [ring|rewrite D; lra]. }
  assert (D3 : (el w1 0 1 * el w1 0 1 = 19/100)%R) by lra. rewrite D3 in D2.
  pose proof (Rle_0_sqr (el w2 0 1)) as Sq. unfold Rsqr in Sq. lra.
Qed.
Print Assumptions iternorm_accepts_limited_refuted.

(** Three draws with correlation one half between neighbours: accepted with one correlation; the first and the last
    draw are independent, whatever the covariance given for them. *)
Definition half (i j : nat) : R := if i =? j then 1%R else if (i =? j + 1) || (j =? i + 1) then (/2)%R else (2/5)%R.
Lemma half_definite : definite 3 (banded 1 half).
Proof.
  split.
  - intros i j _ _. unfold banded, half. rewrite (Nat.eqb_sym j i), (orb_comm (j =? i + 1)), (andb_comm (j <=? i + 1)). reflexivity.
  - intros v (i & Hi & Hv). unfold quadratic, banded, half. cbn.
    pose proof (Rle_0_sqr (v 0%nat + v 1%nat)) as H0. pose proof (Rle_0_sqr (v 1%nat + v 2%nat)) as H1.
    pose proof (Rle_0_sqr (v 0%nat)) as S0. pose proof (Rle_0_sqr (v 1%nat)) as S1. pose proof (Rle_0_sqr (v 2%nat)) as S2.
    pose proof (Rle_0_sqr (v 0%nat + v 1%nat / 2)) as H2. pose proof (Rle_0_sqr (v 1%nat / 2 + v 2%nat)) as H3.
    pose proof (Rsqr_pos_lt _ Hv) as S3. unfold Rsqr in *.
    assert (Hc : i = 0 \/ i = 1 \/ i = 2) by lia. destruct Hc as [->|[->| ->]]; lra.
Qed.
Example iternorm_limited_example :
  let rows := map (fun i => {| lead := 1; width := 2; el := fun _ d => half i (i - d) |}) [0; 1; 2] in
  exists ws w0 w1 w2, iternorm (rows, None) = (ws, None) /\ ws = [w0; w1; w2] /\
    covariance 3 (coefficient 1 (el w1 0) 1) (coefficient 1 (el w2 0) 2) = (/2)%R /\
    covariance 3 (coefficient 1 (el w0 0) 0) (coefficient 1 (el w2 0) 2) = 0%R.
Proof.
  cbv zeta. set (rows := map (fun i => {| lead := 1; width := 2; el := fun _ d => half i (i - d) |}) [0; 1; 2]).
  destruct (iternorm_banded_covariance 3 1 1 (fun _ => half) rows ltac:(lia) eq_refl (fun _ _ => half_definite)) as (ws & E & L & C).
  - intros i row Hi. destruct i as [|[|[|i]]]; cbn in Hi; [| | |destruct i; discriminate]; injection Hi as <-; cbn [lead width el];
      (split; [reflexivity|split; [reflexivity|]]); intros l f _ Hf _; do 3 (try (destruct f as [|f]; [reflexivity|])); lia.
  - destruct ws as [|w0 [|w1 [|w2 [|w3 ws]]]]; try discriminate. exists [w0; w1; w2], w0, w1, w2.
    split; [exact E|]. split; [reflexivity|].
    destruct (C 1 2 ltac:(lia) ltac:(lia)) as (a & b & A & B & H1). injection A as <-. injection B as <-.
    destruct (C 0 2 ltac:(lia) ltac:(lia)) as (a & b & A & B & H2). injection A as <-. injection B as <-.
    rewrite (H1 0 ltac:(lia)), (H2 0 ltac:(lia)). unfold banded, half. cbn. auto.
Qed.

(** C10 *)
(** The covariance of draws with [x1 = x0]: positive semi-definite, but rejected. *)
Definition degenerate (i j : nat) : R := if (i =? j) || ((i <? 2) && (j <? 2)) then 1%R else (9/10)%R.
Lemma degenerate_semidefinite : semidefinite 3 degenerate.
Proof.
  split.
  - intros i j _ _. unfold degenerate. rewrite (Nat.eqb_sym j i), (andb_comm (j <? 2)). reflexivity.
  - intro v. unfold quadratic, degenerate. cbn.
    pose proof (Rle_0_sqr (v 0%nat + v 1%nat + 9/10 * v 2%nat)) as H1. pose proof (Rle_0_sqr (v 2%nat)) as H2.
    unfold Rsqr in *. lra.
Qed.

Theorem iternorm_accepts_semidefinite_refuted :
  ~ (forall N c rows, 0 < N -> length rows = N -> semidefinite N c ->
       (forall i row, nth_error rows i = Some row ->
          lead row = 1 /\ width row = N /\ forall f, f <= i -> el row 0 (i - f) = c i f) ->
       snd (iternorm (rows, None)) = None).
Proof.
  intro H.
  set (rows := map (fun i => {| lead := 1; width := 3; el := fun _ d => if d <=? i then degenerate i (i - d) else 0%R |}) [0; 1; 2]).
  specialize (H 3 degenerate rows ltac:(lia) eq_refl degenerate_semidefinite).
  assert (Hr : forall i row, nth_error rows i = Some row ->
          lead row = 1 /\ width row = 3 /\ forall f, f <= i -> el row 0 (i - f) = degenerate i f).
  { intros i row Hi. destruct i as [|[|[|i]]]; cbn in Hi; [| | |destruct i; discriminate]; injection Hi as <-; cbn [lead width el];
      (split; [reflexivity|split; [reflexivity|]]); intros f Hf.
    - replace f with 0 by lia. reflexivity.
    - destruct f as [|[|f]]; [reflexivity|reflexivity|lia].
    - destruct f as [|[|[|f]]]; [reflexivity|reflexivity|reflexivity|lia]. }
  specialize (H Hr).
  destruct (iternorm (rows, None)) as [ws e] eqn:E. cbn [snd] in H. subst e.
  unfold iternorm, rows in E. cbn [map fst snd iter_rows] in E.
  destruct (iter_step None _) as [[st0 w0]|x] eqn:E0; [|discriminate]. cbn [iter_rows] in E.
  destruct (iter_step (Some st0) _) as [[st1 w1]|x] eqn:E1; [|discriminate]. cbn [iter_rows] in E.
  destruct (iter_step (Some st1) _) as [[st2 w2]|x] eqn:E2; [|discriminate]. clear E.
  unfold iter_step in E0. cbn [width Nat.eqb Nat.sub lead] in E0.
  apply finish_ok in E0 as (_ & _ & N0 & K0 & M0 & A0 & _ & S0 & P0).
  unfold iter_step in E1. cbn [width Nat.eqb Nat.sub lead] in E1. rewrite N0, K0 in E1. cbn [Nat.eqb negb Nat.add Nat.ltb Nat.leb] in E1.
  apply finish_ok in E1 as (_ & _ & N1 & K1 & M1 & A1 & _ & S1 & P1).
  unfold iter_step in E2. cbn [width Nat.eqb Nat.sub lead] in E2. rewrite N1, K1 in E2. cbn [Nat.eqb negb Nat.add Nat.ltb Nat.leb] in E2.
  apply finish_ok in E2 as (_ & _ & N2 & K2 & M2 & A2 & _ & S2 & P2).
  specialize (S0 0 ltac:(lia)). specialize (S1 0 ltac:(lia)). specialize (S2 0 ltac:(lia)).
  cbn [rsum el] in S0, S1, S2. rewrite !A0, !M0 in S0. cbn in S0.
  assert (s0 : st_s st0 0 = 1%R).
  { specialize (P0 0). unfold degenerate in S0. cbn in S0. nra. }
  assert (a0 : forall b, st_a st0 0 b = 0%R). { intro b. rewrite A0, M0. cbn. ring. }
  assert (m0 : forall b e, st_m st0 0 b e = 0%R). { intros b e. rewrite M0. reflexivity. }
  (* step 1 *)
  assert (m1 : st_m st1 0 0 0 = 0%R /\ st_m st1 0 0 1 = 0%R /\ st_m st1 0 1 0 = 0%R /\ st_m st1 0 1 1 = 1%R).
  { rewrite M1. cbn. unfold extend. cbn. rewrite s0, !m0. destruct (Rlt_dec 0 1); [|lra].
    repeat split; try reflexivity; try field. }
  destruct m1 as (m100 & m101 & m110 & m111).
  assert (a1 : st_a st1 0 0 = 0%R /\ st_a st1 0 1 = 1%R).
  { rewrite !A1. cbn. rewrite m100, m101, m110, m111. unfold degenerate. cbn. split; ring. }
  destruct a1 as (a10 & a11).
  assert (s1 : st_s st1 0 = 0%R).
  { rewrite a10, a11 in S1. cbn in S1. unfold degenerate in S1. cbn in S1. specialize (P1 0). nra. }
  assert (m2 : st_m st2 0 0 0 = 1%R /\ st_m st2 0 0 1 = 0%R /\ st_m st2 0 1 0 = (-1)%R /\ st_m st2 0 1 1 = 0%R).
  { rewrite M2. cbn. unfold extend. cbn. rewrite s1, a10, a11, m101, m111. destruct (Rlt_dec 0 0); [lra|].
    repeat split; try assumption; try field. }
  destruct m2 as (m200 & m201 & m210 & m211).
  assert (a2 : st_a st2 0 0 = (9/10)%R /\ st_a st2 0 1 = (-9/10)%R).
  { rewrite !A2. cbn. rewrite m200, m201, m210, m211. unfold degenerate. cbn. split; field. }
  destruct a2 as (a20 & a21). rewrite a20, a21 in S2. cbn in S2. unfold degenerate in S2. cbn in S2.
  specialize (P2 0). nra.
Qed.
Print Assumptions iternorm_accepts_semidefinite_refuted.

(** Draws [x0 = x1], [x2 = x0 + y], [x3 = y] with independent [x0], [y]: accepted, but [x2] and [x3] come
    out uncorrelated instead of with covariance one. *)
Definition silent (i j : nat) : R :=
  let x := fun i q : nat => match i, q with
           | 0, 0 | 1, 0 | 2, 0 | 2, 1 | 3, 1 => 1%R | _, _ => 0%R end in
  (x i 0%nat * x j 0%nat + x i 1%nat * x j 1%nat)%R.
Lemma silent_semidefinite : semidefinite 4 silent.
Proof.
  split.
  - intros i j _ _. unfold silent. cbv zeta. ring.
  - intro v. unfold quadratic, silent. cbn.
    pose proof (Rle_0_sqr (v 0%nat + v 1%nat + v 2%nat)) as H1. pose proof (Rle_0_sqr (v 2%nat + v 3%nat)) as H2.
    unfold Rsqr in *. lra.
Qed.

Theorem iternorm_semidefinite_covariance_refuted :
  ~ (forall N c rows ws, 0 < N -> length rows = N -> semidefinite N c ->
       (forall i row, nth_error rows i = Some row ->
          lead row = 1 /\ width row = N /\ forall f, f <= i -> el row 0 (i - f) = c i f) ->
       iternorm (rows, None) = (ws, None) ->
       forall i j wi wj, nth_error ws i = Some wi -> nth_error ws j = Some wj ->
         covariance N (coefficient (N - 1) (el wi 0) i) (coefficient (N - 1) (el wj 0) j) = c i j).
Proof.
  intro H.
  set (row := fun i => {| lead := 1; width := 4; el := fun _ d => if d <=? i then silent i (i - d) else 0%R |}).
  set (rows := map row [0; 1; 2; 3]).
  specialize (H 4 silent rows).
  assert (Hr : forall i r, nth_error rows i = Some r ->
          lead r = 1 /\ width r = 4 /\ forall f, f <= i -> el r 0 (i - f) = silent i f).
  { intros i r Hi. destruct i as [|[|[|[|i]]]]; cbn in Hi; [| | | |destruct i; discriminate]; injection Hi as <-; cbn [row lead width el];
      (split; [reflexivity|split; [reflexivity|]]); intros f Hf.
    - replace f with 0 by lia. reflexivity.
    - destruct f as [|[|f]]; [reflexivity|reflexivity|lia].
    - destruct f as [|[|[|f]]]; [reflexivity|reflexivity|reflexivity|lia].
    - destruct f as [|[|[|[|f]]]]; [reflexivity|reflexivity|reflexivity|reflexivity|lia]. }
  assert (E0 : exists r, iter_step None (row 0) = Ok r).
  { apply finish_total. intros l Hl. cbn in Hl. replace l with 0 by lia. cbn. unfold silent. cbn. lra. }
  destruct E0 as ([st0 w0] & E0). pose proof E0 as F0. unfold iter_step in F0. cbn [row width Nat.eqb Nat.sub lead] in F0.
  apply finish_ok in F0 as (_ & _ & N0 & K0 & M0 & A0 & _ & S0 & P0).
  assert (m0 : forall b e, st_m st0 0 b e = 0%R). { intros b e. rewrite M0. reflexivity. }
  assert (a0 : forall b, st_a st0 0 b = 0%R). { intro b. rewrite A0. cbn [rsum]. rewrite !m0. ring. }
  assert (s0 : st_s st0 0 = 1%R).
  { specialize (P0 0). specialize (S0 0 ltac:(lia)). cbn [rsum] in S0. rewrite !a0 in S0. cbn in S0. unfold silent in S0. cbn in S0. nra. }
  (* step 1 *)
  set (x0 := fun l => extend (st_k st0) (st_m st0 l) (st_a st0 l) (st_s st0 l)).
  assert (X0 : forall b e, x0 0 b e = if b <? 3 then 0%R else if e <? 3 then 0%R else 1%R).
  { intros b e. unfold x0, extend. rewrite K0, s0. destruct (Rlt_dec 0 1); [|lra].
    destruct (b <? 3), (e <? 3); rewrite ?m0; try reflexivity; try field. cbn [rsum]. rewrite !a0. field. }
  assert (E1 : exists r, iter_step (Some st0) (row 1) = Ok r).
  { unfold iter_step. rewrite N0. cbn [row width lead Nat.eqb Nat.sub negb]. rewrite K0. cbn [Nat.add Nat.ltb Nat.leb].
    rewrite <- K0. fold x0. apply finish_total. intros l Hl. replace l with 0 by lia. rewrite K0. cbn. rewrite !X0. cbn. unfold silent. cbn. lra. }
  destruct E1 as ([st1 w1] & E1). pose proof E1 as F1. unfold iter_step in F1. cbn [row width Nat.eqb Nat.sub lead] in F1.
  rewrite N0 in F1. cbn [Nat.eqb negb] in F1. rewrite K0 in F1. cbn [Nat.add Nat.ltb Nat.leb] in F1. rewrite <- K0 in F1. fold x0 in F1. rewrite K0 in F1.
  apply finish_ok in F1 as (_ & _ & N1 & K1 & M1 & A1 & _ & S1 & P1).
  assert (m1 : forall b e, st_m st1 0 b e = if b <? 2 then 0%R else if e <? 2 then 0%R else 1%R).
  { intros b e. rewrite M1, X0. replace (b + (4 - 3)) with (S b) by lia. replace (e + (4 - 3)) with (S e) by lia. reflexivity. }
  assert (a1 : forall b, st_a st1 0 b = if b <? 2 then 0%R else 1%R).
  { intro b. rewrite A1. cbn [rsum]. rewrite !m1. cbn. unfold silent. cbn. destruct (b <=? 1); ring. }
  assert (s1 : st_s st1 0 = 0%R).
  { specialize (P1 0). specialize (S1 0 ltac:(lia)). cbn [rsum] in S1. rewrite !a1 in S1. cbn in S1. unfold silent in S1. cbn in S1. nra. }
  (* step 2 *)
  set (x1 := fun l => extend (st_k st1) (st_m st1 l) (st_a st1 l) (st_s st1 l)).
  assert (X1 : forall b e, b < 4 -> e < 4 -> x1 0 b e = if (b =? 2) && (e =? 2) then 1%R else if (b =? 3) && (e =? 2) then (-1)%R else 0%R).
  { intros b e Hb He. unfold x1, extend. rewrite K1, s1. destruct (Rlt_dec 0 0); [lra|]. cbn [rsum]. rewrite !m1, !a1.
    destruct b as [|[|[|[|b]]]]; [| | | |lia]; (destruct e as [|[|[|[|e]]]]; [| | | |lia]); cbn; try reflexivity; field. }
  assert (E2 : exists r, iter_step (Some st1) (row 2) = Ok r).
  { unfold iter_step. rewrite N1. cbn [row width lead Nat.eqb Nat.sub negb]. rewrite K1. cbn [Nat.add Nat.ltb Nat.leb].
    rewrite <- K1. fold x1. apply finish_total. intros l Hl. replace l with 0 by lia. rewrite K1. cbn. rewrite !X1 by lia. cbn. unfold silent. cbn. lra. }
  destruct E2 as ([st2 w2] & E2). pose proof E2 as F2. unfold iter_step in F2. cbn [row width Nat.eqb Nat.sub lead] in F2.
  rewrite N1 in F2. cbn [Nat.eqb negb] in F2. rewrite K1 in F2. cbn [Nat.add Nat.ltb Nat.leb] in F2. rewrite <- K1 in F2. fold x1 in F2. rewrite K1 in F2.
  apply finish_ok in F2 as (_ & _ & N2 & K2 & M2 & A2 & W2 & S2 & P2).
  assert (m2 : forall b e, b < 3 -> e < 3 -> st_m st2 0 b e = if (b =? 1) && (e =? 1) then 1%R else if (b =? 2) && (e =? 1) then (-1)%R else 0%R).
  { intros b e Hb He. rewrite M2, X1 by lia. replace (b + (4 - 3)) with (S b) by lia. replace (e + (4 - 3)) with (S e) by lia. reflexivity. }
  assert (a2 : st_a st2 0 0 = 0%R /\ st_a st2 0 1 = 1%R /\ st_a st2 0 2 = (-1)%R).
  { rewrite !A2. cbn [rsum]. rewrite !m2 by lia. cbn. unfold silent. cbn. repeat split; ring. }
  destruct a2 as (a20 & a21 & a22).
  assert (s2 : st_s st2 0 = 0%R).
  { specialize (P2 0). specialize (S2 0 ltac:(lia)). cbn [rsum] in S2. rewrite a20, a21, a22 in S2. cbn in S2. unfold silent in S2. cbn in S2. nra. }
  (* step 3 *)
  set (x2 := fun l => extend (st_k st2) (st_m st2 l) (st_a st2 l) (st_s st2 l)).
  assert (X2 : forall b e, b < 4 -> 2 <= e < 4 -> x2 0 b e = 0%R).
  { intros b e Hb He. unfold x2, extend. rewrite K2, s2. destruct (Rlt_dec 0 0); [lra|]. cbn [rsum]. rewrite a20, a21, a22.
    destruct (Nat.ltb_spec b 3), (Nat.ltb_spec e 3); rewrite ?m2 by lia;
      try (assert (e = 2) by lia; subst e); cbn; rewrite ?andb_false_r; try reflexivity; field. }
  assert (E3 : exists r, iter_step (Some st2) (row 3) = Ok r).
  { unfold iter_step. rewrite N2. cbn [row width lead Nat.eqb Nat.sub negb]. rewrite K2. cbn [Nat.add Nat.ltb Nat.leb].
    rewrite <- K2. fold x2. apply finish_total. intros l Hl. replace l with 0 by lia. rewrite K2. cbn. rewrite !(X2 _ 3), !(X2 _ 2) by lia. cbn. unfold silent. cbn. lra. }
  destruct E3 as ([st3 w3] & E3). pose proof E3 as F3. unfold iter_step in F3. cbn [row width Nat.eqb Nat.sub lead] in F3.
  rewrite N2 in F3. cbn [Nat.eqb negb] in F3. rewrite K2 in F3. cbn [Nat.add Nat.ltb Nat.leb] in F3. rewrite <- K2 in F3. fold x2 in F3. rewrite K2 in F3.
  apply finish_ok in F3 as (_ & _ & N3 & K3 & M3 & A3 & W3 & S3 & P3).
  assert (a3 : forall b, b < 3 -> st_a st3 0 b = 0%R).
  { intros b Hb. rewrite A3. cbn [rsum]. rewrite !M3. cbn. rewrite !(X2 _ 3), !(X2 _ 2) by lia. unfold silent. cbn. ring. }
  assert (E : iternorm (rows, None) = ([w0; w1; w2; w3], None)).
  { unfold iternorm, rows. cbn [map fst snd iter_rows]. rewrite E0. cbn [iter_rows]. rewrite E1. cbn [iter_rows]. rewrite E2.
    cbn [iter_rows]. rewrite E3. reflexivity. }
  specialize (H _ ltac:(lia) eq_refl silent_semidefinite Hr E 3 2 w3 w2 eq_refl eq_refl).
  unfold covariance, coefficient in H. cbn in H. rewrite !W3, !W2 in H. cbn in H. rewrite !a3, s2 in H by lia.
  unfold silent in H. cbn in H. lra.
Qed.
Print Assumptions iternorm_semidefinite_covariance_refuted.
