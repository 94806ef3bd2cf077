(** Least-squares systems of [Model_Partition]. *)
From Coq Require Import Reals Lra Lia List Arith.
From Verif Require Import Base RSum Model_Numeric Spec_Numeric Proof_Numeric Model_Arrays Model_Windows Model_Nnls Spec_Nnls Proof_Nnls Model_Partition Spec_Partition.
Import ListNotations.
Local Open Scope R_scope.

(** Entry of a list by position. *)
Definition entry (l : list R) (k : nat) : R := nth k l 0.

(** ** The grid *)
Lemma fit_grid_In shells : forall z x, In x (fit_grid z shells) <-> In x z \/ exists w, In w shells /\ In x (za w).
Proof.
  unfold fit_grid. induction shells as [|w shells IH]; intros z x; cbn [fold_left].
  - split; [auto|]. intros [H|(w & [] & _)]. exact H.
  - rewrite IH, union1d_In. split.
    + intros [[H|H]|(v & I & H)]; [auto|right; exists w; split; [left; reflexivity|exact H]|right; exists v; split; [right; exact I|exact H]].
    + intros [H|(v & [<-|I] & H)]; [auto|auto|right; exists v; auto].
Qed.

Lemma fit_grid_increasing shells : forall z, shells <> [] -> increasing (fit_grid z shells).
Proof.
  unfold fit_grid. induction shells as [|w shells IH]; intros z H; [contradiction|]. cbn [fold_left].
  destruct shells as [|v shells]; [apply union1d_increasing|]. apply IH. discriminate.
Qed.

(** ** Spacing and integrals *)
Lemma entry_map_seq (g : nat -> R) n k : (k < n)%nat -> nth k (map g (seq 0 n)) 0 = g k.
Proof.
  intro H. rewrite (nth_indep _ 0 (g 0%nat)) by (rewrite map_length, seq_length; exact H).
  rewrite (map_nth g (seq 0 n) 0%nat k), seq_nth by exact H. reflexivity.
Qed.

Lemma central_ok zp : (2 <= length zp)%nat -> exists dz, central zp = Ok dz /\ length dz = length zp /\
  forall k, (k < length zp)%nat -> nth k dz 0 = width (length zp) (entry zp) k.
Proof.
  intro H. unfold central. destruct (Nat.ltb_spec (length zp) 2) as [K|_]; [lia|]. eexists. split; [reflexivity|].
  split; [rewrite map_length, seq_length; reflexivity|]. intros k Hk. rewrite entry_map_seq by exact Hk. unfold width, entry.
  destruct (Nat.eqb_spec k 0) as [->|N]; [reflexivity|]. destruct (Nat.eqb_spec k (length zp - 1)) as [->|M].
  - replace (S (length zp - 1) =? length zp)%nat with true by (symmetry; apply Nat.eqb_eq; lia). reflexivity.
  - replace (S k =? length zp)%nat with false by (symmetry; apply Nat.eqb_neq; lia). rewrite Nat.add_1_r. reflexivity.
Qed.

Lemma central_err zp : (length zp < 2)%nat -> central zp = Err ValueError.
Proof. intro H. unfold central. destruct (Nat.ltb_spec (length zp) 2); [reflexivity|lia]. Qed.

Lemma rule_trapezoid g xs : trapezoid (map g xs) xs = Ok (rule (length xs) (entry xs) g).
Proof.
  unfold trapezoid. rewrite map_length, Nat.eqb_refl. f_equal. unfold rule.
  induction xs as [|x xs IH]; [reflexivity|]. destruct xs as [|y xs]; [reflexivity|].
  change (trapezoids (combine (x :: y :: xs) (map g (x :: y :: xs)))) with
    ((g y + g x) * (1 / 2) * (y - x) :: trapezoids (combine (y :: xs) (map g (y :: xs)))).
  cbn [total]. rewrite IH. cbn [length]. replace (S (S (length xs)) - 1)%nat with (S (length xs)) by lia.
  replace (S (length xs) - 1)%nat with (length xs) by lia. rewrite rsum_S_l. f_equal. unfold entry; cbn [nth]; field.
Qed.

Lemma width_positive zp k : increasing zp -> (2 <= length zp)%nat -> (k < length zp)%nat -> 0 < width (length zp) (entry zp) k.
Proof.
  intros Hi H2 Hk.
  assert (G : forall i j, (i < j)%nat -> (j < length zp)%nat -> entry zp i < entry zp j).
  { intros i j Hij Hj. apply (increasing_lt zp Hi i j); [exact Hij|apply nth_error_nth'; lia|apply nth_error_nth'; exact Hj]. }
  unfold width. destruct (Nat.eqb_spec k 0) as [->|N]; [specialize (G 0%nat 1%nat ltac:(lia) ltac:(lia)); lra|].
  destruct (Nat.eqb_spec (S k) (length zp)) as [E|M].
  - specialize (G (k - 1)%nat k ltac:(lia) Hk). lra.
  - specialize (G (k - 1)%nat (S k) ltac:(lia) ltac:(lia)). lra.
Qed.

(** ** Rows of the system *)
Lemma nth_products (h : R * R -> R) (u v : list R) k : (k < length u)%nat -> length u = length v ->
  nth k (map h (combine u v)) 0 = h (nth k u 0, nth k v 0).
Proof.
  intros Hk Hl. rewrite (nth_indep _ 0 (h (0, 0))) by (rewrite map_length, combine_length; lia).
  rewrite (map_nth h), combine_nth by exact Hl. reflexivity.
Qed.

Lemma nth_map_entry (g : R -> R) l k : (k < length l)%nat -> nth k (map g l) 0 = g (entry l k).
Proof. intro H. rewrite (nth_indep _ 0 (g 0)) by (rewrite map_length; exact H). apply map_nth. Qed.

Lemma window_row_ok zp dz mult w g : length dz = length zp -> (forall x, interp x (za w) (wa w) (Some 0) (Some 0) = Ok (g x)) ->
  rule (length zp) (entry zp) g <> 0 ->
  exists row, window_row zp dz mult w = Ok row /\
    (forall k, (k < length zp)%nat -> nth k row 0 = g (entry zp k) / rule (length zp) (entry zp) g * nth k dz 0) /\ nth (length zp) row 0 = mult.
Proof.
  intros Hl Hg Ht. unfold window_row. rewrite (mapM_pure _ g) by (intros; apply Hg). cbn [bind]. rewrite rule_trapezoid. cbn [bind].
  destruct (Req_EM_T _ 0) as [K|_]; [contradiction|]. eexists. split; [reflexivity|].
  assert (L : length (map (fun p => fst p / rule (length zp) (entry zp) g * snd p) (combine (map g zp) dz)) = length zp) by (rewrite map_length, combine_length, map_length; lia).
  split.
  - intros k Hk. rewrite app_nth1 by (rewrite L; exact Hk). rewrite nth_products by (rewrite ?map_length; lia). cbn [fst snd]. rewrite nth_map_entry by exact Hk. reflexivity.
  - rewrite app_nth2 by (rewrite L; lia). rewrite L, Nat.sub_diag. reflexivity.
Qed.

Lemma target_row_ok zp dz mult z f g t : length dz = length zp -> (forall x, interp x z f (Some 0) (Some 0) = Ok (g x)) -> trapezoid f z = Ok t ->
  exists row, target_row zp dz mult z f = Ok row /\
    (forall k, (k < length zp)%nat -> nth k row 0 = g (entry zp k) * nth k dz 0) /\ nth (length zp) row 0 = mult * t.
Proof.
  intros Hl Hg Ht. unfold target_row. rewrite (mapM_pure _ g) by (intros; apply Hg). cbn [bind]. rewrite Ht. cbn [bind]. eexists. split; [reflexivity|].
  assert (L : length (map (fun p => fst p * snd p) (combine (map g zp) dz)) = length zp) by (rewrite map_length, combine_length, map_length; lia).
  split.
  - intros k Hk. rewrite app_nth1 by (rewrite L; exact Hk). rewrite nth_products by (rewrite ?map_length; lia). cbn [fst snd]. rewrite nth_map_entry by exact Hk. reflexivity.
  - rewrite app_nth2 by (rewrite L; lia). rewrite L, Nat.sub_diag. reflexivity.
Qed.

(** The list of results of a computation that succeeds for each entry. *)
Lemma mapM_total {A B} (f : A -> result B) l : (forall i x, nth_error l i = Some x -> exists y, f x = Ok y) ->
  exists ys, mapM f l = Ok ys /\ length ys = length l /\ forall i x, nth_error l i = Some x -> exists y, nth_error ys i = Some y /\ f x = Ok y.
Proof.
  induction l as [|a l IH]; intro H.
  - exists []. split; [reflexivity|]. split; [reflexivity|]. intros [|i]; discriminate.
  - destruct (H 0%nat a eq_refl) as [y Ey]. destruct IH as (ys & E & L & N); [intros i x Hx; apply (H (S i) x Hx)|].
    exists (y :: ys). cbn [mapM]. rewrite Ey. cbn [bind]. rewrite E. cbn [bind]. split; [reflexivity|]. split; [cbn; lia|].
    intros [|i] x Hx; [injection Hx as <-; exists y; auto|]. apply (N i x Hx).
Qed.

Section System.
  Variable z : list R.
  Variable fs : list (list R).
  Variable shells : list window.
  Variable sumtol : R.
  Variable w : nat -> R -> R.
  Let n := length shells.
  Let zp := fit_grid z shells.
  Let N := length zp.
  Let tol := Rmax sumtol (1 / 10000).
  Hypothesis some : shells <> [].
  Hypothesis windows : forall j wd, nth_error shells j = Some wd -> forall x, interp x (za wd) (wa wd) (Some 0) (Some 0) = Ok (w j x).
  Hypothesis functions : forall f, In f fs -> length z = length f.
  Hypothesis nonempty : z <> [].
  Hypothesis points : (2 <= N)%nat.
  Hypothesis normal : forall j, (j < n)%nat -> rule N (entry zp) (w j) <> 0.

  Lemma tol_positive : 0 < tol.
  Proof. unfold tol. pose proof (Rmax_r sumtol (1 / 10000)). lra. Qed.

  Lemma fit_system_ok : exists a bs, fit_system z fs shells sumtol = Ok ((N + 1)%nat, a, bs) /\ length bs = length fs /\
    (forall k j, (k < N)%nat -> (j < n)%nat -> a k j = width N (entry zp) k * (w j (entry zp k) / rule N (entry zp) (w j))) /\
    (forall j, (j < n)%nat -> a N j = 1 / tol) /\
    forall i f F t, nth_error fs i = Some f -> (forall x, interp x z f (Some 0) (Some 0) = Ok (F x)) -> trapezoid f z = Ok t ->
      exists b, nth_error bs i = Some b /\ (forall k, (k < N)%nat -> b k = width N (entry zp) k * F (entry zp k)) /\ b N = 1 / tol * t.
  Proof.
    unfold fit_system. fold zp. destruct (central_ok zp points) as (dz & -> & Ld & Vd). cbn [bind].
    destruct (mapM_total (window_row zp dz (multiplier sumtol)) shells) as (a & Ea & La & Na).
    { intros j wd Hj. destruct (window_row_ok zp dz (multiplier sumtol) wd (w j) Ld (windows j wd Hj)) as (row & E & _);
        [apply normal; apply nth_error_Some; rewrite Hj; discriminate|eauto]. }
    destruct (mapM_total (target_row zp dz (multiplier sumtol) z) fs) as (b & Eb & Lb & Nb).
    { intros i f Hi. pose proof (functions f (nth_error_In _ _ Hi)) as Lf.
      destruct (target_row_ok zp dz (multiplier sumtol) z f (interp_value z f (Some 0) (Some 0)) (total (trapezoids (combine z f))) Ld) as (row & E & _); [|
        unfold trapezoid; rewrite Lf, Nat.eqb_refl; reflexivity|eauto].
      intro x. apply interp_ok; assumption. }
    assert (M : forall T (u v : T), match shells with [] => u | _ :: _ => v end = v) by (clear - some; intros; destruct shells; [contradiction|reflexivity]).
    rewrite M, Ea. cbn [bind]. rewrite Eb. cbn [bind].
    eexists. eexists. split; [reflexivity|]. split; [rewrite map_length; exact Lb|].
    assert (G : forall j, (j < n)%nat -> exists wd row, nth_error shells j = Some wd /\ nth j a [] = row /\
      (forall k, (k < N)%nat -> nth k row 0 = w j (entry zp k) / rule N (entry zp) (w j) * nth k dz 0) /\ nth N row 0 = multiplier sumtol).
    { intros j Hj. destruct (nth_error shells j) as [wd|] eqn:Hw; [|apply nth_error_None in Hw; unfold n in Hj; lia].
      destruct (Na j wd Hw) as (row & Hr & E). destruct (window_row_ok zp dz (multiplier sumtol) wd (w j) Ld (windows j wd Hw) (normal j Hj)) as (row' & E' & V & L).
      rewrite E in E'. injection E' as <-. exists wd, row. split; [reflexivity|]. split; [apply nth_error_nth; exact Hr|]. auto. }
    split; [|split].
    - intros k j Hk Hj. destruct (G j Hj) as (wd & row & _ & -> & V & _). rewrite V, Vd by exact Hk. fold N. ring.
    - intros j Hj. destruct (G j Hj) as (wd & row & _ & -> & _ & L). exact L.
    - intros i f F t Hi HF Ht. destruct (Nb i f Hi) as (row & Hr & E).
      destruct (target_row_ok zp dz (multiplier sumtol) z f F t Ld HF Ht) as (row' & E' & V & L). rewrite E in E'. injection E' as <-.
      exists (fun k => nth k row 0). split; [rewrite nth_error_map', Hr; reflexivity|]. split; [|exact L].
      intros k Hk. rewrite V, Vd by exact Hk. fold N. ring.
  Qed.

  (** The misfit of the system is the badness of the fit. *)
  Lemma system_badness a b F t x :
    (forall k j, (k < N)%nat -> (j < n)%nat -> a k j = width N (entry zp) k * (w j (entry zp k) / rule N (entry zp) (w j))) ->
    (forall j, (j < n)%nat -> a N j = 1 / tol) ->
    (forall k, (k < N)%nat -> b k = width N (entry zp) k * F (entry zp k)) -> b N = 1 / tol * t ->
    misfit (N + 1) n a b x = badness N (entry zp) n w F t tol x.
  Proof.
    intros A1 A2 B1 B2. unfold misfit, badness. rewrite Nat.add_1_r. cbn [rsum]. f_equal.
    - apply rsum_ext. intros k Hk. f_equal. rewrite (B1 k Hk), Rmult_minus_distr_l, <- rsum_scal. f_equal. apply rsum_ext. intros j Hj. rewrite (A1 k j Hk Hj). ring.
    - f_equal. rewrite B2, (rsum_ext n _ (fun j => 1 / tol * x j)) by (intros j Hj; rewrite (A2 j Hj); reflexivity). rewrite rsum_scal. field.
      pose proof tol_positive. lra.
  Qed.
End System.

(** ** The QR reduction *)
Section QR.
  Variables m n : nat.
  Variables a q r : nat -> nat -> R.
  Hypothesis dec : decomposes m n a q r.
  Let k := Nat.min m n.

  (** Products with the columns of [q]. *)
  Lemma qr_gram u v : rsum m (fun i => rsum k (fun p => q i p * u p) * rsum k (fun p => q i p * v p)) = rsum k (fun p => u p * v p).
  Proof.
    rewrite (rsum_ext m _ (fun i => rsum k (fun p => u p * rsum k (fun s => v s * (q i p * q i s))))).
    - rewrite rsum_swap. apply rsum_ext. intros p Hp. rewrite rsum_scal. f_equal. rewrite rsum_swap.
      rewrite (rsum_ext k _ (fun s => if (s =? p)%nat then v s else 0)); [apply rsum_delta; exact Hp|].
      intros s Hs. rewrite rsum_scal, (proj1 dec p s Hp Hs), Nat.eqb_sym. destruct (s =? p)%nat; ring.
    - intros i _. rewrite <- rsum_scal_r. apply rsum_ext. intros p _. rewrite <- rsum_scal, <- rsum_scal. apply rsum_ext. intros s _. ring.
  Qed.

  Lemma qr_gram_columns j l : (j < n)%nat -> (l < n)%nat -> rsum k (fun p => r p j * r p l) = rsum m (fun i => a i j * a i l).
  Proof.
    intros Hj Hl. rewrite <- qr_gram. apply rsum_ext. intros i Hi. rewrite (proj2 dec i j Hi Hj), (proj2 dec i l Hi Hl). reflexivity.
  Qed.

  Lemma qr_moments b j : (j < n)%nat -> rsum k (fun p => rsum m (fun i => q i p * b i) * r p j) = rsum m (fun i => b i * a i j).
  Proof.
    intro Hj. rewrite (rsum_ext k _ (fun p => rsum m (fun i => q i p * b i * r p j))) by (intros; rewrite rsum_scal_r; reflexivity).
    rewrite rsum_swap. apply rsum_ext. intros i Hi. rewrite (proj2 dec i j Hi Hj), <- rsum_scal. apply rsum_ext. intros. ring.
  Qed.

  (** The misfits differ by the part of [b] that no weights reach. *)
  Lemma qr_misfit b x : misfit m n a b x = misfit k n r (fun p => rsum m (fun i => q i p * b i)) x +
    (rsum m (fun i => b i ^ 2) - rsum k (fun p => rsum m (fun i => q i p * b i) ^ 2)).
  Proof.
    set (y := fun p => rsum m (fun i => q i p * b i)). set (u := fun p => rsum n (fun j => r p j * x j)).
    assert (Ax : forall i, (i < m)%nat -> rsum n (fun j => a i j * x j) = rsum k (fun p => q i p * u p)).
    { intros i Hi. rewrite (rsum_ext n _ (fun j => rsum k (fun p => q i p * (r p j * x j)))).
      - rewrite rsum_swap. apply rsum_ext. intros p _. rewrite rsum_scal. reflexivity.
      - intros j Hj. rewrite (proj2 dec i j Hi Hj), <- rsum_scal_r. apply rsum_ext. intros. ring. }
    unfold misfit. fold y.
    rewrite (rsum_ext m _ (fun i => rsum k (fun p => q i p * u p) * rsum k (fun p => q i p * u p) - 2 * (rsum k (fun p => q i p * u p) * b i) + b i ^ 2))
      by (intros i Hi; rewrite (Ax i Hi); ring).
    rewrite (rsum_ext k (fun i => (rsum n (fun j => r i j * x j) - y i) ^ 2) (fun p => u p * u p - 2 * (u p * y p) + y p ^ 2)) by (intros p _; unfold u; ring).
    rewrite !rsum_plus, !rsum_minus, !rsum_scal, qr_gram.
    assert (C : rsum m (fun i => rsum k (fun p => q i p * u p) * b i) = rsum k (fun p => u p * y p)).
    { rewrite (rsum_ext m _ (fun i => rsum k (fun p => u p * (q i p * b i)))).
      - rewrite rsum_swap. apply rsum_ext. intros p _. rewrite rsum_scal. reflexivity.
      - intros i _. rewrite <- rsum_scal_r. apply rsum_ext. intros. ring. }
    rewrite C. unfold y, u. cbn beta. ring.
  Qed.
End QR.

(** ** Such solvers exist: projection by the method of Gram and Schmidt *)
Section Projection.
  Variable m : nat.
  Variable a : nat -> nat -> R.

  (** Coefficients of the projection of [b] onto the first [n] columns. *)
  Fixpoint project (n : nat) (b : nat -> R) : nat -> R :=
    match n with
    | O => fun _ => 0
    | S n =>
        let c := project n (fun i => a i n) in
        let e := fun i => a i n - rsum n (fun j => a i j * c j) in
        let d := rsum m (fun i => e i * e i) in
        let t := if Req_EM_T d 0 then 0 else rsum m (fun i => b i * e i) / d in
        let p := project n (fun i => b i - t * a i n) in
        fun j => if (j =? n)%nat then t else p j
    end.

  Lemma project_orthogonal n : forall b j, (j < n)%nat -> rsum m (fun i => (b i - rsum n (fun k => a i k * project n b k)) * a i j) = 0.
  Proof.
    induction n as [|n IH]; intros b j Hj; [lia|]. cbn [project]. cbv zeta.
    set (c := project n (fun i => a i n)). set (e := fun i => a i n - rsum n (fun j => a i j * c j)).
    set (d := rsum m (fun i => e i * e i)). set (t := if Req_EM_T d 0 then 0 else rsum m (fun i => b i * e i) / d). set (p := project n (fun i => b i - t * a i n)).
    assert (Rho : forall i, b i - rsum (S n) (fun k => a i k * (if (k =? n)%nat then t else p k)) = b i - t * a i n - rsum n (fun k => a i k * p k)).
    { intro i. cbn [rsum]. rewrite Nat.eqb_refl. rewrite (rsum_ext n _ (fun k => a i k * p k)); [ring|].
      intros k Hk. replace (k =? n)%nat with false by (symmetry; apply Nat.eqb_neq; lia). reflexivity. }
    rewrite (rsum_ext m _ (fun i => (b i - t * a i n - rsum n (fun k => a i k * p k)) * a i j)) by (intros i _; rewrite Rho; reflexivity).
    set (rho := fun i => b i - t * a i n - rsum n (fun k => a i k * p k)).
    assert (O1 : forall j, (j < n)%nat -> rsum m (fun i => rho i * a i j) = 0) by (intros l Hl; apply (IH (fun i => b i - t * a i n) l Hl)).
    destruct (Nat.eq_dec j n) as [->|Ne]; [|apply O1; lia].
    assert (O2 : forall j, (j < n)%nat -> rsum m (fun i => e i * a i j) = 0) by (intros l Hl; apply (IH (fun i => a i n) l Hl)).
    assert (Comb : forall (v x : nat -> R), (forall l, (l < n)%nat -> rsum m (fun i => v i * a i l) = 0) -> rsum m (fun i => v i * rsum n (fun l => a i l * x l)) = 0).
    { intros v x Hv. rewrite (rsum_ext m _ (fun i => rsum n (fun l => x l * (v i * a i l)))) by (intros i _; rewrite <- rsum_scal; apply rsum_ext; intros; ring).
      rewrite rsum_swap. apply rsum_zero. intros l Hl. rewrite rsum_scal, (Hv l Hl). ring. }
    change (rsum m (fun i => rho i * a i n) = 0).
    assert (E1 : rsum m (fun i => rho i * a i n) = rsum m (fun i => rho i * e i)).
    { rewrite (rsum_ext m (fun i => rho i * a i n) (fun i => rho i * e i + rho i * rsum n (fun l => a i l * c l))) by (intros i _; unfold e; ring).
      rewrite rsum_plus, (Comb rho c O1). ring. }
    assert (E2 : rsum m (fun i => rho i * e i) = rsum m (fun i => b i * e i) - t * d).
    { rewrite (rsum_ext m _ (fun i => b i * e i - t * (e i * e i) - t * (e i * rsum n (fun l => a i l * c l)) - e i * rsum n (fun l => a i l * p l)))
        by (intros i _; unfold rho, e; ring).
      rewrite !rsum_minus, !rsum_scal, (Comb e c O2), (Comb e p O2). fold d. ring. }
    rewrite E1, E2. unfold t. destruct (Req_EM_T d 0) as [Z|Z].
    - rewrite Z. rewrite (rsum_zero m); [ring|]. intros i Hi.
      assert (Ei : e i * e i = 0).
      { apply Rle_antisym; [|apply Rle_0_sqr]. rewrite <- Z. unfold d. rewrite <- (rsum_delta m i (fun i => e i * e i) Hi). apply rsum_le.
        intros l _. destruct (l =? i)%nat; [lra|apply Rle_0_sqr]. }
      apply Rmult_integral in Ei. destruct Ei as [-> | ->]; ring.
    - field. exact Z.
  Qed.

  Lemma project_minimises n b : minimises m n a b (project n b).
  Proof.
    intro y. change (misfit m n a b (project n b) <= misfit m n a b y). rewrite (misfit_expand m n a b (project n b) y).
    rewrite (rsum_zero n (fun j => slope m n a b (project n b) j * (y j - project n b j))).
    - assert (0 <= rsum m (fun i => rsum n (fun j => a i j * (y j - project n b j)) ^ 2)) by (apply rsum_nonneg; intros; apply pow2_ge_0). lra.
    - intros j Hj. unfold slope. replace (rsum m _) with (- rsum m (fun i => (b i - rsum n (fun k => a i k * project n b k)) * a i j)).
      + rewrite (project_orthogonal n b j Hj). ring.
      + rewrite <- rsum_opp. apply rsum_ext. intros. ring.
  Qed.
End Projection.

(** ** Existence of QR decompositions *)
Section Orthonormal.
  Variable m : nat.

  Definition orthonormal (q : nat -> nat -> R) (n : nat) : Prop :=
    forall k l, (k < n)%nat -> (l < n)%nat -> rsum m (fun i => q i k * q i l) = if (k =? l)%nat then 1 else 0.
  Definition along (q : nat -> nat -> R) (v : nat -> R) (k : nat) : R := rsum m (fun i => q i k * v i).
  (** What is left of a vector after projection. *)
  Definition left_over (q : nat -> nat -> R) (n : nat) (v : nat -> R) (i : nat) : R := v i - rsum n (fun k => q i k * along q v k).
  Definition square (v : nat -> R) : R := rsum m (fun i => v i * v i).
  Definition axis (i : nat) : nat -> R := fun j => if (j =? i)%nat then 1 else 0.

  Lemma square_zero v : square v = 0 -> forall i, (i < m)%nat -> v i = 0.
  Proof.
    intros Z i Hi. assert (E : v i * v i = 0).
    { apply Rle_antisym; [|apply Rle_0_sqr]. rewrite <- Z. unfold square. rewrite <- (rsum_delta m i (fun i => v i * v i) Hi). apply rsum_le.
      intros l _. destruct (l =? i)%nat; [lra|apply Rle_0_sqr]. }
    apply Rmult_integral in E. tauto.
  Qed.

  Lemma square_nonneg v : 0 <= square v.
  Proof. apply rsum_nonneg. intros. apply Rle_0_sqr. Qed.

  Lemma left_over_orthogonal q n v : orthonormal q n -> forall l, (l < n)%nat -> rsum m (fun i => q i l * left_over q n v i) = 0.
  Proof.
    intros O l Hl. unfold left_over.
    rewrite (rsum_ext m _ (fun i => q i l * v i - rsum n (fun k => along q v k * (q i l * q i k)))).
    - rewrite rsum_minus, rsum_swap, (rsum_ext n _ (fun k => if (k =? l)%nat then along q v k else 0)).
      + rewrite rsum_delta by exact Hl. unfold along. ring.
      + intros k Hk. rewrite rsum_scal, (O l k Hl Hk), Nat.eqb_sym. destruct (k =? l)%nat; ring.
    - intros i _. rewrite Rmult_minus_distr_l, <- rsum_scal. f_equal. apply rsum_ext. intros. ring.
  Qed.

  Lemma left_over_square q n v : orthonormal q n -> square (left_over q n v) = square v - rsum n (fun k => along q v k ^ 2).
  Proof.
    intro O. unfold square. set (e := left_over q n v).
    rewrite (rsum_ext m _ (fun i => v i * e i - rsum n (fun k => along q v k * (q i k * e i)))).
    - rewrite rsum_minus, rsum_swap, (rsum_zero n (fun k => rsum m (fun i => along q v k * (q i k * e i)))).
      + unfold e, left_over. rewrite (rsum_ext m _ (fun i => v i * v i - rsum n (fun k => along q v k * (q i k * v i)))).
        * rewrite rsum_minus, rsum_swap. rewrite (rsum_ext n (fun k => rsum m _) (fun k => along q v k ^ 2)); [ring|].
          intros k _. rewrite rsum_scal. unfold along. ring.
        * intros i _. rewrite Rmult_minus_distr_l, <- rsum_scal. f_equal. apply rsum_ext. intros. ring.
      + intros k Hk. rewrite rsum_scal. pose proof (left_over_orthogonal q n v O k Hk) as Q. fold e in Q. rewrite Q. ring.
    - intros i _. unfold e at 1, left_over. rewrite Rmult_minus_distr_r, <- rsum_scal_r. f_equal. apply rsum_ext. intros. ring.
  Qed.

  Lemma along_axis q i k : (i < m)%nat -> along q (axis i) k = q i k.
  Proof.
    intro Hi. unfold along, axis. rewrite (rsum_ext m _ (fun j => if (j =? i)%nat then q j k else 0)); [apply (rsum_delta m i (fun j => q j k) Hi)|].
    intros j _. destruct (j =? i)%nat; ring.
  Qed.

  Lemma left_over_axis q n i : orthonormal q n -> (i < m)%nat -> square (left_over q n (axis i)) = 1 - rsum n (fun k => q i k ^ 2).
  Proof.
    intros O Hi. rewrite left_over_square by exact O. f_equal.
    - unfold square, axis. rewrite (rsum_ext m _ (fun j => if (j =? i)%nat then 1 else 0)); [apply (rsum_delta m i (fun _ => 1) Hi)|].
      intros j _. destruct (j =? i)%nat; ring.
    - apply rsum_ext. intros k _. rewrite along_axis by exact Hi. reflexivity.
  Qed.

  Lemma squares_total q n : orthonormal q n -> rsum m (fun i => rsum n (fun k => q i k ^ 2)) = INR n.
  Proof.
    intro O. rewrite rsum_swap, (rsum_ext n _ (fun _ => 1)).
    - rewrite rsum_const. ring.
    - intros k Hk. rewrite (rsum_ext m _ (fun i => q i k * q i k)) by (intros; ring). rewrite (O k k Hk Hk), Nat.eqb_refl. reflexivity.
  Qed.

  (** An axis outside of the span of the columns. *)
  Fixpoint search (q : nat -> nat -> R) (n i : nat) : nat :=
    match i with
    | O => O
    | S i => if Rlt_dec (rsum n (fun k => q i k ^ 2)) 1 then i else search q n i
    end.

  Lemma search_spec q n : forall p, (search q n p < p)%nat /\ rsum n (fun k => q (search q n p) k ^ 2) < 1 \/ forall i, (i < p)%nat -> 1 <= rsum n (fun k => q i k ^ 2).
  Proof.
    induction p as [|p IH]; [right; intros; lia|]. cbn [search]. destruct (Rlt_dec (rsum n (fun k => q p k ^ 2)) 1) as [L|L].
    - left. split; [lia|exact L].
    - destruct IH as [[H1 H2]|H]; [left; split; [lia|exact H2]|right]. intros i Hi. destruct (Nat.eq_dec i p) as [->|Ne]; [lra|apply H; lia].
  Qed.

  Lemma search_found q n : orthonormal q n -> (n < m)%nat -> (search q n m < m)%nat /\ rsum n (fun k => q (search q n m) k ^ 2) < 1.
  Proof.
    intros O Hn. destruct (search_spec q n m) as [H|H]; [exact H|exfalso].
    pose proof (squares_total q n O) as T. assert (INR m <= INR n).
    { rewrite <- T. replace (INR m) with (rsum m (fun _ => 1)) by (rewrite rsum_const; ring). apply rsum_le. exact H. }
    apply INR_le in H0. lia.
  Qed.

  Definition next (q : nat -> nat -> R) (n : nat) (v : nat -> R) : nat -> R :=
    let e := left_over q n v in
    let e := if Req_EM_T (square e) 0 then left_over q n (axis (search q n m)) else e in
    fun i => e i / sqrt (square e).

  Lemma next_spec q n v : orthonormal q n -> (n < m)%nat ->
    square (next q n v) = 1 /\ (forall l, (l < n)%nat -> rsum m (fun i => q i l * next q n v i) = 0) /\
    exists c, forall i, (i < m)%nat -> left_over q n v i = c * next q n v i.
  Proof.
    intros O Hn. unfold next. set (e := left_over q n v). set (e' := if Req_EM_T (square e) 0 then left_over q n (axis (search q n m)) else e).
    assert (P : 0 < square e' /\ (forall l, (l < n)%nat -> rsum m (fun i => q i l * e' i) = 0) /\ exists c, forall i, (i < m)%nat -> e i = c * e' i).
    { unfold e'. destruct (Req_EM_T (square e) 0) as [Z|Z].
      - destruct (search_found q n O Hn) as [S1 S2]. split; [rewrite left_over_axis by assumption; lra|]. split; [apply left_over_orthogonal; exact O|].
        exists 0. intros i Hi. rewrite (square_zero e Z i Hi). ring.
      - split; [pose proof (square_nonneg e); lra|]. split; [apply left_over_orthogonal; exact O|]. exists 1. intros. ring. }
    clearbody e'. destruct P as (P & Q & c & C). pose proof (sqrt_lt_R0 _ P) as Sp. pose proof (sqrt_sqrt (square e') ltac:(lra)) as Sq. split; [|split].
    - unfold square at 1. rewrite (rsum_ext m _ (fun i => (/ (sqrt (square e') * sqrt (square e'))) * (e' i * e' i))) by (intros i _; field; lra).
      rewrite rsum_scal, Sq. fold (square e'). field. lra.
    - intros l Hl. rewrite (rsum_ext m _ (fun i => / sqrt (square e') * (q i l * e' i))) by (intros i _; field; lra). rewrite rsum_scal, (Q l Hl). ring.
    - exists (c * sqrt (square e')). intros i Hi. rewrite (C i Hi). field. lra.
  Qed.

  Variable a : nat -> nat -> R.

  Fixpoint basis (n : nat) : nat -> nat -> R :=
    match n with
    | O => fun _ _ => 0
    | S n =>
        let q := basis n in
        if (n <? m)%nat then fun i k => if (k =? n)%nat then next q n (fun i => a i n) i else q i k else q
    end.

  Lemma basis_orthonormal n : orthonormal (basis n) (Nat.min m n).
  Proof.
    induction n as [|n IH]; [rewrite Nat.min_0_r; intros k l Hk; lia|]. cbn [basis]. cbv zeta. destruct (Nat.ltb_spec n m) as [L|L].
    - rewrite Nat.min_r in IH |- * by lia. destruct (next_spec (basis n) n (fun i => a i n) IH L) as (N1 & N2 & _). set (v := next _ _ _) in *.
      intros k l Hk Hl. destruct (Nat.eqb_spec k n) as [->|Nk]; destruct (Nat.eqb_spec l n) as [->|Nl].
      + rewrite Nat.eqb_refl. exact N1.
      + replace (n =? l)%nat with false by (symmetry; apply Nat.eqb_neq; lia). rewrite (rsum_ext m _ (fun i => basis n i l * v i)) by (intros; ring). apply N2. lia.
      + replace (k =? n)%nat with false by (symmetry; apply Nat.eqb_neq; lia). apply N2. lia.
      + apply IH; lia.
    - rewrite Nat.min_l in IH |- * by lia. exact IH.
  Qed.

  Lemma basis_prefix n : forall p i k, (n <= p)%nat -> (k < Nat.min m n)%nat -> basis p i k = basis n i k.
  Proof.
    induction p as [|p IH]; intros i k Hp Hk; [lia|]. destruct (Nat.eq_dec n (S p)) as [->|Ne]; [reflexivity|]. cbn [basis]. cbv zeta.
    destruct (Nat.ltb_spec p m) as [L|L]; [|apply IH; [lia|exact Hk]]. destruct (Nat.eqb_spec k p) as [->|Nk]; [lia|apply IH; [lia|exact Hk]].
  Qed.

  (** A vector in the span is its projection. *)
  Lemma span_projection q n v s : orthonormal q n -> (forall i, (i < m)%nat -> v i = rsum n (fun k => q i k * s k)) ->
    forall i, (i < m)%nat -> v i = rsum n (fun k => q i k * along q v k).
  Proof.
    intros O Hv i Hi. rewrite (Hv i Hi). apply rsum_ext. intros p Hp. f_equal. symmetry. unfold along.
    rewrite (rsum_ext m _ (fun i => rsum n (fun l => s l * (q i p * q i l)))) by (intros l Hl; rewrite (Hv l Hl), <- rsum_scal; apply rsum_ext; intros; ring).
    rewrite rsum_swap, (rsum_ext n _ (fun l => if (l =? p)%nat then s l else 0)); [apply rsum_delta; exact Hp|].
    intros l Hl. rewrite rsum_scal, (O p l Hp Hl), Nat.eqb_sym. destruct (l =? p)%nat; ring.
  Qed.

  (** As many orthonormal columns as rows span everything. *)
  Lemma complete q v : orthonormal q m -> forall i, (i < m)%nat -> v i = rsum m (fun k => q i k * along q v k).
  Proof.
    intros O i Hi. pose proof (squares_total q m O) as T.
    assert (Z : forall j, (j < m)%nat -> square (left_over q m (axis j)) = 0).
    { intros j Hj. apply Rle_antisym; [|apply square_nonneg].
      assert (S : rsum m (fun j => square (left_over q m (axis j))) = 0).
      { rewrite (rsum_ext m _ (fun j => 1 - rsum m (fun k => q j k ^ 2))) by (intros l Hl; apply left_over_axis; assumption). rewrite rsum_minus, T, rsum_const. ring. }
      rewrite <- S, <- (rsum_delta m j (fun j => square (left_over q m (axis j))) Hj). apply rsum_le. intros l _. destruct (l =? j)%nat; [lra|apply square_nonneg]. }
    assert (P : forall j, (j < m)%nat -> rsum m (fun k => q i k * q j k) = axis j i).
    { intros j Hj. pose proof (square_zero _ (Z j Hj) i Hi) as E. unfold left_over in E.
      rewrite (rsum_ext m _ (fun k => q i k * q j k)) in E by (intros k _; rewrite along_axis by exact Hj; reflexivity). lra. }
    unfold along. rewrite (rsum_ext m _ (fun k => rsum m (fun j => v j * (q i k * q j k)))) by (intros k _; rewrite <- rsum_scal; apply rsum_ext; intros; ring).
    rewrite rsum_swap, (rsum_ext m _ (fun j => if (j =? i)%nat then v j else 0)); [symmetry; apply rsum_delta; exact Hi|].
    intros j Hj. rewrite rsum_scal, (P j Hj). unfold axis. rewrite Nat.eqb_sym. destruct (j =? i)%nat; ring.
  Qed.

  Definition gram_schmidt (n : nat) : (nat -> nat -> R) * (nat -> nat -> R) := (basis n, fun k j => along (basis n) (fun i => a i j) k).

  Lemma gram_schmidt_decomposes n : decomposes m n a (fst (gram_schmidt n)) (snd (gram_schmidt n)).
  Proof.
    pose proof (basis_orthonormal n) as O. split; [exact O|]. intros i j Hi Hj. cbn [gram_schmidt fst snd].
    destruct (Nat.le_gt_cases m j) as [L|L].
    - rewrite Nat.min_l in O |- * by lia. apply (complete (basis n) (fun i => a i j) O i Hi).
    - destruct (next_spec (basis j) j (fun i => a i j)) as (_ & _ & c & C); [pose proof (basis_orthonormal j) as Oj; rewrite Nat.min_r in Oj by lia; exact Oj|exact L|].
      set (s := fun k => if (k =? j)%nat then c else if (k <? j)%nat then along (basis j) (fun i => a i j) k else 0).
      refine (span_projection (basis n) (Nat.min m n) (fun i => a i j) s O _ i Hi). clear i Hi. intros i Hi. cbv beta.
      rewrite (rsum_truncate (S j) (Nat.min m n)).
      + cbn [rsum]. unfold s at 2. rewrite Nat.eqb_refl, (basis_prefix (S j) n i j) by lia. cbn [basis]. cbv zeta.
        replace (j <? m)%nat with true by (symmetry; apply Nat.ltb_lt; exact L). rewrite Nat.eqb_refl.
        specialize (C i Hi). unfold left_over in C.
        rewrite (rsum_ext j (fun k => basis n i k * s k) (fun k => basis j i k * along (basis j) (fun i => a i j) k)); [lra|].
        intros k Hk. rewrite (basis_prefix j n i k) by lia. unfold s. replace (k =? j)%nat with false by (symmetry; apply Nat.eqb_neq; lia).
        replace (k <? j)%nat with true by (symmetry; apply Nat.ltb_lt; exact Hk). reflexivity.
      + lia.
      + intros k Hk. unfold s. replace (k =? j)%nat with false by (symmetry; apply Nat.eqb_neq; lia). replace (k <? j)%nat with false by (symmetry; apply Nat.ltb_ge; lia). ring.
  Qed.
End Orthonormal.
