(** Claims about least-squares partitions of functions over shells (C67, C68). *)
From Coq Require Import Reals Lra Lia List Arith Bool ZArith.
From Flocq Require Import Core.Generic_fmt Core.Round_NE.
From Verif Require Import Base RSum Model_Numeric Spec_Numeric Proof_Numeric Model_Arrays Model_Windows Model_Nnls Spec_Nnls Proof_Nnls Prop_Nnls
  Model_Partition Spec_Partition Proof_Partition.
Import ListNotations.
Local Open Scope R_scope.

(** C67 *)

(** The grid of the fit has all points of the function and the windows.  The weights of each function are the best of all:
    they fit the function on this grid and its integral, at relative precision [sumtol], not worse than any others. *)
Theorem partition_lstsq_optimal lstsq z fs shells sumtol w : shells <> [] -> z <> [] ->
  (forall m a b, minimises m (length shells) a b (lstsq m (length shells) a b)) ->
  (forall j wd, nth_error shells j = Some wd -> forall x, interp x (za wd) (wa wd) (Some 0) (Some 0) = Ok (w j x)) ->
  (forall f, In f fs -> length z = length f) ->
  exists zp, increasing zp /\ (forall x, In x zp <-> In x z \/ exists wd, In wd shells /\ In x (za wd)) /\
    let N := length zp in let at_ := fun k => nth k zp 0 in
    ((2 <= N)%nat -> (forall j, (j < length shells)%nat -> rule N at_ (w j) <> 0) ->
     exists out, partition_lstsq lstsq z fs shells sumtol = Ok out /\ length out = length shells /\ (forall row, In row out -> length row = length fs) /\
       forall i f F t, nth_error fs i = Some f -> (forall x, interp x z f (Some 0) (Some 0) = Ok (F x)) -> trapezoid f z = Ok t ->
         exists x, weights_of out i (length shells) x /\
           let bad := badness N at_ (length shells) w F t (Rmax sumtol (1 / 10000)) in
           (forall y, bad x <= bad y) /\
           (* the sum is near the integral if there is a good fit, and exact if there is an exact one *)
           (forall y, (rsum (length shells) x - t) ^ 2 <= Rmax sumtol (1 / 10000) ^ 2 * bad y) /\
           forall y, (forall k, (k < N)%nat -> rsum (length shells) (fun j => y j * (w j (at_ k) / rule N at_ (w j))) = F (at_ k)) -> rsum (length shells) y = t ->
             (forall k, (k < N)%nat -> rsum (length shells) (fun j => x j * (w j (at_ k) / rule N at_ (w j))) = F (at_ k)) /\ rsum (length shells) x = t).
Proof.
  intros Hs Hz Ho Hw Hf. set (n := length shells). set (zp := fit_grid z shells). exists zp. split; [apply fit_grid_increasing; exact Hs|]. split; [apply fit_grid_In|].
  intros N at_ H2 Hr. destruct (fit_system_ok z fs shells sumtol w Hs Hw Hf Hz H2 Hr) as (a & bs & Ea & Lb & A1 & A2 & B).
  eexists. unfold partition_lstsq. rewrite Ea. cbn [bind]. split; [reflexivity|]. fold n zp N. split; [rewrite map_length, seq_length; reflexivity|]. split.
  { intros row Hrow. apply in_map_iff in Hrow. destruct Hrow as (j & <- & _). rewrite map_length. exact Lb. }
  intros i f F t Hi HF Ht. destruct (B i f F t Hi HF Ht) as (b & Hb & B1 & B2). set (tol := Rmax sumtol (1 / 10000)).
  assert (Tp : 0 < tol) by (unfold tol; pose proof (Rmax_r sumtol (1 / 10000)); lra).
  exists (lstsq (N + 1)%nat n a b). split.
  { intros j Hj. eexists. split.
    - rewrite nth_error_map', nth_error_seq. destruct (Nat.ltb_spec j n) as [_|K]; [|lia]. reflexivity.
    - cbn beta. rewrite nth_error_map', Hb. reflexivity. }
  cbv zeta. fold n. set (bad := badness N at_ n w F t tol).
  assert (Op : forall y, bad (lstsq (N + 1)%nat n a b) <= bad y).
  { intro y. unfold bad, tol. rewrite <- !(system_badness z shells sumtol w a b F t _ A1 A2 B1 B2). apply Ho. }
  split; [exact Op|].
  assert (Pos : forall x, 0 <= rsum N (fun k => (width N at_ k * (rsum n (fun j => x j * (w j (at_ k) / rule N at_ (w j))) - F (at_ k))) ^ 2)) by (intro; apply rsum_nonneg; intros; apply pow2_ge_0).
  split.
  - intro y. set (x := lstsq (N + 1)%nat n a b) in *. assert (Q : ((rsum n x - t) / tol) ^ 2 <= bad y).
    { apply Rle_trans with (bad x); [|apply Op]. unfold bad, badness. specialize (Pos x). lra. }
    replace ((rsum n x - t) ^ 2) with (tol ^ 2 * ((rsum n x - t) / tol) ^ 2) by (field; lra). apply Rmult_le_compat_l; [apply pow2_ge_0|exact Q].
  - intros y Hy Hsy. set (x := lstsq (N + 1)%nat n a b) in *.
    assert (Z : bad x <= 0).
    { apply Rle_trans with (bad y); [apply Op|]. right. unfold bad, badness. rewrite Hsy, rsum_zero; [unfold Rdiv; ring|].
      intros k Hk. rewrite (Hy k Hk). ring. }
    unfold bad, badness in Z. pose proof (pow2_ge_0 ((rsum n x - t) / tol)) as P2. specialize (Pos x).
    assert (Sq : forall u, u ^ 2 <= 0 -> u = 0) by (intros u Hu; apply Rsqr_0_uniq; unfold Rsqr; pose proof (pow2_ge_0 u); lra).
    split.
    + intros k Hk. assert (Q : width N at_ k * (rsum n (fun j => x j * (w j (at_ k) / rule N at_ (w j))) - F (at_ k)) = 0).
      { apply Sq. apply Rle_trans with (rsum N (fun k => (width N at_ k * (rsum n (fun j => x j * (w j (at_ k) / rule N at_ (w j))) - F (at_ k))) ^ 2)); [|lra].
        rewrite <- (rsum_delta N k (fun k => (width N at_ k * (rsum n (fun j => x j * (w j (at_ k) / rule N at_ (w j))) - F (at_ k))) ^ 2) Hk) at 1.
        apply rsum_le. intros l _. destruct (l =? k)%nat; [lra|apply pow2_ge_0]. }
      apply Rmult_integral in Q. destruct Q as [Q|Q]; [|lra].
      pose proof (width_positive zp k (fit_grid_increasing shells z Hs) H2 Hk) as W. fold N in W. unfold at_ in Q. unfold entry in W. lra.
    + assert (Q : (rsum n x - t) / tol = 0) by (apply Sq; lra). apply Rmult_integral in Q. destruct Q as [Q|Q]; [lra|].
      pose proof (Rinv_0_lt_compat tol Tp). lra.
Qed.
Print Assumptions partition_lstsq_optimal.

Lemma increasing_ext : forall xs ys, increasing xs -> increasing ys -> (forall x, In x xs <-> In x ys) -> xs = ys.
Proof.
  induction xs as [|x xs IH]; intros [|y ys] Ix Iy H.
  - reflexivity.
  - destruct (proj2 (H y) (or_introl eq_refl)).
  - destruct (proj1 (H x) (or_introl eq_refl)).
  - pose proof (increasing_first x xs Ix) as Fx. pose proof (increasing_first y ys Iy) as Fy.
    assert (E : x = y).
    { destruct (proj1 (H x) (or_introl eq_refl)) as [E|I1]; [congruence|]. destruct (proj2 (H y) (or_introl eq_refl)) as [E|I2]; [congruence|].
      specialize (Fx _ I2). specialize (Fy _ I1). lra. }
    subst y. f_equal. apply IH; [eapply increasing_tail; exact Ix|eapply increasing_tail; exact Iy|].
    intro v. split; intro I.
    + destruct (proj1 (H v) (or_intror I)) as [<-|J]; [specialize (Fx _ I); lra|exact J].
    + destruct (proj2 (H v) (or_intror I)) as [<-|J]; [specialize (Fy _ I); lra|exact J].
Qed.

Lemma rule_linear N at_ n (c : nat -> R) (g : nat -> R -> R) : rule N at_ (fun x => rsum n (fun j => c j * g j x)) = rsum n (fun j => c j * rule N at_ (g j)).
Proof.
  unfold rule. rewrite (rsum_ext (N - 1) _ (fun k => rsum n (fun j => c j * ((g j (at_ k) + g j (at_ (S k))) / 2 * (at_ (S k) - at_ k))))).
  - rewrite rsum_swap. apply rsum_ext. intros j _. apply rsum_scal.
  - intros k _. rewrite <- rsum_plus. unfold Rdiv. rewrite <- !rsum_scal_r. apply rsum_ext. intros. ring.
Qed.

Lemma rule_ext N at_ f g : (forall k, (k < N)%nat -> f (at_ k) = g (at_ k)) -> rule N at_ f = rule N at_ g.
Proof. intro H. unfold rule. apply rsum_ext. intros k Hk. rewrite (H k), (H (S k)) by lia. reflexivity. Qed.

(** A function on a grid with all points of the windows that is a sum of them: its weights are found. *)
Theorem partition_lstsq_recovers lstsq z fs shells sumtol w : shells <> [] ->
  (forall m a b, minimises m (length shells) a b (lstsq m (length shells) a b)) ->
  (forall j wd, nth_error shells j = Some wd -> forall x, interp x (za wd) (wa wd) (Some 0) (Some 0) = Ok (w j x)) ->
  (forall f, In f fs -> length z = length f) ->
  increasing z -> (2 <= length z)%nat -> (forall wd x, In wd shells -> In x (za wd) -> In x z) ->
  let N := length z in let at_ := fun k => nth k z 0 in
  (forall j, (j < length shells)%nat -> rule N at_ (w j) <> 0) ->
  (forall v, (forall k, (k < N)%nat -> rsum (length shells) (fun j => v j * w j (at_ k)) = 0) -> forall j, (j < length shells)%nat -> v j = 0) ->
  exists out, partition_lstsq lstsq z fs shells sumtol = Ok out /\
    forall i f y, nth_error fs i = Some f ->
      (forall k, (k < N)%nat -> nth k f 0 = rsum (length shells) (fun j => y j * (w j (at_ k) / rule N at_ (w j)))) -> weights_of out i (length shells) y.
Proof.
  intros Hs Ho Hw Hf Iz H2 Sub N at_ Hr Ind. assert (Hz : z <> []) by (destruct z; [cbn in H2; lia|discriminate]).
  destruct (partition_lstsq_optimal lstsq z fs shells sumtol w Hs Hz Ho Hw Hf) as (zp & Ip & Pp & G).
  assert (zp = z).
  { apply increasing_ext; [exact Ip|exact Iz|]. intro x. rewrite Pp. split; [intros [H|(wd & I & H)]; [exact H|eapply Sub; eassumption]|auto]. }
  subst zp. cbv zeta in G. fold N in G. change (fun k => nth k z 0) with at_ in G. destruct (G H2 Hr) as (out & E & _ & _ & V). clear G. exists out. split; [exact E|].
  intros i f y Hi Hy. set (n := length shells) in *. pose proof (Hf f (nth_error_In _ _ Hi)) as Lf.
  set (F := interp_value z f (Some 0) (Some 0)). assert (HF : forall x, interp x z f (Some 0) (Some 0) = Ok (F x)) by (intro; apply interp_ok; assumption).
  assert (Fk : forall k, (k < N)%nat -> F (at_ k) = nth k f 0).
  { intros k Hk. apply (value_through z f (Some 0) (Some 0) Iz Lf k); apply nth_error_nth'; [exact Hk|rewrite <- Lf; exact Hk]. }
  assert (Ht : trapezoid f z = Ok (rule N at_ F)).
  { change (trapezoid f z = Ok (rule (length z) (entry z) F)). rewrite <- (rule_trapezoid F z). f_equal. apply nth_ext with (d := 0) (d' := F 0); [rewrite map_length; auto|]. intros k Hk. rewrite map_nth.
    symmetry. rewrite <- (Fk k) by (unfold N; lia). reflexivity. }
  destruct (V i f F _ Hi HF Ht) as (x & Wx & _ & _ & Ex). destruct (Ex y) as [X1 X2].
  - intros k Hk. rewrite (Fk k Hk). symmetry. apply Hy. exact Hk.
  - rewrite (rule_ext N at_ F (fun u => rsum n (fun j => y j / rule N at_ (w j) * w j u))).
    + rewrite rule_linear. apply rsum_ext. intros j Hj. field. apply Hr. exact Hj.
    + intros k Hk. rewrite (Fk k Hk), (Hy k Hk). apply rsum_ext. intros j Hj. field. apply Hr. exact Hj.
  - intros j Hj. replace (y j) with (x j); [apply Wx; exact Hj|].
    assert (D : (x j - y j) / rule N at_ (w j) = 0).
    { apply (Ind (fun j => (x j - y j) / rule N at_ (w j))); [|exact Hj]. intros k Hk.
      rewrite (rsum_ext n _ (fun j => x j * (w j (at_ k) / rule N at_ (w j)) - y j * (w j (at_ k) / rule N at_ (w j)))) by (intros l Hl; field; apply Hr; exact Hl).
      rewrite rsum_minus, (X1 k Hk), (Fk k Hk), (Hy k Hk). ring. }
    apply Rmult_integral in D. destruct D as [D|D]; [lra|]. exfalso. apply (Rinv_neq_0_compat _ (Hr j Hj)). exact D.
Qed.
Print Assumptions partition_lstsq_recovers.

(** C68 *)

(** Weights of the non-negative partition are not negative, and each positive weight is the best for the others; they are
    the best of all non-negative weights if the solver did not run into its limit of iterations. *)
Theorem partition_nnls_optimal qr solve fuel z fs shells sumtol w : shells <> [] -> z <> [] ->
  (forall m a, decomposes m (length shells) a (fst (qr m (length shells) a)) (snd (qr m (length shells) a))) ->
  (forall K, (K <= length shells)%nat -> correct K solve) ->
  (forall j wd, nth_error shells j = Some wd -> forall x, interp x (za wd) (wa wd) (Some 0) (Some 0) = Ok (w j x)) ->
  (forall f, In f fs -> length z = length f) ->
  exists zp, increasing zp /\ (forall x, In x zp <-> In x z \/ exists wd, In wd shells /\ In x (za wd)) /\
    let N := length zp in let at_ := fun k => nth k zp 0 in
    ((2 <= N)%nat -> (forall j, (j < length shells)%nat -> rule N at_ (w j) <> 0) ->
     forall out ends, partition_nnls qr solve fuel z fs shells sumtol = Ok (out, ends) ->
       length out = length shells /\ (forall row, In row out -> length row = length fs) /\ length ends = length fs /\
       forall i f F t, nth_error fs i = Some f -> (forall x, interp x z f (Some 0) (Some 0) = Ok (F x)) -> trapezoid f z = Ok t ->
         exists x e, weights_of out i (length shells) x /\ nth_error ends i = Some e /\ feasible (length shells) x /\
           let bad := badness N at_ (length shells) w F t (Rmax sumtol (1 / 10000)) in
           (forall j c, (j < length shells)%nat -> 0 < x j -> bad x <= bad (fun l => if (l =? j)%nat then c else x l)) /\
           (e <> Limit -> forall y, feasible (length shells) y -> bad x <= bad y)).
Proof.
  intros Hs Hz Hq Hc Hw Hf. set (n := length shells) in *. set (zp := fit_grid z shells). exists zp. split; [apply fit_grid_increasing; exact Hs|]. split; [apply fit_grid_In|].
  intros N at_ H2 Hr out ends. destruct (fit_system_ok z fs shells sumtol w Hs Hw Hf Hz H2 Hr) as (a & bs & Ea & Lb & A1 & A2 & B).
  unfold partition_nnls. rewrite Ea. cbn [bind]. fold n zp N. specialize (Hq (N + 1)%nat a).
  set (q := fst (qr (N + 1)%nat n a)) in *. set (r := snd (qr (N + 1)%nat n a)) in *. set (k := Nat.min (N + 1) n).
  set (y0 := fun b i => rsum (N + 1) (fun j => q j i * b j)).
  destruct (mapM _ bs) as [xs|] eqn:Em; [|discriminate]. cbn [bind]. intros [= <- <-]. apply mapM_ok in Em.
  assert (Lx : length xs = length fs) by (rewrite <- Lb; symmetry; clear - Em; induction Em; cbn; congruence).
  split; [rewrite map_length, seq_length; reflexivity|]. split.
  { intros row Hrow. apply in_map_iff in Hrow. destruct Hrow as (j & <- & _). rewrite map_length. exact Lx. }
  split; [rewrite map_length; exact Lx|].
  intros i f F t Hi HF Ht. destruct (B i f F t Hi HF Ht) as (b & Hb & B1 & B2). set (tol := Rmax sumtol (1 / 10000)).
  assert (exists p, nth_error xs i = Some p /\ nnls solve fuel [k; n] [k] r (y0 b) 0 None = Ok p) as ([x e] & Hx & En).
  { clear - Em Hb. revert i Hb. induction Em as [|b' p bs xs E Em IH]; intros [|i] Hb; try discriminate.
    - injection Hb as ->. exists p. auto.
    - apply (IH i Hb). }
  exists x, e. split.
  { intros j Hj. eexists. split.
    - rewrite nth_error_map', nth_error_seq. destruct (Nat.ltb_spec j n) as [_|K]; [|lia]. reflexivity.
    - cbn beta. rewrite nth_error_map', Hx. reflexivity. }
  split; [rewrite nth_error_map', Hx; reflexivity|].
  destruct (nnls_stationary solve k n r (y0 b) Hc fuel 0 None x e En) as [Fe St]. split; [exact Fe|].
  cbv zeta. set (bad := badness N at_ n w F t tol).
  assert (Bd : forall y, bad y = misfit k n r (y0 b) y + (rsum (N + 1) (fun i => b i ^ 2) - rsum k (fun p => y0 b p ^ 2))).
  { intro y. transitivity (misfit (N + 1) n a b y); [symmetry; apply (system_badness z shells sumtol w a b F t y A1 A2 B1 B2)|]. apply qr_misfit. exact Hq. }
  split.
  - intros j c Hj P. rewrite !Bd, (misfit_expand k n r (y0 b) x (fun l => if (l =? j)%nat then c else x l)).
    rewrite (rsum_zero n (fun l => slope k n r (y0 b) x l * _)).
    + match goal with |- ?u + ?v <= ?u + ?s + 2 * 0 + ?v => assert (0 <= s) by (apply rsum_nonneg; intros; apply pow2_ge_0); lra end.
    + intros l Hl. destruct (Nat.eqb_spec l j) as [->|Ne]; [rewrite (St j Hj P); ring|ring].
  - intros He y Fy. rewrite !Bd. pose proof (nnls_optimal solve k n r (y0 b) Hc fuel 0 None x e (Rle_refl 0) En He y Fy). lra.
Qed.
Print Assumptions partition_nnls_optimal.

(** The problem of three shells from 0 to 3 and a function on the first two, by its products of columns. *)
Section Three.
  Variable m : nat.
  Variable a : nat -> nat -> R.
  Variable b : nat -> R.
  Variable solve : nat -> (nat -> nat -> R) -> (nat -> R) -> option (nat -> R).
  Hypothesis solver : forall K, (K <= 3)%nat -> correct K solve /\ successful K solve.
  Let gram : nat -> nat -> R := rows [[90008 / 9; 30001 / 3; 10000]; [30001 / 3; 20001 / 2; 30001 / 3]; [10000; 30001 / 3; 90008 / 9]].
  Let moment : nat -> R := vector [30002; 60003 / 2; 90002 / 3].
  Hypothesis grams : forall j k, (j < 3)%nat -> (k < 3)%nat -> rsum m (fun i => a i j * a i k) = gram j k.
  Hypothesis moments : forall j, (j < 3)%nat -> rsum m (fun i => b i * a i j) = moment j.

  Lemma three_gradient x j : (j < 3)%nat -> gradient m 3 a b x j = moment j - rsum 3 (fun k => gram k j * x k).
  Proof.
    intro Hj. unfold gradient. rewrite (rsum_ext m _ (fun i => b i * a i j - rsum 3 (fun k => x k * (a i k * a i j))))
      by (intros i _; rewrite Rmult_minus_distr_r, <- rsum_scal_r; f_equal; apply rsum_ext; intros; ring).
    rewrite rsum_minus, (moments j Hj), rsum_swap. f_equal. apply rsum_ext. intros k Hk. rewrite rsum_scal, (grams k j Hk Hj). ring.
  Qed.

  Lemma three_solve l : (forall k, In k l -> (k < 3)%nat) -> (length l <= 3)%nat ->
    regular (length l) (fun k k' => gram (nth k l O) (nth k' l O)) ->
    exists s, solve (length l) (fun k k' => rsum m (fun i => a i (nth k l O) * a i (nth k' l O))) (fun k => rsum m (fun i => b i * a i (nth k l O))) = Some s /\
      forall k, (k < length l)%nat -> rsum (length l) (fun k' => gram (nth k l O) (nth k' l O) * s k') = moment (nth k l O).
  Proof.
    intros Hl Ll Rg. assert (In' : forall k, (k < length l)%nat -> (nth k l O < 3)%nat) by (intros k Hk; apply Hl; apply nth_In; exact Hk).
    destruct (proj2 (solver (length l) Ll) (fun k k' => rsum m (fun i => a i (nth k l O) * a i (nth k' l O))) (fun k => rsum m (fun i => b i * a i (nth k l O)))) as [s Es].
    { intros v Hv. apply Rg. intros k Hk. rewrite <- (Hv k Hk). apply rsum_ext. intros k' Hk'. rewrite grams by auto. reflexivity. }
    exists s. split; [exact Es|]. intros k Hk. rewrite <- (moments (nth k l O)) by auto. rewrite <- (proj1 (solver (length l) Ll) _ _ s Es k Hk).
    apply rsum_ext. intros k' Hk'. rewrite grams by auto. reflexivity.
  Qed.

  (** The systems with the first, the outer, and all shells in use. *)
  Lemma three_first q : q 0%nat = true -> q 1%nat = false -> q 2%nat = false -> exists s, restricted solve m 3 a b q = Some s /\ s 0%nat = 135009 / 45004.
  Proof.
    intros Q0 Q1 Q2. unfold restricted, selected. cbn [filter seq]. rewrite Q0, Q1, Q2.
    destruct (three_solve [0%nat]) as (s & Es & V); [intros k [<-|[]]; lia|cbn; lia|unfold gram, rows; cbn [length]; regular2|].
    exists s. split; [exact Es|]. specialize (V 0%nat ltac:(cbn; lia)). unfold gram, moment, rows, vector in V. cbn in V. lra.
  Qed.
  Lemma three_outer q : q 0%nat = true -> q 1%nat = false -> q 2%nat = true -> exists s, restricted solve m 3 a b q = Some s /\ s 0%nat = 9 / 4 /\ s 1%nat = 3 / 4.
  Proof.
    intros Q0 Q1 Q2. unfold restricted, selected. cbn [filter seq]. rewrite Q0, Q1, Q2.
    destruct (three_solve [0%nat; 2%nat]) as (s & Es & V); [intros k [<-|[<-|[]]]; lia|cbn; lia|unfold gram, rows; cbn [length]; regular2|].
    exists s. split; [exact Es|]. pose proof (V 0%nat ltac:(cbn; lia)) as V0. pose proof (V 1%nat ltac:(cbn; lia)) as V1. unfold gram, moment, rows, vector in V0, V1. cbn in V0, V1. lra.
  Qed.
  Lemma three_all q : q 0%nat = true -> q 1%nat = true -> q 2%nat = true ->
    exists s, restricted solve m 3 a b q = Some s /\ s 0%nat = 67503 / 50002 /\ s 1%nat = 45002 / 25001 /\ s 2%nat = - 3750 / 25001.
  Proof.
    intros Q0 Q1 Q2. unfold restricted, selected. cbn [filter seq]. rewrite Q0, Q1, Q2.
    destruct (three_solve [0%nat; 1%nat; 2%nat]) as (s & Es & V); [intros k [<-|[<-|[<-|[]]]]; lia|cbn; lia|unfold gram, rows; cbn [length]; regular2|].
    exists s. split; [exact Es|]. pose proof (V 0%nat ltac:(cbn; lia)) as V0. pose proof (V 1%nat ltac:(cbn; lia)) as V1. pose proof (V 2%nat ltac:(cbn; lia)) as V2.
    unfold gram, moment, rows, vector in V0, V1, V2. cbn in V0, V1, V2. lra.
  Qed.

  (** From the outer shells, the second shell is added and removed again. *)
  Lemma three_cycle fuel maxiter q x : (2 <= fuel)%nat -> q 0%nat = true -> q 1%nat = false -> q 2%nat = true ->
    x 0%nat = 9 / 4 -> x 1%nat = 0 -> x 2%nat = 3 / 4 ->
    exists x', outer solve maxiter fuel m 3 a b 0 q x = Ok (x', Limit) /\ x' 0%nat = 9 / 4 /\ x' 1%nat = 0 /\ x' 2%nat = 3 / 4.
  Proof.
    intro Hf. destruct fuel as [|[|fuel]]; [lia|lia|].
    revert q x. induction maxiter as [|maxiter IH]; intros q x Q0 Q1 Q2 X0 X1 X2; [exists x; auto|].
    cbn [outer]. unfold selected at 1. cbn [filter seq]. rewrite Q0, Q1, Q2. cbn [negb]. cbv zeta. cbn [first_max].
    assert (W : gradient m 3 a b x 1%nat = 1 / 2).
    { rewrite three_gradient by lia. unfold gram, moment, rows, vector. cbn [rsum nth]. rewrite X0, X1, X2. lra. }
    rewrite W, (leb_false (1 / 2) 0) by lra. remember (S fuel) as f1 eqn:Ef1. cbn [inner].
    set (q' := fun j => if (j =? 1)%nat then true else q j).
    destruct (three_all q' Q0 eq_refl Q2) as (s & -> & S0 & S1 & S2). cbv zeta.
    assert (R0 : rank q' 0 = 0%nat) by reflexivity. assert (R1 : rank q' 1 = 1%nat) by (unfold rank, selected, q'; cbn; rewrite Q0; reflexivity).
    assert (R2 : rank q' 2 = 2%nat) by (unfold rank, selected, q'; cbn; rewrite Q0; reflexivity).
    assert (Sel : selected 3 q' = [0; 1; 2]%nat) by (unfold selected, q'; cbn; rewrite Q0, Q2; reflexivity).
    rewrite Sel. cbn [filter]. rewrite R0, R1, R2, S0, S1, S2, (leb_false (67503 / 50002) 0), (leb_false (45002 / 25001) 0), (leb_true (- 3750 / 25001) 0) by lra.
    cbn [existsb map least]. rewrite R2, S2, X2. destruct (Req_EM_T (3 / 4 - - 3750 / 25001) 0) as [K|_]; [lra|]. cbn [orb].
    replace (3 / 4 / (3 / 4 - - 3750 / 25001)) with (25001 / 30001) by (field; lra).
    match goal with |- context [inner _ _ _ _ _ _ ?q ?x] => set (x1 := x); set (q1 := q) end.
    assert (P0 : q1 0%nat = true).
    { unfold q1. change (q' 0%nat) with (q 0%nat). rewrite Q0, R0, S0, X0. cbn [Nat.eqb]. cbv iota. rewrite leb_false by lra. reflexivity. }
    assert (P1 : q1 1%nat = false).
    { unfold q1. change (q' 1%nat) with true. cbv iota. rewrite R1, S1, X1. cbn [Nat.eqb]. cbv iota. rewrite leb_true by lra. reflexivity. }
    assert (P2 : q1 2%nat = true).
    { unfold q1. change (q' 2%nat) with (q 2%nat). rewrite Q2, R2, S2, X2. cbn [Nat.eqb]. cbv iota. rewrite leb_false by lra. reflexivity. }
    clearbody x1 q1. rewrite Ef1 in IH |- *. cbn [inner]. destruct (three_outer q1 P0 P1 P2) as (s' & -> & S0' & S1'). cbv zeta.
    assert (R0' : rank q1 0 = 0%nat) by reflexivity. assert (R2' : rank q1 2 = 1%nat) by (unfold rank, selected; cbn; rewrite P0, P1; reflexivity).
    assert (Sel' : selected 3 q1 = [0; 2]%nat) by (unfold selected; cbn; rewrite P0, P1, P2; reflexivity).
    rewrite Sel'. cbn [filter]. rewrite R0', R2', S0', S1', (leb_false (9 / 4) 0), (leb_false (3 / 4) 0) by lra. cbn [bind fst snd].
    apply IH; rewrite ?P0, ?P1, ?P2, ?R0', ?R2'; auto.
  Qed.

  Lemma three_nnls fuel maxiter : (2 <= fuel)%nat -> (2 <= maxiter)%nat ->
    exists x, nnls solve fuel [m; 3]%nat [m] a b 0 (Some maxiter) = Ok (x, Limit) /\ x 0%nat = 9 / 4 /\ x 1%nat = 0 /\ x 2%nat = 3 / 4.
  Proof.
    intros Hf Hm. pose proof Hf as Hf'. destruct fuel as [|fuel]; [lia|]. destruct maxiter as [|[|maxiter]]; [lia|lia|]. unfold nnls. rewrite Nat.eqb_refl.
    remember (S maxiter) as m1 eqn:Em1. cbn [outer selected filter seq negb]. cbv zeta.
    assert (W : gradient m 3 a b (fun _ => 0) 0%nat = 30002 /\ gradient m 3 a b (fun _ => 0) 1%nat = 60003 / 2 /\ gradient m 3 a b (fun _ => 0) 2%nat = 90002 / 3).
    { rewrite !three_gradient by lia. unfold moment, vector. cbn [rsum nth]. lra. }
    destruct W as (W0 & W1 & W2). cbn [first_max]. rewrite W0, W1, (ltb_false 30002 (60003 / 2)) by lra. rewrite W0, W2, (ltb_false 30002 (90002 / 3)) by lra.
    rewrite W0, (leb_false 30002 0) by lra. cbn [inner].
    set (q := fun j => if (j =? 0)%nat then true else false). destruct (three_first q eq_refl eq_refl eq_refl) as (s & -> & S0). cbv zeta.
    assert (R0 : rank q 0 = 0%nat) by reflexivity. change (selected 3 q) with [0%nat]. cbn [filter]. rewrite R0, S0, (leb_false (135009 / 45004) 0) by lra.
    cbn [bind fst snd]. rewrite Em1. cbn [outer]. change (selected 3 (fun j => negb (q j))) with [1; 2]%nat. cbv zeta. cbn [first_max].
    match goal with |- context [gradient m 3 a b ?u 1%nat] => set (x := u) end.
    assert (X0 : x 0%nat = 135009 / 45004) by (unfold x; cbn; exact S0). assert (X1 : x 1%nat = 0) by reflexivity. assert (X2 : x 2%nat = 0) by reflexivity.
    assert (V : gradient m 3 a b x 1%nat = 52503 / 45004 /\ gradient m 3 a b x 2%nat = 45002 / 33753).
    { rewrite !three_gradient by lia. unfold gram, moment, rows, vector. cbn [rsum nth]. rewrite X0, X1, X2. lra. }
    destruct V as [V1 V2]. rewrite V1, V2, (ltb_true (52503 / 45004) (45002 / 33753)) by lra. rewrite V2, (leb_false (45002 / 33753) 0) by lra. cbn [inner].
    set (q1 := fun j => if (j =? 2)%nat then true else q j). destruct (three_outer q1 eq_refl eq_refl eq_refl) as (s' & -> & S0' & S1'). cbv zeta.
    assert (R0' : rank q1 0 = 0%nat) by reflexivity. assert (R2' : rank q1 2 = 1%nat) by reflexivity. change (selected 3 q1) with [0; 2]%nat.
    cbn [filter]. rewrite R0', R2', S0', S1', (leb_false (9 / 4) 0), (leb_false (3 / 4) 0) by lra. cbn [bind fst snd].
    apply three_cycle; auto.
  Qed.
End Three.

Lemma unit_tophat k : exists e, tophat_window 1 None (INR k) (INR (S k)) = Ok (Window [INR k; INR (S k)] [1; 1] e).
Proof.
  unfold tophat_window. replace ((INR (S k) - INR k) / 1) with (IZR 1) by (rewrite S_INR; field).
  unfold samples. rewrite Zrnd_IZR by (apply valid_rnd_N). change (Z.to_nat (Z.max 1 2)) with 2%nat. unfold linspace. cbn [seq map Nat.sub apply_weight combine fst snd].
  replace (INR k + INR 0 * ((INR (S k) - INR k) / INR 1)) with (INR k) by (cbn [INR]; field).
  replace (INR k + INR 1 * ((INR (S k) - INR k) / INR 1)) with (INR (S k)) by (cbn [INR]; field).
  unfold trapezoid. cbn [length Nat.eqb combine bind]. eexists. reflexivity.
Qed.

Lemma unit_tophats : exists e0 e1 e2, tophat_windows [0; 1; 2; 3] 1 None = Ok ([Window [0; 1] [1; 1] e0; Window [1; 2] [1; 1] e1; Window [2; 3] [1; 1] e2], false).
Proof.
  destruct (unit_tophat 0) as [e0 E0]. destruct (unit_tophat 1) as [e1 E1]. destruct (unit_tophat 2) as [e2 E2]. cbn [INR] in E0, E1, E2.
  replace (1 + 1) with 2 in * by lra. replace (2 + 1) with 3 in * by lra.
  exists e0, e1, e2. unfold tophat_windows. cbn [length Nat.ltb Nat.leb index nth_error bind pairwise combine tl mapM fst snd]. rewrite E0, E1, E2. cbn [bind].
  destruct (Req_EM_T 0 0) as [_|K]; [reflexivity|lra].
Qed.

(** Evaluates interpolation at a number. *)
Ltac interpolate := unfold interp_value; cbn [combine interp_scan last_value];
  repeat first [rewrite ltb_true by lra | rewrite ltb_false by lra | rewrite leb_true by lra | rewrite leb_false by lra]; cbn [interp_scan];
  repeat first [rewrite ltb_true by lra | rewrite ltb_false by lra | rewrite leb_true by lra | rewrite leb_false by lra]; cbn [interp_scan];
  repeat first [rewrite ltb_true by lra | rewrite ltb_false by lra | rewrite leb_true by lra | rewrite leb_false by lra]; try reflexivity; try lra.

(** Three shells of width one, and the function with values 1, 2, 1 at 0, 1, 2: the second shell gets nothing, and the third
    shell, where the function is zero, gets a quarter.  The weights (7/5, 8/5, 0) fit much better. *)
Theorem partition_nnls_optimal_refuted qr solve fuel :
  (forall a, decomposes 5 3 a (fst (qr 5%nat 3%nat a)) (snd (qr 5%nat 3%nat a))) ->
  (forall K, (K <= 3)%nat -> correct K solve /\ successful K solve) -> (2 <= fuel)%nat ->
  exists shells w F, tophat_windows [0; 1; 2; 3] 1 None = Ok (shells, false) /\
    partition_nnls qr solve fuel [0; 1; 2] [[1; 2; 1]] shells (1 / 100) = Ok ([[9 / 4]; [0]; [3 / 4]], [Limit]) /\
    (forall j wd, nth_error shells j = Some wd -> forall x, interp x (za wd) (wa wd) (Some 0) (Some 0) = Ok (w j x)) /\
    (forall x, interp x [0; 1; 2] [1; 2; 1] (Some 0) (Some 0) = Ok (F x)) /\ trapezoid [1; 2; 1] [0; 1; 2] = Ok 3 /\
    let bad := badness 4 (fun k => nth k [0; 1; 2; 3] 0) 3 w F 3 (1 / 100) in
    bad (vector [9 / 4; 0; 3 / 4]) = 1 /\ bad (vector [7 / 5; 8 / 5; 0]) = 26 / 225.
Proof.
  intros Hq Hc Hf. destruct unit_tophats as (e0 & e1 & e2 & Et). set (shells := [Window [0; 1] [1; 1] e0; Window [1; 2] [1; 1] e1; Window [2; 3] [1; 1] e2]) in Et.
  set (w := fun j => match j with O => interp_value [0; 1] [1; 1] (Some 0) (Some 0) | 1%nat => interp_value [1; 2] [1; 1] (Some 0) (Some 0) | _ => interp_value [2; 3] [1; 1] (Some 0) (Some 0) end).
  set (F := interp_value [0; 1; 2] [1; 2; 1] (Some 0) (Some 0)).
  assert (Hw : forall j wd, nth_error shells j = Some wd -> forall x, interp x (za wd) (wa wd) (Some 0) (Some 0) = Ok (w j x)).
  { intros [|[|[|[|j]]]] wd H x; try discriminate; injection H as <-; apply interp_ok; (reflexivity || discriminate). }
  assert (HF : forall x, interp x [0; 1; 2] [1; 2; 1] (Some 0) (Some 0) = Ok (F x)) by (intro; apply interp_ok; (reflexivity || discriminate)).
  assert (Ht : trapezoid [1; 2; 1] [0; 1; 2] = Ok 3) by (unfold trapezoid; cbn; f_equal; lra).
  (* the grid *)
  assert (Eg : fit_grid [0; 1; 2] shells = [0; 1; 2; 3]).
  { apply increasing_ext; [apply fit_grid_increasing; discriminate| |].
    - repeat (apply increasing_two; [lra|]). apply increasing_one.
    - intro x. rewrite fit_grid_In. split.
      + intros [H|(wd & [<-|[<-|[<-|[]]]] & H)]; cbn in *; tauto.
      + intros [<-|[<-|[<-|[<-|[]]]]]; [left; cbn; tauto|left; cbn; tauto|left; cbn; tauto|].
        right. exists (Window [2; 3] [1; 1] e2). split; [cbn; tauto|cbn; tauto]. }
  (* the values of windows and function *)
  assert (W : (w 0%nat 0 = 1 /\ w 0%nat 1 = 1 /\ w 0%nat 2 = 0 /\ w 0%nat 3 = 0) /\ (w 1%nat 0 = 0 /\ w 1%nat 1 = 1 /\ w 1%nat 2 = 1 /\ w 1%nat 3 = 0) /\
    (w 2%nat 0 = 0 /\ w 2%nat 1 = 0 /\ w 2%nat 2 = 1 /\ w 2%nat 3 = 1)).
  { unfold w. repeat split; interpolate. }
  assert (V : F 0 = 1 /\ F 1 = 2 /\ F 2 = 1 /\ F 3 = 0) by (unfold F; repeat split; interpolate).
  clearbody w F. destruct W as ((W00 & W01 & W02 & W03) & (W10 & W11 & W12 & W13) & (W20 & W21 & W22 & W23)). destruct V as (V0 & V1 & V2 & V3).
  assert (R : rule 4 (entry [0; 1; 2; 3]) (w 0%nat) = 3 / 2 /\ rule 4 (entry [0; 1; 2; 3]) (w 1%nat) = 2 /\ rule 4 (entry [0; 1; 2; 3]) (w 2%nat) = 3 / 2).
  { unfold rule, entry. cbn [rsum Nat.sub nth]. rewrite W00, W01, W02, W03, W10, W11, W12, W13, W20, W21, W22, W23. repeat split; lra. }
  destruct R as (R0 & R1 & R2).
  assert (E0 : entry [0; 1; 2; 3] 0%nat = 0) by reflexivity. assert (E1 : entry [0; 1; 2; 3] 1%nat = 1) by reflexivity.
  assert (E2 : entry [0; 1; 2; 3] 2%nat = 2) by reflexivity. assert (E3 : entry [0; 1; 2; 3] 3%nat = 3) by reflexivity.
  assert (Rx : Rmax (1 / 100) (1 / 10000) = 1 / 100) by (apply Rmax_left; lra).
  exists shells, w, F. split; [exact Et|]. split; [|split; [exact Hw|split; [exact HF|split; [exact Ht|]]]].
  - destruct (fit_system_ok [0; 1; 2] [[1; 2; 1]] shells (1 / 100) w ltac:(discriminate) Hw) as (a & bs & Ea & Lb & A1 & A2 & B).
    + intros f [<-|[]]. reflexivity.
    + discriminate.
    + rewrite Eg. cbn. lia.
    + rewrite Eg. intros [|[|[|j]]] Hj; [..|cbn in Hj; lia]; cbn [length]; lra.
    + rewrite Eg in Ea, A1, A2, B. cbn [length] in Ea, A1, A2, B. rewrite Rx in A2, B.
      destruct (B 0%nat [1; 2; 1] F 3 eq_refl HF Ht) as (b & Hb & B1 & B2).
      destruct bs as [|b' [|]]; [discriminate| |discriminate]. injection Hb as ->.
      assert (A : forall k j, (k < 5)%nat -> (j < 3)%nat -> a k j = rows [[2 / 3; 0; 0]; [2 / 3; 1 / 2; 0]; [0; 1 / 2; 2 / 3]; [0; 0; 2 / 3]; [100; 100; 100]] k j).
      { assert (A' : forall k j, (k < 4)%nat -> (j < 3)%nat -> a k j = w j (entry [0; 1; 2; 3] k) / rule 4 (entry [0; 1; 2; 3]) (w j)).
        { intros k j Hk Hj. rewrite (A1 k j Hk Hj). replace (width 4 (entry [0; 1; 2; 3]) k) with 1; [ring|].
          destruct k as [|[|[|[|k]]]]; [..|lia]; unfold width, entry; cbn; lra. }
        intros k j Hk Hj. destruct (Nat.eq_dec k 4) as [->|Ne].
        - rewrite (A2 j Hj). destruct j as [|[|[|j]]]; [..|lia]; unfold rows; cbn; lra.
        - rewrite (A' k j) by lia. destruct k as [|[|[|[|k]]]]; [..|lia]; (destruct j as [|[|[|j]]]; [..|lia]); unfold rows; cbn [nth];
            rewrite ?R0, ?R1, ?R2, ?E0, ?E1, ?E2, ?E3, ?W00, ?W01, ?W02, ?W03, ?W10, ?W11, ?W12, ?W13, ?W20, ?W21, ?W22, ?W23; lra. }
      assert (Bv : b 0%nat = 1 /\ b 1%nat = 2 /\ b 2%nat = 1 /\ b 3%nat = 0 /\ b 4%nat = 300).
      { rewrite !B1, B2 by lia. unfold width, entry. cbn. rewrite V0, V1, V2, V3. repeat split; lra. }
      destruct Bv as (Bv0 & Bv1 & Bv2 & Bv3 & Bv4).
      pose proof (Hq a) as Dec. set (q := fst (qr 5%nat 3%nat a)) in *. set (r := snd (qr 5%nat 3%nat a)) in *.
      destruct (three_nnls (Nat.min 5 3) r (fun i => rsum 5 (fun j => q j i * b j)) solve Hc) with (fuel := fuel) (maxiter := 9%nat) as (x & En & X0 & X1 & X2); [| |exact Hf|lia|].
      * intros j k Hj Hk. rewrite (qr_gram_columns 5 3 a q r Dec j k Hj Hk). cbn [rsum]. rewrite !A by lia.
        destruct j as [|[|[|j]]]; [..|lia]; (destruct k as [|[|[|k]]]; [..|lia]); unfold rows; cbn [nth]; lra.
      * intros j Hj. rewrite (qr_moments 5 3 a q r Dec b j Hj). cbn [rsum]. rewrite Bv0, Bv1, Bv2, Bv3, Bv4, !A by lia.
        destruct j as [|[|[|j]]]; [..|lia]; unfold rows, vector; cbn [nth]; lra.
      * unfold partition_nnls. rewrite Ea. cbn [bind]. change (length shells) with 3%nat. change (4 + 1)%nat with 5%nat. change (Nat.min 5 3) with 3%nat. fold q r.
        change (nnls solve fuel [3%nat; 3%nat] [3%nat] r (fun i => rsum 5 (fun j => q j i * b j)) 0 None = Ok (x, Limit)) in En.
        cbn [mapM]. rewrite En. cbn [bind map seq fst snd]. rewrite X0, X1, X2. reflexivity.
  - intro bad. split.
    + unfold bad, badness. fold (entry [0; 1; 2; 3]). cbn [rsum]. rewrite R0, R1, R2. unfold width, entry, vector. cbn [Nat.eqb nth Nat.sub].
      rewrite V0, V1, V2, V3, W00, W01, W02, W03, W10, W11, W12, W13, W20, W21, W22, W23. field.
    + unfold bad, badness. fold (entry [0; 1; 2; 3]). cbn [rsum]. rewrite R0, R1, R2. unfold width, entry, vector. cbn [Nat.eqb nth Nat.sub].
      rewrite V0, V1, V2, V3, W00, W01, W02, W03, W10, W11, W12, W13, W20, W21, W22, W23. field.
Qed.
Print Assumptions partition_nnls_optimal_refuted.

Example partition_nnls_instance : exists shells, tophat_windows [0; 1; 2; 3] 1 None = Ok (shells, false) /\
  partition_nnls (fun m n a => gram_schmidt m a n) cramer 2 [0; 1; 2] [[1; 2; 1]] shells (1 / 100) = Ok ([[9 / 4]; [0]; [3 / 4]], [Limit]).
Proof.
  destruct (partition_nnls_optimal_refuted (fun m n a => gram_schmidt m a n) cramer 2) as (shells & _ & _ & Et & E & _); [| |lia|exists shells; auto].
  - intro a. apply gram_schmidt_decomposes.
  - intros K HK. split; [apply cramer_correct|apply cramer_successful; exact HK].
Qed.

(** C67, C68 The functions need a shell, and the grids of function and shells at least two points. *)
Theorem partition_rejects lstsq qr solve fuel z fs shells sumtol :
  shells = [] \/ (forall x y, In x z \/ (exists wd, In wd shells /\ In x (za wd)) -> In y z \/ (exists wd, In wd shells /\ In y (za wd)) -> x = y) ->
  partition_lstsq lstsq z fs shells sumtol = Err ValueError /\ partition_nnls qr solve fuel z fs shells sumtol = Err ValueError.
Proof.
  intro H. assert (E : fit_system z fs shells sumtol = Err ValueError).
  { unfold fit_system. destruct shells as [|s shells].
    - unfold central. destruct (length (fit_grid z []) <? 2)%nat; reflexivity.
    - destruct H as [H|H]; [discriminate|]. pose proof (fit_grid_increasing (s :: shells) z ltac:(discriminate)) as I.
      pose proof (fit_grid_In (s :: shells) z) as M. rewrite central_err; [reflexivity|].
      destruct (fit_grid z (s :: shells)) as [|x [|y l]]; [cbn; lia|cbn; lia|exfalso].
      specialize (I 0%nat x y eq_refl eq_refl). assert (x = y); [|lra]. apply H; apply M; cbn; auto. }
  unfold partition_lstsq, partition_nnls. rewrite E. split; reflexivity.
Qed.
Print Assumptions partition_rejects.

Example partition_rejects_example lstsq qr solve :
  partition_lstsq lstsq [0; 1] [[1; 1]] [] (1 / 100) = Err ValueError /\
  partition_nnls qr solve 5 [1] [[2]] [Window [1; 1] [1; 1] 1] (1 / 100) = Err ValueError.
Proof.
  split; [apply (partition_rejects lstsq qr solve 5); left; reflexivity|].
  apply (partition_rejects lstsq qr solve 5). right. intros x y [[<-|[]]|(w & [<-|[]] & [<-|[<-|[]]])] [[<-|[]]|(v & [<-|[]] & [<-|[<-|[]]])]; reflexivity.
Qed.

(** C67 Half of the first shell and twice the second one. *)
Example partition_lstsq_example : exists shells out, tophat_windows [0; 1; 2; 3] 1 None = Ok (shells, false) /\
  partition_lstsq (fun m n a b => project m a n b) [0; 1; 2; 3] [[1 / 3; 4 / 3; 1; 0]] shells (1 / 100) = Ok out /\ weights_of out 0 3 (vector [1 / 2; 2; 0]).
Proof.
  destruct unit_tophats as (e0 & e1 & e2 & Et). set (shells := [Window [0; 1] [1; 1] e0; Window [1; 2] [1; 1] e1; Window [2; 3] [1; 1] e2]) in Et.
  set (w := fun j => match j with O => interp_value [0; 1] [1; 1] (Some 0) (Some 0) | 1%nat => interp_value [1; 2] [1; 1] (Some 0) (Some 0) | _ => interp_value [2; 3] [1; 1] (Some 0) (Some 0) end).
  assert (W : (w 0%nat 0 = 1 /\ w 0%nat 1 = 1 /\ w 0%nat 2 = 0 /\ w 0%nat 3 = 0) /\ (w 1%nat 0 = 0 /\ w 1%nat 1 = 1 /\ w 1%nat 2 = 1 /\ w 1%nat 3 = 0) /\
    (w 2%nat 0 = 0 /\ w 2%nat 1 = 0 /\ w 2%nat 2 = 1 /\ w 2%nat 3 = 1)).
  { unfold w. repeat split; interpolate. }
  assert (Hw : forall j wd, nth_error shells j = Some wd -> forall x, interp x (za wd) (wa wd) (Some 0) (Some 0) = Ok (w j x)).
  { intros [|[|[|[|j]]]] wd H x; try discriminate; injection H as <-; apply interp_ok; (reflexivity || discriminate). }
  clearbody w. destruct W as ((W00 & W01 & W02 & W03) & (W10 & W11 & W12 & W13) & (W20 & W21 & W22 & W23)).
  assert (R : rule 4 (entry [0; 1; 2; 3]) (w 0%nat) = 3 / 2 /\ rule 4 (entry [0; 1; 2; 3]) (w 1%nat) = 2 /\ rule 4 (entry [0; 1; 2; 3]) (w 2%nat) = 3 / 2).
  { unfold rule, entry. cbn [rsum Nat.sub nth]. rewrite W00, W01, W02, W03, W10, W11, W12, W13, W20, W21, W22, W23. repeat split; lra. }
  destruct R as (R0 & R1 & R2).
  destruct (partition_lstsq_recovers (fun m n a b => project m a n b) [0; 1; 2; 3] [[1 / 3; 4 / 3; 1; 0]] shells (1 / 100) w) as (out & Eo & Wo).
  - discriminate.
  - intros m a b. apply project_minimises.
  - exact Hw.
  - intros f [<-|[]]. reflexivity.
  - repeat (apply increasing_two; [lra|]). apply increasing_one.
  - cbn. lia.
  - intros wd x [<-|[<-|[<-|[]]]]; cbn; tauto.
  - cbn [length]. fold (entry [0; 1; 2; 3]). intros [|[|[|j]]] Hj; [..|cbn in Hj; lia]; lra.
  - cbn [length]. intros v Hv. pose proof (Hv 0%nat ltac:(lia)) as X0. pose proof (Hv 2%nat ltac:(lia)) as X2. pose proof (Hv 3%nat ltac:(lia)) as X3.
    cbn [shells rsum nth length] in X0, X2, X3. rewrite W00, W10, W20 in X0. rewrite W02, W12, W22 in X2. rewrite W03, W13, W23 in X3.
    intros [|[|[|j]]] Hj; [..|cbn in Hj; lia]; lra.
  - exists shells, out. split; [exact Et|]. split; [exact Eo|]. apply (Wo 0%nat _ (vector [1 / 2; 2; 0]) eq_refl). cbn [length]. fold (entry [0; 1; 2; 3]).
    intros k Hk. cbn [shells rsum length]. rewrite R0, R1, R2. destruct k as [|[|[|[|k]]]]; [..|lia]; unfold entry, vector; cbn [nth];
      rewrite ?W00, ?W01, ?W02, ?W03, ?W10, ?W11, ?W12, ?W13, ?W20, ?W21, ?W22, ?W23; lra.
Qed.
