(** Rejection loops for arrays of normal numbers. *)
From Coq Require Import Reals Lra Lia List.
From Coquelicot Require Import Coquelicot.
From Verif Require Import Base Model_Numeric Model_Arrays Model_Galaxies Model_Shapes.
From Verif Require Import Spec_Gauss Spec_Uniform Spec_Photoz Spec_Disc Spec_Shapes Spec_Truncated.
From Verif Require Import Proof_Gauss Proof_Normals Proof_Uniform Proof_Shapes Proof_Reject Proof_Poisson.
Import ListNotations.
Local Open Scope R_scope.

(** One entry: its normal number, which values are not accepted, a function of the accepted value, the probability to be
    accepted and the expected value. *)
Record item := { loc : R; dev : R; rej : R -> bool; tst : R -> R; cha : R; ave : R }.
Definition acc (i : item) (v : R) : R := if rej i v then 0 else 1.
Definition good (i : item) : Prop :=
  mean (fun u => acc i (loc i + dev i * u)) (cha i) /\ 0 < cha i /\
  mean (fun u => tst i (loc i + dev i * u) * acc i (loc i + dev i * u)) (ave i * cha i).

(** What is expected of one value after [k] more numbers. *)
Definition later (k : nat) (i : item) : R := ave i * (1 - (1 - cha i) ^ k).
Definition weight (k : nat) (i : item) (v : R) : R := tst i v * acc i v + (1 - acc i v) * later k i.
Fixpoint weights (k : nat) (its : list item) (vs : list R) : R :=
  match its, vs with
  | [], [] => 1
  | i :: its, v :: vs => weight k i v * weights k its vs
  | _, _ => 0
  end.
Definition drawn (its : list item) (us : list R) : list R := map (fun p => loc (fst p) + dev (fst p) * snd p) (combine its us).
Definition out (its : list item) (vs : list R) : list bool := map (fun p => rej (fst p) (snd p)) (combine its vs).

Lemma weight_mean k i : good i -> mean (fun u => weight k i (loc i + dev i * u)) (later (S k) i).
Proof.
  intros (M0 & _ & M1). pose proof (mean_lin _ _ 1 (- later k i) _ _ M1 M0) as A.
  pose proof (mean_lin _ _ 1 1 _ _ A (mean_const (later k i))) as B.
  eapply mean_eq; [exact B| |]; [intro u; unfold weight; ring|]. unfold later. cbn [pow]. ring.
Qed.
Lemma drawn_length its : forall us, length us = length its -> length (drawn its us) = length its.
Proof. intros us L. unfold drawn. rewrite map_length, combine_length. lia. Qed.
Lemma weights_mean k its : Forall good its -> means (length its) (fun us => weights k its (drawn its us)) (product (map (later (S k)) its)).
Proof.
  induction 1 as [|i its Hi _ IH]; cbn [length means]; [reflexivity|].
  exists (fun u => weight k i (loc i + dev i * u) * product (map (later (S k)) its)). split.
  - intro u. eapply means_eq; [apply (means_scal _ _ (weight k i (loc i + dev i * u)) _ IH)|reflexivity|reflexivity].
  - cbn [map product fold_right]. fold (product (map (later (S k)) its)).
    eapply mean_eq; [apply (mean_scal _ (product (map (later (S k)) its)) _ (weight_mean k i Hi))|intro; cbn beta; ring|ring].
Qed.

Lemma weights_good k its : forall vs, length vs = length its -> existsb (fun b => b) (out its vs) = false -> weights k its vs = times (map tst its) vs.
Proof.
  induction its as [|i its IH]; intros [|v vs] L B; try discriminate; [reflexivity|].
  unfold out in *. cbn [combine map existsb weights times fst snd] in *. apply Bool.orb_false_iff in B as [B1 B2].
  rewrite IH by (cbn in L; auto with arith). unfold weight, acc. rewrite B1. ring.
Qed.
Lemma weights_0 its : forall vs, length vs = length its -> existsb (fun b => b) (out its vs) = true -> weights 0 its vs = 0.
Proof.
  induction its as [|i its IH]; intros [|v vs] L B; try discriminate.
  unfold out in *. cbn [combine map existsb weights fst snd] in *. unfold weight, acc, later. cbn [pow].
  destruct (rej i v); cbn [orb] in B; [ring|]. rewrite IH by (cbn in L; auto with arith). ring.
Qed.

(** The values that are kept. *)
Fixpoint keep (its : list item) (vs : list R) : R :=
  match its, vs with
  | i :: its, v :: vs => (if rej i v then 1 else tst i v) * keep its vs
  | _, _ => 1
  end.
Lemma weights_keep k its : forall vs, length vs = length its ->
  weights k its vs = keep its vs * product (map (later k) (pick (out its vs) its)).
Proof.
  induction its as [|i its IH]; intros [|v vs] L; try discriminate; [cbn; ring|].
  unfold pick, out in *. cbn [combine map weights keep filter fst snd]. rewrite IH by (cbn in L; lia). unfold weight, acc.
  destruct (rej i v); cbn [map product fold_right snd]; unfold product; ring.
Qed.

Lemma standard_exact its us l : length us = length its ->
  standard (us ++ l) (map loc its) (map dev its) = (drawn its us, l).
Proof.
  intro E. unfold standard. rewrite map_length, <- E. rewrite (proj2 (firstn_exact us l)). f_equal.
  revert us E. induction its as [|i its IH]; intros [|u us] E; try discriminate; [destruct l; reflexivity|].
  unfold drawn in *. cbn [map combine app fst snd]. f_equal. apply IH. cbn in E. lia.
Qed.

(** * The loop that draws for all entries *)
Definition replaced (bad : list bool) (new old : list R) : list R :=
  map (fun p : bool * (R * R) => if fst p then fst (snd p) else snd (snd p)) (combine bad (combine new old)).
Lemma replaced_length bad new old : length bad = length old -> length new = length old -> length (replaced bad new old) = length old.
Proof. intros A B. unfold replaced. rewrite map_length, !combine_length. lia. Qed.
Lemma out_length is vs : length vs = length is -> length (out is vs) = length is.
Proof. intro L. unfold out. rewrite map_length, combine_length. lia. Qed.

Lemma weights_replaced k (is : list item) : Forall good is -> forall vs, length vs = length is ->
  means (length is) (fun us => weights k is (replaced (out is vs) (drawn is us) vs)) (weights (S k) is vs).
Proof.
  induction 1 as [|i is Hi _ IH]; intros [|v vs] L; try discriminate; cbn [length means]; [reflexivity|].
  exists (fun u => weight k i (if rej i v then loc i + dev i * u else v) * weights (S k) is vs). split.
  - intro u. eapply means_eq; [apply (means_scal _ _ (weight k i (if rej i v then loc i + dev i * u else v)) _ (IH vs ltac:(cbn in L; lia)))| |reflexivity].
    intro us. reflexivity.
  - cbn [weights]. destruct (rej i v) eqn:B.
    + eapply mean_eq; [apply (mean_scal _ (weights (S k) is vs) _ (weight_mean k i Hi))|intro; cbn beta; ring|].
      unfold weight, acc. rewrite B. ring.
    + eapply mean_eq; [apply mean_const|reflexivity|]. unfold weight, acc. rewrite B. ring.
Qed.

Section All.
Variables (its : list item) (los : list R) (ups : list (option R)).
Hypothesis Hgood : Forall good its.
Hypothesis Hrej : forall vs, length vs = length its ->
  map (fun p => outside (fst (fst p)) (snd (fst p)) (snd p)) (combine (combine los ups) vs) = out its vs.
Variables (K : list R -> list R -> R) (N0 : nat).
Hypothesis HK : forall e N, length e = length its -> existsb (fun b => b) (out its e) = false -> (N0 <= N)%nat ->
  means N (K e) (times (map tst its) e).

Definition carry (r : result (list R * list R)) : R := match r with Ok (e, s) => K e s | Err _ => 0 end.

Lemma redraw_all fuel : forall vs N, length vs = length its -> (length its * fuel + N0 <= N)%nat ->
  means N (fun l => carry (redraw standard fuel (map loc its) (map dev its) los ups vs l)) (weights fuel its vs).
Proof.
  induction fuel as [|fuel IH]; intros vs N L HN; cbn [redraw]; rewrite Hrej by exact L;
    destruct (existsb (fun b => b) (out its vs)) eqn:B.
  - rewrite weights_0 by assumption. apply (means_const N 0).
  - rewrite weights_good by assumption. apply HK; [exact L|exact B|lia].
  - set (m := length its) in *. replace N with (m + (N - m))%nat by lia.
    apply (means_app m _ _ (fun us => weights fuel its (replaced (out its vs) (drawn its us) vs))).
    + intros us Lu. eapply means_eq; [apply (IH (replaced (out its vs) (drawn its us) vs) (N - m)%nat)| |reflexivity].
      * rewrite replaced_length; [exact L|rewrite out_length; unfold m in *; lia|rewrite drawn_length; unfold m in *; lia].
      * lia.
      * intro l. cbn beta. rewrite standard_exact by exact Lu. reflexivity.
    + apply weights_replaced; assumption.
  - rewrite weights_good by assumption. apply HK; [exact L|exact B|lia].
Qed.
Lemma first_all fuel N : (length its * S fuel + N0 <= N)%nat ->
  means N (fun l => let '(vs, s) := standard l (map loc its) (map dev its) in
    carry (redraw standard fuel (map loc its) (map dev its) los ups vs s)) (product (map (later (S fuel)) its)).
Proof.
  intro HN. set (m := length its) in *. replace N with (m + (N - m))%nat by lia.
  apply (means_app m _ _ (fun us => weights fuel its (drawn its us))).
  - intros us Lu. eapply means_eq; [apply (redraw_all fuel (drawn its us) (N - m)%nat)| |reflexivity].
    + apply drawn_length. exact Lu.
    + unfold m in *. lia.
    + intro l. cbn beta. rewrite standard_exact by exact Lu. reflexivity.
  - apply weights_mean. exact Hgood.
Qed.
End All.

(** * The loop that draws only for the entries that are not accepted *)
Lemma pick_map {A B} (f : A -> B) b : forall a, pick b (map f a) = map f (pick b a).
Proof. unfold pick. induction b as [|[] b IH]; intros [|x a]; cbn [map combine filter fst snd]; try reflexivity; [f_equal|]; apply IH. Qed.
Lemma pick_out {A} (its : list item) : forall (a : list A) vs, length a = length its -> length vs = length its ->
  length (pick (out its vs) a) = length (filter (fun b => b) (out its vs)).
Proof.
  unfold pick, out. induction its as [|i its IH]; intros [|x a] [|v vs] L1 L2; try discriminate; [reflexivity|].
  cbn [combine map filter fst snd]. destruct (rej i v); cbn [map length]; rewrite IH by (cbn in *; lia); reflexivity.
Qed.
Lemma weights_overwrite k its : forall vs new, length vs = length its -> length new = length (filter (fun b => b) (out its vs)) ->
  weights k its (overwrite (out its vs) vs new) = keep its vs * weights k (pick (out its vs) its) new.
Proof.
  unfold pick, out. induction its as [|i its IH]; intros [|v vs] new L N; try discriminate.
  - destruct new; [|discriminate]. cbn. ring.
  - cbn [combine map overwrite keep filter fst snd] in *. destruct (rej i v) eqn:B.
    + destruct new as [|x new]; [discriminate|]. cbn [map snd weights]. rewrite IH by (cbn in *; lia). ring.
    + cbn [weights]. rewrite IH by (cbn in *; lia). unfold weight, acc. rewrite B. ring.
Qed.
Lemma filter_overwrite its : forall vs new, length vs = length its -> length new = length (filter (fun b => b) (out its vs)) ->
  (length (filter (fun b => b) (out its (overwrite (out its vs) vs new))) <= length new)%nat.
Proof.
  unfold out. induction its as [|i its IH]; intros [|v vs] new L N; try discriminate; [cbn; lia|].
  cbn [combine map overwrite fst snd] in *. destruct (rej i v) eqn:B.
  - destruct new as [|x new]; [discriminate|]. cbn [combine map filter fst snd length] in *. specialize (IH vs new ltac:(lia) ltac:(lia)).
    destruct (rej i x); cbn [length]; lia.
  - cbn [combine map filter fst snd] in *. rewrite B. apply IH; [cbn in L; lia|exact N].
Qed.
Lemma filter_some its vs : length vs = length its -> (length (filter (fun b => b) (out its vs)) <= length its)%nat.
Proof. intro L. etransitivity; [apply filter_le|]. unfold out. rewrite map_length, combine_length. lia. Qed.

Section Some.
Variables (reject : R -> bool) (its : list item).
Hypothesis Hgood : Forall good its.
Hypothesis Hrej : Forall (fun i => forall v, rej i v = reject v) its.
Variables (K : list R -> list R -> R) (N0 : nat).
Hypothesis HK : forall e N, length e = length its -> existsb (fun b => b) (out its e) = false -> (N0 <= N)%nat ->
  means N (K e) (times (map tst its) e).
Lemma out_map : forall vs, length vs = length its -> map reject vs = out its vs.
Proof.
  unfold out. clear - Hrej. induction its as [|i is IH]; intros [|v vs] L; try discriminate; [reflexivity|].
  inversion Hrej as [|? ? Hi H]; subst. cbn [map combine fst snd]. rewrite Hi. f_equal. apply (IH H). cbn in L. lia.
Qed.

Lemma redraw_some fuel : forall vs N, length vs = length its -> (length (filter (fun b => b) (out its vs)) * fuel + N0 <= N)%nat ->
  means N (fun l => carry K (redraw_normal standard reject fuel (map loc its) (map dev its) vs l)) (weights fuel its vs).
Proof.
  induction fuel as [|fuel IH]; intros vs N L HN; cbn [redraw_normal]; rewrite out_map by exact L;
    destruct (existsb (fun b => b) (out its vs)) eqn:B.
  - rewrite weights_0 by assumption. apply (means_const N 0).
  - rewrite weights_good by assumption. apply HK; [exact L|exact B|lia].
  - set (m := length (filter (fun b => b) (out its vs))) in *. set (bad := pick (out its vs) its).
    assert (Lb : length bad = m) by (apply pick_out; [reflexivity|exact L]).
    rewrite !pick_map. fold bad. replace N with (m + (N - m))%nat by lia.
    apply (means_app m _ _ (fun us => keep its vs * weights fuel bad (drawn bad us))).
    + intros us Lu. set (new := drawn bad us). assert (Ln : length new = m) by (unfold new; rewrite drawn_length; lia).
      eapply means_eq; [apply (IH (overwrite (out its vs) vs new) (N - m)%nat)| |].
      * rewrite overwrite_length; [exact L|rewrite (out_length its vs L); try (symmetry; exact L); exact L|exact Ln].
      * pose proof (filter_overwrite its vs new L Ln) as Q. rewrite Ln in Q. apply (Nat.mul_le_mono_r _ _ fuel) in Q. rewrite Nat.mul_succ_r in HN. lia.
      * intro l. cbn beta. rewrite standard_exact by lia. reflexivity.
      * rewrite weights_overwrite by assumption. reflexivity.
    + rewrite (weights_keep (S fuel)) by exact L. apply (means_scal m). unfold bad in *. rewrite <- Lb. apply weights_mean. apply pick_Forall. exact Hgood.
  - rewrite weights_good by assumption. apply HK; [exact L|exact B|lia].
Qed.
Lemma first_some fuel N : (length its * S fuel + N0 <= N)%nat ->
  means N (fun l => let '(vs, s) := standard l (map loc its) (map dev its) in
    carry K (redraw_normal standard reject fuel (map loc its) (map dev its) vs s)) (product (map (later (S fuel)) its)).
Proof.
  intro HN. set (m := length its) in *. replace N with (m + (N - m))%nat by lia.
  apply (means_app m _ _ (fun us => weights fuel its (drawn its us))).
  - intros us Lu. assert (Ld : length (drawn its us) = length its) by (apply drawn_length; exact Lu).
    eapply means_eq; [apply (redraw_some fuel (drawn its us) (N - m)%nat Ld)| |reflexivity].
    + pose proof (filter_some its (drawn its us) Ld) as Q. apply (Nat.mul_le_mono_r _ _ fuel) in Q. rewrite Nat.mul_succ_r in HN. unfold m in *. lia.
    + intro l. cbn beta. rewrite standard_exact by exact Lu. reflexivity.
  - apply weights_mean. exact Hgood.
Qed.
End Some.

(** * Several uniform numbers for every entry, drawn in batches *)
Fixpoint batches (d : nat) (vals : list (list R -> R)) (l : list R) : R :=
  match d with
  | O => product (map (fun v => v []) vals)
  | S d => batches d (map (fun p l => fst p (snd p :: l)) (combine vals (firstn (length vals) l))) (skipn (length vals) l)
  end.
Lemma batches_mean d : forall vals hs M, Forall2 (umeans d) vals hs -> (d * length vals <= M)%nat -> umeans M (batches d vals) (product hs).
Proof.
  induction d as [|d IH]; intros vals hs M H HM.
  - cbn [batches umeans] in *. assert (E : map (fun v : list R -> R => v []) vals = hs).
    { clear - H. induction H as [|v h vals hs H1 _ IH]; cbn; [reflexivity|]. f_equal; [exact H1|exact IH]. }
    rewrite E. apply umeans_const.
  - assert (G : exists gs, Forall2 (fun (g : R -> R) (h : R) => is_RInt g 0 1 h) gs hs /\
      Forall2 (fun (v : list R -> R) (g : R -> R) => forall a, 0 < a < 1 -> umeans d (fun l => v (a :: l)) (g a)) vals gs).
    { clear - H. induction H as [|v h vals hs (g & A & B) _ (gs & C1 & C2)]; [exists []; split; constructor|].
      exists (g :: gs). split; constructor; assumption. }
    destruct G as (gs & G1 & G2). set (n := length vals) in *. assert (Lg : length gs = n).
    { unfold n. clear - G2. induction G2; cbn; congruence. }
    replace M with (n + (M - n))%nat by lia. apply (umeans_app n _ _ (prod gs)).
    + intros us Lu Fu. cbn [batches]. fold n.
      apply (umeans_ext _ (batches d (map (fun p l => fst p (snd p :: l)) (combine vals us)))).
      * intros l _ _. rewrite <- Lu. rewrite (proj1 (firstn_exact us l)), (proj2 (firstn_exact us l)). reflexivity.
      * assert (Ep : prod gs us = product (map (fun p : (R -> R) * R => fst p (snd p)) (combine gs us))).
        { assert (L : length us = length gs) by congruence. clear - L. revert us L. induction gs as [|g gs IH]; intros [|u us] L; try discriminate; [reflexivity|].
          cbn [prod combine map product fold_right fst snd]. rewrite IH; [reflexivity|cbn in L; lia]. }
        rewrite Ep. apply IH.
        -- unfold n in Lu. clear - G2 Fu Lu. revert us Lu Fu. induction G2 as [|v g vals gs Hv _ IH]; intros [|u us] Lu Fu; try discriminate; [constructor|].
           inversion Fu; subst. cbn [combine map]. constructor; [apply Hv; assumption|]. apply IH; [cbn in Lu; lia|assumption].
        -- rewrite map_length, combine_length. fold n. rewrite Lu, Nat.min_id. cbn in HM. fold n in HM. lia.
    + rewrite <- Lg. apply umeans_prod. exact G1.
Qed.
