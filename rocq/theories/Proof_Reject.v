(** Rejection sampling in the unit disc. *)
From Coq Require Import Reals Lra Lia List.
From Coquelicot Require Import Coquelicot.
From Verif Require Import Base Model_Numeric Model_Arrays Model_Shapes.
From Verif Require Import Spec_Gauss Spec_Disc Proof_Gauss Proof_Normals Proof_Disc Proof_Shapes.
Import ListNotations.
Local Open Scope R_scope.

(** Functions of a fixed number of normal numbers. *)
Lemma means_len n : forall f g m m', means n f m -> (forall u, length u = n -> f u = g u) -> m = m' -> means n g m'.
Proof.
  induction n as [|n IH]; cbn [means]; intros f g m m' H E <-.
  - rewrite <- E by reflexivity. exact H.
  - destruct H as (h & Hh & M). exists h. split; [|exact M]. intro u. eapply IH; [apply Hh| |reflexivity].
    intros l L. cbn beta. apply E. cbn. lia.
Qed.
Lemma means_const n a : means n (fun _ => a) a.
Proof. induction n as [|n IH]; cbn [means]; [reflexivity|]. exists (fun _ => a). split; [intro; exact IH|apply mean_const]. Qed.
Lemma means_scal n f a m : means n f m -> means n (fun u => a * f u) (a * m).
Proof.
  intro H. eapply means_eq; [apply (means_lin n _ _ a 0 _ _ H (means_const n 0))| |ring]. intro u. cbn. ring.
Qed.
Lemma means_app n N : forall f g m, (forall u, length u = n -> means N (fun l => f (u ++ l)) (g u)) -> means n g m -> means (n + N) f m.
Proof.
  induction n as [|n IH]; intros f g m H M; cbn [means Nat.add] in *.
  - rewrite <- M. exact (H [] eq_refl).
  - destruct M as (h & Hh & M). exists h. split; [|exact M]. intro u. apply (IH _ (fun l => g (u :: l))); [|apply Hh].
    intros l L. apply (H (u :: l)). cbn. lia.
Qed.

Section Disc.
Variable sigma : R.
Hypothesis Hs : 0 < sigma.
Definition bigger (e : C) : bool := ltb 1 (Cmod e).
Definition scaled (e : C) : C := Cmult e (RtoC sigma).

Lemma inside_disc u w : inside 1 (sigma * u, sigma * w) = disc (1 / sigma) u w.
Proof.
  unfold inside, disc, Cmod. cbn [fst snd].
  assert (E : (sigma * u) ^ 2 + (sigma * w) ^ 2 = sigma ^ 2 * (u ^ 2 + w ^ 2)) by ring.
  assert (Q : (1 / sigma) ^ 2 = 1 / sigma ^ 2) by (field; lra). assert (P : 0 < sigma ^ 2) by (apply pow_lt; lra).
  assert (X : sqrt ((sigma * u) ^ 2 + (sigma * w) ^ 2) <= 1 <-> u ^ 2 + w ^ 2 <= (1 / sigma) ^ 2).
  { rewrite E, Q. pose proof (pow2_ge_0 u). pose proof (pow2_ge_0 w). split; intro H1.
    - apply (Rmult_le_reg_l (sigma ^ 2)); [lra|]. replace (sigma ^ 2 * (1 / sigma ^ 2)) with 1 by (field; lra).
      rewrite <- (sqrt_sqrt (sigma ^ 2 * (u ^ 2 + w ^ 2))) by (apply Rmult_le_pos; lra). pose proof (sqrt_pos (sigma ^ 2 * (u ^ 2 + w ^ 2))). nra.
    - rewrite <- sqrt_1. apply sqrt_le_1_alt. apply (Rmult_le_compat_l (sigma ^ 2)) in H1; [|lra]. replace (sigma ^ 2 * (1 / sigma ^ 2)) with 1 in H1 by (field; lra). exact H1. }
  destruct (Rle_dec _ _) as [L|L], (Rle_dec (u ^ 2 + w ^ 2) _) as [M|M]; tauto.
Qed.
Lemma chance_gauss : disc_chance sigma = 1 - gauss (1 / sigma).
Proof. unfold disc_chance, gauss. f_equal. f_equal. field. lra. Qed.
Lemma chance_in_disc : in_disc sigma (fun _ => 1) (disc_chance sigma).
Proof.
  unfold in_disc. rewrite chance_gauss. eapply means_eq; [apply disc_one| |reflexivity].
  - apply Rlt_le, Rdiv_lt_0_compat; lra.
  - intro l. cbn beta zeta. rewrite inside_disc. ring.
Qed.
Lemma chance_bounds : 0 < disc_chance sigma < 1.
Proof.
  unfold disc_chance. assert (P : 0 < 1 / (2 * sigma ^ 2)) by (apply Rdiv_lt_0_compat; [lra|]; pose proof (pow_lt sigma 2 Hs); lra).
  pose proof (exp_pos (- (1 / (2 * sigma ^ 2)))). assert (exp (- (1 / (2 * sigma ^ 2))) < 1) by (apply (Rlt_le_trans _ (exp 0)); [apply exp_increasing; lra|rewrite exp_0; lra]). lra.
Qed.

(** What is expected of one value after [k] more numbers. *)
Definition later (k : nat) (q : R) : R := q / disc_chance sigma * (1 - (1 - disc_chance sigma) ^ k).
Definition weight (k : nat) (fq : (C -> R) * R) (e : C) : R := fst fq e * inside 1 e + (1 - inside 1 e) * later k (snd fq).
Fixpoint weights (k : nat) (fq : list ((C -> R) * R)) (e : list C) : R :=
  match fq, e with
  | [], [] => 1
  | f :: fq, x :: e => weight k f x * weights k fq e
  | _, _ => 0
  end.

Lemma later_S k q : q + (1 - disc_chance sigma) * later k q = later (S k) q.
Proof. unfold later. cbn [pow]. pose proof chance_bounds. field. lra. Qed.
Lemma scaled_pair u w : scaled (u, w) = (sigma * u, sigma * w).
Proof. unfold scaled, Cmult, RtoC. cbn [fst snd]. f_equal; ring. Qed.

Lemma weight_mean k f q : in_disc sigma f q -> exists g,
  (forall u, mean (fun w => weight k (f, q) (scaled (u, w))) (g u)) /\ mean g (later (S k) q).
Proof.
  intros (g1 & H1 & M1). destruct chance_in_disc as (g0 & H0 & M0).
  exists (fun u => g1 u + (1 - g0 u) * later k q). split.
  - intro u. destruct (H1 u) as (h1 & E1 & N1). destruct (H0 u) as (h0 & E0 & N0). cbn [means nth] in E1, E0.
    pose proof (mean_lin _ _ 1 (- later k q) _ _ N1 N0) as A. pose proof (mean_lin _ _ 1 1 _ _ A (mean_const (later k q))) as B.
    eapply mean_eq; [exact B| |ring]. intro w. cbn beta. rewrite <- (E1 w), <- (E0 w), scaled_pair. unfold weight. cbn [fst snd]. ring.
  - pose proof (mean_lin _ _ 1 (- later k q) _ _ M1 M0) as A. pose proof (mean_lin _ _ 1 1 _ _ A (mean_const (later k q))) as B.
    eapply mean_eq; [exact B| |]; [intro u; cbn beta; ring|]. rewrite <- later_S. ring.
Qed.

Lemma weights_mean k fq : Forall (fun f => in_disc sigma (fst f) (snd f)) fq -> exists g,
  (forall us, length us = length fq -> means (length fq) (fun ws => weights k fq (map scaled (combine us ws))) (g us)) /\
  means (length fq) g (product (map (fun f => later (S k) (snd f)) fq)).
Proof.
  induction 1 as [|[f q] fq Hf _ (g & Hg & Mg)]; cbn [length].
  - exists (fun _ => 1). split; [|reflexivity]. intros [|] L; [reflexivity|discriminate].
  - destruct (weight_mean k f q Hf) as (h & Hh & Mh).
    exists (fun us => match us with u :: us => h u * g us | [] => 0 end). split.
    + intros [|u us] L; [discriminate|]. cbn [means]. exists (fun w => weight k (f, q) (scaled (u, w)) * g us). split.
      * intro w. eapply means_eq; [apply (means_scal _ _ (weight k (f, q) (scaled (u, w))) _ (Hg us ltac:(cbn in L; lia)))| |reflexivity].
        intro ws. reflexivity.
      * eapply mean_eq; [apply (mean_scal _ (g us) _ (Hh u))| |ring]. intro w. cbn beta. ring.
    + cbn [means map product fold_right]. exists (fun u => h u * product (map (fun f => later (S k) (snd f)) fq)). split.
      * intro u. apply (means_scal _ g (h u)). exact Mg.
      * eapply mean_eq; [apply (mean_scal _ (product (map (fun f => later (S k) (snd f)) fq)) _ Mh)| |].
        -- intro u. cbn beta. ring.
        -- cbn [snd]. unfold product. ring.
Qed.

(** The values that are kept. *)
Fixpoint keep (fq : list ((C -> R) * R)) (e : list C) : R :=
  match fq, e with
  | f :: fq, x :: e => (if bigger x then 1 else fst f x) * keep fq e
  | _, _ => 1
  end.
Lemma bigger_inside x : inside 1 x = if bigger x then 0 else 1.
Proof.
  unfold inside, bigger. destruct (Rle_dec (Cmod x) 1) as [L|L].
  - rewrite (Proof_Numeric.ltb_false 1 (Cmod x)) by lra. reflexivity.
  - rewrite (Proof_Numeric.ltb_true 1 (Cmod x)) by lra. reflexivity.
Qed.
Lemma weights_overwrite k fq : forall e new, length e = length fq -> length new = length (filter (fun b => b) (map bigger e)) ->
  weights k fq (overwrite (map bigger e) e new) = keep fq e * weights k (pick (map bigger e) fq) new.
Proof.
  induction fq as [|f fq IH]; intros [|x e] new L N; try discriminate.
  - destruct new; [|discriminate]. cbn. ring.
  - unfold pick in *. cbn [map overwrite keep combine filter fst] in *. destruct (bigger x) eqn:B.
    + destruct new as [|v new]; [discriminate|]. cbn [map snd weights]. rewrite IH by (cbn in *; lia). ring.
    + cbn [weights]. rewrite IH by (cbn in *; lia). unfold weight. rewrite bigger_inside, B. ring.
Qed.
Lemma weights_keep k fq : forall e, length e = length fq ->
  weights k fq e = keep fq e * product (map (fun f => later k (snd f)) (pick (map bigger e) fq)).
Proof.
  induction fq as [|f fq IH]; intros [|x e] L; try discriminate.
  - cbn. ring.
  - unfold pick in *. cbn [weights map keep combine filter fst]. rewrite IH by (cbn in L; lia). unfold weight. rewrite bigger_inside.
    destruct (bigger x); cbn [map product fold_right snd]; unfold product; ring.
Qed.
Lemma weights_good k fq : forall e, length e = length fq -> existsb (fun b => b) (map bigger e) = false -> weights k fq e = each (map fst fq) e.
Proof.
  induction fq as [|f fq IH]; intros [|x e] L B; try discriminate.
  - reflexivity.
  - cbn [map existsb weights each] in *. apply Bool.orb_false_iff in B as [B1 B2]. rewrite IH by (cbn in L; auto with arith).
    unfold weight. rewrite bigger_inside, B1. ring.
Qed.
Lemma later_0 q : later 0 q = 0.
Proof. unfold later. cbn [pow]. ring. Qed.
Lemma weights_0 fq : forall e, length e = length fq -> existsb (fun b => b) (map bigger e) = true -> weights 0 fq e = 0.
Proof.
  induction fq as [|f fq IH]; intros [|x e] L B; try discriminate.
  cbn [map existsb weights] in *. unfold weight. rewrite bigger_inside, later_0. destruct (bigger x); cbn [orb] in B.
  - ring.
  - rewrite IH by (cbn in L; auto with arith). ring.
Qed.
Lemma pick_length {A} (e : list C) (a : list A) : length a = length e -> length (pick (map bigger e) a) = length (filter (fun b => b) (map bigger e)).
Proof.
  unfold pick. revert a. induction e as [|x e IH]; intros [|y a] L; try discriminate; [reflexivity|].
  cbn [map combine filter fst]. destruct (bigger x); cbn [map length]; rewrite IH by (cbn in L; lia); reflexivity.
Qed.
Lemma pick_Forall {A} (P : A -> Prop) b a : Forall P a -> Forall P (pick b a).
Proof.
  unfold pick. intro H. revert b. induction H as [|x a Hx H IH]; intros [|[] b]; cbn [combine filter fst map]; try constructor; cbn [snd]; auto.
Qed.

Lemma filter_overwrite e : forall new, length new = length (filter (fun b => b) (map bigger e)) ->
  (length (filter (fun b => b) (map bigger (overwrite (map bigger e) e new))) <= length new)%nat.
Proof.
  induction e as [|x e IH]; intros new N; [cbn; lia|]. cbn [map overwrite] in *. destruct (bigger x) eqn:B.
  - destruct new as [|v new]; [discriminate|]. cbn [map filter length] in *. specialize (IH new ltac:(lia)). destruct (bigger v); cbn [length]; lia.
  - cbn [map filter] in *. rewrite B. apply IH. exact N.
Qed.

Variables (K : list R -> R) (kappa : R) (N0 : nat).
Hypothesis HK : forall N, (N0 <= N)%nat -> means N K kappa.
Definition goes (fq : list ((C -> R) * R)) (r : result (list C * list R)) : R :=
  match r with Ok (e, s) => each (map fst fq) e * K s | Err _ => 0 end.

Lemma firstn_exact {A} (a b : list A) : firstn (length a) (a ++ b) = a /\ skipn (length a) (a ++ b) = b.
Proof. split; [rewrite firstn_app, Nat.sub_diag, firstn_all; cbn; apply app_nil_r|rewrite skipn_app, Nat.sub_diag, skipn_all; reflexivity]. Qed.

Lemma draw_complex us ws l : length us = length ws -> random_complex numbers (length us) (us ++ ws ++ l) = (combine us ws, l).
Proof.
  intro E. unfold random_complex, numbers. rewrite (proj1 (firstn_exact us _)), (proj2 (firstn_exact us _)).
  rewrite E, (proj1 (firstn_exact ws l)), (proj2 (firstn_exact ws l)). reflexivity.
Qed.

Lemma scaled_length us ws : length us = length ws -> length (map scaled (combine us ws)) = length us.
Proof. intro E. etransitivity; [apply map_length|]. etransitivity; [apply (combine_length us ws)|]. lia. Qed.
Lemma filter_le {A} (f : A -> bool) l : (length (filter f l) <= length l)%nat.
Proof. induction l as [|x l IH]; cbn; [lia|]. destruct (f x); cbn; lia. Qed.
Lemma redraw_means fuel : forall fq e N, Forall (fun f => in_disc sigma (fst f) (snd f)) fq -> length e = length fq ->
  (2 * length (filter (fun b => b) (map bigger e)) * fuel + N0 <= N)%nat ->
  means N (fun l => goes fq (redraw_complex numbers fuel sigma e l)) (weights fuel fq e * kappa).
Proof.
  induction fuel as [|fuel IH]; intros fq e N HF L HN.
  - cbn [redraw_complex]. fold bigger. change (map (fun e0 : C => ltb 1 (Cmod e0)) e) with (map bigger e).
    destruct (existsb (fun b => b) (map bigger e)) eqn:B.
    + rewrite weights_0 by assumption. eapply means_eq; [apply (means_const N 0)|reflexivity|ring].
    + rewrite (weights_good 0) by assumption. apply (means_scal N K). apply HK. lia.
  - cbn [redraw_complex]. change (map (fun e0 : C => ltb 1 (Cmod e0)) e) with (map bigger e).
    destruct (existsb (fun b => b) (map bigger e)) eqn:B.
    + set (m := length (filter (fun b => b) (map bigger e))) in *.
      set (fqb := pick (map bigger e) fq). assert (Lb : length fqb = m) by (apply pick_length; symmetry; exact L).
      destruct (weights_mean fuel fqb) as (g & Hg & Mg); [apply pick_Forall; exact HF|]. rewrite Lb in *.
      replace N with (m + (m + (N - m - m)))%nat by lia.
      apply (means_app m _ _ (fun us => keep fq e * kappa * g us)).
      * intros us Lu. apply (means_app m _ _ (fun ws => keep fq e * kappa * weights fuel fqb (map scaled (combine us ws)))).
        -- intros ws Lw. set (new := map scaled (combine us ws)).
           assert (Ln : length new = m) by (unfold new; rewrite scaled_length; lia).
           eapply means_eq; [apply (IH fq (overwrite (map bigger e) e new) (N - m - m)%nat HF)| |].
           ++ rewrite overwrite_length; [exact L|rewrite map_length; reflexivity|exact Ln].
           ++ pose proof (filter_overwrite e new Ln) as Q. rewrite Ln in Q. nia.
           ++ intro l. cbn beta. pose proof (draw_complex us ws l ltac:(lia)) as D. rewrite Lu in D. rewrite D. reflexivity.
           ++ rewrite weights_overwrite by (assumption || exact Ln). unfold fqb, new. ring.
        -- apply (means_scal m _ (keep fq e * kappa)). apply Hg. exact Lu.
      * eapply means_eq; [apply (means_scal m g (keep fq e * kappa) _ Mg)|reflexivity|].
        rewrite (weights_keep (S fuel)) by exact L. unfold fqb. ring.
    + rewrite (weights_good (S fuel)) by assumption. apply (means_scal N K). apply HK. lia.
Qed.

Lemma population_means fuel fq N : Forall (fun f => in_disc sigma (fst f) (snd f)) fq -> (2 * length fq * S fuel + N0 <= N)%nat ->
  means N (fun l => let '(e, s) := random_complex numbers (length fq) l in goes fq (redraw_complex numbers fuel sigma (map scaled e) s))
    (product (map (fun f => later (S fuel) (snd f)) fq) * kappa).
Proof.
  intros HF HN. set (m := length fq). destruct (weights_mean fuel fq HF) as (g & Hg & Mg). fold m in Hg, Mg.
  replace N with (m + (m + (N - m - m)))%nat by (unfold m; lia).
  apply (means_app m _ _ (fun us => kappa * g us)).
  - intros us Lu. apply (means_app m _ _ (fun ws => kappa * weights fuel fq (map scaled (combine us ws)))).
    + intros ws Lw. eapply means_eq; [apply (redraw_means fuel fq (map scaled (combine us ws)) (N - m - m) HF)| |].
      * rewrite scaled_length; unfold m in *; lia.
      * assert (Q : (length (filter (fun b => b) (map bigger (map scaled (combine us ws)))) <= m)%nat).
        { etransitivity; [apply filter_le|]. rewrite map_length, scaled_length; lia. }
        unfold m in *. nia.
      * intro l. cbn beta. pose proof (draw_complex us ws l ltac:(lia)) as D. rewrite Lu in D. rewrite D. reflexivity.
      * ring.
    + apply (means_scal m _ kappa). apply Hg. exact Lu.
  - eapply means_eq; [apply (means_scal m g kappa _ Mg)|reflexivity|ring].
Qed.
End Disc.
