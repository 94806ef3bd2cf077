(** Proofs about the redshift weight functions. *)
From Coq Require Import Reals Lra Lia Psatz.
From Coquelicot Require Import Coquelicot.
From Verif Require Import Model_Weights Spec_Weights.
Open Scope R_scope.

Lemma inv_E_continuous E z : expansion E -> -1 < z -> continuous (fun x => / E x) z.
Proof.
  intros H Hz. destruct (H z Hz) as [P C].
  apply (continuous_comp E Rinv); [exact C|]. apply continuous_Rinv. lra.
Qed.

Lemma inv_E_integrable E a b : expansion E -> -1 < a -> -1 < b -> ex_RInt (fun x => / E x) a b.
Proof.
  intros H Ha Hb. apply (ex_RInt_continuous (V:=R_CompleteNormedModule)). intros z [Hz _].
  apply inv_E_continuous; [exact H|]. destruct (Rle_dec a b).
  - rewrite Rmin_left in Hz; lra.
  - rewrite Rmin_right in Hz; lra.
Qed.

Lemma distance_difference dh E dc a b : expansion E -> distance_of dh E dc -> -1 < a -> -1 < b ->
  dc b - dc a = dh * RInt (fun x => / E x) a b.
Proof.
  intros H D Ha Hb. rewrite (D a Ha), (D b Hb).
  rewrite <- (RInt_Chasles (fun x => / E x) 0 a b); [|apply inv_E_integrable; auto; lra..].
  change plus with Rplus. ring.
Qed.

Lemma distance_derive dh E dc z : expansion E -> distance_of dh E dc -> -1 < z ->
  is_derive dc z (dh * / E z).
Proof.
  intros H D Hz.
  apply (is_derive_ext_loc (fun z => dh * RInt (fun x => / E x) 0 z)).
  - assert (P : 0 < z - -1) by lra. exists (mkposreal _ P). intros y Hy. symmetry. apply D.
    unfold ball in Hy. simpl in Hy. unfold AbsRing_ball, abs, minus, plus, opp in Hy. simpl in Hy.
    apply Rabs_def2 in Hy. lra.
  - apply (is_derive_scal (fun z => RInt (fun x => / E x) 0 z) z dh).
    apply (is_derive_RInt (fun x => / E x) _ 0 z).
    + assert (P : 0 < z - -1) by lra. exists (mkposreal _ P). intros y Hy.
      apply (RInt_correct (V:=R_CompleteNormedModule)), inv_E_integrable; [exact H|lra|].
      unfold ball in Hy. simpl in Hy. unfold AbsRing_ball, abs, minus, plus, opp in Hy. simpl in Hy.
      apply Rabs_def2 in Hy. lra.
    + apply inv_E_continuous; assumption.
Qed.

Lemma area_continuous (S : R -> R) x : (forall y, continuous S y) -> continuous (fun y => 4 * PI * S y ^ 2) x.
Proof.
  intro C. apply (continuous_mult (fun _ => 4 * PI) (fun y => S y ^ 2)); [apply continuous_const|].
  apply (continuous_mult S (fun y => S y * 1)); [apply C|].
  apply (continuous_mult S (fun _ => 1)); [apply C|apply continuous_const].
Qed.

Lemma volume_derive (S : R -> R) x : (forall y, continuous S y) -> is_derive (volume S) x (4 * PI * S x ^ 2).
Proof.
  intro C. unfold volume. apply (is_derive_RInt (fun y => 4 * PI * S y ^ 2) _ 0 x).
  - exists (mkposreal 1 Rlt_0_1). intros y _. apply (RInt_correct (V:=R_CompleteNormedModule)), (ex_RInt_continuous (V:=R_CompleteNormedModule)).
    intros z _. apply area_continuous. exact C.
  - apply area_continuous. exact C.
Qed.

Lemma volume_flat x : volume (fun y => y) x = 4 * PI / 3 * x ^ 3.
Proof.
  unfold volume. apply is_RInt_unique.
  replace (4 * PI / 3 * x ^ 3) with (minus (4 * PI / 3 * x ^ 3) (4 * PI / 3 * 0 ^ 3))
    by (unfold minus, plus, opp; simpl; ring).
  apply (is_RInt_derive (fun y => 4 * PI / 3 * y ^ 3)).
  - intros y _. auto_derive; [trivial|]. field.
  - intros y _. apply area_continuous. intro. apply continuous_id.
Qed.

Lemma shell_volume dh E dc (S : R -> R) a b :
  expansion E -> distance_of dh E dc -> (forall y, continuous S y) -> -1 < a -> -1 < b ->
  is_RInt (fun z => 4 * PI * S (dc z) ^ 2 * (dh * / E z)) a b (volume S (dc b) - volume S (dc a)).
Proof.
  intros H D C Ha Hb.
  assert (B : forall z, Rmin a b <= z <= Rmax a b -> -1 < z).
  { intros z [Hz _]. destruct (Rle_dec a b); [rewrite Rmin_left in Hz|rewrite Rmin_right in Hz]; lra. }
  apply (is_RInt_derive (fun z => volume S (dc z))).
  - intros z Hz. rewrite Rmult_comm.
    apply (is_derive_comp (volume S) dc).
    + apply volume_derive. exact C.
    + apply (distance_derive dh E); auto.
  - intros z Hz.
    apply (continuous_mult (fun z => 4 * PI * S (dc z) ^ 2) (fun z => dh * / E z)).
    + apply (continuous_comp dc (fun y => 4 * PI * S y ^ 2)); [|apply area_continuous; exact C].
      apply (ex_derive_continuous (V:=R_NormedModule)). eexists. apply (distance_derive dh E); auto.
    + apply (continuous_mult (fun _ => dh) (fun z => / E z)); [apply continuous_const|].
      apply inv_E_continuous; auto.
Qed.

Lemma matter_lambda_pos Om z : 0 <= Om <= 1 -> -1 < z -> 0 < Om * (1 + z) ^ 3 + (1 - Om).
Proof.
  intros HO Hz. assert (P : 0 < (1 + z) ^ 3) by (apply pow_lt; lra).
  destruct (Req_dec Om 1) as [->|N]; [lra|].
  assert (0 <= Om * (1 + z) ^ 3) by (apply Rmult_le_pos; lra). lra.
Qed.

Lemma matter_lambda_expansion Om : 0 <= Om <= 1 -> expansion (matter_lambda_E Om).
Proof.
  intros HO z Hz. pose proof (matter_lambda_pos Om z HO Hz) as P. split.
  - unfold matter_lambda_E. apply sqrt_lt_R0. exact P.
  - unfold matter_lambda_E.
    apply (continuous_comp (fun z => Om * (1 + z) ^ 3 + (1 - Om)) sqrt).
    + apply (ex_derive_continuous (V:=R_NormedModule)). auto_derive. trivial.
    + apply continuous_sqrt.
Qed.

Lemma distance_positive dh E dc z : 0 < dh -> expansion E -> distance_of dh E dc -> 0 < z -> 0 < dc z.
Proof.
  intros Hh H D Hz. rewrite (D z) by lra. apply Rmult_lt_0_compat; [exact Hh|].
  apply RInt_gt_0; [exact Hz| |].
  - intros x Hx. apply Rinv_0_lt_compat. apply H. lra.
  - intros x Hx. apply inv_E_continuous; [exact H|lra].
Qed.
