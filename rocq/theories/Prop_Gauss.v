(** Claims about transformations of Gaussian fields, with expected values as integrals (C22, C76). *)
From Coq Require Import Reals Lra.
From Verif Require Import Base Model_Numeric Model_Transform Spec_Transform Spec_Gauss Proof_Gauss Prop_Transform.
Local Open Scope R_scope.

(** C22, C76 *)

(** Any variances and any covariance that respects the Cauchy-Schwarz inequality belong to two jointly normal numbers,
    combinations of independent standard normal numbers; and no others do.  Their expected values are unique, and the
    facts that describe jointly normal numbers are true of them. *)
Theorem normal_numbers v1 v2 c :
  (0 <= v1 /\ 0 <= v2 /\ c ^ 2 <= v1 * v2 <-> exists p q r, v1 = p ^ 2 /\ v2 = q ^ 2 + r ^ 2 /\ c = p * q) /\
  (forall p q r, v1 = p ^ 2 -> v2 = q ^ 2 + r ^ 2 -> c = p * q -> jointly_normal (mean2 p q r) v1 v2 c) /\
  (forall p q r f m m', mean2 p q r f m -> mean2 p q r f m' -> m = m').
Proof.
  split; [|split].
  - split.
    + intros (H1 & H2 & H). destruct (Req_EM_T v1 0) as [->|N].
      * exists 0, 0, (sqrt v2). pose proof (pow2_sqrt v2 H2). assert (c = 0) by nra. repeat split; lra.
      * assert (P : 0 < sqrt v1) by (apply sqrt_lt_R0; lra). pose proof (pow2_sqrt v1 H1) as E.
        assert (B : 0 <= v2 - (c / sqrt v1) ^ 2).
        { replace ((c / sqrt v1) ^ 2) with (c ^ 2 / v1) by (rewrite <- E at 1; field; lra).
          assert (c ^ 2 / v1 <= v2); [|lra]. apply (Rmult_le_reg_r v1); [lra|]. unfold Rdiv. rewrite Rmult_assoc, Rinv_l by lra. lra. }
        exists (sqrt v1), (c / sqrt v1), (sqrt (v2 - (c / sqrt v1) ^ 2)). rewrite (pow2_sqrt _ B). split; [lra|]. split; [ring|]. field. lra.
    + intros (p & q & r & -> & -> & ->). pose proof (pow2_ge_0 p). pose proof (pow2_ge_0 q). pose proof (pow2_ge_0 r).
      pose proof (Rmult_le_pos _ _ H H1). split; [lra|]. split; [lra|]. replace ((p * q) ^ 2) with (p ^ 2 * q ^ 2) by ring. lra.
  - intros p q r -> -> ->. apply mean2_normal.
  - intros. eapply mean2_unique; eassumption.
Qed.
Print Assumptions normal_numbers.

(** The covariance of the transformed numbers is [corr] of the covariance of the normal numbers, and their expected
    value is zero; here the expected values are integrals. *)
Theorem corr_normal p q r t1 t2 f : variance t1 (p ^ 2) -> variance t2 (q ^ 2 + r ^ 2) -> corr t1 t2 = Ok f ->
  exists z, f (p * q) = Some z /\
    (forall m, mean2 p q r (fun x y => call t1 x (p ^ 2) * call t2 y (q ^ 2 + r ^ 2)) m <-> m = z) /\
    (forall m, mean2 p q r (fun x _ => call t1 x (p ^ 2)) m <-> m = 0) /\
    (forall m, mean2 p q r (fun _ y => call t2 y (q ^ 2 + r ^ 2)) m <-> m = 0).
Proof.
  intros V1 V2 C.
  destruct (corr_expectation _ t1 t2 _ _ _ f (mean2_normal p q r) V1 V2 C) as (z & Ez & Ep & E1 & E2).
  exists z. split; [exact Ez|].
  split; [|split]; intro m; (split; [intro H; eapply mean2_unique; eassumption|intros ->; assumption]).
Qed.
Print Assumptions corr_normal.

(** A standard normal number and its lognormal transformation are correlated. *)
Example corr_normal_example : mean2 1 1 0 (fun x y => x * call (Lognormal 2) y 1) 2 /\
  mean2 1 1 0 (fun x y => call (Lognormal 1) x 1 * call (Lognormal 1) y 1) (exp 1 - 1).
Proof.
  split.
  - destruct (corr_normal 1 1 0 Normal (Lognormal 2) _ I I eq_refl) as (z & E & H & _). injection E as <-.
    specialize (H 2). cbn [call] in H |- *. replace (1 ^ 2 + 0 ^ 2) with 1 in H by ring. apply H. ring.
  - destruct (corr_normal 1 1 0 (Lognormal 1) (Lognormal 1) _ I I eq_refl) as (z & E & H & _). injection E as <-.
    specialize (H (exp 1 - 1)). replace (1 ^ 2 + 0 ^ 2) with 1 in H by ring. replace (1 ^ 2) with 1 in H by ring. apply H.
    rewrite !Rmult_1_r. ring.
Qed.

Example normal_numbers_example : exists p q r, 4 = p ^ 2 /\ 1 = q ^ 2 + r ^ 2 /\ - 1 = p * q.
Proof. apply normal_numbers. lra. Qed.
