(** Expected values of functions of many normal numbers. *)
From Coq Require Import Reals Lra Lia List.
From Coquelicot Require Import Coquelicot.
From Verif Require Import RSum Spec_Iternorm Spec_Transform Spec_Gauss Proof_Gauss.
Import ListNotations.
Local Open Scope R_scope.

Lemma means_eq n : forall f g m m', means n f m -> (forall u, f u = g u) -> m = m' -> means n g m'.
Proof.
  induction n as [|n IH]; cbn [means]; intros f g m m' H E <-.
  - rewrite <- E. exact H.
  - destruct H as (h & H & M). exists h. split; [|exact M]. intro u. eapply IH; [apply H|intro; apply E|reflexivity].
Qed.
Lemma means_unique n : forall f m m', means n f m -> means n f m' -> m = m'.
Proof.
  induction n as [|n IH]; cbn [means]; intros f m m'.
  - congruence.
  - intros (g & H & M) (g' & H' & M'). apply (mean_unique g'); [|exact M']. eapply mean_ext; [|exact M]. intro u. apply (IH _ _ _ (H u) (H' u)).
Qed.
Lemma means_lin n : forall f g a b m m', means n f m -> means n g m' -> means n (fun u => a * f u + b * g u) (a * m + b * m').
Proof.
  induction n as [|n IH]; cbn [means]; intros f g a b m m'.
  - intros <- <-. reflexivity.
  - intros (h & H & M) (h' & H' & M'). exists (fun u => a * h u + b * h' u). split; [|apply mean_lin; assumption].
    intro u. apply (IH (fun l => f (u :: l)) (fun l => g (u :: l))); [apply H|apply H'].
Qed.

Lemma combination_cons n a u l : combination (S n) a (u :: l) = a 0%nat * u + combination n (fun q => a (S q)) l.
Proof. unfold combination. rewrite rsum_S_l. reflexivity. Qed.
Lemma covariance_S n a b : covariance (S n) a b = a 0%nat * b 0%nat + covariance n (fun q => a (S q)) (fun q => b (S q)).
Proof. unfold covariance. rewrite rsum_S_l. reflexivity. Qed.

Lemma mean_quartic f m a b c d e : m = a + c + 3 * e -> (forall x, f x = a + b * x + c * x ^ 2 + d * x ^ 3 + e * x ^ 4) -> mean f m.
Proof. intros -> E. eapply mean_ext; [|apply (mean_poly a b c d e)]. intro x. symmetry. apply E. Qed.

Section Step.
Variables (f : R -> R -> R) (value : R -> R -> R -> R -> R -> R).
(** The expected value of [f] of two combinations, shifted by [x0] and [y0]. *)
Definition shifted : Prop := forall n a b x0 y0,
  means n (fun u => f (x0 + combination n a u) (y0 + combination n b u)) (value x0 y0 (covariance n a a) (covariance n b b) (covariance n a b)).

Lemma shifted_by : (forall x0 y0, value x0 y0 0 0 0 = f x0 y0) ->
  (forall x0 y0 v w c p q, mean (fun u => value (x0 + p * u) (y0 + q * u) v w c) (value x0 y0 (p * p + v) (q * q + w) (p * q + c))) -> shifted.
Proof.
  intros H0 HS n. induction n as [|n IH]; intros a b x0 y0.
  - cbn [means]. unfold combination, covariance. cbn [rsum]. rewrite !Rplus_0_r. symmetry. apply H0.
  - cbn [means]. rewrite !covariance_S.
    exists (fun u => value (x0 + a 0%nat * u) (y0 + b 0%nat * u) (covariance n (fun q => a (S q)) (fun q => a (S q)))
              (covariance n (fun q => b (S q)) (fun q => b (S q))) (covariance n (fun q => a (S q)) (fun q => b (S q)))).
    split; [|apply HS]. intro u. eapply means_eq; [apply (IH (fun q => a (S q)) (fun q => b (S q)))| |reflexivity].
    intro l. cbn beta. rewrite !combination_cons. f_equal; ring.
Qed.
End Step.

Lemma combinations_normal n a b :
  jointly_normal (fun f m => means n (fun u => f (combination n a u) (combination n b u)) m) (covariance n a a) (covariance n b b) (covariance n a b).
Proof.
  assert (Z : forall f value, shifted f value -> forall m, value 0 0 (covariance n a a) (covariance n b b) (covariance n a b) = m ->
    means n (fun u => f (combination n a u) (combination n b u)) m).
  { intros f value H m <-. eapply means_eq; [apply (H n a b 0 0)| |reflexivity]. intro u. cbn beta. rewrite !Rplus_0_l. reflexivity. }
  split.
  - intros f g m E H. eapply means_eq; [exact H|intro; apply E|reflexivity].
  - intros f g p q m m' H H'. apply (means_lin n (fun u => f (combination n a u) (combination n b u)) (fun u => g (combination n a u) (combination n b u)) p q m m' H H').
  - apply (Z (fun _ _ => 1) (fun _ _ _ _ _ => 1)); [|reflexivity]. apply shifted_by; [reflexivity|]. intros. apply mean_one.
  - apply (Z (fun x _ => x) (fun x _ _ _ _ => x)); [|reflexivity]. apply shifted_by; [reflexivity|]. intros x0 y0 v w c p q.
    apply (mean_quartic _ _ x0 p 0 0 0); [ring|intro; ring].
  - apply (Z (fun _ y => y) (fun _ y _ _ _ => y)); [|reflexivity]. apply shifted_by; [reflexivity|]. intros x0 y0 v w c p q.
    apply (mean_quartic _ _ y0 q 0 0 0); [ring|intro; ring].
  - apply (Z (fun x _ => x ^ 2) (fun x _ v _ _ => x ^ 2 + v)); [|ring]. apply shifted_by; [intros; ring|]. intros x0 y0 v w c p q.
    apply (mean_quartic _ _ (x0 ^ 2 + v) (2 * x0 * p) (p * p) 0 0); [ring|intro; ring].
  - apply (Z (fun _ y => y ^ 2) (fun _ y _ w _ => y ^ 2 + w)); [|ring]. apply shifted_by; [intros; ring|]. intros x0 y0 v w c p q.
    apply (mean_quartic _ _ (y0 ^ 2 + w) (2 * y0 * q) (q * q) 0 0); [ring|intro; ring].
  - apply (Z (fun x y => x * y) (fun x y _ _ c => x * y + c)); [|ring]. apply shifted_by; [intros; ring|]. intros x0 y0 v w c p q.
    apply (mean_quartic _ _ (x0 * y0 + c) (x0 * q + p * y0) (p * q) 0 0); [ring|intro; ring].
  - apply (Z (fun x y => x ^ 2 * y) (fun x y v _ c => x ^ 2 * y + v * y + 2 * x * c)); [|ring]. apply shifted_by; [intros; ring|]. intros x0 y0 v w c p q.
    apply (mean_quartic _ _ (x0 ^ 2 * y0 + v * y0 + 2 * x0 * c) (x0 ^ 2 * q + 2 * x0 * p * y0 + v * q + 2 * p * c)
             (p ^ 2 * y0 + 2 * x0 * p * q) (p ^ 2 * q) 0); [ring|intro; ring].
  - apply (Z (fun x y => x * y ^ 2) (fun x y _ w c => x * y ^ 2 + w * x + 2 * y * c)); [|ring]. apply shifted_by; [intros; ring|]. intros x0 y0 v w c p q.
    apply (mean_quartic _ _ (x0 * y0 ^ 2 + w * x0 + 2 * y0 * c) (y0 ^ 2 * p + 2 * y0 * q * x0 + w * p + 2 * q * c)
             (q ^ 2 * x0 + 2 * y0 * q * p) (q ^ 2 * p) 0); [ring|intro; ring].
  - apply (Z (fun x y => x ^ 2 * y ^ 2) (fun x y v w c => (x ^ 2 + v) * (y ^ 2 + w) + 4 * x * y * c + 2 * c ^ 2)); [|ring].
    apply shifted_by; [intros; ring|]. intros x0 y0 v w c p q.
    apply (mean_quartic _ _ ((x0 ^ 2 + v) * (y0 ^ 2 + w) + 4 * x0 * y0 * c + 2 * c ^ 2)
             ((x0 ^ 2 + v) * (2 * y0 * q) + 2 * x0 * p * (y0 ^ 2 + w) + 4 * (x0 * q + p * y0) * c)
             ((x0 ^ 2 + v) * q ^ 2 + 4 * x0 * p * y0 * q + p ^ 2 * (y0 ^ 2 + w) + 4 * p * q * c)
             (2 * x0 * p * q ^ 2 + 2 * y0 * q * p ^ 2) (p ^ 2 * q ^ 2)); [ring|intro; ring].
  - intros s t. apply (Z (fun x y => exp (s * x + t * y)) (fun x y v w c => exp (s * x + t * y + (s ^ 2 * v + 2 * s * t * c + t ^ 2 * w) / 2))).
    2:{ f_equal. field. }
    apply shifted_by; [intros; f_equal; field|]. intros x0 y0 v w c p q.
    eapply mean_eq; [apply (mean_scal _ (exp (s * x0 + t * y0 + (s ^ 2 * v + 2 * s * t * c + t ^ 2 * w) / 2)) _ (mean_exp (s * p + t * q)))| |].
    + intro u. cbn beta. rewrite <- exp_plus. f_equal. field.
    + rewrite <- exp_plus. f_equal. field.
  - intros t. apply (Z (fun x y => x * exp (t * y)) (fun x y _ w c => (x + t * c) * exp (t * y + t ^ 2 * w / 2))).
    2:{ rewrite Rplus_0_l. f_equal. f_equal. ring. }
    apply shifted_by; [intros; rewrite Rmult_0_r, Rplus_0_r; f_equal; f_equal; field|]. intros x0 y0 v w c p q.
    set (k := exp (t * y0 + t ^ 2 * w / 2)).
    eapply mean_eq; [apply (mean_lin _ _ ((x0 + t * c) * k) (p * k) _ _ (mean_exp (t * q)) (mean_x_exp (t * q)))| |].
    + intro u. cbn beta. replace (exp (t * (y0 + q * u) + t ^ 2 * w / 2)) with (k * exp (t * q * u)); [ring|].
      unfold k. rewrite <- exp_plus. f_equal. ring.
    + replace (exp (t * y0 + t ^ 2 * (q * q + w) / 2)) with (k * exp ((t * q) ^ 2 / 2)); [ring|].
      unfold k. rewrite <- exp_plus. f_equal. field.
  - intros t. apply (Z (fun x y => exp (t * x) * y) (fun x y v _ c => (y + t * c) * exp (t * x + t ^ 2 * v / 2))).
    2:{ rewrite Rplus_0_l. f_equal. f_equal. ring. }
    apply shifted_by; [intros; rewrite Rmult_0_r, Rplus_0_r, Rmult_comm; f_equal; f_equal; field|]. intros x0 y0 v w c p q.
    set (k := exp (t * x0 + t ^ 2 * v / 2)).
    eapply mean_eq; [apply (mean_lin _ _ ((y0 + t * c) * k) (q * k) _ _ (mean_exp (t * p)) (mean_x_exp (t * p)))| |].
    + intro u. cbn beta. replace (exp (t * (x0 + p * u) + t ^ 2 * v / 2)) with (k * exp (t * p * u)); [ring|].
      unfold k. rewrite <- exp_plus. f_equal. ring.
    + replace (exp (t * x0 + t ^ 2 * (p * p + v) / 2)) with (k * exp ((t * p) ^ 2 / 2)); [ring|].
      unfold k. rewrite <- exp_plus. f_equal. field.
Qed.

(** The generating function of moments of a combination. *)
Lemma combination_exp n a : means n (fun u => exp (combination n a u)) (exp (covariance n a a / 2)).
Proof.
  pose proof (expects_exp _ _ _ _ (combinations_normal n a a) 1 0) as H. cbn beta in H.
  eapply means_eq; [exact H| |]; [intro u; cbn beta; apply f_equal; ring|apply f_equal; field].
Qed.
