(** Floating point versions of C01 and C03. *)
From Coq Require Import ZArith Reals Lra Lia.
From Flocq Require Import Core.
From Verif Require Import Base Spec_Spectra Model_Spectra Proof_Spectra
  Model_SpectraFloat Spec_SpectraFloat Proof_SpectraFloat.
Open Scope R_scope.

(** C01 *)
Theorem inv_triangle_number_float_exact t n : (0 <= t < 2 ^ 103)%Z ->
  (inv_triangle_number_float t = Ok n <-> (0 <= n /\ 2 * t = n * (n + 1))%Z).
Proof. exact (inv_float_ok t n). Qed.
Print Assumptions inv_triangle_number_float_exact.

Theorem inv_triangle_number_float_rejects t : (0 <= t < 2 ^ 103)%Z ->
  (inv_triangle_number_float t = Err ValueError <->
   forall n, (0 <= n)%Z -> (2 * t <> n * (n + 1))%Z).
Proof. exact (inv_float_err t). Qed.
Print Assumptions inv_triangle_number_float_rejects.

Example float_triangle_case : (0 <= 5050 < 2 ^ 103)%Z /\ (2 * 5050 = 100 * (100 + 1))%Z.
Proof. lia. Qed.

(** The bound cannot be removed: with 2^52 + 2^26 - 1 fields the number of spectra is rejected. *)
Theorem inv_triangle_number_float_refuted :
  ~ forall t n, (0 <= n)%Z -> (2 * t = n * (n + 1))%Z -> inv_triangle_number_float t = Ok n.
Proof.
  intro H. set (n := (2 ^ 52 + 2 ^ 26 - 1)%Z). assert (E : (n * (n + 1) = 2 * (n * (n + 1) / 2))%Z) by reflexivity.
  assert (K : inv_triangle_number_float (n * (n + 1) / 2) = Ok n) by (apply H; [unfold n; lia|symmetry; exact E]).
  unfold inv_triangle_number_float in K. rewrite <- E in K. unfold n in K. rewrite floor_root_wrong in K.
  vm_compute in K. discriminate.
Qed.
Print Assumptions inv_triangle_number_float_refuted.

(** C03: for every platform [pow] that is faithfully rounded at exponent one half,
    the recovered row is the row of the documented order. *)
Theorem enumerate_spectra_float_row (pow_half : R -> R) (k i j : nat) :
  (forall x, 0 <= x -> faithful (sqrt x) (pow_half x)) ->
  (Z.of_nat k < 2 ^ 50)%Z -> in_order k i j ->
  row_of_counter_float pow_half (Z.of_nat k) = Z.of_nat i.
Proof.
  intros Hp Hk [H1 H2]. apply row_float; [exact Hp|lia|lia|nia].
Qed.
Print Assumptions enumerate_spectra_float_row.

(** Correct rounding is one such [pow]. *)
Example faithful_pow_exists : forall x, 0 <= x -> faithful (sqrt x) (rnd64 (sqrt x)).
Proof. intros x _. unfold faithful, rnd64. apply round_DN_or_UP. apply valid_rnd_N. Qed.

Example float_row_case : in_order 4 2 1 /\ (Z.of_nat 4 < 2 ^ 50)%Z.
Proof. unfold in_order; lia. Qed.

(** The bound cannot be removed, even for correct rounding: the last spectrum of row 2^27 is given to the next row. *)
Theorem enumerate_spectra_float_row_refuted :
  ~ forall k i j, in_order k i j -> row_of_counter_float (fun x => rnd64 (sqrt x)) (Z.of_nat k) = Z.of_nat i.
Proof.
  intro H. specialize (H (Z.to_nat (2 ^ 53 + 3 * 2 ^ 26)) (Z.to_nat (2 ^ 27)) 0%nat).
  rewrite !Z2Nat.id in H by lia. rewrite row_wrong in H.
  assert (K : (2 ^ 27 + 1)%Z = (2 ^ 27)%Z) by (apply H; split; lia). lia.
Qed.
Print Assumptions enumerate_spectra_float_row_refuted.
