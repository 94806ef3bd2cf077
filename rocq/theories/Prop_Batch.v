(** Theorems about batched sampling of positions (C34, C35). *)
From Verif Require Import Base Model_Batch Spec_Batch Proof_Batch.

(** C34: one list of batches, reached for every sufficient fuel (the loop ends and
    its assertion holds), that lists all points in order within the limit. *)
Theorem positions_batches_complete npix2nside nside batch n :
  npix2nside (length n) = Ok nside ->
  exists bs, (forall fuel, 2 * length n < fuel ->
       sample_galaxies_per_pixel npix2nside fuel batch n = Ok bs) /\
    concat bs = all_points n /\ Forall (batch_within batch) bs.
Proof. exact (sample_terminates npix2nside nside batch n). Qed.
Print Assumptions positions_batches_complete.

(** Counts: the reported batch sizes add up, and pixel [i] receives [n_i] points. *)
Theorem positions_counts npix2nside fuel batch n bs nside :
  npix2nside (length n) = Ok nside -> 2 * length n < fuel ->
  sample_galaxies_per_pixel npix2nside fuel batch n = Ok bs ->
  fold_right Nat.add 0 (map (@length nat) bs) = fold_right Nat.add 0 n /\
  forall i, count_occ Nat.eq_dec (concat bs) i = nth i n 0.
Proof.
  intros H Hf E. destruct (sample_terminates npix2nside nside batch n H) as (bs' & E' & Hc & _).
  rewrite (E' fuel Hf) in E. injection E as <-. split.
  - pose proof (concat_length_sum bs') as Hl. rewrite Hc in Hl. unfold all_points in Hl.
    rewrite pixels_from_length in Hl. unfold list_sum in Hl. symmetry; exact Hl.
  - intro i. rewrite Hc. unfold all_points. rewrite count_occ_pixels by lia.
    rewrite Nat.sub_0_r. reflexivity.
Qed.
Print Assumptions positions_counts.

(** An invalid number of pixels is rejected by [npix2nside], but only if there is
    anything to sample. *)
Theorem positions_invalid_npix npix2nside fuel batch n e :
  npix2nside (length n) = Err e ->
  sample_galaxies_per_pixel npix2nside fuel batch n =
  if fold_right Nat.add 0 n =? 0 then Ok [] else Err e.
Proof.
  intro H. unfold sample_galaxies_per_pixel, list_sum.
  destruct (_ =? 0); [reflexivity|]. rewrite H. reflexivity.
Qed.
Print Assumptions positions_invalid_npix.

Example positions_example :
  sample_galaxies_per_pixel (fun _ => Ok 1) 25 5 [2; 0; 4; 9; 0; 1; 1; 1; 0; 0; 3; 0] =
  Ok [[0; 0]; [2; 2; 2; 2]; [3; 3; 3; 3; 3; 3; 3; 3; 3]; [5; 6; 7]; [10; 10; 10]].
Proof. reflexivity. Qed.

(** C35 *)
Theorem positions_no_empty_batch_refuted :
  exists n batch bs, 0 < batch /\
    sample_galaxies_per_pixel (fun _ => Ok 1) 25 batch n = Ok bs /\ In [] bs.
Proof.
  exists [0; 10; 0; 0; 0; 0; 0; 0; 0; 0; 0; 0], 5.
  eexists. split; [lia|]. split; [reflexivity|]. left. reflexivity.
Qed.
Print Assumptions positions_no_empty_batch_refuted.
