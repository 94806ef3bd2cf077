(** Theorems about grids and bins with a given spacing in binary64 (C71). *)
From Coq Require Import ZArith Reals Lra Lia List.
From Flocq Require Import Core.
From Verif Require Import Base Model_SpectraFloat Proof_SpectraFloat Model_Windows Model_GridFloat
  Spec_Numeric Proof_GridFloat.
Import ListNotations.
Open Scope R_scope.

(** C71: the points of the grid are multiples of the spacing, and the last one lies between
    [zmax] and one step beyond it, up to rounding errors. *)
Theorem redshift_grid_float_close zmin zmax dz :
  0 <= zmin <= zmax -> bpow radix2 (-1022) <= dz -> zmax + dz <= 2 ^ 50 * dz ->
  let zs := redshift_grid_float zmin zmax dz in
  let err := / 2 ^ 53 * (4 * (zmax + dz) + 6 * INR (length zs) * (zmin + dz)) in
  starts_with zs zmin /\
  (forall k z, nth_error zs k = Some z ->
    Rabs (z - (zmin + INR k * dz)) <= 6 * / 2 ^ 53 * (INR k * (zmin + dz))) /\
  exists zlast, ends_with zs zlast /\ zmax - err <= zlast <= zmax + dz + err.
Proof.
  intros [H0 H1] H2 H3. cbv zeta. unfold redshift_grid_float. rewrite arange_points.
  destruct (grid_length zmin zmax dz H0 H1 H2 H3) as [N1 N2]. cbv zeta in N1, N2.
  set (n := Z.to_nat _) in *. rewrite map_length, seq_length.
  assert (P : forall k, (k < n)%nat -> nth_error (map (grid_point zmin dz) (seq 0 n)) k = Some (grid_point zmin dz k)).
  { intros k Hk. apply (map_nth_error (grid_point zmin dz)). rewrite nth_error_seq.
    destruct (Nat.ltb_spec k n); [reflexivity|lia]. }
  split; [unfold starts_with; rewrite P by lia; reflexivity|]. split.
  - intros k z Hz. assert (Hk : (k < n)%nat).
    { rewrite <- (seq_length n 0), <- (map_length (grid_point zmin dz)). apply nth_error_Some. congruence. }
    rewrite P in Hz by exact Hk. injection Hz as <-. exact (grid_point_close zmin dz k H0 H2).
  - exists (grid_point zmin dz (n - 1)). split.
    + unfold ends_with. rewrite map_length, seq_length. apply P. lia.
    + pose proof (grid_point_close zmin dz (n - 1) H0 H2) as G. apply Rabs_bounds in G.
      rewrite minus_INR in G by lia. change (INR 1) with 1 in G.
      pose proof (bpow_gt_0 radix2 (-1022)) as B.
      pose proof u64_small as [U0 _]. unfold u64 in *.
      assert (X : 0 <= / 2 ^ 53 * (zmin + dz)) by (apply Rmult_le_pos; lra).
      set (u := / 2 ^ 53) in *. clearbody u.
      replace (6 * u * ((INR n - 1) * (zmin + dz))) with
        (6 * (INR n * (u * (zmin + dz))) - 6 * (u * (zmin + dz))) in G by ring.
      replace (u * (4 * (zmax + dz) + 6 * INR n * (zmin + dz))) with
        (4 * u * (zmax + dz) + 6 * (INR n * (u * (zmin + dz)))) by ring.
      lra.
Qed.
Print Assumptions redshift_grid_float_close.

(** Spacings that are powers of two are exact. *)
Example redshift_grid_float_example :
  redshift_grid_float 0 1 (1 / 4) = [0; 1 / 4; 1 / 2; 3 / 4; 1].
Proof.
  unfold redshift_grid_float. rewrite arange_points.
  assert (E1 : rnd64 (1 + 1 / 4) = 5 / 4).
  { rewrite (rnd_value _ 5 4 5629499534213120 52 4503599627370496); [lra|lra|vm_compute; reflexivity]. }
  rewrite E1.
  assert (E2 : rnd64 (5 / 4 - 0) = 5 / 4).
  { rewrite (rnd_value _ 5 4 5629499534213120 52 4503599627370496); [lra|lra|vm_compute; reflexivity]. }
  rewrite E2.
  assert (E3 : rnd64 (5 / 4 / (1 / 4)) = 5).
  { rewrite (rnd_value _ 5 1 5629499534213120 50 1125899906842624); [lra|field|vm_compute; reflexivity]. }
  rewrite E3.
  assert (C : Zceil 5 = 5%Z) by (apply Zceil_imp; simpl; lra).
  rewrite C. change (Z.to_nat 5) with 5%nat. cbv [seq map grid_point].
  assert (E4 : rnd64 (0 + 1 / 4) = 1 / 4).
  { rewrite (rnd_value _ 1 4 4503599627370496 54 18014398509481984); [lra|lra|vm_compute; reflexivity]. }
  rewrite E4.
  assert (E5 : rnd64 (1 / 4 - 0) = 1 / 4).
  { rewrite (rnd_value _ 1 4 4503599627370496 54 18014398509481984); [lra|lra|vm_compute; reflexivity]. }
  rewrite E5.
  assert (E6 : rnd64 (INR 2 * (1 / 4)) = 1 / 2).
  { rewrite (rnd_value _ 1 2 4503599627370496 53 9007199254740992); [lra|simpl INR; lra|vm_compute; reflexivity]. }
  rewrite E6.
  assert (E7 : rnd64 (INR 3 * (1 / 4)) = 3 / 4).
  { rewrite (rnd_value _ 3 4 6755399441055744 53 9007199254740992); [lra|simpl INR; lra|vm_compute; reflexivity]. }
  rewrite E7.
  assert (E8 : rnd64 (INR 4 * (1 / 4)) = 1).
  { rewrite (rnd_value _ 1 1 4503599627370496 52 4503599627370496); [lra|simpl INR; lra|vm_compute; reflexivity]. }
  rewrite E8.
  assert (E9 : rnd64 (0 + 1 / 2) = 1 / 2).
  { rewrite (rnd_value _ 1 2 4503599627370496 53 9007199254740992); [lra|lra|vm_compute; reflexivity]. }
  rewrite E9.
  assert (E10 : rnd64 (0 + 3 / 4) = 3 / 4).
  { rewrite (rnd_value _ 3 4 6755399441055744 53 9007199254740992); [lra|lra|vm_compute; reflexivity]. }
  rewrite E10.
  assert (E11 : rnd64 (0 + 1) = 1).
  { rewrite (rnd_value _ 1 1 4503599627370496 52 4503599627370496); [lra|lra|vm_compute; reflexivity]. }
  rewrite E11.
  reflexivity.
Qed.

(** [rnd64 x] for a given rational number [x]: checked by computation. *)
Ltac rnd x p q m k d :=
  rewrite (rnd_value x p q m k d); [| |vm_compute; reflexivity].

(** [redshift_grid(0.0, 0.2, dz=0.1)] has four points and ends at 0.30000000000000004, more
    than a step beyond [zmax]. *)
Theorem redshift_grid_float_end_refuted :
  exists zmin zmax dz zlast,
    zmin = 0 /\ zmax = rnd64 (2 / 10) /\ dz = rnd64 (1 / 10) /\
    length (redshift_grid_float zmin zmax dz) = 4%nat /\
    ends_with (redshift_grid_float zmin zmax dz) zlast /\ zmax + dz < zlast.
Proof.
  exists 0, (rnd64 (2 / 10)), (rnd64 (1 / 10)), (5404319552844596 / 18014398509481984).
  split; [reflexivity|]. split; [reflexivity|]. split; [reflexivity|].
  unfold redshift_grid_float. rewrite arange_points.
  rnd (2 / 10) 1%Z 5%Z 7205759403792794%Z 55%Z 36028797018963968%Z; [|lra].
  rnd (1 / 10) 1%Z 10%Z 7205759403792794%Z 56%Z 72057594037927936%Z; [|lra].
  rnd (7205759403792794 / 36028797018963968 + 7205759403792794 / 72057594037927936) 10808639105689191%Z 36028797018963968%Z 5404319552844596%Z 54%Z 18014398509481984%Z; [|lra].
  rnd (5404319552844596 / 18014398509481984 - 0) 1351079888211149%Z 4503599627370496%Z 5404319552844596%Z 54%Z 18014398509481984%Z; [|lra].
  rnd (5404319552844596 / 18014398509481984 / (7205759403792794 / 72057594037927936)) 10808639105689192%Z 3602879701896397%Z 6755399441055745%Z 51%Z 2251799813685248%Z; [|field].
  assert (C : Zceil (6755399441055745 / 2251799813685248) = 4%Z) by (apply Zceil_imp; simpl; lra).
  rewrite C. change (Z.to_nat 4) with 4%nat.
  split; [reflexivity|]. split; [|lra].
  unfold ends_with. cbv [length seq map nth_error Nat.sub combine tl]. f_equal. cbv [grid_point].
  rnd (0 + 7205759403792794 / 72057594037927936) 3602879701896397%Z 36028797018963968%Z 7205759403792794%Z 56%Z 72057594037927936%Z; [|lra].
  rnd (7205759403792794 / 72057594037927936 - 0) 3602879701896397%Z 36028797018963968%Z 7205759403792794%Z 56%Z 72057594037927936%Z; [|lra].
  rnd (INR 3 * (7205759403792794 / 72057594037927936)) 10808639105689191%Z 36028797018963968%Z 5404319552844596%Z 54%Z 18014398509481984%Z; [|simpl INR; lra].
  rnd (0 + 5404319552844596 / 18014398509481984) 1351079888211149%Z 4503599627370496%Z 5404319552844596%Z 54%Z 18014398509481984%Z; [|lra].
  reflexivity.
Qed.
Print Assumptions redshift_grid_float_end_refuted.

(** [redshift_grid(0.0, 0.9, dz=0.3)] ends at 0.8999999999999999, before [zmax]. *)
Theorem redshift_grid_float_covers_refuted :
  exists zmin zmax dz zlast,
    zmin = 0 /\ zmax = rnd64 (9 / 10) /\ dz = rnd64 (3 / 10) /\
    ends_with (redshift_grid_float zmin zmax dz) zlast /\ zlast < zmax.
Proof.
  exists 0, (rnd64 (9 / 10)), (rnd64 (3 / 10)), (8106479329266892 / 9007199254740992).
  split; [reflexivity|]. split; [reflexivity|]. split; [reflexivity|].
  unfold redshift_grid_float. rewrite arange_points.
  rnd (9 / 10) 9%Z 10%Z 8106479329266893%Z 53%Z 9007199254740992%Z; [|lra].
  rnd (3 / 10) 3%Z 10%Z 5404319552844595%Z 54%Z 18014398509481984%Z; [|lra].
  rnd (8106479329266893 / 9007199254740992 + 5404319552844595 / 18014398509481984) 21617278211378381%Z 18014398509481984%Z 5404319552844595%Z 52%Z 4503599627370496%Z; [|lra].
  rnd (5404319552844595 / 4503599627370496 - 0) 5404319552844595%Z 4503599627370496%Z 5404319552844595%Z 52%Z 4503599627370496%Z; [|lra].
  rnd (5404319552844595 / 4503599627370496 / (5404319552844595 / 18014398509481984)) 4%Z 1%Z 4503599627370496%Z 50%Z 1125899906842624%Z; [|field].
  assert (C : Zceil (4503599627370496 / 1125899906842624) = 4%Z) by (apply Zceil_imp; simpl; lra).
  rewrite C. change (Z.to_nat 4) with 4%nat.
  split; [|lra].
  unfold ends_with. cbv [length seq map nth_error Nat.sub combine tl]. f_equal. cbv [grid_point].
  rnd (0 + 5404319552844595 / 18014398509481984) 5404319552844595%Z 18014398509481984%Z 5404319552844595%Z 54%Z 18014398509481984%Z; [|lra].
  rnd (5404319552844595 / 18014398509481984 - 0) 5404319552844595%Z 18014398509481984%Z 5404319552844595%Z 54%Z 18014398509481984%Z; [|lra].
  rnd (INR 3 * (5404319552844595 / 18014398509481984)) 16212958658533785%Z 18014398509481984%Z 8106479329266892%Z 53%Z 9007199254740992%Z; [|simpl INR; lra].
  rnd (0 + 8106479329266892 / 9007199254740992) 2026619832316723%Z 2251799813685248%Z 8106479329266892%Z 53%Z 9007199254740992%Z; [|lra].
  reflexivity.
Qed.
Print Assumptions redshift_grid_float_covers_refuted.

(** [fixed_zbins(1.4, 1.6, dz=0.1)] has three bins instead of two: the last one starts at
    [zmax] and ends at 1.7, although the end of the range is lowered to the next smaller
    number to prevent this. *)
Theorem fixed_zbins_float_end_refuted :
  exists zmin zmax dz lo hi,
    zmin = rnd64 (14 / 10) /\ zmax = rnd64 (16 / 10) /\ dz = rnd64 (1 / 10) /\
    length (fixed_zbins_float zmin zmax dz) = 3%nat /\
    ends_with (fixed_zbins_float zmin zmax dz) (lo, hi) /\ lo = zmax /\ zmax + dz <= hi.
Proof.
  exists (rnd64 (14 / 10)), (rnd64 (16 / 10)), (rnd64 (1 / 10)), (7205759403792794 / 4503599627370496), (7656119366529844 / 4503599627370496).
  split; [reflexivity|]. split; [reflexivity|]. split; [reflexivity|].
  unfold fixed_zbins_float.
  rnd (14 / 10) 7%Z 5%Z 6305039478318694%Z 52%Z 4503599627370496%Z; [|lra].
  rnd (16 / 10) 8%Z 5%Z 7205759403792794%Z 52%Z 4503599627370496%Z; [|lra].
  rnd (1 / 10) 1%Z 10%Z 7205759403792794%Z 56%Z 72057594037927936%Z; [|lra].
  rnd (7205759403792794 / 4503599627370496 + 7205759403792794 / 72057594037927936) 61248954932238749%Z 36028797018963968%Z 7656119366529844%Z 52%Z 4503599627370496%Z; [|lra].
  assert (Nx : nextafter_float (7656119366529844 / 4503599627370496) (7205759403792794 / 4503599627370496) = 7656119366529843 / 4503599627370496).
  { unfold nextafter_float. rewrite Rcompare_Gt by lra. exact (pred_is 7656119366529844 52 ltac:(lia) ltac:(lia)). }
  rewrite Nx. rewrite arange_points.
  rnd (7656119366529843 / 4503599627370496 - 6305039478318694 / 4503599627370496) 1351079888211149%Z 4503599627370496%Z 5404319552844596%Z 54%Z 18014398509481984%Z; [|lra].
  rnd (5404319552844596 / 18014398509481984 / (7205759403792794 / 72057594037927936)) 10808639105689192%Z 3602879701896397%Z 6755399441055745%Z 51%Z 2251799813685248%Z; [|field].
  assert (C : Zceil (6755399441055745 / 2251799813685248) = 4%Z) by (apply Zceil_imp; simpl; lra).
  rewrite C. change (Z.to_nat 4) with 4%nat.
  split; [reflexivity|]. split; [|split; [reflexivity|lra]].
  unfold ends_with, pairwise. cbv [length seq map nth_error Nat.sub combine tl]. f_equal. cbv [grid_point].
  rnd (6305039478318694 / 4503599627370496 + 7205759403792794 / 72057594037927936) 54043195528445949%Z 36028797018963968%Z 6755399441055744%Z 52%Z 4503599627370496%Z; [|lra].
  rnd (6755399441055744 / 4503599627370496 - 6305039478318694 / 4503599627370496) 225179981368525%Z 2251799813685248%Z 7205759403792800%Z 56%Z 72057594037927936%Z; [|lra].
  rnd (INR 2 * (7205759403792800 / 72057594037927936)) 225179981368525%Z 1125899906842624%Z 7205759403792800%Z 55%Z 36028797018963968%Z; [|simpl INR; lra].
  rnd (INR 3 * (7205759403792800 / 72057594037927936)) 675539944105575%Z 2251799813685248%Z 5404319552844600%Z 54%Z 18014398509481984%Z; [|simpl INR; lra].
  rnd (6305039478318694 / 4503599627370496 + 7205759403792800 / 36028797018963968) 3602879701896397%Z 2251799813685248%Z 7205759403792794%Z 52%Z 4503599627370496%Z; [|lra].
  rnd (6305039478318694 / 4503599627370496 + 5404319552844600 / 18014398509481984) 1914029841632461%Z 1125899906842624%Z 7656119366529844%Z 52%Z 4503599627370496%Z; [|lra].
  reflexivity.
Qed.
Print Assumptions fixed_zbins_float_end_refuted.
