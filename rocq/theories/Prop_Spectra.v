(** Theorems about the order of two-point functions (C01, C02, C04 - C08). *)
From Verif Require Import Base Model_Spectra Spec_Spectra Proof_Spectra.
Require Import Permutation.

(** C01 *)
Theorem nfields_from_nspectra_exact t n :
  nfields_from_nspectra t = Ok n <-> triangle n t.
Proof. exact (nfields_ok t n). Qed.
Print Assumptions nfields_from_nspectra_exact.

Theorem nfields_from_nspectra_rejects t :
  nfields_from_nspectra t = Err ValueError <-> forall n, ~ triangle n t.
Proof. exact (nfields_err t). Qed.
Print Assumptions nfields_from_nspectra_rejects.

Example nfields_example : triangle 4 10 /\ nfields_from_nspectra 10 = Ok 4
  /\ nfields_from_nspectra 11 = Err ValueError.
Proof. repeat split. Qed.

(** C02 *)
Theorem enumerate_spectra_order {A} (entries : list A) :
  length (enumerate_spectra entries) = length entries /\
  forall k cl, nth_error entries k = Some cl ->
    exists i j, nth_error (enumerate_spectra entries) k = Some (i, j, cl) /\
                in_order k i j.
Proof.
  split; [apply enumerate_length|]. intros k cl H.
  rewrite enumerate_nth, H. eexists _, _. split; [reflexivity|].
  exact (proj2 (counter_in_order k)).
Qed.
Print Assumptions enumerate_spectra_order.

(** The Python expression [i * (i + 3) // 2 - k] is never negative. *)
Theorem enumerate_spectra_no_underflow k :
  k <= row_of_counter k * (row_of_counter k + 3) / 2.
Proof. exact (proj1 (counter_in_order k)). Qed.
Print Assumptions enumerate_spectra_no_underflow.

Theorem spectra_indices_order n :
  triangle n (length (spectra_indices n)) /\
  forall k i j, nth_error (spectra_indices n) k = Some (i, j) <-> i < n /\ in_order k i j.
Proof. split; [rewrite indices_length; apply tril_length | intros; apply indices_nth]. Qed.
Print Assumptions spectra_indices_order.

Theorem spectra_indices_every_pair_once n :
  NoDup (spectra_indices n) /\
  forall i j, In (i, j) (spectra_indices n) <-> j <= i < n.
Proof. split; [apply indices_NoDup | apply indices_In]. Qed.
Print Assumptions spectra_indices_every_pair_once.

Theorem enumerate_agrees_with_indices {A} (entries : list A) n :
  triangle n (length entries) ->
  map fst (enumerate_spectra entries) = spectra_indices n /\
  map snd (enumerate_spectra entries) = entries.
Proof. exact (enumerate_is_indices entries n). Qed.
Print Assumptions enumerate_agrees_with_indices.

Theorem getcl_returns_labelled_entry {A} (zero : A) cls i j cl :
  getcl zero cls i j None = Ok cl <->
  exists k, nth_error cls k = Some cl /\ in_order k (Nat.max i j) (Nat.min i j).
Proof. exact (getcl_none zero cls i j cl). Qed.
Print Assumptions getcl_returns_labelled_entry.

(** [getcl] and [enumerate_spectra] agree: the entry labelled (i,j) is the one
    returned, and the only error is IndexError, exactly when a field is missing. *)
Theorem getcl_agrees_with_enumerate {A} (zero : A) cls n i j :
  triangle n (length cls) ->
  (Nat.max i j < n ->
     exists cl, getcl zero cls i j None = Ok cl /\
                In (Nat.max i j, Nat.min i j, cl) (enumerate_spectra cls)) /\
  (n <= Nat.max i j -> getcl zero cls i j None = Err IndexError).
Proof.
  intro Hn.
  pose proof (in_order_exists (Nat.max i j) (Nat.min i j) ltac:(lia)) as Ho.
  set (k := Nat.max i j * (Nat.max i j + 1) / 2 + Nat.max i j - Nat.min i j) in *.
  pose proof (in_order_lt _ _ _ _ _ Hn Ho) as Hlt. split; intro H.
  - destruct (nth_error cls k) as [cl|] eqn:E.
    + exists cl. split; [apply getcl_none; exists k; auto|].
      apply nth_error_In with k.
      destruct (enumerate_spectra_order cls) as [_ He].
      destruct (He k cl E) as (a & b & E1 & E2). rewrite E1.
      destruct (in_order_fun _ _ _ _ _ E2 Ho) as [-> ->]. reflexivity.
    + apply nth_error_None in E. apply Hlt in H. lia.
  - destruct (getcl_none_err zero cls i j) as [[cl E]|E]; [|exact E].
    apply getcl_none in E as (k' & E & Ho').
    rewrite (in_order_inj _ _ _ _ Ho' Ho) in E.
    assert (k < length cls) by (apply nth_error_Some; congruence). apply Hlt in H0. lia.
Qed.
Print Assumptions getcl_agrees_with_enumerate.

Theorem getcl_symmetric {A} (zero : A) cls i j lmax :
  getcl zero cls i j lmax = getcl zero cls j i lmax.
Proof. exact (getcl_swap zero cls i j lmax). Qed.
Print Assumptions getcl_symmetric.

Example getcl_example :
  triangle 3 (length [[0]; [11]; [10]; [22]; [21]; [20; 5]]) /\
  getcl 0 [[0]; [11]; [10]; [22]; [21]; [20; 5]] 0 2 None = Ok [20; 5] /\
  getcl 0 [[0]; [11]; [10]; [22]; [21]; [20; 5]] 2 0 (Some 3) = Ok [20; 5; 0; 0] /\
  enumerate_spectra [7; 8; 9; 10] = [(0,0,7); (1,1,8); (1,0,9); (2,2,10)].
Proof. repeat split. Qed.

(** C04 *)
Theorem getcl_length_contract {A} (zero : A) cls i j lmax cl :
  getcl zero cls i j None = Ok cl ->
  exists out, getcl zero cls i j (Some lmax) = Ok out /\ length out = lmax + 1 /\
    forall l, l <= lmax ->
      nth_error out l = Some (match nth_error cl l with Some c => c | None => zero end).
Proof.
  intro H. rewrite getcl_lmax, H. cbn [bind]. eexists. split; [reflexivity|].
  split; [apply pad_length|]. intros l Hl. rewrite pad_nth.
  rewrite (proj2 (Nat.leb_le _ _) Hl). f_equal.
  destruct (nth_error cl l) eqn:E.
  - apply nth_error_nth; exact E.
  - apply nth_overflow. apply nth_error_None; exact E.
Qed.
Print Assumptions getcl_length_contract.

Theorem getcl_missing_entry {A} (zero : A) cls i j lmax e :
  getcl zero cls i j None = Err e -> getcl zero cls i j (Some lmax) = Err e.
Proof. intro H. rewrite getcl_lmax, H. reflexivity. Qed.
Print Assumptions getcl_missing_entry.

(** C05 *)
Theorem glass_to_healpix_places {A} (s : list A) n :
  triangle n (length s) ->
  exists t, glass_to_healpix_spectra s = Ok t /\ length t = length s /\
    forall k h i j, i < n -> in_order k i j -> in_healpix_order n h i j ->
      nth_error t h = nth_error s k.
Proof. exact (to_healpix_spec s n). Qed.
Print Assumptions glass_to_healpix_places.

Theorem healpix_to_glass_places {A} (t : list A) n :
  triangle n (length t) ->
  exists s, healpix_to_glass_spectra t = Ok s /\ length s = length t /\
    forall k h i j, i < n -> in_order k i j -> in_healpix_order n h i j ->
      nth_error s k = nth_error t h.
Proof. exact (to_glass_spec t n). Qed.
Print Assumptions healpix_to_glass_places.

Theorem glass_healpix_round_trip {A} (s : list A) n :
  triangle n (length s) ->
  (exists t, glass_to_healpix_spectra s = Ok t /\ healpix_to_glass_spectra t = Ok s) /\
  (exists t, healpix_to_glass_spectra s = Ok t /\ glass_to_healpix_spectra t = Ok s).
Proof. intro H. split; [exact (roundtrip_gh s n H) | exact (roundtrip_hg s n H)]. Qed.
Print Assumptions glass_healpix_round_trip.

Theorem glass_to_healpix_permutation {A} (s t : list A) :
  glass_to_healpix_spectra s = Ok t -> Permutation s t.
Proof. exact (to_healpix_perm s t). Qed.
Print Assumptions glass_to_healpix_permutation.

Theorem healpix_reordering_rejects {A} (s : list A) :
  (forall n, ~ triangle n (length s)) ->
  glass_to_healpix_spectra s = Err ValueError /\ healpix_to_glass_spectra s = Err ValueError.
Proof. exact (healpix_err s). Qed.
Print Assumptions healpix_reordering_rejects.

Example healpix_example :
  glass_to_healpix_spectra [00; 11; 10; 22; 21; 20] = Ok [00; 11; 22; 10; 21; 20] /\
  in_healpix_order 3 4 2 1 /\ triangle 3 6 /\
  glass_to_healpix_spectra [1; 2] = Err ValueError.
Proof. unfold in_healpix_order; repeat split; simpl; lia. Qed.

(** C06 *)
Theorem glass_to_healpix_alm_places {A} (alm : list A) n :
  triangle n (length alm) ->
  exists out, glass_to_healpix_alm alm = Ok out /\ length out = length alm /\
    forall h g l m, in_healpix_alm_order n h l m -> in_glass_alm_order g l m ->
      nth_error out h = nth_error alm g.
Proof. exact (alm_reorder alm n). Qed.
Print Assumptions glass_to_healpix_alm_places.

Theorem glass_to_healpix_alm_permutation {A} (alm out : list A) :
  glass_to_healpix_alm alm = Ok out -> Permutation alm out.
Proof. exact (alm_perm alm out). Qed.
Print Assumptions glass_to_healpix_alm_permutation.

(** The m=0 modes come first: output [l] is mode (l,0), which GLASS stores at the
    [l]-th triangle number. *)
Theorem glass_to_healpix_alm_m0_first {A} (alm out : list A) n l t :
  triangle n (length alm) -> glass_to_healpix_alm alm = Ok out -> l < n -> triangle l t ->
  nth_error out l = nth_error alm t.
Proof.
  intros Hn Ho Hl Ht. destruct (alm_reorder alm n Hn) as (o & E & _ & H).
  assert (o = out) by congruence. subst o. apply (H l t l 0).
  - unfold in_healpix_alm_order. lia.
  - unfold in_glass_alm_order, triangle in *. lia.
Qed.
Print Assumptions glass_to_healpix_alm_m0_first.

Theorem glass_to_healpix_alm_rejects {A} (alm : list A) :
  (forall n, ~ triangle n (length alm)) -> glass_to_healpix_alm alm = Err ValueError.
Proof. exact (alm_err alm). Qed.
Print Assumptions glass_to_healpix_alm_rejects.

Example alm_example :
  glass_to_healpix_alm [00; 10; 11; 20; 21; 22] = Ok [00; 10; 20; 11; 21; 22] /\
  triangle 3 6 /\ in_healpix_alm_order 3 4 2 1 /\ in_glass_alm_order 4 2 1.
Proof. unfold in_healpix_alm_order, in_glass_alm_order; repeat split; simpl; lia. Qed.

(** C07 *)
Theorem multalm_scales_each_mode {A B} (mul : A -> B -> A) alm bl :
  triangle (length bl) (length alm) ->
  exists out, multalm mul alm bl = Ok out /\ length out = length alm /\
    forall g l m a b, in_glass_alm_order g l m ->
      nth_error alm g = Some a -> nth_error bl l = Some b ->
      nth_error out g = Some (mul a b).
Proof. exact (multalm_modes mul alm bl). Qed.
Print Assumptions multalm_scales_each_mode.

Theorem multalm_rejects_mismatch {A B} (mul : A -> B -> A) alm (bl : list B) :
  ~ triangle (length bl) (length alm) -> length alm <> 1 -> length bl <> 1 ->
  multalm mul alm bl = Err ValueError.
Proof. exact (multalm_mismatch mul alm bl). Qed.
Print Assumptions multalm_rejects_mismatch.

(** A one-element [bl] is not rejected: broadcasting scales every mode of any
    [alm] by [bl[0]], so "a [bl] that does not reach lmax is an error" is false. *)
Theorem multalm_short_bl_refuted :
  ~ (forall (alm : list nat) bl, ~ triangle (length bl) (length alm) ->
       exists e, multalm Nat.mul alm bl = Err e).
Proof.
  intro H. destruct (H [1; 2; 3] [5]) as [e He].
  - unfold triangle; simpl; lia.
  - rewrite multalm_single in He. discriminate.
Qed.
Print Assumptions multalm_short_bl_refuted.

Theorem multalm_single_factor {A B} (mul : A -> B -> A) alm b :
  multalm mul alm [b] = Ok (map (fun a => mul a b) alm).
Proof. exact (multalm_single mul alm b). Qed.
Print Assumptions multalm_single_factor.

Example multalm_example :
  triangle (length [2; 3; 5]) (length [1; 1; 1; 1; 1; 1]) /\
  multalm Nat.mul [1; 1; 1; 1; 1; 1] [2; 3; 5] = Ok [2; 3; 3; 5; 5; 5] /\
  multalm Nat.mul [1; 1] [2; 3] = Err ValueError.
Proof. repeat split. Qed.

(** C08 *)
Theorem discretized_cls_spec {A P} (mulpw : A -> P -> A) cls lmax ncorr pixwin :
  (ncorr <> None -> exists n, triangle n (length cls)) ->
  exists gls, discretized_cls mulpw cls lmax ncorr pixwin = Ok gls /\
    length gls = length cls /\
    forall k i j cl g, in_order k i j ->
      nth_error cls k = Some cl -> nth_error gls k = Some g ->
      forall l, nth_error g l =
        if within (i - j) ncorr && within l lmax then smoothed mulpw pixwin cl l else None.
Proof. exact (discretized_spec mulpw cls lmax ncorr pixwin). Qed.
Print Assumptions discretized_cls_spec.

Theorem discretized_cls_rejects {A P} (mulpw : A -> P -> A) cls lmax nc pixwin :
  (forall n, ~ triangle n (length cls)) ->
  discretized_cls mulpw cls lmax (Some nc) pixwin = Err ValueError.
Proof. exact (discretized_err mulpw cls lmax nc pixwin). Qed.
Print Assumptions discretized_cls_rejects.

Example discretized_example :
  triangle 3 (length [[1;2;3]; [4;5;6]; [7;8;9]; [1;1;1]; [2;2;2]; [3;3;3]]) /\
  discretized_cls (fun c p => c * (p * p))
    [[1;2;3]; [4;5;6]; [7;8;9]; [1;1;1]; [2;2;2]; [3;3;3]] (Some 1) (Some 1) (Some [1; 10; 100])
  = Ok [[1;200]; [4;500]; [7;800]; [1;100]; [2;200]; []].
Proof. repeat split. Qed.
