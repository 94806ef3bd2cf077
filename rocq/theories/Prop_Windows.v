(** Radial windows, partitions and redshift grids. *)
From Coq Require Import Reals Lra String.
From Flocq Require Import Core.Raux Core.Generic_fmt Core.Round_NE.
From Coquelicot Require Import Coquelicot.
From Verif Require Import Base Model_Numeric Spec_Numeric Proof_Numeric.
From Verif Require Import Model_Windows Spec_Windows Proof_Windows.
Local Open Scope R_scope.

Lemma linear_symmetry u : linear_shape u + linear_shape (1 - u) = 1.
Proof. unfold linear_shape; ring. Qed.
Lemma cubic_symmetry u : cubic_shape u + cubic_shape (1 - u) = 1.
Proof. unfold cubic_shape; ring. Qed.
Lemma cubic_nonneg u : 0 <= u <= 1 -> 0 <= cubic_shape u.
Proof.
  intros Hu. unfold cubic_shape. apply Rmult_le_pos; [apply Rle_0_sqr|lra].
Qed.

Lemma node_windows_ok shape zgrid dz weight : (3 <= length zgrid)%nat ->
  exists warn z0, nth_error zgrid 0 = Some z0 /\ (warn = true <-> z0 <> 0) /\
  node_windows shape zgrid dz weight = Ok (family shape dz weight zgrid, warn).
Proof.
  intros Hn. destruct zgrid as [|z0 zgrid]; [cbn in Hn; lia|].
  unfold node_windows. destruct (Nat.ltb_spec (length (z0 :: zgrid)) 3); [lia|].
  cbn [index nth_error bind].
  exists (if Req_EM_T z0 0 then false else true), z0. split; [reflexivity|]. split; [|reflexivity].
  destruct (Req_EM_T z0 0); split; congruence.
Qed.

Lemma family_value shape dz weight zgrid x :
  mapM (fun w => interp x (za w) (wa w) (Some 0) (Some 0)) (family shape dz weight zgrid)
  = Ok (map (fun w => window_value w x) (family shape dz weight zgrid)).
Proof.
  apply mapM_pure. intros w Hw.
  apply in_map_iff in Hw as (((a, b), c) & <- & Hin).
  apply node_interp.
Qed.

Lemma family_unity shape zgrid dz lo hi x ws warn :
  shape 0 = 0 -> shape 1 = 1 -> (forall u, shape u + shape (1 - u) = 1) ->
  (forall u, 0 <= u <= 1 -> 0 <= shape u) ->
  increasing zgrid -> node_windows shape zgrid dz None = Ok (ws, warn) ->
  nth_error zgrid 1 = Some lo -> nth_error zgrid (length zgrid - 2) = Some hi ->
  lo <= x <= hi ->
  exists vs, mapM (fun w => interp x (za w) (wa w) (Some 0) (Some 0)) ws = Ok vs /\
    sum_of vs = 1 /\ Forall (fun v => 0 <= v) vs.
Proof.
  intros H0 H1 Hsh Hpos Hs Hok Hlo Hhi Hx.
  assert (Hn : (3 <= length zgrid)%nat).
  { unfold node_windows in Hok. destruct (Nat.ltb_spec (length zgrid) 3); [discriminate|lia]. }
  destruct (node_windows_ok shape zgrid dz None Hn) as (warn' & z0 & _ & _ & E).
  rewrite E in Hok. injection Hok as <- <-.
  exists (map (fun w => window_value w x) (family shape dz None zgrid)).
  split; [apply family_value|]. split.
  - rewrite <- total_sum.
    destruct (family_sum shape dz None zgrid lo hi x H0 H1 Hsh Hs Hn Hlo Hhi Hx)
      as (p & q & Hpq & Eq & [Hlt|(_ & E1)]); [|exact E1].
    cbn [weight_at] in Eq. apply Rmult_eq_reg_r with (q - p); [|lra]. rewrite Eq. ring.
  - apply Forall_forall. intros v Hv. apply in_map_iff in Hv as (w & <- & Hw).
    apply in_map_iff in Hw as (((a, b), c) & <- & Hin).
    apply In_nth_error in Hin as (k & Hk). apply triples_inv in Hk as (Ha & Hb & Hc).
    apply node_nonneg; [exact (Hs _ _ _ Ha Hb)|exact (Hs _ _ _ Hb Hc)|exact H0|exact Hpos|].
    intros; cbn; lra.
Qed.

(** C26 *)

(** Between the second and the last but one node, the triangular windows
    are non-negative and sum to one: at the samples and in between. *)
Theorem linear_windows_unity zgrid dz lo hi x ws warn :
  increasing zgrid -> linear_windows zgrid dz None = Ok (ws, warn) ->
  nth_error zgrid 1 = Some lo -> nth_error zgrid (length zgrid - 2) = Some hi ->
  lo <= x <= hi ->
  exists vs, mapM (fun w => interp x (za w) (wa w) (Some 0) (Some 0)) ws = Ok vs /\
    sum_of vs = 1 /\ Forall (fun v => 0 <= v) vs.
Proof.
  apply family_unity; unfold linear_shape; intros; lra.
Qed.
Print Assumptions linear_windows_unity.

(** The same for the cubic windows. *)
Theorem cubic_windows_unity zgrid dz lo hi x ws warn :
  increasing zgrid -> cubic_windows zgrid dz None = Ok (ws, warn) ->
  nth_error zgrid 1 = Some lo -> nth_error zgrid (length zgrid - 2) = Some hi ->
  lo <= x <= hi ->
  exists vs, mapM (fun w => interp x (za w) (wa w) (Some 0) (Some 0)) ws = Ok vs /\
    sum_of vs = 1 /\ Forall (fun v => 0 <= v) vs.
Proof.
  apply family_unity.
  - unfold cubic_shape; ring.
  - unfold cubic_shape; ring.
  - apply cubic_symmetry.
  - apply cubic_nonneg.
Qed.
Print Assumptions cubic_windows_unity.

(** Nodes 0, 1, 2, 3 and spacing 1: two windows, of values 3/4 and 1/4
    at redshift 5/4. *)
Example linear_windows_example : exists w1 w2,
  linear_windows [0; 1; 2; 3] 1 None = Ok ([w1; w2], false) /\
  za w1 = [0; 1; 2] /\ wa w1 = [0; 1; 0] /\ zeff w1 = 1 /\
  za w2 = [1; 2; 3] /\ zeff w2 = 2 /\
  interp (5 / 4) (za w1) (wa w1) (Some 0) (Some 0) = Ok (3 / 4).
Proof.
  assert (E : forall a b, b - a = 1 -> samples ((b - a) / 1) = 2%nat).
  { intros a b ->. unfold samples. replace (1 / 1) with (IZR 1) by (cbn; field).
    rewrite (Zrnd_IZR ZnearestE). reflexivity. }
  assert (N : forall a b c, b - a = 1 -> c - b = 1 ->
    za (node_window linear_shape 1 None a b c) = [a; b; c] /\
    wa (node_window linear_shape 1 None a b c) = [0; 1; 0]).
  { intros a b c Hab Hbc. unfold node_window. rewrite !E by assumption. split.
    - cbn. f_equal; [field|]. f_equal; [field|]. f_equal. field.
    - unfold linear_shape, apply_weight, linspace; cbn.
      f_equal; [field|]. f_equal; [field|]. f_equal. field. }
  unfold linear_windows, node_windows. cbn [length Nat.ltb Nat.leb index nth_error bind triples combine tl map].
  destruct (N 0 1 2 ltac:(ring) ltac:(ring)) as (Z1 & W1).
  destruct (N 1 2 3 ltac:(ring) ltac:(ring)) as (Z2 & W2).
  eexists _, _. split.
  - destruct (Req_EM_T 0 0); [reflexivity|contradiction].
  - rewrite Z1, W1, Z2. repeat split.
    unfold interp; cbn. rewrite ltb_false, leb_true, leb_false by lra. f_equal. field.
Qed.

(** Shape of the result: one window per interior node, zero outside the
    two neighbouring nodes, effective redshift at the node; neighbouring
    windows are sampled at the same redshifts where they overlap. *)
Lemma node_windows_shape shape zgrid dz weight :
  shape 0 = 0 -> increasing zgrid -> (3 <= length zgrid)%nat ->
  exists ws warn z0,
    node_windows shape zgrid dz weight = Ok (ws, warn) /\
    length ws = (length zgrid - 2)%nat /\
    nth_error zgrid 0 = Some z0 /\ (warn = true <-> z0 <> 0) /\
    (forall i w a b c, nth_error ws i = Some w -> nth_error zgrid i = Some a ->
       nth_error zgrid (S i) = Some b -> nth_error zgrid (S (S i)) = Some c ->
       zeff w = b /\ spans (za w) a c /\ length (za w) = length (wa w) /\ In b (za w) /\
       forall x, x <= a \/ c <= x -> interp x (za w) (wa w) (Some 0) (Some 0) = Ok 0) /\
    (forall i w w' b c x, nth_error ws i = Some w -> nth_error ws (S i) = Some w' ->
       nth_error zgrid (S i) = Some b -> nth_error zgrid (S (S i)) = Some c ->
       b <= x <= c -> (In x (za w) <-> In x (za w'))).
Proof.
  intros H0 Hs Hn. destruct (node_windows_ok shape zgrid dz weight Hn) as (warn & z0 & Hz0 & Hw & E).
  exists (family shape dz weight zgrid), warn, z0. split; [exact E|]. split.
  { unfold family. rewrite map_length, triples_length. reflexivity. }
  split; [exact Hz0|]. split; [exact Hw|].
  assert (F : forall i w, nth_error (family shape dz weight zgrid) i = Some w ->
    exists a b c, nth_error zgrid i = Some a /\ nth_error zgrid (S i) = Some b /\
      nth_error zgrid (S (S i)) = Some c /\ a < b /\ b < c /\ w = node_window shape dz weight a b c).
  { intros i w Hi. unfold family in Hi. rewrite nth_error_map' in Hi.
    destruct (nth_error (triples zgrid) i) as [((a, b), c)|] eqn:Et; [|discriminate].
    cbn in Hi. injection Hi as <-. apply triples_inv in Et as (Ha & Hb & Hc).
    exists a, b, c. repeat split; auto; [exact (Hs _ _ _ Ha Hb)|exact (Hs _ _ _ Hb Hc)]. }
  split.
  - intros i w a b c Hi Ha Hb Hc. destruct (F i w Hi) as (a' & b' & c' & Ha' & Hb' & Hc' & Hab & Hbc & ->).
    rewrite Ha in Ha'; injection Ha' as <-. rewrite Hb in Hb'; injection Hb' as <-.
    rewrite Hc in Hc'; injection Hc' as <-.
    split; [reflexivity|]. split.
    { split; [apply node_increasing; assumption|]. split; [apply node_starts|apply node_ends]. }
    split; [symmetry; apply node_wa_length|]. split.
    + apply nth_error_In with (samples ((b - a) / dz) - 1)%nat.
      rewrite node_za_up by lia. f_equal. field. apply not_0_INR. pose proof (samples_ge ((b - a) / dz)). lia.
    + intros x Hx. rewrite node_interp. f_equal. apply node_outside; assumption.
  - intros i w w' b c x Hi Hi' Hb Hc Hx.
    destruct (F i w Hi) as (a1 & b1 & c1 & Ha1 & Hb1 & Hc1 & Hab1 & Hbc1 & ->).
    destruct (F (S i) w' Hi') as (a2 & b2 & c2 & Ha2 & Hb2 & Hc2 & Hab2 & Hbc2 & ->).
    rewrite Hb in Hb1; injection Hb1 as <-. rewrite Hc in Hc1; injection Hc1 as <-.
    rewrite Hb in Ha2; injection Ha2 as <-. rewrite Hc in Hb2; injection Hb2 as <-.
    rewrite !node_za. rewrite !in_app_iff.
    assert (U : forall n, (1 <= n)%nat -> forall y, In y (linspace b c n false) \/ y = c <->
                In y (linspace b c (n + 1) true)).
    { intros n Hn' y. split.
      - intros [Hy|Hy].
        + apply In_nth_error in Hy as (k & Hk).
          assert (Hk' : (k < n)%nat).
          { rewrite <- (linspace_length b c n false). apply nth_error_Some; congruence. }
          apply nth_error_In with k. rewrite <- Hk, !linspace_nth by lia.
          replace (n + 1 - 1)%nat with n by lia. reflexivity.
        + subst y. eapply nth_error_In. apply linspace_end; lia.
      - intros Hy. apply In_nth_error in Hy as (k & Hk).
        assert (Hk' : (k < n + 1)%nat).
        { rewrite <- (linspace_length b c (n + 1) true). apply nth_error_Some; congruence. }
        destruct (Nat.eq_dec k n) as [->|Hne].
        + right. rewrite linspace_nth in Hk by lia. replace (n + 1 - 1)%nat with n in Hk by lia.
          apply some_eq in Hk. rewrite <- Hk. field. apply not_0_INR. lia.
        + left. apply nth_error_In with k. rewrite <- Hk, !linspace_nth by lia.
          replace (n + 1 - 1)%nat with n by lia. reflexivity. }
    set (M := (samples ((c - b) / dz) - 1)%nat).
    assert (HM : (1 <= M)%nat) by (unfold M; pose proof (samples_ge ((c - b) / dz)); lia).
    replace (samples ((c - b) / dz)) with (M + 1)%nat
      by (unfold M; pose proof (samples_ge ((c - b) / dz)); lia).
    rewrite <- (U M HM x).
    assert (L1 : In x (linspace a1 b (samples ((b - a1) / dz) - 1) false) -> False).
    { intros Hin. apply In_nth_error in Hin as (k & Hk).
      set (n := (samples ((b - a1) / dz) - 1)%nat) in *.
      assert (Hk' : (k < n)%nat).
      { rewrite <- (linspace_length a1 b n false). apply nth_error_Some; congruence. }
      rewrite linspace_nth in Hk by lia. apply some_eq in Hk.
      assert (0 < INR n) by (apply lt_0_INR; lia).
      assert (INR k * ((b - a1) / INR n) < b - a1); [|lra].
      replace (b - a1) with (INR n * ((b - a1) / INR n)) at 2 by (field; lra).
      apply Rmult_lt_compat_r; [apply Rdiv_lt_0_compat; lra|]. apply lt_INR; exact Hk'. }
    assert (L2 : In x (linspace c c2 (samples ((c2 - c) / dz)) true) <-> x = c).
    { pose proof (linspace_spans c c2 (samples ((c2 - c) / dz)) Hbc2 (samples_ge _)) as (Gi & Ga & _).
      split; intros Hin.
      - pose proof (starts_min _ _ Gi Ga x Hin). lra.
      - subst x. apply nth_error_In with 0%nat. exact Ga. }
    tauto.
Qed.

Theorem linear_windows_shape zgrid dz weight :
  increasing zgrid -> (3 <= length zgrid)%nat ->
  exists ws warn z0,
    linear_windows zgrid dz weight = Ok (ws, warn) /\
    length ws = (length zgrid - 2)%nat /\
    nth_error zgrid 0 = Some z0 /\ (warn = true <-> z0 <> 0) /\
    (forall i w a b c, nth_error ws i = Some w -> nth_error zgrid i = Some a ->
       nth_error zgrid (S i) = Some b -> nth_error zgrid (S (S i)) = Some c ->
       zeff w = b /\ spans (za w) a c /\ length (za w) = length (wa w) /\ In b (za w) /\
       forall x, x <= a \/ c <= x -> interp x (za w) (wa w) (Some 0) (Some 0) = Ok 0) /\
    (forall i w w' b c x, nth_error ws i = Some w -> nth_error ws (S i) = Some w' ->
       nth_error zgrid (S i) = Some b -> nth_error zgrid (S (S i)) = Some c ->
       b <= x <= c -> (In x (za w) <-> In x (za w'))).
Proof. apply node_windows_shape. reflexivity. Qed.
Print Assumptions linear_windows_shape.

Theorem cubic_windows_shape zgrid dz weight :
  increasing zgrid -> (3 <= length zgrid)%nat ->
  exists ws warn z0,
    cubic_windows zgrid dz weight = Ok (ws, warn) /\
    length ws = (length zgrid - 2)%nat /\
    nth_error zgrid 0 = Some z0 /\ (warn = true <-> z0 <> 0) /\
    (forall i w a b c, nth_error ws i = Some w -> nth_error zgrid i = Some a ->
       nth_error zgrid (S i) = Some b -> nth_error zgrid (S (S i)) = Some c ->
       zeff w = b /\ spans (za w) a c /\ length (za w) = length (wa w) /\ In b (za w) /\
       forall x, x <= a \/ c <= x -> interp x (za w) (wa w) (Some 0) (Some 0) = Ok 0) /\
    (forall i w w' b c x, nth_error ws i = Some w -> nth_error ws (S i) = Some w' ->
       nth_error zgrid (S i) = Some b -> nth_error zgrid (S (S i)) = Some c ->
       b <= x <= c -> (In x (za w) <-> In x (za w'))).
Proof. apply node_windows_shape. unfold cubic_shape; ring. Qed.
Print Assumptions cubic_windows_shape.

(** With a weight function, the windows sum to the linear interpolation
    of the weight between two neighbouring sample points. *)
Theorem weighted_windows_sum shape zgrid dz f lo hi x ws warn :
  shape = linear_shape \/ shape = cubic_shape ->
  increasing zgrid -> node_windows shape zgrid dz (Some f) = Ok (ws, warn) ->
  nth_error zgrid 1 = Some lo -> nth_error zgrid (length zgrid - 2) = Some hi ->
  lo <= x <= hi ->
  exists vs p q, mapM (fun w => interp x (za w) (wa w) (Some 0) (Some 0)) ws = Ok vs /\
    p <= x <= q /\
    sum_of vs * (q - p) = f p * (q - x) + f q * (x - p) /\
    (p < q \/ p = q /\ sum_of vs = f x).
Proof.
  intros Hshape Hs Hok Hlo Hhi Hx.
  assert (HS : shape 0 = 0 /\ shape 1 = 1 /\ forall u, shape u + shape (1 - u) = 1).
  { destruct Hshape as [->| ->]; unfold linear_shape, cubic_shape; repeat split; intros; ring. }
  destruct HS as (H0 & H1 & Hsh).
  assert (Hn : (3 <= length zgrid)%nat).
  { unfold node_windows in Hok. destruct (Nat.ltb_spec (length zgrid) 3); [discriminate|lia]. }
  destruct (node_windows_ok shape zgrid dz (Some f) Hn) as (warn' & z0 & _ & _ & E).
  rewrite E in Hok. injection Hok as <- <-.
  destruct (family_sum shape dz (Some f) zgrid lo hi x H0 H1 Hsh Hs Hn Hlo Hhi Hx)
    as (p & q & Hpq & Eq & Hd).
  exists (map (fun w => window_value w x) (family shape dz (Some f) zgrid)), p, q.
  rewrite <- total_sum. repeat split; auto using family_value; lra.
Qed.
Print Assumptions weighted_windows_sum.

(** Fewer than three nodes are rejected. *)
Theorem node_windows_rejects shape zgrid dz weight :
  (length zgrid < 3)%nat -> node_windows shape zgrid dz weight = Err ValueError.
Proof.
  intros Hn. unfold node_windows. destruct (Nat.ltb_spec (length zgrid) 3); [reflexivity|lia].
Qed.
Print Assumptions node_windows_rejects.

Example node_windows_rejects_example : cubic_windows [0; 1] 1 None = Err ValueError.
Proof. reflexivity. Qed.

(** C27 *)

(** Tophat windows of weight one tile the range of the edges; their
    effective redshifts are the centres of the bins. *)
Theorem tophat_windows_tile zbins dz :
  increasing zbins -> (2 <= length zbins)%nat ->
  exists ws warn z0,
    tophat_windows zbins dz None = Ok (ws, warn) /\
    length ws = (length zbins - 1)%nat /\
    nth_error zbins 0 = Some z0 /\ (warn = true <-> z0 <> 0) /\
    forall i w a b, nth_error ws i = Some w ->
      nth_error zbins i = Some a -> nth_error zbins (S i) = Some b ->
      spans (za w) a b /\ wa w = repeat 1 (length (za w)) /\ zeff w = (a + b) / 2.
Proof.
  intros Hs Hn. destruct zbins as [|z0 zbins]; [cbn in Hn; lia|].
  assert (exists ws, mapM (fun p => tophat_window dz None (fst p) (snd p)) (pairwise (z0 :: zbins)) = Ok ws
          /\ Forall2 (fun p w => spans (za w) (fst p) (snd p) /\ wa w = repeat 1 (length (za w))
                /\ zeff w = (fst p + snd p) / 2) (pairwise (z0 :: zbins)) ws) as (ws & Hws & Hf).
  { assert (Hp : forall p, In p (pairwise (z0 :: zbins)) -> fst p < snd p).
    { intros (a, b) Hin. apply In_nth_error in Hin as (k & Hk).
      apply pairwise_inv in Hk as (Ha & Hb). exact (Hs _ _ _ Ha Hb). }
    induction (pairwise (z0 :: zbins)) as [|(a, b) l IH]; [exists []; split; [reflexivity|constructor]|].
    destruct IH as (ws & Hws & Hf); [intros; apply Hp; right; assumption|].
    destruct (tophat_window_plain dz a b (Hp (a, b) (or_introl eq_refl))) as (w & Hw & Hsp & Hwa & Hze).
    exists (w :: ws). cbn [mapM fst snd]. rewrite Hw. cbn [bind]. rewrite Hws. cbn [bind].
    split; [reflexivity|]. constructor; [|exact Hf]. cbn [fst snd]. split; [exact Hsp|]. split; [|exact Hze].
    rewrite Hwa. clear. induction (za w) as [|y l IH]; [reflexivity|].
    cbn [map length repeat]. f_equal. exact IH. }
  exists ws, (if Req_EM_T z0 0 then false else true), z0.
  assert (Hlen : length ws = length (pairwise (z0 :: zbins))).
  { clear - Hf. induction Hf; [reflexivity|]. cbn [length]. congruence. }
  split; [|split; [|split; [|split]]].
  - unfold tophat_windows. destruct (Nat.ltb_spec (length (z0 :: zbins)) 2); [lia|].
    cbn [index nth_error bind]. rewrite Hws. reflexivity.
  - rewrite Hlen. apply pairwise_length.
  - reflexivity.
  - destruct (Req_EM_T z0 0); split; congruence.
  - intros i w a b H H0 H1. pose proof (pairwise_nth _ _ _ _ H0 H1) as Hp. clear - Hf H Hp. revert i H Hp.
    induction Hf as [|p v ps vs Hpv Hf IH]; intros [|i] H Hp; try discriminate; [|eapply IH; eassumption].
    injection H as <-. injection Hp as ->. apply Hpv.
Qed.
Print Assumptions tophat_windows_tile.

Example tophat_windows_example : exists w1 w2,
  tophat_windows [0; 1; 3] 1 None = Ok ([w1; w2], false) /\
  za w1 = [0; 1] /\ wa w1 = [1; 1] /\ zeff w1 = 1 / 2 /\ za w2 = [1; 3] /\ zeff w2 = 2.
Proof.
  assert (E1 : samples ((1 - 0) / 1) = 2%nat).
  { unfold samples. replace ((1 - 0) / 1) with (IZR 1) by (cbn; field).
    rewrite (Zrnd_IZR ZnearestE). reflexivity. }
  assert (E2 : samples ((3 - 1) / 1) = 2%nat).
  { unfold samples. replace ((3 - 1) / 1) with (IZR 2) by (cbn; field).
    rewrite (Zrnd_IZR ZnearestE). reflexivity. }
  unfold tophat_windows.
  cbn [length Nat.ltb Nat.leb index nth_error bind pairwise combine tl mapM fst snd].
  unfold tophat_window. rewrite E1, E2. cbn.
  eexists _, _. split.
  - destruct (Req_EM_T 0 0); [reflexivity|contradiction].
  - cbn [za wa zeff]. repeat split.
    + f_equal; [field|]. f_equal. field.
    + field.
    + f_equal; [field|]. f_equal. field.
    + field.
Qed.

(** With a positive weight function the effective redshift lies strictly
    inside the bin. *)
Theorem tophat_windows_weighted zbins dz f :
  increasing zbins -> (2 <= length zbins)%nat -> (forall x, 0 < f x) ->
  exists ws warn,
    tophat_windows zbins dz (Some f) = Ok (ws, warn) /\
    length ws = (length zbins - 1)%nat /\
    forall i w a b, nth_error ws i = Some w ->
      nth_error zbins i = Some a -> nth_error zbins (S i) = Some b ->
      spans (za w) a b /\ wa w = map f (za w) /\ a < zeff w < b.
Proof.
  intros Hs Hn Hpos. destruct zbins as [|z0 zbins]; [cbn in Hn; lia|].
  assert (exists ws, mapM (fun p => tophat_window dz (Some f) (fst p) (snd p)) (pairwise (z0 :: zbins)) = Ok ws
          /\ Forall2 (fun p w => spans (za w) (fst p) (snd p) /\ wa w = map f (za w)
                /\ fst p < zeff w < snd p) (pairwise (z0 :: zbins)) ws) as (ws & Hws & Hf).
  { assert (Hp : forall p, In p (pairwise (z0 :: zbins)) -> fst p < snd p).
    { intros (a, b) Hin. apply In_nth_error in Hin as (k & Hk).
      apply pairwise_inv in Hk as (Ha & Hb). exact (Hs _ _ _ Ha Hb). }
    induction (pairwise (z0 :: zbins)) as [|(a, b) l IH]; [exists []; split; [reflexivity|constructor]|].
    destruct IH as (ws & Hws & Hf); [intros; apply Hp; right; assumption|].
    destruct (tophat_window_weighted dz f a b (Hp (a, b) (or_introl eq_refl)) (fun x _ => Hpos x))
      as (w & Hw & Hsp & Hwa & Hze).
    exists (w :: ws). cbn [mapM fst snd]. rewrite Hw. cbn [bind]. rewrite Hws. cbn [bind].
    split; [reflexivity|]. constructor; [|exact Hf]. cbn [fst snd]. auto. }
  exists ws, (if Req_EM_T z0 0 then false else true).
  assert (Hlen : length ws = length (pairwise (z0 :: zbins))).
  { clear - Hf. induction Hf; [reflexivity|]. cbn [length]. congruence. }
  split; [|split].
  - unfold tophat_windows. destruct (Nat.ltb_spec (length (z0 :: zbins)) 2); [lia|].
    cbn [index nth_error bind]. rewrite Hws. reflexivity.
  - rewrite Hlen. apply pairwise_length.
  - intros i w a b H H0 H1. pose proof (pairwise_nth _ _ _ _ H0 H1) as Hp. clear - Hf H Hp. revert i H Hp.
    induction Hf as [|p v ps vs Hpv Hf IH]; intros [|i] H Hp; try discriminate; [|eapply IH; eassumption].
    injection H as <-. injection Hp as ->. apply Hpv.
Qed.
Print Assumptions tophat_windows_weighted.

(** Fewer than two edges are rejected. *)
Theorem tophat_windows_rejects zbins dz weight :
  (length zbins < 2)%nat -> tophat_windows zbins dz weight = Err ValueError.
Proof.
  intros Hn. unfold tophat_windows. destruct (Nat.ltb_spec (length zbins) 2); [reflexivity|lia].
Qed.
Print Assumptions tophat_windows_rejects.

(** C28 *)

(** [restrict] samples the product of the function (zero outside its
    grid) and the window on all grid points of both inside the window. *)
Theorem restrict_spec z f w lo hi :
  increasing z -> length z = length f -> z <> [] ->
  spans (za w) lo hi -> length (za w) = length (wa w) ->
  exists zr fr F G,
    restrict z f w = Ok (zr, fr) /\ spans zr lo hi /\
    (forall x, In x zr <-> In x (za w) \/ (In x z /\ lo < x < hi)) /\
    (forall x, interp x z f (Some 0) (Some 0) = Ok (F x)) /\
    (forall x, interp x (za w) (wa w) None None = Ok (G x)) /\
    Forall2 (fun x y => y = F x * G x) zr fr.
Proof.
  intros Hs Hl Hne Hsp Hw.
  exists (restrict_grid z w lo hi),
    (map (fun x => interp_value z f (Some 0) (Some 0) x * interp_value (za w) (wa w) None None x)
         (restrict_grid z w lo hi)),
    (interp_value z f (Some 0) (Some 0)), (interp_value (za w) (wa w) None None).
  split; [apply restrict_ok; assumption|]. split; [apply restrict_grid_spans; exact Hsp|].
  split; [intros x; apply restrict_grid_In|].
  split; [intros x; apply interp_ok; assumption|]. split.
  - intros x. apply interp_ok; [exact Hw|]. destruct Hsp as (_ & Ha & _). intros E.
    rewrite E in Ha; discriminate.
  - induction (restrict_grid z w lo hi) as [|x l IH]; constructor; auto.
Qed.
Print Assumptions restrict_spec.

Example restrict_example : exists fr,
  restrict [0; 1; 2] [0; 2; 4] (Window [1 / 2; 3] [1; 1] 1) = Ok ([1 / 2; 1; 2; 3], fr) /\
  fr = [1; 2; 4; 0].
Proof.
  unfold restrict. cbn [za wa first_of last_of last bind].
  assert (Ef : filter (fun v => ltb (1 / 2) v && ltb v 3) [0; 1; 2] = [1; 2]).
  { cbn. rewrite (ltb_false (1 / 2) 0), (ltb_true (1 / 2) 1), (ltb_true 1 3),
      (ltb_true (1 / 2) 2), (ltb_true 2 3) by lra. reflexivity. }
  rewrite Ef.
  assert (Eu : union1d [1 / 2; 3] [1; 2] = [1 / 2; 1; 2; 3]).
  { unfold union1d. cbn. rewrite (ltb_true 1 2) by lra. cbn.
    rewrite (ltb_false 3 1), (ltb_true 1 3), (ltb_false 3 2), (ltb_true 2 3) by lra.
    cbn. rewrite (ltb_true (1 / 2) 1) by lra. reflexivity. }
  rewrite Eu. unfold interp; cbn -[interp_scan].
  eexists. split.
  - rewrite (ltb_false (1 / 2) 0), (ltb_false 1 0), (ltb_false 2 0), (ltb_false 3 0),
      (ltb_false (1 / 2) (1 / 2)), (ltb_false 1 (1 / 2)), (ltb_false 2 (1 / 2)),
      (ltb_false 3 (1 / 2)) by lra. cbn -[interp_scan]. reflexivity.
  - cbn [interp_scan].
    rewrite (leb_false 1 (1 / 2)), (leb_false 3 (1 / 2)), (leb_true 1 1), (leb_false 2 1),
      (leb_false 3 1), (leb_true 1 2), (leb_true 2 2), (ltb_false 2 2), (leb_false 3 2),
      (leb_true 1 3), (leb_true 2 3), (ltb_true 2 3), (leb_true 3 3), (ltb_false 3 3) by lra.
    repeat (f_equal; [field|]). f_equal. field.
Qed.

(** C28, C31 *)

(** For tophat shells that tile the range between the edges, inside the
    range of the function or where the function ends at zero, each
    weight is the integral of the function over its shell; so the weights
    sum to the integral over the covered range, and are non-negative for
    a non-negative function. *)
Theorem partition_restrict_conserves z f z0 zn f0 fn edges shells e0 en :
  increasing z -> length z = length f ->
  starts_with z z0 -> ends_with z zn -> starts_with f f0 -> ends_with f fn ->
  tiles edges shells -> starts_with edges e0 -> ends_with edges en ->
  z0 <= e0 \/ f0 = 0 -> en <= zn \/ fn = 0 ->
  exists F vs,
    (forall x, interp x z f (Some 0) (Some 0) = Ok (F x)) /\
    partition_restrict z f shells = Ok vs /\
    Forall2 (fun p v => integral F (fst p) (snd p) v) (combine edges (tl edges)) vs /\
    integral F e0 en (sum_of vs) /\
    ((forall y, In y f -> 0 <= y) -> forall v, In v vs -> 0 <= v).
Proof.
  intros Hs Hl Hz0 Hzn Hf0 Hfn Ht Hst Hen HA HB.
  destruct (partition_tiles z f edges shells e0 en z0 zn f0 fn e0 en) as (vs & Hvs & Hi & Hf2 & Hp);
    auto; try lra.
  exists (interp_value z f (Some 0) (Some 0)), vs. repeat split; auto.
  intros x. apply interp_ok; [exact Hl|]. intros ->. discriminate.
Qed.
Print Assumptions partition_restrict_conserves.

(** C31 The windows made by [tophat_windows] are such a tiling. *)
Theorem partition_tophat_conserves z f z0 zn zbins dz e0 en :
  increasing z -> length z = length f -> starts_with z z0 -> ends_with z zn ->
  increasing zbins -> (2 <= length zbins)%nat -> starts_with zbins e0 -> ends_with zbins en ->
  z0 <= e0 -> en <= zn -> (forall y, In y f -> 0 <= y) ->
  exists F ws warn vs,
    (forall x, interp x z f (Some 0) (Some 0) = Ok (F x)) /\
    tophat_windows zbins dz None = Ok (ws, warn) /\
    partition_restrict z f ws = Ok vs /\
    length vs = (length zbins - 1)%nat /\
    integral F e0 en (sum_of vs) /\ forall v, In v vs -> 0 <= v.
Proof.
  intros Hs Hl Hz0 Hzn Hb Hn Hst Hen HA HB Hf.
  destruct (tophat_windows_tile zbins dz Hb Hn) as (ws & warn & b0 & Hws & Hlen & _).
  assert (Ht : tiles zbins ws).
  { unfold tophat_windows in Hws. destruct (Nat.ltb_spec (length zbins) 2); [discriminate|].
    apply bind_ok in Hws as (y & _ & Hws). apply bind_ok in Hws as (ws' & Hws' & E).
    injection E as <- _. apply (tophat_tiles dz); auto. intros ->; discriminate. }
  destruct (nth_error_same _ _ _ _ Hl Hz0) as (f0 & Hf0).
  destruct (nth_error_same _ _ _ _ Hl Hzn) as (fn & Hfn). rewrite Hl in Hfn.
  destruct (partition_restrict_conserves z f z0 zn f0 fn zbins ws e0 en) as (F & vs & HF & Hvs & Hf2 & Hi & Hp);
    auto.
  exists F, ws, warn, vs. repeat split; auto.
  assert (E : length (pairwise zbins) = length vs).
  { clear - Hf2. unfold pairwise. induction Hf2; [reflexivity|]. cbn [length]. congruence. }
  rewrite pairwise_length in E. lia.
Qed.
Print Assumptions partition_tophat_conserves.

(** Total and restricted weights of a linear function on two shells. *)
Example partition_restrict_example :
  partition_restrict [0; 2] [0; 4] [Window [0; 1] [1; 1] 0; Window [1; 2] [1; 1] 0]
  = Ok [1; 3].
Proof.
  assert (T : tiles [0; 1; 2] [Window [0; 1] [1; 1] 0; Window [1; 2] [1; 1] 0]).
  { constructor; [lra| | reflexivity|].
    - repeat split. apply increasing_two; [lra|apply increasing_one].
    - constructor; [lra| |reflexivity|constructor].
      repeat split. apply increasing_two; [lra|apply increasing_one]. }
  assert (I : increasing [0; 2]) by (apply increasing_two; [lra|apply increasing_one]).
  destruct (partition_restrict_conserves [0; 2] [0; 4] 0 2 0 4 [0; 1; 2] _ 0 2 I eq_refl
    eq_refl eq_refl eq_refl eq_refl T eq_refl eq_refl (or_introl (Rle_refl 0))
    (or_introl (Rle_refl 2))) as (F & vs & HF & Hvs & Hf2 & _ & _).
  assert (G : forall x, 0 <= x <= 2 -> F x = 2 * x).
  { intros x Hx. specialize (HF x). rewrite interp_ok in HF by (reflexivity || discriminate).
    injection HF as <-.
    pose proof (value_interpolates [0; 2] [0; 4] (Some 0) (Some 0) I eq_refl 0%nat 0 2 0 4 x eq_refl eq_refl eq_refl eq_refl Hx). lra. }
  assert (J : forall a b, 0 <= a -> a <= b -> b <= 2 -> is_RInt F a b (b * b - a * a)).
  { intros a b Ha Hab Hb.
    replace (b * b - a * a) with ((F b + F a) * (1 / 2) * (b - a)) by (rewrite !G by lra; field).
    apply integral_affine; [lra|]. intros x Hx. rewrite !G by lra. ring. }
  rewrite Hvs. cbn in Hf2.
  inversion Hf2 as [|p1 v1 ps1 vs1 H1 Hf2']; subst.
  inversion Hf2' as [|p2 v2 ps2 vs2 H2 Hf2'']; subst. inversion Hf2''; subst.
  cbn in H1, H2.
  rewrite (integral_unique _ _ _ _ _ H1 (J 0 1 ltac:(lra) ltac:(lra) ltac:(lra))).
  rewrite (integral_unique _ _ _ _ _ H2 (J 1 2 ltac:(lra) ltac:(lra) ltac:(lra))).
  f_equal. f_equal; [ring|]. f_equal. ring.
Qed.

(** A shell that reaches beyond the range of a function that does not
    vanish at its end: the weight is not the integral of the function,
    because [restrict] interpolates from zero at the next grid point of
    the shell.  Here the function is 1 on [1, 2], with integral 1, and the
    single tophat shell covers [0, 2]; the weight is 3/2. *)
Theorem partition_restrict_overshoot_refuted :
  exists z f w e0 en v, increasing z /\ length z = length f /\
    spans (za w) e0 en /\ wa w = repeat 1 (length (za w)) /\
    (forall x, In x z -> e0 <= x <= en) /\
    trapezoid f z = Ok 1 /\ partition_restrict z f [w] = Ok [v] /\ v = 3 / 2.
Proof.
  exists [1; 2], [1; 1], (Window [0; 2] [1; 1] 1), 0, 2, (3 / 2).
  assert (I1 : increasing [1; 2]) by (apply increasing_two; [lra|apply increasing_one]).
  assert (I2 : increasing [0; 2]) by (apply increasing_two; [lra|apply increasing_one]).
  assert (Hsp : spans (za (Window [0; 2] [1; 1] 1)) 0 2).
  { split; [exact I2|]. split; reflexivity. }
  split; [exact I1|]. split; [reflexivity|]. split; [exact Hsp|]. split; [reflexivity|].
  split. { intros x [<-|[<-|[]]]; lra. }
  split. { unfold trapezoid; cbn. f_equal. field. }
  split; [|reflexivity].
  unfold partition_restrict. cbn [mapM].
  rewrite (restrict_ok [1; 2] [1; 1] (Window [0; 2] [1; 1] 1) 0 2)
    by (auto; try reflexivity; discriminate).
  assert (G : restrict_grid [1; 2] (Window [0; 2] [1; 1] 1) 0 2 = [0; 1; 2]).
  { unfold restrict_grid, union1d. cbn.
    rewrite (ltb_true 0 1), (ltb_true 1 2), (ltb_true 0 2), (ltb_false 2 2) by lra. cbn.
    rewrite (ltb_false 2 1), (ltb_true 1 2) by lra. cbn.
    rewrite (ltb_true 0 1) by lra. reflexivity. }
  rewrite G. cbn [bind fst snd]. rewrite trapezoid_ok by reflexivity. cbn [bind].
  f_equal. f_equal. cbn [map combine trapezoids total za wa].
  assert (V0 : interp_value [1; 2] [1; 1] (Some 0) (Some 0) 0 = 0).
  { apply (value_left [1; 2] [1; 1] (Some 0) (Some 0) 0 1 1); (reflexivity || lra). }
  assert (V1 : interp_value [1; 2] [1; 1] (Some 0) (Some 0) 1 = 1).
  { apply (value_through [1; 2] [1; 1] (Some 0) (Some 0) I1 eq_refl 0%nat); reflexivity. }
  assert (V2 : interp_value [1; 2] [1; 1] (Some 0) (Some 0) 2 = 1).
  { apply (value_through [1; 2] [1; 1] (Some 0) (Some 0) I1 eq_refl 1%nat); reflexivity. }
  assert (C : forall x, interp_value [0; 2] [1; 1] None None x = 1).
  { intros x. change [1; 1] with (map (fun _ : R => 1) [0; 2]).
    apply const_value; (exact I2 || discriminate). }
  rewrite V0, V1, V2, !C. field.
Qed.
Print Assumptions partition_restrict_overshoot_refuted.

(** The function evaluated by [combine] integrates to the sum of the
    weights, for all windows with a non-zero integral; overlaps and
    shared end points make no difference. *)
Theorem combine_conserves A B shells weights :
  length weights = length shells ->
  (forall w, In w shells -> exists lo hi t, spans (za w) lo hi /\ A <= lo /\ hi <= B /\
     length (za w) = length (wa w) /\ trapezoid (wa w) (za w) = Ok t /\ t <> 0) ->
  exists h, (forall x, combine_windows x weights shells = Ok (h x)) /\
    integral h A B (sum_of weights).
Proof. intros Hl H. apply combine_integral; assumption. Qed.
Print Assumptions combine_conserves.

Example combine_example :
  combine_windows (1 / 2) [3; 5] [Window [0; 1; 2] [0; 1; 0] 1; Window [1; 2; 3] [0; 1; 0] 2]
  = Ok (3 / 2).
Proof.
  unfold combine_windows, trapezoid, interp; cbn.
  rewrite (ltb_false (1 / 2) 0), (ltb_true (1 / 2) 1), (leb_false 1 (1 / 2)) by lra. cbn.
  f_equal. field.
Qed.

(** The method is selected by name, for every method that gives something else than the others; other names are rejected. *)
Theorem partition_method lstsq nnls z f shells :
  (forall method r, partition lstsq nnls z f shells method = Ok r ->
     method = "lstsq" /\ lstsq z f shells = Ok r \/ method = "nnls" /\ nnls z f shells = Ok r \/ method = "restrict" /\ partition_restrict z f shells = Ok r)%string /\
  (forall r, lstsq z f shells = Ok r -> partition lstsq nnls z f shells "lstsq" = Ok r) /\
  (forall r, nnls z f shells = Ok r -> partition lstsq nnls z f shells "nnls" = Ok r) /\
  (forall r, partition_restrict z f shells = Ok r -> partition lstsq nnls z f shells "restrict" = Ok r) /\
  (forall method, (method <> "lstsq" /\ method <> "nnls" /\ method <> "restrict")%string ->
     partition lstsq nnls z f shells method = Err ValueError).
Proof.
  split; [|split; [auto|split; [auto|split; [auto|]]]].
  - intros method r. unfold partition. destruct (String.eqb_spec method "lstsq") as [->|N1]; [intros E; left; auto|].
    destruct (String.eqb_spec method "nnls") as [->|N2]; [intros E; right; left; auto|].
    destruct (String.eqb_spec method "restrict") as [->|N3]; [intros E; right; right; auto|discriminate].
  - intros method (H1 & H2 & H3). unfold partition.
    apply String.eqb_neq in H1, H2, H3. rewrite H1, H2, H3. reflexivity.
Qed.
Print Assumptions partition_method.

Example partition_method_example lstsq nnls z f shells :
  partition lstsq nnls z f shells "restrict" = partition_restrict z f shells /\
  partition lstsq nnls z f shells "integrate" = Err ValueError.
Proof. split; reflexivity. Qed.

(** C27 *)

(** A window without effective redshift gets the mean redshift: the integral of redshift times weight, both sampled at
    the redshifts of the window, over the integral of the weight.  It is inside of the window if weights are not negative.
    An effective redshift that is given is kept. *)
Theorem effective_redshift z w a b : increasing z -> length z = length w -> starts_with z a -> ends_with z b ->
  (forall ze, exists W, radial_window z w (Some ze) = Ok W /\ za W = z /\ wa W = w /\ zeff W = ze) /\
  forall g k v u, interpolates g z w -> passes_through g z w -> integral g a b v -> v <> 0 ->
    interpolates k z (map (fun p => fst p * snd p) (combine z w)) -> passes_through k z (map (fun p => fst p * snd p) (combine z w)) -> integral k a b u ->
    exists W, radial_window z w None = Ok W /\ za W = z /\ wa W = w /\ zeff W = u / v /\
      ((forall y, In y w -> 0 <= y) -> a <= zeff W <= b).
Proof.
  intros Hs Hl Ha Hb. split; [intro ze; eexists; split; [reflexivity|]; auto|].
  intros g k v u Ig Pg Vg Nv Ik Pk Vk. set (zw := map (fun p => fst p * snd p) (combine z w)) in *.
  assert (Lz : length z = length zw) by (unfold zw; rewrite map_length, combine_length; lia).
  assert (E1 : u = total (trapezoids (combine z zw))) by (eapply integral_unique; [exact Vk|]; apply trapezoids_integral; assumption).
  assert (E2 : v = total (trapezoids (combine z w))) by (eapply integral_unique; [exact Vg|]; apply trapezoids_integral; assumption).
  assert (EW : radial_window z w None = Ok (Window z w (u / v))).
  { unfold radial_window, calculate_zeff. destruct z as [|z1 z']; [discriminate|]. fold zw. rewrite trapezoid_ok by (symmetry; exact Lz). cbn [bind].
    rewrite trapezoid_ok by (symmetry; exact Hl). cbn [bind]. rewrite <- E1, <- E2. reflexivity. }
  eexists. split; [exact EW|]. cbn [za wa zeff]. split; [reflexivity|]. split; [reflexivity|]. split; [reflexivity|]. intro Hw.
  assert (B : forall (z w : list R), increasing z -> length z = length w -> (forall y, In y w -> 0 <= y) -> (forall x, In x z -> a <= x <= b) ->
    0 <= total (trapezoids (combine z w)) /\
    a * total (trapezoids (combine z w)) <= total (trapezoids (combine z (map (fun p => fst p * snd p) (combine z w)))) <= b * total (trapezoids (combine z w))).
  { clear. intros z. induction z as [|x z IH]; intros [|y w] Hs Hl Hw Hr; try discriminate; [cbn; lra|].
    destruct z as [|x' z], w as [|y' w]; try discriminate; [cbn; lra|].
    destruct (IH (y' :: w)) as (I0 & I1 & I2); [eapply increasing_tail; eassumption|injection Hl; auto|intros; apply Hw; right; assumption|intros; apply Hr; right; assumption|].
    clear IH. pose proof (Hs 0%nat x x' eq_refl eq_refl) as Hx. pose proof (Hw y ltac:(left; reflexivity)) as P1. pose proof (Hw y' ltac:(right; left; reflexivity)) as P2.
    pose proof (Hr x ltac:(left; reflexivity)) as P3. pose proof (Hr x' ltac:(right; left; reflexivity)) as P4. cbn [combine map fst snd] in I0, I1, I2 |- *.
    set (l := (x', y') :: combine z w) in *. set (l' := (x', x' * y') :: combine z (map (fun p => fst p * snd p) (combine z w))) in *.
    change (trapezoids ((x, y) :: l)) with ((y' + y) * (1 / 2) * (x' - x) :: trapezoids l).
    change (trapezoids ((x, x * y) :: l')) with ((x' * y' + x * y) * (1 / 2) * (x' - x) :: trapezoids l').
    cbn [total fold_right]. set (T := total (trapezoids l)) in *. set (T' := total (trapezoids l')) in *.
    change (fold_right Rplus 0 (trapezoids l)) with T. change (fold_right Rplus 0 (trapezoids l')) with T'. clearbody T T'. clear - I0 I1 I2 Hx P1 P2 P3 P4.
    assert (Q1 : 0 <= (y' + y) * (x' - x)) by (apply Rmult_le_pos; lra).
    assert (Q2 : 0 <= ((x' - a) * y' + (x - a) * y) * (x' - x)) by (apply Rmult_le_pos; [apply Rplus_le_le_0_compat; apply Rmult_le_pos; lra|lra]).
    assert (Q3 : 0 <= ((b - x') * y' + (b - x) * y) * (x' - x)) by (apply Rmult_le_pos; [apply Rplus_le_le_0_compat; apply Rmult_le_pos; lra|lra]).
    split; [lra|]. split; lra. }
  destruct (B z w Hs Hl Hw) as (B0 & B1 & B2).
  { intros x Hx. split; [apply (starts_min z a Hs Ha x Hx)|apply (ends_max z b Hs Hb x Hx)]. }
  fold zw in B1, B2. rewrite <- E1, <- E2 in *. assert (Pv : 0 < v) by lra.
  split; apply (Rmult_le_reg_r v); try exact Pv; unfold Rdiv; rewrite Rmult_assoc, Rinv_l, Rmult_1_r by lra; assumption.
Qed.
Print Assumptions effective_redshift.

(** A window with weights one and three: the integral of redshift times weight, sampled at both ends, is three halves. *)
Example effective_redshift_example : exists W, radial_window [0; 1] [1; 3] None = Ok W /\ zeff W = 3 / 4.
Proof.
  eexists. split; [unfold radial_window, calculate_zeff, trapezoid; cbn; reflexivity|]. cbn. field.
Qed.

(** C32 *)

Lemma arange_nth start step n k : (k < n)%nat ->
  nth_error (map (fun k => start + INR k * step) (seq 0 n)) k = Some (start + INR k * step).
Proof.
  intros Hk. apply (map_nth_error (fun k => start + INR k * step)).
  rewrite nth_error_seq. destruct (Nat.ltb_spec k n); [reflexivity|lia].
Qed.

Lemma uniform_step start stop s : 0 < s -> start <= stop ->
  exists xs last, uniform_grid start stop (Some s) None = Ok xs /\
    increasing xs /\ starts_with xs start /\ equal_steps xs s /\
    ends_with xs last /\ stop <= last < stop + s.
Proof.
  intros Hs Hle. unfold uniform_grid, arange. destruct (Req_EM_T s 0) as [|_]; [lra|].
  set (q := (stop + s - start) / s).
  assert (Hq : 1 <= q).
  { unfold q. apply Rmult_le_reg_r with s; [lra|]. unfold Rdiv.
    rewrite Rmult_assoc, Rinv_l by lra. lra. }
  set (n := Z.to_nat (Zceil q)).
  assert (Hc : (1 <= Zceil q)%Z).
  { apply le_IZR. apply Rle_trans with q; [exact Hq|apply Zceil_ub]. }
  assert (Hn : INR n = IZR (Zceil q)).
  { unfold n. rewrite INR_IZR_INZ, Z2Nat.id by lia. reflexivity. }
  assert (Hn1 : (1 <= n)%nat) by (unfold n; lia).
  assert (Hub : q <= INR n < q + 1).
  { rewrite Hn. split; [apply Zceil_ub|].
    pose proof (Zceil_lb q). lra. }
  assert (Hsteps : equal_steps (map (fun k => start + INR k * s) (seq 0 n)) s).
  { intros i a b Ha Hb.
    assert (Hi : (S i < n)%nat).
    { rewrite <- (seq_length n 0), <- (map_length (fun k => start + INR k * s)).
      apply nth_error_Some; congruence. }
    rewrite arange_nth in Ha, Hb by lia. apply some_eq in Ha, Hb. subst a b.
    rewrite S_INR. ring. }
  eexists _, (start + INR (n - 1) * s). split; [reflexivity|]. split; [|split; [|split; [|split]]].
  - intros i a b Ha Hb. pose proof (Hsteps i a b Ha Hb). lra.
  - unfold starts_with. rewrite arange_nth by lia. f_equal. cbn [INR]. ring.
  - exact Hsteps.
  - unfold ends_with. rewrite map_length, seq_length. apply arange_nth. lia.
  - rewrite minus_INR by lia. cbn [INR].
    assert (E : q * s = stop + s - start) by (unfold q; field; lra).
    assert (q * s <= INR n * s) by (apply Rmult_le_compat_r; lra).
    assert (INR n * s < (q + 1) * s) by (apply Rmult_lt_compat_r; lra). lra.
Qed.

Lemma uniform_num start stop n : start < stop -> (1 <= n)%nat ->
  exists xs, uniform_grid start stop None (Some n) = Ok xs /\
    length xs = (n + 1)%nat /\ spans xs start stop /\
    equal_steps xs ((stop - start) / INR n).
Proof.
  intros Hlt Hn. eexists. split; [reflexivity|]. split; [apply linspace_length|].
  split; [apply linspace_spans; [assumption|lia]|].
  pose proof (linspace_steps start stop (n + 1) true) as H. cbn beta iota in H.
  replace (n + 1 - 1)%nat with n in H by lia. exact H.
Qed.

(** With a spacing: the grid starts at [zmin], has exactly that spacing,
    and its last point is the first to reach [zmax]. *)
Theorem redshift_grid_dz zmin zmax dz : 0 < dz -> zmin <= zmax ->
  exists zs zlast, redshift_grid zmin zmax (Some dz) None = Ok zs /\
    increasing zs /\ starts_with zs zmin /\ equal_steps zs dz /\
    ends_with zs zlast /\ zmax <= zlast < zmax + dz.
Proof. apply uniform_step. Qed.
Print Assumptions redshift_grid_dz.

(** With a number of steps: the grid runs from [zmin] to [zmax]. *)
Theorem redshift_grid_num zmin zmax num : zmin < zmax -> (1 <= num)%nat ->
  exists zs, redshift_grid zmin zmax None (Some num) = Ok zs /\
    length zs = (num + 1)%nat /\ spans zs zmin zmax /\
    equal_steps zs ((zmax - zmin) / INR num).
Proof. apply uniform_num. Qed.
Print Assumptions redshift_grid_num.

Example redshift_grid_example :
  redshift_grid 0 1 (Some (2 / 5)) None = Ok [0; 2 / 5; 4 / 5; 6 / 5] /\
  redshift_grid 0 1 None (Some 2%nat) = Ok [0; 1 / 2; 1].
Proof.
  split.
  - unfold redshift_grid, uniform_grid, arange. destruct (Req_EM_T (2 / 5) 0); [lra|].
    assert (E : Zceil ((1 + 2 / 5 - 0) / (2 / 5)) = 4%Z).
    { apply Zceil_imp. cbn. split; lra. }
    rewrite E. change (Z.to_nat 4) with 4%nat. cbn. f_equal.
    repeat (f_equal; [field|]). f_equal. field.
  - cbn. f_equal. f_equal; [field|]. f_equal; [field|]. f_equal. field.
Qed.

(** The same in comoving distance: the distances of the grid points have
    equal spacing.  The inverse distance function is assumed to invert the
    distance function on the distances that occur, and to be increasing. *)
Theorem distance_grid_dx dc idc zmin zmax dx :
  0 < dx -> dc zmin <= dc zmax ->
  idc (dc zmin) = zmin -> (forall x, dc zmin <= x -> dc (idc x) = x) ->
  (forall x y, dc zmin <= x -> x < y -> idc x < idc y) -> idc (dc zmax) = zmax ->
  exists zs zlast, distance_grid dc idc zmin zmax (Some dx) None = Ok zs /\
    increasing zs /\ starts_with zs zmin /\ equal_steps (map dc zs) dx /\
    ends_with zs zlast /\ zmax <= zlast /\ dc zlast < dc zmax + dx.
Proof.
  intros Hdx Hle H0 Hinv Hinc Hmax.
  destruct (uniform_step (dc zmin) (dc zmax) dx Hdx Hle) as (xs & xl & E & Hi & Hst & Hsteps & Hend & Hl).
  assert (Hmin : forall x, In x xs -> dc zmin <= x) by (intros; apply (starts_min xs); assumption).
  exists (map idc xs), (idc xl). split; [unfold distance_grid; rewrite E; reflexivity|].
  assert (Hmap : map dc (map idc xs) = xs).
  { rewrite map_map, (map_ext_in _ (fun x => x)); [apply map_id|].
    intros x Hx. apply Hinv, Hmin, Hx. }
  split; [|split; [|split; [|split; [|split]]]].
  - intros i a b Ha Hb. rewrite nth_error_map' in Ha, Hb.
    destruct (nth_error xs i) as [x|] eqn:Ex; [|discriminate].
    destruct (nth_error xs (S i)) as [y|] eqn:Ey; [|discriminate].
    cbn in Ha, Hb. injection Ha as <-. injection Hb as <-.
    apply Hinc; [apply Hmin; eapply nth_error_In; exact Ex|]. exact (Hi _ _ _ Ex Ey).
  - unfold starts_with in *. rewrite (map_nth_error idc _ _ Hst), H0. reflexivity.
  - rewrite Hmap. exact Hsteps.
  - unfold ends_with in *. rewrite map_length. apply map_nth_error. exact Hend.
  - destruct (Req_dec xl (dc zmax)) as [->|Hne]; [lra|].
    rewrite <- Hmax at 1. left. apply Hinc; lra.
  - rewrite Hinv by lra. lra.
Qed.
Print Assumptions distance_grid_dx.

Theorem distance_grid_num dc idc zmin zmax num :
  dc zmin < dc zmax -> (1 <= num)%nat ->
  idc (dc zmin) = zmin -> idc (dc zmax) = zmax ->
  (forall x, dc zmin <= x <= dc zmax -> dc (idc x) = x) ->
  (forall x y, dc zmin <= x -> x < y -> y <= dc zmax -> idc x < idc y) ->
  exists zs, distance_grid dc idc zmin zmax None (Some num) = Ok zs /\
    length zs = (num + 1)%nat /\ spans zs zmin zmax /\
    equal_steps (map dc zs) ((dc zmax - dc zmin) / INR num).
Proof.
  intros Hlt Hn H0 H1 Hinv Hinc.
  destruct (uniform_num (dc zmin) (dc zmax) num Hlt Hn) as (xs & E & Hlen & (Hi & Hst & Hen) & Hsteps).
  assert (Hin : forall x, In x xs -> dc zmin <= x <= dc zmax).
  { intros x Hx. split; [apply (starts_min xs)|apply (ends_max xs)]; assumption. }
  exists (map idc xs). split; [unfold distance_grid; rewrite E; reflexivity|].
  split; [rewrite map_length; exact Hlen|]. split; [split; [|split]|].
  - intros i a b Ha Hb. rewrite nth_error_map' in Ha, Hb.
    destruct (nth_error xs i) as [x|] eqn:Ex; [|discriminate].
    destruct (nth_error xs (S i)) as [y|] eqn:Ey; [|discriminate].
    cbn in Ha, Hb. injection Ha as <-. injection Hb as <-.
    pose proof (Hin x (nth_error_In _ _ Ex)). pose proof (Hin y (nth_error_In _ _ Ey)).
    apply Hinc; [lra|exact (Hi _ _ _ Ex Ey)|lra].
  - unfold starts_with in *. rewrite (map_nth_error idc _ _ Hst), H0. reflexivity.
  - unfold ends_with in *. rewrite map_length, (map_nth_error idc _ _ Hen), H1. reflexivity.
  - rewrite map_map. rewrite (map_ext_in _ (fun x => x)); [rewrite map_id; exact Hsteps|].
    intros x Hx. apply Hinv, Hin, Hx.
Qed.
Print Assumptions distance_grid_num.

(** The comoving distance [2 z] with inverse [x / 2]. *)
Example distance_grid_example :
  distance_grid (fun z => 2 * z) (fun x => x / 2) 0 1 None (Some 2%nat) = Ok [0; 1 / 2; 1].
Proof.
  cbn. f_equal. f_equal; [field|]. f_equal; [field|]. f_equal. field.
Qed.

(** Exactly one of spacing and number must be given. *)
Theorem redshift_grid_options zmin zmax dz num :
  (dz = None <-> num = None) -> redshift_grid zmin zmax dz num = Err ValueError.
Proof.
  intros H. destruct dz, num; try reflexivity.
  - destruct H as [_ H]. discriminate (H eq_refl).
  - destruct H as [H _]. discriminate (H eq_refl).
Qed.
Print Assumptions redshift_grid_options.

(** A grid of zero steps consists of [zmin] only and does not reach
    [zmax]. *)
Theorem redshift_grid_zero_steps_refuted :
  exists zmin zmax, zmin < zmax /\ redshift_grid zmin zmax None (Some 0%nat) = Ok [zmin].
Proof.
  exists 0, 1. split; [lra|]. cbn. f_equal. f_equal. ring.
Qed.
Print Assumptions redshift_grid_zero_steps_refuted.
