(** Theorems about the stripes that a visibility map blocks (C83). *)
From Coq Require Import Reals Machin Lra.
From Verif Require Import Base Model_Visibility Spec_Visibility.
Local Open Scope R_scope.

Lemma pi_bounds : 314 / 100 < PI < 315 / 100.
Proof.
  pose proof (PI_2_3_7_ineq 1) as [L U].
  unfold tg_alt, PI_2_3_7_tg, Ratan_seq in L, U. simpl in L, U. lra.
Qed.

(** C83 *)

(** [query_strip]: if the library returns the pixels of the map that a set [S] contains, then the
    mask has one entry for each pixel, which is one in [S] and zero outside, converted to
    integers or to the data type that is asked for. *)
Lemma put_ones_spec indices : forall out, Forall (fun i => (i < length out)%nat) indices ->
  exists r, put_ones indices out = Ok r /\ length r = length out /\
    forall j x, nth_error out j = Some x ->
      (In j indices -> nth_error r j = Some 1) /\ (~ In j indices -> nth_error r j = Some x).
Proof.
  induction indices as [|i rest IH]; intros out H.
  - exists out. split; [reflexivity|]. split; [reflexivity|]. intros j x Hx. split; [intros []|intro; exact Hx].
  - inversion H as [|? ? Hi Hr]; subst. cbn [put_ones]. rewrite (proj2 (Nat.ltb_lt _ _) Hi).
    set (out' := firstn i out ++ [1] ++ skipn (i + 1) out).
    assert (L : length out' = length out).
    { unfold out'. rewrite !app_length, firstn_length, skipn_length. simpl. lia. }
    assert (N : forall j, nth_error out' j = if (j =? i)%nat then Some 1 else nth_error out j).
    { intro j. unfold out'. assert (Lf : length (firstn i out) = i) by (rewrite firstn_length; lia).
      destruct (Nat.eqb_spec j i) as [->|Hne].
      - rewrite nth_error_app2, Lf, Nat.sub_diag by lia. reflexivity.
      - destruct (Nat.lt_ge_cases j i) as [Hlt|Hge].
        + rewrite nth_error_app1 by lia. rewrite <- (firstn_skipn i out) at 2. rewrite nth_error_app1 by lia. reflexivity.
        + rewrite nth_error_app2, Lf by lia. destruct (j - i)%nat as [|k] eqn:Ek; [lia|]. cbn [app nth_error].
          rewrite <- (firstn_skipn (i + 1) out) at 2. rewrite nth_error_app2 by (rewrite firstn_length; lia).
          rewrite firstn_length. f_equal. lia. }
    destruct (IH out') as (r & E & Lr & Hrj); [rewrite L; exact Hr|].
    exists r. split; [exact E|]. split; [congruence|]. intros j x Hx.
    specialize (N j). destruct (Nat.eqb_spec j i) as [Hji|Hne].
    + subst j. destruct (Hrj i 1 N) as [A B]. split; [|intro Hn; exfalso; apply Hn; left; reflexivity].
      intros _. destruct (in_dec Nat.eq_dec i rest) as [Hin|Hout]; [exact (A Hin)|exact (B Hout)].
    + rewrite Hx in N. destruct (Hrj j x N) as [A B]. split.
      * intros [Heq|Hin]; [congruence|exact (A Hin)].
      * intro Hn. apply B. intro Hin. apply Hn. right. exact Hin.
Qed.

Theorem query_strip_mask {A} healpy_strip (int64 : R -> A) nside t1 t2 dtype (S : nat -> Prop) :
  (forall i, In i (healpy_strip nside t1 t2) <-> (i < 12 * nside * nside)%nat /\ S i) ->
  exists m, query_strip healpy_strip int64 nside (t1, t2) dtype = Ok m /\
    length m = (12 * nside * nside)%nat /\
    forall i, (i < 12 * nside * nside)%nat ->
      let cast := match dtype with None => int64 | Some f => f end in
      (S i -> nth_error m i = Some (cast 1)) /\ (~ S i -> nth_error m i = Some (cast 0)).
Proof.
  intro H. unfold query_strip. cbn [fst snd]. set (n := (12 * nside * nside)%nat) in *.
  destruct (put_ones_spec (healpy_strip nside t1 t2) (repeat 0 n)) as (r & E & L & Hr).
  { apply Forall_forall. intros i Hi. rewrite repeat_length. apply (proj1 (H i) Hi). }
  rewrite E. cbn [bind]. rewrite repeat_length in L. set (cast := match dtype with None => int64 | Some f => f end).
  exists (map cast r). split; [unfold cast; destruct dtype; reflexivity|]. split; [rewrite map_length; exact L|].
  intros i Hi. cbv zeta. assert (Hx : nth_error (repeat 0 n) i = Some 0) by (apply nth_error_repeat; exact Hi).
  destruct (Hr i 0 Hx) as [A1 A0]. split; intro Hs; rewrite nth_error_map'.
  - rewrite A1 by (apply H; auto). reflexivity.
  - rewrite A0 by (intro Hin; apply H in Hin; tauto). reflexivity.
Qed.
Print Assumptions query_strip_mask.

(** IndexError if, and only if, the library returns the number of a pixel that the map does not have; there is no other
    exception. *)
Theorem query_strip_rejects {A} healpy_strip (int64 : R -> A) nside t1 t2 dtype e :
  query_strip healpy_strip int64 nside (t1, t2) dtype = Err e <->
  e = IndexError /\ exists i, In i (healpy_strip nside t1 t2) /\ (12 * nside * nside <= i)%nat.
Proof.
  unfold query_strip. cbn [fst snd]. set (n := (12 * nside * nside)%nat).
  assert (B : forall ix out e', length out = n -> put_ones ix out = Err e' <-> e' = IndexError /\ exists i, In i ix /\ (n <= i)%nat).
  { induction ix as [|i ix IH]; intros out e' Lo; cbn [put_ones].
    - split; [discriminate|]. intros [_ (i & [] & _)].
    - destruct (Nat.ltb_spec i (length out)) as [Hi|Hi].
      + rewrite IH by (rewrite !app_length, firstn_length, skipn_length; cbn [length]; lia).
        split; intros [-> (k & Ik & Lk)]; (split; [reflexivity|]); exists k; (split; [|exact Lk]).
        * right. exact Ik.
        * destruct Ik as [->|Ik]; [lia|exact Ik].
      + split; [intros [= <-]|intros [-> _]; reflexivity]. split; [reflexivity|]. exists i. split; [left; reflexivity|lia]. }
  specialize (B (healpy_strip nside t1 t2) (repeat 0 n) e (repeat_length 0 n)). rewrite <- B.
  destruct (put_ones _ _) as [r|e'] eqn:E; cbn [bind].
  - destruct dtype; split; discriminate.
  - split; intros [= ->]; reflexivity.
Qed.
Print Assumptions query_strip_rejects.

Example query_strip_example :
  query_strip (fun _ _ _ => [4; 7]%nat) (fun x => x) 1 (1, 2) None =
  Ok [0; 0; 0; 0; 1; 0; 0; 1; 0; 0; 0; 0] /\
  query_strip (fun _ _ _ => [4; 12; 7]%nat) (fun x => x) 1 (1, 2) None = Err IndexError.
Proof. split; reflexivity. Qed.

(** For angles between 0 and pi, which are colatitudes, a strip contains the heights of the
    colatitudes between the first angle and the second, or the others if the first angle is not smaller. *)
Theorem strip_colatitudes t1 t2 z :
  0 <= t1 <= PI -> 0 <= t2 <= PI -> -1 <= z <= 1 ->
  strip t1 t2 z = true <-> within t1 t2 (colatitude z).
Proof.
  intros H1 H2 Hz. unfold within, colatitude. pose proof (acos_bound z) as Hb.
  assert (Le : forall t, 0 <= t <= PI -> cos t <= z <-> acos z <= t).
  { intros t Ht. rewrite <- (cos_acos z Hz) at 1. split; intro H.
    - apply Rnot_lt_le. intro Hc. apply (cos_decreasing_1 t (acos z)) in Hc; lra.
    - destruct (Rle_lt_or_eq_dec _ _ H) as [Hc| ->]; [|lra].
      apply (cos_decreasing_1 (acos z) t) in Hc; lra. }
  assert (Lt : forall t, 0 <= t <= PI -> z < cos t <-> t < acos z).
  { intros t Ht. specialize (Le t Ht). split; intro H; apply Rnot_le_lt; intro Hc; apply Le in Hc; lra. }
  specialize (Le t2 H2). specialize (Lt t1 H1). unfold strip.
  destruct (Rlt_dec t1 t2) as [H|H]; destruct (Rle_dec (cos t2) z) as [A|A]; destruct (Rlt_dec z (cos t1)) as [B|B];
    cbn [andb orb]; rewrite ?Le, ?Lt in A, B; split; intro G; try discriminate; try reflexivity; try tauto; lra.
Qed.
Print Assumptions strip_colatitudes.

Example strip_example : strip (PI / 3) (PI / 2) (1 / 4) = true /\ strip (PI / 3) (PI / 2) (3 / 4) = false /\
  strip 0 0 (1 / 4) = true.
Proof.
  unfold strip. pose proof PI_RGT_0. rewrite cos_PI3, cos_PI2, cos_0.
  destruct (Rlt_dec (PI / 3) (PI / 2)); [|exfalso; lra]. destruct (Rlt_dec 0 0); [exfalso; lra|].
  repeat match goal with |- context [Rle_dec ?a ?b] => destruct (Rle_dec a b); [|exfalso; lra] end.
  repeat match goal with |- context [Rlt_dec ?a ?b] => destruct (Rlt_dec a b); try (exfalso; lra) end.
  destruct (Rle_dec 1 (1 / 4)); auto.
Qed.

(** Rotations of the sky keep the length of vectors. *)
Theorem from_ecliptic_unit eps v :
  unit_vector (dx v) (dy v) (dz v) ->
  let w := from_ecliptic eps v in unit_vector (dx w) (dy w) (dz w).
Proof.
  intros H w. unfold unit_vector in *. unfold w, from_ecliptic. cbn. pose proof (sin2_cos2 eps) as E. unfold Rsqr in E.
  transitivity (dx v * dx v + (dy v * dy v + dz v * dz v) * (sin eps * sin eps + cos eps * cos eps)); [ring|].
  rewrite E. lra.
Qed.
Print Assumptions from_ecliptic_unit.

(** A direction given in ecliptic coordinates is visible if and only if its galactic colatitude is outside of
    the galactic stripe and its *equatorial* colatitude is outside of the other stripe;
    otherwise its visibility is zero. *)
Theorem vmap_visible galactic_of equatorial_of g1 g2 e1 e2 v :
  0 <= g1 <= PI -> 0 <= g2 <= PI -> 0 <= e1 <= PI -> 0 <= e2 <= PI ->
  let c := equatorial_of v in let g := galactic_of c in
  -1 <= dz c <= 1 -> -1 <= dz g <= 1 ->
  (within g1 g2 (colatitude (dz g)) \/ within e1 e2 (colatitude (dz c)) ->
     vmap galactic_of equatorial_of (g1, g2) (e1, e2) v = 0) /\
  (~ within g1 g2 (colatitude (dz g)) /\ ~ within e1 e2 (colatitude (dz c)) ->
     vmap galactic_of equatorial_of (g1, g2) (e1, e2) v = 1).
Proof.
  intros Hg1 Hg2 He1 He2 c g Hc Hg. unfold vmap, rotate, strip_map. cbn [fst snd]. fold c. fold g.
  rewrite <- (strip_colatitudes g1 g2 (dz g)), <- (strip_colatitudes e1 e2 (dz c)) by assumption.
  destruct (strip g1 g2 (dz g)), (strip e1 e2 (dz c)); split; intro H; try lra; exfalso;
    try (destruct H; discriminate); destruct H as [A B]; first [apply A; reflexivity|apply B; reflexivity].
Qed.
Print Assumptions vmap_visible.

(** The second stripe is documented to be located in ecliptic coordinates.  It is not: for every
    obliquity and every orientation of the galaxy there are stripes and a direction inside of the ecliptic stripe
    which is visible, and another one outside which is not. *)
Theorem vmap_ecliptic_stripe_refuted eps galactic_of :
  0 < eps < PI / 2 ->
  (forall v, unit_vector (dx v) (dy v) (dz v) ->
     let w := galactic_of v in unit_vector (dx w) (dy w) (dz w)) ->
  exists g1 g2 e1 e2 v w,
    0 <= g1 <= PI /\ 0 <= g2 <= PI /\ 0 <= e1 <= PI /\ 0 <= e2 <= PI /\
    unit_vector (dx v) (dy v) (dz v) /\ unit_vector (dx w) (dy w) (dz w) /\
    within e1 e2 (colatitude (dz v)) /\
    vmap galactic_of (from_ecliptic eps) (g1, g2) (e1, e2) v = 1 /\
    ~ within e1 e2 (colatitude (dz w)) /\
    vmap galactic_of (from_ecliptic eps) (g1, g2) (e1, e2) w = 0.
Proof.
  intros He Hgal.
  set (v := {| dx := 0; dy := 1; dz := 0 |}). set (w := {| dx := 0; dy := cos eps; dz := - sin eps |}).
  assert (Uv : unit_vector (dx v) (dy v) (dz v)) by (unfold unit_vector, v; cbn; ring).
  assert (Uw : unit_vector (dx w) (dy w) (dz w)).
  { unfold unit_vector, w; cbn. pose proof (sin2_cos2 eps) as E. unfold Rsqr in E. lra. }
  set (c := from_ecliptic eps v). set (g := galactic_of c).
  assert (Ug : unit_vector (dx g) (dy g) (dz g)) by (apply Hgal; apply from_ecliptic_unit; exact Uv).
  assert (Bz : -1 <= dz g <= 1). { unfold unit_vector in Ug. nra. }
  assert (Cv : colatitude (dz v) = PI / 2) by (unfold colatitude, v; cbn; apply acos_0).
  assert (Zc : dz c = cos (PI / 2 - eps)).
  { unfold c, v, from_ecliptic. cbn. rewrite cos_shift. ring. }
  assert (Cc : colatitude (dz c) = PI / 2 - eps) by (rewrite Zc; unfold colatitude; apply acos_cos; lra).
  assert (Cw : colatitude (dz w) = PI / 2 + eps).
  { unfold colatitude, w. cbn. replace (- sin eps) with (cos (PI / 2 + eps)); [apply acos_cos; lra|].
    symmetry. rewrite sin_cos. lra. }
  assert (Zw : dz (from_ecliptic eps w) = 0) by (unfold w, from_ecliptic; cbn; ring).
  assert (Hgw : -1 <= dz (galactic_of (from_ecliptic eps w)) <= 1).
  { pose proof (Hgal _ (from_ecliptic_unit eps w Uw)) as U. unfold unit_vector in U. cbv zeta in U. nra. }
  assert (K : exists g1 g2, 0 <= g1 <= PI /\ 0 <= g2 <= PI /\ ~ within g1 g2 (colatitude (dz g))).
  { destruct (Rlt_dec (colatitude (dz g)) (PI / 2)) as [H|H].
    - exists (PI / 2), PI. split; [lra|]. split; [lra|]. unfold within. lra.
    - exists 0, (PI / 4). split; [lra|]. split; [lra|]. unfold within. lra. }
  destruct K as (g1 & g2 & Hg1 & Hg2 & K).
  assert (Hwin : within (PI / 2 - eps / 2) (PI / 2 + eps / 2) (PI / 2)) by (unfold within; lra).
  exists g1, g2, (PI / 2 - eps / 2), (PI / 2 + eps / 2), v, w.
  split; [exact Hg1|]. split; [exact Hg2|]. split; [lra|]. split; [lra|]. split; [exact Uv|]. split; [exact Uw|].
  split; [rewrite Cv; exact Hwin|]. split.
  - apply (vmap_visible galactic_of (from_ecliptic eps)); try assumption; try lra.
    + fold c. rewrite Zc. pose proof (COS_bound (PI / 2 - eps)). lra.
    + split; [exact K|]. fold c. rewrite Cc. unfold within. lra.
  - split; [rewrite Cw; unfold within; lra|].
    apply (vmap_visible galactic_of (from_ecliptic eps)); try assumption; try lra.
    right. rewrite Zw. unfold colatitude. rewrite acos_0. exact Hwin.
Qed.
Print Assumptions vmap_ecliptic_stripe_refuted.

(** The default stripes are written in degrees, but the angles are in radians.  The galactic default
    stripe, 30 to 90, does not block the direction at a colatitude of 60 degrees, but the
    one at 100 degrees. *)
Theorem default_stripe_refuted :
  let (t1, t2) := default_galactic in
  within (degrees t1) (degrees t2) (degrees 60) /\ strip t1 t2 (cos (degrees 60)) = false /\
  ~ within (degrees t1) (degrees t2) (degrees 100) /\ strip t1 t2 (cos (degrees 100)) = true.
Proof.
  unfold default_galactic, degrees. pose proof pi_bounds as P.
  assert (E30 : cos 30 = cos (10 * PI - 30)).
  { rewrite <- (cos_neg (10 * PI - 30)). replace (- (10 * PI - 30)) with (30 - 2 * INR 5 * PI) by (simpl; ring).
    rewrite <- (cos_period (30 - 2 * INR 5 * PI) 5). f_equal. ring. }
  assert (E90 : cos 90 = cos (90 - 28 * PI)).
  { rewrite <- (cos_period (90 - 28 * PI) 14). f_equal. simpl. ring. }
  assert (L30 : cos 30 < cos (PI / 3)) by (rewrite E30; apply cos_decreasing_1; lra).
  assert (G30 : 0 < cos 30) by (rewrite E30; apply cos_gt_0; lra).
  assert (L90 : cos 90 < cos (100 * PI / 180)) by (rewrite E90; apply cos_decreasing_1; lra).
  assert (N100 : cos (100 * PI / 180) < 0) by (apply cos_lt_0; lra).
  split; [unfold within; lra|]. split; [|split; [unfold within; lra|]].
  - unfold strip. destruct (Rlt_dec 30 90) as [_|n]; [|exfalso; apply n; lra]. replace (60 * PI / 180) with (PI / 3) by field.
    destruct (Rlt_dec (cos (PI / 3)) (cos 30)); [exfalso; lra|]. apply Bool.andb_false_r.
  - unfold strip. destruct (Rlt_dec 30 90) as [_|n]; [|exfalso; apply n; lra].
    destruct (Rle_dec (cos 90) (cos (100 * PI / 180))) as [_|n]; [|exfalso; apply n; lra].
    destruct (Rlt_dec (cos (100 * PI / 180)) (cos 30)) as [_|n]; [reflexivity|exfalso; lra].
Qed.
Print Assumptions default_stripe_refuted.

(** The same for the default of the other stripe, from 20 to 80: taken as degrees, as documented, it contains the colatitude 30 and not 92;
    in the strip that is blocked, it is the other way around. *)
Theorem default_ecliptic_refuted :
  let (t1, t2) := default_ecliptic in
  within (degrees t1) (degrees t2) (degrees 30) /\ strip t1 t2 (cos (degrees 30)) = false /\
  ~ within (degrees t1) (degrees t2) (degrees 92) /\ strip t1 t2 (cos (degrees 92)) = true.
Proof.
  unfold default_ecliptic, degrees. pose proof pi_bounds as P.
  assert (E20 : cos 20 = cos (20 - 6 * PI)).
  { rewrite <- (cos_period (20 - 6 * PI) 3). f_equal. simpl. ring. }
  assert (E80 : cos 80 = cos (26 * PI - 80)).
  { rewrite <- (cos_neg (26 * PI - 80)). replace (- (26 * PI - 80)) with (80 - 2 * INR 13 * PI) by (simpl; ring).
    rewrite <- (cos_period (80 - 2 * INR 13 * PI) 13). f_equal. ring. }
  assert (A : cos 20 < cos (30 * PI / 180)) by (rewrite E20; apply cos_decreasing_1; lra).
  assert (B : cos (92 * PI / 180) < cos 20) by (rewrite E20; apply cos_decreasing_1; lra).
  assert (C : cos 80 < cos (92 * PI / 180)) by (rewrite E80; apply cos_decreasing_1; lra).
  split; [unfold within; lra|]. split; [|split; [unfold within; lra|]].
  - unfold strip. destruct (Rlt_dec 20 80) as [_|n]; [|exfalso; apply n; lra].
    destruct (Rlt_dec (cos (30 * PI / 180)) (cos 20)); [exfalso; lra|]. apply Bool.andb_false_r.
  - unfold strip. destruct (Rlt_dec 20 80) as [_|n]; [|exfalso; apply n; lra].
    destruct (Rle_dec (cos 80) (cos (92 * PI / 180))) as [_|n]; [|exfalso; apply n; lra].
    destruct (Rlt_dec (cos (92 * PI / 180)) (cos 20)) as [_|n]; [reflexivity|exfalso; lra].
Qed.
Print Assumptions default_ecliptic_refuted.


(** Nor are they colatitudes in radians: no direction has a colatitude in a default stripe. *)
Theorem default_colatitudes_refuted z :
  ~ within (fst default_galactic) (snd default_galactic) (colatitude z) /\
  ~ within (fst default_ecliptic) (snd default_ecliptic) (colatitude z).
Proof.
  unfold default_galactic, default_ecliptic, within, colatitude. cbn [fst snd].
  pose proof (acos_bound z). pose proof pi_bounds. lra.
Qed.
Print Assumptions default_colatitudes_refuted.

(** With equal coordinates, and stripes between 60 and 90 degrees and below the equator: the
    north pole is visible, the south pole and the equator are not. *)
Example vmap_example :
  vmap (fun v => v) (fun v => v) (PI / 3, PI / 2) (PI / 2, PI) {| dx := 0; dy := 0; dz := 1 |} = 1 /\
  vmap (fun v => v) (fun v => v) (PI / 3, PI / 2) (PI / 2, PI) {| dx := 0; dy := 0; dz := -1 |} = 0 /\
  vmap (fun v => v) (fun v => v) (PI / 3, PI / 2) (PI / 2, PI) {| dx := 1; dy := 0; dz := 0 |} = 0.
Proof.
  unfold vmap, rotate, strip_map, strip. cbn [fst snd dz]. pose proof PI_RGT_0. rewrite cos_PI3, cos_PI2, cos_PI.
  repeat match goal with |- context [Rlt_dec ?a ?b] => destruct (Rlt_dec a b); try (exfalso; lra) end;
  repeat match goal with |- context [Rle_dec ?a ?b] => destruct (Rle_dec a b); try (exfalso; lra) end;
  cbn [andb orb]; repeat split; ring.
Qed.
