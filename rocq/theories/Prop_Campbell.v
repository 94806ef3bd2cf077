(** Claims about sums over random points (C87). *)
From Coq Require Import Reals Lra Lia List.
From Coquelicot Require Import Coquelicot.
From Verif Require Import Base Model_Numeric Model_Arrays Model_Effective Model_Galaxies Model_Rng Model_Points.
From Verif Require Import Spec_Disc Spec_Arrays Spec_Points Spec_Uniform Spec_Poisson Spec_Campbell.
From Verif Require Import Proof_Galaxies Proof_Points Proof_Uniform Proof_Poisson Prop_Points Prop_Poisson.
Import ListNotations.
Local Open Scope R_scope.

(** * Sums of expected values *)
Definition rtotal (l : list R) : R := fold_right Rplus 0 l.
Lemma umeans_plus n : forall f g a b, umeans n f a -> umeans n g b -> umeans n (fun l => f l + g l) (a + b).
Proof.
  induction n as [|n IH]; intros f g a b; cbn [umeans]; [intros -> ->; reflexivity|].
  intros (f' & F & A) (g' & G & B). exists (fun u => f' u + g' u). split; [intros u Hu; apply IH; auto|apply rint_plus; assumption].
Qed.
Lemma umeans_total {X} n (F : X -> list R -> R) (M : X -> R) ts : (forall x, In x ts -> umeans n (F x) (M x)) ->
  umeans n (fun l => rtotal (map (fun x => F x l) ts)) (rtotal (map M ts)).
Proof.
  unfold rtotal. induction ts as [|x ts IH]; intro H; cbn [map fold_right]; [apply umeans_const|].
  apply umeans_plus; [apply H; left; reflexivity|apply IH; intros; apply H; right; assumption].
Qed.

(** * One and two points *)
Definition point (n : nat) (us : list R) (i : nat) : R * R := (lon_of (nth i us 0), lat_of (nth (n + i) us 0)).
Lemma point_mean n i (h : R -> R -> R) (g : R -> R) (m : R) : (i < n)%nat -> (forall u, 0 < u < 1 -> is_RInt (fun w => h (lon_of u) (lat_of w)) 0 1 (g u)) -> is_RInt g 0 1 m ->
  umeans (n + n) (fun us => h (fst (point n us i)) (snd (point n us i))) m.
Proof.
  intros Hi G M. apply (umeans_app n n _ (fun u => g (nth i u 0))); [|apply umeans_at; assumption].
  intros u L F. assert (Hu : 0 < nth i u 0 < 1) by (rewrite Forall_forall in F; apply F, nth_In; lia).
  eapply umeans_ext; [|apply (umeans_at n i (fun w => h (lon_of (nth i u 0)) (lat_of w)) _ Hi (G _ Hu))].
  intros w _ _. unfold point. cbn [fst snd]. rewrite app_nth1 by lia. rewrite app_nth2 by lia. replace (n + i - length u)%nat with i by lia. reflexivity.
Qed.
Lemma points_means n i j (h k : R -> R -> R) (gh gk : R -> R) (a b : R) : (i < n)%nat -> (j < n)%nat -> i <> j ->
  (forall u, 0 < u < 1 -> is_RInt (fun w => h (lon_of u) (lat_of w)) 0 1 (gh u)) -> is_RInt gh 0 1 a ->
  (forall u, 0 < u < 1 -> is_RInt (fun w => k (lon_of u) (lat_of w)) 0 1 (gk u)) -> is_RInt gk 0 1 b ->
  umeans (n + n) (fun us => h (fst (point n us i)) (snd (point n us i)) * k (fst (point n us j)) (snd (point n us j))) (a * b).
Proof.
  intros Hi Hj Hd Gh Mh Gk Mk. apply (umeans_app n n _ (fun u => gh (nth i u 0) * gk (nth j u 0))); [|apply umeans_two; assumption].
  intros u L F. assert (Hu : 0 < nth i u 0 < 1) by (rewrite Forall_forall in F; apply F, nth_In; lia).
  assert (Hv : 0 < nth j u 0 < 1) by (rewrite Forall_forall in F; apply F, nth_In; lia).
  eapply umeans_ext; [|apply (umeans_two n i j (fun w => h (lon_of (nth i u 0)) (lat_of w)) (fun w => k (lon_of (nth j u 0)) (lat_of w)) _ _ Hi Hj Hd (Gh _ Hu) (Gk _ Hv))].
  intros w _ _. unfold point. cbn [fst snd]. rewrite (app_nth1 u w 0 (n := i)), (app_nth1 u w 0 (n := j)), (app_nth2 u w 0 (n := n + i)), (app_nth2 u w 0 (n := n + j)) by lia.
  replace (n + i - length u)%nat with i by lia. replace (n + j - length u)%nat with j by lia. reflexivity.
Qed.

(** * Sums over points *)
Lemma total_mult {X Y} (f : X -> R) (g : Y -> R) l l' : rtotal (map f l) * rtotal (map g l') = rtotal (map (fun x => rtotal (map (fun y => f x * g y) l')) l).
Proof.
  unfold rtotal. induction l as [|x l IH]; cbn [map fold_right]; [ring|]. rewrite <- IH.
  assert (E : fold_right Rplus 0 (map (fun y => f x * g y) l') = f x * fold_right Rplus 0 (map g l')).
  { clear. induction l' as [|y l' IH]; cbn [map fold_right]; [ring|]. rewrite IH. ring. }
  rewrite E. ring.
Qed.
Lemma total_same {X} (c : R) (l : list X) : rtotal (map (fun _ => c) l) = INR (length l) * c.
Proof. unfold rtotal. induction l as [|x l IH]; [cbn; ring|]. cbn [map fold_right length]. rewrite IH, S_INR. ring. Qed.
Lemma total_diagonal (c d : R) i l : NoDup l -> In i l -> rtotal (map (fun j => if Nat.eqb i j then c else d) l) = c + INR (length l - 1) * d.
Proof.
  intros N I. apply in_split in I as (l1 & l2 & ->). apply NoDup_remove_2 in N.
  assert (Z : forall l', (forall j, In j l' -> In j (l1 ++ l2)) -> rtotal (map (fun j => if Nat.eqb i j then c else d) l') = INR (length l') * d).
  { induction l' as [|j l' IH]; intro H; [cbn; ring|]. unfold rtotal in *. cbn [map fold_right length]. rewrite IH by (intros; apply H; right; assumption). rewrite S_INR.
    destruct (Nat.eqb_spec i j) as [->|]; [exfalso; apply N, H; left; reflexivity|ring]. }
  assert (T : forall a b, rtotal (a ++ b) = rtotal a + rtotal b) by (intros a b; unfold rtotal; induction a as [|x a IH]; cbn [app fold_right]; [ring|rewrite IH; ring]).
  rewrite map_app, T. change (rtotal (map ?f (i :: l2))) with (f i + rtotal (map f l2)). cbn beta. rewrite Nat.eqb_refl.
  rewrite !Z by (intros; apply in_or_app; tauto). rewrite app_length. cbn [length]. replace (length l1 + S (length l2) - 1)%nat with (length l1 + length l2)%nat by lia. rewrite plus_INR. ring.
Qed.
Lemma total_ext {X} (f g : X -> R) l : (forall x, In x l -> f x = g x) -> rtotal (map f l) = rtotal (map g l).
Proof. intro H. f_equal. apply map_ext_in. exact H. Qed.

Lemma sums_first n h m : (forall l, -180 < l < 180 -> patched (h l)) -> sphere_mean h m ->
  umeans (n + n) (fun us => rtotal (map (fun i => h (fst (point n us i)) (snd (point n us i))) (seq 0 n))) (INR n * m).
Proof.
  intros Hh Hm. destruct (sphere_units h m Hh Hm) as (g & G & M).
  pose proof (umeans_total (n + n) (fun i us => h (fst (point n us i)) (snd (point n us i))) (fun _ => m) (seq 0 n)) as T.
  rewrite total_same, seq_length in T. apply T. intros i Hi. apply in_seq in Hi. apply (point_mean n i h g m); [lia|assumption|assumption].
Qed.
Lemma sums_second n h k a b c : (forall l, -180 < l < 180 -> patched (h l)) -> sphere_mean h a -> (forall l, -180 < l < 180 -> patched (k l)) -> sphere_mean k b ->
  (forall l, -180 < l < 180 -> patched (fun x => h l x * k l x)) -> sphere_mean (fun l x => h l x * k l x) c ->
  umeans (n + n) (fun us => rtotal (map (fun i => h (fst (point n us i)) (snd (point n us i))) (seq 0 n)) * rtotal (map (fun i => k (fst (point n us i)) (snd (point n us i))) (seq 0 n)))
    (INR n * (c + INR (n - 1) * (a * b))).
Proof.
  intros Hh Ha Hk Hb Hhk Hc. destruct (sphere_units h a Hh Ha) as (gh & Gh & Mh). destruct (sphere_units k b Hk Hb) as (gk & Gk & Mk).
  destruct (sphere_units _ c Hhk Hc) as (g & G & M).
  set (H := fun i us => h (fst (point n us i)) (snd (point n us i))). set (K := fun i us => k (fst (point n us i)) (snd (point n us i))).
  pose proof (umeans_total (n + n) (fun i us => rtotal (map (fun j => H i us * K j us) (seq 0 n))) (fun i => rtotal (map (fun j => if Nat.eqb i j then c else a * b) (seq 0 n))) (seq 0 n)) as T.
  rewrite (total_ext (fun i => rtotal (map (fun j => if Nat.eqb i j then c else a * b) (seq 0 n))) (fun _ => c + INR (n - 1) * (a * b)) (seq 0 n)) in T.
  2:{ intros i Hi. rewrite total_diagonal by (assumption || apply seq_NoDup). rewrite seq_length. reflexivity. }
  rewrite total_same, seq_length in T. eapply umeans_ext; [|apply T].
  - intros us _ _. cbn beta. symmetry. apply (total_mult (fun i => H i us) (fun j => K j us)).
  - intros i Hi. apply umeans_total. intros j Hj. apply in_seq in Hi, Hj. destruct (Nat.eqb_spec i j) as [<-|Hd].
    + apply (point_mean n i (fun l x => h l x * k l x) g c); [lia|assumption|assumption].
    + apply (points_means n i j h k gh gk a b); auto; lia.
Qed.

(** * The points of the code *)
Definition one_population (ngal : R) : array R := {| ashape := []; aget := fun _ => ngal |}.
Lemma nth_firstn (l : list R) n i : (i < n)%nat -> nth i (firstn n l) 0 = nth i l 0.
Proof. revert n i. induction l as [|x l IH]; intros [|n] [|i] H; try lia; try reflexivity. cbn [firstn nth]. apply IH. lia. Qed.
Lemma nth_skipn (l : list R) n i : nth i (skipn n l) 0 = nth (n + i) l 0.
Proof. revert l. induction n as [|n IH]; intros [|x l]; cbn [skipn nth Nat.add]; [reflexivity|reflexivity|destruct i; reflexivity|apply IH]. Qed.
Lemma drawn ngal n us : length us = (n + n)%nat -> exists lon lat c s',
  uniform_positions counts_first ranges_second (one_population ngal) ([(sphere_area * ngal, n)], us) = ([(lon, lat, c)], s') /\
  aget c [] = n /\ length lon = n /\ length lat = n /\ combine lon lat = map (point n us) (seq 0 n).
Proof.
  intro L. unfold uniform_positions, one_population. cbn [ashape aget]. unfold ndindex. cbn [map]. rewrite sphere_area_eq.
  unfold counts_first, counts_of. cbn [fst snd combine map length skipn]. destruct (Req_EM_T _ _) as [_|N]; [|contradiction].
  cbn [uniform_loop]. unfold ranges_second, ranges. cbn [fst snd]. eexists _, _, _, _. split; [reflexivity|]. cbn [aget]. split; [reflexivity|].
  split; [rewrite map_length, firstn_length; lia|]. split; [rewrite !map_length, firstn_length, skipn_length; lia|].
  rewrite map_map. change (combine (map lon_of (firstn n us)) (map lat_of (firstn n (skipn n us))) = map (point n us) (seq 0 n)).
  apply (nth_ext _ _ (lon_of 0, lat_of 0) (lon_of 0, lat_of 0)); [rewrite combine_length, !map_length, firstn_length, firstn_length, skipn_length, seq_length; lia|].
  intros i Hi. rewrite combine_length, !map_length, !firstn_length, skipn_length in Hi. rewrite combine_nth by (rewrite !map_length, !firstn_length, skipn_length; lia).
  rewrite (map_nth lon_of), (map_nth lat_of), !nth_firstn, nth_skipn by lia.
  assert (Hs : nth_error (seq 0 n) i = Some i) by (rewrite (nth_error_nth' _ 0%nat) by (rewrite seq_length; lia); f_equal; apply List.seq_nth; lia).
  symmetry. apply nth_error_nth. rewrite (map_nth_error (point n us) _ _ Hs). reflexivity.
Qed.

(** C87 *)

(** Campbell's formulas for [uniform_positions]: the expected sum over all points of a function of position is the expected number
    of points times the mean of the function over the sphere, and the covariance of two such sums is the expected number of
    points times the mean of the product of the functions. *)
Theorem uniform_positions_sums ngal h k a b c :
  (forall l, -180 < l < 180 -> patched (h l)) -> sphere_mean h a -> (forall l, -180 < l < 180 -> patched (k l)) -> sphere_mean k b ->
  (forall l, -180 < l < 180 -> patched (fun x => h l x * k l x)) -> sphere_mean (fun l x => h l x * k l x) c ->
  let lam := sphere_area * ngal in
  let points s := fst (uniform_positions counts_first ranges_second {| ashape := []; aget := fun _ => ngal |} s) in
  points_mean [lam] (fun s => sum_over h (points s)) (lam * a) /\
  points_mean [lam] (fun s => sum_over h (points s) * sum_over k (points s)) ((lam * a) * (lam * b) + lam * c).
Proof.
  intros Hh Ha Hk Hb Hhk Hc lam points. fold (one_population ngal) in points.
  assert (E : forall n us f, length us = (n + n)%nat -> sum_over f (points ([(lam, n)], us)) = rtotal (map (fun i => f (fst (point n us i)) (snd (point n us i))) (seq 0 n))).
  { intros n us f L. unfold points, lam. destruct (drawn ngal n us L) as (lon & lat & ct & s' & -> & _ & _ & _ & Ec). unfold sum_over. cbn [fst map concat]. rewrite app_nil_r, Ec, map_map. reflexivity. }
  split.
  - exists (fun ns => INR (hd 0%nat ns) * a). split.
    + intros [|n [|]] Ln; try discriminate. cbn [hd list_sum fold_right combine]. replace (2 * (n + 0))%nat with (n + n)%nat by lia.
      eapply umeans_ext; [|apply (sums_first n h a Hh Ha)]. intros us L _. symmetry. apply E, L.
    + cbn [counts_mean hd]. exists (fun n => INR n * a). split; [reflexivity|].
      eapply poisson_ext; [apply (poisson_scal lam _ _ a (poisson_number lam))|intro; cbn beta; ring|ring].
  - exists (fun ns => INR (hd 0%nat ns) * (c + INR (hd 0%nat ns - 1) * (a * b))). split.
    + intros [|n [|]] Ln; try discriminate. cbn [hd list_sum fold_right combine]. replace (2 * (n + 0))%nat with (n + n)%nat by lia.
      eapply umeans_ext; [|apply (sums_second n h k a b c); assumption]. intros us L _. symmetry. cbn beta. rewrite !E by exact L. reflexivity.
    + cbn [counts_mean hd]. exists (fun n => INR n * (c + INR (n - 1) * (a * b))). split; [reflexivity|].
      eapply poisson_ext; [apply (poisson_shift lam (fun n => c + INR (n - 1) * (a * b)) (c + lam * (a * b)))|reflexivity|ring].
      eapply poisson_ext; [apply (poisson_plus lam _ _ _ _ (poisson_const lam c) (poisson_scal lam _ _ (a * b) (poisson_number lam)))| |ring].
      intro n. cbn beta. replace (S n - 1)%nat with n by lia. ring.
Qed.
Print Assumptions uniform_positions_sums.

(** The number of points in a region. *)
Definition in_patch (r : region) (l b : R) : R := hit (fst r) l * hit (snd r) b.
Lemma patch_patched r l : proper r -> patched (in_patch r l).
Proof.
  intros (_ & _ & H1 & H2). exists [(snd r, fun _ => hit (fst r) l)]. split.
  - intros c s [E|[]]. injection E as <- <-. split; [exact H1|]. split; [exact H2|]. intro x. apply continuous_const.
  - intros x _. cbn [map fold_right fst snd]. unfold in_patch. ring.
Qed.
Lemma patch_mean r p : proper r -> covers r p -> sphere_mean (in_patch r) p.
Proof.
  destruct r as [[a b] [c d]]. intros (H1 & H2 & H3 & H4) (h & Ih & ->). cbn [fst snd] in *. pose proof PI_RGT_0 as PP.
  exists (fun l => hit (a, b) l * ((sin (angle d) - sin (angle c)) * (180 / PI))). split.
  - intros l _. eapply is_RInt_ext; [|apply (rint_scal _ (hit (a, b) l) _ _ _ (hit_integral _ (-90) 90 c d _ ltac:(lra) ltac:(lra) ltac:(lra) (cos_integral c d)))].
    intros x _. unfold in_patch. cbn [fst snd]. match goal with |- ?x = ?y => change (@eq R x y) end. ring.
  - assert (Eh : h = sin (angle d) - sin (angle c)).
    { apply (rint_unique cos (angle c) (angle d)); [exact Ih|].
      apply (is_RInt_derive (V := R_CompleteNormedModule) sin cos).
      - intros. auto_derive; [exact I|ring].
      - intros w _. apply (ex_derive_continuous (V := R_NormedModule)). auto_derive. exact I. }
    rewrite Eh. set (v := (sin (angle d) - sin (angle c)) * (180 / PI)).
    replace ((angle b - angle a) * (sin (angle d) - sin (angle c)) / (4 * PI) * (4 * PI * (180 / PI) ^ 2)) with ((b - a) * v) by (unfold v; generalize (sin (angle d) - sin (angle c)); intro z; match goal with |- ?x = ?y => change (@eq R x y) end; unfold angle; field; lra).
    apply hit_integral; [lra|lra|lra|]. exact (is_RInt_const (V := R_NormedModule) a b v).
Qed.
Lemma octant : covers ((0, 90), (0, 90)) (1 / 8).
Proof.
  pose proof PI_RGT_0 as PP. exists 1. cbn [fst snd]. split.
  - replace (angle 0) with 0 by (unfold angle; field). replace (angle 90) with (PI / 2) by (unfold angle; field).
    replace 1 with (sin (PI / 2) - sin 0) by (rewrite sin_PI2, sin_0; ring).
    apply (is_RInt_derive (V := R_CompleteNormedModule) sin cos).
    + intros. auto_derive; [exact I|ring].
    + intros w _. apply (ex_derive_continuous (V := R_NormedModule)). auto_derive. exact I.
  - unfold angle. field. lra.
Qed.
(** If 24 points are expected on the sphere, there are three in an octant on average, and the mean of the square is twelve. *)
Example uniform_positions_sums_example :
  let points s := fst (uniform_positions counts_first ranges_second {| ashape := []; aget := fun _ => 24 / sphere_area |} s) in
  points_mean [sphere_area * (24 / sphere_area)] (fun s => sum_over (in_patch ((0, 90), (0, 90))) (points s)) 3 /\
  points_mean [sphere_area * (24 / sphere_area)] (fun s => sum_over (in_patch ((0, 90), (0, 90))) (points s) * sum_over (in_patch ((0, 90), (0, 90))) (points s)) 12.
Proof.
  pose proof PI_RGT_0 as PP. assert (Hs : 0 < sphere_area).
  { unfold sphere_area. apply Rmult_lt_0_compat; [lra|]. apply pow_lt. apply Rdiv_lt_0_compat; lra. }
  assert (Pr : proper ((0, 90), (0, 90))) by (unfold proper; cbn; lra).
  assert (Sq : forall l x, in_patch ((0, 90), (0, 90)) l x * in_patch ((0, 90), (0, 90)) l x = in_patch ((0, 90), (0, 90)) l x).
  { intros l x. unfold in_patch. destruct (hit_values (fst ((0, 90), (0, 90))) l) as [-> | ->], (hit_values (snd ((0, 90), (0, 90))) x) as [-> | ->]; ring. }
  destruct (uniform_positions_sums (24 / sphere_area) (in_patch ((0, 90), (0, 90))) (in_patch ((0, 90), (0, 90))) (1 / 8) (1 / 8) (1 / 8)) as [M1 M2].
  - intros; apply patch_patched, Pr.
  - apply patch_mean; [exact Pr|exact octant].
  - intros; apply patch_patched, Pr.
  - apply patch_mean; [exact Pr|exact octant].
  - intros l _. destruct (patch_patched _ l Pr) as (ps & A & B). exists ps. split; [exact A|]. intros x Hx. rewrite Sq. apply B, Hx.
  - destruct (patch_mean _ _ Pr octant) as (g & G & M). exists g. split; [|exact M]. intros l Hl. eapply is_RInt_ext; [|apply (G l Hl)].
    intros x _. cbn beta. rewrite Sq. reflexivity.
  - intro points. replace (sphere_area * (24 / sphere_area) * (1 / 8)) with 3 in M1, M2 by (field; lra).
    replace (3 * 3 + 3) with 12 in M2 by ring. split; [exact M1|exact M2].
Qed.
