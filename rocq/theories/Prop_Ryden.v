(** Claims about the distribution of the shapes of projected ellipsoids (C89). *)
From Coq Require Import Reals Lra Lia List.
From Coquelicot Require Import Coquelicot.
From Verif Require Import Base Model_Numeric Model_Arrays Model_Galaxies Model_Shapes.
From Verif Require Import Spec_Gauss Spec_Erf Spec_Uniform Spec_Photoz Spec_Disc Spec_Shapes Spec_Truncated.
From Verif Require Import Proof_Gauss Proof_Normals Proof_Erf Proof_Uniform Proof_Shapes Proof_Reject Proof_Truncated Prop_Erf Prop_Photoz Prop_Truncated.
Import ListNotations.
Local Open Scope R_scope.

(** * The two sources of numbers *)
Lemma redraw_normals rej fuel m sd : forall x n u, redraw_normal some_normal rej fuel m sd x (n, u) =
  match redraw_normal standard rej fuel m sd x n with Ok (x, n) => Ok (x, (n, u)) | Err e => Err e end.
Proof.
  induction fuel as [|fuel IH]; intros x n u; cbn [redraw_normal]; destruct (existsb _ _); try reflexivity.
  unfold some_normal at 1. cbn [fst snd]. destruct (standard n _ _) as [y n']. apply IH.
Qed.
Lemma overwrite_le {A} bad : forall (x new : list A), (length (overwrite bad x new) <= length x)%nat.
Proof.
  induction bad as [|[] bad IH]; intros [|y x] new; cbn [overwrite length]; try lia.
  - destruct new as [|v new]; cbn [length]; [lia|]. specialize (IH x new). lia.
  - specialize (IH x new). lia.
Qed.
Lemma redrawn rej fuel m sd : forall x n y n', redraw_normal standard rej fuel m sd x n = Ok (y, n') ->
  (length y <= length x)%nat /\ Forall (fun v => rej v = false) y.
Proof.
  assert (G : forall x, existsb (fun b => b) (map rej x) = false -> Forall (fun v => rej v = false) x).
  { induction x as [|v x IH]; cbn [map existsb]; intro B; [constructor|]. apply Bool.orb_false_iff in B as [B1 B2]. constructor; auto. }
  induction fuel as [|fuel IH]; intros x n y n'; cbn [redraw_normal]; destruct (existsb _ _) eqn:B; try discriminate.
  - intros [= <- <-]. split; [lia|auto].
  - destruct (standard n _ _) as [z n1]. intro H. apply IH in H as [H1 H2]. split; [|exact H2].
    pose proof (overwrite_le (map rej x) x z). lia.
  - intros [= <- <-]. split; [lia|auto].
Qed.
Lemma standard_le s m sd : (length (fst (standard s m sd)) <= length m)%nat.
Proof. unfold standard. cbn [fst]. rewrite map_length, !combine_length. lia. Qed.

(** The first part of [ellipticity_ryden04], in which normal numbers are drawn. *)
Definition axes (k : nat) (mu sd ga sg l : list R) : result (list R * list R) :=
  let '(eps, s) := standard l mu sd in
  do r <- redraw_normal standard (fun e => ltb 0 e) k mu sd eps s;
  let '(eps, s) := r in
  let '(gam, s) := standard s ga sg in
  do r <- redraw_normal standard (fun g => ltb g 0 || ltb 1 g) k ga sg gam s;
  Ok (eps, fst r).
(** The second part, in which uniform numbers are drawn. *)
Definition seen (eps gam w : list R) : list (option C) :=
  let zeta := map (fun e => - (exp e - 1)) eps in
  let xi := map (fun p => (1 - fst p) * snd p) (combine gam zeta) in
  let n := length eps in
  let u := map (fun u => -1 + (1 - -1) * u) (firstn n w) in
  let phi := map (fun u => 0 + (2 * PI - 0) * u) (firstn n (skipn n w)) in
  let q := map (fun p => axis_ratio (fst (fst p)) (snd (fst p)) (fst (snd p)) (snd (snd p))) (combine (combine zeta xi) (combine u phi)) in
  let t := map (fun u => 0 + (2 * PI - 0) * u) (firstn (length q) (skipn n (skipn n w))) in
  map (fun p => option_map (fun q => Cmult (polar_complex 1 (snd p)) (RtoC ((1 - q) / (1 + q)))) (fst p)) (combine q t).

Lemma ryden_parts k mu sd ga sg l w fs : times_of fs (ellipticity_ryden04 some_normal some_uniform k mu sd ga sg (l, w)) =
  match axes k mu sd ga sg l with Ok (eps, gam) => times fs (seen eps gam w) | Err _ => 0 end.
Proof.
  unfold ellipticity_ryden04, axes. unfold some_normal at 1. cbn [fst snd]. destruct (standard l mu sd) as [x s].
  rewrite redraw_normals. destruct (redraw_normal standard _ _ _ _ x s) as [[eps s1]|]; cbn [bind]; [|reflexivity].
  unfold some_normal at 1. cbn [fst snd]. destruct (standard s1 ga sg) as [y s2].
  rewrite redraw_normals. destruct (redraw_normal standard _ _ _ _ y s2) as [[gam s3]|]; cbn [bind fst]; [|reflexivity].
  unfold triaxial_axis_ratio, some_uniform, ranges. cbn [fst snd times_of]. rewrite map_length. reflexivity.
Qed.

Lemma not_less a b : ltb a b = false -> b <= a.
Proof. unfold ltb. destruct (Rlt_dec a b); [discriminate|]. intros _. lra. Qed.

(** * One galaxy *)
Definition model_galaxy (e c a b t : R) : option C :=
  option_map (fun q => Cmult (polar_complex 1 (0 + (2 * PI - 0) * t)) (RtoC ((1 - q) / (1 + q))))
    (axis_ratio (- (exp e - 1)) ((1 - c) * - (exp e - 1)) (-1 + (1 - -1) * a) (0 + (2 * PI - 0) * b)).
Lemma model_galaxy_ok e c a b t : 0 <= a <= 1 -> galaxy e c (2 * a - 1) (2 * PI * b) (2 * PI * t) (model_galaxy e c a b t).
Proof.
  intro Ha. unfold model_galaxy, galaxy.
  replace (- (exp e - 1)) with (1 - exp e) by ring. replace (-1 + (1 - -1) * a) with (2 * a - 1) by ring.
  replace (0 + (2 * PI - 0) * b) with (2 * PI * b) by ring. replace (0 + (2 * PI - 0) * t) with (2 * PI * t) by ring.
  eexists. split; [apply axis_ratio_ok; lra|]. destruct (axis_ratio _ _ _ _) as [q|]; [|reflexivity]. cbn [option_map]. f_equal.
  unfold polar_complex, Cmult, RtoC. cbn [fst snd]. f_equal; ring.
Qed.
Lemma galaxy_unique e c u phi t o o' : galaxy e c u phi t o -> galaxy e c u phi t o' -> o = o'.
Proof. intros (q & A & ->) (q' & A' & ->). f_equal. eapply apparent_ratio_unique; eassumption. Qed.

(** The population with the functions that give what is expected. *)
Definition solution (g : population) (x : (R -> R -> list R -> R) * (R -> R -> R) * (R -> R)) : Prop :=
  let '(v, h, w) := x in
    (forall e c a b t o, e <= 0 -> 0 <= c <= 1 -> 0 < a < 1 -> 0 < b < 1 -> 0 < t < 1 ->
      galaxy e c (2 * a - 1) (2 * PI * b) (2 * PI * t) o -> v e c [a; b; t] = ask g o) /\
    (forall e c, e <= 0 -> 0 <= c <= 1 -> umeans 3 (v e c) (h e c)) /\
    (forall e, e <= 0 -> truncated (thin g) (thin_sd g) (Some 0) (Some 1) (h e) (thin_chance g) (w e)) /\
    truncated (flat g) (flat_sd g) None (Some 0) w (flat_chance g) (expected g).
Lemma solutions gs : Forall expects gs -> exists xs, Forall2 solution gs xs.
Proof. induction 1 as [|g gs (v & h & w & H) _ (xs & IH)]; [exists []; constructor|]. exists ((v, h, w) :: xs). constructor; [exact H|exact IH]. Qed.
Definition val (x : (R -> R -> list R -> R) * (R -> R -> R) * (R -> R)) := fst (fst x).
Definition hval (x : (R -> R -> list R -> R) * (R -> R -> R) * (R -> R)) := snd (fst x).
Definition wval (x : (R -> R -> list R -> R) * (R -> R -> R) * (R -> R)) := snd x.

(** Expected values for given axis ratios. *)
Fixpoint given (xs : list ((R -> R -> list R -> R) * (R -> R -> R) * (R -> R))) (eps gam : list R) : R :=
  match xs, eps, gam with
  | [], [], [] => 1
  | x :: xs, e :: eps, c :: gam => hval x e c * given xs eps gam
  | _, _, _ => 0
  end.

Lemma times_short {A} (fs : list (A -> R)) : forall l, length l <> length fs -> times fs l = 0.
Proof. induction fs as [|f fs IH]; intros [|x l] H; cbn in *; try reflexivity; [lia|]. rewrite IH by lia. ring. Qed.
Lemma given_short xs : forall eps gam, length eps <> length xs \/ length gam <> length xs -> given xs eps gam = 0.
Proof. induction xs as [|x xs IH]; intros [|e eps] [|c gam] H; cbn in *; try reflexivity; [lia|]. rewrite IH by lia. ring. Qed.
Lemma seen_length eps gam w : (length (seen eps gam w) <= length eps)%nat /\ (length (seen eps gam w) <= length gam)%nat.
Proof. unfold seen. repeat rewrite ?map_length, ?combine_length. lia. Qed.

Lemma seen_means gs xs eps gam M : Forall2 solution gs xs -> (length eps <= length gs)%nat -> (length gam <= length gs)%nat ->
  Forall (fun e => ltb 0 e = false) eps -> Forall (fun c => ltb c 0 || ltb 1 c = false) gam -> (3 * length gs <= M)%nat ->
  umeans M (fun w => times (map ask gs) (seen eps gam w)) (given xs eps gam).
Proof.
  intros HF Le Lg Fe Fg HM. assert (Lx : length xs = length gs) by (clear - HF; induction HF; cbn; congruence).
  destruct (Nat.eq_dec (length eps) (length gs)) as [Ee|Ne].
  2:{ rewrite given_short by lia. apply (umeans_ext _ (fun _ => 0)); [|apply umeans_const].
      intros w _ _. symmetry. apply times_short. rewrite map_length. pose proof (seen_length eps gam w). lia. }
  destruct (Nat.eq_dec (length gam) (length gs)) as [Eg|Ng].
  2:{ rewrite given_short by lia. apply (umeans_ext _ (fun _ => 0)); [|apply umeans_const].
      intros w _ _. symmetry. apply times_short. rewrite map_length. pose proof (seen_length eps gam w). lia. }
  set (vals := map (fun p => val (fst p) (fst (snd p)) (snd (snd p))) (combine xs (combine eps gam))).
  assert (Lv : length vals = length gs) by (unfold vals; rewrite map_length, !combine_length; lia).
  assert (Fe' : Forall (fun e => e <= 0) eps).
  { eapply Forall_impl; [|exact Fe]. intros e H. apply not_less in H. exact H. }
  assert (Fg' : Forall (fun c => 0 <= c <= 1) gam).
  { eapply Forall_impl; [|exact Fg]. intros c H. apply Bool.orb_false_iff in H as [H1 H2]. apply not_less in H1, H2. lra. }
  apply (umeans_ext _ (batches 3 vals)).
  - intros w Lw Fw. cbn [batches]. rewrite Lv.
    set (a := firstn (length gs) w). set (w1 := skipn (length gs) w).
    assert (La : length a = length gs) by (apply firstn_length_le; lia).
    assert (Fa : Forall (fun u => 0 < u < 1) a /\ Forall (fun u => 0 < u < 1) w1) by (rewrite <- (firstn_skipn (length gs) w) in Fw; apply Forall_app in Fw; exact Fw).
    assert (Lw1 : (2 * length gs <= length w1)%nat) by (unfold w1; rewrite skipn_length; lia).
    rewrite map_length, combine_length, Lv, La, Nat.min_id.
    set (b := firstn (length gs) w1). set (w2 := skipn (length gs) w1).
    assert (Lb : length b = length gs) by (apply firstn_length_le; lia).
    assert (Fb : Forall (fun u => 0 < u < 1) b /\ Forall (fun u => 0 < u < 1) w2) by (destruct Fa as [_ F]; rewrite <- (firstn_skipn (length gs) w1) in F; apply Forall_app in F; exact F).
    rewrite map_length, combine_length, map_length, combine_length, Lv, La, Lb, !Nat.min_id.
    set (c := firstn (length gs) w2). assert (Lc : length c = length gs) by (apply firstn_length_le; unfold w2; rewrite skipn_length; lia).
    assert (Fc : Forall (fun u => 0 < u < 1) c) by (destruct Fb as [_ F]; rewrite <- (firstn_skipn (length gs) w2) in F; apply Forall_app in F; apply F).
    unfold seen. rewrite Ee. fold a w1. fold b w2.
    rewrite !map_length, !combine_length, !map_length, !combine_length, !map_length, Ee, Eg, La, Lb, !Nat.min_id. fold c.
    destruct Fa as [Fa _], Fb as [Fb _]. clearbody a b c. unfold vals. clear - HF Ee Eg Fe' Fg' La Lb Lc Fa Fb Fc.
    revert eps gam a b c Ee Eg Fe' Fg' La Lb Lc Fa Fb Fc.
    induction HF as [|g x gs xs Hx _ IH]; intros [|e eps] [|c0 gam] [|u a] [|f b] [|t c] Ee Eg Fe Fg La Lb Lc Fa Fb Fc; try discriminate; [reflexivity|].
    inversion Fe; inversion Fg; inversion Fa; inversion Fb; inversion Fc; subst.
    cbn [combine map product fold_right times fst snd length] in *. f_equal.
    + destruct x as [[v h] w]. destruct Hx as (Hv & _). unfold val. cbn [fst snd]. apply Hv; try assumption.
      change (galaxy e c0 (2 * u - 1) (2 * PI * f) (2 * PI * t) (model_galaxy e c0 u f t)). apply model_galaxy_ok. lra.
    + apply IH; try assumption; lia.
  - replace (given xs eps gam) with (product (map (fun p => hval (fst p) (fst (snd p)) (snd (snd p))) (combine xs (combine eps gam)))).
    + apply batches_mean; [|lia]. unfold vals. clear - HF Ee Eg Fe' Fg'.
      revert eps gam Ee Eg Fe' Fg'. induction HF as [|g x gs xs Hx _ IH]; intros [|e eps] [|c gam] Ee Eg Fe Fg; try discriminate; [constructor|].
      inversion Fe; inversion Fg; subst. cbn [combine map fst snd length] in *. constructor; [|apply IH; try assumption; lia].
      destruct x as [[v h] w]. destruct Hx as (_ & Hh & _). apply Hh; assumption.
    + clear - Ee Eg Lx. revert gs eps gam Ee Eg Lx. induction xs as [|x xs IH]; intros gs [|e eps] [|c gam] Ee Eg Lx; cbn in Ee, Eg, Lx; try lia; [reflexivity|].
      destruct gs as [|g gs]; [discriminate|]. cbn [combine map product fold_right given fst snd length] in *. f_equal. apply (IH gs); lia.
Qed.

(** * The normal numbers *)
Definition flat_item (d : nat) (g : population) (x : (R -> R -> list R -> R) * (R -> R -> R) * (R -> R)) : item :=
  {| loc := flat g; dev := flat_sd g; rej := (fun e => ltb 0 e); tst := (fun e => wval x e * (1 - (1 - thin_chance g) ^ d));
     cha := flat_chance g; ave := expected g * (1 - (1 - thin_chance g) ^ d) |}.
Definition thin_item (e : R) (g : population) (x : (R -> R -> list R -> R) * (R -> R -> R) * (R -> R)) : item :=
  {| loc := thin g; dev := thin_sd g; rej := (fun c => ltb c 0 || ltb 1 c); tst := hval x e; cha := thin_chance g; ave := wval x e |}.
Lemma flat_good d g x : solution g x -> good (flat_item d g x).
Proof.
  destruct x as [[v h] w]. intros (_ & _ & _ & M0 & P & M1).
  assert (E : forall u, acc (flat_item d g (v, h, w)) u = between None (Some 0) u).
  { intro u. unfold acc, between, flat_item, ltb. cbn [rej]. destruct (Rlt_dec 0 u), (Rle_dec u 0); lra. }
  split; [|split; [exact P|]].
  - eapply mean_ext; [|exact M0]. intro u. cbn beta. symmetry. apply E.
  - cbn [flat_item tst loc dev ave cha]. unfold wval. cbn [snd].
    eapply mean_eq; [apply (mean_scal _ (1 - (1 - thin_chance g) ^ d) _ M1)| |ring]. intro u. cbn beta. fold (flat_item d g (v, h, w)). rewrite E. ring.
Qed.
Lemma thin_good e g x : e <= 0 -> solution g x -> good (thin_item e g x).
Proof.
  destruct x as [[v h] w]. intros He (_ & _ & H & _). destruct (H e He) as (M0 & P & M1).
  assert (E : forall u, acc (thin_item e g (v, h, w)) u = between (Some 0) (Some 1) u).
  { intro u. unfold acc, between, thin_item, ltb. cbn [rej]. destruct (Rlt_dec u 0), (Rlt_dec 1 u), (Rle_dec 0 u), (Rle_dec u 1); cbn; lra. }
  split; [|split; [exact P|]].
  - eapply mean_ext; [|exact M0]. intro u. cbn beta. symmetry. apply E.
  - eapply mean_ext; [|exact M1]. intro u. cbn beta. rewrite E. reflexivity.
Qed.
Definition zip3 {A B} (f : A -> population -> (R -> R -> list R -> R) * (R -> R -> R) * (R -> R) -> B) (es : list A)
    (gs : list population) (xs : list ((R -> R -> list R -> R) * (R -> R -> R) * (R -> R))) : list B :=
  map (fun p => f (fst p) (fst (snd p)) (snd (snd p))) (combine es (combine gs xs)).

Lemma axes_means gs xs k N : Forall2 solution gs xs -> (2 * length gs * S k <= N)%nat ->
  means N (fun l => match axes k (map flat gs) (map flat_sd gs) (map thin gs) (map thin_sd gs) l with Ok (eps, gam) => given xs eps gam | Err _ => 0 end)
    (product (map (fun g => expected g * (1 - (1 - flat_chance g) ^ S k) * (1 - (1 - thin_chance g) ^ S k)) gs)).
Proof.
  intros HF HN. set (n := length gs) in *.
  set (its := map (fun p => flat_item (S k) (fst p) (snd p)) (combine gs xs)).
  assert (Li : length its = n) by (unfold its, n; rewrite map_length, combine_length; clear - HF; induction HF; cbn; lia).
  assert (El : map loc its = map flat gs /\ map dev its = map flat_sd gs /\ Forall good its /\ Forall (fun i => forall v, rej i v = ltb 0 v) its /\
    product (map (later (S k)) its) = product (map (fun g => expected g * (1 - (1 - flat_chance g) ^ S k) * (1 - (1 - thin_chance g) ^ S k)) gs)).
  { unfold its. clear - HF. induction HF as [|g x gs xs H _ (I1 & I2 & I3 & I4 & I5)]; [repeat split; constructor|].
    cbn [combine map fst snd product fold_right]. rewrite I1, I2. repeat split.
    - constructor; [apply flat_good; exact H|exact I3].
    - constructor; [reflexivity|exact I4].
    - unfold product in I5. rewrite I5. unfold later, flat_item. cbn [ave cha]. ring. }
  destruct El as (E1 & E2 & Hg & Hr & Ep). rewrite <- E1, <- E2.
  set (K1 := fun eps s => let '(gam, s) := standard s (map thin gs) (map thin_sd gs) in
    carry (fun gam _ => given xs eps gam) (redraw_normal standard (fun g => ltb g 0 || ltb 1 g) k (map thin gs) (map thin_sd gs) gam s)).
  eapply means_eq; [apply (first_some (fun e => ltb 0 e) its Hg Hr K1 (n * S k))| |exact Ep].
  - intros eps N' Le Be HN'.
    assert (Fe : Forall (fun e => e <= 0) eps).
    { clear - Le Be Hr. revert eps Le Be. unfold out. induction Hr as [|i its Hi _ IH]; intros [|e eps] Le Be; try discriminate; [constructor|].
      cbn [combine map existsb fst snd] in Be. apply Bool.orb_false_iff in Be as [B1 B2]. rewrite Hi in B1. constructor; [apply not_less; exact B1|]. apply IH; [cbn in Le; lia|exact B2]. }
    rewrite Li in Le. set (its2 := zip3 thin_item eps gs xs).
    assert (E2' : map loc its2 = map thin gs /\ map dev its2 = map thin_sd gs /\ Forall good its2 /\
      Forall (fun i => forall v, rej i v = (ltb v 0 || ltb 1 v)%bool) its2 /\ product (map (later (S k)) its2) = times (map tst its) eps /\
      length its2 = n /\ forall gam, length gam = n -> times (map tst its2) gam = given xs eps gam).
    { unfold its2, its, zip3. unfold n in *. clear - HF Fe Le. revert eps Le Fe. induction HF as [|g x gs xs H _ IH]; intros [|e eps] Le Fe; try discriminate.
      - cbn. do 6 (split; [try reflexivity; constructor|]). intros [|] L; [reflexivity|discriminate].
      - inversion Fe as [|? ? He Fe']; subst. destruct (IH eps ltac:(cbn in Le; lia) Fe') as (I1 & I2 & I3 & I4 & I5 & I6 & I7).
        cbn [combine map fst snd product fold_right times length]. rewrite I1, I2. refine (conj eq_refl (conj eq_refl (conj _ (conj _ (conj _ (conj _ _)))))).
        + constructor; [apply thin_good; assumption|exact I3].
        + constructor; [reflexivity|exact I4].
        + unfold product in I5. rewrite I5. unfold later at 1, thin_item, flat_item. cbn [ave cha tst]. ring.
        + rewrite I6. reflexivity.
        + intros [|c gam] L; [discriminate|]. cbn [given]. rewrite I7 by (cbn in L; lia). reflexivity. }
    destruct E2' as (F1 & F2 & F3 & F4 & F5 & F6 & F7). rewrite <- F5. unfold K1. rewrite <- F1, <- F2.
    apply (first_some (fun g => ltb g 0 || ltb 1 g)%bool its2 F3 F4 (fun gam _ => given xs eps gam) 0).
    + intros gam N'' Lg _ _. rewrite F7 by lia. apply means_const.
    + rewrite F6. lia.
  - rewrite Li. lia.
  - intro l. cbn beta. unfold axes. destruct (standard l (map loc its) (map dev its)) as [x s].
    destruct (redraw_normal standard _ _ _ _ x s) as [[eps s1]|]; cbn [bind carry]; [|reflexivity].
    unfold K1. destruct (standard s1 (map thin gs) (map thin_sd gs)) as [y s2].
    destruct (redraw_normal standard _ _ _ _ y s2) as [[gam s3]|]; reflexivity.
Qed.

(** C89 *)

(** The joint distribution of the ellipticities.  All of them are independent; each is distributed as that of a galaxy of
    its population, seen from a random direction, up to the chances that [k] repetitions of a loop are not enough. *)
Theorem ryden_law gs : Forall expects gs ->
  forall k n m, (2 * length gs * S k <= n)%nat -> (3 * length gs <= m)%nat ->
    both n m (fun s => times_of (map ask gs)
        (ellipticity_ryden04 some_normal some_uniform k (map flat gs) (map flat_sd gs) (map thin gs) (map thin_sd gs) s))
      (product (map (fun g => expected g * (1 - (1 - flat_chance g) ^ S k) * (1 - (1 - thin_chance g) ^ S k)) gs)).
Proof.
  intros HF k n m Hn Hm. destruct (solutions gs HF) as (xs & HS).
  eexists. split; [|apply (axes_means gs xs k n HS Hn)]. intros u _. cbn beta.
  apply (umeans_ext _ (fun w => match axes k (map flat gs) (map flat_sd gs) (map thin gs) (map thin_sd gs) u with
    | Ok (eps, gam) => times (map ask gs) (seen eps gam w) | Err _ => 0 end)).
  - intros w _ _. symmetry. apply ryden_parts.
  - destruct (axes _ _ _ _ _ u) as [[eps gam]|] eqn:E; [|apply umeans_const].
    assert (Q : (length eps <= length gs)%nat /\ (length gam <= length gs)%nat /\ Forall (fun e => ltb 0 e = false) eps /\
      Forall (fun c => (ltb c 0 || ltb 1 c)%bool = false) gam).
    { unfold axes in E. destruct (standard u (map flat gs) (map flat_sd gs)) as [x s] eqn:E1.
      destruct (redraw_normal standard (fun e => ltb 0 e) _ _ _ x s) as [[y s1]|] eqn:E2; cbn [bind] in E; [|discriminate].
      destruct (standard s1 (map thin gs) (map thin_sd gs)) as [z s2] eqn:E3.
      destruct (redraw_normal standard (fun g => (ltb g 0 || ltb 1 g)%bool) _ _ _ z s2) as [[y' s3]|] eqn:E4; cbn [bind fst] in E; [|discriminate].
      injection E as <- <-. apply redrawn in E2 as [A1 A2]. apply redrawn in E4 as [B1 B2].
      pose proof (standard_le u (map flat gs) (map flat_sd gs)) as C1. rewrite E1, map_length in C1.
      pose proof (standard_le s1 (map thin gs) (map thin_sd gs)) as C2'. rewrite E3, map_length in C2'. cbn [fst] in C1, C2'.
      repeat split; try assumption; lia. }
    destruct Q as (Q1 & Q2 & Q3 & Q4). apply seen_means; assumption.
Qed.
Print Assumptions ryden_law.

(** What is expected is a single number. *)
Theorem ryden_expected_unique n m f v v' : both n m f v -> both n m f v' -> v = v'.
Proof.
  intros (h & Hh & M) (h' & Hh' & M'). eapply means_unique; [|exact M'].
  eapply means_len; [exact M| |reflexivity]. intros u L. eapply umeans_unique; [apply Hh, L|apply Hh', L].
Qed.
Print Assumptions ryden_expected_unique.

Lemma turn_galaxy alpha e c a b t : option_map (fun z => Cmult (cos alpha, sin alpha) z) (model_galaxy e c a b t) = model_galaxy e c a b (t + alpha / (2 * PI)).
Proof.
  unfold model_galaxy. destruct (axis_ratio _ _ _ _) as [q|]; [|reflexivity]. cbn [option_map]. f_equal.
  pose proof PI_RGT_0 as P. replace (0 + (2 * PI - 0) * (t + alpha / (2 * PI))) with ((0 + (2 * PI - 0) * t) + alpha) by (field; lra).
  set (x := 0 + (2 * PI - 0) * t).
  unfold polar_complex, Cmult, RtoC. cbn [fst snd]. rewrite cos_plus, sin_plus. f_equal; ring.
Qed.
Lemma full_turn e c a b t : model_galaxy e c a b (t + 1) = model_galaxy e c a b t.
Proof.
  unfold model_galaxy. destruct (axis_ratio _ _ _ _) as [q|]; [|reflexivity]. cbn [option_map]. f_equal.
  replace (0 + (2 * PI - 0) * (t + 1)) with ((0 + (2 * PI - 0) * t) + 2 * PI) by ring.
  set (x := 0 + (2 * PI - 0) * t).
  unfold polar_complex. rewrite cos_plus, sin_plus, cos_2PI, sin_2PI. f_equal; f_equal; ring.
Qed.
(** The integral of a function over one period, shifted. *)
Lemma shifted_unit (f g : R -> R) (m d : R) : 0 <= d < 1 -> (forall t, 0 < t < 1 - d -> g t = f (t + d)) -> (forall t, 1 - d < t < 1 -> g t = f (t + d - 1)) ->
  is_RInt f 0 1 m -> is_RInt g 0 1 m.
Proof.
  intros Hd H1 H2 H.
  assert (E : ex_RInt f 0 1) by (exists m; exact H).
  assert (E1 : ex_RInt f 0 d) by (apply (ex_RInt_Chasles_1 (V := R_CompleteNormedModule) f 0 d 1); [lra|exact E]).
  assert (E2 : ex_RInt f d 1) by (apply (ex_RInt_Chasles_2 (V := R_CompleteNormedModule) f 0 d 1); [lra|exact E]).
  destruct E1 as (x & E1), E2 as (y & E2). replace m with (plus y x).
  - apply (is_RInt_Chasles (V := R_NormedModule)) with (1 - d).
    + apply (is_RInt_ext (fun t => scal 1 (f (1 * t + d)))).
      * intros t. rewrite Rmin_left, Rmax_right by lra. intro Ht. rewrite H1 by exact Ht. unfold scal; cbn. unfold mult; cbn.
        rewrite Rmult_1_l. f_equal. ring.
      * apply (is_RInt_comp_lin (V := R_NormedModule)). replace (1 * 0 + d) with d by ring. replace (1 * (1 - d) + d) with 1 by ring. exact E2.
    + apply (is_RInt_ext (fun t => scal 1 (f (1 * t + (d - 1))))).
      * intros t. rewrite Rmin_left, Rmax_right by lra. intro Ht. rewrite H2 by exact Ht. unfold scal; cbn. unfold mult; cbn.
        rewrite Rmult_1_l. f_equal. ring.
      * apply (is_RInt_comp_lin (V := R_NormedModule)). replace (1 * (1 - d) + (d - 1)) with 0 by ring. replace (1 * 1 + (d - 1)) with d by ring. exact E1.
  - pose proof (is_RInt_Chasles (V := R_NormedModule) f 0 d 1 x y E1 E2) as C0.
    apply (is_RInt_unique (V := R_CompleteNormedModule)) in C0, H. rewrite H in C0. rewrite C0. unfold plus; cbn. ring.
Qed.

(** There is no preferred direction on the sky: what is expected of a function of the ellipticity is also expected if
    the ellipticity is first turned by any angle. *)
Theorem ryden_isotropic g alpha : 0 <= alpha < 2 * PI -> expects g ->
  expects {| flat := flat g; flat_sd := flat_sd g; thin := thin g; thin_sd := thin_sd g;
    ask := (fun o => ask g (option_map (fun z => Cmult (cos alpha, sin alpha) z) o));
    flat_chance := flat_chance g; thin_chance := thin_chance g; expected := expected g |}.
Proof.
  intros Ha (v & h & w & Hv & Hh & Ht & Hf). pose proof PI_RGT_0 as P. set (d := alpha / (2 * PI)).
  assert (Hd : 0 <= d < 1).
  { unfold d. split; [apply Rmult_le_pos; [lra|apply Rlt_le, Rinv_0_lt_compat; lra]|].
    apply (Rmult_lt_reg_r (2 * PI)); [lra|]. unfold Rdiv. rewrite Rmult_assoc, Rinv_l by lra. lra. }
  exists (fun e c l => ask g (model_galaxy e c (nth 0 l 0) (nth 1 l 0) (nth 2 l 0 + d))), h, w.
  split; [|split; [|split; [exact Ht|exact Hf]]].
  - intros e c a b t o He Hc Ia Ib It Ho. cbn [ask nth]. rewrite (galaxy_unique _ _ _ _ _ _ _ Ho (model_galaxy_ok e c a b t ltac:(lra))).
    rewrite turn_galaxy. reflexivity.
  - intros e c He Hc. destruct (Hh e c He Hc) as (g1 & G1 & I1). exists g1. split; [|exact I1].
    intros a Ia. destruct (G1 a Ia) as (g2 & G2 & I2). exists g2. split; [|exact I2].
    intros b Ib. destruct (G2 b Ib) as (g3 & G3 & I3). cbn [umeans] in G3.
    assert (V : forall t, 0 < t < 1 -> ask g (model_galaxy e c a b t) = g3 t).
    { intros t It. rewrite <- (G3 t It). symmetry. apply Hv; try assumption. apply model_galaxy_ok. lra. }
    exists (fun t => ask g (model_galaxy e c a b (t + d))). split; [intros t It; reflexivity|].
    apply (shifted_unit g3 _ _ d Hd); [| |exact I3].
    + intros t It. apply V. lra.
    + intros t It. rewrite <- (V (t + d - 1)) by lra. rewrite <- (full_turn e c a b (t + d - 1)). f_equal. f_equal. ring.
Qed.
Print Assumptions ryden_isotropic.

Lemma turn_integral (b : bool) (r : R) : is_RInt (fun t => r * (if b then cos (0 + (2 * PI - 0) * t) else sin (0 + (2 * PI - 0) * t))) 0 1 0.
Proof.
  pose proof PI_RGT_0 as P.
  set (F := fun t => r / (2 * PI) * (if b then sin (2 * PI * t) else - cos (2 * PI * t))).
  pose proof (is_RInt_derive (V := R_CompleteNormedModule) F (fun t => r * (if b then cos (0 + (2 * PI - 0) * t) else sin (0 + (2 * PI - 0) * t))) 0 1) as D.
  match type of D with _ -> _ -> is_RInt _ _ _ ?x => assert (X : x = 0) end.
  { unfold minus, plus, opp; cbn. unfold F. rewrite Rmult_0_r, Rmult_1_r, cos_2PI, sin_2PI, sin_0, cos_0. destruct b; ring. }
  rewrite X in D. apply D.
  - intros t _. unfold F. destruct b; auto_derive; try exact I; replace (0 + (2 * PI - 0) * t) with (2 * PI * t) by ring; field; lra.
  - intros t _. apply (ex_derive_continuous (V := R_NormedModule)). destruct b; auto_derive; exact I.
Qed.

(** The ellipticities have mean zero, whatever the distribution of axis ratios. *)
Theorem ryden_centred mu sigma gamma sigma_gamma b : 0 < sigma -> 0 < sigma_gamma -> exists p q, 0 < p /\ 0 < q /\
  expects {| flat := mu; flat_sd := sigma; thin := gamma; thin_sd := sigma_gamma; ask := part b; flat_chance := p; thin_chance := q; expected := 0 |}.
Proof.
  intros H1 H2. exists ((upto mu sigma None 1 - upto mu sigma (Some 0) (-1)) / 2), ((upto gamma sigma_gamma (Some 0) 1 - upto gamma sigma_gamma (Some 1) (-1)) / 2).
  pose proof (between_pos mu sigma None (Some 0) H1 I) as P1. pose proof (between_pos gamma sigma_gamma (Some 0) (Some 1) H2 Rlt_0_1) as P2.
  split; [exact P1|]. split; [exact P2|].
  exists (fun e c l => part b (model_galaxy e c (nth 0 l 0) (nth 1 l 0) (nth 2 l 0))), (fun _ _ => 0), (fun _ => 0).
  cbn [ask thin thin_sd flat flat_sd thin_chance flat_chance expected]. split; [|split; [|split]].
  - intros e c a s t o He Hc Ia Is It Ho. cbn [nth]. rewrite (galaxy_unique _ _ _ _ _ _ _ Ho (model_galaxy_ok e c a s t ltac:(lra))). reflexivity.
  - intros e c _ _. exists (fun _ => 0). split; [|apply unit_const]. intros a _. exists (fun _ => 0). split; [|apply unit_const].
    intros s _. exists (fun t => part b (model_galaxy e c a s t)). split; [reflexivity|]. unfold model_galaxy.
    destruct (axis_ratio _ _ _ _) as [q|]; cbn [option_map part]; [|apply unit_const].
    apply (is_RInt_ext (fun t => (1 - q) / (1 + q) * (if b then cos (0 + (2 * PI - 0) * t) else sin (0 + (2 * PI - 0) * t)))); [|apply turn_integral].
    intros t _. unfold component, polar_complex, Cmult, RtoC. destruct b; cbn [fst snd]; match goal with |- ?x = ?y => change (@eq R x y) end; ring.
  - intros e _. split; [apply between_mean; [exact H2|lra]|]. split; [exact P2|]. eapply mean_eq; [apply (mean_const 0)| |ring]. intro u. cbn beta. ring.
  - split; [apply between_mean; [exact H1|exact I]|]. split; [exact P1|]. eapply mean_eq; [apply (mean_const 0)| |ring]. intro u. cbn beta. ring.
Qed.
Print Assumptions ryden_centred.

(** Two galaxies from different populations: the expected product of the first component of one and the second component
    of the other is zero. *)
Example ryden_law_example : forall k n m, (4 * S k <= n)%nat -> (6 <= m)%nat ->
  both n m (fun s => times_of [part true; part false] (ellipticity_ryden04 some_normal some_uniform k [-2; -1] [1; 2] [1 / 2; 1 / 3] [1 / 4; 1 / 5] s)) 0.
Proof.
  intros k n m Hn Hm.
  destruct (ryden_centred (-2) 1 (1 / 2) (1 / 4) true ltac:(lra) ltac:(lra)) as (p & q & _ & _ & H1).
  destruct (ryden_centred (-1) 2 (1 / 3) (1 / 5) false ltac:(lra) ltac:(lra)) as (p' & q' & _ & _ & H2).
  pose proof (ryden_law _ (Forall_cons _ H1 (Forall_cons _ H2 (Forall_nil _))) k n m Hn Hm) as M.
  cbn [map product fold_right ask flat flat_sd thin thin_sd expected] in M.
  match type of M with both _ _ _ ?x => assert (X : x = 0) by ring; rewrite X in M end. exact M.
Qed.
