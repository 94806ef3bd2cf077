(** Claims about samples of galaxies with true and photometric redshifts (C93). *)
From Coq Require Import Reals Lra Lia List.
From Coquelicot Require Import Coquelicot.
From Verif Require Import Base Model_Numeric Model_Arrays Model_Windows Model_Galaxies Model_Observations Model_Tomography.
From Verif Require Import Spec_Numeric Spec_Gauss Spec_Erf Spec_Galaxies Spec_Disc Spec_Points Spec_Uniform Spec_Photoz Spec_Poisson Spec_Truncated Spec_Tomography.
From Verif Require Import Proof_Numeric Proof_Gauss Proof_Normals Proof_Erf Proof_Galaxies Proof_Reject Proof_Uniform Proof_Poisson Proof_Tomography.
From Verif Require Import Prop_Erf Prop_Uniform Prop_Poisson Prop_Truncated Prop_Catalogue.
Import ListNotations.
Local Open Scope R_scope.

(** ** The sources of random numbers *)
Lemma redraw_embedded zs sg lo up c : forall k v x,
  redraw draw_normals k zs sg lo up v (c, x) = match redraw standard k zs sg lo up v x with Ok (l, r) => Ok (l, (c, r)) | Err e => Err e end.
Proof.
  induction k as [|k IH]; intros v x; cbn [redraw]; destruct (existsb _ _); try reflexivity. unfold draw_normals at 1. cbn [fst snd].
  destruct (standard x zs sg) as [new r]. apply IH.
Qed.
Lemma phz_embedded k z s0 lo up c x :
  gaussian_phz draw_normals k z s0 lo up (c, x) = match gaussian_phz standard k z s0 lo up x with Ok (l, r) => Ok (l, (c, r)) | Err e => Err e end.
Proof.
  unfold gaussian_phz. destruct (amap2 _ z s0) as [sg|]; cbn [bind]; [|reflexivity].
  set (n := match sg with Sc _ => _ | Ar l => _ end).
  match goal with |- bind ?a _ = _ => destruct a as [zs|] end; cbn [bind]; [|reflexivity].
  destruct (entries n sg) as [sgs|]; cbn [bind]; [|reflexivity].
  match goal with |- bind ?a _ = _ => destruct a as [ls|] end; cbn [bind]; [|reflexivity].
  match goal with |- bind ?a _ = _ => destruct a as [us|] end; cbn [bind]; [|reflexivity].
  unfold draw_normals at 1. cbn [fst snd]. destruct (standard x zs sgs) as [v r].
  destruct (forallb _ _); [apply redraw_embedded|reflexivity].
Qed.
Lemma redraw_size zs sg lo up : length sg = length zs -> length lo = length zs -> length up = length zs -> forall k v x l r,
  length v = length zs -> (length zs * k <= length x)%nat -> redraw standard k zs sg lo up v x = Ok (l, r) -> length l = length zs.
Proof.
  intros L1 L2 L3. induction k as [|k IH]; intros v x l r Lv Lx; cbn [redraw]; destruct (existsb _ _); try discriminate.
  - intros [= <- _]. exact Lv.
  - unfold standard. apply IH.
    + rewrite map_length, combine_length, map_length, combine_length, combine_length, combine_length, map_length, combine_length, combine_length. lia.
    + rewrite skipn_length. lia.
  - intros [= <- _]. exact Lv.
Qed.
Lemma phz_size k zs s0 x l r : (length zs * S k <= length x)%nat -> gaussian_phz standard k (Ar zs) (Sc s0) None None x = Ok (l, r) -> length l = length zs.
Proof.
  intro Lx. unfold gaussian_phz. cbn [amap2 bind]. rewrite map_length.
  assert (E : match zs with [y] => Ok (repeat y (length zs)) | _ => entries (length zs) (Ar zs) end = Ok zs).
  { destruct zs as [|y [|y' zs]]; cbn; rewrite ?Nat.eqb_refl; reflexivity. }
  match goal with |- bind ?a _ = _ -> _ => replace a with (Ok zs) by (destruct zs as [|y [|y' zs']]; symmetry; exact E) end. cbn [bind].
  unfold entries at 1. rewrite map_length, Nat.eqb_refl. cbn [bind entries]. unfold standard at 1.
  destruct (forallb _ _); [|discriminate]. apply redraw_size.
  - apply map_length.
  - apply repeat_length.
  - apply repeat_length.
  - rewrite map_length, combine_length, combine_length, map_length. lia.
  - rewrite skipn_length. lia.
Qed.

Lemma counted lam (n : nat) u x : draw_counts ([(lam, n)], u, x) [lam] = ([n], ([], u, x)).
Proof. unfold draw_counts, counts_of. cbn. destruct (Req_EM_T lam lam); [reflexivity|contradiction]. Qed.

(** What is computed for a given number of galaxies. *)
Lemma sample_given z dndz sigma_0 k (x : R -> R) ngal : length z = length dndz -> trapezoid dndz z = Ok ngal ->
  (forall (S : Type) (uniform : S -> nat -> list R * S) n s, draw_nz uniform n z dndz s = Ok (map x (fst (uniform s n)), snd (uniform s n))) ->
  forall n u l, length u = n ->
  photoz_sample draw_counts draw_units draw_normals k z dndz sigma_0 ([(ngal * sphere_area, n)], u, l) =
  match gaussian_phz standard k (Ar (map x u)) (Sc sigma_0) None None l with Ok (zp, r) => Ok (map x u, zp, ([], [], r)) | Err e => Err e end.
Proof.
  intros L T H n u l Lu. unfold photoz_sample. rewrite T, sphere_arcmin2. cbn [bind]. rewrite counted. cbn [index nth_error bind].
  pose proof (redshifts_scalar draw_units n {| za := z; wa := dndz; zeff := 0 |} ([], u, l) L) as K. unfold redshifts in K. cbn [za wa] in K. rewrite K, H. clear K.
  unfold draw_units, units. cbn [fst snd bind]. rewrite <- Lu, firstn_all, skipn_all. rewrite phz_embedded.
  destruct (gaussian_phz standard k _ _ _ _ l) as [[zp r]|]; reflexivity.
Qed.

Lemma uniform_power (G x : R -> R) (c : R) : is_RInt (fun u => G (x u)) 0 1 c -> forall n, umeans n (fun u => product (map G (map x u))) (c ^ n).
Proof.
  intro H. induction n as [|n IH]; [reflexivity|]. exists (fun u => c ^ n * G (x u)). split.
  - intros u _. rewrite Rmult_comm. exact (umeans_scal n _ _ (G (x u)) IH).
  - cbn [pow]. rewrite Rmult_comm. apply unit_scal. exact H.
Qed.

(** C93 *)

(** A sample of galaxies on the sphere is a Poisson process in true and photometric redshift: the density of true
    redshifts is constant between two points of the grid, the average of the two samples, and given the true redshift, the
    photometric redshift is a truncated normal number.  The expected product of the values of a function of both redshifts
    at all galaxies is what it is for such a process, up to the chance that [k] repetitions are not enough. *)
Theorem sample_process z dndz sigma_0 k (q : R -> R -> R) (ans ch : R -> R) ngal v : distribution z dndz ->
  weighted z dndz (fun _ => 1) ngal ->
  (forall x a b, In a z -> In b z -> a <= x < b ->
    answered {| true_z := x; error_0 := sigma_0; lowest := 0; highest := None; question := q x; chance := ch x; answer := ans x |}) ->
  weighted z dndz (fun x => ans x * (1 - (1 - ch x) ^ S k)) v ->
  sample_mean (ngal * sphere_area) (S k)
    (fun s => match photoz_sample draw_counts draw_units draw_normals k z dndz sigma_0 s with
      Ok (zt, zp, _) => times (map q zt) zp | Err _ => 0 end)
    (exp (sphere_area * (v - ngal))).
Proof.
  intros D W1 HA W. destruct (redshift_integral z dndz D) as (x & Ht & X1 & X2 & X3). set (t := total (trapezoids (combine z dndz))) in *.
  pose proof D as (Hz & Hl & _).
  assert (En : ngal = t) by exact (weighted_unique _ _ _ _ _ W1 (weighted_one z dndz Hl)).
  assert (T : trapezoid dndz z = Ok ngal) by (unfold trapezoid; rewrite Hl, Nat.eqb_refl, En; reflexivity).
  set (G := fun y => ans y * (1 - (1 - ch y) ^ S k)).
  exists (fun n u => product (map G (map x u))), (fun n => (v / t) ^ n). split; [|split].
  - intros n u Lu Hu.
    set (objs := map (fun y => {| true_z := y; error_0 := sigma_0; lowest := 0; highest := None; question := q y; chance := ch y; answer := ans y |}) (map x u)).
    assert (Lo : length objs = n) by (unfold objs; rewrite !map_length; exact Lu).
    eapply means_eq; [apply (photometric_joint_law objs (Ar (map x u)) (Sc sigma_0) None None) with (k := k) (n := (n * S k)%nat)| |].
    + cbn [holds]. unfold objs. rewrite map_map. cbn [true_z]. symmetry. apply map_id.
    + cbn [holds]. unfold objs. rewrite map_map. cbn [error_0]. apply Forall_map, Forall_forall. reflexivity.
    + exact I.
    + cbn [lower_bounds]. unfold objs. rewrite map_map. apply Forall_map, Forall_forall. reflexivity.
    + cbn [upper_bounds]. unfold objs. rewrite map_map. apply Forall_map, Forall_forall. reflexivity.
    + unfold objs. apply Forall_map, Forall_map. eapply Forall_impl; [|exact Hu]. intros w Hw. destruct (X2 w Hw) as (a & b & Ha & Hb & Hx). exact (HA _ a b Ha Hb Hx).
    + lia.
    + intro l. cbn beta. rewrite (sample_given z dndz sigma_0 k x ngal Hl T X1 n u l Lu). unfold objs. rewrite map_map. cbn [question].
      destruct (gaussian_phz standard k _ _ _ _ l) as [[zp r]|]; reflexivity.
    + unfold objs. rewrite map_map. reflexivity.
  - intro n. apply uniform_power. exact (X3 G v W).
  - eapply poisson_ext; [apply (poisson_power (ngal * sphere_area) (v / t))|reflexivity|]. rewrite En. f_equal. field. lra.
Qed.
Print Assumptions sample_process.

(** ** Numbers of galaxies in ranges of both redshifts *)
Definition tail (s0 x c : R) : R := erf ((x - c) / (sqrt 2 * ((1 + x) * s0))).
Definition bin_chance (s0 a b x : R) : R := (tail s0 x a - tail s0 x b) / (1 + tail s0 x 0).
Definition valid_chance (s0 x : R) : R := (1 + tail s0 x 0) / 2.

Lemma tail_le s0 x c d : 0 < s0 -> -1 < x -> c <= d -> tail s0 x d <= tail s0 x c.
Proof.
  intros Hs Hx H. assert (0 < sqrt 2) by (apply sqrt_lt_R0; lra). assert (0 < (1 + x) * s0) by (apply Rmult_lt_0_compat; lra).
  destruct (Req_dec c d) as [->|N]; [lra|]. left. apply erf_increasing. apply Rmult_lt_compat_r; [apply Rinv_0_lt_compat; nra|lra].
Qed.
Lemma bin_chance_bounds s0 a b x : 0 < s0 -> -1 < x -> 0 <= a <= b -> 0 <= bin_chance s0 a b x <= 1.
Proof.
  intros Hs Hx Hab. pose proof (tail_le s0 x a b Hs Hx ltac:(lra)). pose proof (tail_le s0 x 0 a Hs Hx ltac:(lra)).
  pose proof (erf_bounds ((x - b) / (sqrt 2 * ((1 + x) * s0)))). pose proof (erf_bounds ((x - 0) / (sqrt 2 * ((1 + x) * s0)))).
  fold (tail s0 x b) in *. fold (tail s0 x 0) in *. unfold bin_chance. split.
  - apply Rle_mult_inv_pos; lra.
  - apply (Rmult_le_reg_r (1 + tail s0 x 0)); [lra|]. unfold Rdiv. rewrite Rmult_assoc, Rinv_l by lra. lra.
Qed.
Lemma valid_bounds s0 x : 0 < valid_chance s0 x < 1.
Proof. unfold valid_chance, tail. pose proof (erf_bounds ((x - 0) / (sqrt 2 * ((1 + x) * s0)))). lra. Qed.
Lemma valid_le s0 x y : 0 < s0 -> -1 < x -> x <= y -> valid_chance s0 x <= valid_chance s0 y.
Proof.
  intros Hs Hx H. unfold valid_chance, tail. assert (P2 : 0 < sqrt 2) by (apply sqrt_lt_R0; lra). destruct (Req_dec x y) as [->|N]; [lra|].
  assert (Q : erf ((x - 0) / (sqrt 2 * ((1 + x) * s0))) < erf ((y - 0) / (sqrt 2 * ((1 + y) * s0)))); [|lra]. apply erf_increasing.
  replace ((x - 0) / (sqrt 2 * ((1 + x) * s0))) with ((1 - / (1 + x)) * / (sqrt 2 * s0)) by (field; repeat split; lra).
  replace ((y - 0) / (sqrt 2 * ((1 + y) * s0))) with ((1 - / (1 + y)) * / (sqrt 2 * s0)) by (field; repeat split; lra).
  apply Rmult_lt_compat_r; [apply Rinv_0_lt_compat; nra|]. assert (/ (1 + y) < / (1 + x)); [|lra]. apply Rinv_lt_contravar; nra.
Qed.
Lemma tail_continuous s0 x c : 0 < s0 -> -1 < x -> continuous (fun x => tail s0 x c) x.
Proof.
  intros Hs Hx. assert (P2 : 0 < sqrt 2) by (apply sqrt_lt_R0; lra). assert (0 < (1 + x) * s0) by (apply Rmult_lt_0_compat; lra).
  unfold tail. apply (continuous_comp (fun x => (x - c) / (sqrt 2 * ((1 + x) * s0))) erf).
  - apply (ex_derive_continuous (V := R_NormedModule)). auto_derive. nra.
  - apply (ex_derive_continuous (V := R_NormedModule)). eexists. apply erf_derive.
Qed.
Lemma bin_chance_continuous s0 a b x : 0 < s0 -> -1 < x -> continuous (bin_chance s0 a b) x.
Proof.
  intros Hs Hx. unfold bin_chance. pose proof (valid_bounds s0 x) as Hv. unfold valid_chance in Hv.
  apply (continuous_mult (K := R_AbsRing) (fun x => tail s0 x a - tail s0 x b) (fun x => / (1 + tail s0 x 0))).
  - apply (continuous_minus (V := R_NormedModule)); apply tail_continuous; assumption.
  - apply (continuous_comp (fun x => 1 + tail s0 x 0) Rinv).
    + apply (continuous_plus (V := R_NormedModule)); [apply continuous_const|apply tail_continuous; assumption].
    + apply continuous_Rinv. lra.
Qed.
Lemma valid_continuous s0 x : 0 < s0 -> -1 < x -> continuous (valid_chance s0) x.
Proof.
  intros Hs Hx. unfold valid_chance. apply (continuous_mult (K := R_AbsRing) (fun x => 1 + tail s0 x 0) (fun _ => / 2)); [|apply continuous_const].
  apply (continuous_plus (V := R_NormedModule)); [apply continuous_const|apply tail_continuous; assumption].
Qed.

(** The probability in terms of the bell curve. *)
Lemma bin_chance_bell s0 a b x : 0 < s0 -> -1 < x -> let s := (1 + x) * s0 in
  exists A, bell_above x s 0 A /\ 0 < A /\ bin_chance s0 a b x = bell_between x s a b / A /\ valid_chance s0 x = A / (sqrt (2 * PI) * s).
Proof.
  intros Hs Hx s. assert (P2 : 0 < sqrt 2) by (apply sqrt_lt_R0; lra). destruct root_pi as [PP _]. assert (Ps : 0 < s) by (apply Rmult_lt_0_compat; lra).
  pose proof (valid_bounds s0 x) as Hv. unfold valid_chance in Hv. set (d := sqrt PI * sqrt 2 * s / 2).
  assert (Pd : 0 < d) by (unfold d; apply Rmult_lt_0_compat; [apply Rmult_lt_0_compat; [nra|lra]|lra]).
  exists ((1 + tail s0 x 0) * d). split; [exact (bell_above_erf x s 0 Ps)|]. split; [apply Rmult_lt_0_compat; lra|]. split.
  - rewrite bell_erf by exact Ps. fold d. unfold s. fold (tail s0 x a) (tail s0 x b). unfold bin_chance. field. lra.
  - rewrite sqrt_mult by (pose proof PI_RGT_0; lra). unfold valid_chance, d. field. lra.
Qed.
Lemma bin_answered s0 a b x : 0 < s0 -> -1 < x -> 0 <= a <= b ->
  answered {| true_z := x; error_0 := s0; lowest := 0; highest := None; question := hit (a, b); chance := valid_chance s0 x; answer := bin_chance s0 a b x |}.
Proof.
  intros Hs Hx Hab. destruct (bin_chance_bell s0 a b x Hs Hx) as (A & HA & _ & -> & ->).
  apply (photometric_bins x s0 0 None a b A); [apply Rmult_lt_0_compat; lra|lra|exact HA].
Qed.

Lemma truncated_lin x s lo up f g p m n a b : truncated x s lo up f p m -> truncated x s lo up g p n -> truncated x s lo up (fun y => a * f y + b * g y) p (a * m + b * n).
Proof.
  intros (H1 & H2 & H3) (_ & _ & H4). split; [exact H1|]. split; [exact H2|].
  eapply mean_eq; [apply (mean_lin _ _ a b _ _ H3 H4)| |ring]. intro u. cbn beta. ring.
Qed.
Lemma truncated_one x s lo up f p m : truncated x s lo up f p m -> truncated x s lo up (fun _ => 1) p 1.
Proof. intros (H1 & H2 & _). split; [exact H1|]. split; [exact H2|]. eapply mean_eq; [exact H1| |ring]. intro u. cbn beta. ring. Qed.

(** A weight for each cell. *)
Fixpoint cell_sum (cts : list (ranges_of * R)) (x y : R) : R :=
  match cts with [] => 1 | (c, t) :: cts => (t - 1) * (hit (fst c) x * hit (snd c) y) + cell_sum cts x y end.
Fixpoint cell_answer (s0 : R) (cts : list (ranges_of * R)) (x : R) : R :=
  match cts with [] => 1 | (c, t) :: cts => (t - 1) * (hit (fst c) x * bin_chance s0 (fst (snd c)) (snd (snd c)) x) + cell_answer s0 cts x end.
Lemma cells_answered s0 x cts : 0 < s0 -> -1 < x -> Forall (fun ct : ranges_of * R => 0 <= fst (snd (fst ct)) <= snd (snd (fst ct))) cts ->
  answered {| true_z := x; error_0 := s0; lowest := 0; highest := None; question := cell_sum cts x; chance := valid_chance s0 x; answer := cell_answer s0 cts x |}.
Proof.
  intros Hs Hx. induction 1 as [|[c t] cts Hc _ [_ IH]]; (split; [exact I|]); unfold answered in *; cbn [true_z error_0 lowest highest question chance answer cell_sum cell_answer] in *.
  - destruct (bin_answered s0 0 0 x Hs Hx ltac:(lra)) as [_ K]. cbn in K. exact (truncated_one _ _ _ _ _ _ _ K).
  - destruct (bin_answered s0 _ _ x Hs Hx Hc) as [_ K]. cbn [true_z error_0 lowest highest question chance answer] in K. cbn [fst snd] in K.
    replace (fst (snd c), snd (snd c)) with (snd c) in K by (destruct c as [? []]; reflexivity).
    pose proof (truncated_lin _ _ _ _ _ _ _ _ _ ((t - 1) * hit (fst c) x) 1 K IH) as T.
    destruct T as (T1 & T2 & T3). split; [exact T1|]. split; [exact T2|]. eapply mean_eq; [exact T3| |ring]. intro u. cbn beta. ring.
Qed.

Lemma in_ranges_hit (c : ranges_of) p : hit (fst c) (fst p) * hit (snd c) (snd p) = if in_ranges c p then 1 else 0.
Proof. unfold in_ranges. destruct (hit_values (fst c) (fst p)) as [E|E], (hit_values (snd c) (snd p)) as [F|F]; rewrite E, F; destruct (Req_EM_T _ 1); lra. Qed.
Lemma cell_product cts x y : separate (map fst cts) -> cell_sum cts x y = product (map (fun ct : ranges_of * R => if in_ranges (fst ct) (x, y) then snd ct else 1) cts).
Proof.
  unfold product. induction cts as [|[c t] cts IH]; intro H; cbn [cell_sum map fold_right fst snd]; [reflexivity|].
  assert (H' : separate (map fst cts)) by (intros i j a b p Ha Hb Pa Pb; pose proof (H (S i) (S j) a b p Ha Hb Pa Pb); congruence).
  rewrite (IH H'). pose proof (in_ranges_hit c (x, y)) as E. cbn [fst snd] in E. rewrite E. destruct (in_ranges c (x, y)) eqn:Ec; [|ring].
  assert (K : forall l, (forall ct, In ct l -> In ct cts) -> fold_right Rmult 1 (map (fun ct : ranges_of * R => if in_ranges (fst ct) (x, y) then snd ct else 1) l) = 1).
  { induction l as [|ct l IHl]; intro Q; cbn [map fold_right]; [reflexivity|]. rewrite IHl by (intros; apply Q; right; assumption).
    destruct (in_ranges (fst ct) (x, y)) eqn:Et; [|ring]. exfalso. destruct (In_nth_error _ _ (Q ct (or_introl eq_refl))) as (j & Hj).
    assert (Hj' : nth_error (map fst cts) j = Some (fst ct)) by (rewrite nth_error_map, Hj; reflexivity).
    pose proof (H 0%nat (S j) c (fst ct) (x, y) eq_refl Hj' Ec Et). discriminate. }
  rewrite (K cts) by auto. ring.
Qed.
Lemma in_bin_number c zt : forall zp, number_of (fst c) (in_bin (snd c) zt zp) = length (filter (in_ranges c) (combine zt zp)).
Proof.
  unfold number_of, in_bin. induction zt as [|x zt IH]; intros [|y zp]; cbn [combine filter map]; try reflexivity. specialize (IH zp).
  assert (E : in_ranges c (x, y) = (if Req_EM_T (hit (fst c) x) 1 then true else false) && (leb (fst (snd c)) y && ltb y (snd (snd c)))).
  { assert (Eh : hit (snd c) y = if leb (fst (snd c)) y && ltb y (snd (snd c)) then 1 else 0).
    { unfold hit, leb, ltb. destruct (Rle_dec (fst (snd c)) y), (Rlt_dec y (snd (snd c))); reflexivity. }
    pose proof (in_ranges_hit c (x, y)) as Q. cbn [fst snd] in Q. rewrite Eh in Q.
    destruct (hit_values (fst c) x) as [X|X]; rewrite X in Q |- *; destruct (in_ranges c (x, y)), (leb (fst (snd c)) y && ltb y (snd (snd c)));
      destruct (Req_EM_T _ 1); cbn [andb]; try reflexivity; lra. }
  rewrite E. cbn [snd]. destruct (leb (fst (snd c)) y && ltb y (snd (snd c))); cbn [map filter fst];
    destruct (Req_EM_T (hit (fst c) x) 1); cbn [andb length]; rewrite ?IH; reflexivity.
Qed.
Lemma product_mult {A} (f g : A -> R) l : product (map (fun a => f a * g a) l) = product (map f l) * product (map g l).
Proof. unfold product. induction l as [|a l IH]; cbn [map fold_right]; [ring|]. rewrite IH. ring. Qed.
Lemma cell_numbers cts : separate (map fst cts) -> forall zt zp, length zp = length zt ->
  times (map (cell_sum cts) zt) zp = product (map (fun ct : ranges_of * R => snd ct ^ number_of (fst (fst ct)) (in_bin (snd (fst ct)) zt zp)) cts).
Proof.
  intro H. induction zt as [|x zt IH]; intros [|y zp] L; try discriminate; cbn [map times].
  - unfold product. clear. induction cts as [|ct cts IH]; cbn [map fold_right]; [reflexivity|]. rewrite <- IH. cbn. ring.
  - rewrite IH by (injection L; auto). rewrite cell_product by exact H. rewrite <- product_mult. f_equal. apply map_ext. intros [c t]. cbn [fst snd].
    rewrite !in_bin_number. cbn [combine filter]. destruct (in_ranges c (x, y)); cbn [length pow]; ring.
Qed.

Lemma hit_integrable (s : R -> R) lo hi c : lo < hi -> (forall x, lo <= x <= hi -> continuous s x) -> ex_RInt (fun x => hit c x * s x) lo hi.
Proof.
  intros Hl Hs. destruct (Rle_dec (Rmax lo (fst c)) (Rmin hi (snd c))) as [H|H].
  - destruct (ex_RInt_continuous (V := R_CompleteNormedModule) s (Rmax lo (fst c)) (Rmin hi (snd c))) as (v & V).
    { intros x Hx. rewrite (Rmin_left _ _ H), (Rmax_right _ _ H) in Hx. apply Hs. pose proof (Rmax_l lo (fst c)). pose proof (Rmin_l hi (snd c)). lra. }
    exists v. pose proof (hit_integral s lo hi _ _ v (Rmax_l _ _) H (Rmin_l _ _) V) as K. eapply is_RInt_ext; [|exact K].
    intros x Hx. rewrite Rmin_left, Rmax_right in Hx by lra. cbn beta. rewrite (clipped_hit lo hi c x) by lra. destruct (Rle_dec _ _); [reflexivity|contradiction].
  - exists 0. pose proof (is_RInt_const (V := R_NormedModule) lo hi 0) as K.
    match type of K with is_RInt _ _ _ ?v => assert (Z : v = 0) by (change ((hi - lo) * 0 = 0); ring); rewrite Z in K end.
    eapply is_RInt_ext; [|exact K]. intros x Hx. rewrite Rmin_left, Rmax_right in Hx by lra. cbn beta. rewrite (clipped_hit lo hi c x) by lra.
    destruct (Rle_dec _ _); [contradiction|]. symmetry. apply Rmult_0_l.
Qed.

(** The value of a weighted integral. *)
Fixpoint weighted_value (z nz : list R) (f : R -> R) : R :=
  match z, nz with
  | a :: ((b :: _) as z'), x :: ((y :: _) as nz') => (x + y) / 2 * RInt f a b + weighted_value z' nz' f
  | _, _ => 0
  end.
Lemma weighted_is z : forall nz f v, weighted z nz f v -> weighted_value z nz f = v.
Proof.
  induction z as [|x z IH]; intros nz f v; [cbn; congruence|].
  destruct z as [|y z]; [cbn; congruence|]. destruct nz as [|n nz]; [cbn; congruence|]. destruct nz as [|n' nz]; [cbn; congruence|].
  intros (c & v' & C1 & V & ->).
  change (weighted_value (x :: y :: z) (n :: n' :: nz) f) with ((n + n') / 2 * RInt f x y + weighted_value (y :: z) (n' :: nz) f).
  rewrite (IH _ _ _ V), (is_RInt_unique (V := R_CompleteNormedModule) _ _ _ _ C1). reflexivity.
Qed.
Lemma cells_weighted s0 z nz cts (u : R -> R) : 0 < s0 -> increasing z -> (forall x, In x z -> -1 < x) -> (forall x, -1 < x -> continuous u x) ->
  exists v, weighted z nz (fun x => cell_answer s0 cts x * u x) v.
Proof.
  intros Hs Hz Hx Hu. induction cts as [|[c t] cts (w & W)].
  - apply weighted_exists; [exact Hz|]. intros a b Ha Hb Hab. apply (ex_RInt_continuous (V := R_CompleteNormedModule)). intros x Hr.
    rewrite Rmin_left, Rmax_right in Hr by lra. cbn [cell_answer]. pose proof (Hx a Ha).
    apply (continuous_mult (K := R_AbsRing) (fun _ => 1) u); [apply continuous_const|apply Hu; lra].
  - destruct (weighted_exists z nz (fun x => hit (fst c) x * (bin_chance s0 (fst (snd c)) (snd (snd c)) x * u x)) Hz) as (v & V).
    { intros a b Ha Hb Hab. apply hit_integrable; [exact Hab|]. intros x Hr. pose proof (Hx a Ha).
      apply (continuous_mult (K := R_AbsRing)); [apply bin_chance_continuous; lra|apply Hu; lra]. }
    exists ((t - 1) * v + 1 * w). eapply weighted_eq; [exact Hz|apply (weighted_lin _ _ _ _ _ _ (t - 1) 1 V W)| |reflexivity].
    intros. cbn [cell_answer]. ring.
Qed.
Fixpoint cell_bound (cts : list (ranges_of * R)) : R := match cts with [] => 1 | (c, t) :: cts => Rabs (t - 1) + cell_bound cts end.
Lemma cell_bound_pos cts : 0 < cell_bound cts.
Proof. induction cts as [|[c t] cts IH]; cbn [cell_bound]; [lra|]. pose proof (Rabs_pos (t - 1)). lra. Qed.
Lemma cell_answer_bound s0 cts x : 0 < s0 -> -1 < x -> Forall (fun ct : ranges_of * R => 0 <= fst (snd (fst ct)) <= snd (snd (fst ct))) cts ->
  Rabs (cell_answer s0 cts x) <= cell_bound cts.
Proof.
  intros Hs Hx. induction 1 as [|[c t] cts Hc _ IH]; cbn [cell_answer cell_bound]; [rewrite Rabs_R1; lra|].
  eapply Rle_trans; [apply Rabs_triang|]. apply Rplus_le_compat; [|exact IH]. rewrite Rabs_mult. cbn [fst snd] in Hc.
  pose proof (bin_chance_bounds s0 _ _ x Hs Hx Hc) as B. pose proof (Rabs_pos (t - 1)).
  assert (Q : Rabs (hit (fst c) x * bin_chance s0 (fst (snd c)) (snd (snd c)) x) <= 1).
  { destruct (hit_values (fst c) x) as [E|E]; rewrite E; [rewrite Rmult_0_l, Rabs_R0; lra|]. rewrite Rmult_1_l, Rabs_right; lra. }
  rewrite <- (Rmult_1_r (Rabs (t - 1))) at 2. apply Rmult_le_compat_l; assumption.
Qed.

Lemma value_limit s0 z nz cts V N : 0 < s0 -> increasing z -> z <> [] -> (forall x, In x z -> -1 < x) -> (forall y, In y nz -> 0 <= y) ->
  Forall (fun ct : ranges_of * R => 0 <= fst (snd (fst ct)) <= snd (snd (fst ct))) cts -> weighted z nz (fun _ => 1) N -> weighted z nz (cell_answer s0 cts) V ->
  is_lim_seq (fun k => weighted_value z nz (fun x => cell_answer s0 cts x * (1 - (1 - valid_chance s0 x) ^ S k))) V.
Proof.
  intros Hs Hz Hne Hx Hn Hc W1 WV. destruct z as [|z0 z]; [contradiction|]. set (r := 1 - valid_chance s0 z0). set (B := cell_bound cts).
  pose proof (valid_bounds s0 z0) as Hv. pose proof (cell_bound_pos cts) as PB. fold B in PB.
  assert (Hr : 0 < r < 1) by (unfold r; lra).
  assert (Bd : forall k v, weighted (z0 :: z) nz (fun x => cell_answer s0 cts x * (1 - (1 - valid_chance s0 x) ^ S k)) v ->
    V - B * N * r ^ S k <= v <= V + B * N * r ^ S k).
  { intros k v W. pose proof (weighted_lin _ _ _ _ _ _ 1 (-1) W WV) as D.
    assert (Le : forall x lo hi, In lo (z0 :: z) -> In hi (z0 :: z) -> lo < x < hi ->
      Rabs (1 * (cell_answer s0 cts x * (1 - (1 - valid_chance s0 x) ^ S k)) + -1 * cell_answer s0 cts x) <= B * r ^ S k).
    { intros x lo hi Hlo Hhi H. pose proof (Hx lo Hlo).
      assert (Hz0 : z0 <= x) by (destruct Hlo as [<-|Hlo]; [lra|pose proof (increasing_first _ _ Hz lo Hlo); lra]).
      pose proof (Hx z0 (or_introl eq_refl)) as Hz1. pose proof (valid_le s0 z0 x Hs Hz1 Hz0). pose proof (valid_bounds s0 x).
      replace (1 * (cell_answer s0 cts x * (1 - (1 - valid_chance s0 x) ^ S k)) + -1 * cell_answer s0 cts x) with (- (cell_answer s0 cts x * (1 - valid_chance s0 x) ^ S k)) by ring.
      rewrite Rabs_Ropp, Rabs_mult. assert (P1 : 0 <= (1 - valid_chance s0 x) ^ S k) by (apply pow_le; lra). rewrite (Rabs_right ((1 - valid_chance s0 x) ^ S k)) by lra.
      apply Rmult_le_compat; [apply Rabs_pos|exact P1|apply cell_answer_bound; [exact Hs|lra|exact Hc]|]. apply pow_incr. unfold r. lra. }
    assert (U := weighted_lin _ _ _ _ _ _ (B * r ^ S k) 0 W1 W1). assert (L := weighted_lin _ _ _ _ _ _ (- (B * r ^ S k)) 0 W1 W1).
    assert (D1 := weighted_le _ _ _ _ _ _ Hz Hn D U). assert (D2 := weighted_le _ _ _ _ _ _ Hz Hn L D). cbn beta in D1, D2.
    assert (Q1 : 1 * v + -1 * V <= B * r ^ S k * N + 0 * N).
    { apply D1. intros x lo hi Hlo Hhi H. specialize (Le x lo hi Hlo Hhi H). apply Rabs_le_between in Le. lra. }
    assert (Q2 : - (B * r ^ S k) * N + 0 * N <= 1 * v + -1 * V).
    { apply D2. intros x lo hi Hlo Hhi H. specialize (Le x lo hi Hlo Hhi H). apply Rabs_le_between in Le. lra. }
    split; lra. }
  assert (G : is_lim_seq (fun k => r ^ S k) 0).
  { apply is_lim_seq_incr_1 with (u := fun k => r ^ k). apply is_lim_seq_geom. rewrite Rabs_right; lra. }
  assert (G' : forall s, is_lim_seq (fun k => V + s * r ^ S k) V).
  { intro s. replace (Finite V) with (Rbar_plus V (Rbar_mult s 0)) by (cbn; f_equal; ring). apply is_lim_seq_plus'; [apply is_lim_seq_const|].
    apply (is_lim_seq_scal_l (fun k => r ^ S k) s 0 G). }
  apply (is_lim_seq_le_le (fun k => V + - (B * N) * r ^ S k) _ (fun k => V + B * N * r ^ S k)); [|apply G'|apply G'].
  intro k. destruct (cells_weighted s0 (z0 :: z) nz cts (fun x => 1 - (1 - valid_chance s0 x) ^ S k) Hs Hz Hx) as (v & W).
  { intros x H. apply (continuous_minus (V := R_NormedModule) (fun _ => 1)); [apply continuous_const|].
    apply (continuous_comp (fun x => 1 - valid_chance s0 x) (fun y => y ^ S k)).
    - apply (continuous_minus (V := R_NormedModule) (fun _ => 1)); [apply continuous_const|apply valid_continuous; assumption].
    - apply (ex_derive_continuous (V := R_NormedModule)). auto_derive. exact I. }
  rewrite (weighted_is _ _ _ _ W). destruct (Bd k v W). split; lra.
Qed.

(** The numbers of galaxies in ranges of true redshift and photometric bins are independent Poisson numbers, apart from
    the chance that the repetitions of the loop are not enough, which vanishes for many repetitions.  The expected number
    is the area of the sphere times the weighted integral, over the range of true redshifts, of the probability that a
    normal number with mean [x] and standard deviation [(1 + x) sigma_0] is in the bin, given that it is not negative. *)
Theorem sample_cells z dndz sigma_0 ngal cells ws ts : distribution z dndz -> 0 < sigma_0 -> (forall x, In x z -> -1 < x) ->
  weighted z dndz (fun _ => 1) ngal -> separate cells ->
  Forall2 (fun (c : ranges_of) w => 0 <= fst (snd c) <= snd (snd c) /\
    exists p, (forall x, -1 < x -> exists A, bell_above x ((1 + x) * sigma_0) 0 A /\ p x = bell_between x ((1 + x) * sigma_0) (fst (snd c)) (snd (snd c)) / A) /\
      weighted z dndz (fun x => hit (fst c) x * p x) w) cells ws ->
  length ts = length cells ->
  exists m, is_lim_seq m (exp (sphere_area * fold_right Rplus 0 (map (fun '(w, t) => w * (t - 1)) (combine ws ts)))) /\
    forall k, sample_mean (ngal * sphere_area) (S k)
      (fun s => match photoz_sample draw_counts draw_units draw_normals k z dndz sigma_0 s with
        Ok (zt, zp, _) => product (map (fun ct => snd ct ^ number_of (fst (fst ct)) (in_bin (snd (fst ct)) zt zp)) (combine cells ts)) | Err _ => 0 end)
      (m k).
Proof.
  intros D Hs Hx W1 Sep HF Lt. pose proof D as (Hz & Hl & Hn & _).
  set (cts := combine cells ts).
  assert (Ec : map fst cts = cells) by (unfold cts; apply forall2_length in HF; clear - Lt; revert ts Lt; induction cells as [|c cells IH]; intros [|t ts] L; try discriminate; cbn; [reflexivity|]; rewrite IH by (injection L; auto); reflexivity).
  assert (Sep' : separate (map fst cts)) by (rewrite Ec; exact Sep).
  assert (Hc : Forall (fun ct : ranges_of * R => 0 <= fst (snd (fst ct)) <= snd (snd (fst ct))) cts).
  { rewrite <- Forall_map with (f := fst) (P := fun c : ranges_of => 0 <= fst (snd c) <= snd (snd c)). rewrite Ec. clear - HF. induction HF as [|c w cells ws [H _] _ IH]; constructor; assumption. }
  set (V := ngal + fold_right Rplus 0 (map (fun '(w, t) => w * (t - 1)) (combine ws ts))).
  assert (WV : weighted z dndz (cell_answer sigma_0 cts) V).
  { unfold V, cts. clear - HF W1 Lt Hx Hz Hs. revert ts Lt. induction HF as [|c w cells ws (Hc & p & Hp & W) _ IH]; intros [|t ts] L; try discriminate.
    - cbn [combine map fold_right cell_answer]. rewrite Rplus_0_r. exact W1.
    - cbn [combine map fold_right cell_answer]. specialize (IH ts ltac:(injection L; auto)).
      eapply weighted_eq; [exact Hz|apply (weighted_lin _ _ _ _ _ _ (t - 1) 1 W IH)| |ring].
      intros x lo hi Hlo Hhi H. cbn [cell_answer]. pose proof (Hx lo Hlo). destruct (Hp x ltac:(lra)) as (A & HA & ->).
      destruct (bin_chance_bell sigma_0 (fst (snd c)) (snd (snd c)) x Hs ltac:(lra)) as (A' & HA' & _ & -> & _).
      assert (A = A') by (unfold bell_above in *; apply is_lim_unique in HA, HA'; congruence). subst A'. ring. }
  set (m := fun k => weighted_value z dndz (fun x => cell_answer sigma_0 cts x * (1 - (1 - valid_chance sigma_0 x) ^ S k))).
  exists (fun k => exp (sphere_area * (m k - ngal))). split.
  - replace (fold_right Rplus 0 (map (fun '(w, t) => w * (t - 1)) (combine ws ts))) with (V - ngal) by (unfold V; ring).
    assert (L : is_lim_seq m V).
    { apply (value_limit sigma_0 z dndz cts V ngal); auto. destruct D as (_ & _ & _ & i & j & f & _ & _ & Hj & _). intros ->. destruct j; apply Hj; reflexivity. }
    apply (is_lim_seq_continuous exp (fun k => sphere_area * (m k - ngal))).
    + apply derivable_continuous_pt, derivable_pt_exp.
    + replace (Finite (sphere_area * (V - ngal))) with (Rbar_mult sphere_area (V - ngal)) by reflexivity. apply is_lim_seq_scal_l.
      apply is_lim_seq_minus'; [exact L|apply is_lim_seq_const].
  - intro k. destruct (cells_weighted sigma_0 z dndz cts (fun x => 1 - (1 - valid_chance sigma_0 x) ^ S k) Hs Hz Hx) as (v & W).
    { intros x H. apply (continuous_minus (V := R_NormedModule) (fun _ => 1)); [apply continuous_const|].
      apply (continuous_comp (fun x => 1 - valid_chance sigma_0 x) (fun y => y ^ S k)).
      - apply (continuous_minus (V := R_NormedModule) (fun _ => 1)); [apply continuous_const|apply valid_continuous; assumption].
      - apply (ex_derive_continuous (V := R_NormedModule)). auto_derive. exact I. }
    assert (Em : m k = v) by exact (weighted_is _ _ _ _ W). rewrite Em.
    pose proof (sample_process z dndz sigma_0 k (cell_sum cts) (cell_answer sigma_0 cts) (valid_chance sigma_0) ngal v D W1) as K.
    destruct K as (g & h & G & H & P); [|exact W|].
    { intros x a b Ha Hb Hr. pose proof (Hx a Ha). apply cells_answered; [exact Hs|lra|exact Hc]. }
    exists g, h. split; [|split; [exact H|exact P]]. intros n u Lu Hu. eapply means_len; [apply (G n u Lu Hu)| |reflexivity].
    intros l Ll. cbn beta. destruct (redshift_integral z dndz D) as (x & Ht & X1 & _).
    assert (T : trapezoid dndz z = Ok ngal).
    { unfold trapezoid. rewrite Hl, Nat.eqb_refl. f_equal. exact (weighted_unique _ _ _ _ _ (weighted_one z dndz Hl) W1). }
    rewrite (sample_given z dndz sigma_0 k x ngal Hl T X1 n u l Lu).
    destruct (gaussian_phz standard k _ _ _ _ l) as [[zp s']|] eqn:E; [|reflexivity].
    apply phz_size in E; [|rewrite map_length, Lu, Ll; lia]. apply cell_numbers; assumption.
Qed.
Print Assumptions sample_cells.

(** Between two neighbouring points of the grid. *)
Lemma weighted_zero z nz (f : R -> R) : length z = length nz -> increasing z -> (forall x lo hi, In lo z -> In hi z -> lo < x < hi -> f x = 0) -> weighted z nz f 0.
Proof.
  intros L Hz H. eapply weighted_eq; [exact Hz|apply (weighted_lin _ _ _ _ _ _ 0 0 (weighted_one z nz L) (weighted_one z nz L))| |ring].
  intros x lo hi Hl Hh Hr. rewrite (H x lo hi Hl Hh Hr). ring.
Qed.
Lemma weighted_interval (p : R -> R) (c a b x y : R) : is_RInt p a b c -> a < b -> forall i z nz, length z = length nz -> increasing z ->
  nth_error z i = Some a -> nth_error z (S i) = Some b -> nth_error nz i = Some x -> nth_error nz (S i) = Some y ->
  weighted z nz (fun u => hit (a, b) u * p u) ((x + y) / 2 * c).
Proof.
  intros Hp Hab. induction i as [|i IH]; intros z nz L Hz Ha Hb Hx Hy.
  - destruct z as [|a' [|b' z]]; try discriminate. destruct nz as [|x' [|y' nz]]; try discriminate.
    injection Ha as ->. injection Hb as ->. injection Hx as ->. injection Hy as ->.
    exists c, 0. split; [apply hit_integral; [lra|lra|lra|exact Hp]|]. split; [|ring].
    apply weighted_zero; [injection L; cbn [length]; lia|exact (increasing_tail _ _ Hz)|].
    intros u lo hi Hl _ Hr. assert (b <= lo) by (destruct Hl as [<-|Hl]; [lra|left; exact (increasing_first _ _ (increasing_tail _ _ Hz) lo Hl)]).
    unfold hit. cbn [fst snd]. destruct (Rle_dec a u); [destruct (Rlt_dec u b); lra|ring].
  - destruct z as [|z0 [|z1 z]]; try discriminate. destruct nz as [|n0 [|n1 nz]]; try discriminate.
    exists 0, ((x + y) / 2 * c). split; [|split; [apply IH; [injection L; cbn [length]; lia|exact (increasing_tail _ _ Hz)|assumption..]|ring]].
    assert (z1 <= a) by (destruct i as [|i]; [injection Ha as ->; lra|left; exact (increasing_first _ _ (increasing_tail _ _ Hz) a (nth_error_In z i Ha))]).
    pose proof (Hz 0%nat z0 z1 eq_refl eq_refl) as H01. apply (is_RInt_ext (V := R_NormedModule) (fun _ => 0)).
    + intros u Hu. rewrite Rmin_left, Rmax_right in Hu by lra. unfold hit. cbn [fst snd]. destruct (Rle_dec a u); [lra|]. symmetry. apply Rmult_0_l.
    + pose proof (is_RInt_const (V := R_NormedModule) z0 z1 0) as K. cbn in K. unfold scal in K. cbn in K. unfold mult in K. cbn in K. rewrite Rmult_0_r in K. exact K.
Qed.
Lemma mean_value (p : R -> R) a b : -1 < a < b -> (forall x, -1 < x -> continuous p x) -> exists xi, a <= xi <= b /\ is_RInt p a b ((b - a) * p xi).
Proof.
  intros H Hp. set (F := fun x => RInt p a x).
  assert (I : forall x, -1 < x -> ex_RInt p a x).
  { intros x Hx. apply (ex_RInt_continuous (V := R_CompleteNormedModule)). intros u [Hu _]. apply Hp. unfold Rmin in Hu. destruct (Rle_dec a x); lra. }
  assert (D : forall x, -1 < x -> is_derive F x (p x)).
  { intros x Hx. apply (is_derive_RInt (V := R_NormedModule) p F a x); [|exact (Hp x Hx)].
    assert (P : 0 < x + 1) by lra. exists (mkposreal _ P). intros y Hy. unfold F. apply (RInt_correct (V := R_CompleteNormedModule)). apply I.
    change (Rabs (y - x) < x + 1) in Hy. apply Rabs_def2 in Hy. lra. }
  destruct (MVT_gen F a b p) as (xi & Hxi & E).
  - intros x Hx. apply D. rewrite Rmin_left in Hx by lra. lra.
  - intros x Hx. apply derivable_continuous_pt. exists (p x). apply is_derive_Reals. apply D. rewrite Rmin_left in Hx by lra. lra.
  - rewrite Rmin_left, Rmax_right in Hxi by lra. exists xi. split; [exact Hxi|]. unfold F in E.
    rewrite (RInt_point (V := R_CompleteNormedModule)) in E. change (zero : R) with 0 in E. replace ((b - a) * p xi) with (RInt p a b) by lra.
    apply (RInt_correct (V := R_CompleteNormedModule)), I. lra.
Qed.

(** What the example plots: in a photometric bin, the number of galaxies between two neighbouring points of the grid is in
    the limit a Poisson number, and its expected value is the area of the sphere times the length of the interval times
    the distribution for the bin of [tomo_nz_gausserr], for the mean density at some redshift in the interval. *)
Theorem sample_tomography z dndz sigma_0 ngal i lo hi n n' bin : distribution z dndz -> 0 < sigma_0 -> (forall x, In x z -> -1 < x) ->
  weighted z dndz (fun _ => 1) ngal -> 0 <= fst bin <= snd bin ->
  nth_error z i = Some lo -> nth_error z (S i) = Some hi -> nth_error dndz i = Some n -> nth_error dndz (S i) = Some n' ->
  exists x v, lo <= x <= hi /\ tomo_nz_gausserr erf [x] [(n + n') / 2] sigma_0 [bin] = Ok [[v]] /\
    forall t, exists m, is_lim_seq m (exp (sphere_area * (hi - lo) * v * (t - 1))) /\
    forall k, sample_mean (ngal * sphere_area) (S k)
      (fun s => match photoz_sample draw_counts draw_units draw_normals k z dndz sigma_0 s with
        Ok (zt, zp, _) => t ^ number_of (lo, hi) (in_bin bin zt zp) | Err _ => 0 end) (m k).
Proof.
  intros D Hs Hx W1 Hb Hlo Hhi Hn Hn'. pose proof D as (Hz & Hl & _).
  pose proof (Hx lo (nth_error_In _ _ Hlo)) as H1. pose proof (Hz i lo hi Hlo Hhi) as H2.
  destruct (mean_value (bin_chance sigma_0 (fst bin) (snd bin)) lo hi ltac:(lra)) as (x & Hxr & I); [intros u Hu; apply bin_chance_continuous; assumption|].
  set (v := (n + n') / 2 * bin_chance sigma_0 (fst bin) (snd bin) x).
  pose proof (weighted_interval _ _ lo hi n n' I ltac:(lra) i z dndz Hl Hz Hlo Hhi Hn Hn') as W.
  exists x, v. split; [exact Hxr|]. split.
  { destruct bin as [b0 b1]. unfold tomo_nz_gausserr, v, bin_chance, tail. cbn [length Nat.eqb combine map fst snd].
    replace (sqrt 2 * sigma_0 * (1 + x)) with (sqrt 2 * ((1 + x) * sigma_0)) by ring. rewrite Rminus_0_r, Rmult_comm. reflexivity. }
  intro t. destruct (sample_cells z dndz sigma_0 ngal [((lo, hi), bin)] [(hi - lo) * v] [t] D Hs Hx W1) as (m & M1 & M2).
  - intros [|[|j]] [|[|j']] c d q Hc Hd; try discriminate. reflexivity.
  - constructor; [|constructor]. cbn [fst snd]. split; [exact Hb|]. exists (bin_chance sigma_0 (fst bin) (snd bin)). split.
    + intros u Hu. destruct (bin_chance_bell sigma_0 (fst bin) (snd bin) u Hs Hu) as (A & HA & _ & E & _). exists A. split; [exact HA|exact E].
    + replace ((hi - lo) * v) with ((n + n') / 2 * ((hi - lo) * bin_chance sigma_0 (fst bin) (snd bin) x)) by (unfold v; ring). exact W.
  - reflexivity.
  - exists m. split.
    + replace (sphere_area * (hi - lo) * v * (t - 1)) with (sphere_area * fold_right Rplus 0 (map (fun '(w, t) => w * (t - 1)) (combine [(hi - lo) * v] [t]))) by (cbn; ring). exact M1.
    + intro k. destruct (M2 k) as (g & h & G & H & P). exists g, h. split; [|split; assumption]. intros n0 u Lu Hu. eapply means_eq; [exact (G n0 u Lu Hu)| |reflexivity].
      intro l. cbn beta. destruct (photoz_sample _ _ _ _ _ _ _ _) as [[[zt zp] s]|]; [|reflexivity]. cbn. apply Rmult_1_r.
Qed.
Print Assumptions sample_tomography.

(** The densities of the example are not those of the redshifts that are drawn: between the points of the grid, these are
    uniform, and do not follow the line through the samples.  Here a quarter of a linear distribution is in the lower
    half of the interval, but half of the redshifts are. *)
Theorem redshift_density_refuted : exists z nz g a b c v q p, distribution z nz /\ interpolates g z nz /\ passes_through g z nz /\
  starts_with z a /\ ends_with z b /\ a < c < b /\ integral g a b v /\ integral g a c q /\
  umeans 1 (fun us => match draw_nz units 1 z nz us with Ok (zs, _) => hits [(a, c)] zs | Err _ => 0 end) p /\ p = 2 * (q / v) /\ 0 < q / v.
Proof.
  exists [0; 1], [0; 1], (fun x => x), 0, 1, (1 / 2), (1 / 2), (1 / 8), (1 / 2).
  assert (D : distribution [0; 1] [0; 1]).
  { split; [|split; [reflexivity|split]].
    - intros [|[|i]] x y Hx Hy; try discriminate; injection Hx as <-; injection Hy as <-; lra.
    - cbn. intros f [<-|[<-|[]]]; lra.
    - exists 1%nat, 0%nat, 1. repeat split; try lra; try discriminate. right; reflexivity. }
  assert (G : interpolates (fun x => x) [0; 1] [0; 1]).
  { intros [|[|i]] a b fa fb x Ha Hb Hfa Hfb _; try discriminate; injection Ha as <-; injection Hb as <-; injection Hfa as <-; injection Hfb as <-; ring. }
  assert (Ps : passes_through (fun x => x) [0; 1] [0; 1]) by (intros i a fa Ha Hfa; congruence).
  assert (In : forall u v, is_RInt (fun x : R => x) u v (v ^ 2 / 2 - u ^ 2 / 2)).
  { intros u v. apply (is_RInt_derive (V := R_CompleteNormedModule) (fun x => x ^ 2 / 2) (fun x => x)).
    - intros x _. auto_derive; [exact I|]. field.
    - intros x _. apply (continuous_id x). }
  split; [exact D|]. split; [exact G|]. split; [exact Ps|]. split; [reflexivity|]. split; [reflexivity|]. split; [lra|].
  split; [unfold integral; replace (1 / 2) with (1 ^ 2 / 2 - 0 ^ 2 / 2) by field; apply In|].
  split; [unfold integral; replace (1 / 8) with ((1 / 2) ^ 2 / 2 - 0 ^ 2 / 2) by field; apply In|]. split; [|split; lra].
  assert (CF : cumulative_distribution (fun x => x) [0; 1] [0; 1]).
  { split; [exact G|]. exists (fun x => x), 0, 1, (1 / 2). repeat (split; [first [assumption|reflexivity]|]).
    split; [unfold integral; replace (1 / 2) with (1 ^ 2 / 2 - 0 ^ 2 / 2) by field; apply In|]. split; [lra|].
    intros x [<-|[<-|[]]]; unfold integral.
    - replace (0 * (1 / 2)) with (0 ^ 2 / 2 - 0 ^ 2 / 2) by field. apply In.
    - replace (1 * (1 / 2)) with (1 ^ 2 / 2 - 0 ^ 2 / 2) by field. apply In. }
  pose proof (redshift_law _ _ _ 0 1 [(0, 1 / 2)] D CF eq_refl eq_refl) as L. cbn [fold_right map fst snd length] in L.
  replace ((1 / 2 - 0) * 1) with (1 / 2) in L by ring. apply L. repeat constructor; cbn; lra.
Qed.
Print Assumptions redshift_density_refuted.

Lemma flat_distribution : distribution [0; 1] [6; 6].
Proof.
  split; [|split; [reflexivity|split]].
  - intros [|[|i]] x y Hx Hy; try discriminate; injection Hx as <-; injection Hy as <-; lra.
  - cbn. intros f [<-|[<-|[]]]; lra.
  - exists 1%nat, 0%nat, 6. repeat split; try lra; try discriminate. right; reflexivity.
Qed.
Lemma flat_grid x : In x [0; 1] -> -1 < x.
Proof. intros [<-|[<-|[]]]; lra. Qed.
Lemma flat_one : weighted [0; 1] [6; 6] (fun _ => 1) 6.
Proof. pose proof (weighted_one [0; 1] [6; 6] eq_refl) as K. cbn [combine trapezoids total fold_right] in K. replace 6 with (total (trapezoids (combine [0; 1] [6; 6]))) at 3; [exact K|]. cbn. field. Qed.
Lemma bin_chance_strict s0 a b x : 0 < s0 -> -1 < x -> 0 <= a < b -> 0 < bin_chance s0 a b x < 1.
Proof.
  intros Hs Hx Hab. assert (0 < sqrt 2) by (apply sqrt_lt_R0; lra). assert (0 < (1 + x) * s0) by (apply Rmult_lt_0_compat; lra).
  assert (T : tail s0 x b < tail s0 x a) by (apply erf_increasing, Rmult_lt_compat_r; [apply Rinv_0_lt_compat; nra|lra]).
  pose proof (tail_le s0 x 0 a Hs Hx ltac:(lra)).
  pose proof (erf_bounds ((x - b) / (sqrt 2 * ((1 + x) * s0)))). pose proof (erf_bounds ((x - 0) / (sqrt 2 * ((1 + x) * s0)))).
  fold (tail s0 x b) in *. fold (tail s0 x 0) in *. unfold bin_chance. split.
  - apply Rdiv_lt_0_compat; lra.
  - apply (Rmult_lt_reg_r (1 + tail s0 x 0)); [lra|]. unfold Rdiv. rewrite Rmult_assoc, Rinv_l by lra. lra.
Qed.

(** Six galaxies per square arc minute, uniformly between redshifts 0 and 1: the chance that no photometric redshift at all
    has to be drawn again. *)
Example sample_process_example : exists v, 0 < v < 6 /\
  sample_mean (6 * sphere_area) 1 (fun s => match photoz_sample draw_counts draw_units draw_normals 0 [0; 1] [6; 6] (1 / 20) s with
    Ok (zt, zp, _) => times (map (fun _ _ => 1) zt) zp | Err _ => 0 end) (exp (sphere_area * (v - 6))).
Proof.
  destruct (mean_value (valid_chance (1 / 20)) 0 1 ltac:(lra)) as (x & Hx & I); [intros; apply valid_continuous; lra|].
  pose proof (valid_bounds (1 / 20) x) as Hv. exists (6 * valid_chance (1 / 20) x). split; [lra|].
  apply (sample_process [0; 1] [6; 6] (1 / 20) 0 (fun _ _ => 1) (fun _ => 1) (valid_chance (1 / 20)) 6 _ flat_distribution flat_one).
  - intros y a b Ha Hb Hy. pose proof (flat_grid a Ha). exact (cells_answered (1 / 20) y [] ltac:(lra) ltac:(lra) (Forall_nil _)).
  - exists (valid_chance (1 / 20) x), 0. split; [|split; [reflexivity|field]].
    replace (valid_chance (1 / 20) x) with ((1 - 0) * valid_chance (1 / 20) x) by ring.
    eapply (is_RInt_ext (V := R_NormedModule)); [|exact I]. intros y _. cbn beta. match goal with |- ?a = ?b => change (@eq R a b) end. cbn [pow]. ring.
Qed.

(** The same galaxies in two photometric bins: the numbers are independent, and some galaxies are in neither of the bins. *)
Example sample_cells_example : exists w1 w2, 0 < w1 /\ 0 < w2 /\ w1 + w2 < 6 /\ forall t1 t2, exists m,
  is_lim_seq m (exp (sphere_area * (w1 * (t1 - 1) + w2 * (t2 - 1)))) /\
  forall k, sample_mean (6 * sphere_area) (S k)
    (fun s => match photoz_sample draw_counts draw_units draw_normals k [0; 1] [6; 6] (1 / 20) s with
      Ok (zt, zp, _) => t1 ^ number_of (0, 1) (in_bin (0, 1 / 2) zt zp) * (t2 ^ number_of (0, 1) (in_bin (1 / 2, 1) zt zp) * 1) | Err _ => 0 end) (m k).
Proof.
  assert (C : forall a b x, -1 < x -> continuous (bin_chance (1 / 20) a b) x) by (intros; apply bin_chance_continuous; lra).
  destruct (mean_value _ 0 1 ltac:(lra) (C 0 (1 / 2))) as (x1 & H1 & I1). destruct (mean_value _ 0 1 ltac:(lra) (C (1 / 2) 1)) as (x2 & H2 & I2).
  destruct (mean_value _ 0 1 ltac:(lra) (C 0 1)) as (x3 & H3 & I3).
  pose proof (bin_chance_strict (1 / 20) 0 (1 / 2) x1 ltac:(lra) ltac:(lra) ltac:(lra)). pose proof (bin_chance_strict (1 / 20) (1 / 2) 1 x2 ltac:(lra) ltac:(lra) ltac:(lra)).
  pose proof (bin_chance_strict (1 / 20) 0 1 x3 ltac:(lra) ltac:(lra) ltac:(lra)).
  pose proof (weighted_interval _ _ 0 1 6 6 I1 ltac:(lra) 0 [0; 1] [6; 6] eq_refl (proj1 flat_distribution) eq_refl eq_refl eq_refl eq_refl) as W1.
  pose proof (weighted_interval _ _ 0 1 6 6 I2 ltac:(lra) 0 [0; 1] [6; 6] eq_refl (proj1 flat_distribution) eq_refl eq_refl eq_refl eq_refl) as W2.
  assert (E : (1 - 0) * bin_chance (1 / 20) 0 (1 / 2) x1 + (1 - 0) * bin_chance (1 / 20) (1 / 2) 1 x2 = (1 - 0) * bin_chance (1 / 20) 0 1 x3).
  { rewrite <- (is_RInt_unique (V := R_CompleteNormedModule) _ _ _ _ I3). symmetry. apply (is_RInt_unique (V := R_CompleteNormedModule)).
    eapply (is_RInt_ext (V := R_NormedModule)); [|exact (is_RInt_plus (V := R_NormedModule) _ _ _ _ _ _ I1 I2)]. intros y _.
    match goal with |- ?a = ?b => change (@eq R a b) end. change (bin_chance (1 / 20) 0 (1 / 2) y + bin_chance (1 / 20) (1 / 2) 1 y = bin_chance (1 / 20) 0 1 y).
    unfold bin_chance, Rdiv. ring. }
  set (w1 := (6 + 6) / 2 * ((1 - 0) * bin_chance (1 / 20) 0 (1 / 2) x1)) in *. set (w2 := (6 + 6) / 2 * ((1 - 0) * bin_chance (1 / 20) (1 / 2) 1 x2)) in *.
  exists w1, w2. split; [unfold w1; lra|]. split; [unfold w2; lra|]. split; [unfold w1, w2; lra|]. intros t1 t2.
  destruct (sample_cells [0; 1] [6; 6] (1 / 20) 6 [((0, 1), (0, 1 / 2)); ((0, 1), (1 / 2, 1))] [w1; w2] [t1; t2] flat_distribution ltac:(lra) flat_grid flat_one) as (m & M1 & M2).
  - assert (N : forall p, in_ranges ((0, 1), (0, 1 / 2)) p = true -> in_ranges ((0, 1), (1 / 2, 1)) p = true -> False).
    { intros p A B. pose proof (in_ranges_hit ((0, 1), (0, 1 / 2)) p) as A'. pose proof (in_ranges_hit ((0, 1), (1 / 2, 1)) p) as B'. rewrite A in A'. rewrite B in B'.
      cbn [fst snd] in A', B'. unfold hit in A', B'. cbn [fst snd] in A', B'.
      destruct (Rle_dec 0 (snd p)); [|lra]. destruct (Rlt_dec (snd p) (1 / 2)); [|lra]. destruct (Rle_dec (1 / 2) (snd p)); lra. }
    intros [|[|[|j]]] [|[|[|j']]] c d q Hc Hd; try discriminate; injection Hc as <-; injection Hd as <-; intros A B; [reflexivity|exfalso; exact (N q A B)|exfalso; exact (N q B A)|reflexivity].
  - constructor; [|constructor; [|constructor]]; cbn [fst snd]; (split; [lra|]); eexists; (split; [|eassumption]); intros u Hu;
      match goal with |- exists A, _ /\ bin_chance _ ?a ?b _ = _ => destruct (bin_chance_bell (1 / 20) a b u ltac:(lra) Hu) as (A & HA & _ & EA & _) end; exists A; split; assumption.
  - reflexivity.
  - exists m. split; [|exact M2]. cbn [combine map fold_right] in M1. rewrite Rplus_0_r in M1. exact M1.
Qed.

(** The chance that a bin has no galaxies. *)
Example sample_tomography_example : exists v m, 0 < v < 6 /\ is_lim_seq m (exp (- (sphere_area * v))) /\
  forall k, sample_mean (6 * sphere_area) (S k)
    (fun s => match photoz_sample draw_counts draw_units draw_normals k [0; 1] [6; 6] (1 / 20) s with
      Ok (zt, zp, _) => match number_of (0, 1) (in_bin (1 / 2, 1) zt zp) with O => 1 | _ => 0 end | Err _ => 0 end) (m k).
Proof.
  destruct (sample_tomography [0; 1] [6; 6] (1 / 20) 6 0 0 1 6 6 (1 / 2, 1) flat_distribution ltac:(lra) flat_grid flat_one ltac:(cbn; lra) eq_refl eq_refl eq_refl eq_refl) as (x & v & Hx & T & M).
  destruct (M 0) as (m & M1 & M2). exists v, m. split; [|split].
  - unfold tomo_nz_gausserr in T. cbn [length Nat.eqb combine map fst snd] in T. injection T as <-.
    pose proof (bin_chance_strict (1 / 20) (1 / 2) 1 x ltac:(lra) ltac:(lra) ltac:(lra)) as B. unfold bin_chance, tail in B. rewrite Rminus_0_r in B.
    replace (sqrt 2 * (1 / 20) * (1 + x)) with (sqrt 2 * ((1 + x) * (1 / 20))) by ring. lra.
  - replace (- (sphere_area * v)) with (sphere_area * (1 - 0) * v * (0 - 1)) by ring. exact M1.
  - intro k. destruct (M2 k) as (g & h & G & H & P). exists g, h. split; [|split; assumption]. intros n u Lu Hu. eapply means_eq; [exact (G n u Lu Hu)| |reflexivity].
    intro l. cbn beta. destruct (photoz_sample _ _ _ _ _ _ _ _) as [[[zt zp] s]|]; [|reflexivity]. destruct (number_of _ _); cbn [pow]; [reflexivity|apply Rmult_0_l].
Qed.
