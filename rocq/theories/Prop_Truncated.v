(** Claims about the joint distribution of photometric redshifts (C88). *)
From Coq Require Import Reals Lra Lia List.
From Coquelicot Require Import Coquelicot.
From Verif Require Import Base Model_Numeric Model_Galaxies.
From Verif Require Import Spec_Gauss Spec_Erf Spec_Uniform Spec_Photoz Spec_Disc Spec_Truncated.
From Verif Require Import Proof_Gauss Proof_Normals Proof_Erf Proof_Reject Proof_Truncated Prop_Erf Prop_Photoz.
Import ListNotations.
Local Open Scope R_scope.

Lemma repeat_of {A} (x : A) l : Forall (eq x) l -> repeat x (length l) = l.
Proof. induction 1 as [|y l <- _ IH]; cbn; [reflexivity|]. rewrite IH. reflexivity. Qed.
Lemma holds_entries {A} (a : arr A) l : holds a l -> entries (length l) a = Ok l.
Proof. destruct a as [x|l']; cbn; [intro H; rewrite repeat_of by exact H; reflexivity|intros ->; rewrite Nat.eqb_refl; reflexivity]. Qed.

(** The array loop for an object. *)
Definition asked (o : object) : item :=
  {| loc := true_z o; dev := (1 + true_z o) * error_0 o; rej := outside (lowest o) (highest o); tst := question o; cha := chance o; ave := answer o |}.
Lemma asked_acc o v : acc (asked o) v = between (Some (lowest o)) (highest o) v.
Proof.
  unfold acc, between, asked, outside, ltb. cbn [rej]. destruct (highest o) as [u|].
  - destruct (Rlt_dec v (lowest o)), (Rlt_dec u v), (Rle_dec (lowest o) v), (Rle_dec v u); cbn; lra.
  - destruct (Rlt_dec v (lowest o)), (Rle_dec (lowest o) v); cbn; lra.
Qed.
Lemma asked_good o : answered o -> good (asked o).
Proof.
  intros (_ & M0 & P & M1). split; [|split; [exact P|]].
  - eapply mean_ext; [|exact M0]. intro u. cbn beta. symmetry. apply asked_acc.
  - eapply mean_ext; [|exact M1]. intro u. cbn beta. rewrite asked_acc. reflexivity.
Qed.

Lemma sigmas_of objs z sigma_0 : holds z (map true_z objs) -> holds sigma_0 (map error_0 objs) ->
  match z, sigma_0 with Sc _, Sc _ => length objs = 1%nat | _, _ => True end ->
  exists sg, amap2 (fun z s0 => (1 + z) * s0) z sigma_0 = Ok sg /\ holds sg (map dev (map asked objs)) /\
    match sg with Sc _ => 1%nat | Ar l => length l end = length objs.
Proof.
  intros Hz Hs H1. rewrite map_map. destruct z as [z|zs], sigma_0 as [s|ss]; cbn [holds amap2] in *.
  - exists (Sc ((1 + z) * s)). split; [reflexivity|]. split; [|symmetry; exact H1]. cbn [holds].
    clear H1. induction objs as [|o objs IH]; cbn [map] in *; [constructor|]. inversion Hz; inversion Hs; subst. constructor; [reflexivity|auto].
  - eexists. split; [reflexivity|]. cbn [holds]. subst ss. split; [|rewrite !map_length; reflexivity].
    clear H1. induction objs as [|o objs IH]; cbn [map] in *; [reflexivity|]. inversion Hz; subst. cbn [asked dev]. f_equal; auto.
  - eexists. split; [reflexivity|]. cbn [holds]. subst zs. split; [|rewrite !map_length; reflexivity].
    clear H1. induction objs as [|o objs IH]; cbn [map] in *; [reflexivity|]. inversion Hs; subst. cbn [asked dev]. f_equal; auto.
  - subst. unfold bzip. rewrite !map_length, Nat.eqb_refl. cbn [bind]. eexists. split; [reflexivity|]. cbn [holds].
    split; [|rewrite map_length, combine_length, !map_length; lia].
    induction objs as [|o objs IH]; cbn [map combine fst snd] in *; [reflexivity|]. cbn [asked dev]. f_equal. apply IH.
Qed.

(** C88 *)

(** The joint distribution of photometric redshifts of arrays.  All of them are independent; each is distributed as a
    normal number with its own mean and standard deviation that is known to be between its own bounds, up to the chance
    that [k] repetitions of the loop are not enough. *)
Theorem photometric_joint_law objs z sigma_0 lower upper :
  holds z (map true_z objs) -> holds sigma_0 (map error_0 objs) ->
  match z, sigma_0 with Sc _, Sc _ => length objs = 1%nat | _, _ => True end ->
  lower_bounds lower (map lowest objs) -> upper_bounds upper (map highest objs) -> Forall answered objs ->
  forall k n, (length objs * S k <= n)%nat ->
    means n (fun l => times_of (map question objs) (gaussian_phz standard k z sigma_0 lower upper l))
      (product (map (fun o => answer o * (1 - (1 - chance o) ^ S k)) objs)).
Proof.
  intros Hz Hs H1 Hlo Hup HF k n Hn.
  destruct (sigmas_of objs z sigma_0 Hz Hs H1) as (sg & Es & Hsg & Ln).
  set (its := map asked objs). assert (Li : length its = length objs) by apply map_length.
  assert (Ez : match z with Ar [x] => Ok (repeat x (length objs)) | _ => entries (length objs) z end = Ok (map true_z objs)).
  { pose proof (holds_entries z _ Hz) as E. rewrite map_length in E. destruct z as [x|[|x [|y l]]]; try exact E.
    cbn [holds] in Hz. destruct objs as [|o [|o' objs]]; try discriminate. cbn in *. injection Hz as ->. reflexivity. }
  set (lw := match lower with None => Sc 0 | Some l => l end).
  assert (El : entries (length objs) lw = Ok (map lowest objs)).
  { rewrite <- (map_length lowest objs). apply holds_entries. unfold lw. destruct lower; exact Hlo. }
  set (uw := match upper with None => Sc (@None R) | Some (Sc u) => Sc (Some u) | Some (Ar l) => Ar (map Some l) end).
  assert (Eu : entries (length objs) uw = Ok (map highest objs)).
  { rewrite <- (map_length highest objs). apply holds_entries. unfold uw. destruct upper as [[|]|]; exact Hup. }
  assert (Ed : entries (length objs) sg = Ok (map dev its)).
  { rewrite <- Li, <- (map_length dev its). apply holds_entries. exact Hsg. }
  assert (Eb : forallb (fun p => below (fst p) (snd p)) (combine (map lowest objs) (map highest objs)) = true).
  { clear - HF. induction HF as [|o objs (H & _) _ IH]; cbn [map combine forallb fst snd]; [reflexivity|]. rewrite IH.
    unfold below, ltb. destruct (highest o) as [u|]; [|reflexivity]. destruct (Rlt_dec (lowest o) u); [reflexivity|contradiction]. }
  assert (El' : map true_z objs = map loc its) by (unfold its; rewrite map_map; reflexivity).
  eapply means_eq; [apply (first_all its (map lowest objs) (map highest objs))with (K := fun e (_ : list R) => times (map tst its) e) (N0 := O) (fuel := k)| |].
  - unfold its. apply Forall_map. eapply Forall_impl; [|exact HF]. exact asked_good.
  - intros vs L. rewrite Li in L. unfold out, its. clear - L. revert vs L. induction objs as [|o objs IH]; intros [|v vs] L; try discriminate; [reflexivity|].
    cbn [map combine fst snd]. f_equal. apply IH. cbn in L. lia.
  - intros e N _ _ _. apply means_const.
  - rewrite Li. lia.
  - intro l. cbn beta. unfold gaussian_phz. rewrite Es. cbn [bind]. fold lw uw. rewrite Ln, Ez. cbn [bind]. rewrite Ed. cbn [bind].
    rewrite El. cbn [bind]. rewrite Eu. cbn [bind]. rewrite Eb, El'.
    destruct (standard l (map loc its) (map dev its)) as [vs s]. unfold carry, times_of.
    destruct (redraw _ _ _ _ _ _ _ _) as [[e s']|]; [|reflexivity]. f_equal. unfold its. rewrite map_map. reflexivity.
  - unfold its. rewrite map_map. reflexivity.
Qed.
Print Assumptions photometric_joint_law.

(** The probabilities to be between bounds. *)
Definition upto (x s : R) (b : option R) (d : R) : R := match b with Some c => erf ((x - c) / (sqrt 2 * s)) | None => d end.
Lemma between_mean x s lo up : 0 < s -> match lo, up with Some l, Some u => l <= u | _, _ => True end ->
  mean (fun u => between lo up (x + s * u)) ((upto x s lo 1 - upto x s up (-1)) / 2).
Proof.
  intros Hs H.
  assert (M1 : mean (fun u => match lo with Some l => if Rle_dec l (x + s * u) then 1 else 0 | None => 1 end) ((1 + upto x s lo 1) / 2)).
  { destruct lo as [l|]; cbn [upto].
    - apply (step_normal (fun v => if Rle_dec l v then 1 else 0) l x s Hs); intros v Hv; destruct (Rle_dec l v); lra.
    - eapply mean_eq; [apply (mean_const 1)|reflexivity|field]. }
  assert (M2 : mean (fun u => match up with Some c => if Rlt_dec c (x + s * u) then 1 else 0 | None => 0 end) ((1 + upto x s up (-1)) / 2)).
  { destruct up as [c|]; cbn [upto].
    - apply (step_normal (fun v => if Rlt_dec c v then 1 else 0) c x s Hs); intros v Hv; destruct (Rlt_dec c v); lra.
    - eapply mean_eq; [apply (mean_const 0)|reflexivity|field]. }
  eapply mean_eq; [apply (mean_lin _ _ 1 (-1) _ _ M1 M2)| |field].
  intro u. cbn beta. unfold between. destruct lo as [l|], up as [c|]; try destruct (Rle_dec l (x + s * u)); try destruct (Rlt_dec c (x + s * u)); try destruct (Rle_dec (x + s * u) c); lra.
Qed.
Lemma upto_less x s c c' : 0 < s -> c < c' -> erf ((x - c') / (sqrt 2 * s)) < erf ((x - c) / (sqrt 2 * s)).
Proof.
  intros Hs H. assert (P2 : 0 < sqrt 2) by (apply sqrt_lt_R0; lra). apply erf_increasing.
  apply Rmult_lt_compat_r; [apply Rinv_0_lt_compat; nra|lra].
Qed.
Lemma between_pos x s lo up : 0 < s -> match lo, up with Some l, Some u => l < u | _, _ => True end ->
  0 < (upto x s lo 1 - upto x s up (-1)) / 2.
Proof.
  intros Hs H. unfold upto. destruct lo as [l|], up as [u|]; try pose proof (erf_bounds ((x - l) / (sqrt 2 * s)));
    try pose proof (erf_bounds ((x - u) / (sqrt 2 * s))); try pose proof (upto_less x s l u Hs H); lra.
Qed.

(** The chances for bins: the integral of the bell curve over the bin, in units of that over the allowed range. *)
Theorem photometric_bins z sigma_0 lo up a b A : let s := (1 + z) * sigma_0 in 0 < s -> lo <= a <= b ->
  match up with
  | Some u => b <= u /\ lo < u /\ A = bell_between z s lo u
  | None => bell_above z s lo A
  end ->
  answered {| true_z := z; error_0 := sigma_0; lowest := lo; highest := up; question := hit (a, b);
    chance := A / (sqrt (2 * PI) * s); answer := bell_between z s a b / A |}.
Proof.
  intros s Hs Hab HA. assert (P2 : 0 < sqrt 2) by (apply sqrt_lt_R0; lra). destruct root_pi as [PP _].
  assert (Er : sqrt (2 * PI) = sqrt 2 * sqrt PI) by (apply sqrt_mult; [lra|pose proof PI_RGT_0; lra]).
  set (d := sqrt PI * sqrt 2 * s / 2). assert (Pd : 0 < d) by (unfold d; apply Rmult_lt_0_compat; [apply Rmult_lt_0_compat; [nra|lra]|lra]).
  assert (Hlu : match Some lo, up with Some l, Some u => l < u | _, _ => True end) by (destruct up; [apply HA|exact I]).
  assert (EA : A = (upto z s (Some lo) 1 - upto z s up (-1)) * d).
  { unfold upto. destruct up as [u|].
    - destruct HA as (_ & Hu & ->). apply bell_erf. exact Hs.
    - pose proof (bell_above_erf z s lo Hs) as L. unfold bell_above in *. apply is_lim_unique in L, HA. rewrite L in HA. injection HA as <-.
      fold d. ring. }
  pose proof (between_pos z s (Some lo) up Hs Hlu) as Pc. pose proof (between_mean z s (Some lo) up Hs ltac:(destruct up; [lra|exact I])) as Mc.
  assert (Ec : A / (sqrt (2 * PI) * s) = (upto z s (Some lo) 1 - upto z s up (-1)) / 2).
  { rewrite EA, Er. unfold d. field. lra. }
  assert (PA : 0 < A) by (rewrite EA; apply Rmult_lt_0_compat; lra).
  split; [cbn [highest lowest]; destruct up; [apply HA|exact I]|]. unfold truncated. cbn [true_z error_0 lowest highest question chance answer]. fold s. rewrite Ec.
  split; [exact Mc|]. split; [exact Pc|].
  assert (M1 := step_normal (fun v => if Rle_dec a v then 1 else 0) a z s Hs
    ltac:(intros v Hv; cbn beta; destruct (Rle_dec a v); lra) ltac:(intros v Hv; cbn beta; destruct (Rle_dec a v); lra)).
  assert (M2 := step_normal (fun v => if Rle_dec b v then 1 else 0) b z s Hs
    ltac:(intros v Hv; cbn beta; destruct (Rle_dec b v); lra) ltac:(intros v Hv; cbn beta; destruct (Rle_dec b v); lra)).
  eapply mean_eq; [apply (mean_lin _ _ 1 (-1) _ _ M1 M2)| |].
  - intro t. cbn beta. unfold hit, between. cbn [fst snd].
    destruct (Rle_dec a (z + s * t)), (Rle_dec b (z + s * t)), (Rlt_dec (z + s * t) b), (Rle_dec lo (z + s * t)); destruct up as [u|];
      try destruct (Rle_dec (z + s * t) u); try lra; destruct HA; lra.
  - rewrite <- Ec, Er. rewrite bell_erf by exact Hs. fold d. replace (bell_between z s a b) with (bell_between z s a b) by reflexivity.
    unfold d. field. repeat split; lra.
Qed.
Print Assumptions photometric_bins.

(** Two objects at redshift one with different standard deviations, drawn as an array.  For a bin from 1 to 2, the
    probabilities are multiplied; each is a quotient of areas, up to the chance of
    too many repetitions. *)
Example photometric_joint_law_example : forall k n, (2 * S k <= n)%nat -> exists p q p' q', 0 < p /\ 0 < q /\
  p = bell_between 1 2 0 3 / (sqrt (2 * PI) * 2) /\ q = bell_between 1 4 0 5 / (sqrt (2 * PI) * 4) /\
  p' = bell_between 1 2 1 2 / bell_between 1 2 0 3 /\ q' = bell_between 1 4 1 2 / bell_between 1 4 0 5 /\
  means n (fun l => times_of [hit (1, 2); hit (1, 2)] (gaussian_phz standard k (Sc 1) (Ar [1; 2]) None (Some (Ar [3; 5])) l))
    (p' * (1 - (1 - p) ^ S k) * (q' * (1 - (1 - q) ^ S k))).
Proof.
  intros k n Hn.
  pose proof (photometric_bins 1 1 0 (Some 3) 1 2 (bell_between 1 ((1 + 1) * 1) 0 3)) as B1. cbv zeta in B1.
  specialize (B1 ltac:(lra) ltac:(lra) ltac:(repeat split; lra)).
  pose proof (photometric_bins 1 2 0 (Some 5) 1 2 (bell_between 1 ((1 + 1) * 2) 0 5)) as B2. cbv zeta in B2.
  specialize (B2 ltac:(lra) ltac:(lra) ltac:(repeat split; lra)).
  replace ((1 + 1) * 1) with 2 in B1 by ring. replace ((1 + 1) * 2) with 4 in B2 by ring.
  match type of B1 with answered ?o1 => match type of B2 with answered ?o2 =>
  pose proof (photometric_joint_law [o1; o2] (Sc 1) (Ar [1; 2]) None (Some (Ar [3; 5])) ltac:(repeat constructor) eq_refl I ltac:(repeat constructor) eq_refl
    (Forall_cons _ B1 (Forall_cons _ B2 (Forall_nil _))) k n Hn) as M end end.
  destruct B1 as (_ & _ & P1 & _), B2 as (_ & _ & P2 & _). cbn [chance] in P1, P2.
  do 4 eexists. split; [exact P1|]. split; [exact P2|]. do 4 (split; [reflexivity|]).
  eapply means_eq; [exact M|reflexivity|]. cbn [map product fold_right answer chance]. ring.
Qed.
