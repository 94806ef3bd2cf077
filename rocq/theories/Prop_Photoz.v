(** Claims about the distribution of photometric redshifts (C49, C52, C75, C77). *)
From Coq Require Import Reals Lra Lia List.
From Coquelicot Require Import Coquelicot.
From Verif Require Import Base Model_Numeric Model_Galaxies Model_Observations.
From Verif Require Import Spec_Gauss Spec_Erf Spec_Photoz Proof_Gauss Proof_Erf Prop_Erf Proof_Normals.
Import ListNotations.
Local Open Scope R_scope.

Lemma step_mean f c : (forall u, u < c -> f u = 0) -> (forall u, c < u -> f u = 1) -> mean f ((1 - erf (c / sqrt 2)) / 2).
Proof.
  intros H0 H1. assert (P2 : 0 < sqrt 2) by (apply sqrt_lt_R0; lra). destruct root_pi as [PP _].
  assert (Ez : forall p q, p <= q -> q <= c -> is_RInt (fun x => f x * gauss x) p q 0).
  { intros p q Hpq Hq. apply (is_RInt_ext (fun _ => 0)).
    - intros x. rewrite Rmin_left, Rmax_right by lra. intros [_ Hx]. rewrite H0 by lra. symmetry. apply Rmult_0_l.
    - pose proof (is_RInt_const (V := R_NormedModule) p q 0) as K. match type of K with is_RInt _ _ _ ?v => assert (Z : v = 0) by apply Rmult_0_r; rewrite Z in K end. exact K. }
  assert (Eo : forall p q, c <= p -> p <= q -> is_RInt (fun x => f x * gauss x) p q (bell_between 0 1 p q)).
  { intros p q Hp Hpq. apply (is_RInt_ext (bell 0 1)).
    - intros x. rewrite Rmin_left, Rmax_right by lra. intros [Hx _]. rewrite H1 by lra. unfold bell.
      replace ((x - 0) / 1) with x by field. symmetry. apply Rmult_1_l.
    - apply (RInt_correct (V := R_CompleteNormedModule)). apply (ex_RInt_continuous (V := R_CompleteNormedModule)). intros x _.
      apply (ex_derive_continuous (V := R_NormedModule)). unfold bell, gauss. auto_derive. exact I. }
  assert (Ec : forall p, ex_RInt (fun x => f x * gauss x) p c).
  { intro p. destruct (Rle_dec p c) as [L|L].
    - eexists. apply Ez; lra.
    - apply ex_RInt_swap. eexists. apply Eo; lra. }
  split.
  - intros p q. apply (ex_RInt_Chasles (V := R_NormedModule)) with c; [apply Ec|apply ex_RInt_swap, Ec].
  - set (d := sqrt PI * sqrt 2 * 1 / 2). assert (Pd : 0 < d) by (unfold d; nra).
    assert (W : forall T, Rabs c + 1 < T -> within f T = (erf (T / sqrt 2) - erf (c / sqrt 2)) * d).
    { intros T HT. pose proof (Rle_abs c) as A1. pose proof (Rle_abs (- c)) as A2. rewrite Rabs_Ropp in A2. pose proof (Rabs_pos c).
      unfold within. apply is_RInt_unique. replace ((erf (T / sqrt 2) - erf (c / sqrt 2)) * d) with (plus 0 (bell_between 0 1 c T)).
      - apply (is_RInt_Chasles (V := R_NormedModule)) with c; [apply Ez; lra|apply Eo; lra].
      - unfold plus; cbn -[bell_between]. rewrite bell_erf by lra. fold d. rewrite Rplus_0_l.
        replace ((0 - c) / (sqrt 2 * 1)) with (- (c / sqrt 2)) by (field; lra). replace ((0 - T) / (sqrt 2 * 1)) with (- (T / sqrt 2)) by (field; lra).
        rewrite !erf_odd. ring. }
    assert (W1 : forall T, within (fun _ => 1) T = 2 * erf (T / sqrt 2) * d).
    { intro T. transitivity (bell_between 0 1 (- T) T).
      - unfold within, bell_between. apply RInt_ext. intros x _. unfold bell. replace ((x - 0) / 1) with x by field. apply Rmult_1_l.
      - rewrite bell_erf by lra. fold d. replace ((0 - - T) / (sqrt 2 * 1)) with (T / sqrt 2) by (field; lra).
        replace ((0 - T) / (sqrt 2 * 1)) with (- (T / sqrt 2)) by (field; lra). rewrite erf_odd. ring. }
    assert (Le : is_lim (fun T => erf (T / sqrt 2)) p_infty 1).
    { pose proof erf_lim as L. apply is_lim_spec in L. apply is_lim_spec. intro e. destruct (L e) as [M HM].
      exists (M * sqrt 2). intros T HT. apply HM. apply (Rmult_lt_reg_r (sqrt 2)); [lra|]. unfold Rdiv. rewrite Rmult_assoc, Rinv_l by lra. lra. }
    apply (is_lim_ext_loc (fun T => (erf (T / sqrt 2) - erf (c / sqrt 2)) / (2 * erf (T / sqrt 2)))).
    + exists (Rabs c + 1). intros T HT. rewrite (W T HT), W1.
      assert (0 < erf (T / sqrt 2)).
      { replace 0 with (erf 0) by (pose proof (erf_odd 0) as K; rewrite Ropp_0 in K; lra). apply erf_increasing.
        apply Rdiv_lt_0_compat; [pose proof (Rabs_pos c); lra|lra]. }
      field. lra.
    + replace (Finite ((1 - erf (c / sqrt 2)) / 2)) with (Rbar_div (1 - erf (c / sqrt 2)) (2 * 1)) by (cbn; f_equal; field).
      apply is_lim_div.
      * apply is_lim_minus'; [exact Le|apply is_lim_const].
      * apply (is_lim_scal_l (fun T => erf (T / sqrt 2)) 2 p_infty 1). exact Le.
      * cbn. intros [= K]. lra.
      * cbn. lra.
Qed.

(** The step for a number with mean [x] and standard deviation [s]. *)
Lemma step_normal f c x s : 0 < s -> (forall v, v < c -> f v = 0) -> (forall v, c < v -> f v = 1) ->
  mean (fun u => f (x + s * u)) ((1 + erf ((x - c) / (sqrt 2 * s))) / 2).
Proof.
  intros Hs H0 H1. assert (P2 : 0 < sqrt 2) by (apply sqrt_lt_R0; lra).
  replace (1 + erf ((x - c) / (sqrt 2 * s))) with (1 - erf (((c - x) / s) / sqrt 2)).
  - apply step_mean.
    + intros u Hu. apply H0. assert (s * u < s * ((c - x) / s)) by (apply Rmult_lt_compat_l; lra).
      replace (s * ((c - x) / s)) with (c - x) in H by (field; lra). lra.
    + intros u Hu. apply H1. assert (s * ((c - x) / s) < s * u) by (apply Rmult_lt_compat_l; lra).
      replace (s * ((c - x) / s)) with (c - x) in H by (field; lra). lra.
  - replace ((x - c) / (sqrt 2 * s)) with (- (((c - x) / s) / sqrt 2)) by (field; lra). rewrite erf_odd. ring.
Qed.

(** C49, C77 *)

(** The redshift that is returned for one object has the truncated normal distribution: after at most [k + 1] numbers
    from the normal distribution, the probability of a redshift in [a, b) is that of the bell curve between the bounds,
    up to a term that decreases with a constant rate. *)
Theorem photometric_law x sigma_0 lower upper a b A : let s := (1 + x) * sigma_0 in
  let lo := match lower with None => 0 | Some l => l end in
  0 < s -> lo <= a <= b ->
  match upper with
  | Some u => b <= u /\ lo < u /\ A = bell_between x s lo u
  | None => bell_above x s lo A
  end ->
  0 < A /\ exists r, 0 <= r < 1 /\
    forall k, means (S k) (fun u => lands a b (gaussian_phz standard k (Sc x) (Sc sigma_0) (option_map Sc lower) (option_map Sc upper) u))
      (bell_between x s a b / A * (1 - r ^ S k)).
Proof.
  intros s lo Hs Hab HA. assert (P2 : 0 < sqrt 2) by (apply sqrt_lt_R0; lra). destruct root_pi as [PP _].
  set (d := sqrt PI * sqrt 2 * s / 2). assert (Pd : 0 < d) by (unfold d; apply Rmult_lt_0_compat; [apply Rmult_lt_0_compat; [nra|lra]|lra]).
  set (e := fun c => erf ((x - c) / (sqrt 2 * s))).
  assert (e_dec : forall c c', c < c' -> e c' < e c).
  { intros c c' H. apply erf_increasing. apply Rmult_lt_compat_r; [apply Rinv_0_lt_compat; nra|lra]. }
  assert (e_bnd : forall c, -1 < e c < 1) by (intro; apply erf_bounds).
  (* the probability to be accepted *)
  set (top := match upper with Some u => e u | None => -1 end).
  assert (EA : A = (e lo - top) * d /\ top < e lo).
  { unfold top. destruct upper as [u|].
    - destruct HA as (_ & Hu & ->). split; [apply bell_erf; exact Hs|apply e_dec; exact Hu].
    - split; [|apply e_bnd]. pose proof (bell_above_erf x s lo Hs) as L. unfold bell_above in *.
      apply is_lim_unique in L, HA. rewrite L in HA. injection HA as <-. fold (e lo). fold d. ring. }
  destruct EA as (EA & Htop). split; [rewrite EA; apply Rmult_lt_0_compat; lra|].
  assert (Hp : 0 < (e lo - top) / 2 <= 1).
  { unfold top in *. pose proof (e_bnd lo). destruct upper as [u|]; [pose proof (e_bnd u)|]; lra. }
  set (p := (e lo - top) / 2) in *. set (q := (e a - e b) / 2).
  exists (1 - p). split; [lra|].
  assert (EB : forall k, bell_between x s a b / A * (1 - (1 - p) ^ S k) = q / p * (1 - (1 - p) ^ S k)).
  { intro k. f_equal. rewrite EA, bell_erf by exact Hs. fold (e a) (e b) d. unfold q, p. field. lra. }
  set (up := upper). set (acc := fun v => if outside lo up v then 0 else 1).
  set (bin := fun v => if Rle_dec a v then if Rlt_dec v b then 1 else 0 else 0).
  assert (Macc : mean (fun u => acc (x + s * u)) p).
  { assert (M1 := step_normal (fun v => if Rlt_dec v lo then 0 else 1) lo x s Hs
      ltac:(intros v Hv; cbn beta; destruct (Rlt_dec v lo); lra) ltac:(intros v Hv; cbn beta; destruct (Rlt_dec v lo); lra)).
    fold (e lo) in M1. unfold acc, p, top, up in *. destruct upper as [u|].
    - assert (M2 := step_normal (fun v => if Rlt_dec u v then 1 else 0) u x s Hs
        ltac:(intros v Hv; cbn beta; destruct (Rlt_dec u v); lra) ltac:(intros v Hv; cbn beta; destruct (Rlt_dec u v); lra)). fold (e u) in M2.
      eapply mean_eq; [apply (mean_lin _ _ 1 (-1) _ _ M1 M2)| |field].
      destruct HA as (_ & Hu & _). intro t. cbn beta. unfold outside, ltb. destruct (Rlt_dec (x + s * t) lo), (Rlt_dec u (x + s * t)); cbn; lra.
    - eapply mean_eq; [exact M1| |field]. intro t. unfold outside, ltb. destruct (Rlt_dec (x + s * t) lo); cbn; lra. }
  assert (Mbin : mean (fun u => bin (x + s * u)) q).
  { assert (M1 := step_normal (fun v => if Rle_dec a v then 1 else 0) a x s Hs
      ltac:(intros v Hv; cbn beta; destruct (Rle_dec a v); lra) ltac:(intros v Hv; cbn beta; destruct (Rle_dec a v); lra)).
    assert (M2 := step_normal (fun v => if Rle_dec b v then 1 else 0) b x s Hs
      ltac:(intros v Hv; cbn beta; destruct (Rle_dec b v); lra) ltac:(intros v Hv; cbn beta; destruct (Rle_dec b v); lra)).
    fold (e a) in M1. fold (e b) in M2. eapply mean_eq; [apply (mean_lin _ _ 1 (-1) _ _ M1 M2)| |unfold q; field].
    intro t. cbn beta. unfold bin. destruct (Rle_dec a (x + s * t)), (Rle_dec b (x + s * t)), (Rlt_dec (x + s * t) b); lra. }
  assert (bin_acc : forall v, bin v = bin v * acc v).
  { intro v. unfold bin, acc. destruct (Rle_dec a v) as [L|]; [|ring]. destruct (Rlt_dec v b) as [L'|]; [|ring].
    replace (outside lo up v) with false; [ring|]. symmetry. unfold outside, ltb, up. destruct (Rlt_dec v lo); [lra|].
    destruct upper as [u|]; [|reflexivity]. destruct HA as (Hb & _). destruct (Rlt_dec u v); [lra|reflexivity]. }
  (* one number at a time *)
  assert (Run : forall k v l, lands a b (redraw standard k [x] [s] [lo] [up] [v] l) =
      match k, l with
      | S k', u :: l' => bin v + (1 - acc v) * lands a b (redraw standard k' [x] [s] [lo] [up] [x + s * u] l')
      | S k', [] => lands a b (redraw standard (S k') [x] [s] [lo] [up] [v] [])
      | O, _ => bin v
      end).
  { intros [|k] v l; [|destruct l as [|u l]]; [| reflexivity |]; cbn [redraw combine map fst snd existsb orb].
    - destruct (outside lo up v) eqn:O; cbn [orb].
      + rewrite (bin_acc v). unfold acc. rewrite O. cbn. ring.
      + reflexivity.
    - destruct (outside lo up v) eqn:O; cbn [orb].
      + assert (Ac : acc v = 0) by (unfold acc; rewrite O; reflexivity). rewrite (bin_acc v), Ac.
        unfold standard at 1. cbn [length skipn combine map fst snd]. ring.
      + assert (Ac : acc v = 1) by (unfold acc; rewrite O; reflexivity). rewrite Ac. cbn [lands]. fold (bin v). ring. }
  assert (Start : forall k u l, lands a b (gaussian_phz standard k (Sc x) (Sc sigma_0) (option_map Sc lower) (option_map Sc upper) (u :: l))
      = lands a b (redraw standard k [x] [s] [lo] [up] [x + s * u] l)).
  { intros k u l. unfold gaussian_phz. cbn [amap2 bind]. fold s.
    replace (match option_map Sc lower with None => Sc 0 | Some l => l end) with (Sc lo) by (unfold lo; destruct lower; reflexivity).
    replace (match option_map Sc upper with None => Sc None | Some (Sc u) => Sc (Some u) | Some (Ar l) => Ar (map Some l) end) with (Sc up)
      by (unfold up; destruct upper; reflexivity).
    cbn [entries repeat bind standard length skipn combine map fst snd forallb].
    replace (below lo up) with true; [reflexivity|]. symmetry. unfold below, up, ltb. destruct upper as [w|]; [|reflexivity].
    destruct HA as (_ & Hw & _). destruct (Rlt_dec lo w); [reflexivity|lra]. }
  assert (Main : forall k v, means k (fun l => lands a b (redraw standard k [x] [s] [lo] [up] [v] l)) (bin v + (1 - acc v) * (q / p * (1 - (1 - p) ^ k)))).
  { induction k as [|k IH]; intro v; cbn [means].
    - rewrite Run. cbn [pow]. ring.
    - exists (fun u => bin v + (1 - acc v) * (bin (x + s * u) + (1 - acc (x + s * u)) * (q / p * (1 - (1 - p) ^ k)))). split.
      + intro u. eapply means_eq; [apply (means_lin k (fun _ => bin v) (fun l => lands a b (redraw standard k [x] [s] [lo] [up] [x + s * u] l)) 1 (1 - acc v) (bin v))| |].
        * clear. induction k as [|k IH]; cbn [means]; [reflexivity|]. exists (fun _ => bin v). split; [intro; exact IH|apply mean_const].
        * apply (IH (x + s * u)).
        * intro l. cbn beta. rewrite (Run (S k)). ring.
        * ring.
      + set (w := q / p * (1 - (1 - p) ^ k)).
        pose proof (mean_lin _ _ (1 - acc v) (- (1 - acc v) * w) _ _ Mbin Macc) as M1.
        pose proof (mean_lin _ _ 1 1 _ _ M1 (mean_const (bin v + (1 - acc v) * w))) as M2.
        eapply mean_eq; [exact M2| |].
        * intro u. cbn beta. ring.
        * unfold w. cbn [pow]. field. lra. }
  intro k. rewrite EB. cbn [means]. exists (fun u => bin (x + s * u) + (1 - acc (x + s * u)) * (q / p * (1 - (1 - p) ^ k))). split.
  - intro u. eapply means_eq; [apply (Main k (x + s * u))| |reflexivity]. intro l. cbn beta. symmetry. apply Start.
  - set (w := q / p * (1 - (1 - p) ^ k)).
    pose proof (mean_lin _ _ 1 (- w) _ _ Mbin Macc) as M1. pose proof (mean_lin _ _ 1 1 _ _ M1 (mean_const w)) as M2.
    eapply mean_eq; [exact M2| |].
    + intro u. cbn beta. ring.
    + unfold w. cbn [pow]. field. lra.
Qed.
Print Assumptions photometric_law.

(** C52, C75, C77 *)

(** [tomo_nz_gausserr] and [gaussian_phz] share one model: the distribution in a bin is that of all sources times the
    probability that [gaussian_phz], without bounds, returns a redshift in the bin. *)
Theorem tomo_same_model x n sigma_0 a b v : 0 < sigma_0 -> -1 < x -> 0 <= a <= b ->
  tomo_nz_gausserr erf [x] [n] sigma_0 [(a, b)] = Ok [[v]] ->
  exists chance, (forall k, means (S k) (fun u => lands a b (gaussian_phz standard k (Sc x) (Sc sigma_0) None None u)) (chance k)) /\
    is_lim_seq (fun k => chance k * n) v.
Proof.
  intros Hs Hx Hab E.
  destruct (tomo_probability _ _ _ _ _ Hs (fun y (H : In y [x]) => match H with or_introl e => ltac:(rewrite <- e; exact Hx) | or_intror f => match f with end end) E) as (_ & F).
  inversion F as [|? ? ? ? (_ & H) _]; subst. destruct (H 0%nat x n v eq_refl eq_refl eq_refl) as (q & Q & Pq & ->). cbn [fst snd].
  replace (sigma_0 * (1 + x)) with ((1 + x) * sigma_0) in * by ring.
  destruct (photometric_law x sigma_0 None None a b q ltac:(apply Rmult_lt_0_compat; lra) Hab Q) as (_ & r & Hr & M).
  eexists. split; [exact M|]. cbn beta.
  set (w := bell_between x ((1 + x) * sigma_0) a b / q).
  apply (is_lim_seq_ext (fun k => w * n - w * n * r ^ S k)); [intro; ring|].
  replace (Finite (w * n)) with (Rbar_minus (w * n) (Rbar_mult (w * n) 0)) by (cbn; f_equal; ring).
  apply is_lim_seq_minus'; [apply is_lim_seq_const|].
  apply (is_lim_seq_scal_l (fun k => r ^ S k) (w * n) 0). apply is_lim_seq_incr_1 with (u := fun k => r ^ k).
  apply is_lim_seq_geom. rewrite Rabs_right; lra.
Qed.
Print Assumptions tomo_same_model.

(** If the bin is the whole range between the bounds, it has every redshift that is returned. *)
Example photometric_law_example : exists r, 0 <= r < 1 /\
  forall k, means (S k) (fun u => lands 1 3 (gaussian_phz standard k (Sc 2) (Sc (1 / 3)) (Some (Sc 1)) (Some (Sc 3)) u)) (1 * (1 - r ^ S k)).
Proof.
  destruct (photometric_law 2 (1 / 3) (Some 1) (Some 3) 1 3 (bell_between 2 ((1 + 2) * (1 / 3)) 1 3)) as (P & r & Hr & M); [lra|lra|repeat split; lra|].
  exists r. split; [exact Hr|]. intro k. specialize (M k). eapply means_eq; [exact M|reflexivity|]. f_equal. field. lra.
Qed.

Example tomo_same_model_example : exists v chance,
  tomo_nz_gausserr erf [1] [6] (/ (2 * sqrt 2)) [(0, 1)] = Ok [[v]] /\ v = erf 1 / (1 + erf 1) * 6 /\
  (forall k, means (S k) (fun u => lands 0 1 (gaussian_phz standard k (Sc 1) (Sc (/ (2 * sqrt 2))) None None u)) (chance k)) /\
  is_lim_seq (fun k => chance k * 6) v.
Proof.
  assert (H2 : 0 < sqrt 2) by (apply sqrt_lt_R0; lra).
  assert (E : sqrt 2 * / (2 * sqrt 2) * (1 + 1) = 1) by (field; lra).
  assert (E0 : erf 0 = 0). { pose proof (erf_odd 0) as K. rewrite Ropp_0 in K. lra. }
  assert (R1 : tomo_nz_gausserr erf [1] [6] (/ (2 * sqrt 2)) [(0, 1)] = Ok [[erf 1 / (1 + erf 1) * 6]]).
  { unfold tomo_nz_gausserr. cbn [length Nat.eqb combine map fst snd]. rewrite E.
    replace ((1 - 0) / 1) with 1 by field. replace ((1 - 1) / 1) with 0 by field.
    replace (1 / 1) with 1 by field. rewrite E0, Rminus_0_r. reflexivity. }
  destruct (tomo_same_model 1 6 (/ (2 * sqrt 2)) 0 1 _ ltac:(apply Rinv_0_lt_compat; lra) ltac:(lra) ltac:(lra) R1) as (chance & M & L).
  exists (erf 1 / (1 + erf 1) * 6), chance. split; [exact R1|]. split; [reflexivity|]. split; [exact M|exact L].
Qed.
