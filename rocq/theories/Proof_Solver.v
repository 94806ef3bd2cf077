(** Lemmas about the solver for Gaussian spectra. *)
From Coq Require Import Reals Lra Lia ZArith List Bool.
From Verif Require Import Base Model_Numeric Proof_Numeric Model_Transform Spec_Transform.
Import ListNotations.
Local Open Scope R_scope.

Lemma err_le_trans a b c : err_le a b = true -> err_le b c = true -> err_le a c = true.
Proof.
  destruct a, b, c; cbn; try discriminate; auto. intros H1 H2. apply leb_iff in H1. apply leb_iff in H2.
  apply leb_iff. lra.
Qed.

Lemma err_max_le a b e : err_le (err_max a b) (Fin e) = true <-> err_le a (Fin e) = true /\ err_le b (Fin e) = true.
Proof.
  destruct a, b; cbn; try (split; [discriminate|intros [? ?]; discriminate]).
  rewrite !leb_iff. split; [intro H|intros [H1 H2]].
  - split; [eapply Rle_trans; [apply Rmax_l|exact H]|eapply Rle_trans; [apply Rmax_r|exact H]].
  - apply Rmax_lub; assumption.
Qed.

Lemma err_maximum_le l e : l <> [] -> err_le (err_maximum l) (Fin e) = true <-> Forall (fun x => err_le x (Fin e) = true) l.
Proof.
  induction l as [|a l IH]; [contradiction|]. intros _. destruct l as [|b l].
  - cbn [err_maximum]. split; [intro; repeat constructor; assumption|]. intro H. inversion H; assumption.
  - change (err_maximum (a :: b :: l)) with (err_max a (err_maximum (b :: l))). rewrite err_max_le, IH by discriminate.
    split; [intros [? ?]; constructor; assumption|]. intro H. inversion H; split; assumption.
Qed.

(** Small relative errors. *)
Definition within (e : R) (d v : num) : Prop :=
  match d, v with
  | Some d, Some v => Rabs d <= e * Rabs v
  | Some d, None => d = 0
  | None, _ => False
  end.

Lemma relerr_le dx x r e : 0 <= e -> length dx = length x -> relerr dx x = Ok r ->
  (err_le r (Fin e) = true <-> forall i d v, nth_error dx i = Some d -> nth_error x i = Some v -> within e d v).
Proof.
  intros He Hl H. unfold relerr in H. destruct dx as [|d0 dx]; [discriminate|].
  assert (N : combine (d0 :: dx) x <> []). { destruct x; [discriminate|]. cbn. discriminate. }
  set (D := d0 :: dx) in *. clearbody D. injection H as <-.
  rewrite err_maximum_le. 2:{ intro K. apply map_eq_nil in K. contradiction. }
  rewrite Forall_map.
  assert (P : forall d v, err_le (match d, v with
        | Some d, Some v => if Req_EM_T d 0 then Fin 0 else if Req_EM_T v 0 then Infinite else Fin (Rabs (d / v))
        | Some d, None => if Req_EM_T d 0 then Fin 0 else NaN
        | None, _ => NaN
        end) (Fin e) = true <-> within e d v).
  { intros d v. unfold within. destruct d as [d|]; [|split; [cbn; discriminate|contradiction]]. destruct v as [v|].
    - destruct (Req_EM_T d 0) as [->|Nd].
      + cbn. rewrite leb_iff, Rabs_R0. split; intros _; [apply Rmult_le_pos; [lra|apply Rabs_pos]|lra].
      + destruct (Req_EM_T v 0) as [->|Nv].
        * cbn. split; [discriminate|]. rewrite Rabs_R0, Rmult_0_r. intro K. pose proof (Rabs_pos_lt d Nd). lra.
        * cbn. rewrite leb_iff. unfold Rdiv. rewrite Rabs_mult, Rabs_inv.
          pose proof (Rabs_pos_lt v Nv) as Pv. split; intro K.
          -- apply (Rmult_le_compat_r (Rabs v)) in K; [|lra]. rewrite Rmult_assoc, Rinv_l, Rmult_1_r in K by lra. exact K.
          -- apply (Rmult_le_reg_r (Rabs v)); [exact Pv|]. rewrite Rmult_assoc, Rinv_l, Rmult_1_r by lra. exact K.
    - destruct (Req_EM_T d 0) as [->|Nd]; cbn; [rewrite leb_iff; split; [reflexivity|lra]|split; [discriminate|contradiction]]. }
  rewrite Forall_forall. split.
  - intros F i d v Hd Hv. apply P. apply (F (d, v)). apply (nth_error_In _ i). rewrite nth_error_combine, Hd, Hv. reflexivity.
  - intros F [d v] Hin. apply In_nth_error in Hin. destruct Hin as [i Hi]. rewrite nth_error_combine in Hi.
    destruct (nth_error D i) as [d'|] eqn:E1; [|discriminate]. destruct (nth_error x i) as [v'|] eqn:E2; [|discriminate].
    injection Hi as -> ->. cbn [fst snd]. apply P. exact (F i d v E1 E2).
Qed.

(** Also without a sign condition, one way. *)
Lemma relerr_le_pos dx x r e : length dx = length x -> relerr dx x = Ok r -> err_le r (Fin e) = true -> 0 <= e.
Proof.
  intros Hl H. unfold relerr in H. destruct dx as [|d0 dx]; [discriminate|]. destruct x as [|x0 x]; [discriminate|].
  match type of H with Ok (err_maximum ?l) = _ => remember l as L eqn:EL end. injection H as <-. cbn [combine map] in EL.
  rewrite err_maximum_le by (rewrite EL; discriminate). intro F. rewrite EL in F. apply Forall_inv in F. rename F into F0.
  cbn [fst snd] in F0. destruct d0 as [d|]; [|discriminate]. destruct x0 as [v|].
  - destruct (Req_EM_T d 0); [cbn in F0; apply leb_iff in F0; lra|]. destruct (Req_EM_T v 0); [discriminate|].
    cbn in F0. apply leb_iff in F0. pose proof (Rabs_pos (d / v)). lra.
  - destruct (Req_EM_T d 0); [cbn in F0; apply leb_iff in F0; lra|discriminate].
Qed.

Lemma finite_map l : finite (map Some l) = Some l.
Proof. induction l as [|x l IH]; [reflexivity|]. unfold finite in *. cbn [map fold_right]. rewrite IH. reflexivity. Qed.

Lemma finite_some l r : finite l = Some r -> l = map Some r.
Proof.
  revert r. induction l as [|x l IH]; intros r H; [injection H as <-; reflexivity|]. unfold finite in *. cbn [fold_right] in H.
  destruct x as [x|]; [|discriminate]. destruct (fold_right _ _ l) as [r'|] eqn:E; [|discriminate]. injection H as <-.
  cbn [map]. f_equal. apply IH. reflexivity.
Qed.

Lemma length_lifted f x : (forall y, length (f y) = length y) -> length (lifted f x) = length x.
Proof.
  intro H. unfold lifted. destruct (finite x) as [y|] eqn:E; [|apply map_length].
  apply finite_some in E. rewrite E, !map_length. apply H.
Qed.

Lemma length_zip f x y : length (zip f x y) = Nat.min (length x) (length y).
Proof. unfold zip. rewrite map_length, combine_length. reflexivity. Qed.

Lemma nth_zip f x y i : nth_error (zip f x y) i =
  match nth_error x i, nth_error y i with
  | Some a, Some b => Some (nbind a (fun a => nbind b (fun b => f a b)))
  | _, _ => None
  end.
Proof.
  unfold zip. rewrite nth_error_map'. rewrite nth_error_combine.
  destruct (nth_error x i), (nth_error y i); reflexivity.
Qed.

Lemma set_first_ok x v r : set_first x v = Ok r -> length r = length x /\ nth_error r 0 = Some v /\
  forall i, nth_error r (S i) = nth_error x (S i).
Proof. destruct x; [discriminate|]. cbn. intros [= <-]. repeat split. Qed.

Definition is_some {A} (o : option A) : bool := match o with Some _ => true | None => false end.

Section Proofs.
  Variables cltocorr corrtocl : list R -> list R.
  Hypothesis cltocorr_length : forall x, length (cltocorr x) = length x.
  Hypothesis corrtocl_length : forall x, length (corrtocl x) = length x.
  Variables t1 t2 : transformation.
  Variables (cl : list num) (pad : nat) (monopole : option R).
  Let n := length cl.
  Notation evaluate := (evaluate cltocorr corrtocl t1 t2).
  Notation halve := (halve cltocorr corrtocl t1 t2).
  Notation iterate := (iterate cltocorr corrtocl t1 t2).

  Definition rl_of (r : list num * list num * list num * err) : list num := snd (fst (fst r)).
  Definition err_of (r : list num * list num * list num * err) : err := snd r.

  Lemma evaluate_lengths gl r : length gl = n -> evaluate cl gl pad monopole = Ok r ->
    length (rl_of r) = (n + pad)%nat /\ length (snd (fst r)) = n /\ length (fst (fst (fst r))) = (n + pad)%nat.
  Proof.
    intros Hg H. unfold Model_Transform.evaluate in H. apply bind_ok in H. destruct H as (f & Hf & H).
    apply bind_ok in H. destruct H as (fl & Hfl & H). apply bind_ok in H. destruct H as (e & He & H). injection H as <-.
    cbn [rl_of fst snd].
    assert (L1 : length (lifted cltocorr (padded gl pad)) = (n + pad)%nat).
    { rewrite length_lifted by exact cltocorr_length. unfold padded. rewrite app_length, repeat_length. lia. }
    assert (L2 : length (lifted corrtocl (apply f (lifted cltocorr (padded gl pad)))) = (n + pad)%nat).
    { rewrite length_lifted by exact corrtocl_length. unfold apply. rewrite map_length. exact L1. }
    split; [exact L2|]. split; [|exact L1].
    assert (L3 : length (sub (firstn (length cl) (lifted corrtocl (apply f (lifted cltocorr (padded gl pad))))) cl) = n).
    { unfold sub. rewrite length_zip, firstn_length, L2. fold n. lia. }
    destruct monopole; [apply set_first_ok in Hfl; destruct Hfl as (-> & _); exact L3|injection Hfl as <-; exact L3].
  Qed.

  Lemma evaluate_realised gl c r g : corr t1 t2 = Ok (fun x => Some (c x)) -> evaluate cl gl pad monopole = Ok r ->
    gl = map Some g -> rl_of r = map Some (realised cltocorr corrtocl c g pad).
  Proof.
    intros Hc H ->. unfold Model_Transform.evaluate in H. rewrite Hc in H. cbn [bind] in H.
    apply bind_ok in H. destruct H as (fl & Hfl & H). apply bind_ok in H. destruct H as (e & He & H). injection H as <-.
    cbn [rl_of fst snd]. unfold padded.
    assert (E : map Some g ++ repeat (Some 0) pad = map Some (g ++ repeat 0 pad)).
    { rewrite map_app. f_equal. clear. induction pad; [reflexivity|]. cbn [repeat map]. f_equal. assumption. }
    rewrite E. unfold lifted at 2. rewrite finite_map. unfold realised.
    assert (A : apply (fun x => Some (c x)) (map Some (cltocorr (g ++ repeat 0 pad))) = map Some (map c (cltocorr (g ++ repeat 0 pad)))).
    { unfold apply. rewrite !map_map. reflexivity. }
    rewrite A. unfold lifted. rewrite finite_map. reflexivity.
  Qed.

  Lemma evaluate_agrees gl r e : 0 <= e -> length gl = n -> evaluate cl gl pad monopole = Ok r ->
    (err_le (err_of r) (Fin e) = true <-> agrees (is_some monopole) cl (rl_of r) e).
  Proof.
    intros He0 Hg H. pose proof (evaluate_lengths _ _ Hg H) as (L2 & L3 & _).
    unfold Model_Transform.evaluate in H. apply bind_ok in H. destruct H as (f & Hf & H).
    apply bind_ok in H. destruct H as (fl & Hfl & H). apply bind_ok in H. destruct H as (er & He & H). injection H as <-.
    cbn [rl_of err_of fst snd] in *.
    set (rl := lifted corrtocl (apply f (lifted cltocorr (padded gl pad)))) in *. clearbody rl.
    rewrite (relerr_le fl cl er e He0 L3 He).
    assert (Q : forall i c, nth_error cl i = Some c -> exists r, nth_error rl i = Some r).
    { intros i c Hi. destruct (nth_error rl i) as [r|] eqn:E; [exists r; reflexivity|]. apply nth_error_None in E.
      assert (i < length cl)%nat by (apply nth_error_Some; congruence). unfold n in *. lia. }
    assert (S0 : forall i c r, nth_error cl i = Some c -> nth_error rl i = Some r ->
      nth_error (sub (firstn (length cl) rl) cl) i = Some (nbind r (fun a => nbind c (fun b => Some (a - b))))).
    { intros i c r Hi Hr. unfold sub. rewrite nth_zip, nth_error_firstn.
      assert (i < length cl)%nat by (apply nth_error_Some; congruence).
      destruct (Nat.ltb_spec i (length cl)); [|lia]. rewrite Hr, Hi. reflexivity. }
    assert (F : forall i c r, nth_error cl i = Some c -> nth_error rl i = Some r ->
      nth_error fl i = Some (if is_some monopole && (i =? 0)%nat then Some 0 else nbind r (fun a => nbind c (fun b => Some (a - b))))).
    { intros i c r Hi Hr. destruct monopole as [m|].
      - cbn [is_some andb]. apply set_first_ok in Hfl. destruct Hfl as (_ & F0 & F1).
        destruct i as [|i]; [exact F0|]. cbn [Nat.eqb]. rewrite F1. apply S0; assumption.
      - cbn [is_some andb]. injection Hfl as <-. apply S0; assumption. }
    split.
    - intros W i c Hi Hfree. destruct (Q i c Hi) as [r Hr]. pose proof (F i c r Hi Hr) as HF.
      pose proof (W i _ c HF Hi) as V.
      assert (E : is_some monopole && (i =? 0)%nat = false).
      { destruct (is_some monopole); [|reflexivity]. destruct (Nat.eqb_spec i 0); [|reflexivity]. exfalso. apply Hfree; auto. }
      rewrite E in V. destruct r as [r|]; [|contradiction]. destruct c as [c|]; [|contradiction]. cbn in V.
      exists c, r. repeat split; assumption.
    - intros A i d v Hd Hv. destruct (Q i v Hv) as [r Hr]. rewrite (F i v r Hv Hr) in Hd. injection Hd as <-.
      destruct (is_some monopole && (i =? 0)%nat) eqn:E.
      + unfold within. destruct v as [v|]; [|reflexivity]. rewrite Rabs_R0. apply Rmult_le_pos; [exact He0|apply Rabs_pos].
      + destruct (A i v Hv) as (x & y & -> & Hy & B).
        { intros Hf0 ->. rewrite Hf0 in E. discriminate. }
        rewrite Hr in Hy. injection Hy as ->. exact B.
  Qed.

  Lemma evaluate_pos gl r e : length gl = n -> evaluate cl gl pad monopole = Ok r -> err_le (err_of r) (Fin e) = true -> 0 <= e.
  Proof.
    intros Hg H. pose proof (evaluate_lengths _ _ Hg H) as (L2 & L3 & _).
    unfold Model_Transform.evaluate in H. apply bind_ok in H. destruct H as (f & Hf & H).
    apply bind_ok in H. destruct H as (fl & Hfl & H). apply bind_ok in H. destruct H as (er & He & H). injection H as <-.
    cbn [err_of fst snd] in *. apply (relerr_le_pos fl cl er e L3 He).
  Qed.

  (** A state of the loop. *)
  Definition state_ok (gl : list num) (r : list num * list num * list num * err) : Prop :=
    evaluate cl gl pad monopole = Ok r /\ length gl = n /\ (forall m, monopole = Some m -> nth_error gl 0 = Some (Some m)).

  Lemma evaluate_finite gl r : state_ok gl r -> err_of r <> NaN -> exists g, gl = map Some g.
  Proof.
    intros (H & Hg & Hm) He.
    destruct (finite (padded gl pad)) as [y|] eqn:Fy.
    { apply finite_some in Fy. exists (firstn (length gl) y). rewrite <- firstn_map, <- Fy. unfold padded.
      rewrite firstn_app, Nat.sub_diag, firstn_O, app_nil_r, firstn_all. reflexivity. }
    pose proof (evaluate_lengths _ _ Hg H) as (L2 & L3 & _).
    unfold Model_Transform.evaluate in H. apply bind_ok in H. destruct H as (f & Hf & H).
    apply bind_ok in H. destruct H as (fl & Hfl & H). apply bind_ok in H. destruct H as (er & Her & H). injection H as <-.
    cbn [rl_of err_of fst snd] in *.
    assert (RN : forall i, (i < n)%nat -> nth_error (lifted corrtocl (apply f (lifted cltocorr (padded gl pad)))) i = Some None).
    { intros i Hi. unfold lifted at 2. rewrite Fy. unfold apply. rewrite map_map. cbn [nbind].
      assert (Lp : length (padded gl pad) = (n + pad)%nat) by (unfold padded; rewrite app_length, repeat_length; lia).
      destruct (padded gl pad) as [|p0 pl]; [cbn in Lp; lia|]. unfold lifted. cbn [map].
      change (finite (None :: map (fun _ : num => None) pl)) with (@None (list R)). cbv iota.
      rewrite map_map. change (None :: map (fun _ : num => @None R) pl) with (map (fun _ : num => @None R) (p0 :: pl)).
      rewrite nth_error_map'. destruct (nth_error (p0 :: pl) i) eqn:E; [reflexivity|].
      apply nth_error_None in E. lia. }
    assert (NaNs : forall i, (i < n)%nat -> nth_error fl i = Some None -> exists g, gl = map Some g).
    { intros i Hi Fi. exfalso. apply He. unfold relerr in Her. destruct fl as [|f0 fl']; [discriminate|].
      set (FL := f0 :: fl') in *. clearbody FL.
      match type of Her with Ok (err_maximum ?l) = _ => remember l as L eqn:EL end. injection Her as <-.
      assert (In NaN L).
      { destruct (nth_error cl i) as [c|] eqn:Ec; [|apply nth_error_None in Ec; unfold n in Hi; lia].
        rewrite EL. apply in_map_iff. exists (None, c). split; [reflexivity|]. apply (nth_error_In _ i).
        rewrite nth_error_combine, Fi, Ec. reflexivity. }
      clear - H. induction L as [|a L IH]; [contradiction|]. destruct L as [|b L].
      - destruct H as [->|[]]. reflexivity.
      - change (err_maximum (a :: b :: L)) with (err_max a (err_maximum (b :: L))). destruct H as [->|H]; [reflexivity|].
        rewrite (IH H). destruct a; reflexivity. }
    assert (SN : forall i, (i < n)%nat -> nth_error (sub (firstn (length cl) (lifted corrtocl (apply f (lifted cltocorr (padded gl pad))))) cl) i = Some None).
    { intros i Hi. unfold sub. rewrite nth_zip, nth_error_firstn. destruct (Nat.ltb_spec i (length cl)); [|unfold n in Hi; lia].
      rewrite RN by exact Hi. destruct (nth_error cl i) as [c|] eqn:Ec; [reflexivity|]. apply nth_error_None in Ec. unfold n in Hi. lia. }
    assert (Pos : (0 < n)%nat).
    { destruct fl; [discriminate|]. rewrite <- L3. cbn. lia. }
    destruct monopole as [m|].
    - apply set_first_ok in Hfl. destruct Hfl as (_ & _ & F1). destruct (le_lt_dec n 1) as [B|B].
      + pose proof (Hm m eq_refl) as M. destruct gl as [|g0 [|g1 gl]]; cbn in Hg; try lia. cbn in M. injection M as ->.
        exists [m]. reflexivity.
      + apply (NaNs 1%nat B). rewrite F1. apply SN. exact B.
    - injection Hfl as <-. apply (NaNs 0%nat Pos). apply SN. exact Pos.
  Qed.

  Lemma halve_ok fuel gl xl e gl_ xl_ r_ : length gl = n -> length xl = n ->
    (is_some monopole = true -> nth_error xl 0 = Some (Some 0)) ->
    (forall m, monopole = Some m -> nth_error gl 0 = Some (Some m)) ->
    halve fuel cl gl xl pad monopole e = Ok (gl_, xl_, r_) ->
    state_ok gl_ r_ /\ gl_ = add gl xl_ /\ length xl_ = n /\ err_le (err_of r_) e = true.
  Proof.
    intros Hg. revert xl. induction fuel as [|fuel IH]; intros xl Hx H0 Hm H; [discriminate|].
    cbn [Model_Transform.halve] in H. apply bind_ok in H. destruct H as (r & Hr & H).
    destruct (err_le (snd r) e) eqn:E.
    - injection H as <- <- <-. split; [|auto]. split; [exact Hr|]. split.
      + unfold add. rewrite length_zip. lia.
      + intros m M. unfold add. rewrite nth_zip, (Hm m M), H0 by (rewrite M; reflexivity). cbn. f_equal. f_equal. ring.
    - apply (IH (apply (fun x => Some (x / 2)) xl)); try assumption.
      + unfold apply. rewrite map_length. exact Hx.
      + intro M. unfold apply. rewrite nth_error_map', (H0 M). cbn. f_equal. f_equal. field.
  Qed.

  (** One round of the loop. *)
  Lemma iterate_one fuel gl r cltol gltol i2 gl' rl' i1' i2' : state_ok gl r ->
    iterate 1 fuel cl gl r pad monopole cltol gltol i2 = Ok (gl', rl', (i1', i2')) ->
    (i1' = err_le (err_of r) (Fin cltol) /\ i2' = i2 /\ gl' = gl /\ rl' = rl_of r /\ i1' || i2 = true) \/
    (err_le (err_of r) (Fin cltol) = false /\ i2 = false /\ i1' = false /\
     exists r' x e, state_ok gl' r' /\ rl' = rl_of r' /\ err_le (err_of r') (err_of r) = true /\
       gl' = add gl x /\ length x = n /\ relerr x gl = Ok e /\ i2' = err_le e (Fin gltol)).
  Proof.
    intros (Hr & Hg & Hm) H. destruct r as [[[gt rl] fl] e0]. cbn [Model_Transform.iterate] in H. cbn [err_of rl_of fst snd] in *.
    destruct (err_le e0 (Fin cltol) || i2) eqn:E.
    - injection H as <- <- <- <-. left. repeat split; auto.
    - apply orb_false_iff in E. destruct E as [E ->]. right. split; [exact E|]. split; [reflexivity|].
      apply bind_ok in H. destruct H as (d & Hd & H). apply bind_ok in H. destruct H as (xl & Hxl & H).
      apply bind_ok in H. destruct H as ([[gl_ xl_] r_] & Hh & H). apply bind_ok in H. destruct H as (e & He & H).
      destruct r_ as [[[gt_ rl_] fl_] e_] eqn:Er. injection H as <- <- <- <-. split; [reflexivity|].
      destruct (evaluate_lengths _ _ Hg Hr) as (L1 & L2 & L3). cbn [rl_of fst snd] in *.
      assert (LX : length (apply (fun x => Some (- x)) (firstn (length cl) (lifted corrtocl (quot (lifted cltocorr (padded fl pad)) (apply d gt))))) = n).
      { unfold apply. rewrite map_length, firstn_length, length_lifted by exact corrtocl_length.
        unfold quot. rewrite length_zip, map_length, length_lifted by exact cltocorr_length.
        unfold padded. rewrite app_length, repeat_length, L2, L3. fold n. lia. }
      assert (HX : length xl = n /\ (is_some monopole = true -> nth_error xl 0 = Some (Some 0))).
      { destruct monopole.
        - apply set_first_ok in Hxl. destruct Hxl as (-> & F & _). split; [exact LX|]. intros _. exact F.
        - injection Hxl as <-. split; [exact LX|discriminate]. }
      destruct HX as [LX' X0].
      destruct (halve_ok _ _ _ _ _ _ _ Hg LX' X0 Hm Hh) as (S0 & A & LX_ & Le).
      exists (gt_, rl_, fl_, e_), xl_, e. split; [exact S0|]. split; [reflexivity|]. split; [exact Le|]. split; [exact A|]. split; [exact LX_|]. split; [exact He|reflexivity].
  Qed.

  (** The last round of many. *)
  Lemma iterate_last k fuel gl r cltol gltol i2 out : state_ok gl r ->
    iterate (S k) fuel cl gl r pad monopole cltol gltol i2 = Ok out ->
    exists gl1 r1 i11 i21, iterate k fuel cl gl r pad monopole cltol gltol i2 = Ok (gl1, rl_of r1, (i11, i21)) /\
      state_ok gl1 r1 /\ (i11 = true -> err_le (err_of r1) (Fin cltol) = true) /\
      (if i11 then out = (gl1, rl_of r1, (i11, i21)) else iterate 1 fuel cl gl1 r1 pad monopole cltol gltol i21 = Ok out).
  Proof.
    revert gl r i2. induction k as [|k IH]; intros gl r i2 Hs H.
    - exists gl, r, false, i2. destruct r as [[[gt rl] fl] e0]. split; [reflexivity|]. split; [exact Hs|]. split; [discriminate|exact H].
    - destruct r as [[[gt rl] fl] e0] eqn:Er. rewrite <- Er in Hs.
      cbn [Model_Transform.iterate] in H |- *.
      destruct (err_le e0 (Fin cltol) || i2) eqn:E.
      + exists gl, r, (err_le e0 (Fin cltol)), i2. rewrite Er. cbn [rl_of err_of fst snd]. split; [reflexivity|].
        split; [rewrite <- Er; exact Hs|]. split; [auto|].
        destruct (err_le e0 (Fin cltol)) eqn:E1; [injection H as <-; reflexivity|].
        cbn [orb] in *. rewrite E in H |- *. exact H.
      + pose proof (iterate_one fuel gl r cltol gltol i2) as One. rewrite Er in One. cbn [Model_Transform.iterate] in One. rewrite E in One.
        destruct (dcorr t1 t2) as [d|] eqn:Ed; cbn [bind] in *; [|discriminate].
        destruct (match monopole with Some _ => _ | None => _ end) as [xl|] eqn:Ex; cbn [bind] in *; [|discriminate].
        destruct (halve fuel cl gl xl pad monopole e0) as [[[gl_ xl_] r_]|] eqn:Eh; cbn [bind] in *; [|discriminate].
        destruct (relerr xl_ gl) as [e|] eqn:Ee; cbn [bind] in *; [|discriminate].
        destruct r_ as [[[gt_ rl_] fl_] e_] eqn:Er_. rewrite <- Er_ in *.
        apply orb_false_iff in E. destruct E as [E ->].
        destruct (One gl_ (rl_of r_) false (err_le e (Fin gltol))) as [(_ & _ & _ & _ & K)|(_ & _ & _ & r' & x & e' & S' & R' & _)].
        { rewrite <- Er. exact Hs. }
        { rewrite Er_. reflexivity. }
        { discriminate. }
        assert (S2 : state_ok gl_ r_).
        { unfold state_ok. rewrite Er in Hs. destruct Hs as (Hr & Hg & Hm).
          destruct S' as (A1 & A2 & A3). split; [|auto].
          clear - Eh. revert xl Eh. induction fuel as [|fu IHf]; intros xl Eh; [discriminate|]. cbn [Model_Transform.halve] in Eh.
          apply bind_ok in Eh. destruct Eh as (rr & Hrr & Eh). destruct (err_le (snd rr) e0); [injection Eh as <- <- <-; exact Hrr|].
          eapply IHf. exact Eh. }
        assert (H' : iterate (S k) fuel cl gl_ r_ pad monopole cltol gltol (err_le e (Fin gltol)) = Ok out).
        { rewrite Er_. cbn [Model_Transform.iterate]. rewrite Ed. exact H. }
        destruct (IH _ _ _ S2 H') as (gl1 & r1 & i11 & i21 & B1 & B2 & B3 & B4).
        exists gl1, r1, i11, i21. split; [exact B1|]. split; [exact B2|]. split; [exact B3|].
        destruct i11; [exact B4|]. cbn [Model_Transform.iterate] in B4. rewrite Ed in B4. exact B4.
  Qed.

  Lemma iterate_next k fuel gl r cltol gltol i2 gl1 rl1 i11 i21 : state_ok gl r ->
    iterate k fuel cl gl r pad monopole cltol gltol i2 = Ok (gl1, rl1, (i11, i21)) -> exists r1,
      state_ok gl1 r1 /\ rl1 = rl_of r1 /\
      iterate (S k) fuel cl gl r pad monopole cltol gltol i2 =
        if i11 then Ok (gl1, rl1, (i11, i21)) else iterate 1 fuel cl gl1 r1 pad monopole cltol gltol i21.
  Proof.
    revert gl r i2. induction k as [|k IH]; intros gl r i2 Hs H.
    - destruct r as [[[gt rl] fl] e0]. injection H as <- <- <- <-. exists (gt, rl, fl, e0). split; [exact Hs|]. split; reflexivity.
    - destruct r as [[[gt rl] fl] e0] eqn:Er. rewrite <- Er in Hs.
      assert (U : forall k, iterate (S k) fuel cl gl (gt, rl, fl, e0) pad monopole cltol gltol i2 =
        if err_le e0 (Fin cltol) || i2 then Ok (gl, rl, (err_le e0 (Fin cltol), i2)) else
          do d <- dcorr t1 t2;
          do xl <- match monopole with Some _ => set_first (apply (fun x => Some (- x)) (firstn (length cl) (lifted corrtocl (quot (lifted cltocorr (padded fl pad)) (apply d gt))))) (Some 0)
            | None => Ok (apply (fun x => Some (- x)) (firstn (length cl) (lifted corrtocl (quot (lifted cltocorr (padded fl pad)) (apply d gt))))) end;
          do h <- halve fuel cl gl xl pad monopole e0;
          let '(gl_, xl, r_) := h in
          do e <- relerr xl gl;
          iterate k fuel cl gl_ r_ pad monopole cltol gltol (err_le e (Fin gltol))) by reflexivity.
      rewrite (U k) in H. rewrite (U (S k)). clear U.
      destruct (err_le e0 (Fin cltol) || i2) eqn:E.
      + injection H as <- <- <- <-. exists r. split; [exact Hs|]. rewrite Er. split; [reflexivity|].
        destruct (err_le e0 (Fin cltol)) eqn:E1; [reflexivity|]. cbn [Model_Transform.iterate]. rewrite E1. cbn [orb] in *. rewrite E. reflexivity.
      + pose proof (iterate_one fuel gl r cltol gltol i2) as One. rewrite Er in One. cbn [Model_Transform.iterate] in One. rewrite E in One.
        destruct (dcorr t1 t2) as [d|] eqn:Ed; cbn [bind] in *; [|discriminate].
        destruct (match monopole with Some _ => _ | None => _ end) as [xl|] eqn:Ex; cbn [bind] in *; [|discriminate].
        destruct (halve fuel cl gl xl pad monopole e0) as [[[gl_ xl_] r_]|] eqn:Eh; cbn [bind] in *; [|discriminate].
        destruct (relerr xl_ gl) as [e|] eqn:Ee; cbn [bind] in *; [|discriminate].
        destruct r_ as [[[gt_ rl_] fl_] e_] eqn:Er_.
        apply orb_false_iff in E. destruct E as [E ->].
        destruct (One gl_ rl_ false (err_le e (Fin gltol))) as [(_ & _ & _ & _ & K)|(_ & _ & _ & r' & x & e' & S' & R' & _)].
        { rewrite <- Er. exact Hs. }
        { reflexivity. }
        { discriminate. }
        assert (S2 : state_ok gl_ (gt_, rl_, fl_, e_)).
        { destruct S' as (A1 & A2 & A3). split; [|auto].
          clear - Eh. revert xl Eh. induction fuel as [|fu IHf]; intros xl Eh; [discriminate|]. cbn [Model_Transform.halve] in Eh.
          apply bind_ok in Eh. destruct Eh as (rr & Hrr & Eh). destruct (err_le (snd rr) e0); [injection Eh as <- <- <-; exact Hrr|].
          eapply IHf. exact Eh. }
        destruct (IH _ _ _ S2 H) as (r1 & B1 & B2 & B3). exists r1. split; [exact B1|]. split; [exact B2|].
        rewrite <- B3. cbn [Model_Transform.iterate]. rewrite Ed. reflexivity.
  Qed.

  Lemma evaluate_total gl f : corr t1 t2 = Ok f -> length gl = n -> (0 < n)%nat -> exists r, evaluate cl gl pad monopole = Ok r.
  Proof.
    intros Hf Hg Hn. unfold Model_Transform.evaluate. rewrite Hf. cbn [bind].
    set (rl := lifted corrtocl (apply f (lifted cltocorr (padded gl pad)))).
    assert (L2 : length rl = (n + pad)%nat).
    { unfold rl. rewrite length_lifted by exact corrtocl_length. unfold apply. rewrite map_length, length_lifted by exact cltocorr_length.
      unfold padded. rewrite app_length, repeat_length. lia. }
    assert (L3 : length (sub (firstn (length cl) rl) cl) = n).
    { unfold sub. rewrite length_zip, firstn_length, L2. fold n. lia. }
    destruct (sub (firstn (length cl) rl) cl) as [|f0 fl]; [cbn in L3; lia|].
    destruct monopole; cbn [set_first bind]; unfold relerr; eexists; reflexivity.
  Qed.

  (** When the error is NaN, halving the step does not end. *)
  Lemma halve_stuck f fuel gl xl : corr t1 t2 = Ok f -> length gl = n -> length xl = n -> (0 < n)%nat ->
    halve fuel cl gl xl pad monopole NaN = Err OutOfFuel.
  Proof.
    intros Hf Hg. revert xl. induction fuel as [|fuel IH]; intros xl Hx Hn; [reflexivity|].
    cbn [Model_Transform.halve].
    assert (La : length (add gl xl) = n) by (unfold add; rewrite length_zip; lia).
    destruct (evaluate_total (add gl xl) f Hf La Hn) as [r Hr]. rewrite Hr. cbn [bind].
    replace (err_le (snd r) NaN) with false by (destruct (snd r); reflexivity).
    apply IH; try assumption. unfold apply. rewrite map_length. exact Hx.
  Qed.
End Proofs.
