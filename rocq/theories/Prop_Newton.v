(** Claims about single iterations of the solver for Gaussian spectra (C80). *)
From Coq Require Import Reals Lra Lia ZArith List Bool.
From Verif Require Import Base RSum Model_Numeric Proof_Numeric Model_Transform Spec_Transform Spec_Newton Proof_Solver Prop_Transform Prop_Solver.
Import ListNotations.
Local Open Scope R_scope.

Definition zipr (f : R -> R -> R) (a b : list R) : list R := map (fun p => f (fst p) (snd p)) (combine a b).

Lemma zipr_length f a b : length (zipr f a b) = Nat.min (length a) (length b).
Proof. unfold zipr. rewrite map_length, combine_length. reflexivity. Qed.

Lemma zipr_nth f a b i : (i < length a)%nat -> (i < length b)%nat -> nth i (zipr f a b) 0 = f (nth i a 0) (nth i b 0).
Proof.
  revert b i. induction a as [|x a IH]; intros b i La Lb; [cbn in La; lia|].
  destruct b as [|y b]; [cbn in Lb; lia|]. destruct i as [|i]; [reflexivity|]. cbn in *. apply IH; lia.
Qed.

Lemma zip_some f a b : zip (fun u v => Some (f u v)) (map Some a) (map Some b) = map Some (zipr f a b).
Proof.
  unfold zip, zipr. revert b. induction a as [|x a IH]; intros [|y b]; try reflexivity. cbn. f_equal. apply IH.
Qed.

Lemma quot_some a b : (forall v, In v b -> v <> 0) -> quot (map Some a) (map Some b) = map Some (zipr Rdiv a b).
Proof.
  unfold quot, zip, zipr. revert b. induction a as [|x a IH]; intros [|y b] Hn; try reflexivity. cbn [map combine fst snd nbind].
  rewrite IH by (intros v Hv; apply Hn; right; exact Hv). f_equal. unfold divide.
  destruct (Req_EM_T y 0) as [E|E]; [exfalso; exact (Hn y (or_introl eq_refl) E)|reflexivity].
Qed.

Lemma padded_some a p : padded (map Some a) p = map Some (a ++ repeat 0 p).
Proof. unfold padded. rewrite map_app. f_equal. induction p; [reflexivity|]. cbn. f_equal. assumption. Qed.

Lemma apply_some f a : apply (fun v => Some (f v)) (map Some a) = map Some (map f a).
Proof. unfold apply. rewrite !map_map. reflexivity. Qed.

Lemma lifted_some f a : lifted f (map Some a) = map Some (f a).
Proof. unfold lifted. rewrite finite_map. reflexivity. Qed.

Definition zeroed (free : bool) (a : list R) : list R := match a with v :: a => (if free then 0 else v) :: a | [] => [] end.

Lemma zeroed_length free a : length (zeroed free a) = length a.
Proof. destruct a; reflexivity. Qed.

Lemma zeroed_nth free a i : nth i (zeroed free a) 0 = if free && (i =? 0)%nat then 0 else nth i a 0.
Proof. destruct a as [|v a], i as [|i], free; reflexivity. Qed.

Lemma set_first_zeroed (m : option R) a b : match m with Some _ => set_first (map Some a) (Some 0) | None => Ok (map Some a) end = Ok b ->
  b = map Some (zeroed (is_some m) a).
Proof. destruct m, a; cbn; intro H; try discriminate; injection H as <-; reflexivity. Qed.

Lemma err_maximum_fin l : (forall e, In e l -> e <> NaN) -> err_maximum l <> NaN.
Proof.
  induction l as [|a l IH]; intro H; [discriminate|]. destruct l as [|b l].
  - cbn. apply H. left. reflexivity.
  - change (err_maximum (a :: b :: l)) with (err_max a (err_maximum (b :: l))).
    assert (K := IH (fun e He => H e (or_intror He))). assert (K0 := H a (or_introl eq_refl)).
    destruct a, (err_maximum (b :: l)); cbn; congruence.
Qed.

Lemma relerr_fin a b e : relerr (map Some a) (map Some b) = Ok e -> e <> NaN.
Proof.
  unfold relerr. destruct a as [|v a]; [discriminate|]. cbn [map]. change (Some v :: map Some a) with (map (@Some R) (v :: a)).
  set (A := v :: a). clearbody A. intros [= <-]. apply err_maximum_fin. intros e He. apply in_map_iff in He.
  destruct He as ([p q] & <- & Hin). pose proof (in_combine_l _ _ _ _ Hin) as H1. pose proof (in_combine_r _ _ _ _ Hin) as H2.
  apply in_map_iff in H1. apply in_map_iff in H2. destruct H1 as (p' & <- & _), H2 as (q' & <- & _). cbn [fst snd].
  destruct (Req_EM_T p' 0); [discriminate|]. destruct (Req_EM_T q' 0); discriminate.
Qed.

Lemma derivable_rsum n (f : nat -> R -> R) t l : (forall k, (k < n)%nat -> derivable_pt_lim (f k) t (l k)) ->
  derivable_pt_lim (fun t => rsum n (fun k => f k t)) t (rsum n l).
Proof.
  induction n as [|n IH]; intro H; cbn [rsum]; [apply derivable_pt_lim_const|].
  apply (derivable_pt_lim_plus (fun t => rsum n (fun k => f k t)) (f n)); [apply IH; intros; apply H; lia|apply H; lia].
Qed.

Lemma derivable_ext f g t l : (forall t, f t = g t) -> derivable_pt_lim f t l -> derivable_pt_lim g t l.
Proof. intros E H eps He. destruct (H eps He) as [d Hd]. exists d. intros h Hh Hl. rewrite <- !E. apply Hd; assumption. Qed.

Lemma derivable_line a b t : derivable_pt_lim (fun t => a + t * b) t b.
Proof.
  assert (K : derivable_pt_lim (fun t => a + t * b) t (0 + (1 * b + t * 0))).
  { apply (derivable_pt_lim_plus (fun _ => a) (fun t => t * b)); [apply derivable_pt_lim_const|].
    apply (derivable_pt_lim_mult (fun t => t) (fun _ => b)); [apply derivable_pt_lim_id|apply derivable_pt_lim_const]. }
  replace (0 + (1 * b + t * 0)) with b in K by ring. exact K.
Qed.

Section Newton.
  Variables cltocorr corrtocl : list R -> list R.
  Variables A B : nat -> nat -> nat -> R.
  Hypothesis to_linear : by_matrix cltocorr A.
  Hypothesis from_linear : by_matrix corrtocl B.
  Hypothesis to_from : forall x, cltocorr (corrtocl x) = x.
  Hypothesis from_to : forall x, corrtocl (cltocorr x) = x.
  Variables t1 t2 : transformation.

  Let to_length x : length (cltocorr x) = length x.
  Proof. apply to_linear. Qed.
  Let from_length x : length (corrtocl x) = length x.
  Proof. apply from_linear. Qed.

  Lemma evaluate_some (x g : list R) c p m r : corr t1 t2 = Ok (fun v => Some (c v)) ->
    evaluate cltocorr corrtocl t1 t2 (map Some x) (map Some g) p m = Ok r ->
    exists e, e <> NaN /\ r = (map Some (cltocorr (g ++ repeat 0 p)), map Some (realised cltocorr corrtocl c g p),
      map Some (zeroed (is_some m) (zipr Rminus (firstn (length x) (realised cltocorr corrtocl c g p)) x)), e).
  Proof.
    intros Hc H. unfold evaluate in H. rewrite Hc in H. cbn [bind] in H.
    rewrite padded_some, lifted_some, apply_some, lifted_some in H. fold (realised cltocorr corrtocl c g p) in H.
    apply bind_ok in H. destruct H as (fl & Hfl & H). apply bind_ok in H. destruct H as (e & He & H). injection H as <-.
    rewrite map_length, firstn_map in Hfl. unfold sub in Hfl. rewrite (zip_some Rminus) in Hfl. apply set_first_zeroed in Hfl. subst fl.
    apply relerr_fin in He. exists e. split; [exact He|reflexivity].
  Qed.

  Lemma halve_power fuel cl (g xl : list R) p m e gl_ xl_ r_ :
    halve cltocorr corrtocl t1 t2 fuel cl (map Some g) (map Some xl) p m e = Ok (gl_, xl_, r_) -> exists j,
      gl_ = map Some (zipr Rplus g (map (fun v => v / 2 ^ j) xl)) /\
      forall j', (j' < j)%nat -> exists r, evaluate cltocorr corrtocl t1 t2 cl (map Some (zipr Rplus g (map (fun v => v / 2 ^ j') xl))) p m = Ok r /\
        err_le (snd r) e = false.
  Proof.
    revert xl. induction fuel as [|fuel IH]; intros xl H; [discriminate|]. cbn [halve] in H.
    apply bind_ok in H. destruct H as (r & Hr & H).
    assert (E0 : map (fun v => v / 2 ^ 0) xl = xl).
    { rewrite <- (map_id xl) at 2. apply map_ext. intro v. cbn [pow]. field. }
    assert (E1 : add (map Some g) (map Some xl) = map Some (zipr Rplus g (map (fun v => v / 2 ^ 0) xl))).
    { rewrite E0. unfold add. apply (zip_some Rplus). }
    rewrite E1 in Hr. destruct (err_le (snd r) e) eqn:El.
    - injection H as <- <- <-. exists 0%nat. split; [exact E1|]. intros j' Hj. lia.
    - rewrite (apply_some (fun v => v / 2)) in H. destruct (IH _ H) as (j & Eg & Ej).
      assert (Es : forall j, map (fun v => v / 2 ^ j) (map (fun v => v / 2) xl) = map (fun v => v / 2 ^ S j) xl).
      { intro i. rewrite map_map. apply map_ext. intro v. cbn [pow]. field. apply pow_nonzero. lra. }
      exists (S j). rewrite <- Es. split; [exact Eg|]. intros [|j'] Hj; [exists r; split; [exact Hr|exact El]|].
      rewrite <- Es. apply Ej. lia.
  Qed.

  Variables (fuel : nat) (x : list R) (pad : Z) (initial : option (list num)) (cltol gltol : R) (monopole : option R).
  Let run (maxiter : nat) := solve cltocorr corrtocl t1 t2 fuel (map Some x) pad initial cltol gltol maxiter monopole.
  Let fixed (i : nat) := match monopole with Some _ => (i =? 0)%nat | None => false end.
  Let free := match monopole with Some _ => true | None => false end.
  Let n := length x.
  Let p := Z.to_nat pad.

  (** C80 *)
  (** One iteration goes from [g] in the direction [y] of Newton's method: along it the realised spectrum changes, to
      first order, by what is missing.  The length of the step is halved only as long as the error becomes larger. *)
  Theorem solve_newton k g rl gl rl' i2 c c' :
    run k = Ok (map Some g, rl, (false, false)) -> run (S k) = Ok (gl, rl', (false, i2)) ->
    corr t1 t2 = Ok (fun v => Some (c v)) -> (forall v, derivable_pt_lim c v (c' v)) ->
    (forall v, In v (cltocorr (g ++ repeat 0 p)) -> c' v <> 0) ->
    exists y j, length y = (n + p)%nat /\
      (forall i, (i < n + p)%nat ->
         derivable_pt_lim (fun t => nth i (realised cltocorr corrtocl c (moved (g ++ repeat 0 p) y t) 0) 0) 0
           (if (i <? n)%nat && negb (fixed i) then nth i x 0 - nth i (realised cltocorr corrtocl c g p) 0 else 0)) /\
      let candidate j := map (fun i => if fixed i then nth i g 0 else nth i g 0 + nth i y 0 / 2 ^ j) (seq 0 n) in
      gl = map Some (candidate j) /\
      forall j', (j' < j)%nat -> exists e, 0 <= e /\ agrees free (map Some x) rl e /\
        ~ agrees free (map Some x) (map Some (realised cltocorr corrtocl c (candidate j') p)) e.
  Proof.
    intros Hk HS Hc Hd Hn.
    destruct (run_iterate cltocorr corrtocl to_length from_length t1 t2 fuel (map Some x) pad initial cltol gltol monopole _ _ HS)
      as (Hp & gl0 & r0 & Hs & Hi & _).
    fold p in Hs, Hi. unfold run in Hk, HS. rewrite Hi in Hk, HS.
    destruct (iterate_next _ _ to_length from_length _ _ _ _ _ k fuel gl0 r0 cltol gltol false _ _ _ _ Hs Hk)
      as (r1 & S1 & -> & E). rewrite E in HS. clear E Hi Hk.
    pose proof S1 as (Hr & Lg & Hm). rewrite !map_length in Lg. fold n in Lg.
    destruct (evaluate_some _ _ _ _ _ _ Hc Hr) as (e & He & ->). clear Hs. cbn [rl_of fst snd].
    set (rz := realised cltocorr corrtocl c g p) in *.
    assert (Lr : length rz = (n + p)%nat).
    { unfold rz, realised. rewrite from_length, map_length, to_length, app_length, repeat_length. lia. }
    cbn [iterate] in HS. destruct (err_le e (Fin cltol)) eqn:Ee; [cbn [orb] in HS; discriminate|]. cbn [orb] in HS.
    apply bind_ok in HS. destruct HS as (d & Hdc & HS).
    destruct (corr_derivative _ _ _ _ Hc Hdc) as (f & f' & Ef & Ef' & Df).
    assert (Ec : forall v, d v = Some (c' v)).
    { intro v. rewrite Ef'. f_equal. apply (uniqueness_limite c v); [|apply Hd]. apply (derivable_ext f); [|apply Df].
      intro t. specialize (Ef t). injection Ef as <-. reflexivity. }
    set (gt := cltocorr (g ++ repeat 0 p)) in *.
    set (fl := zeroed (is_some monopole) (zipr Rminus (firstn (length x) rz) x)) in *.
    assert (Lgt : length gt = (n + p)%nat) by (unfold gt; rewrite to_length, app_length, repeat_length; lia).
    assert (Lfl : length fl = n).
    { unfold fl. rewrite zeroed_length, zipr_length, firstn_length, Lr. fold n. lia. }
    rewrite padded_some, lifted_some in HS. set (ft := cltocorr (fl ++ repeat 0 p)) in *.
    assert (Lft : length ft = (n + p)%nat) by (unfold ft; rewrite to_length, app_length, repeat_length; lia).
    assert (Ed : apply d (map Some gt) = map Some (map c' gt)).
    { unfold apply. rewrite !map_map. apply map_ext. intro v. cbn [nbind]. apply Ec. }
    rewrite Ed, quot_some, lifted_some, firstn_map, (apply_some Ropp) in HS.
    2:{ intros v Hv. apply in_map_iff in Hv. destruct Hv as (u & <- & Hu). apply Hn. exact Hu. }
    set (z := zipr Rdiv ft (map c' gt)) in *.
    assert (Lz : length z = (n + p)%nat) by (unfold z; rewrite zipr_length, map_length; lia).
    apply bind_ok in HS. destruct HS as (xl & Hxl & HS). apply set_first_zeroed in Hxl. subst xl.
    apply bind_ok in HS. destruct HS as ([[gl_ xl_] r_] & Hh & HS).
    destruct (halve_power _ _ _ _ _ _ _ _ _ _ Hh) as (j & Eg & Ej).
    apply bind_ok in HS. destruct HS as (e2 & _ & HS). destruct r_ as [[[gt_ rl_] fl_] e_]. injection HS as <- <- _.
    exists (map Ropp (corrtocl z)), j.
    assert (Ly : length (map Ropp (corrtocl z)) = (n + p)%nat) by (rewrite map_length, from_length; exact Lz).
    split; [exact Ly|]. split; [|cbv zeta].
    - intros i Li.
      assert (Lm : forall t, length (moved (g ++ repeat 0 p) (map Ropp (corrtocl z)) t) = (n + p)%nat).
      { intro t. unfold moved. rewrite map_length, combine_length, app_length, repeat_length, Ly. lia. }
      assert (Nm : forall t q, (q < n + p)%nat -> nth q (moved (g ++ repeat 0 p) (map Ropp (corrtocl z)) t) 0 =
        nth q (g ++ repeat 0 p) 0 + t * - nth q (corrtocl z) 0).
      { intros t q Lq. unfold moved. fold (zipr (fun u v => u + t * v) (g ++ repeat 0 p) (map Ropp (corrtocl z))).
        rewrite zipr_nth; [|rewrite app_length, repeat_length; lia|lia]. f_equal. f_equal.
        rewrite <- Ropp_0 at 1. rewrite map_nth. reflexivity. }
      assert (Gm : forall t q, (q < n + p)%nat -> nth q (cltocorr (moved (g ++ repeat 0 p) (map Ropp (corrtocl z)) t)) 0 =
        nth q gt 0 + t * - nth q z 0).
      { intros t q Lq. destruct (to_linear (moved (g ++ repeat 0 p) (map Ropp (corrtocl z)) t)) as [_ M].
        rewrite Lm in M. rewrite M by exact Lq.
        rewrite (rsum_ext _ _ (fun r => A (n + p) q r * nth r (g ++ repeat 0 p) 0 + (- t) * (A (n + p)%nat q r * nth r (corrtocl z) 0))).
        2:{ intros r Lq'. rewrite Nm by exact Lq'. ring. }
        rewrite rsum_plus, rsum_scal.
        destruct (to_linear (g ++ repeat 0 p)) as [_ M1]. rewrite app_length, repeat_length, Lg in M1.
        destruct (to_linear (corrtocl z)) as [_ M2]. rewrite from_length, Lz in M2.
        rewrite <- M1, <- M2 by exact Lq. rewrite to_from. fold gt. ring. }
      assert (V : (if (i <? n)%nat && negb (fixed i) then nth i x 0 - nth i rz 0 else 0) =
        rsum (n + p) (fun q => B (n + p)%nat i q * (c' (nth q gt 0) * - nth q z 0))).
      { transitivity (- nth i (fl ++ repeat 0 p) 0).
        - destruct (Nat.ltb_spec i n) as [Lt|Ge]; cbn [andb].
          + rewrite app_nth1 by lia. unfold fl. rewrite zeroed_nth. unfold fixed, is_some.
            assert (Q : nth i (zipr Rminus (firstn (length x) rz) x) 0 = nth i rz 0 - nth i x 0).
            { rewrite zipr_nth; [|rewrite firstn_length; fold n; lia|exact Lt]. f_equal.
              rewrite <- (firstn_skipn (length x) rz) at 2. rewrite app_nth1; [reflexivity|rewrite firstn_length; fold n; lia]. }
            destruct monopole; [destruct (i =? 0)%nat|]; cbn [negb andb]; rewrite ?Q; ring.
          + rewrite app_nth2 by lia. rewrite Lfl.
            assert (Z0 : forall q a, nth a (repeat 0 q) 0 = 0) by (induction q; intros [|a]; cbn; auto). rewrite Z0. ring.
        - rewrite <- (from_to (fl ++ repeat 0 p)). fold ft. destruct (from_linear ft) as [_ M]. rewrite Lft in M.
          rewrite M by exact Li. rewrite <- rsum_opp. apply rsum_ext. intros q Lq. unfold z.
          rewrite zipr_nth by (rewrite ?map_length; lia).
          assert (N0 : nth q (map c' gt) 0 = c' (nth q gt 0)).
          { rewrite (nth_indep _ 0 (c' 0)) by (rewrite map_length; lia). apply map_nth. }
          rewrite N0. field. apply Hn. apply nth_In. lia. }
      rewrite V.
      apply (derivable_ext (fun t => rsum (n + p) (fun q => B (n + p)%nat i q * c (nth q gt 0 + t * - nth q z 0)))).
      + intro t. unfold realised. cbn [repeat]. rewrite app_nil_r.
        destruct (from_linear (map c (cltocorr (moved (g ++ repeat 0 p) (map Ropp (corrtocl z)) t)))) as [_ M].
        rewrite map_length, to_length, Lm in M. rewrite M by exact Li. apply rsum_ext. intros q Lq. f_equal.
        rewrite <- Gm by exact Lq. rewrite (nth_indep (map c _) 0 (c 0)) by (rewrite map_length, to_length, Lm; lia). symmetry. apply map_nth.
      + apply (derivable_rsum (n + p) (fun q t => B (n + p)%nat i q * c (nth q gt 0 + t * - nth q z 0))). intros q Lq.
        apply (derivable_pt_lim_scal (fun t => c (nth q gt 0 + t * - nth q z 0))).
        apply (derivable_pt_lim_comp (fun t => nth q gt 0 + t * - nth q z 0) c).
        * apply derivable_line.
        * replace (nth q gt 0 + 0 * - nth q z 0) with (nth q gt 0) by ring. apply Hd.
    - assert (C : forall j, zipr Rplus g (map (fun v => v / 2 ^ j) (zeroed (is_some monopole) (map Ropp (firstn (length (map Some x)) (corrtocl z))))) =
        map (fun i => if fixed i then nth i g 0 else nth i g 0 + nth i (map Ropp (corrtocl z)) 0 / 2 ^ j) (seq 0 n)).
      { intro q. rewrite map_length. fold n.
        assert (LL : length (zeroed (is_some monopole) (map Ropp (firstn n (corrtocl z)))) = n)
          by (rewrite zeroed_length, map_length, firstn_length, from_length, Lz; lia).
        apply (nth_ext _ _ 0 0); [rewrite zipr_length, !map_length, seq_length; lia|].
        intros i Li. rewrite zipr_length, map_length in Li. rewrite zipr_nth by (rewrite ?map_length; lia).
        rewrite (nth_indep (map _ (seq 0 n)) 0 ((fun i => if fixed i then nth i g 0 else nth i g 0 + nth i (map Ropp (corrtocl z)) 0 / 2 ^ q) 0%nat))
          by (rewrite map_length, seq_length; lia).
        rewrite (map_nth (fun i => if fixed i then nth i g 0 else nth i g 0 + nth i (map Ropp (corrtocl z)) 0 / 2 ^ q)), seq_nth by lia.
        rewrite (nth_indep (map (fun v => v / 2 ^ q) _) 0 ((fun v => v / 2 ^ q) 0)) by (rewrite map_length; lia).
        rewrite (map_nth (fun v => v / 2 ^ q)), zeroed_nth. cbn [Nat.add].
        assert (F : nth i (map Ropp (firstn n (corrtocl z))) 0 = nth i (map Ropp (corrtocl z)) 0).
        { rewrite <- (firstn_skipn n (corrtocl z)) at 2. rewrite map_app, app_nth1; [reflexivity|].
          rewrite map_length, firstn_length, from_length, Lz. lia. }
        rewrite F. unfold fixed, is_some. destruct monopole; cbn [andb]; [destruct (i =? 0)%nat|]; unfold Rdiv; ring. }
      split; [rewrite Eg; f_equal; apply C|].
      intros j' Lj. destruct (Ej j' Lj) as (r & Hr' & Hle). rewrite C in Hr'.
      match type of Hr' with evaluate _ _ _ _ _ (map Some ?q) _ _ = _ => set (cand := q) in * end.
      assert (Lc : length (map Some cand) = length (map Some x)) by (unfold cand; rewrite !map_length, seq_length; reflexivity).
      destruct (evaluate_some _ _ _ _ _ _ Hc Hr') as (e' & He' & Er).
      assert (Re : exists v, e = Fin v).
      { subst r. cbn [snd] in Hle. destruct e as [v| |]; [exists v; reflexivity| |contradiction].
        destruct e'; cbn in Hle; congruence. }
      assert (Lg' : length (map Some g) = length (map Some x)) by (rewrite !map_length; exact Lg).
      destruct Re as [v ->]. exists v. assert (Pv : 0 <= v).
      { apply (evaluate_pos _ _ to_length from_length _ _ _ _ _ _ _ v Lg' Hr). cbn [err_of snd err_le]. apply leb_iff. lra. }
      split; [exact Pv|].
      change free with (is_some monopole).
      split.
      + apply (evaluate_agrees _ _ to_length from_length _ _ _ _ _ _ _ v Pv Lg' Hr). cbn [err_of snd err_le]. apply leb_iff. lra.
      + intro Ha. assert (Er' : map Some (realised cltocorr corrtocl c cand p) = rl_of r) by (rewrite Er; reflexivity).
        rewrite Er' in Ha. apply (evaluate_agrees _ _ to_length from_length _ _ _ _ _ _ _ v Pv Lc Hr') in Ha.
        unfold err_of in Ha. rewrite Ha in Hle. discriminate.
  Qed.
End Newton.
Print Assumptions solve_newton.

(** The transforms of a single entry, or of any number of entries that are not mixed. *)
Example identity_by_matrix : by_matrix (fun x => x) (fun _ i k => if (k =? i)%nat then 1 else 0).
Proof.
  intro x. split; [reflexivity|]. intros i Li.
  rewrite (rsum_single _ i); [rewrite Nat.eqb_refl; ring|exact Li|]. intros k _ Ne.
  destruct (Nat.eqb_spec k i); [contradiction|ring].
Qed.

(** A run in which the step is halved: from -1/2 Newton's method goes by 15/4 to 13/4, where the error is larger; half of
    the step is taken. *)
Example newton_example :
  let run k := solve (fun x => x) (fun x => x) (SquaredNormal 1 1) (SquaredNormal 1 1) 2 (map Some [6]) 0 (Some [Some (-1/2)]) 0 0 k None in
  run 0%nat = Ok (map Some [-1/2], [Some (-3/2)], (false, false)) /\
  run 1%nat = Ok ([Some (11/8)], [Some (297/32)], (false, false)) /\
  (forall v, derivable_pt_lim (fun x => 2 * (1 * 1) * x * (x + 2 * (1 * 1))) v (4 * v + 4)) /\
  (forall v, In v [-1/2] -> 4 * v + 4 <> 0).
Proof.
  cbv zeta. cbn [map]. set (t := SquaredNormal 1 1).
  assert (C : corr t t = Ok (fun x => Some (2 * (1 * 1) * x * (x + 2 * (1 * 1))))) by reflexivity.
  assert (Ev : forall g f r, f = 2 * g * (g + 2) -> f <> 6 -> r = Rabs ((f - 6) / 6) ->
    evaluate (fun x => x) (fun x => x) t t [Some 6] [Some g] 0 None = Ok ([Some g], [Some f], [Some (f - 6)], Fin r)).
  { intros g f r -> Nf ->. rewrite (evaluate_single _ _ _ _ _ C). replace (2 * (1 * 1) * g * (g + 2 * (1 * 1))) with (2 * g * (g + 2)) by ring.
    destruct (Req_EM_T (2 * g * (g + 2) - 6) 0) as [K|_]; [exfalso; lra|]. destruct (Req_EM_T 6 0) as [K|_]; [exfalso; lra|]. reflexivity. }
  assert (E0 : evaluate (fun x => x) (fun x => x) t t [Some 6] [Some (-1/2)] 0 None = Ok ([Some (-1/2)], [Some (-3/2)], [Some (-3/2 - 6)], Fin (5/4))).
  { apply Ev; [lra|lra|]. rewrite Rabs_left by lra. lra. }
  assert (E1 : evaluate (fun x => x) (fun x => x) t t [Some 6] [Some (13/4)] 0 None = Ok ([Some (13/4)], [Some (273/8)], [Some (273/8 - 6)], Fin (225/48))).
  { apply Ev; [lra|lra|]. rewrite Rabs_right by lra. lra. }
  assert (E2 : evaluate (fun x => x) (fun x => x) t t [Some 6] [Some (11/8)] 0 None = Ok ([Some (11/8)], [Some (297/32)], [Some (297/32 - 6)], Fin (105/192))).
  { apply Ev; [lra|lra|]. rewrite Rabs_right by lra. lra. }
  unfold solve. replace ((0 <? 0)%Z) with false by reflexivity. cbn [bind length firstn app Nat.sub repeat Z.to_nat].
  rewrite E0. cbn [bind]. split; [reflexivity|]. split; [|split].
  - cbn [iterate]. assert (L1 : err_le (Fin (5/4)) (Fin 0) = false) by (apply leb_false; lra). rewrite L1. cbn [orb].
    assert (D : dcorr t t = Ok (fun x => Some (4 * (1 * 1) * (x + 1 * 1)))) by reflexivity. rewrite D. cbn [bind].
    assert (X : apply (fun x => Some (- x)) (firstn (length [Some 6]) (lifted (fun x => x)
      (quot (lifted (fun x => x) (padded [Some (-3/2 - 6)] 0)) (apply (fun x => Some (4 * (1 * 1) * (x + 1 * 1))) [Some (-1/2)])))) = [Some (15/4)]).
    { cbn. unfold divide. destruct (Req_EM_T (4 * (1 * 1) * (-1 / 2 + 1 * 1)) 0) as [K|_]; [exfalso; lra|]. cbn. f_equal. f_equal. field. }
    rewrite X. cbn [halve].
    assert (A1 : add [Some (-1/2)] [Some (15/4)] = [Some (13/4)]) by (cbn; f_equal; f_equal; field). rewrite A1, E1. cbn [bind snd].
    assert (L2 : err_le (Fin (225/48)) (Fin (5/4)) = false) by (apply leb_false; lra). rewrite L2.
    assert (H : apply (fun x => Some (x / 2)) [Some (15/4)] = [Some (15/8)]) by (cbn; f_equal; f_equal; field). rewrite H.
    assert (A2 : add [Some (-1/2)] [Some (15/8)] = [Some (11/8)]) by (cbn; f_equal; f_equal; field). rewrite A2, E2. cbn [bind snd].
    assert (L3 : err_le (Fin (105/192)) (Fin (5/4)) = true) by (apply leb_true; lra). rewrite L3. cbn [bind].
    assert (Q : relerr [Some (15/8)] [Some (-1/2)] = Ok (Fin (15/4))).
    { cbn. destruct (Req_EM_T (15/8) 0) as [K|_]; [exfalso; lra|]. destruct (Req_EM_T (-1/2) 0) as [K|_]; [exfalso; lra|].
      f_equal. f_equal. rewrite Rabs_left by lra. lra. }
    rewrite Q. cbn [bind]. assert (L4 : err_le (Fin (15/4)) (Fin 0) = false) by (apply leb_false; lra). rewrite L4. reflexivity.
  - intro v. destruct (corr_derivative t t _ _ C eq_refl) as (f & f' & Ef & Ef' & Df).
    specialize (Ef' v). injection Ef' as E'. specialize (Df v). rewrite <- E' in Df.
    replace (4 * v + 4) with (4 * (1 * 1) * (v + 1 * 1)) by ring. apply (derivable_ext f); [|exact Df].
    intro y. specialize (Ef y). injection Ef as Ey. symmetry. exact Ey.
  - intros v [<-|[]]. lra.
Qed.
