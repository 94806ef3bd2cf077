(** Proofs about maps of sums over galaxies. *)
From Coq Require Import Reals Lra Lia List Arith Permutation Sorted.
From Coquelicot Require Import Coquelicot.
From Verif Require Import Base Model_ShearMap Spec_Gauss Spec_Disc Spec_Poisson Spec_ShearMap.
From Verif Require Import Proof_Gauss Proof_Normals Proof_Reject Proof_Poisson.
Import ListNotations.

Local Open Scope nat_scope.

(** * The map making *)
Lemma count_cons l x p : count_occ Nat.eq_dec (x :: l) p = (if x =? p then 1 else 0) + count_occ Nat.eq_dec l p.
Proof. cbn [count_occ]. destruct (Nat.eq_dec x p), (Nat.eqb_spec x p); try contradiction; reflexivity. Qed.
Lemma at_pixel_cons {A} (l : list nat) (v : list A) x e p : at_pixel (x :: l) (e :: v) p = (if x =? p then [e] else []) ++ at_pixel l v p.
Proof. unfold at_pixel. cbn [combine filter fst]. destruct (x =? p); reflexivity. Qed.
Lemma at_pixel_none {A} (l : list nat) p : ~ In p l -> forall v : list A, at_pixel l v p = [].
Proof.
  induction l as [|x l IH]; intros H v; [reflexivity|]. destruct v as [|e v]; [reflexivity|]. rewrite at_pixel_cons, IH by (intro; apply H; right; assumption).
  destruct (Nat.eqb_spec x p) as [->|]; [exfalso; apply H; left; reflexivity|reflexivity].
Qed.
Lemma csum_app l l' : csum (l ++ l') = Cplus (csum l) (csum l').
Proof.
  induction l as [|x l IH]; [symmetry; apply Cplus_0_l|]. change (csum ((x :: l) ++ l')) with (Cplus x (csum (l ++ l'))).
  change (csum (x :: l)) with (Cplus x (csum l)). rewrite IH. apply Cplus_assoc.
Qed.

Lemma groups l : forall i (v : list C), StronglySorted le l -> length v = length l -> l <> [] ->
  let u := unique_sorted i l in
  Forall2 (fun x seg => snd x = count_occ Nat.eq_dec l (fst (fst x)) /\ csum seg = csum (at_pixel l v (fst (fst x))))
    u (split_at i v (tl (map (fun x => snd (fst x)) u))) /\
  (forall p, In p (map (fun x => fst (fst x)) u) <-> In p l) /\
  StronglySorted lt (map (fun x => fst (fst x)) u) /\
  (exists x c r, u = (x, i, c) :: r /\ hd 0 l = x /\ Forall (fun y => i < snd (fst y)) r).
Proof.
  induction l as [|x l IH]; intros i v Hs Lv Ne; [contradiction|]. destruct v as [|e v]; [discriminate|]. cbv zeta. cbn [unique_sorted].
  inversion Hs as [|? ? Hs' Hx]; subst. cbn in Lv.
  destruct l as [|y l'].
  - destruct v; [|discriminate]. cbn [unique_sorted map fst snd tl split_at]. split.
    + constructor; [|constructor]. cbn [fst snd]. rewrite count_cons, at_pixel_cons, Nat.eqb_refl. split; reflexivity.
    + split; [tauto|]. split; [constructor; constructor|]. exists x, 1, []. auto.
  - destruct (IH (S i) v Hs' ltac:(lia) ltac:(discriminate)) as (F & Vl & So & (z & c & r & Eu & Ez & Fr)). cbv zeta in *.
    set (l := y :: l') in *. rewrite Eu in *. cbn [hd] in Ez. unfold l in Ez. cbn in Ez. subst z.
    cbn [map fst snd tl] in F, Vl, So.
    assert (Old : forall p, p <> x -> count_occ Nat.eq_dec (x :: l) p = count_occ Nat.eq_dec l p /\ at_pixel (x :: l) (e :: v) p = at_pixel l v p).
    { intros p Np. rewrite count_cons, at_pixel_cons. destruct (Nat.eqb_spec x p); [congruence|]. split; reflexivity. }
    destruct (Nat.eqb_spec x y) as [->|Nxy].
    + (* the first group grows *)
      inversion F as [|? seg ? segs [Fc Fs] Fr' E1 E2]; subst. cbn [fst snd] in Fc, Fs.
      assert (G : split_at i (e :: v) (map (fun x => snd (fst x)) r) = (e :: seg) :: segs).
      { destruct r as [|[[y2 j] c2] r]; cbn [map fst snd split_at] in E2 |- *.
        - injection E2 as -> ->. reflexivity.
        - inversion Fr as [|? ? Hj _]; subst. cbn [fst snd] in Hj. injection E2 as -> ->.
          replace (j - i) with (S (j - S i)) by lia. reflexivity. }
      cbn [map fst snd tl]. rewrite G. inversion So as [|? ? So' Hlt]; subst. split; [|split; [|split]].
      * constructor.
        -- cbn [fst snd]. rewrite count_cons, at_pixel_cons, Nat.eqb_refl. split; [reflexivity|].
           cbn [app]. change (csum (e :: at_pixel l v y)) with (Cplus e (csum (at_pixel l v y))). rewrite <- Fs. reflexivity.
        -- assert (Nr : Forall (fun x => fst (fst x) <> y) r).
           { apply Forall_forall. intros q Hq. rewrite Forall_forall in Hlt. specialize (Hlt (fst (fst q)) (in_map (fun x => fst (fst x)) r q Hq)). lia. }
           clear - Fr' Nr Old. revert Nr. induction Fr' as [|q sg r segs [A B] _ IH]; intro Nr; constructor.
           ++ inversion Nr as [|? ? Nq _]; subst. destruct (Old _ Nq) as [-> ->]. split; assumption.
           ++ apply IH. inversion Nr; assumption.
      * intro p. specialize (Vl p). cbn [In] in *. unfold l in *. cbn [In] in *. tauto.
      * constructor; assumption.
      * eexists y, _, r. split; [reflexivity|]. split; [reflexivity|]. eapply Forall_impl; [|exact Fr]. intros; cbn beta in *; lia.
    + (* a new group *)
      assert (Low : forall p, In p l -> x < p).
      { intros p Hp. rewrite Forall_forall in Hx. pose proof (Hx y ltac:(left; reflexivity)).
        inversion Hs' as [|? ? _ Hy]; subst. destruct Hp as [<-|Hp]; [lia|]. rewrite Forall_forall in Hy. specialize (Hy p Hp). lia. }
      assert (Nx : ~ In x l) by (intro H; apply Low in H; lia).
      cbn [map fst snd tl split_at]. replace (S i - i) with 1 by lia. cbn [firstn skipn]. split; [|split; [|split]].
      * constructor.
        -- cbn [fst snd]. rewrite count_cons, at_pixel_cons, Nat.eqb_refl, (at_pixel_none l x Nx). rewrite (proj1 (count_occ_not_In Nat.eq_dec l x) Nx). split; reflexivity.
        -- assert (Nr : Forall (fun q => fst (fst q) <> x) ((y, S i, c) :: r)).
           { apply Forall_forall. intros q Hq Eq. apply Nx. rewrite <- Eq. apply Vl. change (y :: map (fun x0 => fst (fst x0)) r) with (map (fun x0 : nat * nat * nat => fst (fst x0)) ((y, S i, c) :: r)).
             apply (in_map (fun x0 => fst (fst x0)) _ q Hq). }
           clear - F Nr Old. revert Nr. induction F as [|q sg r' segs [A B] _ IH]; intro Nr; constructor.
           ++ inversion Nr as [|? ? Nq _]; subst. destruct (Old _ Nq) as [-> ->]. split; assumption.
           ++ apply IH. inversion Nr; assumption.
      * intro p. specialize (Vl p). cbn [In] in *. tauto.
      * constructor; [exact So|]. apply Forall_forall. intros p Hp. apply Low, Vl, Hp.
      * exists x, 1, ((y, S i, c) :: r). split; [reflexivity|]. split; [reflexivity|]. constructor; [cbn; lia|]. eapply Forall_impl; [|exact Fr]. intros; cbn beta in *; lia.
Qed.

Lemma put_spec {A} (f : nat -> A) pix : forall values m, Forall2 (fun p v => v = f p) pix values -> Forall (fun p => p < length m) pix ->
  length (put pix values m) = length m /\
  forall p, nth_error (put pix values m) p = if in_dec Nat.eq_dec p pix then Some (f p) else nth_error m p.
Proof.
  induction pix as [|q pix IH]; intros values m H Hm; inversion H; subst; cbn [put]; [split; [reflexivity|]; intro p; reflexivity|].
  inversion Hm as [|? ? Hq Hr]; subst. set (m' := firstn q m ++ [f q] ++ skipn (S q) m).
  assert (L : length m' = length m) by (unfold m'; rewrite !app_length, firstn_length, skipn_length; cbn [length]; lia).
  assert (N : forall p, nth_error m' p = if Nat.eq_dec p q then Some (f q) else nth_error m p).
  { intro p. unfold m'. assert (Lf : length (firstn q m) = q) by (rewrite firstn_length; lia). destruct (Nat.eq_dec p q) as [->|Np].
    - rewrite nth_error_app2, Lf, Nat.sub_diag by lia. reflexivity.
    - destruct (Nat.lt_ge_cases p q) as [Hlt|Hge].
      + rewrite nth_error_app1 by lia. rewrite <- (firstn_skipn q m) at 2. rewrite nth_error_app1 by lia. reflexivity.
      + rewrite nth_error_app2, Lf by lia. destruct (p - q) as [|k] eqn:Ek; [lia|]. cbn [app nth_error].
        rewrite <- (firstn_skipn (S q) m) at 2. rewrite nth_error_app2 by (rewrite firstn_length; lia). rewrite firstn_length. f_equal. lia. }
  destruct (IH _ m' H4 ltac:(rewrite L; exact Hr)) as [L' N']. split; [congruence|]. intro p. rewrite N', N.
  destruct (in_dec Nat.eq_dec p pix) as [I|I], (in_dec Nat.eq_dec p (q :: pix)) as [J|J], (Nat.eq_dec p q) as [E|E]; subst; try reflexivity; exfalso; cbn [In] in J;
    try (apply J; tauto); destruct J as [J|J]; congruence || contradiction.
Qed.

Lemma add_at_spec {A} (plus : A -> A -> A) zero (f : nat -> A) pix values m : Forall2 (fun p v => v = f p) pix values ->
  (Forall (fun p => p < length m) pix -> exists r, add_at plus zero pix values m = Ok r /\ length r = length m /\
    forall p x, nth_error m p = Some x -> nth_error r p = Some (if in_dec Nat.eq_dec p pix then plus x (f p) else x)) /\
  (~ Forall (fun p => p < length m) pix -> add_at plus zero pix values m = Err IndexError).
Proof.
  intro H. unfold add_at. split; intro Hm.
  - replace (forallb _ pix) with true.
    2:{ symmetry. apply forallb_forall. intros p Hp. rewrite Forall_forall in Hm. apply Nat.ltb_lt, Hm, Hp. }
    destruct (put_spec (fun p => plus (nth p m zero) (f p)) pix (map (fun '(p, v) => plus (nth p m zero) v) (combine pix values)) m) as [L N].
    + clear Hm. induction H as [|p v pix values -> _ IH]; cbn [combine map]; constructor; [reflexivity|exact IH].
    + exact Hm.
    + eexists. split; [reflexivity|]. split; [exact L|]. intros p x Hx. rewrite N. destruct (in_dec _ _ _); [|exact Hx].
      rewrite (nth_error_nth m p zero Hx). reflexivity.
  - replace (forallb _ pix) with false; [reflexivity|]. symmetry. apply Bool.not_true_iff_false. intro F. apply Hm. apply Forall_forall. intros p Hp.
    rewrite forallb_forall in F. apply Nat.ltb_lt, F, Hp.
Qed.

Lemma csum_perm l l' : Permutation l l' -> csum l = csum l'.
Proof.
  induction 1 as [|x l l' _ IH|x y l|l l' l'' _ IH1 _ IH2]; [reflexivity| | |congruence].
  - change (Cplus x (csum l) = Cplus x (csum l')). rewrite IH. reflexivity.
  - change (Cplus y (Cplus x (csum l)) = Cplus x (Cplus y (csum l))). rewrite !Cplus_assoc. f_equal. apply Cplus_comm.
Qed.
Lemma filter_perm {A} (f : A -> bool) l l' : Permutation l l' -> Permutation (filter f l) (filter f l').
Proof.
  induction 1 as [|x l l' _ IH|x y l|l l' l'' _ IH1 _ IH2]; cbn [filter].
  - constructor.
  - destruct (f x); [constructor|]; exact IH.
  - destruct (f x), (f y); try reflexivity; apply perm_swap.
  - etransitivity; eassumption.
Qed.
Lemma map_nth_seq {A} (d : A) l : map (fun i => nth i l d) (seq 0 (length l)) = l.
Proof.
  induction l as [|x l IH]; [reflexivity|]. cbn [length seq map nth]. f_equal. rewrite <- seq_shift, map_map. exact IH.
Qed.

(** What the code adds to the maps. *)
Lemma add_shears_spec argsort pixels values num she : sorts argsort -> length values = length pixels -> length she = length num ->
  (Forall (fun p => p < length num) pixels -> exists num' she', add_shears argsort pixels values (num, she) = Ok (num', she') /\
    length num' = length num /\ length she' = length num /\
    forall p, p < length num -> nth p num' 0 = nth p num 0 + count_occ Nat.eq_dec pixels p /\
      nth p she' (RtoC 0) = Cplus (nth p she (RtoC 0)) (csum (at_pixel pixels values p))) /\
  (~ Forall (fun p => p < length num) pixels -> add_shears argsort pixels values (num, she) = Err IndexError).
Proof.
  intros Hso Lv Ls. destruct (Hso pixels) as [Pe So]. unfold add_shears. cbn [fst snd]. set (s := argsort pixels) in *.
  set (l := map (fun i => nth i pixels 0) s) in *. set (v := map (fun i => nth i values (RtoC 0)) s).
  assert (Ll : length l = length pixels) by (unfold l; rewrite map_length, (Permutation_length Pe), seq_length; reflexivity).
  assert (Lvl : length v = length l) by (unfold v, l; rewrite !map_length; reflexivity).
  assert (Pl : Permutation l pixels).
  { unfold l. eapply Permutation_trans; [apply Permutation_map; exact Pe|]. rewrite map_nth_seq. reflexivity. }
  assert (Ec : forall p, count_occ Nat.eq_dec l p = count_occ Nat.eq_dec pixels p) by (intro p; apply Permutation_count_occ; exact Pl).
  assert (Ea : forall p, csum (at_pixel l v p) = csum (at_pixel pixels values p)).
  { intro p. apply csum_perm. unfold at_pixel. apply Permutation_map, filter_perm.
    replace (combine l v) with (map (fun i => (nth i pixels 0, nth i values (RtoC 0))) s).
    2:{ unfold l, v. clear. induction s as [|i s IH]; [reflexivity|]. cbn [map combine]. f_equal. exact IH. }
    replace (combine pixels values) with (map (fun i => (nth i pixels 0, nth i values (RtoC 0))) (seq 0 (length pixels))).
    { apply Permutation_map. exact Pe. }
    clear - Lv. revert values Lv. induction pixels as [|x pixels IH]; intros [|e values] Lv; try discriminate; [reflexivity|].
    cbn [length seq map nth combine]. f_equal. rewrite <- seq_shift, map_map. apply IH. cbn in Lv. lia. }
  set (u := unique_sorted 0 l). set (pix := map (fun x => fst (fst x)) u).
  set (sums := map (fold_right Cplus (RtoC 0)) (split_at 0 v (tl (map (fun x => snd (fst x)) u)))).
  assert (K : Forall2 (fun p c => c = count_occ Nat.eq_dec pixels p) pix (map snd u) /\
    (forall p, In p pix <-> In p pixels) /\ (pixels = [] \/ Forall2 (fun p c => c = csum (at_pixel pixels values p)) pix sums)).
  { destruct pixels as [|x0 px] eqn:Epx.
    - assert (El : l = []) by (destruct l; [reflexivity|discriminate]). unfold pix, u. rewrite El. cbn. repeat split; auto; intros [].
    - rewrite <- Epx in *. assert (Nl : l <> []) by (intro E; rewrite E, Epx in Ll; discriminate).
      destruct (groups l 0 v So Lvl Nl) as (F & Vl & _). cbv zeta in F. fold u in F, Vl. fold pix in Vl. split; [|split].
      + unfold pix. clear - F Ec. induction F as [|x sg r segs [A _] _ IH]; cbn [map]; constructor; [rewrite <- Ec; exact A|exact IH].
      + intro p. rewrite Vl. split; intro I; [apply (Permutation_in _ Pl I)|apply (Permutation_in _ (Permutation_sym Pl) I)].
      + right. unfold pix, sums. clear - F Ea. revert F. generalize (split_at 0 v (tl (map (fun x => snd (fst x)) u))). intros G F.
        induction F as [|x sg r segs [_ B] _ IH]; cbn [map]; constructor; [rewrite <- Ea; exact B|exact IH]. }
  destruct K as (Kc & Ki & Ks).
  assert (Fi : forall n, Forall (fun p => p < n) pix <-> Forall (fun p => p < n) pixels).
  { intro n. rewrite !Forall_forall. split; intros H p Hp; apply H, Ki, Hp. }
  destruct (add_at_spec Nat.add 0 (count_occ Nat.eq_dec pixels) pix (map snd u) num Kc) as [N1 N2].
  assert (S12 : (Forall (fun p => p < length she) pix -> exists r, add_at Cplus (RtoC 0) pix sums she = Ok r /\ length r = length she /\
    forall p x, nth_error she p = Some x -> nth_error r p = Some (if in_dec Nat.eq_dec p pix then Cplus x (csum (at_pixel pixels values p)) else x))).
  { destruct Ks as [E|Ks].
    - assert (Ep : pix = []). { destruct pix as [|p0 pix']; [reflexivity|]. exfalso. assert (I : In p0 pixels) by (apply Ki; left; reflexivity). rewrite E in I. destruct I. }
      intros _. exists she. rewrite Ep. split; [reflexivity|]. split; [reflexivity|]. intros p x Hx. destruct (in_dec _ _ _) as [[]|]; exact Hx.
    - exact (proj1 (add_at_spec Cplus (RtoC 0) (fun p => csum (at_pixel pixels values p)) pix sums she Ks)). }
  split; intro Hm.
  - destruct (N1 (proj2 (Fi _) Hm)) as (num' & -> & Ln & Hn). cbn [bind].
    destruct (S12 ltac:(rewrite Ls; apply Fi; exact Hm)) as (she' & -> & Lsh & Hs). cbn [bind].
    exists num', she'. split; [reflexivity|]. split; [exact Ln|]. split; [congruence|]. intros p Hp.
    specialize (Hn p _ (nth_error_nth' num 0 Hp)). assert (Hp' : p < length she) by lia. specialize (Hs p _ (nth_error_nth' she (RtoC 0) Hp')).
    rewrite (nth_error_nth num' p 0 Hn), (nth_error_nth she' p (RtoC 0) Hs).
    destruct (in_dec Nat.eq_dec p pix) as [I|I]; [split; reflexivity|].
    assert (I' : ~ In p pixels) by (intro J; apply I, Ki, J). rewrite (proj1 (count_occ_not_In Nat.eq_dec pixels p) I'), (at_pixel_none pixels p I').
    split; [lia|]. symmetry. apply Cplus_0_r.
  - rewrite N2 by (rewrite Fi; exact Hm). reflexivity.
Qed.

Local Open Scope R_scope.

(** * Sums over independent shapes *)
Fixpoint each_then (pre : list (C -> R)) (F : list C -> R) (e : list C) : R :=
  match pre, e with
  | [], e => F e
  | f :: pre, x :: e => f x * each_then pre F e
  | _, _ => 0
  end.
Fixpoint total_of (fs : list (C -> R)) (e : list C) : R :=
  match fs, e with f :: fs, x :: e => f x + total_of fs e | _, _ => 0 end.
Definition rtotal (l : list R) : R := fold_right Rplus 0 l.

Lemma each_then_each pre fs : forall e, each_then pre (each fs) e = each (pre ++ fs) e.
Proof. induction pre as [|f pre IH]; intros [|x e]; cbn [each_then app each]; try reflexivity. rewrite IH. reflexivity. Qed.
Lemma each_then_ext pre F G n : (forall e, length e = n -> F e = G e) -> forall e, length e = (length pre + n)%nat -> each_then pre F e = each_then pre G e.
Proof.
  intro H. induction pre as [|f pre IH]; intros [|x e] L; cbn [each_then]; try reflexivity; [apply H; exact L|apply H; exact L|].
  rewrite IH by (cbn in L; lia). reflexivity.
Qed.
Lemma each_then_app pre f F : forall e, each_then (pre ++ [f]) F e = each_then pre (fun e => match e with x :: e => f x * F e | [] => 0 end) e.
Proof. induction pre as [|g pre IH]; intros [|x e]; cbn [each_then app]; try reflexivity. rewrite IH. reflexivity. Qed.
Lemma each_then_plus pre F G : forall e, each_then pre (fun e => F e + G e) e = each_then pre F e + each_then pre G e.
Proof. induction pre as [|g pre IH]; intros [|x e]; cbn [each_then]; try ring. rewrite IH. ring. Qed.
Lemma each_then_zero pre : forall e, each_then pre (fun _ => 0) e = 0.
Proof. induction pre as [|g pre IH]; intros [|x e]; cbn [each_then]; try ring. rewrite IH. ring. Qed.
Lemma each_one {A} (l : list A) : forall e : list C, length e = length l -> each (map (fun _ _ => 1) l) e = 1.
Proof. induction l as [|y l IH]; intros [|x e] L; try discriminate; cbn [map each]; [reflexivity|]. rewrite IH by (cbn in L; lia). ring. Qed.

Section Sums.
  (** [n] shapes, made of [N] normal numbers, are independent and each follows the law [single]. *)
  Variables n N : nat.
  Variable eps : list R -> list C.
  Variable single : (C -> R) -> R -> Prop.
  Hypothesis eps_length : forall u, length u = N -> length (eps u) = n.
  Hypothesis single_one : single (fun _ => 1) 1.
  Hypothesis law : forall fs qs, Forall2 single fs qs -> length fs = n -> means N (fun u => each fs (eps u)) (product qs).

  Lemma products_app l l' : product (l ++ l') = product l * product l'.
  Proof. apply product_app. Qed.
  Lemma products_one (x : R) : product [x] = x.
  Proof. cbn. ring. Qed.
  Lemma ones_law (l : list (C -> R)) : Forall2 single (map (fun _ _ => 1) l) (map (fun _ => 1) l).
  Proof. induction l; cbn [map]; constructor; auto. Qed.
  Lemma ones_product {A} (l : list A) : product (map (fun _ => 1) l) = 1.
  Proof. induction l as [|x l IH]; [reflexivity|]. unfold product in *. cbn [map fold_right]. rewrite IH. ring. Qed.

  (** One factor for each shape of the first part, and one for the next. *)
  Lemma next_mean pre ps f q (rest : list (C -> R)) : Forall2 single pre ps -> single f q -> (length pre + S (length rest))%nat = n ->
    means N (fun u => each_then (pre ++ [f]) (each (map (fun _ _ => 1) rest)) (eps u)) (product ps * q).
  Proof.
    intros Hp Hf L. eapply means_eq; [apply (law ((pre ++ [f]) ++ map (fun _ _ => 1) rest) ((ps ++ [q]) ++ map (fun _ => 1) rest))| |].
    - apply Forall2_app; [apply Forall2_app; [exact Hp|repeat constructor; exact Hf]|apply ones_law].
    - rewrite !app_length, map_length. cbn [length]. lia.
    - intro u. symmetry. apply each_then_each.
    - rewrite !products_app, products_one, ones_product. ring.
  Qed.

  Lemma sum_mean fs : forall qs pre ps, Forall2 single fs qs -> Forall2 single pre ps -> (length pre + length fs)%nat = n ->
    means N (fun u => each_then pre (total_of fs) (eps u)) (product ps * rtotal qs).
  Proof.
    induction fs as [|f fs IH]; intros qs pre ps Hf Hp L; inversion_clear Hf as [|? q ? qs' Hq Hqs].
    - eapply means_eq; [apply (means_const N 0)| |cbn; ring]. intro u. symmetry. apply each_then_zero.
    - assert (Hp1 : Forall2 single (pre ++ [fun _ => 1]) (ps ++ [1])) by (apply Forall2_app; [exact Hp|repeat constructor; exact single_one]).
      pose proof (IH qs' _ _ Hqs Hp1 ltac:(rewrite app_length; cbn [length] in *; lia)) as M1.
      pose proof (next_mean pre ps f q fs Hp Hq ltac:(cbn [length] in L; lia)) as M2.
      eapply means_len; [apply (means_lin N _ _ 1 1 _ _ M2 M1)| |].
      + intros u Lu. cbn beta. rewrite !each_then_app, !Rmult_1_l, <- each_then_plus. symmetry. apply (each_then_ext pre _ _ (S (length fs))); [|rewrite (eps_length u Lu); cbn [length] in L; lia].
        intros [|x e] Le; [discriminate|]. cbn [total_of]. rewrite each_one by (cbn in Le; lia). ring.
      + rewrite products_app, products_one. cbn [rtotal fold_right]. unfold rtotal. ring.
  Qed.

  Lemma square_mean fs gs : forall qs rs ts pre ps, Forall2 single fs qs -> Forall2 single gs rs ->
    Forall2 (fun fg t => single (fun x => fst fg x * snd fg x) t) (combine fs gs) ts -> length gs = length fs ->
    Forall2 single pre ps -> (length pre + length fs)%nat = n ->
    means N (fun u => each_then pre (fun e => total_of fs e * total_of gs e) (eps u))
      (product ps * (rtotal qs * rtotal rs + (rtotal ts - rtotal (map (fun p => fst p * snd p) (combine qs rs))))).
  Proof.
    revert gs. induction fs as [|f fs IH]; intros gs qs rs ts pre ps Hf Hg Ht Lg Hp L; inversion_clear Hf as [|? q ? qs' Hq Hqs].
    - destruct gs; [|discriminate]. cbn [combine] in Ht. inversion_clear Ht. inversion_clear Hg. eapply means_len; [apply (means_const N 0)| |cbn; ring]. intros u Lu. symmetry. cbn beta.
      rewrite (each_then_ext pre _ (fun _ => 0) 0); [apply each_then_zero|intros; cbn [total_of]; ring|rewrite (eps_length u Lu); cbn [length] in L; lia].
    - destruct gs as [|g gs]; [discriminate|]. inversion_clear Hg as [|? r ? rs' Hr Hrs]. cbn [combine] in Ht. inversion_clear Ht as [|? t ? ts' Ht1 Hts].
      cbn [fst snd length] in *.
      assert (Hp1 : forall f q, single f q -> Forall2 single (pre ++ [f]) (ps ++ [q])) by (intros; apply Forall2_app; [exact Hp|repeat constructor; assumption]).
      pose proof (next_mean pre ps _ t fs Hp Ht1 ltac:(lia)) as M1.
      pose proof (sum_mean gs rs' _ _ Hrs (Hp1 f q Hq) ltac:(rewrite app_length; cbn [length]; lia)) as M2.
      pose proof (sum_mean fs qs' _ _ Hqs (Hp1 g r Hr) ltac:(rewrite app_length; cbn [length]; lia)) as M3.
      pose proof (IH gs qs' rs' ts' _ _ Hqs Hrs Hts ltac:(lia) (Hp1 _ 1 single_one) ltac:(rewrite app_length; cbn [length]; lia)) as M4.
      eapply means_len; [apply (means_lin N _ _ 1 1 _ _ (means_lin N _ _ 1 1 _ _ M1 M2) (means_lin N _ _ 1 1 _ _ M3 M4))| |].
      + intros u Lu. cbn beta. rewrite !each_then_app, !Rmult_1_l, <- !each_then_plus. symmetry.
        apply (each_then_ext pre _ _ (S (length fs))); [|rewrite (eps_length u Lu); lia].
        intros [|x e] Le; [discriminate|]. cbn [total_of]. rewrite each_one by (cbn in Le; lia). ring.
      + rewrite !products_app, !products_one. cbn [rtotal fold_right combine map fst snd]. unfold rtotal. ring.
  Qed.
End Sums.

(** * Moments of numbers in pixels *)
Lemma counts_one lams : forall p, (p < length lams)%nat -> counts_mean lams (fun ns => INR (nth p ns 0%nat)) (nth p lams 0).
Proof.
  induction lams as [|lam lams IH]; intros p Hp; [cbn in Hp; lia|]. destruct p as [|p]; cbn [counts_mean nth].
  - exists INR. split; [intro k; apply counts_const|apply poisson_number].
  - exists (fun _ => nth p lams 0). split; [intro k; apply IH; cbn in Hp; lia|apply poisson_const].
Qed.
Lemma counts_two lams : forall p q, (p < length lams)%nat -> (q < length lams)%nat ->
  counts_mean lams (fun ns => INR (nth p ns 0%nat) * INR (nth q ns 0%nat)) (nth p lams 0 * nth q lams 0 + if Nat.eqb p q then nth p lams 0 else 0).
Proof.
  induction lams as [|lam lams IH]; intros p q Hp Hq; [cbn in Hp; lia|]. cbn [length] in *. destruct p as [|p], q as [|q]; cbn [counts_mean nth Nat.eqb].
  - exists (fun n => INR n ^ 2). split; [intro k; eapply counts_ext; [apply (counts_const lams (INR k ^ 2))| |reflexivity]; intros; cbn beta; ring|].
    eapply poisson_ext; [apply poisson_square|reflexivity|ring].
  - exists (fun n => nth q lams 0 * INR n). split.
    + intro k. eapply counts_ext; [apply (counts_scal lams _ _ (INR k) (counts_one lams q ltac:(lia)))|reflexivity|ring].
    + eapply poisson_ext; [apply (poisson_scal lam _ _ (nth q lams 0) (poisson_number lam))|reflexivity|ring].
  - exists (fun n => nth p lams 0 * INR n). split.
    + intro k. eapply counts_ext; [apply (counts_scal lams _ _ (INR k) (counts_one lams p ltac:(lia)))|intros; cbn beta; ring|ring].
    + eapply poisson_ext; [apply (poisson_scal lam _ _ (nth p lams 0) (poisson_number lam))|reflexivity|ring].
  - eexists (fun _ => _). split; [intro k; apply (IH p q); lia|apply poisson_const].
Qed.
