From Coq Require Import String.
From Verif Require Import Base Model_User Spec_User.
Open Scope string_scope.
Open Scope list_scope.
Open Scope nat_scope.

(** * save and load *)
Lemma firstn_app_len {A} (l l' : list A) : firstn (length l) (l ++ l') = l.
Proof. rewrite firstn_app, Nat.sub_diag, firstn_all. simpl. apply app_nil_r. Qed.
Lemma skipn_app_len {A} (l l' : list A) : skipn (length l) (l ++ l') = l'.
Proof. rewrite skipn_app, Nat.sub_diag, skipn_all. reflexivity. Qed.

Lemma pieces_split {V} (cls : list (list V)) (pre : list V) : cls <> [] ->
  pieces (pre ++ concat cls)
    (length pre :: cumulative_sum (length pre) (map (@length V) (removelast cls))
       ++ [length (pre ++ concat cls)]) = cls.
Proof.
  revert pre; induction cls as [|c cls IH]; intros pre Hne; [congruence|].
  destruct cls as [|d cls].
  - simpl. rewrite app_nil_r, skipn_app_len, app_length.
    replace (length pre + length c - length pre) with (length c) by lia.
    rewrite firstn_all. reflexivity.
  - assert (E : removelast (c :: d :: cls) = c :: removelast (d :: cls)) by reflexivity.
    rewrite E. change (map (@length V) (c :: removelast (d :: cls)))
      with (length c :: map (@length V) (removelast (d :: cls))).
    change (cumulative_sum (length pre) (length c :: map (@length V) (removelast (d :: cls))))
      with ((length pre + length c) :: cumulative_sum (length pre + length c)
              (map (@length V) (removelast (d :: cls)))).
    change (concat (c :: d :: cls)) with (c ++ concat (d :: cls)).
    assert (E2 : pre ++ c ++ concat (d :: cls) = (pre ++ c) ++ concat (d :: cls))
      by (rewrite app_assoc; reflexivity).
    specialize (IH (pre ++ c) ltac:(discriminate)).
    rewrite app_length in IH.
    change (pieces (pre ++ c ++ concat (d :: cls))
      (length pre :: ((length pre + length c) :: cumulative_sum (length pre + length c)
              (map (@length V) (removelast (d :: cls)))) ++ [length (pre ++ c ++ concat (d :: cls))]))
    with (firstn (length pre + length c - length pre) (skipn (length pre) (pre ++ c ++ concat (d :: cls)))
       :: pieces (pre ++ c ++ concat (d :: cls))
           ((length pre + length c) :: cumulative_sum (length pre + length c)
              (map (@length V) (removelast (d :: cls))) ++ [length (pre ++ c ++ concat (d :: cls))])).
    f_equal.
    + rewrite skipn_app_len. replace (length pre + length c - length pre) with (length c) by lia.
      apply firstn_app_len.
    + rewrite E2. exact IH.
Qed.

Lemma save_load {V} (fs : files V) name cls : cls <> [] ->
  exists fs', save_cls fs name cls = Ok fs' /\ load_cls fs' (npz_name name) = Ok cls /\
    forall other, other <> npz_name name -> load_cls fs' other = load_cls fs other.
Proof.
  intro H. unfold save_cls. destruct cls as [|c cls]; [congruence|].
  eexists. split; [reflexivity|]. split.
  - unfold load_cls. cbn [find fst]. rewrite String.eqb_refl. f_equal. unfold np_split.
    exact (pieces_split (c :: cls) [] ltac:(discriminate)).
  - intros other Hn. unfold load_cls. cbn [find fst].
    destruct (String.eqb_spec (npz_name name) other); [congruence|reflexivity].
Qed.

(** * catalogue *)
Lemma same_lengths_iff {V} (b : table V) : same_lengths b = true <->
  b <> [] /\ forall c c', In c b -> In c' b -> length (snd c) = length (snd c').
Proof.
  destruct b as [|[s v] b]; simpl.
  - split; [discriminate|tauto].
  - rewrite Nat.eqb_refl. cbn [andb]. rewrite forallb_forall. split.
    + intro H. split; [discriminate|].
      assert (G : forall c, (s, v) = c \/ In c b -> length (snd c) = length v).
      { intros c [<-|Hc]; [reflexivity|]. specialize (H c Hc). destruct c. apply Nat.eqb_eq in H. exact H. }
      intros c c' Hc Hc'. rewrite (G c Hc), (G c' Hc'). reflexivity.
    + intros [_ H] [t w] Hin. apply Nat.eqb_eq.
      exact (H (t, w) (s, v) (or_intror Hin) (or_introl eq_refl)).
Qed.

Lemma distinct_iff l : distinct l = true <-> NoDup l.
Proof.
  induction l as [|x l IH]; simpl; [split; [constructor|reflexivity]|].
  rewrite andb_true_iff, negb_true_iff, IH. split.
  - intros [H1 H2]. constructor; [|exact H2]. intro Hin.
    assert (E : existsb (String.eqb x) l = true)
      by (apply existsb_exists; exists x; split; [exact Hin|apply String.eqb_refl]).
    congruence.
  - intro H. inversion H; subst. split; [|assumption].
    destruct (existsb (String.eqb x) l) eqn:E; [|reflexivity].
    apply existsb_exists in E as (y & Hy & E). apply String.eqb_eq in E. subst. contradiction.
Qed.

Lemma lookup_In {V} (b : table V) s v : lookup b s = Some v -> In (s, v) b.
Proof.
  unfold lookup. destruct (find _ b) as [[t w]|] eqn:E; [|discriminate]. cbn. intro H; injection H as <-.
  apply find_some in E as [E1 E2]. cbn in E2. apply String.eqb_eq in E2. subst. exact E1.
Qed.

Lemma lookup_total {V} (b : table V) s : In s (map fst b) -> exists v, lookup b s = Some v.
Proof.
  intro H. unfold lookup. destruct (find _ b) as [[t w]|] eqn:E; [cbn; eauto|].
  apply in_map_iff in H as ([t w] & <- & Hin). apply (find_none _ _ E) in Hin.
  cbn in Hin. rewrite String.eqb_refl in Hin. discriminate.
Qed.

Lemma append_rows_ok {V} names (t b : table V) :
  NoDup (map fst t) -> (forall s, In s (map fst t) <-> In s names) -> regular names b ->
  exists t', append_rows t b = Ok t' /\ map fst t' = map fst t /\
    forall s c', In (s, c') t' -> exists c d, In (s, c) t /\ In (s, d) b /\ c' = c ++ d.
Proof.
  intros Hn Hs (Hn' & Hs' & _). unfold append_rows.
  assert (E1 : length t =? length b = true).
  { apply Nat.eqb_eq. rewrite <- (map_length fst t), <- (map_length fst b).
    apply Nat.le_antisymm; apply NoDup_incl_length; try assumption; intros x Hx.
    - apply Hs', Hs, Hx.
    - apply Hs, Hs', Hx. }
  assert (L : forall s, In s (map fst t) -> exists v, lookup b s = Some v).
  { intros s H. apply lookup_total, Hs', Hs, H. }
  assert (E2 : forallb (fun '(s, _) => match lookup b s with Some _ => true | None => false end) t = true).
  { apply forallb_forall. intros [s v] Hin. destruct (L s) as [w ->]; [|reflexivity].
    apply in_map_iff. exists (s, v). auto. }
  rewrite E1, E2. cbn [andb]. eexists. split; [reflexivity|]. split.
  - rewrite map_map. apply map_ext. intros [s c]. reflexivity.
  - intros s c' H. apply in_map_iff in H as ([s0 c] & E & Hin). injection E as <- <-.
    destruct (L s0) as [w Hw]; [apply in_map_iff; exists (s0, c); auto|].
    exists c, w. rewrite Hw. split; [exact Hin|]. split; [apply lookup_In; exact Hw|reflexivity].
Qed.

Definition prim {V} : hdu V := {| hname := None; htable := [] |}.
Definition file1 {V} (name : option string) (t : table V) : fits V :=
  {| hdus := [prim; {| hname := name; htable := t |}]; closed := false |}.
Definition file0 {V} : fits V := {| hdus := [prim]; closed := false |}.
Definition ext0 (name : option string) : ext := match name with Some s => ByName s | None => NoExt end.
Definition ext1 (name : option string) : ext := match name with Some s => ByName s | None => ByNum 1 end.

Lemma regular_accept {V} names (b : table V) : names <> [] -> regular names b ->
  negb (same_lengths b && distinct (map fst b)) = false.
Proof.
  intros Hne (H1 & H2 & H3). apply negb_false_iff, andb_true_iff. split.
  - apply same_lengths_iff. split; [|exact H3]. intros ->. destruct names as [|s names]; [congruence|].
    destruct (H2 s) as [_ H]. apply H. left; reflexivity.
  - apply distinct_iff. exact H1.
Qed.

Lemma append_first {V} names name (b : table V) : names <> [] -> regular names b ->
  fits_append file0 (ext0 name) b = Ok (file1 name b, ext1 name).
Proof.
  intros Hne Hr. unfold fits_append. rewrite (regular_accept names b Hne Hr).
  destruct name as [s|]; reflexivity.
Qed.

Lemma append_next {V} names name (t b : table V) : names <> [] ->
  NoDup (map fst t) -> (forall s, In s (map fst t) <-> In s names) -> regular names b ->
  exists t', fits_append (file1 name t) (ext1 name) b = Ok (file1 name t', ext1 name) /\
    map fst t' = map fst t /\
    forall s c', In (s, c') t' -> exists c d, In (s, c) t /\ In (s, d) b /\ c' = c ++ d.
Proof.
  intros Hne Hn Hs Hr. destruct (append_rows_ok names t b Hn Hs Hr) as (t' & E & F & G).
  exists t'. split; [|auto]. unfold fits_append. rewrite (regular_accept names b Hne Hr).
  assert (Hf : find_hdu (file1 name t) (ext1 name) = Some 1).
  { destruct name as [s|]; cbn; [rewrite String.eqb_refl|]; reflexivity. }
  rewrite Hf. cbn [nth_error file1 hdus htable hname]. rewrite E. reflexivity.
Qed.

Fixpoint appends {V} (f : fits V) (e : ext) (bs : list (table V)) : result (fits V * ext) :=
  match bs with
  | [] => Ok (f, e)
  | b :: bs => do fe <- fits_append f e b; let '(f, e) := fe in appends f e bs
  end.

Lemma appends_app {V} (f : fits V) e bs bs' :
  appends f e (bs ++ bs') = do fe <- appends f e bs; let '(f, e) := fe in appends f e bs'.
Proof.
  revert f e; induction bs as [|b bs IH]; intros f e; simpl; [reflexivity|].
  destruct (fits_append f e b) as [[f1 e1]|x]; cbn [bind]; [apply IH|reflexivity].
Qed.

Lemma body_calls {V} (calls : list (option (table V) * table V)) tail f e f' e' :
  appends f e (batches calls) = Ok (f', e') ->
  body f e (map (fun '(d, c) => Write d c) calls ++ tail) = body f' e' tail.
Proof.
  revert f e; induction calls as [|[d c] calls IH]; intros f e H.
  - simpl in H. injection H as <- <-. reflexivity.
  - unfold batches in H. cbn [flat_map] in H. fold (batches calls) in H.
    rewrite appends_app in H. apply bind_ok in H as ([f1 e1] & H1 & H2).
    cbn [map app body].
    destruct d as [b|]; cbn [app appends opt_append] in *.
    + destruct (fits_append f e b) as [[f2 e2]|x]; cbn [bind] in *; [|discriminate].
      destruct c as [|c0 c]; cbn [app appends opt_append] in *.
      * injection H1 as <- <-. apply IH. exact H2.
      * destruct (fits_append f2 e2 (c0 :: c)) as [[f3 e3]|x]; cbn [bind] in *; [|discriminate].
        injection H1 as <- <-. apply IH. exact H2.
    + destruct c as [|c0 c]; cbn [app appends opt_append] in *.
      * injection H1 as <- <-. apply IH. exact H2.
      * destruct (fits_append f e (c0 :: c)) as [[f3 e3]|x]; cbn [bind] in *; [|discriminate].
        injection H1 as <- <-. apply IH. exact H2.
Qed.

Lemma Forall2_snoc {A B} (R : A -> B -> Prop) l l' x y :
  Forall2 R l l' -> R x y -> Forall2 R (l ++ [x]) (l' ++ [y]).
Proof. intros. apply Forall2_app; [assumption|]. constructor; [assumption|constructor]. Qed.

Lemma appends_rest {V} names name (b0 : table V) : names <> [] -> regular names b0 ->
  forall (bs done : list (table V)) (t : table V), Forall (regular names) bs -> map fst t = map fst b0 ->
  (forall s c, In (s, c) t -> stacked done s c) ->
  exists t', appends (file1 name t) (ext1 name) bs = Ok (file1 name t', ext1 name) /\
    map fst t' = map fst b0 /\ (forall s c, In (s, c) t' -> stacked (done ++ bs) s c).
Proof.
  intros Hne Hr0 bs. destruct Hr0 as (Hn & Hs & _).
  induction bs as [|b bs IH]; intros done t Hbs Ht Hst.
  - exists t. rewrite app_nil_r. simpl. auto.
  - inversion Hbs as [|? ? Hb Hbs']; subst. simpl.
    destruct (append_next names name t b Hne) as (t1 & E & F & G);
      [rewrite Ht; exact Hn| rewrite Ht; exact Hs|exact Hb|].
    rewrite E. cbn [bind].
    destruct (IH (done ++ [b]) t1 Hbs') as (t' & E' & F' & G').
    + rewrite F. exact Ht.
    + intros s c' Hin. destruct (G s c' Hin) as (c & d & Hc & Hd & ->).
      destruct (Hst s c Hc) as (vs & Hv & ->). exists (vs ++ [d]).
      split; [apply Forall2_snoc; assumption|]. rewrite concat_app. simpl. rewrite app_nil_r. reflexivity.
    + exists t'. rewrite <- app_assoc in G'. auto.
Qed.

Lemma appends_all {V} names name (b0 : table V) bs : names <> [] ->
  Forall (regular names) (b0 :: bs) ->
  exists t', appends file0 (ext0 name) (b0 :: bs) = Ok (file1 name t', ext1 name) /\
    map fst t' = map fst b0 /\ (forall s c, In (s, c) t' -> stacked (b0 :: bs) s c).
Proof.
  intros Hne H. inversion H as [|? ? Hb Hbs]; subst. cbn [appends].
  rewrite (append_first names name b0 Hne Hb). cbn [bind].
  apply (appends_rest names name b0 Hne Hb bs [b0] b0 Hbs eq_refl).
  intros s c Hin. exists [c]. split; [constructor; [exact Hin|constructor]|].
  simpl. symmetry. apply app_nil_r.
Qed.

Lemma ragged_reject {V} (b : table V) f e : ragged b -> fits_append f e b = Err ValueError.
Proof.
  intros (c & c' & Hc & Hc' & Hl). unfold fits_append.
  assert (E : same_lengths b = false).
  { destruct (same_lengths b) eqn:E; [|reflexivity]. apply same_lengths_iff in E as [_ E].
    exfalso. apply Hl. apply E; assumption. }
  rewrite E. reflexivity.
Qed.
