From Verif Require Import Base Model_Jax Spec_Jax.
Require Import Permutation.

Definition apart {A} (a b : list A) : Prop := ~ derived_from a b /\ ~ derived_from b a.

Lemma apart_sym {A} (a b : list A) : apart a b -> apart b a.
Proof. unfold apart; tauto. Qed.

Lemma independent_perm {A} (l l' : list (list A)) :
  Permutation l l' -> independent l -> independent l'.
Proof.
  induction 1 as [|x l l' H IH|x y l|l1 l2 l3 H1 IH1 H2 IH2]; intro Hi; auto.
  - inversion Hi; subst. constructor; [|auto].
    eapply Permutation_Forall; eassumption.
  - inversion Hi as [|? ? H1 H2]; subst. inversion H2 as [|? ? H3 H4]; subst.
    inversion H1 as [|? ? H5 H6]; subst.
    constructor; [|constructor; assumption].
    constructor; [|exact H3]. tauto.
Qed.

Lemma derived_refl {A} (a : list A) : derived_from a a.
Proof. exists []. reflexivity. Qed.

Lemma independent_NoDup {A} (l : list (list A)) : independent l -> NoDup l.
Proof.
  induction 1 as [|k l H Hi IH]; constructor; [|exact IH].
  intro Hin. rewrite Forall_forall in H. destruct (H k Hin) as [H1 _].
  apply H1, derived_refl.
Qed.

Lemma independent_app {A} (l l' : list (list A)) :
  independent (l ++ l') <->
  independent l /\ independent l' /\ (forall a b, In a l -> In b l' -> apart a b).
Proof.
  induction l as [|k l IH]; simpl.
  - split; [intro H; repeat split; [constructor|exact H|contradiction..] | tauto].
  - split.
    + intro H. inversion H as [|? ? H1 H2]; subst. apply IH in H2 as (H3 & H4 & H5).
      apply Forall_app in H1 as [H1 H1']. split; [constructor; assumption|].
      split; [exact H4|]. intros a b [->|Ha] Hb; [|auto].
      rewrite Forall_forall in H1'. exact (H1' b Hb).
    + intros (H1 & H2 & H3). inversion H1 as [|? ? H4 H5]; subst. constructor.
      * apply Forall_app. split; [exact H4|]. apply Forall_forall. intros b Hb.
        exact (H3 k b (or_introl eq_refl) Hb).
      * apply IH. split; [exact H5|]. split; [exact H2|]. intros; apply H3; auto.
Qed.

(** Two prefixes of one path are comparable. *)
Lemma suffix_comparable {A} (p q k b : list A) : p ++ k = q ++ b ->
  derived_from k b \/ derived_from b k.
Proof.
  revert q; induction p as [|x p IH]; intros q H; simpl in H.
  - left. exists q. exact H.
  - destruct q as [|y q]; simpl in H.
    + right. exists (x :: p). symmetry; exact H.
    + injection H as _ H. exact (IH q H).
Qed.

Lemma child_apart {A} (k b : list A) i : apart k b -> apart (i :: k) b.
Proof.
  intros [H1 H2]. split.
  - intros [p H]. change (i :: k) with ([i] ++ k) in H.
    destruct (suffix_comparable _ _ _ _ H); contradiction.
  - intros [p H]. apply H2. exists (p ++ [i]). rewrite <- app_assoc. exact H.
Qed.

Lemma derived_length {A} (a b : list A) : derived_from a b -> length b <= length a.
Proof. intros [p ->]. rewrite app_length. lia. Qed.

Lemma derived_same_length {A} (a b : list A) : derived_from a b -> length a = length b -> a = b.
Proof.
  intros [p H] Hl. rewrite H, app_length in Hl. destruct p; [exact H|simpl in Hl; lia].
Qed.

Lemma siblings_apart {A} (k : list A) i j : i <> j -> apart (i :: k) (j :: k).
Proof.
  intro H. split; intro D; apply derived_same_length in D; try reflexivity; congruence.
Qed.

Lemma children_independent (k : list nat) s n :
  independent (map (fun i => i :: k) (seq s n)).
Proof.
  revert s; induction n as [|n IH]; intro s; simpl; constructor; [|apply IH].
  apply Forall_forall. intros x Hx. apply in_map_iff in Hx as (j & <- & Hj).
  apply in_seq in Hj. apply siblings_apart. lia.
Qed.

Lemma split_replaces (k : key) n l :
  independent (k :: l) -> independent (jax_split k n ++ l).
Proof.
  intro H. inversion H as [|? ? H1 H2]; subst. apply independent_app.
  split; [apply children_independent|]. split; [exact H2|].
  intros a b Ha Hb. unfold jax_split in Ha. apply in_map_iff in Ha as (i & <- & _).
  apply child_apart. rewrite Forall_forall in H1. exact (H1 b Hb).
Qed.

Lemma use_key_split o k : exists n,
  let '(k', out, ch) := use_key o k in jax_split k n = k' :: out ++ ch.
Proof.
  destruct o as [g|g p|g c]; simpl.
  - exists 2. reflexivity.
  - exists (1 + p). unfold jax_split. simpl. rewrite app_nil_r. reflexivity.
  - exists (c + 1). unfold jax_split. rewrite Nat.add_1_r. simpl. reflexivity.
Qed.

(** * set_nth *)
Lemma nth_set_nth {A} (l : list A) i j x :
  nth_error (set_nth l i x) j = if (i =? j) && (i <? length l) then Some x else nth_error l j.
Proof.
  revert i j; induction l as [|y l IH]; intros [|i] [|j]; simpl; auto.
  - destruct (i =? j); reflexivity.
  - rewrite IH. reflexivity.
Qed.

Lemma set_nth_length {A} (l : list A) i x : length (set_nth l i x) = length l.
Proof. revert i; induction l as [|y l IH]; intros [|i]; simpl; auto. Qed.

Lemma set_nth_split {A} (l : list A) i x : nth_error l i = Some x ->
  exists a b, l = a ++ x :: b /\ length a = i /\ forall y, set_nth l i y = a ++ y :: b.
Proof.
  revert i; induction l as [|z l IH]; intros [|i] H; simpl in *; try discriminate.
  - injection H as ->. exists [], l. auto.
  - destruct (IH i H) as (a & b & -> & Hl & Hs). exists (z :: a), b. simpl.
    repeat split; [lia|]. intro y. rewrite Hs. reflexivity.
Qed.

Lemma perm_shuffle {A} (x : A) (o ch a b u : list A) :
  Permutation ((x :: o ++ ch) ++ a ++ b ++ u) (((a ++ x :: b) ++ ch) ++ u ++ o).
Proof.
  rewrite <- Permutation_middle. simpl. constructor. rewrite <- !app_assoc.
  rewrite (Permutation_app_comm o (ch ++ a ++ b ++ u)). rewrite <- !app_assoc.
  rewrite (app_assoc a b), (app_assoc a b). rewrite (Permutation_app_swap_app ch (a ++ b)).
  reflexivity.
Qed.

(** * The invariant with locking *)
Definition keys_of (c : config) : list key := map gkey (gens c) ++ used c.

Definition holds (c : config) (t g : nat) : Prop :=
  exists G, nth_error (gens c) g = Some G /\ gowner G = Some t.

Record Inv (c : config) : Prop := {
  inv_keys : independent (keys_of c);
  inv_lock : forall t th o rest, nth_error (threads c) t = Some th -> prog th = o :: rest ->
     ph th <> Idle -> holds c t (op_gen o);
  inv_read : forall t th o rest k, nth_error (threads c) t = Some th -> prog th = o :: rest ->
     ph th = HasRead k -> exists G, nth_error (gens c) (op_gen o) = Some G /\ gkey G = k }.

Lemma inv_start seed progs : Inv (start seed progs).
Proof.
  assert (Hph : forall t th, nth_error (threads (start seed progs)) t = Some th -> ph th = Idle).
  { intros t th H. unfold start in H; simpl in H. rewrite nth_error_map' in H.
    destruct (nth_error progs t); simpl in H; [|discriminate]. injection H as <-. reflexivity. }
  split.
  - unfold keys_of; simpl. constructor; [constructor|constructor].
  - intros t th o rest H _ Hne. rewrite (Hph t th H) in Hne. congruence.
  - intros t th o rest k H _ Hne. rewrite (Hph t th H) in Hne. discriminate.
Qed.

Lemma inv_step c t : Inv c -> Inv (step true c t).
Proof.
  intros [Hk Hl Hr]. unfold step.
  destruct (nth_error (threads c) t) as [th|] eqn:Et; [|split; assumption].
  destruct (prog th) as [|o rest] eqn:Ep; [split; assumption|].
  destruct (nth_error (gens c) (op_gen o)) as [g|] eqn:Eg; [|split; assumption].
  assert (Htl : t <? length (threads c) = true).
  { apply Nat.ltb_lt. apply nth_error_Some. congruence. }
  assert (Hgl : op_gen o <? length (gens c) = true).
  { apply Nat.ltb_lt. apply nth_error_Some. congruence. }
  destruct (ph th) as [| |k] eqn:Eph.
  - (* acquire *)
    destruct (gowner g) as [u|] eqn:Eo; [split; assumption|].
    split.
    + unfold keys_of in *; simpl.
      destruct (set_nth_split _ _ _ Eg) as (a & b & Ec & _ & Hs). rewrite Hs.
      rewrite Ec in Hk. rewrite map_app in *. simpl in *. exact Hk.
    + simpl. intros t' th' o' rest' H1 H2 H3. rewrite nth_set_nth, Htl, andb_true_r in H1.
      unfold holds; simpl. rewrite nth_set_nth, Hgl, andb_true_r.
      destruct (Nat.eqb_spec t t') as [E|E].
      * injection H1 as <-. simpl in *. try rewrite Ep in H2. injection H2 as <- <-.
        rewrite Nat.eqb_refl. eexists. split; [reflexivity|]. simpl. congruence.
      * destruct (Hl t' th' o' rest' H1 H2 H3) as (G & HG & HO).
        destruct (Nat.eqb_spec (op_gen o) (op_gen o')) as [E'|E'].
        -- rewrite <- E', Eg in HG. injection HG as <-. congruence.
        -- exists G. auto.
    + simpl. intros t' th' o' rest' k' H1 H2 H3. rewrite nth_set_nth, Htl, andb_true_r in H1.
      rewrite nth_set_nth, Hgl, andb_true_r.
      destruct (Nat.eqb_spec t t') as [E|E].
      * injection H1 as <-. simpl in H3. discriminate.
      * destruct (Hr t' th' o' rest' k' H1 H2 H3) as (G & HG & HO).
        destruct (Nat.eqb_spec (op_gen o) (op_gen o')) as [E'|E'].
        -- rewrite <- E', Eg in HG. injection HG as <-. eexists; split; [reflexivity|exact HO].
        -- exists G; auto.
  - (* read *)
    split.
    + exact Hk.
    + simpl. intros t' th' o' rest' H1 H2 H3. rewrite nth_set_nth, Htl, andb_true_r in H1.
      unfold holds; simpl.
      destruct (Nat.eqb_spec t t') as [E|E].
      * injection H1 as <-. simpl in *. try rewrite Ep in H2. injection H2 as <- <-.
        subst t'. destruct (Hl t th o rest Et Ep) as (G & HG); [congruence|]. exists G; exact HG.
      * exact (Hl t' th' o' rest' H1 H2 H3).
    + simpl. intros t' th' o' rest' k' H1 H2 H3. rewrite nth_set_nth, Htl, andb_true_r in H1.
      destruct (Nat.eqb_spec t t') as [E|E].
      * injection H1 as <-. simpl in *. try rewrite Ep in H2. injection H2 as <- <-.
        injection H3 as <-. exists g. auto.
      * exact (Hr t' th' o' rest' k' H1 H2 H3).
  - (* write and release *)
    destruct (Hr t th o rest k Et Ep Eph) as (G & HG & HGk).
    rewrite Eg in HG. injection HG as <-.
    destruct (Hl t th o rest Et Ep) as (G & HG & HGo); [congruence|].
    rewrite Eg in HG. injection HG as <-.
    destruct (use_key_split o k) as [n Hn].
    destruct (use_key o k) as [[k' out] ch] eqn:Eu.
    assert (Hother : forall t' th' o' rest', t <> t' -> nth_error (threads c) t' = Some th' ->
        prog th' = o' :: rest' -> ph th' <> Idle -> op_gen o <> op_gen o').
    { intros t' th' o' rest' Hne H1 H2 H3 E.
      destruct (Hl t' th' o' rest' H1 H2 H3) as (G & HG & HO).
      rewrite <- E, Eg in HG. injection HG as <-. congruence. }
    assert (Hnth : forall j, j <> op_gen o -> forall G, nth_error (gens c) j = Some G ->
        nth_error (set_nth (gens c) (op_gen o) {| gkey := k'; gowner := None |} ++
                   map (fun ck => {| gkey := ck; gowner := None |}) ch) j = Some G).
    { intros j Hj G HG. rewrite nth_error_app, set_nth_length.
      assert (Hlt : j < length (gens c)) by (apply nth_error_Some; congruence).
      apply Nat.ltb_lt in Hlt. rewrite Hlt, nth_set_nth.
      destruct (Nat.eqb_spec (op_gen o) j) as [E|E]; [congruence|]. exact HG. }
    split.
    + unfold keys_of in *; simpl.
      destruct (set_nth_split _ _ _ Eg) as (a & b & Ec & _ & Hs). rewrite Hs.
      rewrite Ec in Hk. rewrite map_app in Hk. simpl in Hk. rewrite HGk in Hk.
      rewrite map_app, map_app, map_map. simpl. rewrite map_id.
      assert (Hk2 : independent (k :: map gkey a ++ map gkey b ++ used c)).
      { eapply independent_perm; [|exact Hk]. rewrite <- app_assoc. simpl.
        apply Permutation_sym. apply (Permutation_cons_app (map gkey a) (map gkey b ++ used c)).
        reflexivity. }
      apply (split_replaces k n) in Hk2. rewrite Hn in Hk2.
      eapply independent_perm; [|exact Hk2].
      apply perm_shuffle.
    + simpl. intros t' th' o' rest' H1 H2 H3. rewrite nth_set_nth, Htl, andb_true_r in H1.
      destruct (Nat.eqb_spec t t') as [E|E].
      * injection H1 as <-. simpl in H3. congruence.
      * destruct (Hl t' th' o' rest' H1 H2 H3) as (G & HG & HO).
        exists G. split; [|exact HO]. simpl. apply Hnth; [|exact HG].
        intro E'. exact (Hother t' th' o' rest' E H1 H2 H3 (eq_sym E')).
    + simpl. intros t' th' o' rest' k2 H1 H2 H3. rewrite nth_set_nth, Htl, andb_true_r in H1.
      destruct (Nat.eqb_spec t t') as [E|E].
      * injection H1 as <-. simpl in H3. congruence.
      * destruct (Hr t' th' o' rest' k2 H1 H2 H3) as (G & HG & HO).
        exists G. split; [|exact HO]. apply Hnth; [|exact HG].
        intro E'. refine (Hother t' th' o' rest' E H1 H2 _ (eq_sym E')). congruence.
Qed.

Lemma inv_run c schedule : Inv c -> Inv (run true c schedule).
Proof.
  unfold run. revert c; induction schedule as [|t s IH]; intros c H; simpl; [exact H|].
  apply IH. apply inv_step. exact H.
Qed.

Lemma run_independent seed progs schedule :
  let c := run true (start seed progs) schedule in
  independent (map gkey (gens c) ++ used c).
Proof. apply inv_keys. apply inv_run. apply inv_start. Qed.
