From Coq Require Import String.
From Verif Require Import Base Model_Arrays Spec_Arrays.
Open Scope string_scope.
Open Scope list_scope.
Open Scope nat_scope.

Lemma bdim_ok a b d : bdim a b = Ok d -> (a = 1 \/ a = d) /\ (b = 1 \/ b = d) /\ (d = a \/ d = b).
Proof.
  unfold bdim. destruct (Nat.eqb_spec a b), (Nat.eqb_spec a 1), (Nat.eqb_spec b 1);
    intro H; try discriminate; injection H as <-; subst; auto.
Qed.
Lemma bdim_err a b e : bdim a b = Err e -> a <> 1 /\ b <> 1 /\ a <> b.
Proof.
  unfold bdim. destruct (Nat.eqb_spec a b), (Nat.eqb_spec a 1), (Nat.eqb_spec b 1);
    intro H; try discriminate; auto.
Qed.

Lemma brev_ok s : forall t r, brev s t = Ok r ->
  length r = Nat.max (length s) (length t) /\
  forall k, (nth k s 1 = 1 \/ nth k s 1 = nth k r 1) /\ (nth k t 1 = 1 \/ nth k t 1 = nth k r 1) /\
            (nth k r 1 = nth k s 1 \/ nth k r 1 = nth k t 1).
Proof.
  induction s as [|a s IH]; intros t r H.
  - simpl in H. injection H as <-. split; [reflexivity|]. intro k. destruct k; simpl; auto.
  - destruct t as [|b t]; simpl in H.
    + injection H as <-. split; [simpl; lia|]. intro k. destruct k; simpl; auto.
    + apply bind_ok in H as (d & Hd & H). apply bind_ok in H as (r' & Hr & H). injection H as <-.
      destruct (IH t r' Hr) as [Hl Hk]. split; [simpl; lia|].
      intros [|k]; cbn [nth]; [exact (bdim_ok a b d Hd)|apply Hk].
Qed.

Lemma brev_err s : forall t e, brev s t = Err e ->
  exists k, nth k s 1 <> 1 /\ nth k t 1 <> 1 /\ nth k s 1 <> nth k t 1.
Proof.
  induction s as [|a s IH]; intros t e H; [discriminate|].
  destruct t as [|b t]; simpl in H; [discriminate|].
  destruct (bdim a b) as [d|x] eqn:Ed.
  - cbn [bind] in H. destruct (brev s t) as [r|y] eqn:Er; cbn [bind] in H; [discriminate|].
    destruct (IH t y Er) as [k Hk]. exists (S k). exact Hk.
  - exists 0. exact (bdim_err a b x Ed).
Qed.

Lemma broadcast2_ok s t r : broadcast2 s t = Ok r ->
  length r = Nat.max (length s) (length t) /\
  forall k, (axis s k = 1 \/ axis s k = axis r k) /\ (axis t k = 1 \/ axis t k = axis r k) /\
            (axis r k = axis s k \/ axis r k = axis t k).
Proof.
  unfold broadcast2. intro H. apply bind_ok in H as (q & Hq & H). injection H as <-.
  apply brev_ok in Hq as [Hl Hk]. rewrite !rev_length in *. unfold axis. rewrite rev_involutive.
  split; [exact Hl|exact Hk].
Qed.

Lemma broadcast2_err s t e : broadcast2 s t = Err e ->
  exists k, axis s k <> 1 /\ axis t k <> 1 /\ axis s k <> axis t k.
Proof.
  unfold broadcast2. destruct (brev (rev s) (rev t)) as [r|x] eqn:E; cbn [bind]; [discriminate|].
  intros _. exact (brev_err _ _ _ E).
Qed.

Lemma axis_nil k : axis [] k = 1.
Proof. destruct k; reflexivity. Qed.

Lemma broadcast_shapes_ok l : forall d, broadcast_shapes l = Ok d -> is_broadcast l d.
Proof.
  induction l as [|s l IH]; intros d H; simpl in H.
  - injection H as <-. split; [constructor|]. split; [left; reflexivity|].
    intro k. split; [intros s []|left; apply axis_nil].
  - apply bind_ok in H as (t & Ht & H). apply broadcast2_ok in H as [Hl Hk].
    destruct (IH t Ht) as (I1 & I2 & I3). split; [|split].
    + constructor; [lia|]. eapply Forall_impl; [|exact I1]. simpl. intros; lia.
    + destruct (le_lt_dec (length t) (length s)) as [Hle|Hlt].
      * right. exists s. split; [left; reflexivity|lia].
      * destruct I2 as [->|(u & Hu & Hul)]; [simpl in Hlt; lia|].
        right. exists u. split; [right; exact Hu|lia].
    + intro k. destruct (Hk k) as (A & B & C). destruct (I3 k) as [D E]. split.
      * intros u [<-|Hu]; [exact A|]. destruct (D u Hu) as [|F]; [auto|].
        destruct B as [B|B]; [left|right]; congruence.
      * destruct C as [C|C]; [right; exists s; split; [left; reflexivity|congruence]|].
        destruct E as [E|(u & Hu & E)]; [left; congruence|].
        right. exists u. split; [right; exact Hu|congruence].
Qed.

Definition conflict (l : list shape) : Prop :=
  exists s t k, In s l /\ In t l /\ axis s k <> 1 /\ axis t k <> 1 /\ axis s k <> axis t k.

Lemma broadcast_shapes_err l e : broadcast_shapes l = Err e -> conflict l.
Proof.
  induction l as [|s l IH]; simpl; [discriminate|].
  destruct (broadcast_shapes l) as [t|x] eqn:E; cbn [bind]; intro H.
  - apply broadcast2_err in H as (k & A & B & C).
    apply broadcast_shapes_ok in E as (_ & _ & I). destruct (I k) as [_ [D|(u & Hu & D)]]; [congruence|].
    exists s, u, k. rewrite D. split; [left; reflexivity|]. split; [right; exact Hu|auto].
  - destruct (IH H) as (a & b & k & Ha & Hb & Hc). exists a, b, k. simpl. auto.
Qed.

Lemma conflict_no_broadcast l d : conflict l -> ~ is_broadcast l d.
Proof.
  intros (s & t & k & Hs & Ht & A & B & C) (_ & _ & I). destruct (I k) as [I1 _].
  destruct (I1 s Hs), (I1 t Ht); congruence.
Qed.

Lemma broadcast_unique l d d' : is_broadcast l d -> is_broadcast l d' -> d = d'.
Proof.
  intros (A & B & C) (A' & B' & C').
  assert (Hl : length d = length d').
  { assert (W : forall d d' : shape, Forall (fun s => length s <= length d) l ->
        (d' = [] \/ exists s, In s l /\ length s = length d') -> length d' <= length d).
    { intros e e' F [->|(s & Hs & <-)]; [simpl; lia|]. rewrite Forall_forall in F. auto. }
    apply Nat.le_antisymm; apply W; assumption. }
  assert (Hx : forall k, axis d k = axis d' k).
  { intro k. destruct (C k) as [C1 C2], (C' k) as [C1' C2'].
    destruct C2 as [C2|(s & Hs & C2)], C2' as [C2'|(s' & Hs' & C2')]; try congruence.
    - destruct (C1 s' Hs'); congruence.
    - destruct (C1' s Hs); congruence.
    - destruct (C1 s' Hs'), (C1' s Hs); congruence. }
  rewrite <- (rev_involutive d), <- (rev_involutive d'). f_equal.
  apply nth_ext with (d := 1) (d' := 1); [rewrite !rev_length; exact Hl|].
  intros k _. apply Hx.
Qed.

Lemma broadcast_shapes_iff l d : broadcast_shapes l = Ok d <-> is_broadcast l d.
Proof.
  split; [apply broadcast_shapes_ok|]. intro H.
  destruct (broadcast_shapes l) as [d'|e] eqn:E.
  - f_equal. exact (broadcast_unique l d' d (broadcast_shapes_ok l d' E) H).
  - exfalso. exact (conflict_no_broadcast l d (broadcast_shapes_err l e E) H).
Qed.

(** * broadcast_to *)
Lemma to_rev_iff s : forall t, to_rev s t = true <->
  length s <= length t /\ forall k, k < length s -> nth k s 1 = nth k t 1 \/ nth k s 1 = 1.
Proof.
  induction s as [|a s IH]; intros t; simpl.
  - split; [intros _; split; [lia|intros; lia]|reflexivity].
  - destruct t as [|b t]; simpl; [split; [discriminate|intros [H _]; lia]|].
    rewrite andb_true_iff, orb_true_iff, !Nat.eqb_eq, IH. split.
    + intros [H [Hl Hk]]. split; [lia|]. intros [|k] Hlt; [exact H|]. apply Hk. lia.
    + intros [Hl Hk]. split; [exact (Hk 0 ltac:(lia))|]. split; [lia|].
      intros k Hlt. exact (Hk (S k) ltac:(lia)).
Qed.

Lemma to_rev_axis s t : to_rev (rev s) (rev t) = true <->
  length s <= length t /\ forall k, axis s k = axis t k \/ axis s k = 1.
Proof.
  rewrite to_rev_iff, !rev_length. unfold axis. split; intros [H1 H2]; (split; [exact H1|]).
  - intro k. destruct (le_lt_dec (length s) k) as [Hle|Hlt]; [|exact (H2 k Hlt)].
    right. apply nth_overflow. rewrite rev_length. exact Hle.
  - intros k _. apply H2.
Qed.

Lemma source_rev_nth s : forall i k, k < length s -> length s <= length i ->
  nth k (source_rev s i) 0 = if nth k s 1 =? 1 then 0 else nth k i 0.
Proof.
  induction s as [|a s IH]; intros i k Hk Hl; simpl in *; [lia|].
  destruct i as [|x i]; simpl in Hl; [lia|]. destruct k as [|k]; simpl; [reflexivity|].
  apply IH; lia.
Qed.
Lemma source_rev_length s : forall i, length s <= length i -> length (source_rev s i) = length s.
Proof.
  induction s as [|a s IH]; intros [|x i] Hl; simpl in *; try lia. rewrite IH; lia.
Qed.

Lemma source_spec s i : length s <= length i -> comes_from s i (source s i).
Proof.
  intro H. unfold source. split.
  - rewrite rev_length, source_rev_length; rewrite !rev_length; lia.
  - intros k Hk. rewrite rev_involutive. rewrite source_rev_nth by (rewrite !rev_length; lia).
    reflexivity.
Qed.

Lemma broadcast_to_ok {V} (a : array V) t :
  length (ashape a) <= length t -> (forall k, axis (ashape a) k = axis t k \/ axis (ashape a) k = 1) ->
  exists r, broadcast_to a t = Ok r /\ ashape r = t /\
    forall i, length i = length t -> exists j, comes_from (ashape a) i j /\ aget r i = aget a j.
Proof.
  intros H1 H2. unfold broadcast_to.
  rewrite (proj2 (to_rev_axis (ashape a) t)) by (split; assumption).
  eexists. split; [reflexivity|]. split; [reflexivity|].
  intros i Hi. exists (source (ashape a) i). split; [apply source_spec; lia|reflexivity].
Qed.

(** * leading axes *)
Lemma axis_app s t k : axis (s ++ t) k = if k <? length t then axis t k else axis s (k - length t).
Proof.
  unfold axis. rewrite rev_app_distr. destruct (Nat.ltb_spec k (length t)).
  - apply app_nth1. rewrite rev_length. exact H.
  - rewrite app_nth2 by (rewrite rev_length; exact H). rewrite rev_length. reflexivity.
Qed.

Lemma cut_nonneg n m : n <= m -> clip_index (Z.of_nat m - Z.of_nat n) m = m - n.
Proof.
  intro H. unfold clip_index. destruct (Z.ltb_spec (Z.of_nat m - Z.of_nat n) 0); lia.
Qed.

Definition lead {V} (p : array V * nat) : shape :=
  firstn (length (ashape (fst p)) - snd p) (ashape (fst p)).
Definition trail {V} (p : array V * nat) : shape :=
  skipn (length (ashape (fst p)) - snd p) (ashape (fst p)).

Lemma leading_arrays {V} dims (args : list (array V * nat)) :
  Forall (fun p => snd p <= length (ashape (fst p))) args ->
  (forall p, In p args -> length (lead p) <= length dims /\
     forall k, axis (lead p) k = axis dims k \/ axis (lead p) k = 1) ->
  exists arrs, mapM (fun '((a, _), t) => broadcast_to a (dims ++ t)) (combine args (map trail args)) = Ok arrs /\
    Forall2 (fun p r => ashape r = dims ++ trail p /\
       forall i, length i = length (ashape r) -> exists j, comes_from (ashape (fst p)) i j /\ aget r i = aget (fst p) j)
      args arrs.
Proof.
  induction args as [|p args IH]; intros Hn Hd.
  - exists []. split; [reflexivity|constructor].
  - inversion Hn as [|? ? Hn1 Hn2]; subst.
    destruct IH as (arrs & E & F); [exact Hn2|intros q Hq; apply Hd; right; exact Hq|].
    destruct (Hd p (or_introl eq_refl)) as [Hl Hk].
    assert (Hs : ashape (fst p) = lead p ++ trail p) by (unfold lead, trail; rewrite firstn_skipn; reflexivity).
    destruct (broadcast_to_ok (fst p) (dims ++ trail p)) as (r & Er & Sr & Gr).
    + rewrite Hs at 1. rewrite !app_length. lia.
    + intro k. rewrite Hs. rewrite !axis_app. destruct (k <? length (trail p)); [left; reflexivity|apply Hk].
    + exists (r :: arrs). split.
      * cbn [map combine mapM]. destruct p as [a n]. cbn [fst] in Er. rewrite Er. cbn [bind].
        rewrite E. reflexivity.
      * constructor; [|exact F]. split; [exact Sr|]. intros i Hi. apply Gr. rewrite <- Sr. exact Hi.
Qed.

Lemma leading_unfold {V} (args : list (array V * nat)) :
  Forall (fun p => snd p <= length (ashape (fst p))) args ->
  broadcast_leading_axes args =
  do dims <- broadcast_shapes (map lead args);
  do arrs <- mapM (fun '((a, _), t) => broadcast_to a (dims ++ t)) (combine args (map trail args));
  Ok (dims, arrs).
Proof.
  intro H. unfold broadcast_leading_axes.
  assert (E1 : map (fun p : array V * nat => before (ashape (fst p))
       ((fun '(a, n) => (Z.of_nat (length (ashape a)) - Z.of_nat n)%Z) p)) args = map lead args).
  { apply map_ext_in. intros [a n] Hin. rewrite Forall_forall in H. specialize (H _ Hin). simpl in H.
    unfold before, lead. cbn [fst snd]. rewrite cut_nonneg by exact H. reflexivity. }
  assert (E2 : map (fun p : array V * nat => after (ashape (fst p))
       ((fun '(a, n) => (Z.of_nat (length (ashape a)) - Z.of_nat n)%Z) p)) args = map trail args).
  { apply map_ext_in. intros [a n] Hin. rewrite Forall_forall in H. specialize (H _ Hin). simpl in H.
    unfold after, trail. cbn [fst snd]. rewrite cut_nonneg by exact H. reflexivity. }
  cbv zeta. rewrite E1, E2. reflexivity.
Qed.

Lemma leading_ok {V} (args : list (array V * nat)) dims :
  Forall (fun p => snd p <= length (ashape (fst p))) args ->
  is_broadcast (map lead args) dims ->
  exists arrs, broadcast_leading_axes args = Ok (dims, arrs) /\
    Forall2 (fun p r => ashape r = dims ++ trail p /\
       forall i, length i = length (ashape r) -> exists j, comes_from (ashape (fst p)) i j /\ aget r i = aget (fst p) j)
      args arrs.
Proof.
  intros Hn Hb. rewrite leading_unfold by exact Hn.
  rewrite (proj2 (broadcast_shapes_iff _ _) Hb). cbn [bind].
  destruct (leading_arrays dims args Hn) as (arrs & E & F).
  - intros p Hp. destruct Hb as (B1 & _ & B3). rewrite Forall_forall in B1.
    assert (Hin : In (lead p) (map lead args)) by (apply in_map; exact Hp).
    split; [apply B1; exact Hin|]. intro k. destruct (B3 k) as [B _]. destruct (B _ Hin); auto.
  - rewrite E. exists arrs. split; [reflexivity|exact F].
Qed.

Lemma leading_inv {V} (args : list (array V * nat)) dims arrs :
  Forall (fun p => snd p <= length (ashape (fst p))) args ->
  broadcast_leading_axes args = Ok (dims, arrs) -> is_broadcast (map lead args) dims.
Proof.
  intros Hn H. rewrite leading_unfold in H by exact Hn.
  apply bind_ok in H as (d & Hd & H). apply bind_ok in H as (r & _ & H). injection H as <- <-.
  apply broadcast_shapes_iff. exact Hd.
Qed.

(** * first axis *)
Lemma to_first_last {A} (l : list A) : to_first (to_last l) = l.
Proof.
  destruct l as [|x l]; [reflexivity|]. unfold to_last, to_first. rewrite rev_app_distr. simpl.
  rewrite rev_involutive. reflexivity.
Qed.
Lemma to_last_first {A} (l : list A) : to_last (to_first l) = l.
Proof.
  unfold to_first. destruct (rev l) as [|x r] eqn:E.
  - rewrite <- (rev_involutive l), E. reflexivity.
  - unfold to_last. rewrite <- (rev_involutive l), E. reflexivity.
Qed.
Lemma to_last_length {A} (l : list A) : length (to_last l) = length l.
Proof. destruct l; [reflexivity|]. simpl. rewrite app_length. simpl. lia. Qed.
Lemma to_first_length {A} (l : list A) : length (to_first l) = length l.
Proof.
  rewrite <- (to_last_first l) at 2. rewrite to_last_length. reflexivity.
Qed.

Lemma first_arrays {V} (dims : shape) (arrays : list (array V)) :
  (forall a, In a arrays -> length (ashape a) <= length dims /\
     forall k, axis (ashape a) k = axis dims k \/ axis (ashape a) k = 1) ->
  exists arrs, mapM (fun a => broadcast_to a dims) arrays = Ok arrs /\
    Forall2 (fun a r => ashape r = dims /\ forall i, length i = length dims ->
       exists j, comes_from (ashape a) i j /\ aget r i = aget a j) arrays arrs.
Proof.
  induction arrays as [|a arrays IH]; intro H.
  - exists []. split; [reflexivity|constructor].
  - destruct IH as (arrs & E & F); [intros b Hb; apply H; right; exact Hb|].
    destruct (H a (or_introl eq_refl)) as [H1 H2].
    destruct (broadcast_to_ok a dims H1 H2) as (r & Er & Sr & Gr).
    exists (r :: arrs). cbn [mapM]. rewrite Er. cbn [bind]. rewrite E. cbn [bind].
    split; [reflexivity|]. constructor; auto.
Qed.

Lemma axis_snoc0 s x : axis (s ++ [x]) 0 = x.
Proof. rewrite axis_app. reflexivity. Qed.
Lemma axis_snocS s x k : axis (s ++ [x]) (S k) = axis s k.
Proof. rewrite axis_app. simpl. rewrite Nat.sub_0_r. reflexivity. Qed.
Lemma axis_one0 x : axis [x] 0 = x.
Proof. reflexivity. Qed.
Lemma axis_oneS x k : axis [x] (S k) = 1.
Proof. destruct k; reflexivity. Qed.

(** Broadcasting of shapes with the first axis moved last, in terms of the first axes
    and the remaining axes. *)
Lemma moved_broadcast (shapes : list (nat * shape)) c r : shapes <> [] ->
  (is_broadcast (map (fun p => snd p ++ [fst p]) shapes) (r ++ [c]) <->
   is_broadcast (map (fun p => [fst p]) shapes) [c] /\ is_broadcast (map snd shapes) r).
Proof.
  intro Hne. destruct shapes as [|p0 shapes']; [congruence|]. set (shapes := p0 :: shapes') in *.
  assert (Hp0 : In p0 shapes) by (left; reflexivity).
  split.
  - intros (A & B & C). rewrite Forall_map in A. rewrite Forall_forall in A. split.
    + split; [|split].
      * apply Forall_map, Forall_forall. intros p _. simpl. lia.
      * right. exists [fst p0]. split; [apply in_map_iff; eauto|reflexivity].
      * intros [|k]; rewrite ?axis_oneS.
        -- destruct (C 0) as [C1 C2]. rewrite axis_snoc0 in *. split.
           ++ intros s Hs. apply in_map_iff in Hs as (p & <- & Hp). rewrite axis_one0.
              specialize (C1 (snd p ++ [fst p])). rewrite axis_snoc0 in C1. apply C1.
              apply in_map_iff; eauto.
           ++ rewrite axis_one0. destruct C2 as [C2|(s & Hs & C2)]; [left; exact C2|right].
              apply in_map_iff in Hs as (p & <- & Hp). rewrite axis_snoc0 in C2.
              exists [fst p]. split; [apply in_map_iff; eauto|exact C2].
        -- split; [|left; reflexivity]. intros s Hs. apply in_map_iff in Hs as (p & <- & Hp).
           left. apply axis_oneS.
    + split; [|split].
      * apply Forall_map, Forall_forall. intros p Hp. specialize (A p Hp).
        rewrite !app_length in A. simpl in A. lia.
      * destruct B as [B|(s & Hs & B)]; [destruct r; discriminate|].
        apply in_map_iff in Hs as (p & <- & Hp). rewrite !app_length in B. simpl in B.
        right. exists (snd p). split; [apply in_map; exact Hp|lia].
      * intro k. destruct (C (S k)) as [C1 C2]. rewrite axis_snocS in *. split.
        -- intros s Hs. apply in_map_iff in Hs as (p & <- & Hp).
           specialize (C1 (snd p ++ [fst p])). rewrite axis_snocS in C1. apply C1.
           apply in_map_iff; eauto.
        -- destruct C2 as [C2|(s & Hs & C2)]; [left; exact C2|right].
           apply in_map_iff in Hs as (p & <- & Hp). rewrite axis_snocS in C2.
           exists (snd p). split; [apply in_map; exact Hp|exact C2].
  - intros [(_ & _ & C0) (A & B & C)]. rewrite Forall_map in A. rewrite Forall_forall in A.
    split; [|split].
    + apply Forall_map, Forall_forall. intros p Hp. specialize (A p Hp). rewrite !app_length. simpl. lia.
    + right. destruct B as [->|(s & Hs & B)].
      * exists (snd p0 ++ [fst p0]). split; [apply in_map_iff; eauto|].
        specialize (A p0 Hp0). rewrite !app_length. simpl in *. lia.
      * apply in_map_iff in Hs as (p & <- & Hp). exists (snd p ++ [fst p]).
        split; [apply in_map_iff; eauto|]. rewrite !app_length. simpl. lia.
    + intros [|k].
      * destruct (C0 0) as [C1 C2]. rewrite axis_snoc0, axis_one0 in *. split.
        -- intros s Hs. apply in_map_iff in Hs as (p & <- & Hp). rewrite axis_snoc0.
           apply (C1 [fst p]). apply in_map_iff; eauto.
        -- destruct C2 as [C2|(s & Hs & C2)]; [left; exact C2|right].
           apply in_map_iff in Hs as (p & <- & Hp). rewrite axis_one0 in C2.
           exists (snd p ++ [fst p]). split; [apply in_map_iff; eauto|]. rewrite axis_snoc0. exact C2.
      * destruct (C k) as [C1 C2]. rewrite axis_snocS in *. split.
        -- intros s Hs. apply in_map_iff in Hs as (p & <- & Hp). rewrite axis_snocS.
           apply C1. apply in_map; exact Hp.
        -- destruct C2 as [C2|(s & Hs & C2)]; [left; exact C2|right].
           apply in_map_iff in Hs as (p & <- & Hp). exists (snd p ++ [fst p]).
           split; [apply in_map_iff; eauto|]. rewrite axis_snocS. exact C2.
Qed.

Lemma comes_from_snoc s x i y j : comes_from (s ++ [x]) (i ++ [y]) j ->
  exists j0, j = j0 ++ [if x =? 1 then 0 else y] /\ comes_from s i j0.
Proof.
  intros [Hl H]. rewrite app_length in *. simpl in *.
  assert (Hj : j <> []) by (intros ->; simpl in Hl; lia).
  destruct (exists_last Hj) as (j0 & z & ->). rewrite app_length in Hl. simpl in Hl.
  exists j0. split.
  - f_equal. f_equal. specialize (H 0 ltac:(lia)). rewrite !rev_app_distr, axis_snoc0 in H. exact H.
  - split; [lia|]. intros k Hk. specialize (H (S k) ltac:(lia)).
    rewrite !rev_app_distr, axis_snocS in H. exact H.
Qed.

Lemma first_unfold {V} (arrays : list (array V)) (shapes : list (nat * shape)) :
  map ashape arrays = map (fun p => fst p :: snd p) shapes ->
  map ashape (map move_first_last arrays) = map (fun p => snd p ++ [fst p]) shapes.
Proof.
  intro H. rewrite map_map. simpl. rewrite <- (map_map ashape to_last), H, map_map. reflexivity.
Qed.

Lemma first_ok {V} (arrays : list (array V)) (shapes : list (nat * shape)) c r :
  shapes <> [] -> map ashape arrays = map (fun p => fst p :: snd p) shapes ->
  is_broadcast (map (fun p => [fst p]) shapes) [c] -> is_broadcast (map snd shapes) r ->
  exists arrs, broadcast_first arrays = Ok arrs /\
    Forall2 (fun a b => ashape b = c :: r /\
       forall y i, length i = length r -> exists j, comes_from (tl (ashape a)) i j /\
         aget b (y :: i) = aget a ((if hd 1 (ashape a) =? 1 then 0 else y) :: j)) arrays arrs.
Proof.
  intros Hne Hs Hc Hr. unfold broadcast_first. cbv zeta.
  assert (Hb : is_broadcast (map (fun p => snd p ++ [fst p]) shapes) (r ++ [c]))
    by (apply moved_broadcast; auto).
  rewrite (first_unfold arrays shapes Hs), (proj2 (broadcast_shapes_iff _ _) Hb). cbn [bind].
  destruct (first_arrays (r ++ [c]) (map move_first_last arrays)) as (arrs & E & F).
  - intros a Ha. assert (Hin : In (ashape a) (map (fun p => snd p ++ [fst p]) shapes)).
    { rewrite <- (first_unfold arrays shapes Hs). apply in_map. exact Ha. }
    destruct Hb as (B1 & _ & B3). rewrite Forall_forall in B1. split; [apply B1; exact Hin|].
    intro k. destruct (B3 k) as [B _]. destruct (B _ Hin); auto.
  - rewrite E. cbn [bind]. eexists. split; [reflexivity|].
    assert (Hcons : Forall (fun a : array V => ashape a <> []) arrays).
    { apply Forall_forall. intros a Ha. assert (Hin : In (ashape a) (map ashape arrays)) by (apply in_map; exact Ha).
      rewrite Hs in Hin. apply in_map_iff in Hin as (p & <- & _). discriminate. }
    clear -F Hcons. revert arrs F. induction arrays as [|a arrays IH]; intros arrs F;
      inversion F as [|? b ? arrs' [S1 G1] F']; subst; simpl; constructor.
    + simpl. rewrite S1. split.
      { unfold to_first. rewrite rev_app_distr. simpl. rewrite rev_involutive. reflexivity. }
      intros y i Hi. destruct (G1 (i ++ [y])) as (j & Hj & Hg); [rewrite !app_length; simpl; lia|].
      inversion Hcons as [|? ? Ha _]; subst. destruct (ashape a) as [|n s] eqn:Ea; [congruence|].
      unfold move_first_last in Hj. simpl in Hj. rewrite Ea in Hj. simpl in Hj.
      apply comes_from_snoc in Hj as (j0 & -> & Hj0).
      exists j0. split; [exact Hj0|]. rewrite Hg. simpl. unfold to_first. rewrite rev_app_distr. simpl.
      rewrite rev_involutive. reflexivity.
    + apply IH; [inversion Hcons; assumption|exact F'].
Qed.

Lemma first_inv {V} (arrays : list (array V)) (shapes : list (nat * shape)) arrs :
  shapes <> [] -> map ashape arrays = map (fun p => fst p :: snd p) shapes ->
  broadcast_first arrays = Ok arrs ->
  exists c r, is_broadcast (map (fun p => [fst p]) shapes) [c] /\ is_broadcast (map snd shapes) r.
Proof.
  intros Hne Hs H. unfold broadcast_first in H. cbv zeta in H.
  rewrite (first_unfold arrays shapes Hs) in H. apply bind_ok in H as (d & Hd & _).
  apply broadcast_shapes_iff in Hd.
  assert (Hdn : d <> []).
  { intros ->. destruct shapes as [|p shapes]; [congruence|]. destruct Hd as (D & _).
    inversion D as [|? ? D1 _]; subst. rewrite app_length in D1. simpl in D1. lia. }
  destruct (exists_last Hdn) as (r & c & ->). exists c, r.
  apply moved_broadcast; assumption.
Qed.

(** * numpy_fallback *)
Section Val.
  Context {B D A : Type}.
  Notation val := (val B D A).

  (** Induction over nested values. *)
  Lemma val_ind2 (P : val -> Prop) :
    (forall b d, P (Arr b d)) -> (forall l, Forall P l -> P (Tup l)) ->
    (forall l, Forall P l -> P (Lst l)) -> (forall l, Forall (fun kv => P (snd kv)) l -> P (Dct l)) ->
    (forall l, Forall P l -> P (OtherSeq l)) -> (forall a, P (Atom a)) -> forall v, P v.
  Proof.
    intros H1 H2 H3 H4 H5 H6. fix IH 1. intros [b d|l|l|l|l|a].
    - apply H1.
    - apply H2. induction l; constructor; auto.
    - apply H3. induction l; constructor; auto.
    - apply H4. induction l; constructor; auto.
    - apply H5. induction l; constructor; auto.
    - apply H6.
  Qed.
End Val.
