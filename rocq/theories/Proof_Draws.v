(** Proofs about the shapes of random draws. *)
From Coq Require Import Reals Lra.
From Verif Require Import Base Model_Arrays Model_Jax Model_Draws Spec_Arrays Spec_Draws Proof_Arrays.

(** The requested shape, if any. *)
Definition request (size : size_arg) : option shape :=
  match size with NoSize => None | Length n => Some [n] | Tuple s => Some s end.

Lemma shape_eqb_iff s : forall t, shape_eqb s t = true <-> s = t.
Proof.
  induction s as [|a s IH]; intros [|b t]; simpl; try (split; congruence).
  rewrite andb_true_iff, Nat.eqb_eq, IH. split; [intros [-> ->]; reflexivity|].
  intro H. injection H as -> ->. auto.
Qed.

Lemma explicit_draw s t d :
  (if negb (shape_eqb d []) && negb (shape_eqb t d) then Err ValueError else Ok t) = Ok s <->
  s = t /\ (d = [] \/ d = t).
Proof.
  pose proof (shape_eqb_iff d []) as D. pose proof (shape_eqb_iff t d) as T.
  destruct (shape_eqb d []), (shape_eqb t d); simpl; split; intros H;
    try discriminate; try (injection H as <-).
  - split; [reflexivity|]. left. apply D. reflexivity.
  - destruct H as [-> _]. reflexivity.
  - split; [reflexivity|]. left. apply D. reflexivity.
  - destruct H as [-> _]. reflexivity.
  - split; [reflexivity|]. right. symmetry. apply T. reflexivity.
  - destruct H as [-> _]. reflexivity.
  - destruct H as [-> [H|H]]; [apply D in H|symmetry in H; apply T in H]; discriminate.
Qed.

Lemma out_shape_iff size params s :
  out_shape size params = Ok s <-> documented_draw params (request size) s.
Proof.
  unfold out_shape, documented_draw. split.
  - intro H. apply bind_ok in H as (d & E & H). exists d.
    split; [apply broadcast_shapes_iff; exact E|].
    destruct size as [|n|t]; simpl request; cbv iota beta.
    + injection H as <-. reflexivity.
    + apply explicit_draw. exact H.
    + apply explicit_draw. exact H.
  - intros (d & E & H). apply broadcast_shapes_iff in E. rewrite E. cbn [bind].
    destruct size as [|n|t]; simpl in H.
    + subst. reflexivity.
    + apply explicit_draw. exact H.
    + apply explicit_draw. exact H.
Qed.

Lemma out_shape_rejects size params :
  (forall s, ~ documented_draw params (request size) s) -> exists e, out_shape size params = Err e.
Proof.
  intro H. destruct (out_shape size params) as [s|e] eqn:E; [|exists e; reflexivity].
  apply out_shape_iff in E. destruct (H s E).
Qed.

Lemma documented_fits params req s :
  documented_draw params req s -> Forall (fits s) params.
Proof.
  intros (d & (A & B & C) & H). apply Forall_forall. intros p Hp.
  assert (F : fits d p).
  { split; [rewrite Forall_forall in A; apply A; exact Hp|].
    intro k. destruct (C k) as [C1 _]. apply C1. exact Hp. }
  destruct req as [t|].
  - destruct H as [-> [->| ->]]; [|exact F].
    destruct F as [F1 F2]. split; [simpl in F1; lia|]. intro k. left.
    destruct p; [|simpl in F1; lia]. apply axis_nil.
  - subst. exact F.
Qed.

Lemma fits_broadcast_to {V} (a : array V) t : fits t (ashape a) ->
  exists r, broadcast_to a t = Ok r /\ ashape r = t /\
    forall i, length i = length t -> exists j, comes_from (ashape a) i j /\ aget r i = aget a j.
Proof.
  intros [F1 F2]. apply broadcast_to_ok; [exact F1|]. intro k. destruct (F2 k); auto.
Qed.

Lemma fits_refl s : fits s s.
Proof. split; [lia|]. intro k. right. reflexivity. Qed.

Lemma fits_broadcast2 s t : fits t s -> broadcast2 s t = Ok t.
Proof.
  intros [F1 F2]. assert (I : is_broadcast [s; t] t).
  { split; [repeat constructor; lia|]. split; [right; exists t; split; [simpl; auto|reflexivity]|].
    intro k. split.
    - intros u [<-|[<-|[]]]; auto.
    - right. exists t. split; [simpl; auto|reflexivity]. }
  apply broadcast_shapes_iff in I. simpl in I.
  assert (E : broadcast2 t [] = Ok t).
  { unfold broadcast2. destruct (rev t) as [|x r] eqn:E; simpl; rewrite <- (rev_involutive t), E; reflexivity. }
  rewrite E in I. cbn [bind] in I. exact I.
Qed.

(** An array broadcast to its own shape is itself. *)
Lemma source_self s i : inside s i -> source s i = i.
Proof.
  intro H. assert (L : length i = length s).
  { induction H; simpl; congruence. }
  destruct (source_spec s i) as [S1 S2]; [lia|].
  rewrite <- (rev_involutive (source s i)), <- (rev_involutive i). f_equal. rewrite rev_involutive.
  apply (nth_ext _ _ 0 0); rewrite !rev_length; [lia|].
  intros k Hk. rewrite S2 by lia. destruct (Nat.eqb_spec (axis s k) 1); [|reflexivity].
  assert (X : nth k (rev i) 0 < axis s k).
  { unfold axis. assert (Hr : Forall2 (fun x n => x < n) (rev i) (rev s)).
    { clear - H. unfold inside in H. induction H; simpl; [constructor|].
      apply Forall2_app; [assumption|]. constructor; [assumption|constructor]. }
    assert (Hk' : k < length (rev i)) by (rewrite rev_length; lia).
    clear - Hr Hk'. revert k Hk'. induction Hr; intros [|k] Hk'; simpl in *; try lia. apply IHHr. lia. }
  lia.
Qed.

Lemma inside_length s i : inside s i -> length i = length s.
Proof. intro H. induction H; simpl; congruence. Qed.

Lemma zip_fits {U V W} (f : U -> V -> W) (a : array U) (b : array V) :
  fits (ashape b) (ashape a) ->
  exists r, zip_arrays f a b = Ok r /\ ashape r = ashape b /\
    forall i, inside (ashape b) i ->
      exists j, comes_from (ashape a) i j /\ aget r i = f (aget a j) (aget b i).
Proof.
  intro F. unfold zip_arrays. rewrite (fits_broadcast2 _ _ F). cbn [bind].
  destruct (fits_broadcast_to a _ F) as (a' & E & _ & G). rewrite E. cbn [bind].
  unfold broadcast_to.
  assert (T : to_rev (rev (ashape b)) (rev (ashape b)) = true).
  { apply to_rev_axis. split; [lia|]. intro k. left. reflexivity. }
  rewrite T. cbn [bind]. eexists. split; [reflexivity|]. split; [reflexivity|].
  intros i Hi. destruct (G i (inside_length _ _ Hi)) as (j & J1 & J2).
  exists j. split; [exact J1|]. simpl. rewrite J2, (source_self _ _ Hi). reflexivity.
Qed.

Lemma last_app1 {A} (l : list A) x d : last (l ++ [x]) d = x.
Proof. apply last_last. Qed.

Lemma axis_snoc s x k : axis (s ++ [x]) k = match k with 0 => x | S k => axis s k end.
Proof. unfold axis. rewrite rev_app_distr. destruct k; reflexivity. Qed.

Lemma fits_snoc t s x : fits t s -> fits (t ++ [x]) (s ++ [x]).
Proof.
  intros [F1 F2]. split; [rewrite !app_length; simpl; lia|].
  intro k. rewrite !axis_snoc. destruct k; [right; reflexivity|apply F2].
Qed.

Lemma broadcast_nil_all params : is_broadcast params [] -> Forall (fun s => s = []) params.
Proof.
  intros (A & _). apply Forall_forall. intros s Hs. rewrite Forall_forall in A.
  specialize (A s Hs). destruct s; [reflexivity|simpl in A; lia].
Qed.

(** The documented rule gives a scalar only from scalars. *)
Lemma documented_nil params req : documented_draw params req [] -> Forall (fun s => s = []) params.
Proof.
  intros (d & D & H). apply broadcast_nil_all. destruct req as [t|].
  - destruct H as [<- [->| ->]]; exact D.
  - subst. exact D.
Qed.
