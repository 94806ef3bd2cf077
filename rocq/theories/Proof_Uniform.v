(** Lemmas about expected values over uniform numbers. *)
From Coq Require Import Reals Lra Lia List.
From Coquelicot Require Import Coquelicot.
From Verif Require Import Base Spec_Uniform.
Import ListNotations.
Local Open Scope R_scope.

Lemma umeans_ext n : forall f g m, (forall l, length l = n -> Forall (fun u => 0 < u < 1) l -> f l = g l) ->
  umeans n f m -> umeans n g m.
Proof.
  induction n as [|n IH]; intros f g m H; cbn [umeans].
  - rewrite (H []) by (reflexivity || constructor). auto.
  - intros (h & H1 & H2). exists h. split; [|exact H2]. intros u Hu. apply (IH (fun l => f (u :: l))); [|apply H1; exact Hu].
    intros l Hl Hf. apply H; [cbn; lia|constructor; assumption].
Qed.

Lemma umeans_unique n : forall f m m', umeans n f m -> umeans n f m' -> m = m'.
Proof.
  induction n as [|n IH]; intros f m m'; cbn [umeans]; [congruence|].
  intros (g & G1 & G2) (h & H1 & H2).
  assert (E : is_RInt g 0 1 m').
  { apply (is_RInt_ext h); [|exact H2]. intros x. rewrite Rmin_left, Rmax_right by lra. intro Hx.
    exact (IH _ _ _ (H1 x Hx) (G1 x Hx)). }
  apply (is_RInt_unique (V := R_CompleteNormedModule)) in E. apply (is_RInt_unique (V := R_CompleteNormedModule)) in G2. congruence.
Qed.

Lemma unit_const (c : R) : is_RInt (fun _ => c) 0 1 c.
Proof.
  pose proof (is_RInt_const (V := R_NormedModule) 0 1 c) as K.
  match type of K with is_RInt _ _ _ ?v => assert (Z : v = c) by (change ((1 - 0) * c = c); ring); rewrite Z in K end. exact K.
Qed.

Lemma unit_scal (f : R -> R) (m c : R) : is_RInt f 0 1 m -> is_RInt (fun u => c * f u) 0 1 (c * m).
Proof. intro H. exact (is_RInt_scal (V := R_NormedModule) f 0 1 c m H). Qed.

Lemma umeans_scal n : forall f m c, umeans n f m -> umeans n (fun l => c * f l) (c * m).
Proof.
  induction n as [|n IH]; intros f m c; cbn [umeans]; [congruence|].
  intros (g & G1 & G2). exists (fun u => c * g u). split; [intros u Hu; apply IH, G1, Hu|apply unit_scal; exact G2].
Qed.

Lemma umeans_const n c : umeans n (fun _ => c) c.
Proof. induction n as [|n IH]; cbn [umeans]; [reflexivity|]. exists (fun _ => c). split; [intros; exact IH|apply unit_const]. Qed.

(** Independence *)
Fixpoint prod (fs : list (R -> R)) (l : list R) : R :=
  match fs, l with f :: fs, u :: l => f u * prod fs l | [], _ => 1 | _ :: _, [] => 0 end.

Lemma umeans_prod fs ms : Forall2 (fun (f : R -> R) (m : R) => is_RInt f 0 1 m) fs ms -> umeans (length fs) (prod fs) (fold_right Rmult 1 ms).
Proof.
  induction 1 as [|f m fs ms H _ IH]; cbn [length umeans fold_right]; [reflexivity|].
  exists (fun u => f u * fold_right Rmult 1 ms). split.
  - intros u _. cbn [prod]. apply umeans_scal. exact IH.
  - apply (is_RInt_ext (fun u => fold_right Rmult 1 ms * f u)); [intros; apply Rmult_comm|].
    rewrite Rmult_comm. apply unit_scal. exact H.
Qed.

Lemma umeans_at n : forall i (g : R -> R) (m : R), (i < n)%nat -> is_RInt g 0 1 m -> umeans n (fun l => g (nth i l 0)) m.
Proof.
  induction n as [|n IH]; intros i g m Hi H; [lia|]. cbn [umeans]. destruct i as [|i]; cbn [nth].
  - exists g. split; [intros; apply umeans_const|exact H].
  - exists (fun _ => m). split; [intros; apply IH; [lia|exact H]|apply unit_const].
Qed.

Lemma umeans_two n : forall i j (g h : R -> R) (a b : R), (i < n)%nat -> (j < n)%nat -> i <> j -> is_RInt g 0 1 a -> is_RInt h 0 1 b ->
  umeans n (fun l => g (nth i l 0) * h (nth j l 0)) (a * b).
Proof.
  induction n as [|n IH]; intros i j g h a b Hi Hj Hd Hg Hh; [lia|]. cbn [umeans].
  destruct i as [|i], j as [|j]; cbn [nth]; [contradiction| | |].
  - exists (fun u => g u * b). split.
    + intros u _. apply umeans_scal. apply umeans_at; [lia|exact Hh].
    + apply (is_RInt_ext (fun u => b * g u)); [intros; apply Rmult_comm|]. rewrite Rmult_comm. apply unit_scal. exact Hg.
  - exists (fun u => h u * a). split.
    + intros u _. apply (umeans_ext _ (fun l => h u * g (nth i l 0))); [intros; apply Rmult_comm|].
      apply umeans_scal. apply umeans_at; [lia|exact Hg].
    + apply (is_RInt_ext (fun u => a * h u)); [intros; apply Rmult_comm|]. apply unit_scal. exact Hh.
  - exists (fun _ => a * b). split; [intros; apply IH; auto; lia|apply unit_const].
Qed.

(** Intervals *)
Lemma unit_step (c : R) : 0 <= c <= 1 -> is_RInt (fun u => if Rlt_dec u c then 1 else 0) 0 1 c.
Proof.
  intro H. set (f := fun u => if Rlt_dec u c then 1 else 0).
  enough (K : is_RInt f 0 c c /\ is_RInt f c 1 0).
  { destruct K as [K1 K2]. pose proof (is_RInt_Chasles (V := R_NormedModule) f 0 c 1 c 0 K1 K2) as K.
    match type of K with is_RInt _ _ _ ?v => assert (Z : v = c) by apply Rplus_0_r; rewrite Z in K end. exact K. }
  unfold f. split.
  - apply (is_RInt_ext (fun _ => 1)).
    + intros x. rewrite Rmin_left, Rmax_right by lra. intros [_ Hx]. destruct (Rlt_dec x c); lra.
    + pose proof (is_RInt_const (V := R_NormedModule) 0 c 1) as K.
      match type of K with is_RInt _ _ _ ?v => assert (Z : v = c) by (change ((c - 0) * 1 = c); ring); rewrite Z in K end. exact K.
  - apply (is_RInt_ext (fun _ => 0)).
    + intros x. rewrite Rmin_left, Rmax_right by lra. intros [Hx _]. destruct (Rlt_dec x c); lra.
    + pose proof (is_RInt_const (V := R_NormedModule) c 1 0) as K.
      match type of K with is_RInt _ _ _ ?v => assert (Z : v = 0) by (change ((1 - c) * 0 = 0); ring); rewrite Z in K end. exact K.
Qed.

(** A number [x u] that is below [a] exactly if [u] is below [p], and below [b] exactly if [u] is below [q]. *)
Lemma unit_hit (x : R -> R) a b p q : a <= b -> 0 <= p <= 1 -> 0 <= q <= 1 ->
  (forall u, 0 < u < 1 -> (x u < a <-> u < p)) -> (forall u, 0 < u < 1 -> (x u < b <-> u < q)) ->
  is_RInt (fun u => hit (a, b) (x u)) 0 1 (q - p).
Proof.
  intros Hab Hp Hq Ha Hb.
  apply (is_RInt_ext (fun u => minus (if Rlt_dec u q then 1 else 0) (if Rlt_dec u p then 1 else 0))).
  - intros u. rewrite Rmin_left, Rmax_right by lra. intro Hu. specialize (Ha u Hu). specialize (Hb u Hu).
    unfold hit. cbn [fst snd]. change ((if Rlt_dec u q then 1 else 0) - (if Rlt_dec u p then 1 else 0) =
      (if Rle_dec a (x u) then if Rlt_dec (x u) b then 1 else 0 else 0)).
    destruct (Rlt_dec u q) as [L1|L1], (Rlt_dec u p) as [L2|L2], (Rle_dec a (x u)) as [L3|L3], (Rlt_dec (x u) b) as [L4|L4]; try lra;
      exfalso; apply Rnot_le_lt in L3 || idtac; intuition lra.
  - change (q - p) with (minus q p). apply (is_RInt_minus (V := R_NormedModule)); apply unit_step; assumption.
Qed.


Lemma hits_map (x : R -> R) cells : forall l, length l = length cells ->
  hits cells (map x l) = prod (map (fun c u => hit c (x u)) cells) l.
Proof.
  induction cells as [|c cells IH]; intros [|u l] H; try discriminate; [reflexivity|].
  cbn [map hits prod]. rewrite IH by (injection H; auto). reflexivity.
Qed.

Lemma prod_app fs gs : forall l l', length l = length fs -> prod (fs ++ gs) (l ++ l') = prod fs l * prod gs l'.
Proof.
  induction fs as [|f fs IH]; intros [|u l] l' H; try discriminate; cbn [app prod]; [ring|].
  rewrite IH by (injection H; auto). ring.
Qed.
