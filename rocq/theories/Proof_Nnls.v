(** Proofs about the non-negative least squares solver. *)
From Coq Require Import Reals Lra Lia List Arith Bool.
From Verif Require Import Base RSum Model_Numeric Proof_Numeric Model_Arrays Model_Nnls Spec_Nnls.
Import ListNotations.
Local Open Scope R_scope.

Lemma selected_S n q : selected (S n) q = selected n q ++ (if q n then [n] else []).
Proof. unfold selected. rewrite seq_S, filter_app. cbn. destruct (q n); reflexivity. Qed.

Lemma selected_In n q j : In j (selected n q) <-> (j < n)%nat /\ q j = true.
Proof. unfold selected. rewrite filter_In, in_seq. intuition lia. Qed.

Lemma selected_length n q : (length (selected n q) <= n)%nat.
Proof. induction n as [|n IH]; [cbn; lia|]. rewrite selected_S, app_length. destruct (q n); cbn; lia. Qed.

Lemma rank_lt n q j : (j < n)%nat -> q j = true -> (rank q j < length (selected n q))%nat.
Proof.
  unfold rank. induction n as [|n IH]; [lia|]. intros Hj Q. rewrite selected_S, app_length.
  destruct (Nat.eq_dec j n) as [->|N]; [rewrite Q; cbn; lia|]. specialize (IH ltac:(lia) Q). lia.
Qed.

Lemma nth_rank n q j : (j < n)%nat -> q j = true -> nth (rank q j) (selected n q) O = j.
Proof.
  induction n as [|n IH]; [lia|]. intros Hj Q. rewrite selected_S. destruct (Nat.eq_dec j n) as [->|N].
  - rewrite Q, app_nth2; unfold rank; [|lia]. rewrite Nat.sub_diag. reflexivity.
  - rewrite app_nth1 by (apply rank_lt; [lia|exact Q]). apply IH; [lia|exact Q].
Qed.

(** Sums over the selected indices. *)
Lemma rsum_selected n q (f : nat -> R) : rsum (length (selected n q)) (fun k => f (nth k (selected n q) O)) = rsum n (fun j => if q j then f j else 0).
Proof.
  induction n as [|n IH]; [reflexivity|]. rewrite selected_S. cbn [rsum]. rewrite <- IH. destruct (q n).
  - rewrite app_length. cbn [length]. rewrite Nat.add_1_r. cbn [rsum]. rewrite app_nth2, Nat.sub_diag by lia. cbn [nth]. f_equal.
    apply rsum_ext. intros k Hk. rewrite app_nth1 by exact Hk. reflexivity.
  - rewrite app_nil_r. ring.
Qed.

Lemma rank_nth n q k : (k < length (selected n q))%nat -> rank q (nth k (selected n q) O) = k.
Proof.
  induction n as [|n IH]; [cbn; lia|]. rewrite selected_S. intro H. destruct (Nat.lt_ge_cases k (length (selected n q))) as [L|L].
  - rewrite app_nth1 by exact L. apply IH. exact L.
  - rewrite app_nth2 by exact L. destruct (q n); [|rewrite app_length in H; cbn in H; lia].
    rewrite app_length in H. cbn in H. replace k with (length (selected n q)) by lia. rewrite Nat.sub_diag. reflexivity.
Qed.

Lemma nth_selected n q k : (k < length (selected n q))%nat -> (nth k (selected n q) O < n)%nat /\ q (nth k (selected n q) O) = true.
Proof. intro H. apply selected_In. apply nth_In. exact H. Qed.

Lemma first_max_ge w l best : w best <= w (first_max w best l) /\ forall j, In j l -> w j <= w (first_max w best l).
Proof.
  revert best. induction l as [|k l IH]; intro best; cbn [first_max]; [split; [lra|contradiction]|].
  destruct (IH (if ltb (w best) (w k) then k else best)) as [I1 I2].
  unfold ltb in *. destruct (Rlt_dec (w best) (w k)); (split; [lra|]; intros j [<-|Hj]; [lra|apply I2; exact Hj]).
Qed.

Lemma first_max_In w l best : In (first_max w best l) (best :: l).
Proof.
  revert best. induction l as [|k l IH]; intro best; cbn [first_max]; [left; reflexivity|].
  destruct (IH (if ltb (w best) (w k) then k else best)) as [E|E]; [|right; right; exact E].
  rewrite <- E. destruct (ltb (w best) (w k)); [right; left; reflexivity|left; reflexivity].
Qed.

(** The least of the values at some indices is one of them, and none is smaller. *)
Lemma least_spec (f : nat -> R) t ts :
  (forall j, In j (t :: ts) -> least (f t) (map f ts) <= f j) /\ exists u, In u (t :: ts) /\ least (f t) (map f ts) = f u.
Proof.
  assert (G : forall r, least r (map f ts) <= r /\ (forall j, In j ts -> least r (map f ts) <= f j) /\
    (least r (map f ts) = r \/ exists u, In u ts /\ least r (map f ts) = f u)).
  { induction ts as [|k ts IH]; intro r; cbn [map least].
    - split; [lra|]. split; [intros j []|left; reflexivity].
    - destruct (IH (Rmin r (f k))) as (L & A & B). pose proof (Rmin_l r (f k)). pose proof (Rmin_r r (f k)).
      split; [lra|]. split; [intros j [<-|Ij]; [lra|exact (A j Ij)]|].
      destruct B as [B|(u & Iu & B)]; [|right; exists u; split; [right; exact Iu|exact B]].
      destruct (Rle_dec r (f k)) as [C|C].
      + left. rewrite B. apply Rmin_left. exact C.
      + right. exists k. split; [left; reflexivity|]. rewrite B. apply Rmin_right. lra. }
  destruct (G (f t)) as (L & A & B). split.
  - intros j [<-|Ij]; [exact L|exact (A j Ij)].
  - destruct B as [B|(u & Iu & B)]; [exists t; split; [left; reflexivity|exact B]|exists u; split; [right; exact Iu|exact B]].
Qed.

Section Solver.
  Variable solve : nat -> (nat -> nat -> R) -> (nat -> R) -> option (nat -> R).
  Variables m n : nat.
  Variable a : nat -> nat -> R.
  Variable b : nat -> R.
  Hypothesis solve_ok : forall K, (K <= n)%nat -> correct K solve.

  Lemma gradient_slope x j : gradient m n a b x j = - slope m n a b x j.
  Proof. unfold gradient, slope. rewrite <- rsum_opp. apply rsum_ext. intros i _. ring. Qed.

  (** A solution of the restricted problem, with zeros elsewhere, is stationary in the variables in use. *)
  Lemma restricted_spec q s : restricted solve m n a b q = Some s -> forall j, (j < n)%nat -> q j = true ->
    slope m n a b (fun j => if q j then s (rank q j) else 0) j = 0.
  Proof.
    intros E j Hj Q. unfold restricted in E. set (l := selected n q) in *.
    assert (Ll : (length l <= n)%nat).
    { apply selected_length. }
    pose proof (solve_ok _ Ll _ _ _ E (rank q j) (rank_lt n q j Hj Q)) as H. cbn beta in H.
    pose proof (nth_rank n q j Hj Q) as En. fold l in En. rewrite En in H.
    unfold slope.
    assert (V : forall i, rsum n (fun k => a i k * (if q k then s (rank q k) else 0)) = rsum (length l) (fun k => a i (nth k l O) * s k)).
    { intro i. transitivity (rsum n (fun k => if q k then a i k * s (rank q k) else 0)).
      - apply rsum_ext. intros k _. destruct (q k); ring.
      - rewrite <- rsum_selected. apply rsum_ext. intros k Hk. rewrite rank_nth by exact Hk. reflexivity. }
    transitivity (rsum m (fun i => a i j * rsum (length l) (fun k => a i (nth k l O) * s k)) - rsum m (fun i => b i * a i j)).
    - rewrite <- rsum_minus. apply rsum_ext. intros i _. rewrite V. ring.
    - rewrite <- H. assert (Sw : rsum m (fun i => a i j * rsum (length l) (fun k => a i (nth k l O) * s k)) =
        rsum (length l) (fun k => rsum m (fun i => a i j * a i (nth k l O)) * s k)); [|rewrite Sw; ring].
      transitivity (rsum m (fun i => rsum (length l) (fun k => a i j * a i (nth k l O) * s k))).
      + apply rsum_ext. intros i _. rewrite <- rsum_scal. apply rsum_ext. intros k _. ring.
      + rewrite rsum_swap. apply rsum_ext. intros k _. rewrite <- rsum_scal_r. reflexivity.
  Qed.

  (** State between the iterations. *)
  Definition stationary (q : nat -> bool) (x : nat -> R) : Prop := forall j, (j < n)%nat ->
    (q j = true -> 0 < x j /\ slope m n a b x j = 0) /\ (q j = false -> x j = 0).

  Lemma inner_spec fuel q x q' x' : inner solve fuel m n a b q x = Ok (q', x') -> stationary q' x'.
  Proof.
    revert q x. induction fuel as [|fuel IH]; intros q x; cbn [inner]; [discriminate|].
    destruct (restricted solve m n a b q) as [s|] eqn:E; [|discriminate]. cbv zeta.
    destruct (filter (fun j => leb (s (rank q j)) 0) (selected n q)) as [|t ts] eqn:F.
    - intros [= <- <-] j Hj. split; intro Q.
      + split; [|exact (restricted_spec q s E j Hj Q)]. rewrite Q. destruct (Rlt_le_dec 0 (s (rank q j))) as [P|P]; [exact P|]. exfalso.
        assert (I : In j (filter (fun j => leb (s (rank q j)) 0) (selected n q))).
        { apply filter_In. split; [apply selected_In; auto|]. apply leb_true. exact P. }
        rewrite F in I. destruct I.
      + rewrite Q. reflexivity.
    - destruct (existsb _ (t :: ts)); [discriminate|]. apply IH.
  Qed.

  Lemma outer_spec maxiter fuel tol q x x' e : stationary q x -> outer solve maxiter fuel m n a b tol q x = Ok (x', e) ->
    exists q', stationary q' x' /\
      (e = Everything -> forall j, (j < n)%nat -> q' j = true) /\
      (e = Tolerance -> forall j, (j < n)%nat -> q' j = false -> - slope m n a b x' j <= tol).
  Proof.
    revert q x. induction maxiter as [|maxiter IH]; intros q x St; cbn [outer].
    - intros [= <- <-]. exists q. repeat split; try discriminate; apply St; assumption.
    - destruct (selected n (fun j => negb (q j))) as [|j0 l] eqn:Es.
      + intros [= <- <-]. exists q. split; [exact St|]. split; [|discriminate]. intros _ j Hj. destruct (q j) eqn:Q; [reflexivity|]. exfalso.
        assert (I : In j (selected n (fun j => negb (q j)))) by (apply selected_In; rewrite Q; auto). rewrite Es in I. destruct I.
      + cbv zeta. set (k := first_max _ j0 l). unfold leb at 1. destruct (Rle_dec (gradient m n a b x k) tol) as [L|L].
        * intros [= <- <-]. exists q. split; [exact St|]. split; [discriminate|]. intros _ j Hj Q. rewrite <- gradient_slope.
          eapply Rle_trans; [|exact L].
          assert (I : In j (j0 :: l)) by (rewrite <- Es; apply selected_In; rewrite Q; auto).
          destruct (first_max_ge (gradient m n a b x) l j0) as [G1 G2]. destruct I as [<-|I]; [exact G1|apply G2; exact I].
        * destruct (inner solve fuel m n a b _ x) as [[q1 x1]|] eqn:Ei; cbn [bind fst snd]; [|discriminate].
          apply IH. exact (inner_spec _ _ _ _ _ Ei).
  Qed.

  (** Sufficient condition for the optimum. *)
  Lemma misfit_expand x y : misfit m n a b y = misfit m n a b x + rsum m (fun i => rsum n (fun j => a i j * (y j - x j)) ^ 2) +
    2 * rsum n (fun j => slope m n a b x j * (y j - x j)).
  Proof.
    assert (S : rsum n (fun j => slope m n a b x j * (y j - x j)) =
      rsum m (fun i => rsum n (fun j => a i j * (y j - x j)) * (rsum n (fun k => a i k * x k) - b i))).
    { transitivity (rsum n (fun j => rsum m (fun i => a i j * (y j - x j) * (rsum n (fun k => a i k * x k) - b i)))).
      - apply rsum_ext. intros j _. unfold slope. rewrite <- rsum_scal_r. apply rsum_ext. intros i _. ring.
      - rewrite rsum_swap. apply rsum_ext. intros i _. rewrite rsum_scal_r. reflexivity. }
    rewrite S. unfold misfit. rewrite <- rsum_scal, <- !rsum_plus. apply rsum_ext. intros i _.
    assert (D : rsum n (fun j => a i j * (y j - x j)) = rsum n (fun j => a i j * y j) - rsum n (fun j => a i j * x j)).
    { rewrite <- rsum_minus. apply rsum_ext. intros j _. ring. }
    rewrite D. ring.
  Qed.
End Solver.
