(** Claims about the non-negative least squares solver (C18, C19, C65). *)
From Coq Require Import Reals Lra Lia List Arith Bool.
From Verif Require Import Base RSum Model_Numeric Proof_Numeric Model_Arrays Model_Nnls Spec_Nnls Proof_Nnls.
Import ListNotations.
Local Open Scope R_scope.

(** Cramer's rule, for the examples. *)
Definition cramer (K : nat) (G : nat -> nat -> R) (c : nat -> R) : option (nat -> R) :=
  match K with
  | 0%nat => Some (fun _ => 0)
  | 1%nat => if Req_EM_T (G 0%nat 0%nat) 0 then None else Some (fun _ => c 0%nat / G 0%nat 0%nat)
  | 2%nat =>
      let d := G 0%nat 0%nat * G 1%nat 1%nat - G 0%nat 1%nat * G 1%nat 0%nat in
      if Req_EM_T d 0 then None
      else Some (fun k => match k with
                          | O => (c 0%nat * G 1%nat 1%nat - G 0%nat 1%nat * c 1%nat) / d
                          | _ => (G 0%nat 0%nat * c 1%nat - c 0%nat * G 1%nat 0%nat) / d
                          end)
  | 3%nat =>
      let m := fun i j => G ((i + 1) mod 3)%nat ((j + 1) mod 3)%nat * G ((i + 2) mod 3)%nat ((j + 2) mod 3)%nat
                        - G ((i + 1) mod 3)%nat ((j + 2) mod 3)%nat * G ((i + 2) mod 3)%nat ((j + 1) mod 3)%nat in
      let d := G 0%nat 0%nat * m 0%nat 0%nat + G 0%nat 1%nat * m 0%nat 1%nat + G 0%nat 2%nat * m 0%nat 2%nat in
      if Req_EM_T d 0 then None
      else Some (fun k => (c 0%nat * m 0%nat k + c 1%nat * m 1%nat k + c 2%nat * m 2%nat k) / d)
  | _ => None
  end.

Lemma cramer_correct K : correct K cramer.
Proof.
  intros G c s. unfold cramer. destruct K as [|[|[|[|K]]]].
  - intros _ k Hk. lia.
  - destruct (Req_EM_T (G 0%nat 0%nat) 0) as [Z|Z]; [discriminate|]. intros [= <-] k Hk. replace k with 0%nat by lia. cbn. field. exact Z.
  - cbv zeta. destruct (Req_EM_T _ 0) as [Z|Z]; [discriminate|]. intros [= <-] k Hk. destruct k as [|[|k]]; [| |lia]; cbn; field; exact Z.
  - cbv zeta. destruct (Req_EM_T _ 0) as [Z|Z]; [discriminate|]. cbn [Nat.modulo Nat.divmod Nat.add fst snd Nat.sub] in Z. intros [= <-] k Hk.
    destruct k as [|[|[|k]]]; [| | |lia]; cbn [rsum Nat.modulo Nat.divmod Nat.add fst snd Nat.sub]; field; exact Z.
  - discriminate.
Qed.

Lemma cramer_successful K : (K <= 3)%nat -> successful K cramer.
Proof.
  intros HK G c Rg. unfold cramer. destruct K as [|[|[|[|K]]]].
  - eexists; reflexivity.
  - destruct (Req_EM_T (G 0%nat 0%nat) 0) as [Z|Z]; [|eexists; reflexivity]. exfalso.
    pose proof (Rg (fun _ => 1)) as Q. cbn in Q. assert (1 = 0); [|lra]. apply (Q) with (k := 0%nat); [|lia]. intros k Hk. replace k with 0%nat by lia. rewrite Z. ring.
  - cbv zeta. destruct (Req_EM_T _ 0) as [Z|Z]; [|eexists; reflexivity]. exfalso.
    assert (V : forall v : nat -> R, (rsum 2 (fun l => G 0%nat l * v l) = 0) -> (rsum 2 (fun l => G 1%nat l * v l) = 0) -> v 0%nat = 0 /\ v 1%nat = 0).
    { intros v H0 H1. assert (A : forall k, (k < 2)%nat -> rsum 2 (fun l => G k l * v l) = 0) by (intros [|[|k]] Hk; [exact H0|exact H1|lia]).
      split; apply (Rg v A); lia. }
    destruct (V (fun k => match k with O => G 1%nat 1%nat | _ => - G 1%nat 0%nat end)) as [A1 A2]; [cbn; lra|cbn; lra|].
    destruct (V (fun k => match k with O => - G 0%nat 1%nat | _ => G 0%nat 0%nat end)) as [A3 A4]; [cbn; lra|cbn; lra|].
    cbn in A1, A2, A3, A4. destruct (V (fun _ => 1)) as [A5 _]; [cbn; lra|cbn; lra|lra].
  - cbv zeta. destruct (Req_EM_T _ 0) as [Z|Z]; [|eexists; reflexivity]. exfalso. cbn [Nat.modulo Nat.divmod Nat.add fst snd Nat.sub] in Z.
    assert (V : forall v : nat -> R, (rsum 3 (fun l => G 0%nat l * v l) = 0) -> (rsum 3 (fun l => G 1%nat l * v l) = 0) -> (rsum 3 (fun l => G 2%nat l * v l) = 0) ->
      v 0%nat = 0 /\ v 1%nat = 0 /\ v 2%nat = 0).
    { intros v H0 H1 H2. assert (A : forall k, (k < 3)%nat -> rsum 3 (fun l => G k l * v l) = 0) by (intros [|[|[|k]]] Hk; [exact H0|exact H1|exact H2|lia]).
      repeat split; apply (Rg v A); lia. }
    set (p := G 0%nat 0%nat) in *. set (q := G 0%nat 1%nat) in *. set (r := G 0%nat 2%nat) in *.
    set (u := G 1%nat 0%nat) in *. set (v := G 1%nat 1%nat) in *. set (w := G 1%nat 2%nat) in *.
    set (x := G 2%nat 0%nat) in *. set (y := G 2%nat 1%nat) in *. set (z := G 2%nat 2%nat) in *.
    (* the columns of the adjugate are mapped to zero *)
    destruct (V (fun k => match k with O => v * z - w * y | 1%nat => w * x - u * z | _ => u * y - v * x end)) as (B1 & B2 & B3);
      [cbn; fold p q r; lra|cbn; fold u v w; ring|cbn; fold x y z; ring|].
    destruct (V (fun k => match k with O => r * y - q * z | 1%nat => p * z - r * x | _ => q * x - p * y end)) as (B4 & B5 & B6);
      [cbn; fold p q r; ring|cbn; fold u v w; lra|cbn; fold x y z; ring|].
    destruct (V (fun k => match k with O => q * w - r * v | 1%nat => r * u - p * w | _ => p * v - q * u end)) as (B7 & B8 & B9);
      [cbn; fold p q r; ring|cbn; fold u v w; ring|cbn; fold x y z; lra|].
    cbn in B1, B2, B3, B4, B5, B6, B7, B8, B9.
    (* so the rows are parallel, and some vector orthogonal to all of them is not zero *)
    assert (Or : forall e1 e2 e3, p * e1 + q * e2 + r * e3 = 0 -> u * e1 + v * e2 + w * e3 = 0 -> x * e1 + y * e2 + z * e3 = 0 -> e1 = 0 /\ e2 = 0 /\ e3 = 0).
    { intros e1 e2 e3 H1 H2 H3. apply (V (fun k => match k with O => e1 | 1%nat => e2 | _ => e3 end)); cbn; fold p q r u v w x y z; lra. }
    destruct (Or q (- p) 0) as (C1 & C2 & _); [lra|lra|lra|].
    destruct (Or v (- u) 0) as (C3 & C4 & _); [lra|lra|lra|].
    destruct (Or y (- x) 0) as (C5 & C6 & _); [lra|lra|lra|].
    destruct (Or 1 0 0) as (C7 & _); [lra|lra|lra|lra].
  - lia.
Qed.

(** C18 *)

Section Result.
  Variable solve : nat -> (nat -> nat -> R) -> (nat -> R) -> option (nat -> R).
  Variables m n : nat.
  Variable a : nat -> nat -> R.
  Variable b : nat -> R.
  Hypothesis solve_ok : forall K, (K <= n)%nat -> correct K solve.

  (** Every result is non-negative, and its positive entries are stationary: the solution of the problem restricted to
      them. *)
  Theorem nnls_stationary fuel tol maxiter x e : nnls solve fuel [m; n] [m] a b tol maxiter = Ok (x, e) ->
    feasible n x /\ forall j, (j < n)%nat -> 0 < x j -> slope m n a b x j = 0.
  Proof.
    unfold nnls. rewrite Nat.eqb_refl. intro H.
    apply (outer_spec solve m n a b solve_ok) in H; [|intros j Hj; split; [discriminate|reflexivity]].
    destruct H as (q & St & _). split.
    - intros j Hj. destruct (St j Hj) as [S1 S2]. destruct (q j); [left; apply S1; reflexivity|right; symmetry; apply S2; reflexivity].
    - intros j Hj P. destruct (St j Hj) as [S1 S2]. destruct (q j); [apply S1; reflexivity|]. rewrite S2 in P by reflexivity. lra.
  Qed.

  (** Result of a loop that was not ended by [maxiter]: no other non-negative vector has a misfit that is smaller by more
      than twice the tolerance per unit length. *)
  Theorem nnls_optimal fuel tol maxiter x e : 0 <= tol -> nnls solve fuel [m; n] [m] a b tol maxiter = Ok (x, e) -> e <> Limit ->
    forall y, feasible n y -> misfit m n a b x <= misfit m n a b y + 2 * tol * rsum n y.
  Proof.
    intros Ht H He y Fy. unfold nnls in H. rewrite Nat.eqb_refl in H.
    apply (outer_spec solve m n a b solve_ok) in H; [|intros j Hj; split; [discriminate|reflexivity]].
    destruct H as (q & St & H1 & H2). rewrite (misfit_expand m n a b x y).
    assert (P : 0 <= rsum m (fun i => rsum n (fun j => a i j * (y j - x j)) ^ 2)) by (apply rsum_nonneg; intros; apply pow2_ge_0).
    assert (Q : - (tol * rsum n y) <= rsum n (fun j => slope m n a b x j * (y j - x j))).
    { rewrite <- rsum_scal, <- rsum_opp. apply rsum_le. intros j Hj. destruct (St j Hj) as [S1 S2]. specialize (Fy j Hj).
      assert (T : 0 <= tol * y j) by (apply Rmult_le_pos; assumption).
      destruct (q j) eqn:Ej.
      - destruct (S1 eq_refl) as [_ ->]. lra.
      - rewrite (S2 eq_refl). destruct e; [rewrite (H1 eq_refl j Hj) in Ej; discriminate| |contradiction].
        pose proof (H2 eq_refl j Hj Ej) as G. assert (0 <= (tol + slope m n a b x j) * y j) by (apply Rmult_le_pos; lra). lra. }
    lra.
  Qed.

  (** One pass of the inner loop whose result exists: the point [s] is the solution of the problem restricted to the
      variables in use.  Either it is positive and is the result, or the loop goes on from the point [x'], which is as far
      from [x] as the last non-negative point [y] on the way to [s], but on the other side: the step that the code takes
      has the right length and the wrong sign.  Variables that are not positive there are not in use any more. *)
  Theorem nnls_step_mirrored fuel q x q1 x1 : feasible n x -> (forall j, (j < n)%nat -> q j = false -> x j = 0) ->
    inner solve (S fuel) m n a b q x = Ok (q1, x1) ->
    exists s, (forall j, (j < n)%nat -> if q j then slope m n a b s j = 0 else s j = 0) /\
      ((forall j, (j < n)%nat -> (q j = true -> 0 < s j) /\ q1 j = q j /\ x1 j = s j) \/
       exists y beta q' x', 0 <= beta <= 1 /\ feasible n y /\ (forall j, (j < n)%nat -> y j = x j + beta * (s j - x j)) /\
         (exists t, (t < n)%nat /\ q t = true /\ s t <= 0 /\ y t = 0) /\
         (forall j, (j < n)%nat -> x' j - x j = x j - y j) /\
         (forall j, (j < n)%nat -> q' j = true <-> q j = true /\ 0 < x' j) /\
         inner solve fuel m n a b q' x' = Ok (q1, x1)).
  Proof.
    intros Fx Zx. cbn [inner].
    destruct (restricted solve m n a b q) as [s|] eqn:E; [|discriminate]. cbv zeta.
    set (sq := fun j => if q j then s (rank q j) else 0).
    destruct (filter (fun j => leb (s (rank q j)) 0) (selected n q)) as [|t ts] eqn:F.
    - intros [= <- <-]. exists sq. split.
      + intros j Hj. destruct (q j) eqn:Q; [exact (restricted_spec solve m n a b solve_ok q s E j Hj Q)|unfold sq; rewrite Q; reflexivity].
      + left. intros j Hj. split; [|split; reflexivity]. intro Q. unfold sq. rewrite Q.
        destruct (Rlt_le_dec 0 (s (rank q j))) as [P|P]; [exact P|]. exfalso.
        assert (I : In j (filter (fun j => leb (s (rank q j)) 0) (selected n q))).
        { apply filter_In. split; [apply selected_In; auto|]. apply leb_true. exact P. }
        rewrite F in I. destruct I.
    - destruct (existsb _ (t :: ts)) eqn:Ex; [discriminate|]. intro H. exists sq. split.
      { intros j Hj. destruct (q j) eqn:Q; [exact (restricted_spec solve m n a b solve_ok q s E j Hj Q)|unfold sq; rewrite Q; reflexivity]. }
      right. set (ratio := fun j => x j / (x j - s (rank q j))) in *.
      change (x t / (x t - s (rank q t))) with (ratio t) in H. set (beta := least (ratio t) (map ratio ts)) in *.
      assert (In1 : forall j, In j (t :: ts) -> (j < n)%nat /\ q j = true /\ s (rank q j) <= 0 /\ 0 < x j - s (rank q j)).
      { intros j Ij. assert (Ij' := Ij). rewrite <- F in Ij'. apply filter_In in Ij' as [Is Il]. apply selected_In in Is as [Jn Jq].
        assert (Sj : s (rank q j) <= 0) by (unfold leb in Il; destruct (Rle_dec (s (rank q j)) 0); [assumption|discriminate]).
        split; [exact Jn|]. split; [exact Jq|]. split; [exact Sj|]. pose proof (Fx j Jn) as X.
        destruct (Req_EM_T (x j - s (rank q j)) 0) as [Z|Z]; [|lra]. exfalso.
        assert (T : existsb (fun j => if Req_EM_T (x j - s (rank q j)) 0 then true else false) (t :: ts) = true).
        { apply existsb_exists. exists j. split; [exact Ij|]. destruct (Req_EM_T (x j - s (rank q j)) 0); [reflexivity|contradiction]. }
        rewrite T in Ex. discriminate. }
      assert (Ra : forall j, In j (t :: ts) -> 0 <= ratio j <= 1).
      { intros j Ij. destruct (In1 j Ij) as (Jn & _ & Sj & Pj). pose proof (Fx j Jn). unfold ratio. split.
        - apply Rmult_le_pos; [assumption|]. left. apply Rinv_0_lt_compat. exact Pj.
        - apply (Rmult_le_reg_r (x j - s (rank q j))); [exact Pj|]. unfold Rdiv. rewrite Rmult_assoc, Rinv_l by lra. lra. }
      destruct (least_spec ratio t ts) as [Le (u & Iu & Eu)]. fold beta in Le, Eu.
      assert (Hb : 0 <= beta <= 1) by (rewrite Eu; apply Ra; exact Iu).
      exists (fun j => x j + beta * (sq j - x j)), beta.
      match type of H with inner _ _ _ _ _ _ ?q' ?x' = _ => exists q', x' end.
      split; [exact Hb|]. split; [|split; [reflexivity|split; [|split; [|split; [|exact H]]]]].
      + intros j Hj. unfold sq. destruct (q j) eqn:Q; [|rewrite (Zx j Hj Q); lra]. pose proof (Fx j Hj) as X.
        destruct (Rlt_le_dec 0 (s (rank q j))) as [P|P].
        * assert (0 <= (1 - beta) * x j) by (apply Rmult_le_pos; lra). assert (0 <= beta * s (rank q j)) by (apply Rmult_le_pos; lra). lra.
        * assert (I : In j (t :: ts)).
          { rewrite <- F. apply filter_In. split; [apply selected_In; auto|]. apply leb_true. exact P. }
          destruct (In1 j I) as (_ & _ & _ & Pj). pose proof (Le j I) as L. unfold ratio in L.
          assert (M : beta * (x j - s (rank q j)) <= x j / (x j - s (rank q j)) * (x j - s (rank q j))) by (apply Rmult_le_compat_r; lra).
          unfold Rdiv in M. rewrite Rmult_assoc, Rinv_l in M by lra. lra.
      + destruct (In1 u Iu) as (Un & Uq & Us & Up). exists u. split; [exact Un|]. split; [exact Uq|]. unfold sq. rewrite Uq. split; [exact Us|].
        rewrite Eu. unfold ratio. field. lra.
      + intros j Hj. unfold sq. cbv beta. destruct (q j) eqn:Q; [ring|]. rewrite (Zx j Hj Q). ring.
      + intros j Hj. cbv beta. destruct (Rle_dec (if q j then x j + - beta * (s (rank q j) - x j) else x j) 0) as [L|L].
        * rewrite leb_true by exact L. split; [discriminate|]. intros [_ P]. lra.
        * rewrite leb_false by lra. split; [intro Q; split; [exact Q|lra]|]. intros [Q _]. exact Q.
  Qed.
End Result.
Print Assumptions nnls_stationary.
Print Assumptions nnls_optimal.
Print Assumptions nnls_step_mirrored.

(** Arrays that are not a matrix and a vector with as many entries as the matrix has rows are rejected. *)
Theorem nnls_rejected solve fuel sa sb a b tol maxiter : (forall m n, ~ (sa = [m; n] /\ sb = [m])) ->
  nnls solve fuel sa sb a b tol maxiter = Err ValueError.
Proof.
  intro H. unfold nnls. destruct sa as [|m [|n [|? ?]]]; try reflexivity. destruct sb as [|m' [|? ?]]; try reflexivity.
  destruct (Nat.eqb_spec m m') as [->|_]; [|reflexivity]. exfalso. apply (H m' n). split; reflexivity.
Qed.
Print Assumptions nnls_rejected.

(** Matrix of a list of rows. *)
Definition rows (l : list (list R)) : nat -> nat -> R := fun i j => nth j (nth i l []) 0.
Definition vector (l : list R) : nat -> R := fun i => nth i l 0.

Ltac regular2 := let v := fresh "v" in let H := fresh "H" in intros v H;
  let H0 := fresh in pose proof (H 0%nat ltac:(lia)) as H0; try (let H1 := fresh in pose proof (H 1%nat ltac:(lia)) as H1; cbn in H1);
  try (let H2 := fresh in pose proof (H 2%nat ltac:(lia)) as H2; cbn in H2); cbn in H0;
  intros [|[|[|?]]] ?; [..|lia]; try lia; lra.

(** The solution (1, 0) of the problem with the identity matrix and the vector (1, -2), in one iteration. *)
Example nnls_example solve fuel maxiter : correct 1 solve -> successful 1 solve -> (1 <= fuel)%nat -> (2 <= maxiter)%nat ->
  exists x, nnls solve fuel [2; 2]%nat [2%nat] (rows [[1; 0]; [0; 1]]) (vector [1; -2]) 0 (Some maxiter) = Ok (x, Tolerance) /\
    x 0%nat = 1 /\ x 1%nat = 0.
Proof.
  intros Co Su Hf Hm. destruct maxiter as [|[|maxiter]]; [lia|lia|]. destruct fuel as [|fuel]; [lia|].
  set (A := rows _). set (B := vector _). unfold nnls. cbn [Nat.eqb].
  cbn [outer selected filter seq negb]. cbv zeta.
  assert (W0 : gradient 2 2 A B (fun _ => 0) 0%nat = 1) by (unfold gradient, A, B, rows, vector; cbn; lra).
  assert (W1 : gradient 2 2 A B (fun _ => 0) 1%nat = -2) by (unfold gradient, A, B, rows, vector; cbn; lra).
  cbn [first_max]. rewrite W0, W1, (ltb_false 1 (-2)) by lra. rewrite W0. unfold leb at 1. destruct (Rle_dec 1 0) as [K|_]; [lra|].
  cbn [inner]. unfold restricted. cbn [selected filter seq Nat.eqb length nth].
  match goal with |- context [solve 1%nat ?G ?c] => destruct (Su G c ltac:(unfold A, B, rows, vector; regular2)) as [s Es]; pose proof (Co G c s Es 0%nat ltac:(lia)) as V end.
  unfold A, B, rows, vector in V. cbn in V. rewrite Es. cbv zeta. unfold rank. cbn [selected filter seq length].
  assert (S0 : s 0%nat = 1) by lra. rewrite S0, (leb_false 1 0) by lra. cbn [bind fst snd].
  unfold selected at 1. cbn [filter seq negb Nat.eqb]. cbv zeta. cbn [first_max].
  set (x := fun j => if if (j =? 0)%nat then true else false then s (length (selected j (fun j0 => if (j0 =? 0)%nat then true else false))) else 0).
  assert (X0 : x 0%nat = 1) by (unfold x; cbn; exact S0). assert (X1 : x 1%nat = 0) by reflexivity.
  assert (W : gradient 2 2 A B x 1%nat = -2) by (unfold gradient, A, B, rows, vector; cbn [rsum nth]; rewrite X0, X1; lra).
  rewrite W, (leb_true (-2) 0) by lra. exists x. auto.
Qed.

(** C19 *)

(** The problem with rows (2, 2), (2, 1) and right hand side (2, 0): from (1/2, 0) the step has the wrong direction, leads
    out of the admissible region and back. *)
Lemma nnls_cycle solve fuel maxiter q x : (forall K, (K <= 2)%nat -> correct K solve /\ successful K solve) -> (2 <= fuel)%nat ->
  q 0%nat = true -> q 1%nat = false -> x 0%nat = 1 / 2 -> x 1%nat = 0 ->
  exists x', outer solve maxiter fuel 2 2 (rows [[2; 2]; [2; 1]]) (vector [2; 0]) 0 q x = Ok (x', Limit) /\ x' 0%nat = 1 / 2 /\ x' 1%nat = 0.
Proof.
  intros Co Hf. destruct fuel as [|[|fuel]]; [lia|lia|]. set (A := rows _). set (B := vector _).
  revert q x. induction maxiter as [|maxiter IH]; intros q x Q0 Q1 X0 X1; [exists x; auto|].
  cbn [outer]. unfold selected at 1. cbn [filter seq]. rewrite Q0, Q1. cbn [negb]. cbv zeta. cbn [first_max].
  assert (W : gradient 2 2 A B x 1%nat = 1) by (unfold gradient, A, B, rows, vector; cbn [rsum nth]; rewrite X0, X1; lra).
  rewrite W, (leb_false 1 0) by lra. remember (S fuel) as f1 eqn:Ef1. cbn [inner]. unfold restricted. unfold selected, rank. cbn [filter seq Nat.eqb]. rewrite Q0. cbn [length nth].
  match goal with |- context [solve 2%nat ?G ?c] =>
    destruct (proj2 (Co 2%nat ltac:(lia)) G c ltac:(unfold A, B, rows, vector; regular2)) as [s Es];
    pose proof (proj1 (Co 2%nat ltac:(lia)) G c s Es 0%nat ltac:(lia)) as V0; pose proof (proj1 (Co 2%nat ltac:(lia)) G c s Es 1%nat ltac:(lia)) as V1 end.
  unfold A, B, rows, vector in V0, V1. cbn in V0, V1. rewrite Es. cbv zeta.
  assert (S0 : s 0%nat = -1) by lra. assert (S1 : s 1%nat = 2) by lra.
  unfold selected. cbn [filter seq length Nat.eqb]. rewrite Q0. cbn [length]. rewrite S0, S1, (leb_true (-1) 0), (leb_false 2 0) by lra.
  cbn [existsb map least filter seq length]. rewrite S0, X0.
  destruct (Req_EM_T (1 / 2 - -1) 0) as [K|_]; [lra|]. cbn [orb].
  match goal with |- context [inner _ _ _ _ _ _ ?q ?x] => set (x1 := x); set (q1 := q) end.
  assert (P0 : q1 0%nat = true).
  { unfold q1. cbn [Nat.eqb filter seq length]. rewrite Q0, S0, X0, leb_false by lra. reflexivity. }
  assert (P1 : q1 1%nat = false).
  { unfold q1. cbn [Nat.eqb filter seq length]. rewrite Q0. cbn [length]. rewrite S1, X1, leb_true by lra. reflexivity. }
  clearbody x1 q1. rewrite Ef1 in IH |- *. cbn [inner]. unfold restricted, rank, selected. cbn [filter seq Nat.eqb]. rewrite P0, P1. cbn [length nth].
  match goal with |- context [solve 1%nat ?G ?c] =>
    destruct (proj2 (Co 1%nat ltac:(lia)) G c ltac:(unfold A, B, rows, vector; regular2)) as [s' Es'];
    pose proof (proj1 (Co 1%nat ltac:(lia)) G c s' Es' 0%nat ltac:(lia)) as V2 end.
  unfold A, B, rows, vector in V2. cbn in V2. rewrite Es'. cbv zeta. cbn [filter seq length]. assert (S2 : s' 0%nat = 1 / 2) by lra.
  rewrite S2, (leb_false (1 / 2) 0) by lra. cbn [bind fst snd].
  apply IH; cbn [filter seq length]; rewrite ?P0, ?P1; auto.
Qed.

(** So the result is (1/2, 0) after any number of iterations, while (0, 4/5) is better. *)
Theorem nnls_optimal_refuted solve fuel maxiter : (forall K, (K <= 2)%nat -> correct K solve /\ successful K solve) -> (2 <= fuel)%nat -> (1 <= maxiter)%nat ->
  let a := rows [[2; 2]; [2; 1]] in let b := vector [2; 0] in
  exists x, nnls solve fuel [2; 2]%nat [2%nat] a b 0 (Some maxiter) = Ok (x, Limit) /\ x 0%nat = 1 / 2 /\ x 1%nat = 0 /\
    misfit 2 2 a b x = 2 /\ exists y, feasible 2 y /\ misfit 2 2 a b y = 4 / 5.
Proof.
  intros Co Hf Hm. set (A := rows _). set (B := vector _). destruct maxiter as [|maxiter]; [lia|]. cbv zeta. unfold nnls. cbn [Nat.eqb].
  pose proof Hf as Hf'. destruct fuel as [|fuel]; [lia|]. cbn [outer selected filter seq negb]. cbv zeta.
  assert (W0 : gradient 2 2 A B (fun _ => 0) 0%nat = 4) by (unfold gradient, A, B, rows, vector; cbn; lra).
  assert (W1 : gradient 2 2 A B (fun _ => 0) 1%nat = 4) by (unfold gradient, A, B, rows, vector; cbn; lra).
  cbn [first_max]. rewrite W0, W1, (ltb_false 4 4) by lra. rewrite W0, (leb_false 4 0) by lra.
  cbn [inner]. unfold restricted. cbn [selected filter seq Nat.eqb length nth].
  match goal with |- context [solve 1%nat ?G ?c] =>
    destruct (proj2 (Co 1%nat ltac:(lia)) G c ltac:(unfold A, B, rows, vector; regular2)) as [s Es];
    pose proof (proj1 (Co 1%nat ltac:(lia)) G c s Es 0%nat ltac:(lia)) as V end.
  unfold A, B, rows, vector in V. cbn in V. rewrite Es. cbv zeta. unfold rank. cbn [selected filter seq length].
  assert (S0 : s 0%nat = 1 / 2) by lra. rewrite S0, (leb_false (1 / 2) 0) by lra. cbn [bind fst snd].
  match goal with |- context [outer _ _ _ _ _ _ _ _ ?q ?x] => destruct (nnls_cycle solve (S fuel) maxiter q x Co Hf') as (x' & E & X0 & X1) end;
    [reflexivity|reflexivity|exact S0|reflexivity|].
  exists x'. split; [exact E|]. split; [exact X0|]. split; [exact X1|]. split.
  - unfold misfit, A, B, rows, vector. cbn [rsum nth]. rewrite X0, X1. field.
  - exists (vector [0; 4 / 5]). split.
    + intros [|[|j]] Hj; [..|lia]; cbn; lra.
    + unfold misfit, A, B, rows, vector. cbn. field.
Qed.
Print Assumptions nnls_optimal_refuted.

(** Such solvers of linear systems are for example Cramer's rule. *)
Example nnls_cramer : exists x, nnls cramer 5 [2; 2]%nat [2%nat] (rows [[2; 2]; [2; 1]]) (vector [2; 0]) 0 None = Ok (x, Limit) /\ x 0%nat = 1 / 2 /\ x 1%nat = 0.
Proof.
  destruct (nnls_optimal_refuted cramer 5 6) as (x & E & X0 & X1 & _); [|lia|lia|exists x; auto].
  intros K HK. split; [apply cramer_correct|apply cramer_successful; lia].
Qed.

(** From (1/2, 0) towards the solution (-1, 2) of 2 x + 2 y = 2, 2 x + y = 0: the last non-negative point is (0, 2/3), the
    code goes to (1, -2/3), drops the second variable and ends where it started. *)
Example nnls_step_example solve fuel : (forall K, (K <= 2)%nat -> correct K solve /\ successful K solve) -> (2 <= fuel)%nat -> exists q1 x1,
  inner solve fuel 2 2 (rows [[2; 2]; [2; 1]]) (vector [2; 0]) (fun _ => true) (vector [1 / 2; 0]) = Ok (q1, x1) /\
  q1 0%nat = true /\ q1 1%nat = false /\ x1 0%nat = 1 / 2 /\ x1 1%nat = 0.
Proof.
  intros Co Hf. destruct fuel as [|[|fuel]]; [lia|lia|]. set (A := rows _). set (B := vector [2; 0]). set (x := vector [1 / 2; 0]).
  assert (X0 : x 0%nat = 1 / 2) by reflexivity. assert (X1 : x 1%nat = 0) by reflexivity. clearbody x.
  remember (S fuel) as f1 eqn:Ef1. cbn [inner]. unfold restricted. unfold selected, rank. cbn [filter seq Nat.eqb length nth].
  match goal with |- context [solve 2%nat ?G ?c] =>
    destruct (proj2 (Co 2%nat ltac:(lia)) G c ltac:(unfold A, B, rows, vector; regular2)) as [s Es];
    pose proof (proj1 (Co 2%nat ltac:(lia)) G c s Es 0%nat ltac:(lia)) as V0; pose proof (proj1 (Co 2%nat ltac:(lia)) G c s Es 1%nat ltac:(lia)) as V1 end.
  unfold A, B, rows, vector in V0, V1. cbn in V0, V1. rewrite Es. cbv zeta.
  assert (S0 : s 0%nat = -1) by lra. assert (S1 : s 1%nat = 2) by lra.
  unfold selected. cbn [filter seq length Nat.eqb]. rewrite S0, S1, (leb_true (-1) 0), (leb_false 2 0) by lra.
  cbn [existsb map least filter seq length]. rewrite S0, X0.
  destruct (Req_EM_T (1 / 2 - -1) 0) as [K|_]; [lra|]. cbn [orb].
  match goal with |- context [inner _ _ _ _ _ _ ?q ?x] => set (x1 := x); set (q1 := q) end.
  assert (P0 : q1 0%nat = true) by (unfold q1; cbn [filter seq length]; rewrite S0, X0, leb_false by lra; reflexivity).
  assert (P1 : q1 1%nat = false) by (unfold q1; cbn [filter seq length]; rewrite S1, X1, leb_true by lra; reflexivity).
  clearbody x1 q1. rewrite Ef1. cbn [inner]. unfold restricted, rank, selected. cbn [filter seq Nat.eqb]. rewrite P0, P1. cbn [length nth].
  match goal with |- context [solve 1%nat ?G ?c] =>
    destruct (proj2 (Co 1%nat ltac:(lia)) G c ltac:(unfold A, B, rows, vector; regular2)) as [s' Es'];
    pose proof (proj1 (Co 1%nat ltac:(lia)) G c s' Es' 0%nat ltac:(lia)) as V2 end.
  unfold A, B, rows, vector in V2. cbn in V2. rewrite Es'. cbv zeta. cbn [filter seq length]. assert (S2 : s' 0%nat = 1 / 2) by lra.
  rewrite S2, (leb_false (1 / 2) 0) by lra. do 2 eexists. split; [reflexivity|]. cbv beta. cbn [filter seq length]. rewrite P0, P1. auto.
Qed.

(** C65 *)

(** Problem with rows (-1, -2, 1), (3, 3, -3), (1, -2, 3) and right hand side (-1, -2, 3): with only the first variable in
    use, its value doubles forever. *)
Lemma nnls_doubling solve fuel q x : correct 1 solve -> successful 1 solve ->
  q 0%nat = true -> q 1%nat = false -> q 2%nat = false -> 0 < x 0%nat ->
  inner solve fuel 3 3 (rows [[-1; -2; 1]; [3; 3; -3]; [1; -2; 3]]) (vector [-1; -2; 3]) q x = Err OutOfFuel.
Proof.
  intros Co Su. set (A := rows _). set (B := vector _). revert q x. induction fuel as [|fuel IH]; intros q x Q0 Q1 Q2 X0; [reflexivity|].
  cbn [inner]. unfold restricted, rank, selected. cbn [filter seq Nat.eqb]. rewrite Q0, Q1, Q2. cbn [length nth].
  match goal with |- context [solve 1%nat ?G ?c] =>
    destruct (Su G c ltac:(unfold A, B, rows, vector; regular2)) as [s Es]; pose proof (Co G c s Es 0%nat ltac:(lia)) as V end.
  unfold A, B, rows, vector in V. cbn in V. rewrite Es. cbv zeta. cbn [filter seq length]. assert (S0 : s 0%nat = - 2 / 11) by lra.
  rewrite S0, (leb_true (- 2 / 11) 0) by lra. cbn [existsb map least filter seq length]. rewrite S0.
  destruct (Req_EM_T (x 0%nat - - 2 / 11) 0) as [K|_]; [lra|]. cbn [orb].
  assert (D : x 0%nat + - (x 0%nat / (x 0%nat - - 2 / 11)) * (- 2 / 11 - x 0%nat) = 2 * x 0%nat) by (field; lra).
  apply IH; cbn [filter seq length]; rewrite ?Q0, ?Q1, ?Q2, ?S0, ?D.
  - rewrite leb_false by lra. reflexivity.
  - destruct (leb (x 1%nat) 0); reflexivity.
  - destruct (leb (x 2%nat) 0); reflexivity.
  - lra.
Qed.

(** The matrix is regular, but the inner loop of the third iteration does not end. *)
Theorem nnls_ends_refuted solve fuel maxiter : (forall K, (K <= 3)%nat -> correct K solve /\ successful K solve) -> (3 <= maxiter)%nat ->
  regular 3 (rows [[-1; -2; 1]; [3; 3; -3]; [1; -2; 3]]) /\
  nnls solve fuel [3; 3]%nat [3%nat] (rows [[-1; -2; 1]; [3; 3; -3]; [1; -2; 3]]) (vector [-1; -2; 3]) 0 (Some maxiter) = Err OutOfFuel.
Proof.
  intros Co Hm. set (A := rows _). set (B := vector _). split; [unfold A, rows; regular2|].
  destruct maxiter as [|[|[|maxiter]]]; [lia..|]. unfold nnls. cbn [Nat.eqb].
  destruct fuel as [|fuel].
  { cbn [outer selected filter seq negb]. cbv zeta.
    assert (W0 : gradient 3 3 A B (fun _ => 0) 0%nat = -2) by (unfold gradient, A, B, rows, vector; cbn; lra).
    assert (W1 : gradient 3 3 A B (fun _ => 0) 1%nat = -10) by (unfold gradient, A, B, rows, vector; cbn; lra).
    assert (W2 : gradient 3 3 A B (fun _ => 0) 2%nat = 14) by (unfold gradient, A, B, rows, vector; cbn; lra).
    cbn [first_max]. rewrite W0, W1, W2, (ltb_false (-2) (-10)), W0, (ltb_true (-2) 14), W2, (leb_false 14 0) by lra. reflexivity. }
  remember (S fuel) as f eqn:Ef.
  (* first iteration: variable 2 *)
  remember (S (S maxiter)) as k2 eqn:E2. cbn [outer selected filter seq negb]. cbv zeta.
  assert (W0 : gradient 3 3 A B (fun _ => 0) 0%nat = -2) by (unfold gradient, A, B, rows, vector; cbn; lra).
  assert (W1 : gradient 3 3 A B (fun _ => 0) 1%nat = -10) by (unfold gradient, A, B, rows, vector; cbn; lra).
  assert (W2 : gradient 3 3 A B (fun _ => 0) 2%nat = 14) by (unfold gradient, A, B, rows, vector; cbn; lra).
  cbn [first_max]. rewrite W0, W1, W2, (ltb_false (-2) (-10)), W0, (ltb_true (-2) 14), W2, (leb_false 14 0) by lra.
  rewrite Ef. cbn [inner]. rewrite <- Ef. unfold restricted, rank, selected. cbn [filter seq Nat.eqb length nth].
  match goal with |- context [solve 1%nat ?G ?c] =>
    destruct (proj2 (Co 1%nat ltac:(lia)) G c ltac:(unfold A, B, rows, vector; regular2)) as [s Es];
    pose proof (proj1 (Co 1%nat ltac:(lia)) G c s Es 0%nat ltac:(lia)) as V end.
  unfold A, B, rows, vector in V. cbn in V. rewrite Es. cbv zeta. cbn [filter seq length Nat.eqb].
  assert (S0 : s 0%nat = 14 / 19) by lra. rewrite S0, (leb_false (14 / 19) 0) by lra. cbn [bind fst snd].
  match goal with |- outer _ _ _ _ _ _ _ _ ?q ?x = _ => set (x1 := x); set (q1 := q) end.
  assert (P : q1 0%nat = false /\ q1 1%nat = false /\ q1 2%nat = true) by (repeat split).
  assert (X : x1 0%nat = 0 /\ x1 1%nat = 0 /\ x1 2%nat = 14 / 19) by (repeat split; exact S0).
  destruct P as (P0 & P1 & P2), X as (X0 & X1 & X2). clearbody q1 x1. clear s Es V S0 W0 W1 W2.
  (* second iteration: variable 0 *)
  rewrite E2. remember (S maxiter) as k1 eqn:E1. cbn [outer]. unfold selected at 1. cbn [filter seq]. rewrite P0, P1, P2. cbn [negb]. cbv zeta.
  assert (W0 : gradient 3 3 A B x1 0%nat = 60 / 19) by (unfold gradient, A, B, rows, vector; cbn [rsum nth]; rewrite X0, X1, X2; lra).
  assert (W1 : gradient 3 3 A B x1 1%nat = 48 / 19) by (unfold gradient, A, B, rows, vector; cbn [rsum nth]; rewrite X0, X1, X2; lra).
  cbn [first_max]. rewrite W0, W1, (ltb_false (60 / 19) (48 / 19)), W0, (leb_false (60 / 19) 0) by lra.
  rewrite Ef. cbn [inner]. rewrite <- Ef. unfold restricted, rank, selected. cbn [filter seq Nat.eqb]. rewrite P1, P2. cbn [length nth].
  match goal with |- context [solve 2%nat ?G ?c] =>
    destruct (proj2 (Co 2%nat ltac:(lia)) G c ltac:(unfold A, B, rows, vector; regular2)) as [s Es];
    pose proof (proj1 (Co 2%nat ltac:(lia)) G c s Es 0%nat ltac:(lia)) as V0; pose proof (proj1 (Co 2%nat ltac:(lia)) G c s Es 1%nat ltac:(lia)) as V1 end.
  unfold A, B, rows, vector in V0, V1. cbn in V0, V1. rewrite Es. cbv zeta. cbn [filter seq length Nat.eqb]. rewrite P1. cbn [length].
  assert (S0 : s 0%nat = 3 / 8) by lra. assert (S1 : s 1%nat = 7 / 8) by lra.
  rewrite S0, S1, (leb_false (3 / 8) 0), (leb_false (7 / 8) 0) by lra. cbn [bind fst snd].
  match goal with |- outer _ _ _ _ _ _ _ _ ?q ?x = _ => set (x2 := x); set (q2 := q) end.
  assert (P : q2 0%nat = true /\ q2 1%nat = false /\ q2 2%nat = true) by (unfold q2; cbn [Nat.eqb]; auto).
  assert (X : x2 0%nat = 3 / 8 /\ x2 1%nat = 0 /\ x2 2%nat = 7 / 8).
  { unfold x2. cbn [Nat.eqb filter seq length]. rewrite P1, P2. cbn [length]. auto. }
  clearbody q2 x2. clear s Es V0 V1 S0 S1 W0 W1 P0 P1 P2 X0 X1 X2 q1 x1. destruct P as (P0 & P1 & P2), X as (X0 & X1 & X2).
  (* third iteration: variable 1 *)
  rewrite E1. cbn [outer]. unfold selected at 1. cbn [filter seq]. rewrite P0, P1, P2. cbn [negb]. cbv zeta. cbn [first_max].
  assert (W1 : gradient 3 3 A B x2 1%nat = 3 / 2) by (unfold gradient, A, B, rows, vector; cbn [rsum nth]; rewrite X0, X1, X2; lra).
  rewrite W1, (leb_false (3 / 2) 0) by lra.
  rewrite Ef at 1. cbn [inner]. unfold restricted, rank, selected. cbn [filter seq Nat.eqb]. rewrite P0, P2. cbn [length nth].
  match goal with |- context [solve 3%nat ?G ?c] =>
    destruct (proj2 (Co 3%nat ltac:(lia)) G c ltac:(unfold A, B, rows, vector; regular2)) as [s Es];
    pose proof (proj1 (Co 3%nat ltac:(lia)) G c s Es 0%nat ltac:(lia)) as V0; pose proof (proj1 (Co 3%nat ltac:(lia)) G c s Es 1%nat ltac:(lia)) as V1;
    pose proof (proj1 (Co 3%nat ltac:(lia)) G c s Es 2%nat ltac:(lia)) as V2 end.
  unfold A, B, rows, vector in V0, V1, V2. cbn in V0, V1, V2. rewrite Es. cbv zeta. cbn [filter seq length Nat.eqb]. rewrite P0. cbn [length].
  assert (S0 : s 0%nat = - 1 / 6) by lra. assert (S1 : s 1%nat = 5 / 3) by lra. assert (S2 : s 2%nat = 13 / 6) by lra.
  rewrite S0, S1, S2, (leb_true (- 1 / 6) 0), (leb_false (5 / 3) 0), (leb_false (13 / 6) 0) by lra.
  cbn [existsb map least filter seq length]. rewrite S0, X0.
  destruct (Req_EM_T (3 / 8 - - 1 / 6) 0) as [K|_]; [lra|]. cbn [orb].
  rewrite nnls_doubling; [reflexivity|apply Co; lia|apply Co; lia|..]; cbn [Nat.eqb filter seq length]; rewrite ?P0, ?P1, ?P2; cbn [length]; rewrite ?S0, ?S1, ?S2, ?X0, ?X1, ?X2.
  - rewrite leb_false by lra. reflexivity.
  - rewrite leb_true by lra. reflexivity.
  - rewrite leb_true by lra. reflexivity.
  - lra.
Qed.
Print Assumptions nnls_ends_refuted.

(** Also with the default number of iterations. *)
Example nnls_ends_cramer fuel :
  nnls cramer fuel [3; 3]%nat [3%nat] (rows [[-1; -2; 1]; [3; 3; -3]; [1; -2; 3]]) (vector [-1; -2; 3]) 0 None = Err OutOfFuel.
Proof.
  apply (nnls_ends_refuted cramer fuel 9); [|lia]. intros K HK. split; [apply cramer_correct|apply cramer_successful; exact HK].
Qed.

(** C18 *)

(** For orthogonal columns the loop ends with the optimum: each variable on its own. *)
Section Orthogonal.
  Variable solve : nat -> (nat -> nat -> R) -> (nat -> R) -> option (nat -> R).
  Variables m n : nat.
  Variable a : nat -> nat -> R.
  Variable b : nat -> R.
  Hypothesis solve_ok : forall K, (K <= n)%nat -> correct K solve /\ successful K solve.
  Hypothesis orthogonal : forall j k, (j < n)%nat -> (k < n)%nat -> j <> k -> rsum m (fun i => a i j * a i k) = 0.
  Hypothesis columns : forall j, (j < n)%nat -> 0 < rsum m (fun i => a i j * a i j).

  Let d j := rsum m (fun i => a i j * a i j).
  Let c j := rsum m (fun i => b i * a i j).

  Lemma orthogonal_slope x j : (j < n)%nat -> slope m n a b x j = d j * x j - c j.
  Proof.
    intro Hj. unfold slope, c, d.
    transitivity (rsum m (fun i => a i j * rsum n (fun k => a i k * x k)) - rsum m (fun i => b i * a i j)).
    { rewrite <- rsum_minus. apply rsum_ext. intros i _. ring. }
    f_equal. transitivity (rsum n (fun k => rsum m (fun i => a i j * a i k) * x k)).
    - transitivity (rsum m (fun i => rsum n (fun k => a i j * a i k * x k))).
      + apply rsum_ext. intros i _. rewrite <- rsum_scal. apply rsum_ext. intros k _. ring.
      + rewrite rsum_swap. apply rsum_ext. intros k _. rewrite rsum_scal_r. reflexivity.
    - rewrite (rsum_single n j); [reflexivity|exact Hj|]. intros k Hk N. rewrite (orthogonal j k) by auto. ring.
  Qed.

  Lemma orthogonal_restricted q : exists s, restricted solve m n a b q = Some s /\ forall j, (j < n)%nat -> q j = true -> s (rank q j) = c j / d j.
  Proof.
    unfold restricted. set (l := selected n q). assert (Ll : (length l <= n)%nat) by apply selected_length.
    assert (Nd : forall k k', (k < length l)%nat -> (k' < length l)%nat -> k <> k' -> nth k l 0%nat <> nth k' l 0%nat).
    { intros k k' Hk Hk' N E. apply N. rewrite <- (rank_nth n q k Hk), <- (rank_nth n q k' Hk'). fold l. rewrite E. reflexivity. }
    assert (Dg : forall v k, (k < length l)%nat -> rsum (length l) (fun k' => rsum m (fun i => a i (nth k l 0%nat) * a i (nth k' l 0%nat)) * v k') = d (nth k l 0%nat) * v k).
    { intros v k Hk. rewrite (rsum_single _ k); [reflexivity|exact Hk|]. intros k' Hk' N.
      rewrite orthogonal; [ring|apply nth_selected; exact Hk|apply nth_selected; exact Hk'|apply Nd; auto]. }
    match goal with |- context [solve _ ?G ?c] => destruct (proj2 (solve_ok _ Ll) G c) as [s Es] end.
    - intros v H k Hk. specialize (H k Hk). cbn beta in H. rewrite (Dg v k Hk) in H. apply Rmult_integral in H. destruct H as [H|H]; [|exact H].
      pose proof (columns (nth k l 0%nat) (proj1 (nth_selected n q k Hk))) as P. unfold d in H. lra.
    - exists s. split; [exact Es|]. intros j Hj Q. pose proof (rank_lt n q j Hj Q) as Hr.
      pose proof (proj1 (solve_ok _ Ll) _ _ _ Es (rank q j) Hr) as V. cbn beta in V. rewrite (Dg s _ Hr) in V. unfold l in V. rewrite (nth_rank n q j Hj Q) in V.
      pose proof (columns j Hj) as P. fold (d j) in P. fold (c j) in V. rewrite <- V. field. lra.
  Qed.

  Lemma orthogonal_inner fuel q x : (1 <= fuel)%nat -> (forall j, (j < n)%nat -> q j = true -> 0 < c j) ->
    exists x', inner solve fuel m n a b q x = Ok (q, x') /\ forall j, (j < n)%nat -> x' j = if q j then c j / d j else 0.
  Proof.
    intros Hf Hq. destruct fuel as [|fuel]; [lia|]. cbn [inner]. destruct (orthogonal_restricted q) as (s & -> & V). cbv zeta.
    replace (filter (fun j => leb (s (rank q j)) 0) (selected n q)) with (@nil nat).
    - eexists. split; [reflexivity|]. intros j Hj. cbn beta. destruct (q j) eqn:Q; [apply V; assumption|reflexivity].
    - symmetry. destruct (filter (fun j => leb (s (rank q j)) 0) (selected n q)) as [|j t] eqn:E; [reflexivity|]. exfalso.
      assert (I : In j (filter (fun j => leb (s (rank q j)) 0) (selected n q))) by (rewrite E; left; reflexivity).
      apply filter_In in I. destruct I as [I L]. apply selected_In in I. destruct I as [Hj Q]. rewrite (V j Hj Q) in L. apply leb_iff in L.
      assert (0 < c j / d j); [|lra]. apply Rdiv_lt_0_compat; [apply Hq; assumption|apply columns; exact Hj].
  Qed.

  Lemma orthogonal_outer maxiter fuel tol q x : (1 <= fuel)%nat -> 0 <= tol ->
    (forall j, (j < n)%nat -> (q j = true -> tol < c j) /\ x j = if q j then c j / d j else 0) ->
    (length (selected n (fun j => negb (q j) && ltb tol (c j))) <= maxiter)%nat ->
    exists x' e, outer solve maxiter fuel m n a b tol q x = Ok (x', e) /\ forall j, (j < n)%nat -> x' j = if ltb tol (c j) then c j / d j else 0.
  Proof.
    intros Hf Ht. revert q x. induction maxiter as [|maxiter IH]; intros q x I L; cbn [outer].
    - exists x, Limit. split; [reflexivity|]. intros j Hj. destruct (I j Hj) as [I1 ->]. destruct (q j) eqn:Q; [rewrite ltb_true; auto|].
      destruct (ltb tol (c j)) eqn:T; [|reflexivity]. exfalso.
      assert (In' : In j (selected n (fun j => negb (q j) && ltb tol (c j)))) by (apply selected_In; rewrite Q, T; auto).
      destruct (selected n (fun j => negb (q j) && ltb tol (c j))); [destruct In'|cbn in L; lia].
    - assert (Gr : forall j, (j < n)%nat -> q j = false -> gradient m n a b x j = c j).
      { intros j Hj Q. rewrite gradient_slope, orthogonal_slope by exact Hj. rewrite (proj2 (I j Hj)), Q. ring. }
      destruct (selected n (fun j => negb (q j))) as [|j0 l] eqn:Es.
      + exists x, Everything. split; [reflexivity|]. intros j Hj. destruct (I j Hj) as [I1 ->]. destruct (q j) eqn:Q; [rewrite ltb_true; auto|]. exfalso.
        assert (In' : In j (selected n (fun j => negb (q j)))) by (apply selected_In; rewrite Q; auto). rewrite Es in In'. destruct In'.
      + cbv zeta. set (k := first_max (gradient m n a b x) j0 l).
        assert (Ik : In k (j0 :: l)) by apply first_max_In. rewrite <- Es in Ik. apply selected_In in Ik. destruct Ik as [Hk Qk]. apply negb_true_iff in Qk.
        unfold leb. destruct (Rle_dec (gradient m n a b x k) tol) as [G|G].
        * exists x, Tolerance. split; [reflexivity|]. intros j Hj. destruct (I j Hj) as [I1 ->]. destruct (q j) eqn:Q; [rewrite ltb_true; auto|].
          rewrite ltb_false; [reflexivity|]. rewrite <- (Gr j Hj Q). eapply Rle_trans; [|exact G].
          assert (In' : In j (j0 :: l)) by (rewrite <- Es; apply selected_In; rewrite Q; auto).
          destruct (first_max_ge (gradient m n a b x) l j0) as [G1 G2]. destruct In' as [<-|In']; [exact G1|apply G2; exact In'].
        * rewrite (Gr k Hk Qk) in G. apply Rnot_le_lt in G.
          set (q1 := fun j => if (j =? k)%nat then true else q j).
          assert (Q1 : forall j, (j < n)%nat -> q1 j = true -> tol < c j).
          { intros j Hj. unfold q1. destruct (Nat.eqb_spec j k) as [->|_]; [intros _; exact G|apply I; exact Hj]. }
          destruct (orthogonal_inner fuel q1 x Hf) as (x1 & E1 & X1).
          { intros j Hj Q. pose proof (Q1 j Hj Q). lra. }
          rewrite E1. cbn [bind fst snd]. apply IH.
          { intros j Hj. split; [apply Q1; exact Hj|apply X1; exact Hj]. }
          (* one variable less *)
          assert (Cn : forall N, (N <= n)%nat -> (length (selected N (fun j => negb (q1 j) && ltb tol (c j))) + (if (k <? N)%nat then 1 else 0) =
            length (selected N (fun j => negb (q j) && ltb tol (c j))))%nat).
          { induction N as [|N IHN]; intro HN; [reflexivity|]. rewrite !selected_S, !app_length, <- (IHN ltac:(lia)). unfold q1 at 2.
            destruct (Nat.eqb_spec N k) as [->|Nk].
            - rewrite Qk, (ltb_true tol (c k) G). cbn [negb andb]. rewrite Nat.ltb_irrefl. replace (k <? S k)%nat with true by (symmetry; apply Nat.ltb_lt; lia). cbn [length]. lia.
            - replace (k <? S N)%nat with (k <? N)%nat; [lia|]. destruct (Nat.ltb_spec k N), (Nat.ltb_spec k (S N)); auto; lia. }
          specialize (Cn n ltac:(lia)). replace (k <? n)%nat with true in Cn by (symmetry; apply Nat.ltb_lt; exact Hk). lia.
  Qed.

  Theorem nnls_orthogonal fuel tol maxiter : (1 <= fuel)%nat -> 0 <= tol -> match maxiter with Some k => (n <= k)%nat | None => True end ->
    exists x e, nnls solve fuel [m; n] [m] a b tol maxiter = Ok (x, e) /\
      forall j, (j < n)%nat -> x j = if Rlt_dec tol (rsum m (fun i => b i * a i j)) then rsum m (fun i => b i * a i j) / rsum m (fun i => a i j * a i j) else 0.
  Proof.
    intros Hf Ht Hm. unfold nnls. rewrite Nat.eqb_refl.
    destruct (orthogonal_outer (match maxiter with Some k => k | None => 3 * n end) fuel tol (fun _ => false) (fun _ => 0) Hf Ht) as (x & e & E & X).
    - intros j Hj. split; [discriminate|reflexivity].
    - eapply Nat.le_trans; [apply selected_length|]. destruct maxiter; lia.
    - exists x, e. split; [exact E|]. intros j Hj. rewrite (X j Hj). unfold ltb, c, d. destruct (Rlt_dec tol _); reflexivity.
  Qed.
End Orthogonal.
Print Assumptions nnls_orthogonal.

(** For instance for columns (1, 2) and (-2, 1). *)
Example nnls_orthogonal_example : exists x e, nnls cramer 1 [2; 2]%nat [2%nat] (rows [[1; -2]; [2; 1]]) (vector [3; 1]) 0 None = Ok (x, e) /\
  x 0%nat = 1 /\ x 1%nat = 0.
Proof.
  destruct (nnls_orthogonal cramer 2 2 (rows [[1; -2]; [2; 1]]) (vector [3; 1])) with (fuel := 1%nat) (tol := 0) (maxiter := @None nat) as (x & e & E & X).
  - intros K HK. split; [apply cramer_correct|apply cramer_successful; lia].
  - intros [|[|j]] [|[|k]] Hj Hk N; try lia; cbn; lra.
  - intros [|[|j]] Hj; try lia; cbn; lra.
  - lia.
  - lra.
  - exact I.
  - exists x, e. split; [exact E|]. rewrite (X 0%nat), (X 1%nat) by lia. unfold rows, vector. cbn.
    destruct (Rlt_dec 0 (0 + 3 * 1 + 1 * 2)) as [_|K]; [|lra]. destruct (Rlt_dec 0 (0 + 3 * -2 + 1 * 1)) as [K|_]; [lra|]. split; [field|reflexivity].
Qed.
