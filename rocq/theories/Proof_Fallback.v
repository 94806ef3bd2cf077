From Coq Require Import String.
From Verif Require Import Base Model_Arrays Spec_Fallback Proof_Arrays.
Open Scope string_scope.
Open Scope list_scope.
Open Scope nat_scope.

Section Fallback.
  Context {B D A : Type}.
  Notation val := (val B D A).

  Lemma converted_list (conv : B -> B) (f : val -> val) l i p :
    Forall (fun v => converted conv v (f v)) l ->
    match (match nth_error l i with Some w => reach p w | None => None end),
          (match nth_error (map f l) i with Some w => reach p w | None => None end) with
    | Some a, Some b => node_converted conv a b
    | None, None => True
    | _, _ => False
    end.
  Proof.
    intro H. rewrite nth_error_map'. destruct (nth_error l i) as [w|] eqn:E; simpl; [|exact I].
    rewrite Forall_forall in H. exact (H w (nth_error_In _ _ E) p).
  Qed.

  Lemma converted_dict (conv : B -> B) (f : val -> val) (l : list (string * val)) i p :
    Forall (fun kv => converted conv (snd kv) (f (snd kv))) l ->
    match (match nth_error l i with Some (_, w) => reach p w | None => None end),
          (match nth_error (map (fun kv => (fst kv, f (snd kv))) l) i with Some (_, w) => reach p w | None => None end) with
    | Some a, Some b => node_converted conv a b
    | None, None => True
    | _, _ => False
    end.
  Proof.
    intro H. rewrite nth_error_map'. destruct (nth_error l i) as [[k w]|] eqn:E; simpl; [|exact I].
    rewrite Forall_forall in H. exact (H (k, w) (nth_error_In _ _ E) p).
  Qed.

  Lemma to_numpy_converted (np : B) (v : val) : converted (fun _ : B => np) v (to_numpy np v).
  Proof.
    induction v using val_ind2; intros [|i p]; simpl; auto.
    - rewrite map_length. reflexivity.
    - apply (converted_list _ (to_numpy np)). assumption.
    - rewrite map_length. reflexivity.
    - apply (converted_list _ (to_numpy np)). assumption.
    - rewrite map_map. apply map_ext. reflexivity.
    - apply (converted_dict _ (to_numpy np)). assumption.
  Qed.

  Lemma convert_back_converted (beq : B -> B -> bool) (np xp : B) (v : val) :
    converted (fun b => if beq b np then xp else b) v (convert_back beq np xp v).
  Proof.
    induction v using val_ind2; intros [|i p]; simpl; auto.
    - destruct (beq b np); simpl; auto.
    - destruct (beq b np); exact I.
    - rewrite map_length. reflexivity.
    - apply (converted_list _ (convert_back beq np xp)). assumption.
    - rewrite map_length. reflexivity.
    - apply (converted_list _ (convert_back beq np xp)). assumption.
    - rewrite map_map. apply map_ext. reflexivity.
    - apply (converted_dict _ (convert_back beq np xp)). assumption.
  Qed.

  (** The arrays found include those reached by paths. *)
  Lemma reach_collect p : forall (v : val) b d, reach p v = Some (Arr b d) -> In b (collect v).
  Proof.
    induction p as [|i p IH]; intros v b d H.
    - injection H as ->. left. reflexivity.
    - destruct v as [b0 d0|l|l|l|l|a]; simpl in *; try discriminate.
      + destruct (nth_error l i) as [w|] eqn:E; [|discriminate]. apply in_flat_map.
        exists w. split; [exact (nth_error_In _ _ E)|exact (IH w b d H)].
      + destruct (nth_error l i) as [w|] eqn:E; [|discriminate]. apply in_flat_map.
        exists w. split; [exact (nth_error_In _ _ E)|exact (IH w b d H)].
      + destruct (nth_error l i) as [[k w]|] eqn:E; [|discriminate]. apply in_flat_map.
        exists (k, w). split; [exact (nth_error_In _ _ E)|exact (IH w b d H)].
  Qed.
End Fallback.
