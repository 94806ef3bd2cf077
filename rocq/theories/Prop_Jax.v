(** Theorems about the JAX random key handling (C57). *)
From Verif Require Import Base Model_Jax Spec_Jax Proof_Jax.

(** C57: for all programs of all threads and every interleaving, the keys used by
    samplers, handed out by [split] and held by all generators (the first one and all
    spawned ones) are pairwise different and none was derived from another. *)
Theorem jax_keys_independent seed progs schedule :
  let c := run true (start seed progs) schedule in
  independent (map gkey (gens c) ++ used c).
Proof. exact (run_independent seed progs schedule). Qed.
Print Assumptions jax_keys_independent.

Theorem jax_keys_never_reused seed progs schedule :
  NoDup (used (run true (start seed progs) schedule)).
Proof.
  pose proof (run_independent seed progs schedule) as H. cbv zeta in H.
  apply independent_app in H as (_ & H & _). apply independent_NoDup. exact H.
Qed.
Print Assumptions jax_keys_never_reused.

(** No step is lost: a key is used for every completed draw, [p] are handed out by a
    completed split and [c] generators created by a completed spawn. *)
Theorem jax_use_key_counts o k :
  let '(k', out, children) := use_key o k in
  length out = match o with Draw _ => 1 | Split _ p => p | Spawn _ _ => 0 end /\
  length children = match o with Spawn _ c => c | _ => 0 end /\
  ~ In k (k' :: out ++ children).
Proof.
  destruct (use_key_split o k) as [n Hn].
  destruct (use_key o k) as [[k' out] ch] eqn:E.
  split; [|split].
  - destruct o; simpl in E; [| |rewrite Nat.add_1_r in E]; injection E as <- <- <-; try reflexivity;
      rewrite map_length, seq_length; reflexivity.
  - destruct o; unfold use_key, jax_split in E; simpl in E; [| |rewrite Nat.add_1_r in E; simpl in E];
      injection E as <- <- <-; try reflexivity; rewrite map_length, seq_length; reflexivity.
  - rewrite <- Hn. unfold jax_split. rewrite in_map_iff. intros (i & H & _).
    assert (Hl : length (i :: k) = length k) by congruence. simpl in Hl. lia.
Qed.
Print Assumptions jax_use_key_counts.

(** Two threads, a spawned child used by the second thread. *)
Example jax_example :
  let c := run true (start [] [[Draw 0; Spawn 0 1; Draw 0]; [Draw 0; Draw 1; Split 1 2]])
             [0; 1; 0; 1; 0; 1; 1; 0; 1; 0; 0; 0; 0; 0; 0; 1; 1; 1; 1; 1; 1; 0; 0; 1; 0; 0; 0; 1; 1; 1; 1; 1; 1] in
  used c = [[1]; [1; 0]; [1; 0; 0; 0]; [1; 1; 0; 0]; [1; 0; 1; 0; 0]; [2; 0; 1; 0; 0]] /\
  map gkey (gens c) = [[0; 0; 0; 0]; [0; 0; 1; 0; 0]] /\ forallb (fun t => match prog t with [] => true | _ => false end) (threads c) = true.
Proof. repeat split. Qed.

(** A method call that is not interrupted: it acts on the generator it is called on and no other, which goes on with the
    first of the new keys; the further keys are used or handed out in order, or become the generators spawned. *)
Theorem jax_method_call c t o rest k :
  let g := match o with Draw g => g | Split g _ => g | Spawn g _ => g end in
  nth_error (threads c) t = Some {| prog := o :: rest; ph := Idle |} ->
  nth_error (gens c) g = Some {| gkey := k; gowner := None |} ->
  let c' := run true c [t; t; t] in
  nth_error (threads c') t = Some {| prog := rest; ph := Idle |} /\
  (forall u, u <> t -> nth_error (threads c') u = nth_error (threads c) u) /\
  nth_error (gens c') g = Some {| gkey := 0 :: k; gowner := None |} /\
  (forall h, h < length (gens c) -> h <> g -> nth_error (gens c') h = nth_error (gens c) h) /\
  match o with
  | Draw _ => used c' = used c ++ [1 :: k] /\ length (gens c') = length (gens c)
  | Split _ p => used c' = used c ++ map (fun i => i :: k) (seq 1 p) /\ length (gens c') = length (gens c)
  | Spawn _ n => used c' = used c /\ length (gens c') = length (gens c) + n /\
      forall i, i < n -> nth_error (gens c') (length (gens c) + i) = Some {| gkey := S i :: k; gowner := None |}
  end.
Proof.
  intros g Ht Hg. cbv zeta. replace g with (op_gen o) in * by (destruct o; reflexivity). clear g.
  assert (Lt : t < length (threads c)) by (apply nth_error_Some; rewrite Ht; discriminate).
  assert (Lg : op_gen o < length (gens c)) by (apply nth_error_Some; rewrite Hg; discriminate).
  set (gs := gens c) in *. set (ts := threads c) in *.
  set (c1 := {| gens := set_nth gs (op_gen o) {| gkey := k; gowner := Some t |};
                threads := set_nth ts t {| prog := o :: rest; ph := Entered |}; used := used c |}).
  assert (S1 : step true c t = c1) by (unfold step; fold gs ts; rewrite Ht; cbn [prog ph]; rewrite Hg; reflexivity).
  set (c2 := {| gens := gens c1; threads := set_nth (threads c1) t {| prog := o :: rest; ph := HasRead k |}; used := used c |}).
  assert (G1 : nth_error (gens c1) (op_gen o) = Some {| gkey := k; gowner := Some t |}).
  { unfold c1; cbn [gens]. rewrite nth_set_nth, Nat.eqb_refl. apply Nat.ltb_lt in Lg. rewrite Lg. reflexivity. }
  assert (T1 : nth_error (threads c1) t = Some {| prog := o :: rest; ph := Entered |}).
  { unfold c1; cbn [threads]. rewrite nth_set_nth, Nat.eqb_refl. apply Nat.ltb_lt in Lt. rewrite Lt. reflexivity. }
  assert (S2 : step true c1 t = c2) by (unfold step; rewrite T1; cbn [prog ph]; rewrite G1; reflexivity).
  assert (T2 : nth_error (threads c2) t = Some {| prog := o :: rest; ph := HasRead k |}).
  { unfold c2, c1; cbn [threads]. rewrite nth_set_nth, Nat.eqb_refl, set_nth_length. apply Nat.ltb_lt in Lt. rewrite Lt. reflexivity. }
  unfold run. cbn [fold_left]. rewrite S1, S2. unfold step. rewrite T2. cbn [prog ph]. change (gens c2) with (gens c1). rewrite G1.
  assert (U : exists out ch, use_key o k = (0 :: k, out, ch) /\
    out = match o with Draw _ => [1 :: k] | Split _ p => map (fun i => i :: k) (seq 1 p) | Spawn _ _ => [] end /\
    ch = match o with Spawn _ n => map (fun i => i :: k) (seq 1 n) | _ => [] end).
  { destruct o as [g|g p|g n]; do 2 eexists; (split; [unfold use_key, jax_split|split; reflexivity]).
    - reflexivity.
    - reflexivity.
    - rewrite Nat.add_1_r. reflexivity. }
  destruct U as (out & ch & -> & Eo & Ec). cbn [gens threads used].
  assert (Lg1 : op_gen o < length (gens c1)) by (unfold c1; cbn [gens]; rewrite set_nth_length; exact Lg).
  assert (L1 : length (gens c1) = length gs) by (unfold c1; cbn [gens]; apply set_nth_length).
  assert (F : forall x y, nth_error (set_nth (gens c1) (op_gen o) x ++ y) (op_gen o) = Some x).
  { intros x y. rewrite nth_error_app1 by (rewrite set_nth_length; exact Lg1). rewrite nth_set_nth, Nat.eqb_refl.
    apply Nat.ltb_lt in Lg1. rewrite Lg1. reflexivity. }
  split; [|split; [|split; [apply F|split]]].
  - unfold c2, c1; cbn [threads]. rewrite nth_set_nth, Nat.eqb_refl, !set_nth_length. apply Nat.ltb_lt in Lt. rewrite Lt. reflexivity.
  - intros u Nu. unfold c2, c1; cbn [threads]. rewrite !nth_set_nth. replace (t =? u) with false by (symmetry; apply Nat.eqb_neq; lia). reflexivity.
  - intros h Lh Nh. rewrite nth_error_app1 by (rewrite set_nth_length; lia). rewrite nth_set_nth. unfold c1; cbn [gens]. rewrite nth_set_nth.
    replace (op_gen o =? h) with false by (symmetry; apply Nat.eqb_neq; lia). reflexivity.
  - destruct o as [g|g p|g n]; subst out ch; cbn [map]; rewrite ?app_nil_r, ?app_length, ?map_length, ?seq_length, set_nth_length, L1.
    + split; reflexivity.
    + split; reflexivity.
    + split; [reflexivity|]. split; [reflexivity|]. intros i Hi. rewrite nth_error_app2 by (rewrite set_nth_length, L1; lia).
      rewrite set_nth_length, L1. replace (length gs + i - length gs) with i by lia.
      rewrite map_map. erewrite map_nth_error; [reflexivity|]. rewrite (nth_error_nth' _ 0) by (rewrite seq_length; exact Hi).
      rewrite seq_nth by exact Hi. reflexivity.
Qed.
Print Assumptions jax_method_call.

(** The second of two generators spawns two more, the first is not touched. *)
Example jax_method_example :
  run true {| gens := [{| gkey := [7]; gowner := None |}; {| gkey := [8]; gowner := None |}];
              threads := [{| prog := [Spawn 1 2; Draw 0]; ph := Idle |}]; used := [[9]] |} [0; 0; 0] =
  {| gens := map (fun k => {| gkey := k; gowner := None |}) [[7]; [0; 8]; [1; 8]; [2; 8]];
     threads := [{| prog := [Draw 0]; ph := Idle |}]; used := [[9]] |}.
Proof. reflexivity. Qed.

(** Without the lock two threads can draw with the same key. *)
Theorem jax_unlocked_keys_refuted :
  exists progs schedule, ~ NoDup (used (run false (start [] progs) schedule)).
Proof.
  exists [[Draw 0]; [Draw 0]], [0; 0; 1; 1; 0; 1].
  assert (E : used (run false (start [] [[Draw 0]; [Draw 0]]) [0; 0; 1; 1; 0; 1]) = [[1]; [1]])
    by reflexivity.
  rewrite E. intro H. inversion H as [|? ? H1 H2]. apply H1. left. reflexivity.
Qed.
Print Assumptions jax_unlocked_keys_refuted.
