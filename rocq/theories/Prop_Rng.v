(** Theorems about default random generators (C58). *)
From Verif Require Import Base Model_Batch Spec_Batch Model_Rng Spec_Rng Proof_Batch Proof_Rng.

(** C58: whatever generators the user passes (or none), and whatever external sampler:
    two populations, of one call or of two calls, whose sampled counts agree get
    exactly the same positions, batch by batch. *)
Theorem equal_counts_equal_positions {S L U P} (mk : nat -> S) poisson random ring2ang npix2nside
    fuel batch (rng rng' : option S) (lams lams' : list (list L))
    (pos pos' : list (list (list P))) s s' k k' n :
  positions_from_lams (U:=U) mk poisson random ring2ang npix2nside fuel batch rng lams = Ok (pos, s) ->
  positions_from_lams mk poisson random ring2ang npix2nside fuel batch rng' lams' = Ok (pos', s') ->
  nth_error (counts_loop poisson (generator mk rng) lams) k = Some n ->
  nth_error (counts_loop poisson (generator mk rng') lams') k' = Some n ->
  nth_error pos k <> None /\ nth_error pos k = nth_error pos' k'.
Proof.
  intros H H' Hn Hn'.
  apply positions_counts_only in H. apply positions_counts_only in H'.
  assert (F : forall (A B : Type) (R : A -> B -> Prop) l l' i x, Forall2 R l l' ->
      nth_error l i = Some x -> exists y, nth_error l' i = Some y /\ R x y).
  { clear. intros A B R l l' i x F; revert i; induction F; intros [|i] E; simpl in *;
      try discriminate; [injection E as <-; eauto|auto]. }
  destruct (F _ _ _ _ _ _ _ H Hn) as (y & Ey & Ry).
  destruct (F _ _ _ _ _ _ _ H' Hn') as (y' & Ey' & Ry').
  rewrite Ey, Ey'. split; [discriminate|]. congruence.
Qed.
Print Assumptions equal_counts_equal_positions.

(** Which generator feeds what: the counts are drawn, population after population, from
    the generator passed in (seed 42 when there is none) and only they advance it; the
    offsets of every single batch are the first numbers of a new stream of seed 42. *)
Theorem positions_sources {S L U P} (mk : nat -> S) poisson random ring2ang npix2nside
    nside npix fuel batch (rng : option S) (lams : list (list L)) (pos : list (list (list P))) s :
  (forall s n, length (fst (random s n)) = n) ->
  (forall s lam, In lam lams -> length (fst (poisson s lam)) = npix) ->
  npix2nside npix = Ok nside -> 2 * npix < fuel ->
  positions_from_lams (U:=U) mk poisson random ring2ang npix2nside fuel batch rng lams = Ok (pos, s) ->
  exists counts,
    draws poisson (match rng with Some s0 => s0 | None => mk 42 end) lams counts s /\
    Forall2 (fun n p => exists pixels, concat pixels = all_points n /\
      Forall2 (fun px b => placed (ring2ang nside) px (fst (random (mk 42) (length px))) b) pixels p)
      counts pos.
Proof.
  intros Hr Hp Hn Hf H. exists (counts_loop poisson (generator mk rng) lams). split.
  - exact (positions_draws mk poisson random ring2ang npix2nside _ _ _ _ _ _ H).
  - apply positions_counts_only in H.
    assert (E : Forall (fun n => length n = npix) (counts_loop poisson (generator mk rng) lams)).
    { clear H. generalize (generator mk rng). clear -Hp.
      induction lams as [|lam lams IH]; intro s0; simpl; [constructor|].
      pose proof (Hp s0 lam (or_introl eq_refl)) as H0. destruct (poisson s0 lam) as [n s1]. simpl in H0.
      constructor; [exact H0|]. apply IH. intros. apply Hp. right. assumption. }
    revert E. induction H as [|n p ns ps Hs _ IH]; intro E; constructor.
    + inversion E as [|? ? En _]; subst. eapply sample_placed; eauto.
    + inversion E; subst. auto.
Qed.
Print Assumptions positions_sources.

(** A call without [rng] is a call with a generator seeded by 42: a program that makes
    several such calls repeats the first one, whatever other draws happen in between. *)
Theorem default_positions_repeat {S L U P} (mk : nat -> S) poisson random ring2ang npix2nside
    fuel batch (calls : list (list (list L))) (lams : list (list L)) i j :
  nth_error calls i = Some lams -> nth_error calls j = Some lams ->
  let run := map (positions_from_lams (U:=U) (P:=P) mk poisson random ring2ang npix2nside fuel batch None) calls in
  nth_error run i = nth_error run j /\
  nth_error run i = Some (positions_from_lams mk poisson random ring2ang npix2nside fuel batch
                            (Some (mk 42)) lams).
Proof. intros Hi Hj run. unfold run. rewrite !nth_error_map', Hi, Hj. split; reflexivity. Qed.
Print Assumptions default_positions_repeat.

(** The offsets used in a batch depend on its length only: the [m]-th point of any two
    batches of the same length in the same pixel is the same point of the sphere. *)
Theorem randang_same_offsets {S U P} (mk : nat -> S) (random : S -> nat -> list U * S)
    (ring2ang : nat -> nat -> U -> P) nside ipix ipix' m i :
  length ipix = length ipix' -> nth_error ipix m = Some i -> nth_error ipix' m = Some i ->
  nth_error (randang mk random ring2ang nside ipix) m =
  nth_error (randang mk random ring2ang nside ipix') m.
Proof.
  intros Hl H H'. unfold randang. rewrite Hl. rewrite !nth_error_map', !nth_error_combine, H, H'.
  reflexivity.
Qed.
Print Assumptions randang_same_offsets.

(** The expected property, that a call with several populations places its points with
    fresh random numbers, is false: with a counting generator whose draws never repeat
    within a stream, two populations share all positions. *)
Definition tick_poisson (s : nat) (lam : list nat) : list nat * nat := (lam, s + length lam).
Definition tick_random (s n : nat) : list nat * nat := (seq s n, s + n).

Theorem fresh_positions_refuted :
  exists (lams : list (list nat)) a b s,
    positions_from_lams (fun seed => seed) tick_poisson tick_random (fun _ i u => (i, u))
      (fun _ => Ok 1) 25 100 (Some 1000) lams = Ok ([[a]; [b]], s) /\
    length a = 5 /\ a = b.
Proof.
  exists [[2; 0; 3; 0; 0; 0; 0; 0; 0; 0; 0; 0]; [2; 0; 3; 0; 0; 0; 0; 0; 0; 0; 0; 0]].
  do 3 eexists. split; [reflexivity|]. split; reflexivity.
Qed.
Print Assumptions fresh_positions_refuted.

(** Two populations in three batches: the counts come from the state passed in, every
    batch restarts the offsets at 42, and the state returned has advanced by the two draws. *)
Example positions_sources_example :
  positions_from_lams (fun seed => seed)
    (fun s lam => (map (fun x => x * (1 + s mod 2)) lam, s + length lam + 1))
    tick_random (fun _ i u => (i, u)) (fun _ => Ok 1) 25 2 (Some 1000)
    [[2; 0; 1; 0; 0; 0; 0; 0; 0; 0; 0; 0]; [1; 0; 0; 0; 0; 0; 0; 0; 0; 0; 0; 0]] =
  Ok ([[[(0, 42); (0, 43)]; [(2, 42)]]; [[(0, 42); (0, 43)]]], 1026).
Proof. reflexivity. Qed.
