From Verif Require Import Base Model_Batch Model_Rng Spec_Rng Spec_Batch Proof_Batch.

Section Rng.
  Context {S L U P : Type}.
  Variable mk : nat -> S.
  Variable poisson : S -> list L -> list nat * S.
  Variable random : S -> nat -> list U * S.
  Variable ring2ang : nat -> nat -> U -> P.
  Variable npix2nside : nat -> result nat.

  Notation loop := (positions_loop mk poisson random ring2ang npix2nside).

  Lemma positions_counts_only fuel batch s lams pos s' :
    loop fuel batch s lams = Ok (pos, s') ->
    Forall2 (fun n p => sample_positions mk random ring2ang npix2nside fuel batch n = Ok p)
      (counts_loop poisson s lams) pos.
  Proof.
    revert s pos; induction lams as [|lam lams IH]; intros s pos H; simpl in *.
    - injection H as <- <-. constructor.
    - destruct (poisson s lam) as [n s1].
      apply bind_ok in H as (b & Hb & H). apply bind_ok in H as ([bs s2] & Hr & H).
      injection H as <- <-. constructor; [exact Hb|]. apply IH. exact Hr.
  Qed.

  Lemma positions_draws fuel batch s lams pos s' :
    loop fuel batch s lams = Ok (pos, s') ->
    draws poisson s lams (counts_loop poisson s lams) s'.
  Proof.
    revert s pos; induction lams as [|lam lams IH]; intros s pos H; simpl in *.
    - injection H as <- <-. constructor.
    - destruct (poisson s lam) as [n s1] eqn:E.
      apply bind_ok in H as (b & Hb & H). apply bind_ok in H as ([bs s2] & Hr & H).
      injection H as <- <-. econstructor; [exact E|]. eapply IH, Hr.
  Qed.

  Lemma randang_placed nside ipix :
    (forall s n, length (fst (random s n)) = n) ->
    placed (ring2ang nside) ipix (fst (random (mk 42) (length ipix)))
      (randang mk random ring2ang nside ipix).
  Proof.
    intro H. unfold randang, placed. split.
    - rewrite map_length, combine_length. change (default_rng mk None) with (mk 42).
      rewrite H. lia.
    - intros m i u Hi Hu. rewrite nth_error_map', nth_error_combine, Hi.
      change (default_rng mk None) with (mk 42). rewrite Hu. reflexivity.
  Qed.

  Lemma sample_placed fuel batch n p nside :
    (forall s n, length (fst (random s n)) = n) ->
    npix2nside (length n) = Ok nside -> 2 * length n < fuel ->
    sample_positions mk random ring2ang npix2nside fuel batch n = Ok p ->
    exists pixels, concat pixels = all_points n /\
      Forall2 (fun px b => placed (ring2ang nside) px (fst (random (mk 42) (length px))) b) pixels p.
  Proof.
    intros Hr Hn Hf H. unfold sample_positions in H. apply bind_ok in H as (bs & Hb & H).
    destruct (sample_terminates npix2nside nside batch n Hn) as (bs' & E' & Hc & _).
    rewrite (E' fuel Hf) in Hb. injection Hb as <-.
    destruct (list_sum n =? 0) eqn:Z.
    - injection H as <-. exists []. split; [|constructor].
      simpl. symmetry. apply length_zero_iff_nil. unfold all_points.
      rewrite pixels_from_length. apply Nat.eqb_eq in Z. exact Z.
    - rewrite Hn in H. cbn [bind] in H. injection H as <-. exists bs'. split; [exact Hc|].
      clear -Hr. induction bs' as [|b bs IH]; simpl; constructor; [|exact IH].
      apply randang_placed, Hr.
  Qed.
End Rng.
