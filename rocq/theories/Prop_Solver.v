(** Claims about the solver for Gaussian spectra (C24, C25).  In all theorems [fuel] bounds the number of times that a
    step is made smaller; nothing is claimed when it runs out. *)
From Coq Require Import Reals Lra Lia ZArith List Bool.
From Verif Require Import Base Model_Numeric Proof_Numeric Model_Transform Spec_Transform Proof_Solver Prop_Transform.
Import ListNotations.
Local Open Scope R_scope.

Section Solver.
  (** Any pair of transforms that keeps the number of entries. *)
  Variables cltocorr corrtocl : list R -> list R.
  Hypothesis cltocorr_length : forall x, length (cltocorr x) = length x.
  Hypothesis corrtocl_length : forall x, length (corrtocl x) = length x.
  Variables t1 t2 : transformation.
  Variables (fuel : nat) (cl : list num) (pad : Z) (initial : option (list num)) (cltol gltol : R) (monopole : option R).
  Let run (maxiter : nat) := solve cltocorr corrtocl t1 t2 fuel cl pad initial cltol gltol maxiter monopole.
  Let free := match monopole with Some _ => true | None => false end.

  Lemma run_iterate k out : run k = Ok out -> (0 <= pad)%Z /\ exists gl0 r0,
    state_ok cltocorr corrtocl t1 t2 cl (Z.to_nat pad) monopole gl0 r0 /\
    (forall k', run k' = iterate cltocorr corrtocl t1 t2 k' fuel cl gl0 r0 (Z.to_nat pad) monopole cltol gltol false) /\
    exists g, match initial with
              | Some g0 => g = firstn (length cl) g0 ++ repeat (Some 0) (length cl - length g0)
              | None => compute cltocorr corrtocl t1 t2 cl = Ok g
              end /\ match monopole with Some m => set_first g (Some m) = Ok gl0 | None => gl0 = g end.
  Proof.
    unfold run, solve. intro H. destruct (Z.ltb_spec pad 0) as [N|N]; [discriminate|]. split; [lia|].
    apply bind_ok in H. destruct H as (g & Hg & H). apply bind_ok in H. destruct H as (gl0 & Hgl & H).
    apply bind_ok in H. destruct H as (r & Hr & _). exists gl0, r. split; [|split].
    - assert (L : length g = length cl).
      { destruct initial as [g0|].
        - injection Hg as <-. rewrite app_length, firstn_length, repeat_length. lia.
        - unfold compute in Hg. apply bind_ok in Hg. destruct Hg as (f & _ & Hg). injection Hg as <-.
          rewrite length_lifted by exact corrtocl_length. unfold apply. rewrite map_length. apply length_lifted. exact cltocorr_length. }
      split; [exact Hr|]. destruct monopole as [m|].
      + apply set_first_ok in Hgl. destruct Hgl as (-> & F & _). split; [exact L|]. intros m' [= <-]. exact F.
      + injection Hgl as <-. split; [exact L|discriminate].
    - intro k'. rewrite Hg. cbn [bind]. rewrite Hgl. cbn [bind]. rewrite Hr. reflexivity.
    - exists g. split; [destruct initial; [injection Hg as <-; reflexivity|exact Hg]|].
      destruct monopole; [exact Hgl|injection Hgl as <-; reflexivity].
  Qed.

  Lemma run_state k gl rl i1 i2 : run k = Ok (gl, rl, (i1, i2)) -> exists r,
    state_ok cltocorr corrtocl t1 t2 cl (Z.to_nat pad) monopole gl r /\ rl = rl_of r /\
    (i1 = true -> err_le (err_of r) (Fin cltol) = true).
  Proof.
    intro H. destruct (run_iterate k _ H) as (_ & gl0 & r0 & Hs & Hi & _). rewrite Hi in H. destruct k as [|k].
    - destruct r0 as [[[gt0 rl0] fl0] e0] eqn:E. injection H as <- <- <- <-. exists (gt0, rl0, fl0, e0). split; [exact Hs|].
      split; [reflexivity|discriminate].
    - destruct (iterate_last _ _ cltocorr_length corrtocl_length _ _ _ _ _ k fuel gl0 r0 cltol gltol false _ Hs H)
        as (gl1 & r1 & i11 & i21 & A & B & C & D). destruct i11.
      + injection D as -> -> -> ->. exists r1. split; [exact B|]. split; [reflexivity|exact C].
      + destruct (iterate_one _ _ cltocorr_length corrtocl_length _ _ _ _ _ fuel gl1 r1 cltol gltol i21 _ _ _ _ B D)
          as [(-> & -> & -> & -> & _)|(_ & _ & -> & r' & x & e & S' & -> & _)].
        * exists r1. auto.
        * exists r'. split; [exact S'|]. split; [reflexivity|discriminate].
  Qed.

  (** C24 *)
  (** The result has the length of the target, the monopole as given, and its realised spectrum is the transform of
      the solution.  If convergence in the spectrum is reported, the realised spectrum agrees with the target to
      the tolerance. *)
  Theorem solve_sound k gl rl i1 i2 : run k = Ok (gl, rl, (i1, i2)) ->
    length gl = length cl /\ length rl = (length cl + Z.to_nat pad)%nat /\
    (forall m, monopole = Some m -> nth_error gl 0 = Some (Some m)) /\
    (forall c g, corr t1 t2 = Ok (fun x => Some (c x)) -> gl = map Some g ->
       rl = map Some (realised cltocorr corrtocl c g (Z.to_nat pad))) /\
    (i1 = true -> agrees free cl rl cltol).
  Proof.
    intro H. destruct (run_state k _ _ _ _ H) as (r & S' & -> & I1). destruct S' as (Hr & Hg & Hm).
    destruct (evaluate_lengths _ _ cltocorr_length corrtocl_length _ _ _ _ _ _ _ Hg Hr) as (L & _).
    split; [exact Hg|]. split; [exact L|]. split; [exact Hm|]. split.
    - intros c g Hc Eg. exact (evaluate_realised _ _ _ _ _ _ _ _ _ _ _ Hc Hr Eg).
    - intro K. specialize (I1 K).
      pose proof (evaluate_pos _ _ cltocorr_length corrtocl_length _ _ _ _ _ _ _ _ Hg Hr I1) as P.
      apply (evaluate_agrees _ _ cltocorr_length corrtocl_length _ _ _ _ _ _ _ _ P Hg Hr) in I1. exact I1.
  Qed.

  (** The first guess: what is given, cut or filled with zeros, or what is computed, with the given monopole. *)
  Theorem solve_start gl rl info : run 0 = Ok (gl, rl, info) -> info = (false, false) /\
    forall i, (i < length cl)%nat -> nth_error gl i =
      match monopole, i with
      | Some m, O => Some (Some m)
      | _, _ => match initial with
                | Some g => Some (nth i g (Some 0))
                | None => match compute cltocorr corrtocl t1 t2 cl with Ok g => nth_error g i | Err _ => None end
                end
      end.
  Proof.
    intro H. destruct (run_iterate 0 _ H) as (_ & gl0 & r0 & Hs & Hi & g & Hg & Hm). rewrite Hi in H.
    destruct r0 as [[[gt0 rl0] fl0] e0]. injection H as <- <- <-. split; [reflexivity|].
    intros i Lt.
    assert (G : nth_error g i = match initial with
                | Some g => Some (nth i g (Some 0))
                | None => match compute cltocorr corrtocl t1 t2 cl with Ok g => nth_error g i | Err _ => None end
                end).
    { destruct initial as [g0|]; [|rewrite Hg; reflexivity]. rewrite Hg, nth_error_app, firstn_length.
      destruct (Nat.ltb_spec i (Nat.min (length cl) (length g0))) as [B|B].
      - rewrite nth_error_firstn. destruct (Nat.ltb_spec i (length cl)); [|lia]. apply nth_error_nth'. lia.
      - rewrite nth_overflow by lia. rewrite nth_error_repeat by lia. reflexivity. }
    destruct monopole as [m|]; [|subst g; exact G].
    apply set_first_ok in Hm. destruct Hm as (_ & F0 & F1). destruct i; [exact F0|]. rewrite F1. exact G.
  Qed.

  (** Further iterations never increase the error. *)
  Theorem solve_monotone k j gl rl info : run (k + j) = Ok (gl, rl, info) -> exists gl0 rl0 info0,
    run k = Ok (gl0, rl0, info0) /\ forall e, 0 <= e -> agrees free cl rl0 e -> agrees free cl rl e.
  Proof.
    revert gl rl info. induction j as [|j IH]; intros gl rl info H.
    - rewrite Nat.add_0_r in H. exists gl, rl, info. split; [exact H|auto].
    - rewrite Nat.add_succ_r in H. destruct info as [i1 i2].
      destruct (run_iterate _ _ H) as (_ & gl0 & r0 & Hs & Hi & _). rewrite Hi in H.
      destruct (iterate_last _ _ cltocorr_length corrtocl_length _ _ _ _ _ (k + j) fuel gl0 r0 cltol gltol false _ Hs H)
        as (gl1 & r1 & i11 & i21 & A & B & C & D).
      rewrite <- Hi in A. destruct (IH _ _ _ A) as (gk & rk & ik & Ek & Mk). exists gk, rk, ik. split; [exact Ek|].
      intros e He Ha. specialize (Mk e He Ha). destruct i11; [injection D as -> -> _; exact Mk|].
      destruct (iterate_one _ _ cltocorr_length corrtocl_length _ _ _ _ _ fuel gl1 r1 cltol gltol i21 _ _ _ _ B D)
        as [(-> & -> & -> & -> & _)|(_ & _ & -> & r' & x & er & S' & -> & Le & _)]; [exact Mk|].
      destruct B as (Hr & Hg & _), S' as (Hr' & Hg' & _).
      apply (evaluate_agrees _ _ cltocorr_length corrtocl_length _ _ _ _ _ _ _ _ He Hg Hr) in Mk.
      apply (evaluate_agrees _ _ cltocorr_length corrtocl_length _ _ _ _ _ _ _ _ He Hg' Hr').
      exact (err_le_trans _ _ _ Le Mk).
  Qed.

  (** If convergence of the solution is reported, then it changed by no more than the tolerance in the last
      iteration that was made. *)
  Theorem solve_step k gl rl i1 : run k = Ok (gl, rl, (i1, true)) -> exists j g rl0,
    (j < k)%nat /\ run j = Ok (g, rl0, (false, false)) /\
    forall i, (i < length cl)%nat -> exists a b, nth_error g i = Some (Some a) /\ nth_error gl i = Some (Some b) /\
      Rabs (b - a) <= gltol * Rabs a.
  Proof.
    revert gl rl i1. induction k as [|k IH]; intros gl rl i1 H.
    - destruct (run_iterate _ _ H) as (_ & gl0 & r0 & Hs & Hi & _). rewrite Hi in H.
      destruct r0 as [[[gt0 rl0] fl0] e0]. discriminate.
    - destruct (run_iterate _ _ H) as (_ & gl0 & r0 & Hs & Hi & _). rewrite Hi in H.
      destruct (iterate_last _ _ cltocorr_length corrtocl_length _ _ _ _ _ k fuel gl0 r0 cltol gltol false _ Hs H)
        as (gl1 & r1 & i11 & i21 & A & B & C & D).
      rewrite <- Hi in A.
      assert (Keep : i21 = true -> gl = gl1 -> exists j g rl0, (j < S k)%nat /\ run j = Ok (g, rl0, (false, false)) /\
        forall i, (i < length cl)%nat -> exists a b, nth_error g i = Some (Some a) /\ nth_error gl i = Some (Some b) /\
          Rabs (b - a) <= gltol * Rabs a).
      { intros -> ->. destruct (IH _ _ _ A) as (j & g & rl0 & Hj & R). exists j, g, rl0. split; [lia|exact R]. }
      destruct i11; [injection D as E1 _ _ E2; apply Keep; congruence|].
      destruct (iterate_one _ _ cltocorr_length corrtocl_length _ _ _ _ _ fuel gl1 r1 cltol gltol i21 _ _ _ _ B D)
        as [(_ & E2 & E1 & _)|(_ & E0 & _ & r' & x & er & S' & _ & Le' & Eg & Lx & Er & E2)]; [apply Keep; congruence|].
      subst i21. exists k, gl1, (rl_of r1). split; [lia|]. split; [exact A|]. intros i Lt.
      destruct B as (_ & Lg & _). symmetry in E2.
      assert (Lxg : length x = length gl1) by lia.
      pose proof (relerr_le_pos _ _ _ _ Lxg Er E2) as P.
      pose proof (proj1 (relerr_le _ _ _ _ P Lxg Er) E2 i) as W.
      destruct (nth_error gl1 i) as [a|] eqn:Ea; [|apply nth_error_None in Ea; lia].
      destruct (nth_error x i) as [d|] eqn:Ed; [|apply nth_error_None in Ed; lia].
      specialize (W d a eq_refl eq_refl). destruct S' as (S0 & S1 & S2).
      assert (Fin0 : exists a' d', a = Some a' /\ d = Some d' /\ Rabs d' <= gltol * Rabs a' \/ a = None).
      { destruct a as [a|]; [|exists 0, 0; right; reflexivity]. destruct d as [d|]; [|contradiction]. exists a, d. left. auto. }
      destruct Fin0 as (a' & d' & [(Qa & Qd & W')|Qa]); [subst a d|subst a].
      + exists a', (a' + d'). split; [reflexivity|]. rewrite Eg. unfold add. rewrite nth_zip, Ea, Ed. split; [reflexivity|].
        replace (a' + d' - a') with d' by ring. exact W'.
      + exfalso. assert (K : err_of r' <> NaN) by (intro K; rewrite K in Le'; discriminate).
        destruct (evaluate_finite _ _ cltocorr_length corrtocl_length _ _ _ _ _ _ _ (conj S0 (conj S1 S2)) K) as [g' Eg'].
        assert (N : nth_error gl i = Some None) by (rewrite Eg; unfold add; rewrite nth_zip, Ea, Ed; reflexivity).
        rewrite Eg', nth_error_map' in N. destruct (nth_error g' i); discriminate.
  Qed.
  (** When the result is good enough and another iteration is allowed, this is reported, with the same result. *)
  Theorem solve_stops k gl rl i1 i2 : run k = Ok (gl, rl, (i1, i2)) -> 0 <= cltol -> agrees free cl rl cltol ->
    run (S k) = Ok (gl, rl, (true, i2)).
  Proof.
    intros H P A. destruct (run_iterate k _ H) as (_ & gl0 & r0 & Hs & Hi & _). rewrite Hi in H. rewrite Hi.
    destruct (iterate_next _ _ cltocorr_length corrtocl_length _ _ _ _ _ k fuel gl0 r0 cltol gltol false _ _ _ _ Hs H)
      as (r1 & S' & -> & E). rewrite E. destruct i1; [reflexivity|].
    destruct S' as (Hr & Hg & _).
    apply (evaluate_agrees _ _ cltocorr_length corrtocl_length _ _ _ _ _ _ _ _ P Hg Hr) in A.
    destruct r1 as [[[gt rl] fl] e]. cbn [iterate]. cbn [err_of snd] in A. rewrite A. reflexivity.
  Qed.

  (** Negative padding and pairs of fields that cannot be combined are rejected. *)
  Theorem solve_rejected k : cl <> [] ->
    ((pad < 0)%Z -> run k = Err ValueError) /\
    ((0 <= pad)%Z -> ~ supported t1 t2 -> run k = Err NotImplementedError).
  Proof.
    intro Ne. unfold run, solve. split; intro P; [destruct (Z.ltb_spec pad 0); [reflexivity|lia]|].
    intro U. destruct (Z.ltb_spec pad 0); [lia|]. destruct (proj2 (dispatch_total t1 t2) U) as (C & I & _).
    destruct initial as [g|].
    - cbn [bind]. set (g0 := firstn (length cl) g ++ repeat (Some 0) (length cl - length g)).
      assert (L : length g0 = length cl) by (unfold g0; rewrite app_length, firstn_length, repeat_length; lia). clearbody g0.
      destruct g0 as [|x g0]; [destruct cl; [contradiction|discriminate]|].
      destruct monopole; cbn [set_first bind]; unfold evaluate; rewrite C; reflexivity.
    - unfold compute. rewrite I. reflexivity.
  Qed.
End Solver.
Print Assumptions solve_sound.
Print Assumptions solve_start.
Print Assumptions solve_monotone.
Print Assumptions solve_step.
Print Assumptions solve_stops.
Print Assumptions solve_rejected.

(** Runs for a single entry, transforms that do nothing. *)
Lemma evaluate_single t1 t2 f c g : corr t1 t2 = Ok (fun x => Some (f x)) ->
  evaluate (fun x => x) (fun x => x) t1 t2 [Some c] [Some g] 0 None =
  Ok ([Some g], [Some (f g)], [Some (f g - c)],
      if Req_EM_T (f g - c) 0 then Fin 0 else if Req_EM_T c 0 then Infinite else Fin (Rabs ((f g - c) / c))).
Proof. intro H. unfold evaluate. rewrite H. reflexivity. Qed.

(** A concrete run: a lognormal and a normal field, target 4, start 0.  The first iteration finds the solution, the
    second one the convergence. *)
Example solve_example : forall k,
  solve (fun x => x) (fun x => x) (Lognormal 2) Normal 1 [Some 4] 0 (Some []) 0 1 k None =
  match k with
  | O => Ok ([Some 0], [Some 0], (false, false))
  | 1%nat => Ok ([Some 2], [Some 4], (false, false))
  | _ => Ok ([Some 2], [Some 4], (true, false))
  end.
Proof.
  intro k. assert (C : corr (Lognormal 2) Normal = Ok (fun x => Some (2 * x))) by reflexivity.
  assert (E0 : evaluate (fun x => x) (fun x => x) (Lognormal 2) Normal [Some 4] [Some 0] 0 None = Ok ([Some 0], [Some 0], [Some (-4)], Fin 1)).
  { rewrite (evaluate_single _ _ _ _ _ C). destruct (Req_EM_T (2 * 0 - 4) 0) as [K|_]; [exfalso; lra|].
    destruct (Req_EM_T 4 0) as [K|_]; [exfalso; lra|]. replace ((2 * 0 - 4) / 4) with (-1) by field.
    rewrite Rabs_left by lra. replace (2 * 0 - 4) with (-4) by ring. replace (2 * 0) with 0 by ring. replace (- -1) with 1 by ring. reflexivity. }
  assert (E1 : evaluate (fun x => x) (fun x => x) (Lognormal 2) Normal [Some 4] [Some 2] 0 None = Ok ([Some 2], [Some 4], [Some 0], Fin 0)).
  { rewrite (evaluate_single _ _ _ _ _ C). destruct (Req_EM_T (2 * 2 - 4) 0) as [_|K]; [|exfalso; lra].
    replace (2 * 2 - 4) with 0 by ring. replace (2 * 2) with 4 by ring. reflexivity. }
  unfold solve. replace ((0 <? 0)%Z) with false by reflexivity. cbn [bind length firstn app Nat.sub repeat Z.to_nat].
  rewrite E0. cbn [bind]. destruct k as [|k]; [reflexivity|]. cbn [iterate].
  assert (L1 : err_le (Fin 1) (Fin 0) = false) by (apply leb_false; lra). rewrite L1. cbn [orb].
  assert (D : dcorr (Lognormal 2) Normal = Ok (fun x => Some (2 + 0 * x))) by reflexivity. rewrite D. cbn [bind].
  assert (X : apply (fun x => Some (- x)) (firstn (length [Some 4]) (lifted (fun x => x)
    (quot (lifted (fun x => x) (padded [Some (-4)] 0)) (apply (fun x => Some (2 + 0 * x)) [Some 0])))) = [Some 2]).
  { cbn. unfold divide. destruct (Req_EM_T (2 + 0 * 0) 0) as [K|_]; [exfalso; lra|]. cbn. f_equal. f_equal. field. }
  rewrite X. cbn [halve]. assert (A : add [Some 0] [Some 2] = [Some 2]) by (cbn; rewrite Rplus_0_l; reflexivity). rewrite A, E1. cbn [bind snd].
  assert (L2 : err_le (Fin 0) (Fin 1) = true) by (apply leb_true; lra). rewrite L2.
  assert (Q : relerr [Some 2] [Some 0] = Ok Infinite).
  { cbn. destruct (Req_EM_T 2 0) as [K|_]; [exfalso; lra|]. destruct (Req_EM_T 0 0) as [_|K]; [reflexivity|exfalso; lra]. }
  cbn [bind]. rewrite Q. cbn [bind]. replace (err_le Infinite (Fin 1)) with false by reflexivity.
  destruct k as [|k]; [reflexivity|]. cbn [iterate].
  assert (L3 : err_le (Fin 0) (Fin 0) = true) by (apply leb_true; lra). rewrite L3. reflexivity.
Qed.

(** The monopole: the first entry of the target does not matter. *)
Example solve_monopole_example :
  solve (fun x => x) (fun x => x) Normal Normal 1 [Some 7; Some 4] 0 None 0 1 1 (Some 3) =
  Ok ([Some 3; Some 4], [Some 3; Some 4], (true, false)).
Proof.
  unfold solve. replace ((0 <? 0)%Z) with false by reflexivity.
  replace (compute (fun x => x) (fun x => x) Normal Normal [Some 7; Some 4]) with (Ok [Some 7; Some 4]) by reflexivity.
  cbn [bind set_first Z.to_nat].
  assert (E : evaluate (fun x => x) (fun x => x) Normal Normal [Some 7; Some 4] [Some 3; Some 4] 0 (Some 3) =
    Ok ([Some 3; Some 4], [Some 3; Some 4], [Some 0; Some 0], Fin 0)).
  { unfold evaluate. cbn. destruct (Req_EM_T 0 0) as [_|K]; [|exfalso; lra]. destruct (Req_EM_T (4 - 4) 0) as [_|K]; [|exfalso; lra].
    replace (4 - 4) with 0 by ring.
    assert (M : err_max (Fin 0) (Fin 0) = Fin 0) by (cbn; f_equal; apply Rmax_left; lra). rewrite M. reflexivity. }
  rewrite E. cbn [bind iterate]. assert (L3 : err_le (Fin 0) (Fin 0) = true) by (apply leb_true; lra). rewrite L3. reflexivity.
Qed.

(** C25 *)

(** A result that agrees with the target exactly, and is not reported as converged: no iteration is allowed. *)
Theorem solve_info_refuted : exists cltocorr corrtocl t cl gl,
  (forall x, length (cltocorr x) = length x) /\ (forall x, length (corrtocl x) = length x) /\
  forall fuel cltol gltol, 0 <= cltol ->
    solve cltocorr corrtocl t t fuel cl 0 None cltol gltol 0 None = Ok (gl, cl, (false, false)).
Proof.
  exists (fun x => x), (fun x => x), Normal, [Some 1], [Some 1]. split; [reflexivity|]. split; [reflexivity|]. reflexivity.
Qed.
Print Assumptions solve_info_refuted.

(** The same in the last iteration that is allowed, which finds the exact solution. *)
Theorem solve_last_refuted : exists cltocorr corrtocl t cl gl initial,
  (forall x, length (cltocorr x) = length x) /\ (forall x, length (corrtocl x) = length x) /\
  forall fuel cltol gltol, (1 <= fuel)%nat -> 0 <= cltol < 1 -> 0 <= gltol < 1 / 2 ->
    solve cltocorr corrtocl t t fuel cl 0 (Some initial) cltol gltol 1 None = Ok (gl, cl, (false, false)).
Proof.
  exists (fun x => x), (fun x => x), Normal, [Some 1], [Some 1], [Some 2]. split; [reflexivity|]. split; [reflexivity|].
  intros fuel cltol gltol F C G. destruct fuel as [|fuel]; [lia|].
  assert (Cn : corr Normal Normal = Ok (fun x => Some x)) by reflexivity.
  assert (E0 : evaluate (fun x => x) (fun x => x) Normal Normal [Some 1] [Some 2] 0 None = Ok ([Some 2], [Some 2], [Some 1], Fin 1)).
  { rewrite (evaluate_single _ _ _ _ _ Cn). destruct (Req_EM_T (2 - 1) 0) as [K|_]; [exfalso; lra|].
    destruct (Req_EM_T 1 0) as [K|_]; [exfalso; lra|]. replace ((2 - 1) / 1) with 1 by field.
    rewrite Rabs_right by lra. replace (2 - 1) with 1 by ring. reflexivity. }
  assert (E1 : evaluate (fun x => x) (fun x => x) Normal Normal [Some 1] [Some 1] 0 None = Ok ([Some 1], [Some 1], [Some 0], Fin 0)).
  { rewrite (evaluate_single _ _ _ _ _ Cn). destruct (Req_EM_T (1 - 1) 0) as [_|K]; [|exfalso; lra].
    replace (1 - 1) with 0 by ring. reflexivity. }
  unfold solve. replace ((0 <? 0)%Z) with false by reflexivity. cbn [bind length firstn app Nat.sub repeat Z.to_nat].
  rewrite E0. cbn [bind iterate].
  assert (L1 : err_le (Fin 1) (Fin cltol) = false) by (apply leb_false; lra). rewrite L1. cbn [orb].
  assert (D : dcorr Normal Normal = Ok (fun x => Some (1 + 0 * x))) by reflexivity. rewrite D. cbn [bind].
  assert (X : apply (fun x => Some (- x)) (firstn (length [Some 1]) (lifted (fun x => x)
    (quot (lifted (fun x => x) (padded [Some 1] 0)) (apply (fun x => Some (1 + 0 * x)) [Some 2])))) = [Some (-1)]).
  { cbn. unfold divide. destruct (Req_EM_T (1 + 0 * 2) 0) as [K|_]; [exfalso; lra|]. cbn. f_equal. f_equal. field. }
  rewrite X. cbn [halve]. assert (A : add [Some 2] [Some (-1)] = [Some 1]) by (cbn; f_equal; f_equal; ring). rewrite A, E1. cbn [bind snd].
  assert (L2 : err_le (Fin 0) (Fin 1) = true) by (apply leb_true; lra). rewrite L2.
  assert (Q : relerr [Some (-1)] [Some 2] = Ok (Fin (1 / 2))).
  { cbn. destruct (Req_EM_T (-1) 0) as [K|_]; [exfalso; lra|]. destruct (Req_EM_T 2 0) as [K|_]; [exfalso; lra|].
    rewrite Rabs_left by lra. do 2 f_equal. field. }
  cbn [bind]. rewrite Q. cbn [bind]. assert (L4 : err_le (Fin (1 / 2)) (Fin gltol) = false) by (apply leb_false; lra). rewrite L4. reflexivity.
Qed.
Print Assumptions solve_last_refuted.

(** The solver does not end when the first guess cannot be computed because the target is below all that can be attained:
    there is no number of halvings of the step, however large, after which it goes on. *)
Theorem solve_unattainable cltocorr corrtocl t1 t2 fuel c pad cltol gltol maxiter monopole :
  (forall x, length (cltocorr x) = length x) -> (forall x, length (corrtocl x) = length x) ->
  proper t1 -> proper t2 -> supported t1 t2 -> Exists (unattainable t1 t2) (cltocorr c) ->
  (0 <= pad)%Z -> (1 <= maxiter)%nat -> monopole = None \/ (2 <= length c)%nat ->
  solve cltocorr corrtocl t1 t2 fuel (map Some c) pad None cltol gltol maxiter monopole = Err OutOfFuel.
Proof.
  intros L1 L2 P1 P2 Sup U Hp Hk Hm.
  destruct (proj1 (dispatch_total t1 t2) Sup) as (f & i & d & Hf & Hi & Hd).
  unfold solve. destruct (Z.ltb_spec pad 0) as [K|_]; [lia|].
  assert (Pos : (0 < length c)%nat).
  { destruct c; [|cbn; lia]. assert (E : cltocorr [] = []) by (destruct (cltocorr []) eqn:E; [reflexivity|pose proof (L1 []) as Q; rewrite E in Q; discriminate]).
    rewrite E in U. inversion U. }
  assert (G : compute cltocorr corrtocl t1 t2 (map Some c) = Ok (map (fun _ => None) (cltocorr c))).
  { unfold compute. rewrite Hi. cbn [bind]. f_equal. unfold lifted at 2. rewrite finite_map. unfold lifted.
    assert (N : finite (apply i (map Some (cltocorr c))) = None).
    { destruct (finite (apply i (map Some (cltocorr c)))) as [y|] eqn:E; [|reflexivity]. exfalso. apply finite_some in E.
      apply Exists_exists in U. destruct U as (v & Hv & U). apply In_nth_error in Hv. destruct Hv as [j Hj].
      assert (Q : nth_error (apply i (map Some (cltocorr c))) j = Some (i v)) by (unfold apply; rewrite !nth_error_map', Hj; reflexivity).
      rewrite E, nth_error_map' in Q. destruct (nth_error y j) as [w|]; [|discriminate]. cbn in Q. injection Q as Q. symmetry in Q.
      destruct (proj1 (inverse_corr t1 t2 f i v P1 P2 Hf Hi) w Q) as [_ _].
      destruct (inverse_corr t1 t2 f i v P1 P2 Hf Hi) as (_ & A & _). assert (B : attained t1 t2 v) by (apply A; congruence).
      destruct t1, t2; cbn [attained unattainable] in *; try contradiction; lra. }
    rewrite N. unfold apply. rewrite !map_map. reflexivity. }
  rewrite G. cbn [bind].
  set (gl := map (fun _ => @None R) (cltocorr c)) in *.
  assert (Lg : length gl = length c) by (unfold gl; rewrite map_length; apply L1).
  assert (Ng : forall j, (j < length c)%nat -> nth_error gl j = Some None).
  { intros j Hj. unfold gl. rewrite nth_error_map'. destruct (nth_error (cltocorr c) j) eqn:E; [reflexivity|].
    apply nth_error_None in E. rewrite L1 in E. lia. }
  assert (Gm : exists gl0 : list num, match monopole with Some m => set_first gl (Some m) | None => Ok gl end = Ok gl0 /\ length gl0 = length c /\ (forall m, monopole = Some m -> nth_error gl0 0 = Some (Some m)) /\ exists j, nth_error gl0 j = Some None).
  { destruct monopole as [m|].
    - destruct gl as [|g0 gl']; [cbn in Lg; lia|]. exists (Some m :: gl'). cbn [set_first]. split; [reflexivity|]. split; [exact Lg|].
      split; [intros m' [= <-]; reflexivity|]. exists 1%nat. destruct Hm as [Hm|Hm]; [discriminate|]. exact (Ng 1%nat ltac:(lia)).
    - exists gl. split; [reflexivity|]. split; [exact Lg|]. split; [discriminate|]. exists 0%nat. apply Ng. exact Pos. }
  destruct Gm as (gl0 & Eg & Lg0 & M0 & j & Nj). rewrite Eg. cbn [bind].
  assert (Lc : length gl0 = length (map Some c)).
  { rewrite map_length. exact Lg0. }
  destruct (evaluate_total cltocorr corrtocl L1 L2 t1 t2 (map Some c) (Z.to_nat pad) monopole gl0 f Hf Lc ltac:(rewrite map_length; exact Pos)) as [r Hr].
  rewrite Hr. cbn [bind].
  assert (Nan : snd r = NaN).
  { destruct (snd r) eqn:E; try reflexivity; exfalso;
      (destruct (evaluate_finite cltocorr corrtocl L1 L2 t1 t2 (map Some c) (Z.to_nat pad) monopole gl0 r (conj Hr (conj Lc M0))) as [g Q];
        [unfold err_of; rewrite E; discriminate|rewrite Q, nth_error_map' in Nj; destruct (nth_error g j); discriminate]). }
  destruct r as [[[gt rl] fl] e]. cbn [snd] in Nan. subst e. destruct maxiter as [|maxiter]; [lia|]. cbn [iterate err_le orb].
  rewrite Hd. cbn [bind].
  destruct (evaluate_lengths cltocorr corrtocl L1 L2 t1 t2 (map Some c) (Z.to_nat pad) monopole gl0 _ Lc Hr) as (Q1 & Q2 & Q3). cbn [rl_of fst snd] in *.
  set (xl := apply (fun x => Some (- x)) _).
  assert (LX : length xl = length (map Some c)).
  { unfold xl, apply. rewrite map_length, firstn_length, length_lifted by exact L2.
    unfold quot. rewrite length_zip, map_length, length_lifted by exact L1.
    unfold padded. rewrite app_length, repeat_length, ?map_length, Q2, ?Q3. rewrite ?map_length in *. lia. }
  assert (X : exists xl', match monopole with Some _ => set_first xl (Some 0) | None => Ok xl end = Ok xl' /\ length xl' = length (map Some c)).
  { destruct monopole; [|exists xl; auto]. destruct xl as [|x0 xl']; [rewrite map_length in LX; cbn in LX; lia|]. eexists. split; [reflexivity|exact LX]. }
  destruct X as (xl' & -> & LX'). cbn [bind].
  rewrite (halve_stuck cltocorr corrtocl L1 L2 t1 t2 (map Some c) (Z.to_nat pad) monopole f fuel gl0 xl' Hf Lc LX' ltac:(rewrite map_length; exact Pos)).
  reflexivity.
Qed.
Print Assumptions solve_unattainable.

(** So the solver, with its default parameters, does not always end. *)
Theorem solve_ends_refuted : exists cltocorr corrtocl t cl,
  (forall x, length (cltocorr x) = length x) /\ (forall x, length (corrtocl x) = length x) /\
  (forall x, corrtocl (cltocorr x) = x) /\ proper t /\
  forall fuel, solve cltocorr corrtocl t t fuel (map Some cl) 0 None (1 / 100000) (1 / 100000) 20 None = Err OutOfFuel.
Proof.
  exists (fun x => x), (fun x => x), (Lognormal 1), [-2]. repeat (split; [reflexivity|]). split; [cbn; lra|]. intro fuel.
  apply solve_unattainable; try reflexivity; cbn; try lra; try lia; auto.
  constructor. cbn. lra.
Qed.
Print Assumptions solve_ends_refuted.
