(** Theorems about effective spectra. *)
From Verif Require Import RSum Model_Spectra Spec_Spectra Proof_Spectra Model_Fields Spec_Fields Proof_Fields
  Model_Arrays Spec_Arrays Model_Effective Proof_Effective.
Local Open Scope nat_scope.

(** C20 *)
(** Every element of the result is written, and is the doubly weighted sum of the spectra. *)
Theorem effective_cls_sum cls (w1 : array R) (w2 : option (array R)) lmax n k s1 s2 :
  let w2' := match w2 with Some w => w | None => w1 end in
  triangle n (length cls) -> ashape w1 = n :: s1 -> ashape w2' = n :: s2 ->
  match lmax with Some lm => k = lm + 1 | None => longest cls k end ->
  exists out (c : nat -> nat -> nat -> R),
    effective_cls cls w1 w2 lmax = Ok (s1 ++ s2 ++ [k], out) /\ covariance_of 0%R cls k n c /\
    forall j1 j2, inside s1 j1 -> inside s2 j2 ->
      exists v, out (j1 ++ j2) = Some v /\ length v = k /\
        forall l, l < k -> nth l v 0%R =
          rsum n (fun a => rsum n (fun b => (aget w1 (a :: j1) * aget w2' (b :: j2) * c l a b)%R)).
Proof.
  intros w2' Ht E1 E2 Hk. destruct (covariance_exists cls n k Ht) as (c & Hc).
  destruct (effective_cls_ok cls w1 w2 lmax n k s1 s2 c Ht E1 E2 Hk Hc) as (out & Eo & Ho).
  exists out, c. split; [exact Eo|]. split; [exact Hc|]. exact Ho.
Qed.
Print Assumptions effective_cls_sum.

(** With one set of weights the result is symmetric in its two groups of axes. *)
Theorem effective_cls_symmetric cls (w : array R) lmax n s shape out :
  ashape w = n :: s -> effective_cls cls w None lmax = Ok (shape, out) ->
  forall j1 j2, inside s j1 -> inside s j2 -> out (j1 ++ j2) = out (j2 ++ j1).
Proof.
  intros Es E j1 j2 H1 H2.
  assert (Ht : triangle n (length cls)).
  { pose proof E as E'. unfold effective_cls in E'. apply bind_ok in E' as (m & Em & E'). rewrite Es in E'.
    destruct (Nat.eqb_spec n m) as [->|]; [|discriminate]. apply nfields_ok. exact Em. }
  set (k := match lmax with None => max_length (map (@length R) cls) | Some lm => lm + 1 end).
  destruct (covariance_exists cls n k Ht) as (c & Hc).
  destruct (effective_cls_ok cls w None lmax n k s s c Ht Es Es) as (out' & Eo & Ho).
  { unfold k. destruct lmax; [reflexivity|apply max_length_spec]. }
  { exact Hc. }
  rewrite E in Eo. injection Eo as _ <-.
  destruct (Ho j1 j2 H1 H2) as (v & -> & Lv & Hv). destruct (Ho j2 j1 H2 H1) as (v' & -> & Lv' & Hv').
  f_equal. apply (nth_ext v v' 0%R 0%R); [congruence|]. intros l Hl. rewrite Lv in Hl. rewrite (Hv l Hl), (Hv' l Hl), rsum_swap.
  apply rsum_ext. intros b Hb. apply rsum_ext. intros a Ha.
  rewrite (covariance_of_sym cls n k c Hc l a b Hl Ha Hb). ring.
Qed.
Print Assumptions effective_cls_symmetric.

(** ValueError is raised exactly when the number of spectra is no triangle number or the first axis of some
    weights is not the number of fields; nothing else fails. *)
Theorem effective_cls_rejects cls (w1 : array R) (w2 : option (array R)) lmax e :
  let w2' := match w2 with Some w => w | None => w1 end in
  effective_cls cls w1 w2 lmax = Err e <->
  e = ValueError /\
  ~ (exists n s1 s2, triangle n (length cls) /\ ashape w1 = n :: s1 /\ ashape w2' = n :: s2).
Proof.
  intro w2'.
  assert (Hok : (exists n s1 s2, triangle n (length cls) /\ ashape w1 = n :: s1 /\ ashape w2' = n :: s2) ->
                exists r, effective_cls cls w1 w2 lmax = Ok r).
  { intros (n & s1 & s2 & Ht & E1 & E2).
    set (k := match lmax with None => max_length (map (@length R) cls) | Some lm => lm + 1 end).
    destruct (covariance_exists cls n k Ht) as (c & Hc).
    destruct (effective_cls_ok cls w1 w2 lmax n k s1 s2 c Ht E1 E2) as (out & Eo & _).
    { unfold k. destruct lmax; [reflexivity|apply max_length_spec]. }
    { exact Hc. }
    eauto. }
  split.
  - intro E. assert (Hno : ~ (exists n s1 s2, triangle n (length cls) /\ ashape w1 = n :: s1 /\ ashape w2' = n :: s2)).
    { intro H. destruct (Hok H) as (r & Hr). congruence. }
    split; [|exact Hno].
    unfold effective_cls in E. destruct (nfields_from_nspectra (length cls)) as [n|x] eqn:En.
    + cbn [bind] in E. fold w2' in E. destruct (ashape w1) as [|n1 s1]; [congruence|].
      destruct (ashape w2') as [|n2 s2]; [congruence|].
      destruct (Nat.eqb_spec n1 n) as [->|]; [|cbn in E; congruence].
      destruct (Nat.eqb_spec n2 n) as [->|]; [|cbn in E; congruence].
      exfalso. apply Hno. exists n, s1, s2. split; [apply nfields_ok; exact En|auto].
    + cbn [bind] in E. injection E as <-.
      rewrite nfields_inv in En. destruct (inv_triangle_cases (length cls)) as [[m Em]|Em]; congruence.
  - intros [-> Hno]. destruct (effective_cls cls w1 w2 lmax) as [r|x] eqn:E.
    + exfalso. apply Hno. unfold effective_cls in E. apply bind_ok in E as (n & En & E). fold w2' in E.
      destruct (ashape w1) as [|n1 s1]; [discriminate|]. destruct (ashape w2') as [|n2 s2]; [discriminate|].
      destruct (Nat.eqb_spec n1 n) as [->|]; [|discriminate]. destruct (Nat.eqb_spec n2 n) as [->|]; [|discriminate].
      exists n, s1, s2. split; [apply nfields_ok; exact En|auto].
    + f_equal. unfold effective_cls in E. destruct (nfields_from_nspectra (length cls)) as [n|y] eqn:En.
      * cbn [bind] in E. fold w2' in E. destruct (ashape w1) as [|n1 s1]; [congruence|].
        destruct (ashape w2') as [|n2 s2]; [congruence|].
        destruct (Nat.eqb_spec n1 n) as [->|]; [|cbn in E; congruence].
        destruct (Nat.eqb_spec n2 n) as [->|]; [|cbn in E; congruence].
        exfalso. apply Hno. exists n, s1, s2. split; [apply nfields_ok; exact En|auto].
      * cbn [bind] in E. injection E as <-.
        rewrite nfields_inv in En. destruct (inv_triangle_cases (length cls)) as [[m Em]|Em]; congruence.
Qed.
Print Assumptions effective_cls_rejects.

(** Two fields, weights with one extra axis of length 3 and of length 1. *)
Example effective_cls_example :
  let cls := [[1; 2]; [3]; [4; 5]]%R in
  let w1 := {| ashape := [2; 3]; aget := fun _ => 1%R |} in
  let w2 := {| ashape := [2; 1]; aget := fun _ => 2%R |} in
  triangle 2 (length cls) /\ ashape w1 = [2; 3] /\ ashape w2 = [2; 1] /\ longest cls 2 /\
  inside [3] [2] /\ inside [1] [0].
Proof.
  cbn. split; [reflexivity|]. split; [reflexivity|]. split; [reflexivity|]. split.
  - split.
    + intros cl [<-|[<-|[<-|[]]]]; cbn; lia.
    + right. exists [1; 2]%R. split; [left|]; reflexivity.
  - split; repeat constructor.
Qed.
