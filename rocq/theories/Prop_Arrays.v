(** Theorems about broadcasting (C59) and [numpy_fallback] (C60). *)
From Coq Require Import String.
From Verif Require Import Base Model_Arrays Spec_Arrays Spec_Fallback Proof_Arrays Proof_Fallback.
Open Scope string_scope.
Open Scope list_scope.
Open Scope nat_scope.

(** C59: the arrays keep [n] trailing axes each; [lead] and [trail] are the axes before
    and after.  Success is exactly compatibility of the leading shapes. *)
Theorem leading_axes_broadcast {V} (args : list (array V * nat)) leads trails dims :
  Forall2 (fun p '(s, t) => ashape (fst p) = s ++ t /\ length t = snd p) args (combine leads trails) ->
  length leads = length trails ->
  (is_broadcast leads dims <->
   exists arrs, broadcast_leading_axes args = Ok (dims, arrs) /\
    Forall2 (fun p r => exists t, ashape r = dims ++ t /\ length t = snd p /\
       (exists s, ashape (fst p) = s ++ t) /\
       forall i, length i = length (ashape r) ->
         exists j, comes_from (ashape (fst p)) i j /\ aget r i = aget (fst p) j)
      args arrs).
Proof.
  intros H Hl.
  assert (Hn : Forall (fun p : array V * nat => snd p <= length (ashape (fst p))) args).
  { clear -H. induction H as [|p [s t] args l [H1 H2] _ IH]; constructor; [|exact IH].
    rewrite H1, app_length. lia. }
  assert (HL : leads = map lead args /\ trails = map trail args).
  { clear -H Hl. revert leads trails Hl H. induction args as [|p args IH]; intros leads trails Hl H.
    - destruct leads, trails; simpl in *; try discriminate; [auto|inversion H].
    - destruct leads as [|s leads], trails as [|t trails]; simpl in *; try discriminate; inversion H; subst.
      destruct H3 as [E1 E2]. destruct (IH leads trails ltac:(lia) H5) as [<- <-].
      unfold lead, trail. rewrite E1, app_length, <- E2.
      replace (length s + length t - length t) with (length s) by lia.
      rewrite firstn_app, skipn_app, Nat.sub_diag, firstn_all, skipn_all. simpl. rewrite app_nil_r. auto. }
  destruct HL as [-> ->]. split.
  - intro Hb. destruct (leading_ok args dims Hn Hb) as (arrs & E & F).
    exists arrs. split; [exact E|]. clear -F Hn.
    induction F as [|p r args arrs [F1 F2] F IH]; constructor; [|inversion Hn; auto].
    exists (trail p). split; [exact F1|]. inversion Hn; subst. split; [|split; [|exact F2]].
    + unfold trail. rewrite skipn_length. lia.
    + exists (lead p). unfold lead, trail. rewrite firstn_skipn. reflexivity.
  - intros (arrs & E & _). exact (leading_inv args dims arrs Hn E).
Qed.
Print Assumptions leading_axes_broadcast.

(** Incompatible leading shapes raise. *)
Theorem leading_axes_rejects {V} (args : list (array V * nat)) leads trails :
  Forall2 (fun p '(s, t) => ashape (fst p) = s ++ t /\ length t = snd p) args (combine leads trails) ->
  length leads = length trails -> (forall dims, ~ is_broadcast leads dims) ->
  exists e, broadcast_leading_axes args = Err e.
Proof.
  intros H Hl Hn. destruct (broadcast_leading_axes args) as [[dims arrs]|e] eqn:E; [|eauto].
  exfalso. apply (Hn dims).
  assert (Hn' : Forall (fun p : array V * nat => snd p <= length (ashape (fst p))) args).
  { clear -H. induction H as [|p [s t] args l [H1 H2] _ IH]; constructor; [|exact IH].
    rewrite H1, app_length. lia. }
  pose proof (leading_inv args dims arrs Hn' E) as Hb.
  assert (HL : leads = map lead args).
  { clear -H Hl. revert leads trails Hl H. induction args as [|p args IH]; intros leads trails Hl H.
    - destruct leads, trails; simpl in *; try discriminate; [auto|inversion H].
    - destruct leads as [|s leads], trails as [|t trails]; simpl in *; try discriminate; inversion H; subst.
      destruct H3 as [E1 E2]. rewrite (IH leads trails ltac:(lia) H5).
      unfold lead. rewrite E1, app_length, <- E2.
      replace (length s + length t - length t) with (length s) by lia.
      rewrite firstn_app, Nat.sub_diag, firstn_all. simpl. rewrite app_nil_r. auto. }
  rewrite HL. exact Hb.
Qed.
Print Assumptions leading_axes_rejects.

(** An array with fewer axes than are to be kept is not rejected: Python's negative
    slice takes some of its axes as leading axes. *)
Theorem leading_axes_too_few_refuted :
  exists (a b : array nat) dims arrs,
    broadcast_leading_axes [(a, 3); (b, 0)] = Ok (dims, arrs) /\
    ashape a = [3; 4] /\ ashape b = [2; 1] /\ dims = [2; 3] /\ map ashape arrs = [[2; 3; 4]; [2; 3]].
Proof.
  exists {| ashape := [3; 4]; aget := fun _ => 0 |}, {| ashape := [2; 1]; aget := fun _ => 0 |}.
  do 2 eexists. split; [reflexivity|]. repeat split.
Qed.
Print Assumptions leading_axes_too_few_refuted.

(** [broadcast_first]: first axes are matched with first axes and the remaining axes
    aligned at the end. *)
Theorem first_axis_broadcast {V} (arrays : list (array V)) (shapes : list (nat * list nat)) :
  shapes <> [] -> map ashape arrays = map (fun p => fst p :: snd p) shapes ->
  (forall c r, is_broadcast (map (fun p => [fst p]) shapes) [c] -> is_broadcast (map snd shapes) r ->
    exists arrs, broadcast_first arrays = Ok arrs /\
      Forall2 (fun a b => ashape b = c :: r /\
         forall y i, length i = length r -> exists j, comes_from (tl (ashape a)) i j /\
           aget b (y :: i) = aget a ((if hd 1 (ashape a) =? 1 then 0 else y) :: j)) arrays arrs) /\
  (forall arrs, broadcast_first arrays = Ok arrs ->
    exists c r, is_broadcast (map (fun p => [fst p]) shapes) [c] /\ is_broadcast (map snd shapes) r).
Proof.
  intros Hne Hs. split.
  - intros c r. exact (first_ok arrays shapes c r Hne Hs).
  - intros arrs. exact (first_inv arrays shapes arrs Hne Hs).
Qed.
Print Assumptions first_axis_broadcast.

Example leading_axes_example :
  (* the docstring of broadcast_leading_axes *)
  (do r <- broadcast_leading_axes
     [({| ashape := []; aget := fun _ => 7 |}, 0);
      ({| ashape := [4; 10]; aget := fun i => match i with [x; y] => 100 * x + y | _ => 0 end |}, 1);
      ({| ashape := [3; 1; 5; 6]; aget := fun i => match i with [w; x; y; z] => 1000 * w + 100 * x + 10 * y + z | _ => 0 end |}, 2)];
   let '(dims, arrs) := r in
   Ok (dims, map ashape arrs,
       map (fun a => aget a [2; 3; 4; 5]) (skipn 2 arrs), map (fun a => aget a [2; 3; 9]) (firstn 1 (skipn 1 arrs)))) =
  Ok ([3; 4], [[3; 4]; [3; 4; 10]; [3; 4; 5; 6]], [2045], [309]).
Proof. vm_compute. reflexivity. Qed.

(** C60: with at least one array among the arguments, the function is called with every
    array in nested tuples, lists and dicts replaced by a NumPy array of the same contents
    and everything else unchanged, without [xp]; in its result all NumPy arrays are
    replaced by arrays of the common backend. *)
Theorem fallback_converts {B D A} (beq : B -> B -> bool) (np : B) func
    (args : list (val B D A)) (kwargs : list (string * val B D A)) xp (ns : B) :
  (exists v p b d, (In v args \/ exists k, In (k, v) kwargs) /\ reach p v = Some (Arr b d)) ->
  match xp with
  | Some (Some b) => ns = b
  | _ => forall v b, (In v args \/ exists k, In (k, v) kwargs) -> In b (collect v) ->
           b = ns /\ beq ns b = true
  end ->
  exists args' kwargs',
    Forall2 (converted (fun _ => np)) args args' /\
    Forall2 (fun kv kv' => fst kv' = fst kv /\ converted (fun _ => np) (snd kv) (snd kv')) kwargs kwargs' /\
    match func args' kwargs' None with
    | Err e => numpy_fallback beq np func args kwargs xp = Err e
    | Ok r => exists r', numpy_fallback beq np func args kwargs xp = Ok r' /\
                         converted (fun b => if beq b np then ns else b) r r'
    end.
Proof.
  intros (v & p & b & d & Hin & Hr) Hns.
  exists (map (to_numpy np) args), (map (fun kv => (fst kv, to_numpy np (snd kv))) kwargs).
  split; [|split].
  - clear. induction args; simpl; constructor; [apply to_numpy_converted|assumption].
  - clear. induction kwargs as [|[k v] kwargs IH]; simpl; constructor; [|assumption].
    simpl. split; [reflexivity|apply to_numpy_converted].
  - unfold numpy_fallback.
    set (found := flat_map collect args ++ flat_map (fun kv => collect (snd kv)) kwargs).
    assert (Hf : In b found).
    { apply in_or_app. apply reach_collect in Hr. destruct Hin as [Hin|[k Hin]]; [left|right]; apply in_flat_map; eauto. }
    assert (Hall : forall c, In c found -> exists w, (In w args \/ exists k, In (k, w) kwargs) /\ In c (collect w)).
    { intros c Hc. apply in_app_or in Hc as [Hc|Hc]; apply in_flat_map in Hc as (w & Hw & Hc);
        [eauto|]. destruct w as [k w]. eauto. }
    assert (Hsel : match xp with Some (Some b) => Ok b | _ => array_namespace beq found end = Ok ns).
    { assert (G : (forall w c, (In w args \/ exists k, In (k, w) kwargs) -> In c (collect w) ->
                   c = ns /\ beq ns c = true) -> array_namespace beq found = Ok ns).
      { intro G. destruct found as [|c found'] eqn:E; [destruct Hf|]. unfold array_namespace.
        destruct (Hall c (or_introl eq_refl)) as (w & Hw & Hc). destruct (G w c Hw Hc) as [-> _].
        assert (F : forallb (beq ns) found' = true).
        { apply forallb_forall. intros c' Hc'. destruct (Hall c' (or_intror Hc')) as (w' & Hw' & Hc2).
          exact (proj2 (G w' c' Hw' Hc2)). }
        rewrite F. reflexivity. }
      destruct xp as [[b0|]|]; [subst; reflexivity|exact (G Hns)|exact (G Hns)]. }
    destruct found as [|c found'] eqn:E; [destruct Hf|]. rewrite Hsel. cbn [bind].
    destruct (func _ _ None) as [r|e]; cbn [bind]; [|reflexivity].
    eexists. split; [reflexivity|]. apply convert_back_converted.
Qed.
Print Assumptions fallback_converts.

(** Without any array the call is passed on as it is, [xp] included. *)
Theorem fallback_no_arrays {B D A} (beq : B -> B -> bool) np func
    (args : list (val B D A)) (kwargs : list (string * val B D A)) xp :
  (forall v, In v args \/ (exists k, In (k, v) kwargs) -> collect v = []) ->
  numpy_fallback beq np func args kwargs xp = func args kwargs xp.
Proof.
  intro H. unfold numpy_fallback.
  assert (E : flat_map collect args ++ flat_map (fun kv => collect (snd kv)) kwargs = []).
  { destruct (flat_map collect args ++ _) as [|c l] eqn:E; [reflexivity|].
    assert (Hc : In c (c :: l)) by (left; reflexivity). rewrite <- E in Hc.
    apply in_app_or in Hc as [Hc|Hc]; apply in_flat_map in Hc as (w & Hw & Hc).
    - rewrite (H w (or_introl Hw)) in Hc. destruct Hc.
    - destruct w as [k w]. simpl in Hc. rewrite (H w) in Hc by eauto. destruct Hc. }
  rewrite E. reflexivity.
Qed.
Print Assumptions fallback_no_arrays.

(** Arrays of two backends are rejected, unless [xp] names one. *)
Theorem fallback_mixed_rejected {B D A} (beq : B -> B -> bool) np func b b'
    (v v' : val B D A) rest kwargs d d' p :
  beq b b' = false -> v = Arr b d -> reach p v' = Some (Arr b' d') ->
  numpy_fallback beq np func (v :: v' :: rest) kwargs None = Err TypeError.
Proof.
  intros Hb -> Hr. unfold numpy_fallback. cbn [flat_map collect app].
  assert (E : forallb (beq b) ((collect v' ++ flat_map collect rest) ++
      flat_map (fun kv => collect (snd kv)) kwargs) = false).
  { apply not_true_iff_false. intro F. rewrite forallb_forall in F.
    specialize (F b'). rewrite F in Hb; [discriminate|].
    apply in_or_app; left; apply in_or_app; left. exact (reach_collect p v' b' d' Hr). }
  unfold array_namespace. rewrite E. reflexivity.
Qed.
Print Assumptions fallback_mixed_rejected.

(** Conversion of *every* array argument is false: arrays inside other sequences
    are found by the search but not converted. *)
Theorem fallback_every_sequence_refuted :
  exists (args : list (val nat nat nat)) seen,
    numpy_fallback Nat.eqb 0 (fun a _ _ => Ok (Tup a)) args [] None = Ok seen /\
    args = [OtherSeq [Arr 5 1]] /\ seen = Tup [OtherSeq [Arr 5 1]].
Proof. do 2 eexists. split; [|split; reflexivity]. reflexivity. Qed.
Print Assumptions fallback_every_sequence_refuted.

Example fallback_example :
  numpy_fallback (A:=nat) Nat.eqb 0
    (fun a k _ => Ok (Dct (("n", Atom 3) :: ("args", Lst a) :: k)))
    [Tup [Arr 5 1; Atom 9]; Lst [Dct [("x", Arr 5 2)]]] [("nside", Atom 8)] (Some None) =
  Ok (Dct [("n", Atom 3); ("args", Lst [Tup [Arr 5 1; Atom 9]; Lst [Dct [("x", Arr 5 2)]]]); ("nside", Atom 8)]).
Proof. reflexivity. Qed.
