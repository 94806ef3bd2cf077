(** Theorems about redshifts, lensed shapes, photometric redshifts and intrinsic alignments of galaxies. *)
From Coq Require Import Reals Lra Psatz Permutation.
From Coquelicot Require Import Coquelicot.
From Verif Require Import Base Model_Numeric Model_Arrays Model_Effective Model_Windows Model_Galaxies
  Spec_Arrays Spec_Rng Spec_Numeric Spec_Galaxies Proof_Numeric Proof_Effective Proof_Galaxies Proof_Shear.
Local Open Scope R_scope.

Ltac reals := repeat match goal with
  | |- context [ltb ?a ?b] => first [rewrite (ltb_true a b) by lra | rewrite (ltb_false a b) by lra]
  | |- context [leb ?a ?b] => first [rewrite (leb_true a b) by lra | rewrite (leb_false a b) by lra]
  | |- context [Req_EM_T ?a ?b] => destruct (Req_EM_T a b); [try lra | try lra]
  end.

(** C46 *)

(** Redshifts are drawn by inverting the cumulative distribution: redshift number [i] is where
    the distribution function takes the value of the uniform number [i]. *)
Theorem draw_inverts_cdf {S} (uniform : S -> nat -> list R * S) count z nz s us s' a b :
  (forall s n u, In u (fst (uniform s n)) -> 0 <= u < 1) ->
  distribution z nz -> starts_with z a -> ends_with z b -> uniform s count = (us, s') ->
  exists zs, draw_nz uniform count z nz s = Ok (zs, s') /\ Forall2 (drawn_from z nz) us zs /\
    forall x, In x zs -> a <= x <= b.
Proof.
  intros Hr Hd Ha Hb Hu. destruct (draw_nz_spec uniform Hr count z nz s us s' Hd Hu) as (zs & E & F).
  exists zs. split; [exact E|]. split; [exact F|]. intros x Hx.
  assert (W : exists u, drawn_from z nz u x).
  { clear - F Hx. induction F as [|u y us zs Q _ IH]; [destruct Hx|]. destruct Hx as [<-|Hx]; [exists u; exact Q|auto]. }
  destruct W as (u & W). eapply drawn_range; [exact (proj1 Hd)|exact Ha|exact Hb|exact W].
Qed.
Print Assumptions draw_inverts_cdf.

(** Two uniform numbers on a triangular distribution: a quarter below, a half at the middle. *)
Example draw_example :
  draw_nz (fun (s : nat) n => (firstn n [1 / 2; 1 / 4; 3 / 4], (s + 1)%nat)) 2 [0; 1; 2] [0; 3; 0] 5%nat
    = Ok ([1; 1 / 2], 6%nat).
Proof.
  unfold draw_nz, cumulative_trapezoid, last_of. cbn. reals. cbn. unfold interp; cbn.
  assert (E1 : (0 + (3 + 0) * (1 / 2) * (1 - 0)) / (0 + (3 + 0) * (1 / 2) * (1 - 0) + (0 + 3) * (1 / 2) * (2 - 1)) = 1 / 2) by lra.
  assert (E2 : (0 + (3 + 0) * (1 / 2) * (1 - 0) + (0 + 3) * (1 / 2) * (2 - 1)) / (0 + (3 + 0) * (1 / 2) * (1 - 0) + (0 + 3) * (1 / 2) * (2 - 1)) = 1) by lra.
  rewrite E1, E2. reals. cbn. f_equal. f_equal. f_equal; [field|]. f_equal. field.
Qed.

(** For arrays of counts, grids and distributions, the leading axes are broadcast together, and
    for every index in order the number of redshifts asked for is drawn from the distribution
    at this index; each draw continues the random generator where the previous one left it. *)
Theorem redshifts_counts {S} (uniform : S -> nat -> list R * S) count z nz lz ln m dims
    (N : list nat -> nat) (Z NZ : list nat -> list R) s :
  (forall s n, length (fst (uniform s n)) = n) ->
  (forall s n u, In u (fst (uniform s n)) -> 0 <= u < 1) ->
  ashape z = lz ++ [m] -> ashape nz = ln ++ [m] -> is_broadcast [ashape count; lz; ln] dims ->
  (forall k, inside dims k -> element_for count k (N k) /\ row_for z lz m k (Z k) /\
     row_for nz ln m k (NZ k) /\ distribution (Z k) (NZ k)) ->
  exists ks uss runs s', row_major dims ks /\
    redshifts_from_nz uniform count z nz s = Ok (concat runs, s') /\
    draws uniform s (map N ks) uss s' /\ length uss = length runs /\
    Forall2 (fun k p => length (fst p) = N k /\ Forall2 (drawn_from (Z k) (NZ k)) (fst p) (snd p))
      ks (combine uss runs).
Proof.
  intros Hl Hr Ez En Hb H.
  destruct (redshifts_from_nz_runs uniform Hl Hr count z nz lz ln m dims N Z NZ s Ez En Hb H)
    as (uss & runs & s' & E & D & F & L).
  exists (ndindex dims), uss, runs, s'. split; [apply ndindex_row_major|]. auto.
Qed.
Print Assumptions redshifts_counts.

(** In particular, the number of redshifts is the sum of the counts. *)
Theorem redshifts_total {S} (uniform : S -> nat -> list R * S) count z nz lz ln m dims
    (N : list nat -> nat) (Z NZ : list nat -> list R) s :
  (forall s n, length (fst (uniform s n)) = n) ->
  (forall s n u, In u (fst (uniform s n)) -> 0 <= u < 1) ->
  ashape z = lz ++ [m] -> ashape nz = ln ++ [m] -> is_broadcast [ashape count; lz; ln] dims ->
  (forall k, inside dims k -> element_for count k (N k) /\ row_for z lz m k (Z k) /\
     row_for nz ln m k (NZ k) /\ distribution (Z k) (NZ k)) ->
  exists ks out s', row_major dims ks /\ redshifts_from_nz uniform count z nz s = Ok (out, s') /\
    length out = fold_right Nat.add 0%nat (map N ks).
Proof.
  intros Hl Hr Ez En Hb H.
  pose proof (redshifts_counts uniform count z nz lz ln m dims N Z NZ s Hl Hr Ez En Hb H) as W; destruct W
    as (ks & uss & runs & s' & Hk & E & D & L & F).
  exists ks, (concat runs), s'. split; [exact Hk|]. split; [exact E|].
  clear - F L. revert uss runs L F. induction ks as [|k ks IH]; intros uss runs L F.
  - destruct uss, runs; try discriminate; [reflexivity|inversion F].
  - destruct uss as [|us uss], runs as [|run runs]; try discriminate; inversion F as [|? ? ? ? [Q1 Q2] Q3]; subst.
    cbn. rewrite app_length. cbn in Q1, Q2. apply forall2_length in Q2. f_equal; [lia|]. apply (IH uss runs); [cbn in L; lia|exact Q3].
Qed.
Print Assumptions redshifts_total.

(** One count for each of two distributions on one grid: the first asks for one redshift, the second for two. *)
Example redshifts_counts_example :
  redshifts_from_nz (fun (s : nat) n => (repeat (INR s / 4) n, (s + 1)%nat))
    {| ashape := [2%nat]; aget := fun i => (hd 0 i + 1)%nat |}
    {| ashape := [2%nat]; aget := fun i => INR (hd 0%nat i) |}
    {| ashape := [2%nat; 2%nat]; aget := fun i => INR (hd 0%nat i + 1) |} 1%nat
    = Ok ([1 / 4; 1 / 2; 1 / 2], 3%nat).
Proof.
  assert (H : forall u c, 0 <= u < 1 -> 0 < c -> interp u (map (fun x => x / (0 + (c + c) * (1 / 2) * (INR 1 - INR 0))) [0; 0 + (c + c) * (1 / 2) * (INR 1 - INR 0)]) [INR 0; INR 1] None None = Ok u).
  { intros u c Hu Hc. unfold interp. cbn -[INR]. change (INR 0) with 0. change (INR 1) with 1.
    replace ((0 + (c + c) * (1 / 2) * (1 - 0)) / (0 + (c + c) * (1 / 2) * (1 - 0))) with 1 by (field; lra).
    replace (0 / (0 + (c + c) * (1 / 2) * (1 - 0))) with 0 by (field; lra).
    reals. f_equal. field. }
  assert (D : forall n c s, 0 < c -> 0 <= INR s / 4 < 1 ->
    draw_nz (fun (s : nat) n => (repeat (INR s / 4) n, (s + 1)%nat)) n [INR 0; INR 1] [c; c] s = Ok (repeat (INR s / 4) n, (s + 1)%nat)).
  { intros n c s Hc Hs. unfold draw_nz, cumulative_trapezoid, last_of. cbn [length Nat.eqb combine trapezoids cumulative_sum bind last].
    destruct (Req_EM_T _ 0) as [Q|Q]; [change (INR 1) with 1 in Q; change (INR 0) with 0 in Q; lra|].
    rewrite (mapM_pure _ (fun u => u)).
    - cbn [bind]. rewrite map_id. reflexivity.
    - intros u Hu. apply repeat_spec in Hu. subst u. apply H; assumption. }
  set (U := fun (s : nat) n => (repeat (INR s / 4) n, (s + 1)%nat)) in *. clearbody U.
  lazy -[INR draw_nz Rdiv IZR].
  rewrite (D 1%nat (INR 1) 1%nat) by (cbn; lra). lazy -[INR draw_nz Rdiv IZR].
  rewrite (D 2%nat (INR 2) 2%nat) by (cbn; lra). cbn. f_equal. f_equal.
  repeat (apply f_equal2; [lra|]). reflexivity.
Qed.

(** Redshifts for a radial window follow the window function. *)
Theorem redshifts_window {S} (uniform : S -> nat -> list R * S) n w s :
  (forall s n, length (fst (uniform s n)) = n) ->
  (forall s n u, In u (fst (uniform s n)) -> 0 <= u < 1) ->
  distribution (za w) (wa w) ->
  exists us out s', redshifts uniform {| ashape := []; aget := fun _ => n |} w s = Ok (out, s') /\
    uniform s n = (us, s') /\ length out = n /\ Forall2 (drawn_from (za w) (wa w)) us out.
Proof.
  intros Hl Hr Hd. unfold redshifts.
  assert (Lw : length (za w) = length (wa w)) by apply Hd.
  edestruct (redshifts_counts uniform {| ashape := []; aget := fun _ => n |}
    {| ashape := [length (za w)]; aget := fun i => nth (hd 0%nat i) (za w) 0 |}
    {| ashape := [length (wa w)]; aget := fun i => nth (hd 0%nat i) (wa w) 0 |}
    [] [] (length (za w)) [] (fun _ => n) (fun _ => za w) (fun _ => wa w) s) as (ks & uss & runs & s' & Hk & E & D & L & F).
  - exact Hl.
  - exact Hr.
  - reflexivity.
  - rewrite Lw. reflexivity.
  - split; [repeat constructor|]. split; [left; reflexivity|]. intro k. split.
    + intros x [<-|[<-|[<-|[]]]]; right; reflexivity.
    + left. destruct k; reflexivity.
  - intros k Hk. inversion Hk; subst. split; [|split; [|split; [|exact Hd]]].
    + exists []. split; [split; [reflexivity|cbn; lia]|reflexivity].
    + exists []. split; [split; [reflexivity|cbn; lia]|]. split; [reflexivity|].
      intros i Hi. cbn. apply nth_error_nth'. exact Hi.
    + exists []. split; [split; [reflexivity|cbn; lia]|]. split; [lia|].
      intros i Hi. cbn. apply nth_error_nth'. lia.
  - assert (Ek : ks = [[]]).
    { destruct Hk as [H1 H2]. destruct ks as [|k ks].
      - exfalso. apply (H1 []). constructor.
      - assert (k = []). { assert (Q : inside [] k) by (apply H1; left; reflexivity). inversion Q; reflexivity. } subst k.
        destruct ks as [|k ks]; [reflexivity|]. specialize (H2 0%nat 1%nat [] k ltac:(lia) eq_refl eq_refl). inversion H2. }
    subst ks. cbn [map] in D. inversion D as [|? ? ? us ? s1 ? D1 D2]; subst. inversion D2; subst.
    destruct runs as [|run [|]]; try discriminate. inversion F as [|? ? ? ? [F1 F2] F3]. cbn in F1, F2.
    exists us, run, s'. cbn [concat] in E. rewrite app_nil_r in E. split; [exact E|]. split; [exact D1|].
    split; [apply forall2_length in F2; lia|exact F2].
Qed.
Print Assumptions redshifts_window.

Example redshifts_window_example :
  redshifts (fun (s : nat) n => (repeat (1 / 2) n, s)) {| ashape := []; aget := fun _ => 1%nat |}
    (Window [0; 1; 2] [0; 3; 0] 1) 7%nat = Ok ([1], 7%nat).
Proof.
  assert (D : draw_nz (fun (s : nat) n => (repeat (1 / 2) n, s)) 1 [0; 1; 2] [0; 3; 0] 7%nat = Ok ([1], 7%nat)).
  { unfold draw_nz, cumulative_trapezoid, last_of. cbn. reals. cbn. unfold interp; cbn.
    replace ((0 + (3 + 0) * (1 / 2) * (1 - 0)) / (0 + (3 + 0) * (1 / 2) * (1 - 0) + (0 + 3) * (1 / 2) * (2 - 1))) with (1 / 2) by lra.
    replace ((0 + (3 + 0) * (1 / 2) * (1 - 0) + (0 + 3) * (1 / 2) * (2 - 1)) / (0 + (3 + 0) * (1 / 2) * (1 - 0) + (0 + 3) * (1 / 2) * (2 - 1))) with 1 by lra.
    reals. cbn. f_equal. f_equal. f_equal. field. }
  set (U := fun (s : nat) n => (repeat (1 / 2) n, s)) in *. clearbody U.
  lazy -[draw_nz Rdiv IZR]. rewrite D. reflexivity.
Qed.

(** C47 *)

(** Every object gets a redshift drawn from the distribution of its own bin, whatever order the
    distinct labels are listed in and whatever sorting permutation [argsort] returns. *)
Theorem bins_own_distribution {S L} (uniform : S -> nat -> list R * S) (eqb : L -> L -> bool) unique argsort
    bins z (nz_dict : list (L * list R)) s out s' i x v :
  (forall x y, eqb x y = true <-> x = y) ->
  (forall s n, length (fst (uniform s n)) = n) ->
  (forall l, NoDup (unique l)) -> (forall l x, In x (unique l) <-> In x l) ->
  (forall v, sorting_permutation v (argsort v)) ->
  (forall s n u, In u (fst (uniform s n)) -> 0 <= u < 1) ->
  (forall x, In x bins -> exists nz, In (x, nz) nz_dict /\ distribution z nz) -> NoDup (map fst nz_dict) ->
  redshifts_from_bins uniform eqb unique argsort bins z nz_dict s = Ok (out, s') ->
  nth_error bins i = Some x -> nth_error out i = Some v ->
  exists nz u, In (x, nz) nz_dict /\ 0 <= u < 1 /\ drawn_from z nz u v.
Proof. intros. eapply bins_own; eassumption. Qed.
Print Assumptions bins_own_distribution.

(** There is a redshift for every object; one call of the generator for each distinct label makes
    as many numbers as there are objects with the label, and the redshifts of these objects are
    what the numbers stand for, in some order. *)
Theorem bins_redshifts {S L} (uniform : S -> nat -> list R * S) (eqb : L -> L -> bool) unique argsort
    bins z (nz_dict : list (L * list R)) s :
  (forall x y, eqb x y = true <-> x = y) ->
  (forall s n, length (fst (uniform s n)) = n) ->
  (forall l, NoDup (unique l)) -> (forall l x, In x (unique l) <-> In x l) ->
  (forall v, sorting_permutation v (argsort v)) ->
  (forall s n u, In u (fst (uniform s n)) -> 0 <= u < 1) ->
  bins <> [] -> NoDup (map fst nz_dict) ->
  (forall x, In x bins -> exists nz, In (x, nz) nz_dict /\ distribution z nz) ->
  exists uss out s', redshifts_from_bins uniform eqb unique argsort bins z nz_dict s = Ok (out, s') /\
    length out = length bins /\
    draws uniform s (map (fun x => length (filter (eqb x) bins)) (unique bins)) uss s' /\
    forall k x us, nth_error (unique bins) k = Some x -> nth_error uss k = Some us ->
      exists nz run, In (x, nz) nz_dict /\ Forall2 (drawn_from z nz) us run /\
        Permutation (map snd (filter (fun p => eqb x (fst p)) (combine bins out))) run.
Proof. intros. eapply bins_ok; eassumption. Qed.
Print Assumptions bins_redshifts.

(** Two bins, labels in mixed order and with a sorting permutation that is not stable: the
    generator is asked first for bin 7, then for bin 4. *)
Example bins_example :
  redshifts_from_bins (fun (s : nat) n => (repeat (INR s / 4) n, (s + 1)%nat)) Nat.eqb
    (fun _ => [7; 4]%nat) (fun v => match v with [1; 0; 1]%nat => [1; 2; 0]%nat | _ => [2; 0; 1]%nat end)
    [4; 7; 4]%nat [0; 1] [(4%nat, [1; 1]); (7%nat, [2; 2])] 1%nat = Ok ([1 / 2; 1 / 4; 1 / 2], 3%nat).
Proof.
  assert (H : forall u c, 0 <= u < 1 -> 0 < c -> interp u (map (fun x => x / (0 + (c + c) * (1 / 2) * (1 - 0))) [0; 0 + (c + c) * (1 / 2) * (1 - 0)]) [0; 1] None None = Ok u).
  { intros u c Hu Hc. unfold interp. cbn -[INR].
    replace ((0 + (c + c) * (1 / 2) * (1 - 0)) / (0 + (c + c) * (1 / 2) * (1 - 0))) with 1 by (field; lra).
    replace (0 / (0 + (c + c) * (1 / 2) * (1 - 0))) with 0 by (field; lra).
    reals. f_equal. field. }
  assert (D : forall n c s, 0 < c -> 0 <= INR s / 4 < 1 ->
    draw_nz (fun (s : nat) n => (repeat (INR s / 4) n, (s + 1)%nat)) n [0; 1] [c; c] s = Ok (repeat (INR s / 4) n, (s + 1)%nat)).
  { intros n c s Hc Hs. unfold draw_nz, cumulative_trapezoid, last_of. cbn [length Nat.eqb combine trapezoids cumulative_sum bind last].
    destruct (Req_EM_T _ 0) as [Q|Q]; [lra|].
    rewrite (mapM_pure _ (fun u => u)).
    - cbn [bind]. rewrite map_id. reflexivity.
    - intros u Hu. apply repeat_spec in Hu. subst u. apply H; assumption. }
  set (U := fun (s : nat) n => (repeat (INR s / 4) n, (s + 1)%nat)) in *. clearbody U.
  lazy -[INR draw_nz Rdiv IZR].
  rewrite (D 1%nat 2 1%nat) by (cbn; lra). lazy -[INR draw_nz Rdiv IZR].
  rewrite (D 2%nat 1 2%nat) by (cbn; lra). cbn. f_equal. f_equal.
  repeat (apply f_equal2; [lra|]). reflexivity.
Qed.

(** No objects: the code fails instead of returning an empty array. *)
Theorem bins_empty_refuted {S L} (uniform : S -> nat -> list R * S) (eqb : L -> L -> bool) unique argsort
    z (nz_dict : list (L * list R)) s :
  (forall l x, In x (unique l) <-> In x l) ->
  redshifts_from_bins uniform eqb unique argsort [] z nz_dict s = Err ValueError.
Proof.
  intros Hu. unfold redshifts_from_bins. cbn [mapM bind].
  assert (E : unique [] = []). { destruct (unique []) as [|x l] eqn:E; [reflexivity|]. exfalso. apply (Hu [] x). rewrite E. left; reflexivity. }
  rewrite E. reflexivity.
Qed.
Print Assumptions bins_empty_refuted.

Example bins_empty_example :
  redshifts_from_bins (fun (s : nat) n => (repeat (1 / 2) n, s)) Nat.eqb (fun l => l) (fun v => v)
    [] [0; 1; 2] [(4%nat, [0; 3; 0])] 0%nat = Err ValueError.
Proof. reflexivity. Qed.

(** A label without distribution is rejected. *)
Theorem bins_unknown_label {S L} (uniform : S -> nat -> list R * S) (eqb : L -> L -> bool) unique argsort
    bins z (nz_dict : list (L * list R)) s x :
  (forall x y, eqb x y = true <-> x = y) -> (forall l, NoDup (unique l)) -> (forall l x, In x (unique l) <-> In x l) ->
  In x bins -> ~ In x (map fst nz_dict) ->
  forall r, redshifts_from_bins uniform eqb unique argsort bins z nz_dict s <> Ok r.
Proof.
  intros He Hn Hu Hx Hk r. unfold redshifts_from_bins.
  destruct (mapM _ bins) as [ix|]; cbn [bind]; [|discriminate].
  assert (Px : In x (unique bins)) by (apply Hu; exact Hx).
  assert (Pe : forall keys, ~ In x keys -> exists e, position eqb x keys = Err e).
  { induction keys as [|k keys IH]; intro Q; cbn [position]; [eexists; reflexivity|].
    destruct (eqb k x) eqn:E; [exfalso; apply Q; left; apply He; exact E|].
    destruct IH as (e & ->); [intro Z; apply Q; right; exact Z|]. eexists. reflexivity. }
  assert (De : forall labels s, In x labels -> exists e, draw_runs uniform eqb (map fst nz_dict) (map snd nz_dict) z bins labels s = Err e).
  { clear - Pe Hk. induction labels as [|y labels IH]; intros s Hl; [destruct Hl|]. cbn [draw_runs].
    destruct (position eqb y (map fst nz_dict)) as [i|e] eqn:Ep; cbn [bind]; [|eexists; reflexivity].
    destruct Hl as [->|Hl]; [destruct (Pe _ Hk) as (e & Q); congruence|].
    destruct (index _ i) as [nz|e]; cbn [bind]; [|eexists; reflexivity].
    destruct (draw_nz _ _ _ _ _) as [[run s1]|e]; cbn [bind]; [|eexists; reflexivity].
    destruct (IH s1 Hl) as (e & ->). eexists; reflexivity. }
  destruct (De (unique bins) s Px) as (e & ->). discriminate.
Qed.
Print Assumptions bins_unknown_label.

Example bins_unknown_example :
  redshifts_from_bins (fun (s : nat) n => (repeat (1 / 2) n, s)) Nat.eqb (fun l => l) (fun v => v)
    [5]%nat [0; 1; 2] [(4%nat, [0; 3; 0])] 0%nat = Err ValueError.
Proof. reflexivity. Qed.

(** C48 *)

(** With reduced shear, object [i] gets its own ellipticity sheared by the maps at its own pixel,
    [(eps + g) / (1 + conj(g) eps)] with [g = gamma / (1 - kappa)]; without, shear is added.  The number
    of objects handled in one step does not matter. *)
Theorem galaxy_shear_objects ang2pix npix2nside chunk lon lat eps kappa gamma1 gamma2 reduced nside :
  (0 < chunk)%nat -> length lon = length eps -> length lat = length eps ->
  length gamma1 = length kappa -> length gamma2 = length kappa -> npix2nside (length kappa) = Ok nside ->
  (forall x y, (ang2pix nside x y < length kappa)%nat) ->
  exists out, galaxy_shear ang2pix npix2nside chunk lon lat eps kappa gamma1 gamma2 reduced = Ok out /\
    length out = length eps /\
    forall i x y e k g1 g2, nth_error lon i = Some x -> nth_error lat i = Some y -> nth_error eps i = Some e ->
      nth_error kappa (ang2pix nside x y) = Some k -> nth_error gamma1 (ang2pix nside x y) = Some g1 ->
      nth_error gamma2 (ang2pix nside x y) = Some g2 ->
      nth_error out i = Some
        (if reduced then
           let g : C := Cdiv (g1, g2) (RtoC (1 - k)) in
           Cdiv (Cplus e g) (Cplus (RtoC 1) (Cmult (Cconj g) e))
         else Cplus e (g1, g2)).
Proof.
  intros Hc H1 H2 H3 H4 Hn Hp. unfold galaxy_shear, bsize.
  rewrite H3, Nat.eqb_refl. cbn [bind]. rewrite H4, Nat.eqb_refl. cbn [bind]. rewrite Hn. cbn [bind].
  rewrite H1, H2, Nat.eqb_refl. cbn [bind]. rewrite Nat.eqb_refl. cbn [bind].
  set (pix := map (fun p => ang2pix nside (fst p) (snd p)) (combine lon lat)).
  assert (Fp : forall m : list R, length m = length kappa -> Forall (fun i => i < length m)%nat pix).
  { intros m Hm. apply Forall_forall. intros i Hi. unfold pix in Hi. apply in_map_iff in Hi as ([x y] & <- & _). rewrite Hm. apply Hp. }
  destruct (mapM_index_ok kappa pix (Fp _ eq_refl)) as (K & EK & NK).
  destruct (mapM_index_ok gamma1 pix (Fp _ H3)) as (G1 & E1 & N1).
  destruct (mapM_index_ok gamma2 pix (Fp _ H4)) as (G2 & E2 & N2).
  assert (LP : length pix = length eps) by (unfold pix; rewrite map_length, combine_length; lia).
  assert (LK : length K = length eps) by (apply mapM_ok, forall2_length in EK; lia).
  assert (L1 : length G1 = length eps) by (apply mapM_ok, forall2_length in E1; lia).
  assert (L2 : length G2 = length eps) by (apply mapM_ok, forall2_length in E2; lia).
  assert (Hll : length lon = length lat) by lia.
  pose proof (lens_loop_spec (ang2pix nside) lon lat kappa gamma1 gamma2 K G1 G2 Hll EK E1 E2 chunk (length eps + 1) 0
    (repeat 0 (length eps)) (repeat (RtoC 0) (length eps)) Hc) as El.
  rewrite H1 in El. rewrite El; [|lia|apply repeat_length|apply repeat_length|reflexivity|reflexivity]. cbn [bind].
  assert (LG : length (combine G1 G2) = length eps) by (rewrite combine_length; lia).
  assert (Np : forall i x y, nth_error lon i = Some x -> nth_error lat i = Some y -> nth_error pix i = Some (ang2pix nside x y)).
  { intros i x y Hx Hy. unfold pix. rewrite nth_error_map', nth_error_combine, Hx, Hy. reflexivity. }
  destruct reduced.
  - unfold bzip. rewrite map_length, combine_length. unfold C in *. rewrite LG, LK, Nat.min_id, Nat.eqb_refl.
    eexists. split; [reflexivity|]. split; [rewrite map_length, combine_length, map_length, combine_length; lia|].
    intros i x y e k g1 g2 Hx Hy He Hk Hg1 Hg2. specialize (Np i x y Hx Hy).
    rewrite nth_error_map', nth_error_combine, He, nth_error_map', nth_error_combine, nth_error_combine.
    rewrite (NK i _ Np), (N1 i _ Np), (N2 i _ Np), Hk, Hg1, Hg2. reflexivity.
  - unfold bzip. unfold C in *. rewrite LG, Nat.eqb_refl.
    eexists. split; [reflexivity|]. split; [rewrite map_length, combine_length; lia|].
    intros i x y e k g1 g2 Hx Hy He Hk Hg1 Hg2. specialize (Np i x y Hx Hy).
    rewrite nth_error_map', nth_error_combine, He, nth_error_combine.
    rewrite (N1 i _ Np), (N2 i _ Np), Hg1, Hg2. reflexivity.
Qed.
Print Assumptions galaxy_shear_objects.

(** Three objects, two at a time. *)
Example galaxy_shear_example :
  galaxy_shear (fun _ x _ => if leb x 1 then 0%nat else 1%nat) (fun _ => Ok 1%nat) 2
    [2; 0; 3] [0; 0; 0] [RtoC 1; RtoC 2; RtoC 3] [0; 0] [10; 20] [0; 1] false
    = Ok [(1 + 20, 0 + 1); (2 + 10, 0 + 0); (3 + 20, 0 + 1)].
Proof. unfold galaxy_shear. cbn. reals. cbn. reals. cbn. reflexivity. Qed.

(** Shapes inside the unit disc stay there under a reduced shear inside the unit disc, and the
    opposite shear undoes the shear. *)
Theorem reduced_shear_disc (eps g : C) : Cmod eps < 1 -> Cmod g < 1 ->
  Cmod (lensed eps g) < 1 /\ lensed (lensed eps g) (Copp g) = eps.
Proof. intros He Hg. split; [apply lensed_disc; assumption|apply lensed_inverse; lra]. Qed.
Print Assumptions reduced_shear_disc.

(** Shapes on the unit circle stay on it. *)
Theorem reduced_shear_circle (eps g : C) : Cmod eps = 1 -> Cmod g < 1 -> Cmod (lensed eps g) = 1.
Proof. apply lensed_circle. Qed.
Print Assumptions reduced_shear_circle.

Example reduced_shear_example :
  lensed (RtoC (1 / 2)) (RtoC (1 / 2)) = RtoC (4 / 5) /\ lensed (RtoC (4 / 5)) (Copp (RtoC (1 / 2))) = RtoC (1 / 2).
Proof.
  unfold lensed, Cdiv, Cplus, Cmult, Cinv, Cconj, Copp, RtoC. cbn. split; f_equal; field.
Qed.

(** Positions given once for all objects work for as many objects as are handled in one step,
    and are an error for more. *)
Theorem galaxy_shear_one_position_refuted ang2pix npix2nside chunk x y eps kappa gamma1 gamma2 reduced nside :
  (0 < chunk)%nat -> (1 < length eps)%nat -> length gamma1 = length kappa -> length gamma2 = length kappa ->
  npix2nside (length kappa) = Ok nside -> (ang2pix nside x y < length kappa)%nat ->
  ((length eps <= chunk)%nat -> exists out,
     galaxy_shear ang2pix npix2nside chunk [x] [y] eps kappa gamma1 gamma2 reduced = Ok out /\ length out = length eps) /\
  ((chunk < length eps)%nat ->
     galaxy_shear ang2pix npix2nside chunk [x] [y] eps kappa gamma1 gamma2 reduced = Err ValueError).
Proof.
  intros Hc He H3 H4 Hn Hp.
  destruct (nth_error kappa (ang2pix nside x y)) as [k|] eqn:Ek; [|apply nth_error_None in Ek; lia].
  destruct (nth_error gamma1 (ang2pix nside x y)) as [g1|] eqn:E1; [|apply nth_error_None in E1; lia].
  destruct (nth_error gamma2 (ang2pix nside x y)) as [g2|] eqn:E2; [|apply nth_error_None in E2; lia].
  assert (B1 : forall m, bsize m m = Ok m) by (intro m; unfold bsize; rewrite Nat.eqb_refl; reflexivity).
  assert (B2 : bsize 1 (length eps) = Ok (length eps)).
  { unfold bsize. destruct (Nat.eqb_spec 1 (length eps)); [lia|reflexivity]. }
  unfold galaxy_shear. rewrite H3, B1. cbn [bind]. rewrite H4, B1. cbn [bind]. rewrite Hn. cbn [bind].
  cbn [length]. rewrite B1. cbn [bind]. rewrite B2. cbn [bind].
  replace (length eps + 1)%nat with (S (S (length eps - 1))) by lia.
  destruct (lens_loop_single (ang2pix nside) chunk (length eps - 1) (length eps) x y kappa gamma1 gamma2
    (repeat 0 (length eps)) (repeat (RtoC 0) (length eps)) k g1 g2 Hc He) as [W1 W2]; try assumption; try apply repeat_length.
  split; intro L; [|rewrite (W2 L); reflexivity].
  destruct (W1 L) as (k' & g' & -> & Lk & Lg). cbn [bind]. unfold bzip, C in *.
  destruct reduced.
  - rewrite map_length, combine_length, Lk, Lg, Nat.min_id, Nat.eqb_refl. eexists. split; [reflexivity|].
    rewrite map_length, combine_length, map_length, combine_length. lia.
  - rewrite Lg, Nat.eqb_refl. eexists. split; [reflexivity|]. rewrite map_length, combine_length. lia.
Qed.
Print Assumptions galaxy_shear_one_position_refuted.

Example galaxy_shear_one_position_example : forall chunk, (0 < chunk)%nat ->
  galaxy_shear (fun _ _ _ => 0%nat) (fun _ => Ok 1%nat) chunk [0] [0] (repeat (RtoC 0) (chunk + 1)) [0] [0] [0] true = Err ValueError.
Proof.
  intros chunk H. apply (galaxy_shear_one_position_refuted _ _ _ _ _ _ _ _ _ _ 1%nat); rewrite ?repeat_length; try lia; try reflexivity.
  cbn. lia.
Qed.

(** C49 *)

(** Result number [i] is the first of the values drawn for it, in one round after another, that
    lies between its bounds; the bounds default to zero and infinity.  The last round was needed
    for some entry. *)
Theorem photometric_redshifts {S} (normal : S -> list R -> list R -> list R * S) fuel z sigma_0 lower upper s out s' :
  (forall s zs sigmas, length (fst (normal s zs sigmas)) = length zs) ->
  gaussian_phz normal fuel z sigma_0 lower upper s = Ok (out, s') ->
  exists zs sigmas lo up rounds,
    (match z with Sc x => Forall (eq x) zs | Ar [x] => Forall (eq x) zs | Ar l => zs = l end) /\
    length lo = length zs /\ length up = length zs /\ length out = length zs /\
    (match lower with None => Forall (eq 0) lo | Some (Sc l) => Forall (eq l) lo | Some (Ar l) => lo = l end) /\
    (match upper with None => Forall (eq None) up | Some (Sc u) => Forall (eq (Some u)) up | Some (Ar l) => up = map Some l end) /\
    (forall i l u, nth_error lo i = Some l -> nth_error up i = Some (Some u) -> l < u) /\
    draws (fun s p => normal s (fst p) (snd p)) s (repeat (zs, sigmas) (length rounds)) rounds s' /\
    rounds <> [] /\
    (forall i l u, nth_error lo i = Some l -> nth_error up i = Some u ->
       first_accepted (within_bounds l u) (column i rounds) (nth i out 0)) /\
    (forall before d, rounds = before ++ [d] -> before <> [] -> exists i l u, nth_error lo i = Some l /\ nth_error up i = Some u /\
       Forall (fun x => ~ within_bounds l u x) (column i before)).
Proof.
  intros Hl. unfold gaussian_phz.
  destruct (amap2 _ z sigma_0) as [sigma|] eqn:Es; cbn [bind]; [|discriminate].
  set (n := match sigma with Sc _ => 1%nat | Ar l => length l end).
  destruct (match z with Ar [x] => _ | _ => _ end) as [zs|] eqn:Ez; cbn [bind]; [|discriminate].
  destruct (entries n sigma) as [sigmas|] eqn:Eg; cbn [bind]; [|discriminate].
  destruct (entries n (match lower with None => _ | Some _ => _ end)) as [lo|] eqn:Elo; cbn [bind]; [|discriminate].
  destruct (entries n (match upper with None => _ | Some _ => _ end)) as [up|] eqn:Eup; cbn [bind]; [|discriminate].
  destruct (normal s zs sigmas) as [zphot s1] eqn:En.
  destruct (forallb _ _) eqn:Eb; [|discriminate]. intro H.
  assert (En_len : forall A (a : arr A) l, entries n a = Ok l -> length l = n).
  { intros A a l. unfold entries. destruct a as [x|m]; [intros [= <-]; apply repeat_length|].
    destruct (Nat.eqb_spec (length m) n); [|discriminate]. intros [= <-]. assumption. }
  assert (En_val : forall A (a : arr A) l, entries n a = Ok l -> match a with Sc x => Forall (eq x) l | Ar m => l = m end).
  { intros A a l. unfold entries. destruct a as [x|m].
    - intros [= <-]. apply Forall_forall. intros y Hy. apply repeat_spec in Hy. congruence.
    - destruct (Nat.eqb_spec (length m) n); [|discriminate]. intros [= <-]. reflexivity. }
  assert (Lz : length zs = n).
  { destruct z as [x|[|x [|y l]]]; try (apply En_len in Ez; exact Ez). injection Ez as <-. apply repeat_length. }
  assert (Llo : length lo = length zs) by (apply En_len in Elo; lia).
  assert (Lup : length up = length zs) by (apply En_len in Eup; lia).
  assert (Lp : length zphot = length zs) by (pose proof (Hl s zs sigmas) as Q; rewrite En in Q; exact Q).
  apply (redraw_spec normal Hl zs sigmas lo up Llo Lup fuel zphot s1 out s' Lp) in H.
  destruct H as (rounds & Hd & Lo & Lr & Hf & Hm).
  exists zs, sigmas, lo, up, (zphot :: rounds).
  assert (Nlo : forall i l, nth_error lo i = Some l -> (i < length zs)%nat /\ nth i lo 0 = l).
  { intros i l Q. split; [rewrite <- Llo; apply nth_error_Some; congruence|apply nth_error_nth; exact Q]. }
  repeat match goal with |- _ /\ _ => split end.
  - destruct z as [x|[|x [|y l]]]; try (apply En_val in Ez; exact Ez).
    injection Ez as <-. apply Forall_forall. intros y Hy. apply repeat_spec in Hy. congruence.
  - exact Llo.
  - exact Lup.
  - exact Lo.
  - apply En_val in Elo. destruct lower as [[l|l]|]; exact Elo.
  - apply En_val in Eup. destruct upper as [[l|l]|]; exact Eup.
  - intros i l u Q1 Q2. rewrite forallb_forall in Eb. specialize (Eb (l, Some u)).
    cbn in Eb. unfold ltb in Eb. destruct (Rlt_dec l u) as [L|L]; [exact L|]. exfalso.
    assert (X : false = true); [|discriminate]. apply Eb. eapply nth_error_In. rewrite nth_error_combine, Q1, Q2. reflexivity.
  - cbn [length repeat]. econstructor; [exact En|exact Hd].
  - discriminate.
  - intros i l u Q1 Q2. destruct (Nlo i l Q1) as [L E]. rewrite <- E, <- (nth_error_nth up i None Q2). apply Hf. exact L.
  - intros before d Q Hne. destruct before as [|b before]; [contradiction|]. injection Q as <- Q.
    destruct (Hm before d Q) as (i & Hi & Hx). exists i, (nth i lo 0), (nth i up None).
    split; [apply nth_error_nth'; lia|]. split; [apply nth_error_nth'; lia|]. exact Hx.
Qed.
Print Assumptions photometric_redshifts.

(** In particular every result is between its bounds. *)
Theorem photometric_redshifts_bounds {S} (normal : S -> list R -> list R -> list R * S) fuel z sigma_0 lower upper s out s' x :
  (forall s zs sigmas, length (fst (normal s zs sigmas)) = length zs) ->
  gaussian_phz normal fuel z sigma_0 (option_map Sc lower) (option_map Sc upper) s = Ok (out, s') -> In x out ->
  match lower with None => 0 | Some l => l end <= x /\ forall u, upper = Some u -> x <= u.
Proof.
  intros Hl H Hx. apply photometric_redshifts in H; [|exact Hl].
  destruct H as (zs & sigmas & lo & up & rounds & _ & Llo & Lup & Lo & Hlo & Hup & _ & _ & _ & Hf & _).
  apply In_nth_error in Hx as (i & Hi).
  assert (L : (i < length zs)%nat) by (rewrite <- Lo; apply nth_error_Some; congruence).
  destruct (nth_error lo i) as [l|] eqn:E1; [|apply nth_error_None in E1; lia].
  destruct (nth_error up i) as [u|] eqn:E2; [|apply nth_error_None in E2; lia].
  specialize (Hf i l u E1 E2). rewrite (nth_error_nth out i 0 Hi) in Hf.
  assert (W : within_bounds l u x). { clear - Hf. induction Hf; assumption. }
  apply nth_error_In in E1, E2. destruct W as [W1 W2]. split.
  - destruct lower as [l0|]; cbn in Hlo; rewrite Forall_forall in Hlo; rewrite (Hlo l E1); exact W1.
  - intros u0 ->. cbn in Hup. rewrite Forall_forall in Hup. apply W2. symmetry. apply Hup. exact E2.
Qed.
Print Assumptions photometric_redshifts_bounds.

(** The loop ends as soon as every entry has had an acceptable value. *)
Theorem photometric_redshifts_end {S} (normal : S -> list R -> list R -> list R * S) fuel x sigma_0 lo up s rounds s1 n :
  (forall s zs sigmas, length (fst (normal s zs sigmas)) = length zs) ->
  (match up with Some u => lo < u | None => True end) ->
  draws (fun s p => normal s (fst p) (snd p)) s (repeat (repeat x n, repeat ((1 + x) * sigma_0) n) (length rounds)) rounds s1 ->
  (1 <= length rounds <= fuel)%nat ->
  (forall i, (i < n)%nat -> exists v, first_accepted (within_bounds lo up) (column i rounds) v) ->
  exists out s', gaussian_phz normal fuel (Ar (repeat x n)) (Sc sigma_0) (Some (Sc lo)) (option_map Sc up) s = Ok (out, s').
Proof.
  intros Hl Hb Hd Hr Hv. unfold gaussian_phz. cbn [amap2 bind]. rewrite map_length, repeat_length.
  assert (Em : map (fun y => (1 + y) * sigma_0) (repeat x n) = repeat ((1 + x) * sigma_0) n).
  { clear. induction n as [|n IH]; cbn; [reflexivity|rewrite IH; reflexivity]. }
  rewrite Em.
  assert (Ez : match Ar (repeat x n) with Ar [x] => Ok (repeat x n) | _ => entries n (Ar (repeat x n)) end = Ok (repeat x n)).
  { cbn [entries]. rewrite repeat_length, Nat.eqb_refl. destruct n as [|[|n]]; reflexivity. }
  rewrite Ez. cbn [bind]. cbn [entries]. rewrite repeat_length, Nat.eqb_refl. cbn [bind].
  assert (Eu : entries n match option_map Sc up with None => Sc None | Some (Sc u) => Sc (Some u) | Some (Ar l) => Ar (map Some l) end = Ok (repeat up n))
    by (destruct up; reflexivity).
  rewrite Eu. cbn [bind].
  destruct rounds as [|zphot rounds]; [cbn in Hr; lia|]. cbn [length repeat] in Hd, Hr.
  inversion Hd as [|? ? ? ? ? s2 ? D1 D2]; subst. cbn [fst snd] in D1. rewrite D1.
  assert (Ef : forallb (fun p => below (fst p) (snd p)) (combine (repeat lo n) (repeat up n)) = true).
  { apply forallb_forall. intros [a b] Q. apply in_combine_l in Q as Q1. apply in_combine_r in Q as Q2.
    apply repeat_spec in Q1, Q2. subst. cbn. destruct up as [u|]; [|reflexivity]. cbn. apply ltb_true. exact Hb. }
  rewrite Ef.
  assert (Lq : length zphot = length (repeat x n)).
  { pose proof (Hl s (repeat x n) (repeat ((1 + x) * sigma_0) n)) as Q. rewrite D1 in Q. exact Q. }
  apply (redraw_ends normal Hl (repeat x n) (repeat ((1 + x) * sigma_0) n) (repeat lo n) (repeat up n)
    ltac:(rewrite !repeat_length; reflexivity) ltac:(rewrite !repeat_length; reflexivity) rounds fuel zphot _ s1 Lq);
    [lia|exact D2|].
  rewrite repeat_length. intros i Hi. destruct (Hv i Hi) as (v & Q). exists v.
  assert (Nr : forall A (a d : A), nth i (repeat a n) d = a).
  { intros A a d. apply nth_error_nth. apply nth_error_repeat. exact Hi. }
  rewrite !Nr. exact Q.
Qed.
Print Assumptions photometric_redshifts_end.

(** Contradictory bounds are rejected. *)
Theorem photometric_redshifts_contradictory {S} (normal : S -> list R -> list R -> list R * S) fuel x sigma_0 lo up s :
  up <= lo -> gaussian_phz normal fuel (Sc x) (Sc sigma_0) (Some (Sc lo)) (Some (Sc up)) s = Err ValueError.
Proof.
  intro H. unfold gaussian_phz. cbn. destruct (normal s [x] [(1 + x) * sigma_0]) as [zphot s1].
  rewrite ltb_false by lra. reflexivity.
Qed.
Print Assumptions photometric_redshifts_contradictory.

(** Two entries; the second one is drawn again once, and the value drawn again for the first one is not used. *)
Example photometric_example :
  gaussian_phz (fun (s : nat) zs sigmas => (match s with O => [1; -3] | _ => [7; 2] end, (s + 1)%nat)) 5
    (Ar [1; 2]) (Sc 1) None None 0%nat = Ok ([1; 2], 2%nat).
Proof. cbn. unfold outside. reals. cbn. unfold outside. reals. cbn. reflexivity. Qed.

(** C63 *)

(** The alignment signal is proportional to the density contrast and to the amplitude. *)
Theorem alignment_linear cosmo delta zeff a_ia z0 eta lbar l0 beta out :
  kappa_ia_nla cosmo delta zeff a_ia z0 eta lbar l0 beta = Ok out ->
  exists c, out = map (fun d => a_ia * (c * d)) delta /\
    forall delta' a', kappa_ia_nla cosmo delta' zeff a' z0 eta lbar l0 beta = Ok (map (fun d => a' * (c * d)) delta').
Proof.
  unfold kappa_ia_nla.
  destruct (fdiv _ (h cosmo * h cosmo)) as [c1|]; cbn [bind]; [|discriminate].
  destruct (fdiv 1 _) as [gr|]; cbn [bind]; [|discriminate].
  destruct (fdiv (1 + zeff) _) as [zr|]; cbn [bind]; [|discriminate].
  destruct (fpow zr eta) as [rd|]; cbn [bind]; [|discriminate].
  destruct (fdiv lbar l0) as [lr|]; cbn [bind]; [|discriminate].
  destruct (fpow lr beta) as [ld|]; cbn [bind]; [|discriminate].
  intros [= <-]. exists (- (c1 * critical_density0 cosmo) * Omega_m0 cosmo * gr * rd * ld). split.
  - apply map_ext. intro d. ring.
  - intros. f_equal. apply map_ext. intro d. ring.
Qed.
Print Assumptions alignment_linear.

(** The whole formula: [- A C1 rho_c Omega_m / D(z) ((1 + z) / (1 + z0))^eta (L / L0)^beta delta]. *)
Theorem alignment_formula cosmo delta zeff a_ia z0 eta lbar l0 beta :
  h cosmo <> 0 -> growth_factor cosmo zeff <> 0 -> 0 < 1 + zeff -> 0 < 1 + z0 -> 0 < lbar -> 0 < l0 ->
  kappa_ia_nla cosmo delta zeff a_ia z0 eta lbar l0 beta =
    Ok (map (fun d => - a_ia * (5 / 10 ^ 14 / (h cosmo) ^ 2) * critical_density0 cosmo * Omega_m0 cosmo / growth_factor cosmo zeff *
              exp (eta * (ln (1 + zeff) - ln (1 + z0))) * exp (beta * (ln lbar - ln l0)) * d) delta).
Proof.
  intros Hh Hg H1 H2 H3 H4. unfold kappa_ia_nla, fdiv.
  destruct (Req_EM_T (h cosmo * h cosmo) 0) as [E|_]; [apply Rmult_integral in E; destruct E; contradiction|]. cbn [bind].
  destruct (Req_EM_T (growth_factor cosmo zeff) 0) as [E|_]; [contradiction|]. cbn [bind].
  destruct (Req_EM_T (1 + z0) 0) as [E|_]; [lra|]. cbn [bind].
  assert (P : forall a b y, 0 < a -> 0 < b -> fpow (a / b) y = Ok (exp (y * (ln a - ln b)))).
  { intros a b y Ha Hb. assert (0 < a / b) by (apply Rdiv_lt_0_compat; assumption).
    unfold fpow. destruct (Req_EM_T y 0) as [->|Hy]; [rewrite Rmult_0_l, exp_0; reflexivity|].
    destruct (Req_EM_T (a / b) 0); [lra|]. destruct (Rlt_dec 0 (a / b)); [|lra].
    unfold Rpower. rewrite ln_div by assumption. reflexivity. }
  rewrite P by assumption. cbn [bind].
  destruct (Req_EM_T l0 0) as [E|_]; [lra|]. cbn [bind]. rewrite P by assumption. cbn [bind].
  f_equal. apply map_ext. intro d. field. split; assumption.
Qed.
Print Assumptions alignment_formula.

(** No luminosity dependence by default ([lbar = 0], [beta = 0]), nor at the pivot luminosity; no redshift
    dependence beyond growth at the pivot redshift or for [eta = 0]. *)
Theorem alignment_pivots cosmo delta a_ia z0 zeff lbar beta eta l0 :
  h cosmo <> 0 -> growth_factor cosmo zeff <> 0 -> 0 < 1 + z0 -> 0 < 1 + zeff -> l0 <> 0 -> 0 <= lbar ->
  beta = 0 \/ lbar = l0 -> eta = 0 \/ zeff = z0 ->
  kappa_ia_nla cosmo delta zeff a_ia z0 eta lbar l0 beta =
    Ok (map (fun d => - a_ia * (5 / 10 ^ 14 / (h cosmo) ^ 2) * critical_density0 cosmo * Omega_m0 cosmo / growth_factor cosmo zeff * d) delta).
Proof.
  intros Hh Hg Hz Hze Hl Hlb Hb He. unfold kappa_ia_nla, fdiv.
  destruct (Req_EM_T (h cosmo * h cosmo) 0) as [E|_]; [apply Rmult_integral in E; destruct E; contradiction|]. cbn [bind].
  destruct (Req_EM_T (growth_factor cosmo zeff) 0) as [E|_]; [contradiction|]. cbn [bind].
  destruct (Req_EM_T (1 + z0) 0) as [E|_]; [lra|]. cbn [bind].
  assert (One : forall y, fpow 1 y = Ok 1).
  { intro y. unfold fpow. destruct (Req_EM_T y 0); [reflexivity|]. destruct (Req_EM_T 1 0); [lra|].
    destruct (Rlt_dec 0 1); [|lra]. unfold Rpower. rewrite ln_1, Rmult_0_r, exp_0. reflexivity. }
  assert (Zero : forall x, fpow x 0 = Ok 1) by (intro x; unfold fpow; destruct (Req_EM_T 0 0); [reflexivity|contradiction]).
  assert (E1 : fpow ((1 + zeff) / (1 + z0)) eta = Ok 1).
  { destruct He as [-> | ->]; [apply Zero|]. unfold Rdiv. rewrite Rinv_r by lra. apply One. }
  rewrite E1. cbn [bind].
  destruct (Req_EM_T l0 0) as [E|_]; [contradiction|]. cbn [bind].
  assert (E2 : fpow (lbar / l0) beta = Ok 1).
  { destruct Hb as [-> | ->]; [apply Zero|]. unfold Rdiv. rewrite Rinv_r by assumption. apply One. }
  rewrite E2. cbn [bind]. f_equal. apply map_ext. intro d. field. split; assumption.
Qed.
Print Assumptions alignment_pivots.

Example alignment_example :
  kappa_ia_nla {| h := 1; critical_density0 := 10 ^ 14; Omega_m0 := 1 / 5; growth_factor := fun _ => 2 |}
    [4; -2] 1 3 0 0 0 1 0 = Ok [-6; 3].
Proof.
  rewrite alignment_pivots; cbn [h critical_density0 Omega_m0 growth_factor]; try lra.
  cbn [map]. f_equal. f_equal; [field|]. f_equal. field.
Qed.
