(** Theorems about covariance rows, covariance matrices, Gaussian spectra and [generate]. *)
From Verif Require Import Base Model_Spectra Spec_Spectra Proof_Spectra.
From Verif Require Import Model_Fields Spec_Fields Proof_Fields.

(** C11 *)
(** [m] is the first field with a negative auto-spectrum ([nf] if there is none): the
    generator yields exactly the [m] rows before it, each correct, and then raises. *)
Theorem cls2cov_rows {A} (zero : A) (half : A -> A) (neg : A -> bool) (cls : list (list A)) nl nf nc m :
  half zero = zero ->
  triangle nf (length cls) -> (forall cl, In cl cls -> length cl <= nl) ->
  m <= nf ->
  (forall i, i < m -> ~ negative_auto neg cls i) -> (m < nf -> negative_auto neg cls m) ->
  let '(rows, e) := cls2cov zero half neg cls nl nf nc in
  length rows = m /\
  (forall j row, nth_error rows j = Some row -> covariance_row zero half cls nl nc j row) /\
  e = if m <? nf then Some ValueError else None.
Proof. intro H. exact (cls2cov_ok zero half neg H cls nf nl nc m). Qed.
Print Assumptions cls2cov_rows.

Example cls2cov_rows_example :
  let cls := [[2;4]; [6;8]; [10]; [12;14]; [16;18]; [20;22]]%Z in
  triangle 3 (length cls) /\ (forall cl, In cl cls -> length cl <= 2) /\
  (forall i, i < 3 -> ~ negative_auto (fun x => x <? 0)%Z cls i) /\
  cls2cov 0%Z (fun x => x / 2)%Z (fun x => x <? 0)%Z cls 2 3 1 =
    ([[[1;2]; [0;0]]; [[3;4]; [5;0]]; [[6;7]; [8;9]]]%Z, None).
Proof.
  cbv zeta. split; [reflexivity|]. split.
  { intros cl H. cbn in H. repeat (destruct H as [<-|H]; [cbn; lia|]). contradiction. }
  split; [|reflexivity].
  intros i _ (cl & x & (k & _ & Hk) & Hx & Hn). apply nth_error_In in Hk. cbn in Hk.
  repeat (destruct Hk as [<-|Hk]; [cbn in Hx; repeat (destruct Hx as [<-|Hx]; [discriminate Hn|]); contradiction|]).
  contradiction.
Qed.
Example cls2cov_negative_example :
  let cls := [[2;4]; [6;-8]; [10]]%Z in
  negative_auto (fun x => x <? 0)%Z cls 1 /\
  cls2cov 0%Z (fun x => x / 2)%Z (fun x => x <? 0)%Z cls 2 2 1 = ([[[1;2]; [0;0]]]%Z, Some ValueError).
Proof.
  split; [|reflexivity]. exists [6;-8]%Z, (-8)%Z. split; [|split; [right; left|]; reflexivity].
  exists 1. split; [|reflexivity]. unfold in_order. cbn. lia.
Qed.

(** C12 *)
(** The [i]-th yield is the address allocated by the call, whose content at that moment is the
    [i]-th row of C11, and nothing else in memory has changed. *)
Theorem cls2cov_lazy_rows {A} (zero : A) half neg (h : heap) (cls : list (list A)) nl nf nc :
  let '(rows, e) := cls2cov zero half neg cls nl nf nc in
  let '(yields, e') := cls2cov_heap zero half neg h cls nl nf nc in
  e' = e /\ length yields = length rows /\
  forall i H a, nth_error yields i = Some (H, a) ->
    a = length h /\ nth_error H a = nth_error rows i /\
    forall b, b < length h -> nth_error H b = nth_error h b.
Proof.
  unfold cls2cov, cls2cov_heap.
  pose proof (cov_rows_heap_sim zero half neg cls nl nc nf 0 0 (length h)
    (h ++ [repeat (repeat zero nl) (nc + 1)]) (repeat (repeat zero nl) (nc + 1))) as S.
  assert (E : nth_error (h ++ [repeat (repeat zero nl) (nc + 1)]) (length h)
              = Some (repeat (repeat zero nl) (nc + 1))).
  { rewrite nth_error_app, Nat.ltb_irrefl, Nat.sub_diag. reflexivity. }
  specialize (S E).
  destruct (cov_rows zero half neg cls nl nc nf 0 0 _) as [rows e].
  destruct (cov_rows_heap _ _ _ _ _ _ _ _ _ _ _) as [yields e'].
  destruct S as (S1 & S2 & S3). split; [congruence|]. split; [exact S2|].
  intros i H a Hy. destruct (S3 i H a Hy) as (T1 & T2 & T3). split; [exact T1|]. split; [exact T2|].
  intros b Hb. rewrite (T3 b) by lia. rewrite nth_error_app. apply Nat.ltb_lt in Hb. rewrite Hb. reflexivity.
Qed.
Print Assumptions cls2cov_lazy_rows.

(** For every history with at least two rows, all yields are one object, so reading an earlier
    row after a later step gives the later row. *)
Theorem cls2cov_yields_alias {A} (zero : A) half neg (h : heap) (cls : list (list A)) nl nf nc
    i j H1 a1 H2 a2 :
  let yields := fst (cls2cov_heap zero half neg h cls nl nf nc) in
  let rows := fst (cls2cov zero half neg cls nl nf nc) in
  nth_error yields i = Some (H1, a1) -> nth_error yields j = Some (H2, a2) ->
  a1 = a2 /\ nth_error H2 a1 = nth_error rows j.
Proof.
  cbv zeta. intros E1 E2. pose proof (cls2cov_lazy_rows zero half neg h cls nl nf nc) as S.
  destruct (cls2cov zero half neg cls nl nf nc) as [rows e].
  destruct (cls2cov_heap zero half neg h cls nl nf nc) as [yields e']. destruct S as (_ & _ & S).
  cbn [fst] in *. destruct (S i H1 a1 E1) as (-> & _). destruct (S j H2 a2 E2) as (-> & R & _). auto.
Qed.
Print Assumptions cls2cov_yields_alias.

(** Storing the yielded arrays, as [list(cls2cov(...))] does, loses all rows but the last. *)
Theorem cls2cov_stored_rows_refuted :
  ~ (forall (cls : list (list Z)) nl nf nc i H a Hend aend,
      let half := (fun x => x / 2)%Z in let neg := (fun x => x <? 0)%Z in
      let yields := fst (cls2cov_heap 0%Z half neg [] cls nl nf nc) in
      nth_error yields i = Some (H, a) ->
      nth_error yields (length yields - 1) = Some (Hend, aend) ->
      nth_error Hend a = nth_error (fst (cls2cov 0%Z half neg cls nl nf nc)) i).
Proof.
  intro H. specialize (H [[2]; [4]; [6]]%Z 1 2 1 0 _ _ _ _ eq_refl eq_refl). discriminate H.
Qed.
Print Assumptions cls2cov_stored_rows_refuted.

Example cls2cov_alias_example :
  cls2cov_heap 0%Z (fun x => x / 2)%Z (fun x => x <? 0)%Z [] [[2]; [4]; [6]]%Z 1 2 1 =
  ([([[[1]; [0]]]%Z, 0); ([[[2]; [3]]]%Z, 0)], None).
Proof. reflexivity. Qed.

(** C14 *)
Theorem cov_from_spectra_entries {A} (zero : A) (cls : list (list A)) n lmax :
  cls <> [] -> triangle n (length cls) ->
  exists c, cov_from_spectra zero (map Some cls) lmax = Ok c /\ cn c = n /\
    match lmax with Some lm => ck c = lm + 1 | None => longest cls (ck c) end /\
    covariance_of zero cls (ck c) n (cget c).
Proof. exact (cov_from_spectra_ok zero cls n lmax). Qed.
Print Assumptions cov_from_spectra_entries.

Theorem cov_from_spectra_symmetric {A} (zero : A) (cls : list (list A)) n lmax c :
  triangle n (length cls) -> cov_from_spectra zero (map Some cls) lmax = Ok c ->
  forall l i j, l < ck c -> i < n -> j < n -> cget c l i j = cget c l j i.
Proof.
  intros Ht E l i j Hl Hi Hj.
  assert (Hne : cls <> []) by (intros ->; unfold triangle in Ht; cbn in Ht; nia).
  destruct (cov_from_spectra_entries zero cls n lmax Hne Ht) as (c' & E' & _ & _ & C).
  rewrite E in E'. injection E' as <-.
  destruct (C l i j Hl Hi Hj) as (cl & S & ->). destruct (C l j i Hl Hj Hi) as (cl' & S' & ->).
  f_equal. eapply spectrum_unique; [exact S|]. unfold spectrum_of in *.
  rewrite Nat.max_comm, Nat.min_comm. exact S'.
Qed.
Print Assumptions cov_from_spectra_symmetric.

(** With a regularisation that changes nothing, each spectrum comes back in its place, cut or zero
    padded to the common number of modes. *)
Theorem regularized_spectra_identity {A} (zero : A) (cls : list (list A)) n lmax :
  cls <> [] -> triangle n (length cls) ->
  exists out k, regularized_spectra zero (fun c => Ok c) (map Some cls) lmax = Ok out /\
    match lmax with Some lm => k = lm + 1 | None => longest cls k end /\
    length out = length cls /\
    forall p cl o, nth_error cls p = Some cl -> nth_error out p = Some o -> resized zero k cl o.
Proof.
  intros Hne Ht. destruct (cov_from_spectra_ok zero cls n lmax Hne Ht) as (c & E & N & K & C).
  destruct (read_out_ok zero cls n c Ht N C) as [R1 R2].
  exists (read_out c), (ck c). unfold regularized_spectra. rewrite E. cbn [bind]. auto.
Qed.
Print Assumptions regularized_spectra_identity.

(** In particular spectra of equal length survive unchanged. *)
Theorem regularized_spectra_roundtrip {A} (zero : A) (cls : list (list A)) n k :
  cls <> [] -> triangle n (length cls) -> (forall cl, In cl cls -> length cl = k) ->
  regularized_spectra zero (fun c => Ok c) (map Some cls) None = Ok cls.
Proof.
  intros Hne Ht Hk. destruct (regularized_spectra_identity zero cls n None Hne Ht) as (out & k' & E & L & Hl & R).
  rewrite E. f_equal. assert (k' = k).
  { destruct L as [L1 [-> |(cl & H1 & H2)]].
    - destruct cls as [|c cls]; [congruence|]. specialize (L1 c (or_introl eq_refl)).
      rewrite (Hk c (or_introl eq_refl)) in L1. lia.
    - rewrite <- H2. apply Hk; exact H1. }
  subst k'. apply nth_error_ext'. intro p.
  destruct (nth_error cls p) as [cl|] eqn:Ec.
  - assert (Hp : p < length out) by (rewrite Hl; apply nth_error_Some; congruence).
    destruct (nth_error out p) as [o|] eqn:Eo; [|apply nth_error_None in Eo; lia].
    f_equal. apply (resized_self zero). rewrite (Hk cl (nth_error_In _ _ Ec)). exact (R p cl o Ec Eo).
  - apply nth_error_None in Ec. apply nth_error_None. lia.
Qed.
Print Assumptions regularized_spectra_roundtrip.

(** The documentation of [regularized_spectra] allows [None] for a missing spectrum; every list
    with a [None] entry is in fact rejected with AttributeError. *)
Theorem regularized_spectra_none_refuted :
  ~ (forall (spectra : list (option (list Z))) n lmax, triangle n (length spectra) ->
       exists out, regularized_spectra 0%Z (fun c => Ok c) spectra lmax = Ok out).
Proof.
  intro H. destruct (H [Some [1%Z]; Some [2%Z]; None] 2 None eq_refl) as [out E]. discriminate E.
Qed.
Print Assumptions regularized_spectra_none_refuted.

Theorem cov_from_spectra_none_rejected {A} (zero : A) (spectra : list (option (list A))) n lmax :
  triangle n (length spectra) -> In None spectra ->
  cov_from_spectra zero spectra lmax = Err AttributeError.
Proof. exact (cov_from_spectra_none zero spectra n lmax). Qed.
Print Assumptions cov_from_spectra_none_rejected.

(** An empty list of spectra is an IndexError, not an empty result. *)
Theorem cov_from_spectra_empty {A} (zero : A) lmax : cov_from_spectra zero [] lmax = Err IndexError.
Proof. destruct lmax; reflexivity. Qed.
Print Assumptions cov_from_spectra_empty.

Theorem cov_from_spectra_rejects {A} (zero : A) (spectra : list (option (list A))) lmax :
  (forall n, ~ triangle n (length spectra)) -> cov_from_spectra zero spectra lmax = Err ValueError.
Proof. intro H. unfold cov_from_spectra. rewrite (proj2 (nfields_err _) H). reflexivity. Qed.
Print Assumptions cov_from_spectra_rejects.

Example regularized_example :
  regularized_spectra 0 (fun c => Ok c) (map Some [[1;2;3]; [4]; []]) None =
    Ok [[1;2;3]; [4;0;0]; [0;0;0]] /\
  regularized_spectra 0 (fun c => Ok c) (map Some [[1;2;3]; [4]; []]) (Some 1) =
    Ok [[1;2]; [4;0]; [0;0]] /\ triangle 2 (length [[1;2;3]; [4]; []]).
Proof. repeat split. Qed.

(** C21 *)
Theorem compute_gaussian_spectra_pairs {F A} (zero : A) (compute : list A -> F -> F -> result (list A))
    fields spectra gls :
  compute_gaussian_spectra zero compute fields spectra = Ok gls ->
  triangle (length fields) (length spectra) /\ length gls = length spectra /\
  forall k i j t1 t2 cl, entry_of fields spectra k i j t1 t2 cl ->
    exists gl, nth_error gls k = Some gl /\
      (cl = [] -> gl = []) /\ (cl <> [] -> compute cl t1 t2 = Ok gl).
Proof. exact (compute_ok zero compute fields spectra gls). Qed.
Print Assumptions compute_gaussian_spectra_pairs.

Theorem compute_gaussian_spectra_raises {F A} (zero : A) (compute : list A -> F -> F -> result (list A))
    fields spectra e :
  compute_gaussian_spectra zero compute fields spectra = Err e ->
  (~ triangle (length fields) (length spectra) /\ e = ValueError) \/
  (triangle (length fields) (length spectra) /\
   exists k i j t1 t2 cl, entry_of fields spectra k i j t1 t2 cl /\ cl <> [] /\ compute cl t1 t2 = Err e).
Proof. exact (compute_err zero compute fields spectra e). Qed.
Print Assumptions compute_gaussian_spectra_raises.

Theorem solve_gaussian_spectra_pairs {F A} (zero : A) (is_zero : A -> bool)
    (solve : list A -> F -> F -> nat -> option A -> result (list A * nat)) fields spectra gls ws :
  solve_gaussian_spectra zero is_zero solve fields spectra = Ok (gls, ws) ->
  triangle (length fields) (length spectra) /\ length gls = length spectra /\
  (forall k i j t1 t2 cl, entry_of fields spectra k i j t1 t2 cl ->
    exists gl, nth_error gls k = Some gl /\
      (cl = [] -> gl = [] /\ ~ In (i, j) ws) /\
      (forall c0 rest, cl = c0 :: rest -> exists info,
         solve cl t1 t2 (2 * length cl) (if is_zero c0 then Some zero else None) = Ok (gl, info) /\
         (In (i, j) ws <-> info = 0))) /\
  NoDup ws /\ (forall i j, In (i, j) ws -> j <= i < length fields).
Proof. exact (solve_ok zero is_zero solve fields spectra gls ws). Qed.
Print Assumptions solve_gaussian_spectra_pairs.

Theorem solve_gaussian_spectra_raises {F A} (zero : A) (is_zero : A -> bool)
    (solve : list A -> F -> F -> nat -> option A -> result (list A * nat)) fields spectra e :
  solve_gaussian_spectra zero is_zero solve fields spectra = Err e ->
  (~ triangle (length fields) (length spectra) /\ e = ValueError) \/
  (triangle (length fields) (length spectra) /\
   exists k i j t1 t2 c0 rest, entry_of fields spectra k i j t1 t2 (c0 :: rest) /\
     solve (c0 :: rest) t1 t2 (2 * length (c0 :: rest)) (if is_zero c0 then Some zero else None) = Err e).
Proof. exact (solve_err zero is_zero solve fields spectra e). Qed.
Print Assumptions solve_gaussian_spectra_raises.

Theorem gaussian_spectra_mismatch {F A} (zero : A) is_zero compute
    (solve : list A -> F -> F -> nat -> option A -> result (list A * nat)) fields spectra :
  ~ triangle (length fields) (length spectra) ->
  compute_gaussian_spectra zero compute fields spectra = Err ValueError /\
  solve_gaussian_spectra zero is_zero solve fields spectra = Err ValueError.
Proof.
  intro H. unfold compute_gaussian_spectra, solve_gaussian_spectra.
  destruct (negb _) eqn:E; [auto|]. apply triangle_check in E. contradiction.
Qed.
Print Assumptions gaussian_spectra_mismatch.

(** Two fields, the cross-spectrum missing; field 7 fails to converge with itself. *)
Example gaussian_spectra_example :
  let compute := fun (cl : list nat) t1 t2 => Ok (map (fun c => c * t1 * t2) cl) in
  compute_gaussian_spectra 0 compute [5; 7] [[1;2]; [3]; []] = Ok [[25;50]; [147]; []] /\
  entry_of [5; 7] [[1;2]; [3]; []] 1 1 1 7 7 [3] /\
  solve_gaussian_spectra 0 (Nat.eqb 0)
    (fun cl t1 t2 pad mono => Ok (cl ++ [pad; match mono with Some m => 1 | None => 0 end],
                                  if t1 =? 7 then 0 else 1))
    [5; 7] [[0;2]; [3]; []] = Ok ([[0;2;4;1]; [3;2;0]; []], [(1, 1)]).
Proof. cbv zeta. repeat split. exact (le_n 1). Qed.

(** C61 *)
(** Whatever the mode generator produces, field [i] is the [i]-th transformation applied to the [i]-th
    generated map with the variance of the [i]-th auto-spectrum. *)
Theorem generate_field_by_field {A M T} (zero : A) cltovar (apply : T -> M -> A -> result M) grf
    fields gls ncorr i y :
  nth_error (fst (generate zero cltovar apply grf fields gls ncorr)) i = Some y ->
  exists t x cl v, nth_error fields i = Some t /\ nth_error (fst (grf gls ncorr)) i = Some x /\
    spectrum_of gls i i cl /\ cltovar cl = Ok v /\ apply t x v = Ok y.
Proof.
  unfold generate. destruct (negb _) eqn:E; [destruct i; discriminate|].
  apply triangle_check in E. destruct (grf gls ncorr) as [xs eg]. intro H.
  destruct (transform_prefix apply _ _ _ _ _ _ H) as (t & x & v & H1 & H2 & H3 & H4).
  rewrite nth_error_map' in H3. destruct (nth_error (seq 0 _) i) as [i'|] eqn:Ei; cbn in H3; [|discriminate].
  rewrite nth_error_seq in Ei. destruct (i <? length fields); [|discriminate]. injection Ei as <-.
  injection H3 as H3. cbn [Nat.add] in H3. apply bind_ok in H3 as (cl & Hc & Hv).
  apply getcl_none in Hc as (k & Hk & Ho). exists t, x, cl, v. repeat split; auto. exists k. auto.
Qed.
Print Assumptions generate_field_by_field.

(** Success: as many fields as transformations; nothing is left over. *)
Theorem generate_complete {A M T} (zero : A) cltovar (apply : T -> M -> A -> result M) grf
    fields gls ncorr xs :
  triangle (length fields) (length gls) ->
  grf gls ncorr = (xs, None) -> length xs = length fields ->
  (forall cl, In cl gls -> exists v, cltovar cl = Ok v) -> (forall t x v, exists y, apply t x v = Ok y) ->
  exists ys, generate zero cltovar apply grf fields gls ncorr = (ys, None) /\ length ys = length fields.
Proof.
  intros Ht Eg Hx Hv Ha. unfold generate. rewrite (proj2 (triangle_check _ _) Ht), Eg.
  set (vars := map _ _).
  destruct (transform_full apply fields xs vars Hx) as [F1 F2].
  - unfold vars. rewrite map_length, seq_length. reflexivity.
  - intros i t x r H1 H2 H3. unfold vars in H3. rewrite nth_error_map', nth_error_seq in H3.
    destruct (Nat.ltb_spec i (length fields)) as [Hi|]; cbn in H3; [|discriminate]. injection H3 as <-.
    pose proof (in_order_exists i i (le_n i)) as Ho.
    assert (Hlt : i * (i + 1) / 2 + i - i < length gls) by (apply (proj1 (in_order_lt _ _ _ _ _ Ht Ho)); exact Hi).
    destruct (nth_error gls (i * (i + 1) / 2 + i - i)) as [cl|] eqn:Ec; [|apply nth_error_None in Ec; lia].
    assert (Eg' : getcl zero gls i i None = Ok cl).
    { apply getcl_none. exists (i * (i + 1) / 2 + i - i). rewrite Nat.max_id, Nat.min_id. auto. }
    rewrite Eg'. cbn [bind]. destruct (Hv cl (nth_error_In _ _ Ec)) as [v Ev]. rewrite Ev.
    destruct (Ha t x v) as [y Ey]. exists v, y. auto.
  - exists (fst (transform_all apply fields (xs, None) vars)). split; [|exact F1].
    revert F2. destruct (transform_all apply fields (xs, None) vars); cbn. congruence.
Qed.
Print Assumptions generate_complete.

(** A run that ends without an exception is complete: the mode generator finished too, after exactly one
    map for each field, so that no field is missing or left over. *)
Theorem generate_finishes {A M T} (zero : A) cltovar (apply : T -> M -> A -> result M) grf fields gls ncorr ys :
  generate zero cltovar apply grf fields gls ncorr = (ys, None) ->
  triangle (length fields) (length gls) /\ length ys = length fields /\
  exists xs, grf gls ncorr = (xs, None) /\ length xs = length fields.
Proof.
  unfold generate. destruct (negb _) eqn:E; [discriminate|]. apply triangle_check in E. intro H.
  split; [exact E|]. destruct (transform_ends apply _ _ _ _ H) as (H1 & H2 & H3).
  split; [exact H1|]. destruct (grf gls ncorr) as [xs e]. cbn [fst snd] in *. subst e. exists xs. auto.
Qed.
Print Assumptions generate_finishes.

(** The deprecated [generate_gaussian] returns the generated maps themselves, and
    [generate_lognormal] transforms these same maps with the variance of each field's own spectrum;
    both raise what the mode generator raises. *)
Theorem deprecated_same_fields {A M T} (zero : A) (cltovar : list A -> result A)
    (apply : T -> M -> A -> result M) grf gls ncorr (normal lognormal : T) (logn : M -> A -> M) n xs e :
  triangle n (length gls) -> grf gls ncorr = (xs, e) -> length xs <= n -> (e = None -> length xs = n) ->
  (forall cl, In cl gls -> exists v, cltovar cl = Ok v) ->
  (forall x v, apply normal x v = Ok x) -> (forall x v, apply lognormal x v = Ok (logn x v)) ->
  generate_same zero cltovar apply grf normal gls ncorr = (xs, e) /\
  exists ls, generate_same zero cltovar apply grf lognormal gls ncorr = (ls, e) /\ length ls = length xs /\
    forall i x, nth_error xs i = Some x -> exists cl v,
      spectrum_of gls i i cl /\ cltovar cl = Ok v /\ nth_error ls i = Some (logn x v).
Proof. exact (same_fields zero cltovar apply grf gls ncorr normal lognormal logn n xs e). Qed.
Print Assumptions deprecated_same_fields.

Theorem generate_mismatch {A M T} (zero : A) cltovar (apply : T -> M -> A -> result M) grf fields gls ncorr :
  ~ triangle (length fields) (length gls) ->
  generate zero cltovar apply grf fields gls ncorr = ([], Some ValueError).
Proof.
  intro H. unfold generate. destruct (negb _) eqn:E; [reflexivity|]. apply triangle_check in E. contradiction.
Qed.
Print Assumptions generate_mismatch.

Example generate_example :
  let grf := fun (gls : list (list nat)) (_ : option nat) => ([100; 200], @None exn) in
  let apply := fun (t x v : nat) => if t =? 0 then Ok x else Ok (x + t * v) in
  let cltovar := fun cl : list nat => index cl 0 in
  triangle 2 (length [[1]; [2]; [3]]) /\
  generate_same 0 cltovar apply grf 0 [[1]; [2]; [3]] None = ([100; 200], None) /\
  generate_same 0 cltovar apply grf 10 [[1]; [2]; [3]] None = ([110; 220], None) /\
  generate 0 cltovar apply grf [0; 10] [[1]; [2]; [3]] None = ([100; 220], None).
Proof. repeat split. Qed.
