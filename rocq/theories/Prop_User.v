(** Theorems about saving spectra (C55) and writing catalogues (C56). *)
From Coq Require Import String.
From Verif Require Import Base Model_User Spec_User Proof_User.
Open Scope string_scope.
Open Scope list_scope.
Open Scope nat_scope.

(** C55: reading back the file that was written gives the spectra, and no other file
    is changed. *)
Theorem save_load_roundtrip {V} (fs : files V) name cls : cls <> [] ->
  has_suffix name ".npz" = true ->
  exists fs', save_cls fs name cls = Ok fs' /\ load_cls fs' name = Ok cls /\
    forall other, other <> name -> load_cls fs' other = load_cls fs other.
Proof.
  intros H Hs. pose proof (save_load fs name cls H) as G. unfold npz_name in G. rewrite Hs in G. exact G.
Qed.
Print Assumptions save_load_roundtrip.

Theorem save_load_added_suffix {V} (fs : files V) name cls : cls <> [] ->
  has_suffix name ".npz" = false ->
  exists fs', save_cls fs name cls = Ok fs' /\ load_cls fs' (String.append name ".npz") = Ok cls.
Proof.
  intros H Hs. destruct (save_load fs name cls H) as (fs' & E & F & _). unfold npz_name in F.
  rewrite Hs in F. eauto.
Qed.
Print Assumptions save_load_added_suffix.

(** With the very name passed to [save_cls] the round trip fails when the suffix is missing. *)
Theorem save_load_same_name_refuted :
  exists (fs : files nat) name cls fs', save_cls fs name cls = Ok fs' /\ load_cls fs' name <> Ok cls.
Proof.
  exists [], "cls", [[1; 2]; [3]]. eexists. split; [reflexivity|]. vm_compute. discriminate.
Qed.
Print Assumptions save_load_same_name_refuted.

(** The empty list of spectra cannot be saved. *)
Theorem save_fails_iff_empty {V} (fs : files V) name cls :
  save_cls fs name cls = Err ValueError <-> cls = [].
Proof. split; [|intros ->; reflexivity]. destruct cls; [reflexivity|discriminate]. Qed.
Print Assumptions save_fails_iff_empty.

(** Loading fails only, and always, if no file has the name. *)
Theorem load_fails_iff_missing {V} (fs : files V) name e :
  load_cls fs name = Err e <-> e = KeyError /\ ~ In name (map fst fs).
Proof.
  unfold load_cls. destruct (find (fun f => String.eqb (fst f) name) fs) as [[n f]|] eqn:E.
  - apply find_some in E as [I Q]. cbn [fst] in Q. apply String.eqb_eq in Q. subst n. split; [discriminate|]. intros [_ H]. destruct H. exact (in_map fst _ _ I).
  - split; [|intros [-> _]; reflexivity]. intro H. injection H as <-. split; [reflexivity|]. intro I. apply in_map_iff in I as (x & Ex & Ix).
    apply (find_none _ _ E) in Ix. cbn beta in Ix. rewrite Ex, String.eqb_refl in Ix. discriminate.
Qed.
Print Assumptions load_fails_iff_missing.
Example load_missing_example : load_cls [("a.npz", {| values := [1; 2]; split := [1] |})] "a" = Err KeyError.
Proof. reflexivity. Qed.

Example save_load_example :
  (do fs <- save_cls [] "a.npz" [[1; 2]; []; [3]; [4; 5; 6]; []];
   do fs <- save_cls fs "b.npz" [[]];
   do a <- load_cls fs "a.npz"; do b <- load_cls fs "b.npz"; Ok (a, b)) =
  Ok ([[1; 2]; []; [3]; [4; 5; 6]; []], [[]]).
Proof. reflexivity. Qed.

(** C56: all rows of all batches are in the one table of the file, in order, whatever
    exception ends the body; the columns are those of the first batch; the exception
    propagates and the file is closed. *)
Theorem catalog_rows {V} name names (calls : list (option (table V) * table V)) b0 bs tail x :
  names <> [] -> batches calls = b0 :: bs -> Forall (regular names) (b0 :: bs) ->
  (tail = [] /\ x = None \/ exists e rest, tail = Raise e :: rest /\ x = Some e) ->
  exists t,
    write_catalog name (map (fun '(d, c) => Write d c) calls ++ tail) =
      ({| hdus := [{| hname := None; htable := [] |}; {| hname := name; htable := t |}];
          closed := true |}, x) /\
    map fst t = map fst b0 /\ (forall s c, In (s, c) t -> stacked (b0 :: bs) s c).
Proof.
  intros Hne Hb Hr Ht. destruct (appends_all names name b0 bs Hne Hr) as (t & E & F & G).
  exists t. split; [|auto]. unfold write_catalog.
  rewrite <- Hb in E. change (ext0 name) with (match name with Some s => ByName s | None => NoExt end) in E.
  change (@file0 V) with ({| hdus := [{| hname := None; htable := @nil (string * list V) |}]; closed := false |}) in E.
  rewrite (body_calls calls tail _ _ _ _ E).
  destruct Ht as [[-> ->]|(e & rest & -> & ->)]; reflexivity.
Qed.
Print Assumptions catalog_rows.

(** A batch with columns of different lengths raises and changes nothing. *)
Theorem catalog_ragged_rejected {V} name names (calls : list (option (table V) * table V)) b0 bs bad rest :
  names <> [] -> batches calls = b0 :: bs -> Forall (regular names) (b0 :: bs) -> ragged bad ->
  let before := write_catalog name (map (fun '(d, c) => Write d c) calls) in
  write_catalog name (map (fun '(d, c) => Write d c) calls ++ Write None bad :: rest) =
    (fst before, Some ValueError) /\
  write_catalog name (map (fun '(d, c) => Write d c) calls ++ Write (Some bad) [] :: rest) =
    (fst before, Some ValueError).
Proof.
  intros Hne Hb Hr Hbad before. unfold before.
  destruct (appends_all names name b0 bs Hne Hr) as (t & E & _).
  rewrite <- Hb in E. change (ext0 name) with (match name with Some s => ByName s | None => NoExt end) in E.
  change (@file0 V) with ({| hdus := [{| hname := None; htable := @nil (string * list V) |}]; closed := false |}) in E.
  pose proof (body_calls calls [] _ _ _ _ E) as B0. rewrite app_nil_r in B0.
  pose proof (body_calls calls (Write None bad :: rest) _ _ _ _ E) as B1.
  pose proof (body_calls calls (Write (Some bad) [] :: rest) _ _ _ _ E) as B2.
  unfold write_catalog. rewrite B0, B1, B2.
  assert (Hn : bad <> []) by (intros ->; destruct Hbad as (? & ? & [] & _)).
  pose proof (ragged_reject bad (file1 name t) (ext1 name) Hbad) as R.
  split; unfold body, opt_append.
  - destruct bad as [|c0 bad]; [congruence|]. rewrite R. reflexivity.
  - rewrite R. reflexivity.
Qed.
Print Assumptions catalog_ragged_rejected.

(** A call without data and columns is not an error: it writes nothing. *)
Theorem catalog_empty_write {V} name (acts rest : list (action V)) :
  write_catalog name (acts ++ Write None [] :: rest) = write_catalog name (acts ++ rest).
Proof.
  unfold write_catalog. set (e := match name with Some s => ByName s | None => NoExt end).
  assert (H : forall f e, body f e (acts ++ Write None [] :: rest) = body f e (acts ++ rest)).
  { clear. induction acts as [|[d c|x] acts IH]; intros f e; cbn [app body]; [reflexivity| |reflexivity].
    destruct (opt_append f e d) as [[f1 e1] [x|]]; [reflexivity|].
    destruct (opt_append f1 e1 _) as [[f2 e2] [x|]]; [reflexivity|]. apply IH. }
  rewrite H. reflexivity.
Qed.
Print Assumptions catalog_empty_write.

Example catalog_example :
  write_catalog (Some "CAT")
    [Write None [("RA", [1; 2]); ("DEC", [3; 4])];
     Write None [];
     Write (Some [("DEC", [5]); ("RA", [6])]) [("RA", [7; 8]); ("DEC", [9; 10])];
     Raise KeyError; Write None [("RA", [0]); ("DEC", [0])]] =
  ({| hdus := [{| hname := None; htable := [] |};
               {| hname := Some "CAT"; htable := [("RA", [1; 2; 6; 7; 8]); ("DEC", [3; 4; 5; 9; 10])] |}];
      closed := true |}, Some KeyError).
Proof. reflexivity. Qed.
