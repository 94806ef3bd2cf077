(** The search path of the namespace of extensions. *)
From Coq Require Import String Ascii.
From Verif Require Import Base Model_Ext Spec_Ext.
Local Open Scope string_scope.

Lemma partition_split pkg m :
  no_dot pkg -> partition_dot (pkg ++ "." ++ m) = (pkg, ".", m).
Proof.
  induction pkg as [|c pkg IH]; intros H.
  - reflexivity.
  - change (String c pkg ++ "." ++ m) with (String c (pkg ++ "." ++ m)).
    cbn [partition_dot].
    destruct (Ascii.eqb_spec c ".") as [E|N].
    + exfalso. apply (H "" pkg). rewrite E. reflexivity.
    + rewrite IH; [reflexivity|].
      intros a b E. apply (H (String c a) b). rewrite E. reflexivity.
Qed.

Lemma last_char_ends s c : last_char s = Some c -> exists a, s = a ++ String c "".
Proof.
  induction s as [|x s IH]; [discriminate|].
  destruct s as [|y s].
  - cbn. intros E. injection E as <-. exists "". reflexivity.
  - intros E. destruct IH as (a & Ha); [exact E|].
    exists (String x a). rewrite Ha. reflexivity.
Qed.

Lemma last_char_some s : s <> "" -> exists c, last_char s = Some c.
Proof.
  induction s as [|x s IH]; intros H; [congruence|].
  destruct s as [|y s]; [exists x; reflexivity|].
  destruct IH as (c & E); [discriminate|]. exists c. exact E.
Qed.

Lemma join_plain p m :
  plain p -> (forall a, m <> "/" ++ a) -> path_join p m = p ++ "/" ++ m.
Proof.
  intros [Hne Hs] Hm.
  destruct (last_char_some p Hne) as (c & Ec).
  assert (N : c <> "/"%char).
  { intros ->. destruct (last_char_ends p _ Ec) as (a & Ea). apply (Hs a). exact Ea. }
  assert (R : match last_char p with
              | None => m | Some "/"%char => p ++ m | Some _ => p ++ "/" ++ m
              end = p ++ "/" ++ m).
  { rewrite Ec. destruct c as [[] [] [] [] [] [] [] []]; try reflexivity. congruence. }
  unfold path_join. destruct m as [|x m]; [exact R|].
  assert (Nx : x <> "/"%char) by (intros ->; apply (Hm m); reflexivity).
  destruct x as [[] [] [] [] [] [] [] []]; try exact R. congruence.
Qed.

Lemma add_portions_in p : forall ps path,
  In p (add_portions path ps) <-> In p path \/ In p ps.
Proof.
  induction ps as [|q ps IH]; intros path; cbn [add_portions].
  - cbn. tauto.
  - rewrite IH. destruct (existsb (String.eqb q) path) eqn:E.
    + apply existsb_exists in E as (r & Hr & Er). apply String.eqb_eq in Er. subst r.
      cbn. split; [tauto|]. intros [H|[->|H]]; auto.
    + rewrite in_app_iff. cbn. tauto.
Qed.

Lemma extend_along_in sys pkg p : forall dirs path,
  In p (extend_along sys dirs path pkg) <->
  In p path \/ found dirs (fun s => portions sys s pkg ++ pkg_lines sys s pkg)%list p.
Proof.
  induction dirs as [|d dirs IH]; intros path; cbn [extend_along].
  - split; [auto|]. intros [H|(s & [] & _)]. exact H.
  - rewrite IH, in_app_iff, add_portions_in. split.
    + intros [[[H|H]|H]|(s & Hs & H)].
      * left; exact H.
      * right. exists d. split; [left; reflexivity|]. apply in_or_app; auto.
      * right. exists d. split; [left; reflexivity|]. apply in_or_app; auto.
      * right. exists s. split; [right; exact Hs|exact H].
    + intros [H|(s & [<-|Hs] & H)].
      * auto.
      * apply in_app_or in H. tauto.
      * right. exists s. auto.
Qed.

Lemma add_portions_nodup : forall ps path, NoDup path -> NoDup (add_portions path ps).
Proof.
  induction ps as [|q ps IH]; intros path H; cbn [add_portions]; [exact H|].
  apply IH. destruct (existsb (String.eqb q) path) eqn:E; [exact H|].
  apply NoDup_rev in H. rewrite <- (rev_involutive (path ++ [q])). apply NoDup_rev.
  rewrite rev_app_distr. cbn. constructor; [|exact H].
  rewrite <- in_rev. intros Hin.
  assert (X : existsb (String.eqb q) path = true)
    by (apply existsb_exists; exists q; split; [exact Hin|apply String.eqb_refl]).
  congruence.
Qed.

Lemma extend_along_nodup sys pkg :
  (forall s, pkg_lines sys s pkg = []) ->
  forall dirs path, NoDup path -> NoDup (extend_along sys dirs path pkg).
Proof.
  intros H0. induction dirs as [|d dirs IH]; intros path H; cbn [extend_along]; [exact H|].
  apply IH. rewrite H0, app_nil_r. apply add_portions_nodup. exact H.
Qed.

Lemma add_portions_new : forall ps path,
  NoDup (path ++ ps) -> add_portions path ps = (path ++ ps)%list.
Proof.
  induction ps as [|q ps IH]; intros path H; cbn [add_portions].
  - rewrite app_nil_r. reflexivity.
  - destruct (existsb (String.eqb q) path) eqn:E.
    + apply existsb_exists in E as (r & Hr & Er). apply String.eqb_eq in Er. subst r.
      apply NoDup_remove_2 in H. exfalso. apply H. apply in_or_app; auto.
    + rewrite IH; rewrite <- app_assoc; [reflexivity|exact H].
Qed.

Lemma nodup_app_l {A} (u v : list A) : NoDup (u ++ v) -> NoDup u.
Proof.
  induction u as [|x u IH]; intros H; [constructor|].
  inversion H as [|? ? Hn Hr]; subst. constructor; [|auto].
  intros Hx. apply Hn. apply in_or_app; auto.
Qed.

Lemma extend_along_new sys pkg :
  (forall s, pkg_lines sys s pkg = []) ->
  forall dirs path,
    NoDup (path ++ concat (map (fun s => portions sys s pkg) dirs)) ->
    extend_along sys dirs path pkg =
    (path ++ concat (map (fun s => portions sys s pkg) dirs))%list.
Proof.
  intros H0. induction dirs as [|d dirs IH]; intros path H; cbn [extend_along].
  - cbn. rewrite app_nil_r. reflexivity.
  - cbn [map concat] in *. rewrite H0, app_nil_r.
    rewrite add_portions_new.
    + rewrite IH; rewrite <- app_assoc; [reflexivity|exact H].
    + rewrite app_assoc in H. apply nodup_app_l in H. exact H.
Qed.

(** C92 The directories searched for extensions are exactly the existing
    directories [p/ext] where [p] is an entry of the path given or a place where
    the package is found along [sys.path]. *)
Theorem extension_directories sys path pkg m :
  no_dot pkg -> (forall a, m <> "/" ++ a) ->
  let place p := In p path \/
                 found (sys_path sys) (fun s => portions sys s pkg) p \/
                 found (sys_path sys) (fun s => pkg_lines sys s pkg) p in
  (forall p, place p -> plain p) ->
  forall d,
    In d (extend_path sys path (pkg ++ "." ++ m)) <->
    isdir sys d = true /\ exists p, place p /\ d = p ++ "/" ++ m.
Proof.
  intros Hd Hm place Hp d.
  assert (E : forall p, In p (pkgutil_extend_path sys path pkg) <-> place p).
  { intros p. unfold pkgutil_extend_path, place. rewrite extend_along_in. unfold found.
    split.
    - intros [H|(s & Hs & H)]; [auto|]. apply in_app_or in H as [H|H]; eauto.
    - intros [H|[(s & Hs & H)|(s & Hs & H)]]; [auto| |];
        right; exists s; (split; [exact Hs|apply in_or_app; auto]). }
  unfold extend_path. rewrite (partition_split pkg m Hd). rewrite filter_In, in_map_iff.
  split.
  - intros [(p & Ep & H) Hi]. split; [exact Hi|]. apply E in H. exists p.
    split; [exact H|]. rewrite <- Ep. apply join_plain; auto.
  - intros [Hi (p & H & Ep)]. split; [|exact Hi]. exists p. split.
    + rewrite join_plain; auto.
    + apply E. exact H.
Qed.
Print Assumptions extension_directories.

Lemma append_cancel a : forall b c : string, a ++ c = b ++ c -> a = b.
Proof.
  assert (L : forall u v, String.length (u ++ v) = String.length u + String.length v).
  { induction u as [|x u IH]; intros v; [reflexivity|]. cbn. rewrite IH. reflexivity. }
  induction a as [|x a IH]; intros [|y b] c H.
  - reflexivity.
  - apply (f_equal String.length) in H. rewrite !L in H. cbn in H. lia.
  - apply (f_equal String.length) in H. rewrite !L in H. cbn in H. lia.
  - cbn in H. injection H as -> H. f_equal. eapply IH. exact H.
Qed.

(** C92 Packages found along [sys.path] follow the entries of the path given, in the
    order in which they are found, and nothing is repeated. *)
Theorem extension_order sys path pkg m :
  no_dot pkg -> (forall a, m <> "/" ++ a) ->
  (forall s, pkg_lines sys s pkg = []) ->
  (forall p, In p path -> plain p) ->
  (forall s p, In p (portions sys s pkg) -> plain p) ->
  NoDup (path ++ concat (map (fun s => portions sys s pkg) (sys_path sys))) ->
  extend_path sys path (pkg ++ "." ++ m) =
  filter (isdir sys)
    (map (fun p => p ++ "/" ++ m)
       (path ++ concat (map (fun s => portions sys s pkg) (sys_path sys)))).
Proof.
  intros Hd Hm H0 H1 H2 Hn.
  unfold extend_path. rewrite (partition_split pkg m Hd).
  unfold pkgutil_extend_path. rewrite extend_along_new by assumption.
  f_equal. apply map_ext_in. intros p H. apply join_plain; [|exact Hm].
  apply in_app_or in H as [H|H]; [auto|].
  apply in_concat in H as (l & Hl & H). apply in_map_iff in Hl as (s & <- & _). eauto.
Qed.
Print Assumptions extension_order.

Theorem extension_once sys path pkg m :
  no_dot pkg -> (forall a, m <> "/" ++ a) ->
  (forall s, pkg_lines sys s pkg = []) ->
  (forall p, In p path -> plain p) ->
  (forall s p, In p (portions sys s pkg) -> plain p) ->
  NoDup path ->
  NoDup (extend_path sys path (pkg ++ "." ++ m)).
Proof.
  intros Hd Hm H0 H1 H2 Hn.
  unfold extend_path. rewrite (partition_split pkg m Hd).
  apply NoDup_filter. unfold pkgutil_extend_path.
  pose proof (extend_along_nodup sys pkg H0 (sys_path sys) path Hn) as N.
  assert (P : forall p, In p (extend_along sys (sys_path sys) path pkg) -> plain p).
  { intros p H. apply extend_along_in in H as [H|(s & _ & H)]; [auto|].
    rewrite H0, app_nil_r in H. eauto. }
  revert N P. generalize (extend_along sys (sys_path sys) path pkg) as l.
  induction l as [|x l IH]; intros N P; [constructor|].
  inversion N as [|? ? Nx Nl]; subst. cbn [map]. constructor.
  - intros H. apply in_map_iff in H as (y & E & Hy).
    rewrite !join_plain in E by (auto using in_eq, in_cons).
    apply append_cancel in E. subst y. contradiction.
  - apply IH; [exact Nl|]. intros p Hp. apply P. right; exact Hp.
Qed.
Print Assumptions extension_once.

(** Two packages provide extensions, a third entry of [sys.path] has a package
    of that name without extensions. *)
Definition two_packages : system := {|
  sys_path := ["/site"; "/home"; "/opt"];
  portions := fun d n => if String.eqb n "glass" then [d ++ "/glass"] else [];
  pkg_lines := fun _ _ => [];
  isdir := fun d => existsb (String.eqb d)
             ["/site/glass"; "/site/glass/ext"; "/home/glass"; "/opt/glass"; "/opt/glass/ext"]
|}.

Example two_packages_searched :
  extend_path two_packages ["/site/glass/ext"] "glass.ext" = ["/site/glass/ext"; "/opt/glass/ext"].
Proof. reflexivity. Qed.

Lemma plain_by_last s c :
  last_char s = Some c -> c <> "/"%char -> plain s.
Proof.
  intros E N. split; [intros ->; discriminate|].
  intros a Ha. apply N. clear N.
  assert (L : forall a, last_char (a ++ "/") = Some "/"%char).
  { clear. induction a as [|x a IH]; [reflexivity|].
    change (String x a ++ "/") with (String x (a ++ "/")).
    destruct (a ++ "/") eqn:Q; [destruct a; discriminate|]. exact IH. }
  rewrite Ha, L in E. congruence.
Qed.

Lemma last_char_app a c b : last_char (a ++ String c b) = last_char (String c b).
Proof.
  induction a as [|x a IH]; [reflexivity|].
  change (String x a ++ String c b) with (String x (a ++ String c b)).
  destruct (a ++ String c b) eqn:Q; [destruct a; discriminate|]. exact IH.
Qed.

Lemma no_dot_glass : no_dot "glass".
Proof.
  intros a b H.
  destruct a as [|? a]; [discriminate H|]. injection H as _ H.
  destruct a as [|? a]; [discriminate H|]. injection H as _ H.
  destruct a as [|? a]; [discriminate H|]. injection H as _ H.
  destruct a as [|? a]; [discriminate H|]. injection H as _ H.
  destruct a as [|? a]; [discriminate H|]. injection H as _ H.
  destruct a; discriminate H.
Qed.

Lemma ext_relative a : "ext" <> "/" ++ a.
Proof. discriminate. Qed.

Lemma two_packages_plain s p : In p (portions two_packages s "glass") -> plain p.
Proof.
  cbn. intros [<-|[]]. apply (plain_by_last _ "s"%char); [|discriminate].
  exact (last_char_app s "/" "glass").
Qed.

Example two_packages_order :
  extend_path two_packages ["/site/glass/ext"] ("glass" ++ "." ++ "ext") =
  filter (isdir two_packages)
    ["/site/glass/ext/ext"; "/site/glass/ext"; "/home/glass/ext"; "/opt/glass/ext"].
Proof.
  apply (extension_order two_packages ["/site/glass/ext"] "glass" "ext").
  - exact no_dot_glass.
  - exact ext_relative.
  - reflexivity.
  - intros p [<-|[]]. apply (plain_by_last _ "t"%char); [reflexivity|discriminate].
  - exact two_packages_plain.
  - cbn. repeat constructor; cbn; intuition discriminate.
Qed.

Example two_packages_once :
  NoDup (extend_path two_packages ["/site/glass"; "/site/glass/ext"] ("glass" ++ "." ++ "ext")).
Proof.
  apply extension_once.
  - exact no_dot_glass.
  - exact ext_relative.
  - reflexivity.
  - intros p [<-|[<-|[]]].
    + apply (plain_by_last _ "s"%char); [reflexivity|discriminate].
    + apply (plain_by_last _ "t"%char); [reflexivity|discriminate].
  - exact two_packages_plain.
  - repeat constructor; cbn; intuition discriminate.
Qed.

(** C92 The namespace keeps its own directory when the package lies in an entry
    of [sys.path]: the installed extension modules of GLASS itself stay importable. *)
Theorem extension_own sys d rest :
  plain d -> In d (sys_path sys) ->
  portions sys d "glass" = (d ++ "/glass") :: rest ->
  (forall p, found (sys_path sys) (fun s => portions sys s "glass") p \/
             found (sys_path sys) (fun s => pkg_lines sys s "glass") p -> plain p) ->
  isdir sys (d ++ "/glass/ext") = true ->
  In (d ++ "/glass/ext") (extend_path sys [d ++ "/glass/ext"] "glass.ext").
Proof.
  intros Hp Hd Ho Hf Hi.
  apply (extension_directories sys [d ++ "/glass/ext"] "glass" "ext" no_dot_glass ext_relative).
  - intros p [[<-|[]]|H]; [|auto].
    apply (plain_by_last _ "t"%char); [exact (last_char_app d "/" "glass/ext")|discriminate].
  - split; [exact Hi|]. exists (d ++ "/glass"). split.
    + right; left. exists d. split; [exact Hd|]. rewrite Ho. left; reflexivity.
    + clear. induction d as [|c d IH]; [reflexivity|].
      cbn. f_equal. exact IH.
Qed.
Print Assumptions extension_own.

Example two_packages_own :
  In "/opt/glass/ext" (extend_path two_packages ["/opt/glass/ext"] "glass.ext").
Proof.
  apply (extension_own two_packages "/opt" []).
  - apply (plain_by_last _ "t"%char); [reflexivity|discriminate].
  - cbn. tauto.
  - reflexivity.
  - intros p [(s & _ & H)|(s & _ & [])]. exact (two_packages_plain s p H).
  - reflexivity.
Qed.

(** A module name that is an absolute path is itself the only place. *)
Theorem extension_absolute sys path pkg a d :
  no_dot pkg -> In d (extend_path sys path (pkg ++ "." ++ "/" ++ a)) -> d = "/" ++ a /\ isdir sys d = true.
Proof.
  intros Hd. unfold extend_path. rewrite (partition_split pkg ("/" ++ a) Hd). intros H.
  apply filter_In in H as [H I]. apply in_map_iff in H as (p & <- & _). split; [reflexivity|exact I].
Qed.
Print Assumptions extension_absolute.

Example extension_absolute_example :
  extend_path {| sys_path := ["/site"]; portions := fun _ _ => ["/site/glass"]; pkg_lines := fun _ _ => [];
                 isdir := fun d => String.eqb d "/opt" |} [] "glass./opt" = ["/opt"].
Proof. reflexivity. Qed.

(** C92 "Extend the path" is not what happens when the package was imported from
    elsewhere than [sys.path] (as with editable installations that use an import
    hook): the directory of the namespace itself is lost, for the entries given are
    not kept but replaced by their own subdirectories "ext". *)
Theorem extension_keeps_path_refuted :
  ~ (forall sys path name d,
       In d path -> isdir sys d = true -> In d (extend_path sys path name)).
Proof.
  intros H.
  specialize (H {| sys_path := ["/site"]; portions := fun _ _ => []; pkg_lines := fun _ _ => [];
                   isdir := fun d => existsb (String.eqb d) ["/src/glass"; "/src/glass/ext"] |}
                ["/src/glass/ext"] "glass.ext" "/src/glass/ext" (or_introl eq_refl) eq_refl).
  exact H.
Qed.
Print Assumptions extension_keeps_path_refuted.
