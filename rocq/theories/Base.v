(** Shared vocabulary: Python exceptions as values and a few list helpers. *)
From Coq Require Export List Arith ZArith Lia Bool.
Export ListNotations.

(** The exception classes that the modelled code can raise. *)
Inductive exn : Type :=
| ValueError | IndexError | KeyError | TypeError | NotImplementedError
| ZeroDivisionError | AssertionError | RuntimeError | AttributeError | OutOfFuel.

Inductive result (A : Type) : Type :=
| Ok : A -> result A
| Err : exn -> result A.
Arguments Ok {A} _.
Arguments Err {A} _.

Definition bind {A B} (x : result A) (f : A -> result B) : result B :=
  match x with Ok a => f a | Err e => Err e end.
Notation "'do' x <- a ; b" := (bind a (fun x => b))
  (at level 200, x pattern, a at level 100, b at level 200).

(** A Python list comprehension / loop whose body may raise: the first
    exception wins. *)
Fixpoint mapM {A B} (f : A -> result B) (l : list A) : result (list B) :=
  match l with
  | [] => Ok []
  | x :: xs => do y <- f x; do ys <- mapM f xs; Ok (y :: ys)
  end.

(** Python indexing [l[k]] with a natural number [k]. *)
Definition index {A} (l : list A) (k : nat) : result A :=
  match nth_error l k with Some x => Ok x | None => Err IndexError end.

(** Python [enumerate]. *)
Definition enum {A} (l : list A) : list (nat * A) := combine (seq 0 (length l)) l.

Lemma bind_ok {A B} (x : result A) (f : A -> result B) b :
  bind x f = Ok b <-> exists a, x = Ok a /\ f a = Ok b.
Proof.
  split.
  - destruct x as [a|e]; simpl; intro H; [exists a; auto | discriminate].
  - intros (a & -> & H); exact H.
Qed.

Lemma mapM_ok {A B} (f : A -> result B) l ys :
  mapM f l = Ok ys <-> Forall2 (fun x y => f x = Ok y) l ys.
Proof.
  revert ys; induction l as [|x l IH]; intros ys; simpl.
  - split; intro H.
    + injection H as <-; constructor.
    + inversion H; reflexivity.
  - split; intro H.
    + apply bind_ok in H as (y & Hy & H). apply bind_ok in H as (ys' & Hys & H).
      injection H as <-. constructor; [exact Hy|]. apply IH; exact Hys.
    + inversion H as [|? y ? ys' Hy Hys]; subst. rewrite Hy; simpl.
      apply IH in Hys. rewrite Hys; reflexivity.
Qed.

Lemma mapM_ext {A B} (f g : A -> result B) l :
  (forall x, In x l -> f x = g x) -> mapM f l = mapM g l.
Proof.
  induction l as [|x l IH]; intros H; simpl; [reflexivity|].
  rewrite (H x) by (left; reflexivity).
  rewrite IH by (intros; apply H; right; assumption). reflexivity.
Qed.

Lemma mapM_pure {A B} (f : A -> result B) (g : A -> B) l :
  (forall x, In x l -> f x = Ok (g x)) -> mapM f l = Ok (map g l).
Proof.
  induction l as [|x l IH]; intros H; simpl; [reflexivity|].
  rewrite (H x) by (left; reflexivity); simpl.
  rewrite IH by (intros; apply H; right; assumption). reflexivity.
Qed.

Lemma length_enum {A} (l : list A) : length (enum l) = length l.
Proof. unfold enum. rewrite combine_length, seq_length. lia. Qed.

Lemma nth_error_combine {A B} (l : list A) (l' : list B) k :
  nth_error (combine l l') k =
  match nth_error l k, nth_error l' k with
  | Some x, Some y => Some (x, y) | _, _ => None end.
Proof.
  revert l' k; induction l as [|x l IH]; intros l' [|k]; simpl; auto.
  - destruct l'; reflexivity.
  - destruct l' as [|y l']; simpl.
    + destruct (nth_error l k); reflexivity.
    + apply IH.
Qed.

Lemma nth_error_seq s n k :
  nth_error (seq s n) k = if k <? n then Some (s + k) else None.
Proof.
  revert s k; induction n as [|n IH]; intros s [|k]; cbn [seq nth_error]; auto.
  - rewrite Nat.add_0_r; reflexivity.
  - rewrite IH. change (S k <? S n) with (k <? n).
    destruct (k <? n); f_equal; lia.
Qed.

Lemma nth_error_enum {A} (l : list A) k :
  nth_error (enum l) k = option_map (fun x => (k, x)) (nth_error l k).
Proof.
  unfold enum. rewrite nth_error_combine, nth_error_seq. simpl.
  destruct (nth_error l k) eqn:E; simpl.
  - assert (Hk : k < length l) by (apply nth_error_Some; congruence).
    apply Nat.ltb_lt in Hk; rewrite Hk; reflexivity.
  - destruct (k <? length l); reflexivity.
Qed.

Lemma nth_error_map' {A B} (f : A -> B) l k :
  nth_error (map f l) k = option_map f (nth_error l k).
Proof. revert k; induction l as [|x l IH]; intros [|k]; simpl; auto. Qed.

Lemma nth_error_ext' {A} (l l' : list A) :
  (forall k, nth_error l k = nth_error l' k) -> l = l'.
Proof.
  revert l'; induction l as [|x l IH]; intros [|y l'] H; auto.
  - specialize (H 0); discriminate.
  - specialize (H 0); discriminate.
  - pose proof (H 0) as H0; injection H0 as ->. f_equal.
    apply IH. intros k. exact (H (S k)).
Qed.

Lemma nth_error_firstn {A} (l : list A) n k :
  nth_error (firstn n l) k = if k <? n then nth_error l k else None.
Proof.
  revert l k; induction n as [|n IH]; intros l k; simpl.
  - destruct k; reflexivity.
  - destruct l as [|x l]; destruct k as [|k]; simpl; auto.
    + destruct (S k <? S n); reflexivity.
    + rewrite IH; reflexivity.
Qed.

Lemma nth_error_skipn {A} (l : list A) n k :
  nth_error (skipn n l) k = nth_error l (n + k).
Proof.
  revert l; induction n as [|n IH]; intros l; simpl; auto.
  destruct l as [|x l]; simpl; auto. destruct k; reflexivity.
Qed.

Lemma nth_error_repeat' {A} (x : A) n k :
  nth_error (repeat x n) k = if k <? n then Some x else None.
Proof.
  revert k; induction n as [|n IH]; intros [|k]; simpl; auto.
  rewrite IH; reflexivity.
Qed.

Lemma nth_error_app {A} (l l' : list A) k :
  nth_error (l ++ l') k =
  if k <? length l then nth_error l k else nth_error l' (k - length l).
Proof.
  destruct (Nat.ltb_spec k (length l)).
  - apply nth_error_app1; assumption.
  - apply nth_error_app2; assumption.
Qed.
