(** Model of [glass/arraytools.py:24-110] (broadcasting) and of the decorator
    [numpy_fallback] (glass/_array_api_utils.py:569-652). *)
From Coq Require Import String.
From Verif Require Import Base.
Open Scope string_scope.
Open Scope list_scope.
Open Scope nat_scope.

(** * Shapes *)
Notation shape := (list nat).

(** An array: its shape and its elements by multi-index. *)
Record array (V : Type) := { ashape : shape; aget : list nat -> V }.
Arguments ashape {V}. Arguments aget {V}.

(** NumPy's broadcasting of two axis lengths. *)
Definition bdim (a b : nat) : result nat :=
  if a =? b then Ok a else if a =? 1 then Ok b else if b =? 1 then Ok a else Err ValueError.

(** Two shapes, aligned at the end: computed on the reversed shapes. *)
Fixpoint brev (s t : shape) : result shape :=
  match s, t with
  | [], _ => Ok t
  | _, [] => Ok s
  | a :: s, b :: t => do d <- bdim a b; do r <- brev s t; Ok (d :: r)
  end.
Definition broadcast2 (s t : shape) : result shape :=
  do r <- brev (rev s) (rev t); Ok (rev r).

(** [xp.broadcast_shapes( *shapes)] *)
Fixpoint broadcast_shapes (l : list shape) : result shape :=
  match l with
  | [] => Ok []
  | s :: l => do t <- broadcast_shapes l; broadcast2 s t
  end.

(** [xp.broadcast_to(a, target)]: the multi-index of the source that element [i]
    comes from, both aligned at the end; ValueError unless each source axis is 1 or
    equals the target axis, and the source has not more axes. *)
Fixpoint to_rev (s t : shape) : bool :=
  match s, t with
  | [], _ => true
  | _ :: _, [] => false
  | a :: s, b :: t => ((a =? b) || (a =? 1)) && to_rev s t
  end.
Fixpoint source_rev (s : shape) (i : list nat) : list nat :=
  match s, i with
  | a :: s, x :: i => (if a =? 1 then 0 else x) :: source_rev s i
  | _, _ => []
  end.
Definition source (s : shape) (i : list nat) : list nat := rev (source_rev (rev s) (rev i)).
Definition broadcast_to {V} (a : array V) (t : shape) : result (array V) :=
  if to_rev (rev (ashape a)) (rev t)
  then Ok {| ashape := t; aget := fun i => aget a (source (ashape a) i) |}
  else Err ValueError.

(** Python slices [s[:i]] and [s[i:]] for an integer [i], possibly negative. *)
Definition clip_index (i : Z) (n : nat) : nat :=
  if (i <? 0)%Z then Z.to_nat (Z.max 0 (i + Z.of_nat n)) else Nat.min (Z.to_nat i) n.
Definition before {A} (s : list A) (i : Z) : list A := firstn (clip_index i (length s)) s.
Definition after {A} (s : list A) (i : Z) : list A := skipn (clip_index i (length s)) s.

(** glass/arraytools.py:47-110 [broadcast_leading_axes] *)
Definition broadcast_leading_axes {V} (args : list (array V * nat))
    : result (shape * list (array V)) :=
  let cut := fun '(a, n) => (Z.of_nat (length (ashape a)) - Z.of_nat n)%Z in
  let shapes := map (fun p => before (ashape (fst p)) (cut p)) args in
  let trails := map (fun p => after (ashape (fst p)) (cut p)) args in
  do dims <- broadcast_shapes shapes;
  do arrs <- mapM (fun '((a, _), t) => broadcast_to a (dims ++ t)) (combine args trails);
  Ok (dims, arrs).

(** [xp.moveaxis(a, 0, -1)] and [xp.moveaxis(a, -1, 0)] of an array with axes. *)
Definition to_last {A} (l : list A) : list A := match l with [] => [] | x :: r => r ++ [x] end.
Definition to_first {A} (l : list A) : list A :=
  match rev l with [] => [] | x :: r => x :: rev r end.
Definition move_first_last {V} (a : array V) : array V :=
  {| ashape := to_last (ashape a); aget := fun i => aget a (to_first i) |}.
Definition move_last_first {V} (a : array V) : array V :=
  {| ashape := to_first (ashape a); aget := fun i => aget a (to_last i) |}.

(** glass/arraytools.py:24-44 [broadcast_first]; arrays without axes are left alone by
    both moves (the move of an empty shape is the identity). *)
Definition broadcast_first {V} (arrays : list (array V)) : result (list (array V)) :=
  let moved := map move_first_last arrays in
  do dims <- broadcast_shapes (map ashape moved);
  do arrs <- mapM (fun a => broadcast_to a dims) moved;
  Ok (map move_last_first arrs).

(** * numpy_fallback *)

(** Python values as the decorator distinguishes them.  [Arr b d] is an array of
    backend [b] with contents [d]; [OtherSeq] is a sequence that is neither tuple nor
    list (nor string); [Atom] is anything else. *)
Inductive val (B D A : Type) :=
| Arr (b : B) (d : D)
| Tup (l : list (val B D A))
| Lst (l : list (val B D A))
| Dct (l : list (string * val B D A))
| OtherSeq (l : list (val B D A))
| Atom (a : A).
Arguments Arr {B D A}. Arguments Tup {B D A}. Arguments Lst {B D A}.
Arguments Dct {B D A}. Arguments OtherSeq {B D A}. Arguments Atom {B D A}.

(** lines 593-602 [collect_arrays]: the backends of all arrays found. *)
Fixpoint collect {B D A} (v : val B D A) : list B :=
  match v with
  | Arr b _ => [b]
  | Tup l | Lst l | OtherSeq l => flat_map collect l
  | Dct l => flat_map (fun kv => collect (snd kv)) l
  | Atom _ => []
  end.

(** lines 619-629 [to_numpy]: arrays (of any backend) become arrays of [np]. *)
Fixpoint to_numpy {B D A} (np : B) (v : val B D A) : val B D A :=
  match v with
  | Arr _ d => Arr np d
  | Tup l => Tup (map (to_numpy np) l)
  | Lst l => Lst (map (to_numpy np) l)
  | Dct l => Dct (map (fun kv => (fst kv, to_numpy np (snd kv))) l)
  | OtherSeq l => OtherSeq l
  | Atom a => Atom a
  end.

(** lines 636-646 [convert_back]: only NumPy arrays are converted. *)
Fixpoint convert_back {B D A} (beq : B -> B -> bool) (np xp : B) (v : val B D A) : val B D A :=
  match v with
  | Arr b d => if beq b np then Arr xp d else Arr b d
  | Tup l => Tup (map (convert_back beq np xp) l)
  | Lst l => Lst (map (convert_back beq np xp) l)
  | Dct l => Dct (map (fun kv => (fst kv, convert_back beq np xp (snd kv))) l)
  | OtherSeq l => OtherSeq l
  | Atom a => Atom a
  end.

(** [array_api_compat.array_namespace]: TypeError unless all arrays share one backend. *)
Definition array_namespace {B} (beq : B -> B -> bool) (l : list B) : result B :=
  match l with
  | [] => Err TypeError
  | b :: r => if forallb (beq b) r then Ok b else Err TypeError
  end.

(** glass/_array_api_utils.py:589-650 [wrapper].  Keyword arguments are [kwargs]
    without [xp], plus [xp]: absent, or present with a backend or Python's [None].
    [func args kwargs xp] is the wrapped function. *)
Definition xp_arg (B : Type) := option (option B).   (* absent | None | a backend *)
Definition numpy_fallback {B D A} (beq : B -> B -> bool) (np : B)
    (func : list (val B D A) -> list (string * val B D A) -> xp_arg B -> result (val B D A))
    (args : list (val B D A)) (kwargs : list (string * val B D A)) (xp : xp_arg B)
    : result (val B D A) :=
  let found := flat_map collect args ++ flat_map (fun kv => collect (snd kv)) kwargs in
  match found with
  | [] => func args kwargs xp
  | _ =>
      do ns <- match xp with
               | Some (Some b) => Ok b
               | _ => array_namespace beq found
               end;
      do r <- func (map (to_numpy np) args)
                   (map (fun kv => (fst kv, to_numpy np (snd kv))) kwargs) None;
      Ok (convert_back beq np ns r)
  end.
