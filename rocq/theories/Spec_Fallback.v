(** Vocabulary for nested values. *)
From Coq Require Import String List.
From Verif Require Import Base Model_Arrays.

(** The value reached from [v] by a path of positions through tuples, lists and dicts. *)
Fixpoint reach {B D A} (p : list nat) (v : val B D A) : option (val B D A) :=
  match p with
  | [] => Some v
  | i :: p =>
      match v with
      | Tup l | Lst l => match nth_error l i with Some w => reach p w | None => None end
      | Dct l => match nth_error l i with Some (_, w) => reach p w | None => None end
      | _ => None
      end
  end.

(** What conversion of arrays by [conv] does to the value at one position: containers
    keep their kind, length and keys, arrays change backend, the rest is the same. *)
Definition node_converted {B D A} (conv : B -> B) (v w : val B D A) : Prop :=
  match v, w with
  | Arr b d, Arr b' d' => b' = conv b /\ d' = d
  | Tup l, Tup l' => length l' = length l
  | Lst l, Lst l' => length l' = length l
  | Dct l, Dct l' => map fst l' = map fst l
  | OtherSeq l, OtherSeq l' => l' = l
  | Atom a, Atom a' => a' = a
  | _, _ => False
  end.

Definition converted {B D A} (conv : B -> B) (v w : val B D A) : Prop :=
  forall p, match reach p v, reach p w with
            | Some a, Some b => node_converted conv a b
            | None, None => True
            | _, _ => False
            end.
