(** Model of [glass/user.py]: saving spectra and writing catalogues. *)
From Coq Require Import String.
From Verif Require Import Base.
Open Scope string_scope.
Open Scope list_scope.
Open Scope nat_scope.

(** * save_cls and load_cls *)

(** An [.npz] file with the two arrays written by [save_cls]; the file system maps
    names to files (latest first). *)
Record npz (V : Type) := { values : list V; split : list nat }.
Arguments values {V}. Arguments split {V}.
Notation files V := (list (string * npz V)).

(** [numpy.savez] gives a name without the suffix [.npz] the suffix; [numpy.load] does not. *)
Definition has_suffix (s suf : string) : bool :=
  let n := String.length s in let m := String.length suf in
  (m <=? n) && String.eqb (String.substring (n - m) m s) suf.
Definition npz_name (s : string) : string :=
  if has_suffix s ".npz" then s else String.append s ".npz".

(** [np.cumulative_sum] and Python's [cls[:-1]]. *)
Fixpoint cumulative_sum (acc : nat) (l : list nat) : list nat :=
  match l with [] => [] | x :: xs => (acc + x) :: cumulative_sum (acc + x) xs end.

(** glass/user.py:42-62 [save_cls].  The values of the arrays are not converted to a
    common type.  [np.concatenate] of an empty list is a ValueError. *)
Definition save_cls {V} (fs : files V) (filename : string) (cls : list (list V)) : result (files V) :=
  let sp := cumulative_sum 0 (map (@length V) (removelast cls)) in
  match cls with
  | [] => Err ValueError
  | _ => Ok ((npz_name filename, {| values := concat cls; split := sp |}) :: fs)
  end.

(** [np.split(values, split)]: the pieces between consecutive division points
    [0, *split, len(values)]. *)
Fixpoint pieces {V} (values : list V) (points : list nat) : list (list V) :=
  match points with
  | a :: ((b :: _) as rest) => firstn (b - a) (skipn a values) :: pieces values rest
  | _ => []
  end.
Definition np_split {V} (values : list V) (sp : list nat) : list (list V) :=
  pieces values (0 :: sp ++ [length values]).

(** glass/user.py:65-86 [load_cls]; a missing file is an error (FileNotFoundError,
    reported as KeyError). *)
Definition load_cls {V} (fs : files V) (filename : string) : result (list (list V)) :=
  match find (fun f => String.eqb (fst f) filename) fs with
  | None => Err KeyError
  | Some (_, f) => Ok (np_split (values f) (split f))
  end.

(** * write_catalog *)

(** A batch of named columns; a structured array passed positionally has the same
    content.  A table HDU keeps its columns in the order of creation. *)
Notation table V := (list (string * list V)).
Record hdu (V : Type) := { hname : option string; htable : table V }.
Arguments hname {V}. Arguments htable {V}.

(** The file: the primary HDU written by [fits.write(None)] first, then tables. *)
Record fits (V : Type) := { hdus : list (hdu V) ; closed : bool }.
Arguments hdus {V}. Arguments closed {V}.

(** How the writer addresses its extension: not yet, by name, or by number. *)
Inductive ext := NoExt | ByName (s : string) | ByNum (n : nat).

Definition find_hdu {V} (f : fits V) (e : ext) : option nat :=
  match e with
  | NoExt => None
  | ByNum n => if n <? length (hdus f) then Some n else None
  | ByName s =>
      find (fun i => match nth_error (hdus f) i with
                     | Some h => match hname h with Some t => String.eqb s t | None => false end
                     | None => false
                     end) (seq 0 (length (hdus f)))
  end.

(** fitsio accepts a batch if there are columns, all of one length, with distinct names. *)
Definition same_lengths {V} (b : table V) : bool :=
  match b with [] => false | (_, c) :: _ => forallb (fun '(_, c') => length c' =? length c) b end.
Fixpoint distinct (l : list string) : bool :=
  match l with [] => true | x :: xs => negb (existsb (String.eqb x) xs) && distinct xs end.
Definition lookup {V} (b : table V) (s : string) : option (list V) :=
  option_map snd (find (fun c => String.eqb (fst c) s) b).

(** [hdu.write(data, names, firstrow=nrows)]: values go to the columns of the same
    name.  Batches with another set of columns are rejected here (fitsio pads
    missing columns; this is not modelled). *)
Definition append_rows {V} (t b : table V) : result (table V) :=
  if (length t =? length b) && forallb (fun '(s, _) => match lookup b s with Some _ => true | None => false end) t
  then Ok (map (fun '(s, c) => (s, c ++ match lookup b s with Some d => d | None => [] end)) t)
  else Err ValueError.

Fixpoint update {A} (l : list A) (i : nat) (x : A) : list A :=
  match l, i with
  | [], _ => []
  | _ :: l', 0 => x :: l'
  | y :: l', S i' => y :: update l' i' x
  end.

(** glass/user.py:112-137 [_FitsWriter._append].  fitsio errors leave the file as it was. *)
Definition fits_append {V} (f : fits V) (e : ext) (b : table V) : result (fits V * ext) :=
  if negb (same_lengths b && distinct (map fst b)) then Err ValueError
  else
    match find_hdu f e with
    | None =>                       (* self.ext is None or self.ext not in self.fits *)
        let name := match e with ByName s => Some s | _ => None end in
        let f' := {| hdus := hdus f ++ [{| hname := name; htable := b |}]; closed := closed f |} in
        let e' := match e with NoExt => ByNum (length (hdus f') - 1) | _ => e end in
        Ok (f', e')
    | Some i =>
        match nth_error (hdus f) i with
        | None => Err IndexError
        | Some h =>
            do t <- append_rows (htable h) b;
            Ok ({| hdus := update (hdus f) i {| hname := hname h; htable := t |};
                   closed := closed f |}, e)
        end
    end.

(** The body of the [with] statement: calls of [write] (glass/user.py:139-164) and
    possibly an exception.  [write] appends the positional data first, then the keyword
    columns; without keyword columns the second part is skipped.  An error of the second
    append keeps the rows of the first. *)
Inductive action (V : Type) := Write (data : option (table V)) (columns : table V) | Raise (e : exn).
Arguments Write {V}. Arguments Raise {V}.

Definition opt_append {V} (f : fits V) (e : ext) (b : option (table V)) : (fits V * ext) * option exn :=
  match b with
  | None => ((f, e), None)
  | Some b => match fits_append f e b with Ok fe => (fe, None) | Err x => ((f, e), Some x) end
  end.

Fixpoint body {V} (f : fits V) (e : ext) (acts : list (action V)) : fits V * option exn :=
  match acts with
  | [] => (f, None)
  | Raise x :: _ => (f, Some x)
  | Write data columns :: acts =>
      let '((f, e), x) := opt_append f e data in
      match x with
      | Some x => (f, Some x)
      | None =>
          let '((f, e), x) := opt_append f e (match columns with [] => None | _ => Some columns end) in
          match x with Some x => (f, Some x) | None => body f e acts end
      end
  end.

(** glass/user.py:167-205 [write_catalog]: [with fitsio.FITS(...)] closes the file on
    leaving, also by an exception, which propagates. *)
Definition write_catalog {V} (name : option string) (acts : list (action V)) : fits V * option exn :=
  let f := {| hdus := [{| hname := None; htable := [] |}]; closed := false |} in
  let '(f, x) := body f (match name with Some s => ByName s | None => NoExt end) acts in
  ({| hdus := hdus f; closed := true |}, x).
