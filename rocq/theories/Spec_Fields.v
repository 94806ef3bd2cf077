(** Vocabulary for covariance rows and matrices of spectra. *)
From Coq Require Import Arith List.
From Verif Require Import Spec_Spectra.
Import ListNotations.

(** Value of mode [l] of a spectrum, zero beyond its end. *)
Definition mode {A} (zero : A) (cl : list A) (l : nat) : A := nth l cl zero.

(** Spectrum [cl] is the one of fields ([i],[j]), in either order, in the list [cls]. *)
Definition spectrum_of {A} (cls : list (list A)) (i j : nat) (cl : list A) : Prop :=
  exists k, in_order k (Nat.max i j) (Nat.min i j) /\ nth_error cls k = Some cl.

(** The covariance array for field [j]: [nc+1] columns of [nl] modes; column [i] is half
    the spectrum of fields ([j], [j-i]), and zero if there is no such field. *)
Definition covariance_row {A} (zero : A) (half : A -> A) (cls : list (list A))
    (nl nc j : nat) (row : list (list A)) : Prop :=
  length row = nc + 1 /\
  forall i, i <= nc -> exists col, nth_error row i = Some col /\ length col = nl /\
    forall l, l < nl ->
      nth_error col l = Some zero /\ j < i \/
      exists cl, i <= j /\ spectrum_of cls j (j - i) cl /\
                 nth_error col l = Some (half (mode zero cl l)).

(** The auto-spectrum of field [j] contains a negative value. *)
Definition negative_auto {A} (neg : A -> bool) (cls : list (list A)) (j : nat) : Prop :=
  exists cl x, spectrum_of cls j j cl /\ In x cl /\ neg x = true.

(** [c l i j] is the covariance of [n] fields at mode [l < k]: the value of the spectrum
    of fields ([i],[j]) at [l], zero beyond its end. *)
Definition covariance_of {A} (zero : A) (cls : list (list A)) (k n : nat)
    (c : nat -> nat -> nat -> A) : Prop :=
  forall l i j, l < k -> i < n -> j < n ->
    exists cl, spectrum_of cls i j cl /\ c l i j = mode zero cl l.

(** [k] is the length of the longest spectrum. *)
Definition longest {A} (cls : list (list A)) (k : nat) : Prop :=
  (forall cl, In cl cls -> length cl <= k) /\ (k = 0 \/ exists cl, In cl cls /\ length cl = k).

(** [out] is [cl] truncated or zero padded to [k] modes. *)
Definition resized {A} (zero : A) (k : nat) (cl out : list A) : Prop :=
  length out = k /\ forall l, l < k -> nth_error out l = Some (mode zero cl l).

(** Entry [k] of [spectra] belongs to fields number [i] and [j], which are [t1] and [t2]. *)
Definition entry_of {F A} (fields : list F) (spectra : list (list A)) (k i j : nat)
    (t1 t2 : F) (cl : list A) : Prop :=
  in_order k i j /\ nth_error spectra k = Some cl /\
  nth_error fields i = Some t1 /\ nth_error fields j = Some t2.
