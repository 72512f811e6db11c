(** Vocabulary of the properties of the HDF5 reader and of the configuration (C262-C270). *)
From Coq Require Import Reals ZArith String List.
From Verif Require Import IoModel.
Import ListNotations.

(** The rows and the columns of a matrix *)
Definition row {A} (m : mat A) (i : nat) : list A := map (m_at m i) (seq 0 (m_cols m)).
Definition column {A} (m : mat A) (j : nat) : list A := map (fun i => m_at m i j) (seq 0 (m_rows m)).
Definition rows {A} (m : mat A) : list (list A) := map (row m) (seq 0 (m_rows m)).
(** Lists of rows of the same length *)
Definition rectangular {A} (c : nat) (M : list (list A)) : Prop := forall r, In r M -> length r = c.
(** An array of rows, and a list, as stored in a file *)
Definition stored_rows (M : list (list R)) (c : nat) : dataset := DS [length M; c] (SDouble (concat M)).
Definition stored_ints (M : list (list Z)) (c : nat) : dataset := DS [length M; c] (SInt (concat M)).
Definition stored_list (l : list R) : dataset := DS [length l] (SDouble l).

(** Histories in which a file is closed before it is replaced, and found *)
Fixpoint tidy (h : list rop) : Prop :=
  match h with
  | [] => True
  | Close :: SetFilename true :: h => tidy h
  | Close :: h => tidy h
  | SetFilename _ :: _ => False
  end.

(** The string found under frydom_config *)
Definition entry (j : json) (key : string) (s : string) : Prop :=
  exists top inner, j = JObject top /\ top "frydom_config"%string = Some (JObject inner) /\ inner key = Some (JString s).
