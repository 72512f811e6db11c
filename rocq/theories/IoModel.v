(** Model of the HDF5 reader: IO/FrHDF5.cpp, and of the configuration file: utils/FrConfig.cpp.  Paths are relative to /repo/src/frydom; [double] is
    modelled by [R], [int] by [Z].
    Contracts: HDF5: openDataSet throws when the path is not a dataset; read copies the values in row major order; read with the type of the dataset copies
    them without conversion; H5Lexists is negative when an intermediate group is missing, zero when only the last link is; closing twice is harmless.
    Eigen: matrices are stored by columns.  nlohmann: parse throws on a file that cannot be opened and on malformed text, the access to a key throws on a
    value that is not an object, and the conversion to a string on a value that is not a string.  No proofs in this file. *)
From Coq Require Import Reals ZArith String List Bool.
Import ListNotations.

(** ** Datasets.  A path is the list of its names, the last one first *)
Inductive stored := SDouble (l : list R) | SInt (l : list Z).
Record dataset := DS { dims : list nat; content : stored }.
Inductive node := Group | Data (d : dataset).
Definition hfile := list string -> option node.
(** Outcome: a value, an exception, or a behaviour that C++ does not define *)
Inductive read (A : Type) := Value (a : A) | Threw | Undefined.
Arguments Value {A}. Arguments Threw {A}. Arguments Undefined {A}.
(** Eigen::Matrix *)
Record mat (A : Type) := Mat { m_rows : nat; m_cols : nat; m_at : nat -> nat -> A }.
Arguments Mat {A}. Arguments m_rows {A}. Arguments m_cols {A}. Arguments m_at {A}.
(** FrHDF5.cpp 62-91: the numbers of rows and columns, and the copy of the buffer.  Without dimension (a single number) the buffer has no place and the read
    writes beyond it *)
Definition fill {A} (zero : A) (dims : list nat) (buffer : list A) : read (mat A) :=
  match dims with
  | [] => Undefined
  | [n] => Value (Mat n 1 (fun i j => nth (i * 1 + j) buffer zero))
  | [r; c] => Value (Mat r c (fun i j => nth (i * c + j) buffer zero))
  | _ => Threw
  end.
(** ReadDoubleArray 41-94: the buffer of doubles is read with the type of the dataset; integers are put as they are in its first half *)
Definition ReadDoubleArray (f : hfile) (p : list string) : read (mat R) :=
  match f p with
  | Some (Data d) => match content d with SDouble l => fill R0 (dims d) l | SInt _ => if Nat.ltb 2 (length (dims d)) then Threw else Undefined end
  | _ => Threw
  end.
(** ReadIntArray 113-168, of a dataset of integers (the conversion of doubles is not modelled: None) *)
Definition ReadIntArray (f : hfile) (p : list string) : option (read (mat Z)) :=
  match f p with
  | Some (Data d) => match content d with SInt l => Some (fill 0%Z (dims d) l) | SDouble _ => None end
  | _ => Some Threw
  end.
(** ReadDoubleArraySTD 96-111: the vector grows from one column to the next *)
Definition ReadDoubleArraySTD (f : hfile) (p : list string) : read (list (list R)) :=
  match ReadDoubleArray f p with
  | Value m =>
    Value (snd (fold_left (fun s i =>
      let vec := fold_left (fun vec j => (vec ++ [m_at m j i])%list) (seq 0 (m_rows m)) (fst s) in
      (vec, (snd s ++ [vec])%list)) (seq 0 (m_cols m)) ([], [])))
  | Threw => Threw
  | Undefined => Undefined
  end.
(** ReadIntArraySTD 170-176: each coefficient, by columns, is given to the constructor of vector<int>, which takes it for a number of zeros; a negative
    coefficient has no conversion to a size *)
Definition ReadIntArraySTD (f : hfile) (p : list string) : read (list (list Z)) :=
  match ReadDoubleArray f p with
  | Value m =>
    let data := flat_map (fun j => map (fun i => m_at m i j) (seq 0 (m_rows m))) (seq 0 (m_cols m)) in
    if existsb (fun d => if Rlt_dec d R0 then true else false) data then Undefined
    else Value (map (fun d => repeat 0%Z (Z.to_nat (Int_part d))) data)
  | Threw => Threw
  | Undefined => Undefined
  end.

(** ** GroupExist 225-227 *)
Fixpoint parents_exist (f : hfile) (p : list string) : bool :=
  match p with [] => true | _ :: p => match f p with Some Group => parents_exist f p | _ => false end end.
Definition H5Lexists (f : hfile) (p : list string) : Z :=
  if parents_exist f p then match f p with Some _ => 1%Z | None => 0%Z end else (-1)%Z.
Definition GroupExist (f : hfile) (p : list string) : bool := negb (Z.eqb (H5Lexists f p) 0).

(** ** The life of a reader: the handles opened and not closed, and the file it holds, None for a null pointer *)
Record reader := Reader { r_open : list nat; r_file : option nat; r_next : nat }.
Inductive rop := SetFilename (found : bool) | Close.
(** Constructor 18 *)
Definition newReader : reader := Reader [] None 0.
(** Constructor 20-21, for a file that exists *)
Definition newReaderOf : reader := Reader [0] (Some 0) 1.
(** H5File::close *)
Definition close (h : nat) (o : reader) : reader := Reader (filter (fun k => negb (Nat.eqb k h)) (r_open o)) (r_file o) (r_next o).
(** SetFilename 27-37 (release gives up the pointer without deleting the file), Close 39; None: a null pointer is followed *)
Definition rstep (o : option reader) (a : rop) : option reader :=
  match o with
  | None => None
  | Some o =>
    match a with
    | SetFilename true => Some (Reader (r_next o :: r_open o) (Some (r_next o)) (S (r_next o)))
    | SetFilename false => Some (Reader (r_open o) None (r_next o))
    | Close => match r_file o with Some h => Some (close h o) | None => None end
    end
  end.
Definition rrun (o : reader) (h : list rop) : option reader := fold_left rstep h (Some o).
(** Destructor 23-25: the handles that stay open *)
Definition destroy (o : option reader) : option (list nat) :=
  match o with
  | None => None
  | Some o => match r_file o with Some h => Some (r_open (close h o)) | None => None end
  end.

(** ** FrConfig *)
Inductive json := JObject (f : string -> option json) | JString (s : string) | JNull | JOther.
(** operator[] of a value that is not const, then the conversion *)
Definition at_key (k : string) (j : json) : option json :=
  match j with JObject f => Some (match f k with Some v => v | None => JNull end) | JNull => Some JNull | _ => None end.
Definition to_string (j : json) : option string := match j with JString s => Some s | _ => None end.
Definition bindo {A B} (x : option A) (f : A -> option B) : option B := match x with Some a => f a | None => None end.
(** A file that exists: its parsed text, None when malformed *)
Definition files := string -> option (option json).
(** LookForConfigFile 53-74: in the current directory, then in the home directory; the empty string when there is none *)
Definition name_in (folder : string) : string := (folder ++ "/.frydom_config")%string.
Definition LookForConfigFile (fs : files) (cwd home : string) : string :=
  match fs (name_in cwd) with
  | Some _ => name_in cwd
  | None => match fs (name_in home) with Some _ => name_in home | None => "" end
  end.
(** Constructor 17-51: the log folder and the data folder; None: the exception of parse leaves the constructor *)
Definition FrConfig (fs : files) (cwd home : string) : option (string * string) :=
  let config_file := LookForConfigFile fs cwd home in
  let log0 := if String.eqb config_file "" then cwd else ""%string in
  let data0 := if String.eqb config_file "" then cwd else ""%string in
  match fs config_file with
  | Some (Some j) =>
    let log := match bindo (bindo (at_key "frydom_config" j) (at_key "log_folder")) to_string with Some s => s | None => log0 end in
    let data := match bindo (bindo (at_key "frydom_config" j) (at_key "data_folder")) to_string with Some s => s | None => data0 end in
    Some (log, data)
  | _ => None
  end.
