(** Model of the polynomial function: core/math/functions/lib/FrPolynomialFunction.cpp (an FrFunctionBase over the operators of
    FrFunctionBase.cpp 205-207, 245-247 and FrPowFunction.cpp 53-55), on the function objects of FunModel, and of the creation of directories:
    utils/FrFileSystem.cpp (mkdir).  Paths are relative to /repo/src/frydom; [double] is modelled by [R].
    Contracts: cppfs: exists, isDirectory, parentDirectory of an absolute path (the root exists); createDirectory makes a directory in a parent that is a
    directory, and fails in a parent that is a file.  Permissions are not modelled.  The assertion on the power is a hypothesis.  No proofs in this file. *)
From Coq Require Import Reals List String Bool.
From Verif Require Import FunModel.
Import ListNotations.
Open Scope R_scope.

(** ** FrPolynomialFunction: m_function is an expression, the function itself has its own cached values, as FrUnaryOpFunction *)
Record poly := Poly { p_expr : expr; p_state : state (Un UWrap p_expr) }.
(** Constructor 14-16 *)
Definition polyNew (k : R) : poly := Poly (Cst k) (fresh, clone (Cst k) (newCst k)).
(** val * pow(FrVarXFunction(), power): FrFunctionBase.cpp 245-247, FrPowFunction.cpp 53-55 *)
Definition monomial (v : R) (p : nat) : expr := Bin BMul (Cst v) (Un (UPow (INR p)) Var).
Definition newMonomial (v : R) (p : nat) : state (monomial v p) := newBin BMul (Cst v) (Un (UPow (INR p)) Var) (newCst v) (newUn (UPow (INR p)) Var newVar).
(** Add 24-27 with operator+= of FrFunctionBase.cpp 205-207; the cached values of the polynomial stay *)
Definition polyAdd (v : R) (p : nat) (o : poly) : poly :=
  let f := Bin BAdd (p_expr o) (monomial v p) in
  Poly f (fst (p_state o), clone f (newBin BAdd (p_expr o) (monomial v p) (snd (p_state o)) (newMonomial v p))).
(** Get_y, Get_y_dx, Get_y_dxdx with Eval 33-40 *)
Definition polyGet (q : query) (x : R) (o : poly) : poly * R :=
  let r := get q (Un UWrap (p_expr o)) (p_state o) x in (Poly (p_expr o) (fst r), snd r).
(** A program *)
Inductive pop := PAdd (v : R) (p : nat) | PGet (q : query) (x : R).
Definition polyStep (o : poly) (a : pop) : poly := match a with PAdd v p => polyAdd v p o | PGet q x => fst (polyGet q x o) end.
Definition polyRun (k : R) (h : list pop) : poly := fold_left polyStep h (polyNew k).

(** FrPowFunction.cpp 36-48: the second derivative, [None] when it is not a number: std::pow of zero to a negative power is infinite, and zero times infinity
    is not a number *)
Definition pow_infinite (u p : R) : bool := if Req_EM_T u 0 then if Rlt_dec p 0 then true else false else false.
Definition PowSecond (u u' u'' p : R) : option R :=
  if orb (pow_infinite u (p - 1)) (pow_infinite u (p - 2)) then None
  else Some (p * (u'' * c_pow u (p - 1) + (p - 1) * u' * u' * c_pow u (p - 2))).

(** ** FrFileSystem::mkdir 62-83: a path is the list of its names, the last one first; the root is [] *)
Inductive entry := Dir | File.
Definition fsys := list string -> option entry.
(** Outcome: the value returned with the files, or exit(EXIT_FAILURE) *)
Inductive mkres := Made (ok : bool) (fs : fsys) | ExitFailure.
Definition put (fs : fsys) (p : list string) (e : entry) : fsys := fun q => if list_eq_dec string_dec p q then Some e else fs q.
Fixpoint mkdir (p : list string) (fs : fsys) : mkres :=
  match fs p with
  | Some _ => Made true fs
  | None =>
    match p with
    | [] => ExitFailure
    | _ :: parent =>
      match mkdir parent fs with
      | Made true fs => match fs parent with Some Dir => Made true (put fs p Dir) | _ => ExitFailure end
      | Made false fs => Made false fs
      | ExitFailure => ExitFailure
      end
    end
  end.
