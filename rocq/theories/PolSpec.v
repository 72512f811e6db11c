(** Vocabulary of the properties of polynomials and of the creation of directories (C257-C261). *)
From Coq Require Import Reals List String.
From Verif Require Import FunModel PolModel.
Import ListNotations.
Open Scope R_scope.

(** The terms added by a program, in order, and the abscissas it asks for *)
Fixpoint terms (h : list pop) : list (R * nat) := match h with [] => [] | PAdd v p :: h => (v, p) :: terms h | PGet _ _ :: h => terms h end.
Fixpoint asked (h : list pop) : list R := match h with [] => [] | PAdd _ _ :: h => asked h | PGet _ x :: h => x :: asked h end.
Definition only_queries (h : list pop) : Prop := terms h = [].
Definition only_additions (h : list pop) : Prop := asked h = [].
(** Positive powers: the precondition of Add *)
Definition powers_positive (h : list pop) : Prop := forall t, In t (terms h) -> (1 <= snd t)%nat.
(** The polynomial of these terms and its two derivatives *)
Definition total (f : R * nat -> R) (l : list (R * nat)) : R := fold_right (fun t s => f t + s) 0 l.
Definition polynomial (k : R) (l : list (R * nat)) (x : R) : R := k + total (fun t => fst t * x ^ snd t) l.
Definition polynomial' (l : list (R * nat)) (x : R) : R := total (fun t => fst t * (INR (snd t) * x ^ (snd t - 1))) l.
Definition polynomial'' (l : list (R * nat)) (x : R) : R := total (fun t => fst t * (INR (snd t) * INR (snd t - 1) * x ^ (snd t - 2))) l.
(** Abscissas where the program computes the second derivative with numbers *)
Definition second_defined (l : list (R * nat)) (x : R) : Prop := x <> 0 \/ forall t, In t l -> (2 <= snd t)%nat.

(** The ancestors of a path, the path included *)
Fixpoint ancestor (q p : list string) : Prop := q = p \/ match p with [] => False | _ :: p => ancestor q p end.
(** Everything that exists is in a directory; the root is one *)
Definition tree (fs : fsys) : Prop := fs [] = Some Dir /\ forall n p, fs (n :: p) <> None -> fs p = Some Dir.
