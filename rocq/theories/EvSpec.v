(** Vocabulary of the properties of the event log (C271-C274). *)
From Coq Require Import String Ascii List Bool Arith.
From Verif Require Import EvModel.
Import ListNotations.
Open Scope string_scope.

(** Programs with one system at a time: what exists before and after *)
Inductive one_at_a_time : option nat -> list ev -> Prop :=
| Done : forall o, one_at_a_time o []
| Create : forall n h, one_at_a_time (Some n) h -> one_at_a_time None (NewSystem n :: h)
| Delete : forall n h, one_at_a_time None h -> one_at_a_time (Some n) (EndSystem n :: h)
| Level : forall o v h, one_at_a_time o h -> one_at_a_time o (SetLevel v :: h)
| Message : forall o v t h, one_at_a_time o h -> one_at_a_time o (Say v t :: h).
(** The lines one expects: in the file of the living system, from the level asked for since its creation (or since the end of the last one) on *)
Definition passes (asked said : level) : bool :=
  match asked, said with
  | TRACE, _ => true
  | DEBUG, TRACE => false | DEBUG, _ => true
  | INFO, (TRACE | DEBUG) => false | INFO, _ => true
  | WARN, (WARN | ERROR | CRITICAL) => true | WARN, _ => false
  | ERROR, (ERROR | CRITICAL) => true | ERROR, _ => false
  | CRITICAL, CRITICAL => true | CRITICAL, _ => false
  end.
Definition place (o : option nat) : sink := match o with Some n => EventsOf n | None => Console end.
Fixpoint expected (o : option nat) (v : level) (h : list ev) : list (sink * string) :=
  match h with
  | [] => []
  | NewSystem n :: h => expected (Some n) INFO h
  | EndSystem _ :: h => expected None INFO h
  | SetLevel v :: h => expected o v h
  | Say u t :: h => ((if passes v u then [(place o, t)] else []) ++ expected o v h)%list
  end.
(** The last level asked for in a program that asks for one, whatever the systems *)
Fixpoint asked_level (v : level) (h : list ev) : level := match h with [] => v | SetLevel u :: h => asked_level u h | _ :: h => asked_level v h end.

(** Texts without braces *)
Fixpoint plain (s : string) : Prop := match s with EmptyString => True | String c s => c <> "{"%char /\ c <> "}"%char /\ plain s end.
