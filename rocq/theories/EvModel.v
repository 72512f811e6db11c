(** Model of the event log: logging/FrEventLogger.cpp and FrEventLogger.h, as used by logging/FrLogManager.cpp 37-54 and by the constructor and the
    destructor of core/FrOffshoreSystem.cpp 169-210.  Paths are relative to /repo/src/frydom.
    Contracts: spdlog: a logger whose name is registered cannot be created again (exception); new loggers let pass the messages from the level "info" on;
    set_level acts on the registered loggers; drop_all forgets them; an error of format is caught and the message is lost.  fmt: "{}" is replaced by the next
    argument, "{{" and "}}" are braces, surplus arguments are ignored, anything else with a brace is an error (other placeholders are not modelled).
    No proofs in this file. *)
From Coq Require Import String Ascii List Bool Arith.
Import ListNotations.
Open Scope string_scope.

(** ** Levels and destinations; LOG_LEVEL, FrEventLogger.h *)
Inductive level := TRACE | DEBUG | INFO | WARN | ERROR | CRITICAL.
Definition rank (l : level) : nat := match l with TRACE => 0 | DEBUG => 1 | INFO => 2 | WARN => 3 | ERROR => 4 | CRITICAL => 5 end.
(** Where the messages go: the standard output, or the events.txt file of a system, stamped with the time of this system *)
Inductive sink := Console | EventsOf (system : nat).
(** The default logger with its level, and whether the name "FRYDOM" is registered *)
Record log := Log { l_sink : sink; l_level : level; l_registered : bool }.
(** The program starts with the logger of spdlog *)
Definition start : log := Log Console INFO false.
(** set_log_level 35-67 *)
Definition set_log_level (v : level) (s : log) : log := Log (l_sink s) v (l_registered s).
(** init 73-90, called with the name "FRYDOM": FrLogManager.cpp 48; None: the exception of spdlog, which leaves everything as it was *)
Definition init (system : nat) (s : log) : option log := if l_registered s then None else Some (set_log_level INFO (Log (EventsOf system) INFO true)).
(** reset_to_default_logger 96-101 *)
Definition reset_to_default_logger (s : log) : log := Log Console INFO false.
(** The program: creation of a system, destruction of one (FrLogManager.cpp 52-54), change of level, messages *)
Inductive ev := NewSystem (system : nat) | EndSystem (system : nat) | SetLevel (v : level) | Say (v : level) (text : string).
(** The state, the lines written, and the systems whose construction ended with an exception *)
Record world := World { w_log : log; w_lines : list (sink * string); w_failed : list nat }.
Definition step (w : world) (e : ev) : world :=
  match e with
  | NewSystem n =>
    match init n (w_log w) with
    | Some s => World s (w_lines w) (w_failed w)
    | None => World (w_log w) (w_lines w) (w_failed w ++ [n])
    end
  | EndSystem _ => World (reset_to_default_logger (w_log w)) (w_lines w) (w_failed w)
  | SetLevel v => World (set_log_level v (w_log w)) (w_lines w) (w_failed w)
  | Say v t => if (rank (l_level (w_log w)) <=? rank v)%nat then World (w_log w) (w_lines w ++ [(l_sink (w_log w), t)]) (w_failed w) else w
  end.
Definition evrun (h : list ev) : world := fold_left step h (World start [] []).

(** ** The text of a message: fmt with the contract above; None: error of format *)
Fixpoint fmt (s : string) (args : list string) : option string :=
  match s with
  | EmptyString => Some ""
  | String "{" (String "}" s) => match args with a :: args => option_map (append a) (fmt s args) | [] => None end
  | String "{" (String "{" s) => option_map (String "{") (fmt s args)
  | String "{" _ => None
  | String "}" (String "}" s) => option_map (String "}") (fmt s args)
  | String "}" _ => None
  | String c s => option_map (String c) (fmt s args)
  end.
(** debug, info, warn, error, critical with arguments: the type and the name of the object are put in the format (PreFormat), which is then used as one *)
Definition PreFormat (type name msg : string) : string := "[" ++ type ++ "] [" ++ name ++ "] " ++ msg.
Definition event (type name format : string) (args : list string) : option string := fmt (PreFormat type name format) args.
