(** Specification vocabulary for the registry properties C23-C27.  No reference to the state of the
    model: histories are lists of API calls, and what a registry should contain is read off them. *)
From Coq Require Import List String Ascii Bool.
From Verif Require Import RegModel.
Import ListNotations.
Open Scope string_scope.

(** ** Paths *)
(** The label every object appends to the path of its parent: class directory, class tag, name, "/" *)
Definition label (o : obj) : string := prefix_of (kind_of o) ++ name_of o ++ "/".
(** From the root down to the object *)
Fixpoint ancestry (o : obj) : list obj :=
  match o with Root _ _ _ => [o] | Child _ _ _ p => ancestry p ++ [o] end.
Definition path_spec (o : obj) : string := fold_right append "" (map label (ancestry o)).
(** What a user sees of an object and its ancestors: class and name *)
Definition lineage (o : obj) : list (kind * string) := map (fun a => (kind_of a, name_of a)) (ancestry o).
(** Names without "/" *)
Definition no_slash (s : string) : Prop := ~ In "/"%char (list_ascii_of_string s).
(** Tree shapes the library builds: the root is a system, the equilibrium frame has no children,
    names are free of "/" and only loggable classes occur. *)
Fixpoint plain (o : obj) : Prop :=
  match o with
  | Root _ k n => k = KSystem /\ no_slash n
  | Child _ k n p => loggable o = true /\ k <> KSystem /\ kind_of p <> KEqFrame /\ no_slash n /\ plain p
  end.

(** ** What remains of what was added *)
(** [add] gives what a call adds, [kill] what a call removes. *)
Fixpoint survivors {A} (add : sop -> list A) (kill : sop -> A -> bool) (h : list sop) : list A :=
  match h with
  | nil => nil
  | op :: later => filter (fun x => negb (existsb (fun o => kill o x) later)) (add op) ++ survivors add kill later
  end.
(** Objects of the classes [K] added to the system and removed from it *)
Definition adds (K : kind -> bool) (op : sop) : list obj :=
  match op with SAdd o => if K (kind_of o) then [o] else nil | _ => nil end.
Definition removes (op : sop) (x : obj) : bool := match op with SRemove o => obj_eqb o x | _ => false end.
(** Forces of the body b: removed singly, all together, or with the body *)
Definition adds_force (b : obj) (op : sop) : list obj :=
  match op with SAddForce b' f => if obj_eqb b b' then [f] else nil | _ => nil end.
Definition removes_force (b : obj) (op : sop) (f : obj) : bool :=
  match op with
  | SRemoveForce b' f' => obj_eqb b b' && obj_eqb f' f
  | SRemoveAllForces b' => obj_eqb b b'
  | SRemove o => obj_eqb b o
  | _ => false
  end.
Definition adds_node (b : obj) (op : sop) : list obj :=
  match op with SNewNode b' n => if obj_eqb b b' then [n] else nil | _ => nil end.
Definition removes_node (b : obj) (op : sop) (n : obj) : bool :=
  match op with SRemoveAllNodes b' => obj_eqb b b' | SRemove o => obj_eqb b o | _ => false end.

(** C++ types of the arguments: forces and nodes are attached to bodies *)
Definition typed (op : sop) : Prop :=
  match op with
  | SAddForce b f | SRemoveForce b f => kind_of b = KBody /\ kind_of f = KForce
  | SNewNode b n => kind_of b = KBody /\ kind_of n = KNode
  | SRemoveAllForces b | SRemoveAllNodes b => kind_of b = KBody
  | SAdd _ | SRemove _ => True
  end.

Definition is_body (k : kind) := match k with KBody => true | _ => false end.
Definition is_link (k : kind) := match k with KLink => true | _ => false end.
Definition is_constraint (k : kind) := match k with KConstraint => true | _ => false end.
Definition is_actuator (k : kind) := match k with KActuator => true | _ => false end.
Definition is_physics (k : kind) := match k with KCatenary | KEqFrame | KPhysics => true | _ => false end.
Definition is_fea (k : kind) := match k with KDynCable | KFEA => true | _ => false end.
Definition is_joint (k : kind) := is_link k || is_constraint k || is_actuator k.
(** Classes with a log path *)
Definition has_path (k : kind) :=
  match k with KBody | KLink | KConstraint | KActuator | KCatenary | KEqFrame | KDynCable => true | _ => false end.
(** Number of calls adding / removing o *)
Definition times_added (o : obj) (h : list sop) : nat :=
  count_occ obj_eq_dec (flat_map (adds (fun _ => true)) h) o.
Definition times_removed (o : obj) (h : list sop) : nat := List.length (filter (fun op => removes op o) h).
