(** Model of the registries of FRyDoM: the lists of an FrOffshoreSystem (core/FrOffshoreSystem.cpp),
    the force and node lists of bodies (core/body/FrBody.cpp), the path manager
    (logging/FrPathManager.{h,cpp}, logging/FrPathPolicies.cpp) and the log manager
    (logging/FrLogManager.cpp).  Paths are relative to /repo/src/frydom.  No proofs in this file. *)
From Coq Require Import List String Bool Arith.
Import ListNotations.
Open Scope string_scope.

(** ** Objects *)
(** Classes the registries distinguish; for an object of several classes, the first that matches in
    FrOffshoreSystem::Add (FrOffshoreSystem.cpp 1336-1383). *)
Inductive kind :=
| KSystem | KBody | KLink | KConstraint | KActuator | KCatenary | KEqFrame | KPhysics | KDynCable | KFEA
| KForce | KNode | KOther.
(** A shared_ptr to a tree node: address, class, name, parent (core/common/FrTreeNode.h).  The name
    and the parent of an object never change (no setter), so they are part of its identity. *)
Inductive obj :=
| Root (id : nat) (k : kind) (name : string)
| Child (id : nat) (k : kind) (name : string) (parent : obj).
Definition kind_of (o : obj) : kind := match o with Root _ k _ => k | Child _ k _ _ => k end.
Definition name_of (o : obj) : string := match o with Root _ _ n => n | Child _ _ n _ => n end.
Definition kind_eq_dec : forall a b : kind, {a = b} + {a <> b}.
Proof. decide equality. Defined.
(** Pointer comparison *)
Definition obj_eq_dec : forall a b : obj, {a = b} + {a <> b}.
Proof. decide equality; solve [apply string_dec | apply kind_eq_dec | apply Nat.eq_dec]. Defined.
Definition obj_eqb (a b : obj) : bool := if obj_eq_dec a b then true else false.

(** dynamic_pointer_cast<FrLoggableBase>: classes deriving from FrLoggable (FrBody.h 149, FrLink.h 154,
    FrConstraint.h 31, FrActuator.h 20, FrCatenaryLine.h 49, FrEquilibriumFrame.h 41, FrDynamicCable.h 111,
    FrForce.h 77, FrNode.h 53, FrOffshoreSystem.h 127) *)
Definition loggable (o : obj) : bool :=
  match kind_of o with KPhysics | KFEA | KOther => false | _ => true end.

(** ** Paths *)
(** TypeToNormalizedPathPrefix, FrPathPolicies.cpp 10-56 *)
Definition prefix_of (k : kind) : string :=
  match k with
  | KSystem => "FRYDOM_" | KBody => "BODIES/BODY_" | KForce => "FORCES/FORCE_" | KNode => "NODES/NODE_"
  | KLink => "LINKS/LINK_" | KConstraint => "CONSTRAINTS/CONSTRAINT_" | KActuator => "ACTUATORS/ACTUATOR_"
  | KDynCable => "CABLES/CAT_CABLE_" | KCatenary => "CABLES/DYN_CABLE_" | KEqFrame => ""
  | KPhysics | KFEA | KOther => ""   (* never registered *)
  end.
(** GetPath and GetNormalizedPathName, FrPathManager.h 48-57 and 90-93 *)
Fixpoint GetPath (o : obj) : string :=
  match o with
  | Root _ k n => prefix_of k ++ n ++ "/"
  | Child _ k n p => GetPath p ++ prefix_of k ++ n ++ "/"
  end.

(** ** State *)
(** Lists of the system (FrOffshoreSystem.h, private members), of its Chrono back-end (ChAssembly
    bodylist, linklist, otherphysicslist, meshlist; the two hinges of a dynamic cable are the pairs
    (cable, false) and (cable, true)), external forces and nodes of the bodies as (body, object)
    pairs in order of addition, log list, used paths and the tree paths stored in the objects. *)
Record sys := Sys {
  s_bodies : list obj; s_links : list obj; s_constraints : list obj; s_actuators : list obj;
  s_physics : list obj; s_fea : list obj;
  ch_bodies : list obj; ch_links : list obj; ch_items : list obj; ch_meshes : list obj;
  ch_hinges : list (obj * bool);
  s_forces : list (obj * obj); s_nodes : list (obj * obj);
  s_log : list obj; s_paths : list string; s_tree : list (obj * string) }.

(** Result of a call: normal return, exception (with the state it leaves), undefined behaviour
    (an assertion in debug builds), or exit(EXIT_FAILURE). *)
Inductive outcome := Ok (s : sys) | Throw (s : sys) | Undef | Exit.

(** std::find then erase: removes the first occurrence; [None] when absent (erase(end()) is undefined) *)
Fixpoint erase {A} (eqb : A -> A -> bool) (x : A) (l : list A) : option (list A) :=
  match l with
  | nil => None
  | y :: t => if eqb x y then Some t else match erase eqb x t with Some t' => Some (y :: t') | None => None end
  end.
Definition erase_obj := @erase obj obj_eqb.
Definition erase_pair := @erase (obj * obj) (fun a b => obj_eqb (fst a) (fst b) && obj_eqb (snd a) (snd b)).
Definition mem (o : obj) (l : list obj) : bool := existsb (obj_eqb o) l.

(** ** Updates of single members *)
Definition with_bodies (s : sys) l c := Sys l (s_links s) (s_constraints s) (s_actuators s) (s_physics s) (s_fea s)
  c (ch_links s) (ch_items s) (ch_meshes s) (ch_hinges s) (s_forces s) (s_nodes s) (s_log s) (s_paths s) (s_tree s).
Definition with_links (s : sys) l c := Sys (s_bodies s) l (s_constraints s) (s_actuators s) (s_physics s) (s_fea s)
  (ch_bodies s) c (ch_items s) (ch_meshes s) (ch_hinges s) (s_forces s) (s_nodes s) (s_log s) (s_paths s) (s_tree s).
Definition with_constraints (s : sys) l c := Sys (s_bodies s) (s_links s) l (s_actuators s) (s_physics s) (s_fea s)
  (ch_bodies s) c (ch_items s) (ch_meshes s) (ch_hinges s) (s_forces s) (s_nodes s) (s_log s) (s_paths s) (s_tree s).
Definition with_actuators (s : sys) l c := Sys (s_bodies s) (s_links s) (s_constraints s) l (s_physics s) (s_fea s)
  (ch_bodies s) c (ch_items s) (ch_meshes s) (ch_hinges s) (s_forces s) (s_nodes s) (s_log s) (s_paths s) (s_tree s).
Definition with_physics (s : sys) l c := Sys (s_bodies s) (s_links s) (s_constraints s) (s_actuators s) l (s_fea s)
  (ch_bodies s) (ch_links s) c (ch_meshes s) (ch_hinges s) (s_forces s) (s_nodes s) (s_log s) (s_paths s) (s_tree s).
Definition with_fea (s : sys) l c h := Sys (s_bodies s) (s_links s) (s_constraints s) (s_actuators s) (s_physics s) l
  (ch_bodies s) (ch_links s) (ch_items s) c h (s_forces s) (s_nodes s) (s_log s) (s_paths s) (s_tree s).
Definition with_forces (s : sys) l := Sys (s_bodies s) (s_links s) (s_constraints s) (s_actuators s) (s_physics s) (s_fea s)
  (ch_bodies s) (ch_links s) (ch_items s) (ch_meshes s) (ch_hinges s) l (s_nodes s) (s_log s) (s_paths s) (s_tree s).
Definition with_nodes (s : sys) l := Sys (s_bodies s) (s_links s) (s_constraints s) (s_actuators s) (s_physics s) (s_fea s)
  (ch_bodies s) (ch_links s) (ch_items s) (ch_meshes s) (ch_hinges s) (s_forces s) l (s_log s) (s_paths s) (s_tree s).
Definition with_log (s : sys) l := Sys (s_bodies s) (s_links s) (s_constraints s) (s_actuators s) (s_physics s) (s_fea s)
  (ch_bodies s) (ch_links s) (ch_items s) (ch_meshes s) (ch_hinges s) (s_forces s) (s_nodes s) l (s_paths s) (s_tree s).
Definition with_paths (s : sys) l t := Sys (s_bodies s) (s_links s) (s_constraints s) (s_actuators s) (s_physics s) (s_fea s)
  (ch_bodies s) (ch_links s) (ch_items s) (ch_meshes s) (ch_hinges s) (s_forces s) (s_nodes s) (s_log s) l t.

(** ** Path manager *)
(** HasPath, FrPathManager.cpp 24-26 *)
Definition HasPath (s : sys) (p : string) : bool := existsb (String.eqb p) (s_paths s).
(** RegisterTreeNode, FrPathManager.h 61-75, RegisterPath, FrPathManager.cpp 17-22 *)
Definition RegisterTreeNode (s : sys) (o : obj) : outcome :=
  let path := GetPath o in
  if HasPath s path then Throw s else Ok (with_paths s (path :: s_paths s) ((o, path) :: s_tree s)).
(** FrTreeNodeBase::GetTreePath: the last path set, "" before *)
Definition GetTreePath (s : sys) (o : obj) : string :=
  match find (fun e => obj_eqb o (fst e)) (s_tree s) with Some e => snd e | None => "" end.

(** ** Log manager *)
(** Has 81-83, Add 68-70, Remove 76-83 of FrLogManager.cpp *)
Definition LogHas (s : sys) (o : obj) : bool := mem o (s_log s).
Definition LogAdd (s : sys) (o : obj) : sys := if LogHas s o then s else with_log s (s_log s ++ [o]).
Definition LogRemove (s : sys) (o : obj) : sys :=
  match erase_obj o (s_log s) with Some l => with_log s l | None => s end.
(** "if (auto loggable = dynamic_pointer_cast<FrLoggableBase>(item))" *)
Definition LogAddIf (s : sys) (o : obj) : sys := if loggable o then LogAdd s o else s.
Definition LogRemoveIf (s : sys) (o : obj) : sys := if loggable o then LogRemove s o else s.

Definition bind (r : outcome) (k : sys -> outcome) : outcome :=
  match r with Ok s => k s | x => x end.

(** ** Bodies *)
(** FrBody::AddExternalForce, FrBody.cpp 496-507 (the Chrono force list is the same list) *)
Definition AddExternalForce (s : sys) (b f : obj) : outcome :=
  bind (RegisterTreeNode (with_forces s (s_forces s ++ [(b, f)])) f) (fun s => Ok (LogAdd s f)).
(** FrBody::RemoveExternalForce 509-538 (assets are not modelled) *)
Definition RemoveExternalForce (s : sys) (b f : obj) : outcome :=
  match erase_pair (b, f) (s_forces s) with
  | Some l => Ok (LogRemoveIf (with_forces s l) f)
  | None => Undef
  end.
Definition forces_of (s : sys) (b : obj) : list obj := map snd (filter (fun p => obj_eqb b (fst p)) (s_forces s)).
Definition nodes_of (s : sys) (b : obj) : list obj := map snd (filter (fun p => obj_eqb b (fst p)) (s_nodes s)).
(** FrBody::RemoveAllForces 540-550, RemoveAllNodes 552-562 *)
Definition RemoveAllForces (s : sys) (b : obj) : sys :=
  let s1 := fold_left LogRemove (forces_of s b) s in
  with_forces s1 (filter (fun p => negb (obj_eqb b (fst p))) (s_forces s1)).
Definition RemoveAllNodes (s : sys) (b : obj) : sys :=
  let s1 := fold_left LogRemove (nodes_of s b) s in
  with_nodes s1 (filter (fun p => negb (obj_eqb b (fst p))) (s_nodes s1)).
(** FrBody::NewNode 588-604, for the node object n created by the call *)
Definition NewNode (s : sys) (b n : obj) : outcome :=
  bind (RegisterTreeNode (with_nodes s (s_nodes s ++ [(b, n)])) n) (fun s => Ok (LogAdd s n)).

(** ** System *)
(** AddBody 240-252, AddLink 286-290, AddConstraint 318-323, AddActuator 352-357, AddPhysicsItem 386-392,
    AddFEAMesh 418-425, AddDynamicCable 427-437 *)
Definition AddBody (s : sys) (o : obj) : sys := with_bodies s (s_bodies s ++ [o]) (ch_bodies s ++ [o]).
Definition AddLink (s : sys) (o : obj) : sys := with_links s (s_links s ++ [o]) (ch_links s ++ [o]).
Definition AddConstraint (s : sys) (o : obj) : sys := with_constraints s (s_constraints s ++ [o]) (ch_links s ++ [o]).
Definition AddActuator (s : sys) (o : obj) : sys := with_actuators s (s_actuators s ++ [o]) (ch_links s ++ [o]).
Definition AddPhysicsItem (s : sys) (o : obj) : sys := with_physics s (s_physics s ++ [o]) (ch_items s ++ [o]).
Definition AddFEAMesh (s : sys) (o : obj) : sys := with_fea s (s_fea s ++ [o]) (ch_meshes s ++ [o]) (ch_hinges s).
Definition AddDynamicCable (s : sys) (o : obj) : sys :=
  let s := AddFEAMesh s o in with_fea s (s_fea s) (ch_meshes s) (ch_hinges s ++ [(o, false); (o, true)]).
(** Add 1330-1401; the returned boolean is [added] *)
Definition added (o : obj) : bool :=
  match kind_of o with KSystem | KForce | KNode | KOther => false | _ => true end.
Definition Add (s : sys) (o : obj) : outcome :=
  let r :=
    match kind_of o with
    | KBody => RegisterTreeNode (AddBody s o) o
    | KLink => RegisterTreeNode (AddLink s o) o
    | KConstraint => RegisterTreeNode (AddConstraint s o) o
    | KActuator => RegisterTreeNode (AddActuator s o) o
    | KCatenary => RegisterTreeNode (AddPhysicsItem s o) o
    | KEqFrame => RegisterTreeNode (AddPhysicsItem s o) o
    | KPhysics => Ok (AddPhysicsItem s o)
    | KDynCable => RegisterTreeNode (AddDynamicCable s o) o
    | KFEA => Ok (AddFEAMesh s o)
    | _ => Ok s
    end in
  bind r (fun s => if added o then Ok (LogAddIf s o) else Ok s).
(** RemoveBody 258-273.  The Chrono removals erase the result of std::find (Chrono, trusted). *)
Definition RemoveBody (s : sys) (o : obj) : outcome :=
  match erase_obj o (ch_bodies s), erase_obj o (s_bodies s) with
  | Some c, Some l => Ok (RemoveAllNodes (RemoveAllForces (with_bodies s l c) o) o)
  | _, _ => Undef
  end.
(** RemoveLink 292-307, RemoveConstraint 325-341, RemoveActuator 359-375 *)
Definition RemoveLink (s : sys) (o : obj) : outcome :=
  match erase_obj o (ch_links s), erase_obj o (s_links s) with
  | Some c, Some l => Ok (with_links s l c) | _, _ => Undef end.
Definition RemoveConstraint (s : sys) (o : obj) : outcome :=
  match erase_obj o (ch_links s), erase_obj o (s_constraints s) with
  | Some c, Some l => Ok (with_constraints s l c) | _, _ => Undef end.
Definition RemoveActuator (s : sys) (o : obj) : outcome :=
  match erase_obj o (ch_links s), erase_obj o (s_actuators s) with
  | Some c, Some l => Ok (with_actuators s l c) | _, _ => Undef end.
(** RemovePhysicsItem 398-407 *)
Definition RemovePhysicsItem (s : sys) (o : obj) : outcome :=
  match erase_obj o (ch_items s) with
  | None => Undef
  | Some c => Ok (with_physics s (match erase_obj o (s_physics s) with Some l => l | None => s_physics s end) c)
  end.
(** RemoveFEAMesh 443-453 *)
Definition RemoveFEAMesh (s : sys) (o : obj) : outcome :=
  match erase_obj o (ch_meshes s), erase_obj o (s_fea s) with
  | Some c, Some l => Ok (with_fea s l c (ch_hinges s)) | _, _ => Undef end.
(** Remove 1403-1443: the FEA mesh test comes before the dynamic cable one, so that a dynamic cable
    (which is an FrFEAMesh) is removed by RemoveFEAMesh. *)
Definition Remove (s : sys) (o : obj) : outcome :=
  let r :=
    match kind_of o with
    | KBody => RemoveBody s o
    | KLink => RemoveLink s o
    | KConstraint => RemoveConstraint s o
    | KActuator => RemoveActuator s o
    | KCatenary | KEqFrame | KPhysics => RemovePhysicsItem s o
    | KDynCable | KFEA => RemoveFEAMesh s o
    | _ => Exit
    end in
  bind r (fun s => Ok (LogRemoveIf s o)).

(** RemoveAllBodies 275-282, RemoveAllLinks 309-313, RemoveAllConstraints 343-347, RemoveAllActuators 377-381:
    "for (auto &x : list) Remove(x)".  The range-for keeps an iterator and the end of the vector from
    before the first call; Remove erases from the same vector, which invalidates both: advancing the
    iterator is undefined. *)
Definition range_for_remove (s : sys) (l : list obj) : outcome :=
  match l with nil => Ok s | o :: _ => bind (Remove s o) (fun _ => Undef) end.
Definition RemoveAllBodies (s : sys) : outcome := range_for_remove s (s_bodies s).
Definition RemoveAllLinks (s : sys) : outcome := range_for_remove s (s_links s).
Definition RemoveAllConstraints (s : sys) : outcome := range_for_remove s (s_constraints s).
Definition RemoveAllActuators (s : sys) : outcome := range_for_remove s (s_actuators s).
(** Clear 1057-1068: path manager, log manager and the lists of the bodies are not touched *)
Definition Clear (s : sys) : sys :=
  Sys nil nil nil nil nil nil nil nil nil nil nil (s_forces s) (s_nodes s) (s_log s) (s_paths s) (s_tree s).

(** System after construction (162-200): the log manager and the path manager know the system *)
Definition empty_sys : sys := Sys nil nil nil nil nil nil nil nil nil nil nil nil nil nil nil nil.
Definition new_system (id : nat) (name : string) : sys :=
  let o := Root id KSystem name in
  let s := LogAdd empty_sys o in
  match RegisterTreeNode s o with Ok s => s | _ => s end.

(** ** The API as one instruction set *)
Inductive sop :=
| SAdd (o : obj) | SRemove (o : obj)
| SAddForce (b f : obj) | SRemoveForce (b f : obj) | SRemoveAllForces (b : obj)
| SNewNode (b n : obj) | SRemoveAllNodes (b : obj).
(** The method called for each instruction *)
Definition sys_step (s : sys) (o : sop) : outcome :=
  match o with
  | SAdd o => Add s o
  | SRemove o => Remove s o
  | SAddForce b f => AddExternalForce s b f
  | SRemoveForce b f => RemoveExternalForce s b f
  | SRemoveAllForces b => Ok (RemoveAllForces s b)
  | SNewNode b n => NewNode s b n
  | SRemoveAllNodes b => Ok (RemoveAllNodes s b)
  end.
(** A program that stops at the first exception *)
Fixpoint sys_run (s : sys) (l : list sop) : outcome :=
  match l with nil => Ok s | o :: t => bind (sys_step s o) (fun s => sys_run s t) end.
(** A program that catches every exception and goes on *)
Fixpoint sys_run_catch (s : sys) (l : list sop) : outcome :=
  match l with
  | nil => Ok s
  | o :: t => match sys_step s o with Ok s => sys_run_catch s t | Throw s => sys_run_catch s t | x => x end
  end.
