(** Model of the objects a dynamic cable registers while it is initialised: cable/FrDynamicCable.cpp 140-155 and 243-248 (FrDynamicCableBase::Initialize of a cable
    longer than the distance between its ends), with make_catenary_line and FrCatenaryLine::Initialize of cable/FrCatenaryLine.cpp 282-294 and 340, over the registries
    of RegModel.  Paths are relative to /repo/src/frydom.  The line belongs to the system, the forces to the bodies of the two nodes.  No proofs in this file. *)
From Coq Require Import List String Bool Arith.
From Verif Require Import RegModel.
Import ListNotations.
Open Scope string_scope.

Definition init_line (system : obj) (id : nat) : obj := Child id KCatenary "dynamicCableInitialization" system.
Definition init_start_force (body : obj) (id : nat) : obj := Child id KForce "dynamicCableInitialization_start_force" body.
Definition init_end_force (body : obj) (id : nat) : obj := Child id KForce "dynamicCableInitialization_end_force" body.
(** The addresses of the new objects are id, id + 1, id + 2 *)
Definition SlackInitialize (s : sys) (system start_body end_body : obj) (id : nat) : outcome :=
  let line := init_line system id in let sf := init_start_force start_body (S id) in let ef := init_end_force end_body (S (S id)) in
  bind (Add s line) (fun s =>
  bind (AddExternalForce s start_body sf) (fun s =>
  bind (AddExternalForce s end_body ef) (fun s =>
  bind (Remove s line) (fun s =>
  bind (RemoveExternalForce s start_body sf) (fun s =>
  RemoveExternalForce s end_body ef))))).
