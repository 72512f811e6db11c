(** Model of the dynamic cable: cable/FrDynamicCable.{h,cpp} (FrCable::GetStrainedLength of cable/FrCable.cpp is in CabModel).
    Paths are relative to /repo/src/frydom; [double] is modelled by [R], int and unsigned int by [nat] without overflow.
    Contracts: chrono::ChVector::Normalize divides by the length, and gives (1, 0, 0) for a null vector; ChMatrix33::Set_A_axis puts the three axes in
    columns; ChMesh keeps the nodes and the elements in the order they are added and GetElement(index) is velements[index]; an Euler beam element
    joins its two nodes, its section frame at eta in [-1, 1] and the axial force there are those of Chrono (parameters [section] and [axial], with
    the numbers of the element); ChLinkMateGeneric::SetConstrainedCoords.  The catenary line used at the initialisation is the one of CabModel; here
    its positions, tensions and largest tension are a parameter.  The visual assets are left out.  No proofs in this file. *)
From Coq Require Import Reals List Bool ZArith.
From Verif Require Import GeoModel SeaModel.
Import ListNotations.
Open Scope R_scope.

(** FrDynamicCable.h 114 *)
Inductive hinge := CONSTRAINED | SPHERICAL | NONE.
(** A node of the finite element mesh: position and axes (columns of the rotation) *)
Record fnode := FNode { fn_pos : vec; fn_axes : vec * vec * vec }.
(** Members: FrCable (unstrained length, EA of the properties, unrolling speed) and FrDynamicCable.h 120-132; the nodes of the mesh, the elements as pairs of
    node numbers, the constrained coordinates of the two hinges *)
Record dcable := DC { d_length : R; d_EA : R; d_elements : nat; d_start_hinge : hinge; d_end_hinge : hinge; d_radius : R; d_size : R; d_max : R; d_unrolling : R;
  d_nodes : list fnode; d_beams : list (nat * nat); d_start_locks : list bool; d_end_locks : list bool }.
(** Constructor 291-308 with the initialisers of the header *)
Definition new_dcable (len EA : R) (n : nat) : dcable := DC len EA n SPHERICAL SPHERICAL 0.05 0.1 0 0 [] [] [] [].
(** Setters 319-321, 352-354, 360-362, 368-370, 454-464, FrCable.cpp 175-177 *)
Definition SetNumberOfElements (c : dcable) (n : nat) := DC (d_length c) (d_EA c) n (d_start_hinge c) (d_end_hinge c) (d_radius c) (d_size c) (d_max c) (d_unrolling c) (d_nodes c) (d_beams c) (d_start_locks c) (d_end_locks c).
Definition SetBreakingTension (c : dcable) (t : R) := DC (d_length c) (d_EA c) (d_elements c) (d_start_hinge c) (d_end_hinge c) (d_radius c) (d_size c) t (d_unrolling c) (d_nodes c) (d_beams c) (d_start_locks c) (d_end_locks c).
Definition SetDrawElementRadius (c : dcable) (r : R) := DC (d_length c) (d_EA c) (d_elements c) (d_start_hinge c) (d_end_hinge c) r (d_size c) (d_max c) (d_unrolling c) (d_nodes c) (d_beams c) (d_start_locks c) (d_end_locks c).
Definition SetDrawNodeSize (c : dcable) (s : R) := DC (d_length c) (d_EA c) (d_elements c) (d_start_hinge c) (d_end_hinge c) (d_radius c) s (d_max c) (d_unrolling c) (d_nodes c) (d_beams c) (d_start_locks c) (d_end_locks c).
Definition SetHinges (c : dcable) (a b : hinge) := DC (d_length c) (d_EA c) (d_elements c) a b (d_radius c) (d_size c) (d_max c) (d_unrolling c) (d_nodes c) (d_beams c) (d_start_locks c) (d_end_locks c).
Definition SetUnrollingSpeed (c : dcable) (v : R) := DC (d_length c) (d_EA c) (d_elements c) (d_start_hinge c) (d_end_hinge c) (d_radius c) (d_size c) (d_max c) v (d_nodes c) (d_beams c) (d_start_locks c) (d_end_locks c).
(** Getters 364-366, 372-374 *)
Definition GetDrawElementRadius (c : dcable) : R := d_radius c.
Definition GetDrawNodeSize (c : dcable) : R := d_radius c.
(** SetTargetElementLength 327-330; Undef: the quotient does not fit in an unsigned int because it is negative or a division by zero *)
Definition SetTargetElementLength (c : dcable) (len : R) : res dcable :=
  if Req_EM_T len 0 then Undef else
  let z := Int_part (d_length c / len) in
  if Z.ltb z 0 then Undef else Ok (SetNumberOfElements c (Z.to_nat z)).
(** HingesConstraints 68-94: x, y, z, rotations *)
Definition locks (h : hinge) : list bool :=
  match h with
  | NONE => [false; false; false; false; false; false]
  | SPHERICAL => [true; true; true; false; false; false]
  | CONSTRAINED => [true; true; true; true; true; true]
  end.
(** chrono::ChVector::Normalize *)
Definition cnormalize (v : vec) : vec := if Req_EM_T (vnorm v) 0 then V 1 0 0 else vscale (/ vnorm v) v.
(** The catenary line of the initialisation: GetNodePositionInWorld(s, NWU), GetTension(s, NWU), GetMaxTension *)
Record catenary := Cat { ct_pos : R -> vec; ct_tension : R -> vec; ct_max : R }.
(** The loop 191-220: the nodes after the first one, from position [p] and abscissa [s] on *)
Fixpoint taut_nodes (ds : R) (AB : vec) (axes : vec * vec * vec) (p : vec) (n : nat) : list fnode :=
  match n with O => [] | S n => let p := vadd p (vscale ds AB) in FNode p axes :: taut_nodes ds AB axes p n end.
Fixpoint slack_nodes (ds : R) (cat : catenary) (e3 : vec) (s : R) (n : nat) : list fnode :=
  match n with
  | O => []
  | S n => let s := s + ds in let e1 := cnormalize (ct_tension cat s) in let e2 := cnormalize (vcross e3 e1) in
           FNode (ct_pos cat s) (e1, e2, e3) :: slack_nodes ds cat e3 s n
  end.
(** FrDynamicCableBase::Initialize 125-255, for the starting and ending nodes at A and B in the world (NWU), the axes of the starting node; the
    catenary is asked for when it is used *)
Definition dc_Initialize (A B : vec) (axes : vec * vec * vec) (make : R -> catenary) (c : dcable) : dcable :=
  match d_nodes c with
  | _ :: _ => c
  | [] =>
    let distance := vnorm (vsub B A) in
    let elastic := if Rle_dec (d_length c) distance then true else false in
    let cat := make (d_length c) in
    let ds := d_length c / INR (d_elements c) in
    let AB := cnormalize (vsub B A) in
    let e1 := cnormalize (ct_tension cat 0) in let e3 := cnormalize (vcross e1 AB) in let e2 := cnormalize (vcross e3 e1) in
    let first := if elastic then FNode A axes else FNode A (e1, e2, e3) in
    let others := if elastic then taut_nodes ds AB axes A (d_elements c) else slack_nodes ds cat e3 0 (d_elements c) in
    let tension := if Req_EM_T (d_max c) 0
                   then 1.2 * (if elastic then (distance - d_length c) * d_EA c / d_length c else ct_max cat) else d_max c in
    DC (d_length c) (d_EA c) (d_elements c) (d_start_hinge c) (d_end_hinge c) (d_radius c) (d_size c) tension (d_unrolling c)
       (first :: others) (map (fun i => (i, S i)) (seq 0 (d_elements c))) (locks (d_start_hinge c)) (locks (d_end_hinge c))
  end.
(** FrDynamicCable::Update 250 (empty); the length is not changed by the time *)
Definition dc_Update (c : dcable) (time : R) : dcable := c.

(** ** Reading along the cable: s to an element and a section of it; None: the element does not exist *)
Definition locate (c : dcable) (s : R) : nat * R :=
  let ds := d_length c / INR (d_elements c) in
  let a := s / ds in
  let index := Int_part a in
  let eta := 2 * (a - IZR index) - 1 in
  if Req_EM_T s (d_length c) then ((d_elements c - 1)%nat, 1) else (Z.to_nat index, eta).
Definition element (c : dcable) (s : R) : res ((nat * nat) * R) :=
  let ds := d_length c / INR (d_elements c) in
  let '(i, eta) := locate c s in
  if andb (negb (if Req_EM_T s (d_length c) then true else false)) (Z.ltb (Int_part (s / ds)) 0) then Undef
  else e <<- of_option (nth_error (d_beams c) i); Ok (e, eta).
(** GetTension 384-406 and 274-288, with the current positions of the nodes *)
Definition dc_GetTension (c : dcable) (pos : nat -> vec) (axial : nat * nat -> R -> R) (s : R) (fc : conv) : res vec :=
  let s := if Rlt_dec (d_length c) s then d_length c else s in
  r <<- element c s; let '(e, eta) := r in
  Ok (swap_if fc (vscale (axial e eta) (cnormalize (vsub (pos (snd e)) (pos (fst e)))))).
(** GetNodePositionInWorld 408-428 and 264-272 *)
Definition dc_GetNodePositionInWorld (c : dcable) (section : nat * nat -> R -> vec) (s : R) (fc : conv) : res vec :=
  r <<- element c s; let '(e, eta) := r in Ok (swap_if fc (section e eta)).
(** GetStaticResidual 470-479 over the speeds of the nodes, Relax 481-485 *)
Definition dc_GetStaticResidual (speeds : list vec) : R := fold_left (fun r v => r + vnorm v) speeds 0.
Definition dc_Relax (speeds : list vec) : list vec := map (fun _ => vzero) speeds.
