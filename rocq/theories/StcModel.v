(** Model of the static analysis by dynamic relaxation (core/statics/FrStaticAnalysis.{h,cpp}, FrOffshoreSystem::Relax), of the
    disabling and the breaking of links (core/link/links_lib/FrLink.cpp), of the simple solids (core/body/FrBodyEasy.cpp,
    asset/shape) and of the mooring buoy (cable/FrMooringBuoy.{h,cpp}).
    Paths are relative to /repo/src/frydom; [double] is modelled by [R].
    Chrono contracts: ChBody::IsActive is "neither sleeping nor fixed"; ChLinkBase::IsActive is "valid, not disabled, not broken";
    ChBox::SetLengths keeps the lengths it is given; the collision models keep the half lengths they are given;
    ChBody::Update evaluates the forces of the body.
    Simplifications: the log flags kept beside the activity flags, which nothing reads back, are omitted; so are event and
    console messages.  The dynamics is a parameter.  No proofs in this file. *)
From Coq Require Import Reals List ZArith Bool.
From Verif Require Import GeoModel BodyModel InertiaModel SeaModel.
Import ListNotations.
Open Scope R_scope.

(** ** Links and their actuator: the flags of the Chrono objects, m_breakable (FrLink.h 150), m_actuator (its disabled flag) *)
Record link := Link { lk_disabled : bool; lk_broken : bool; lk_breakable : bool; lk_actuator : option bool }.
(** FrLink::IsDisabled FrLink.cpp 294-296, IsBroken 314-316, IsActive 326-328, IsMotorized 330-332; FrActuator::IsActive
    actuators/FrActuator.cpp 30-32 is always true *)
Definition LIsActive (l : link) : bool := negb (lk_disabled l) && negb (lk_broken l).
Definition IsMotorized (l : link) : bool := match lk_actuator l with Some _ => true | None => false end.
(** FrActuator::SetDisabled actuators/FrActuator.cpp 26-28 *)
Definition act_SetDisabled (l : link) (d : bool) : option bool := if IsMotorized l then Some d else lk_actuator l.
(** FrLink::SetDisabled 298-303 *)
Definition LSetDisabled (l : link) (d : bool) : link := Link d (lk_broken l) (lk_breakable l) (act_SetDisabled l d).
(** FrLink::SetBreakable 305-307, SetBroken 317-324 *)
Definition SetBreakable (l : link) (b : bool) : link := Link (lk_disabled l) (lk_broken l) b (lk_actuator l).
Definition SetBroken (l : link) (b : bool) : link :=
  if lk_breakable l then Link (lk_disabled l) b (lk_breakable l) (act_SetDisabled l b) else l.

(** ** Forces and physics items: m_isActive, IncludedInStaticAnalysis *)
Record item := Item { it_active : bool; it_included : bool }.
(** FrForce.cpp 434-436, core/common/FrPhysicsItem.cpp 47-53 *)
Definition ISetActive (i : item) (a : bool) : item := Item a (it_included i).
(** ** Bodies: the sleeping and fixed flags of the Chrono body and the force list *)
Record sbody := SB { sb_body : body; sb_sleeping : bool; sb_fixed : bool; sb_forces : list (nat * item) }.
(** FrBody.cpp 250-252, 267-269 *)
Definition BSetSleeping (b : sbody) (s : bool) : sbody := SB (sb_body b) s (sb_fixed b) (sb_forces b).
Definition BIsActive (b : sbody) : bool := negb (sb_sleeping b) && negb (sb_fixed b).
(** FrBody::SetFixedInWorld 227-234 *)
Definition SetFixedInWorld (b : sbody) (state : bool) : sbody := SB (sb_body b) (sb_sleeping b) state (sb_forces b).
(** IncludedInStaticAnalysis: core/body/FrBody.h 207, core/link/FrLinkBase.h 84, both always true *)
Definition body_included : bool := true.
Definition link_included : bool := true.

(** ** The enumeration RELAXTYPE, core/statics/FrStaticAnalysis.h 30-35 *)
Inductive relaxtype := NORELAX | VELOCITY | ACCELERATION | VELOCITYANDACCELERATION.
Section with_dynamics.
(** The state of the finite element meshes, their Relax and GetStaticResidual *)
Variable F : Type.
Variable mesh_relax : F -> F.
Variable mesh_residual : F -> R.
(** The system: body list, link list, pre-physics item list (each object with its address), meshes, time, time step, and the
    two points of the time ramp *)
Record sys := Sys { y_bodies : list (nat * sbody); y_links : list (nat * link); y_items : list (nat * item); y_mesh : F;
                    y_time : R; y_step : R; y_ramp : R * R * R * R }.
(** One frame of dynamics (Chrono): the state of each body and of the meshes after it *)
Variable dyn : sys -> R -> (nat -> body) * F.
Definition set_flags (s : sys) (b : list (nat * sbody)) (l : list (nat * link)) (i : list (nat * item)) : sys :=
  Sys b l i (y_mesh s) (y_time s) (y_step s) (y_ramp s).
(** FrOffshoreSystem::AdvanceTo core/FrOffshoreSystem.cpp 1002-1005 (ChSystem::DoFrameDynamics: steps until the time is reached) *)
Definition AdvanceTo (s : sys) (nextTime : R) : sys :=
  if Rlt_dec (y_time s) nextTime then
    let d := dyn s nextTime in
    Sys (map (fun e => (fst e, SB (fst d (fst e)) (sb_sleeping (snd e)) (sb_fixed (snd e)) (sb_forces (snd e)))) (y_bodies s))
        (y_links s) (y_items s) (snd d) nextTime (y_step s) (y_ramp s)
  else s.
(** FrOffshoreSystem::Relax 892-915; setting an acceleration updates the body and leaves its positions and velocities *)
Definition relax_body (r : relaxtype) (b : body) : body :=
  match r with
  | NORELAX => b
  | VELOCITY => SetVelocityInWorldNoRotation b vzero NWU
  | ACCELERATION => UpdateAfterMove b
  | VELOCITYANDACCELERATION => UpdateAfterMove (SetVelocityInWorldNoRotation b vzero NWU)
  end.
Definition Relax (s : sys) (r : relaxtype) : sys :=
  Sys (map (fun e => (fst e, SB (relax_body r (sb_body (snd e))) (sb_sleeping (snd e)) (sb_fixed (snd e)) (sb_forces (snd e)))) (y_bodies s))
      (y_links s) (y_items s) (mesh_relax (y_mesh s)) (y_time s) (y_step s) (y_ramp s).

(** ** FrStaticAnalysis: m_nIterations, m_nSteps, m_tolerance, m_relax, m_map (by address; the activity only), m_undoTime and
    the saved ramp *)
Record statics := Statics { st_iter : Z; st_nsteps : Z; st_tol : R; st_relax : relaxtype; st_map : list (nat * bool); st_undo : R; st_ramp : R * R * R * R }.
(** Member initialisers FrStaticAnalysis.h 40-54 ([x]: the uninitialised m_x0, ...) *)
Definition new_statics (x : R * R * R * R) : statics := Statics 10 100 (1 / 1000) VELOCITY [] 0 x.
(** 29-59 *)
Definition SetNbSteps (a : statics) (n : Z) : statics := Statics (st_iter a) n (st_tol a) (st_relax a) (st_map a) (st_undo a) (st_ramp a).
Definition SetNbIteration (a : statics) (n : Z) : statics := Statics n (st_nsteps a) (st_tol a) (st_relax a) (st_map a) (st_undo a) (st_ramp a).
Definition SetRelaxation (a : statics) (r : relaxtype) : statics := Statics (st_iter a) (st_nsteps a) (st_tol a) r (st_map a) (st_undo a) (st_ramp a).
Definition SetTolerance (a : statics) (t : R) : statics := Statics (st_iter a) (st_nsteps a) t (st_relax a) (st_map a) (st_undo a) (st_ramp a).
(** std::map::find and std::map::emplace, which does not replace *)
Fixpoint find (m : list (nat * bool)) (k : nat) : option bool :=
  match m with [] => None | (k', v) :: t => if Nat.eqb k k' then Some v else find t k end.
Definition emplace (m : list (nat * bool)) (kv : nat * bool) : list (nat * bool) := match find m (fst kv) with Some _ => m | None => kv :: m end.
(** The pairs inserted by Initialize, in the order of the loops *)
Definition saved (s : sys) : list (nat * bool) :=
  flat_map (fun e => (fst e, BIsActive (snd e)) :: map (fun f => (fst f, it_active (snd f))) (sb_forces (snd e))) (y_bodies s) ++
  map (fun e => (fst e, LIsActive (snd e))) (y_links s) ++ map (fun e => (fst e, it_active (snd e))) (y_items s).
(** Initialize 61-123 *)
Definition st_initialize (a : statics) (s : sys) : statics * sys :=
  (Statics (st_iter a) (st_nsteps a) (st_tol a) (st_relax a) (fold_left emplace (saved s) (st_map a)) (y_time s) (y_ramp s),
   Sys (map (fun e => let b := BSetSleeping (snd e) (negb body_included) in
                      (fst e, SB (sb_body b) (sb_sleeping b) (sb_fixed b)
                                 (map (fun f => (fst f, ISetActive (snd f) (it_included (snd f)))) (sb_forces b)))) (y_bodies s))
       (map (fun e => (fst e, LSetDisabled (snd e) (negb link_included))) (y_links s))
       (map (fun e => (fst e, ISetActive (snd e) (it_included (snd e)))) (y_items s))
       (y_mesh s) (y_time s) (y_step s) (0, 0, 1, 0)).
(** A loop over a list *)
Fixpoint each {A} (l : list (res A)) : res (list A) := match l with [] => Ok [] | r :: t => a <<- r; q <<- each t; Ok (a :: q) end.
(** StepFinalize 125-182; [Undef]: the address is not in the map *)
Definition restored {A B} (m : list (nat * bool)) (set : bool -> A -> B) (e : nat * A) : res (nat * B) :=
  a <<- of_option (find m (fst e)); Ok (fst e, set a (snd e)).
Definition restore_body (m : list (nat * bool)) (e : nat * sbody) : res (nat * sbody) :=
  b <<- restored m (fun a b => BSetSleeping b (negb a)) e;
  fs <<- each (map (restored m (fun a f => ISetActive f a)) (sb_forces (snd b)));
  Ok (fst b, SB (sb_body (snd b)) (sb_sleeping (snd b)) (sb_fixed (snd b)) fs).
Definition st_finalize (a : statics) (s : sys) : res sys :=
  bs <<- each (map (restore_body (st_map a)) (y_bodies s));
  ls <<- each (map (restored (st_map a) (fun v l => LSetDisabled l (negb v))) (y_links s));
  is <<- each (map (restored (st_map a) (fun v i => ISetActive i v)) (y_items s));
  let s := Relax (set_flags s bs ls is) (st_relax a) in
  Ok (Sys (y_bodies s) (y_links s) (y_items s) (y_mesh s) (st_undo a) (y_step s) (st_ramp a)).
(** The residual 201-207 *)
Definition residual (s : sys) : R :=
  fold_left (fun r e => r + (vnorm (GetLinearVelocityInWorld (sb_body (snd e)) NWU) + vnorm (BGetAngularVelocityInWorld (sb_body (snd e)) NWU)))
            (y_bodies s) 0 + mesh_residual (y_mesh s).
(** The loop 193-220 from c_iter = [iter]; [Running]: out of fuel *)
Fixpoint st_loop (fuel : nat) (a : statics) (s : sys) (iter : Z) : res (bool * sys) :=
  if Z.eqb iter (st_iter a) then Ok (false, s) else
  match fuel with
  | O => Running
  | S fuel =>
    let s := Relax s (st_relax a) in
    let s := AdvanceTo s (st_undo a + IZR iter * y_step s * IZR (st_nsteps a)) in
    if Rlt_dec (residual s) (st_tol a) then
      if Rlt_dec (st_undo a + y_step s * IZR (st_nsteps a)) (y_time s) then Ok (true, s)
      else st_loop fuel a s (iter + 1)
    else st_loop fuel a s (iter + 1)
  end.
(** SolveStatic 184-225 *)
Definition SolveStatic (fuel : nat) (a : statics) (s : sys) : res (bool * statics * sys) :=
  let '(a, s) := st_initialize a s in
  r <<- st_loop fuel a s 0;
  s <<- st_finalize a (snd r);
  Ok (fst r, a, s).
End with_dynamics.
Arguments Sys {F}. Arguments y_bodies {F}. Arguments y_links {F}. Arguments y_items {F}. Arguments y_mesh {F}. Arguments y_time {F}. Arguments y_step {F}. Arguments y_ramp {F}.
Arguments set_flags {F}. Arguments AdvanceTo {F}. Arguments Relax {F}. Arguments saved {F}. Arguments st_initialize {F}. Arguments st_finalize {F}.
Arguments residual {F}. Arguments st_loop {F}. Arguments SolveStatic {F}.

(** ** Simple solids.  A collision shape and a visual asset at the reference frame of the body *)
Inductive shape :=
| Box (half_x half_y half_z : R)
| EllipticCylinder (rx rz half_y : R)
| Cylinder (p1 p2 : vec) (radius : R)
| Sphere (radius : R).
(** asset/shape/FrBoxShape.cpp 7-9 (lengths, kept as half lengths), FrCylinderShape.cpp 6-11, FrSphereShape.cpp 7-9 *)
Definition BoxShape (xSize ySize zSize : R) : shape := Box (xSize / 2) (ySize / 2) (zSize / 2).
Definition CylinderShape (radius height : R) : shape := Cylinder (V 0 (- height * (1/2)) 0) (V 0 (height * (1/2)) 0) radius.
Definition SphereShape (radius : R) : shape := Sphere radius.
Record ebody := EB { eb_mbody : mbody; eb_collision : list shape; eb_visual : list shape }.
(** core/body/FrBodyEasy.cpp 20-48 *)
Definition makeItBox (b : ebody) (xSize ySize zSize mass : R) : ebody :=
  let xSize2 := xSize * xSize in let ySize2 := ySize * ySize in let zSize2 := zSize * zSize in
  let Ixx := (1 / 12) * mass * (ySize2 + zSize2) in
  let Iyy := (1 / 12) * mass * (xSize2 + zSize2) in
  let Izz := (1 / 12) * mass * (xSize2 + ySize2) in
  EB (BSetInertiaTensor (eb_mbody b) (Tensor_AtCOG mass (Coeffs Ixx Iyy Izz 0 0 0) vzero NWU))
     [Box (xSize * (1/2)) (ySize * (1/2)) (zSize * (1/2))] (eb_visual b ++ [BoxShape xSize ySize zSize]).
(** 50-74 *)
Definition makeItCylinder (b : ebody) (radius height mass : R) : ebody :=
  let r2 := radius * radius in let h2 := height * height in
  let Ixx := (1 / 12) * mass * (3 * r2 + h2) in
  let Iyy := (1/2) * mass * r2 in
  let Izz := Ixx in
  EB (BSetInertiaTensor (eb_mbody b) (Tensor_AtCOG mass (Coeffs Ixx Iyy Izz 0 0 0) vzero NWU))
     [EllipticCylinder radius radius (height * (1/2))] (eb_visual b ++ [CylinderShape radius height]).
(** 76-96 *)
Definition makeItSphere (b : ebody) (radius mass : R) : ebody :=
  let inertia := (2 / 5) * mass * radius * radius in
  EB (BSetInertiaTensor (eb_mbody b) (Tensor_AtCOG mass (Coeffs inertia inertia inertia 0 0 0) vzero NWU))
     [Sphere radius] (eb_visual b ++ [SphereShape radius]).

(** ** FrMooringBuoy: the body, m_radius, c_volume (None: not initialised) and the hydrostatic force in the world at the COG
    (None: it comes from a volume that was not initialised) *)
Record buoy := Buoy { bu_body : mbody; bu_radius : R; bu_volume : option R; bu_force : option vec }.
(** Constructor cable/FrMooringBuoy.cpp 32-68; a new force is zero (FrForce.cpp) *)
Definition new_buoy (radius mass : R) : buoy :=
  let inertia := (2 / 5) * mass * radius * radius in
  Buoy (BSetInertiaTensor (MBody newbody 0 (M 0 0 0 0 0 0 0 0 0)) (Tensor_AtCOG mass (Coeffs inertia inertia inertia 0 0 0) vzero NWU)) radius None (Some vzero).
(** computeDraft 74-83, with the surface position [eta] above a point *)
Definition computeDraft (b : buoy) (eta : R -> R -> R) : R :=
  let p := BGetPosition (mb_body (bu_body b)) NWU in
  let zh := vz p - eta (vx p) (vy p) in
  if Rlt_dec zh (- bu_radius b) then bu_radius b
  else if Rlt_dec (bu_radius b) zh then - bu_radius b else - zh.
(** computeVolume FrMooringBuoy.h 69-72; Update FrMooringBuoy.cpp 70-72 *)
Definition computeVolume (b : buoy) (eta : R -> R -> R) : R :=
  let Zt := computeDraft b eta in PI / 3 * (Zt * (3 * bu_radius b * bu_radius b - Zt * Zt) + 2 * pow (bu_radius b) 3).
Definition buoy_Update (b : buoy) (eta : R -> R -> R) : buoy := Buoy (bu_body b) (bu_radius b) (Some (computeVolume b eta)) (bu_force b).
(** FrSphereNonLinearHydrostaticForce::Compute FrMooringBuoy.cpp 23-30 ([g]: the fabs of FrOffshoreSystem::GetGravityAcceleration) *)
Definition buoy_Compute (b : buoy) (rho g : R) : buoy :=
  let Gvector := V 0 0 (- g) in
  Buoy (bu_body b) (bu_radius b) (bu_volume b)
       (match bu_volume b with None => None | Some v => Some (vscale (- v * rho) Gvector) end).
(** internal::FrBodyBase::Update core/body/FrBody.cpp 53-56: ChBodyAuxRef::Update, which evaluates the forces, then FrBody::Update *)
Definition buoy_body_Update (b : buoy) (eta : R -> R -> R) (rho g : R) : buoy := buoy_Update (buoy_Compute b rho g) eta.
(** A step moves the body, then updates it *)
Definition buoy_move (b : buoy) (b' : body) : buoy :=
  Buoy (MBody b' (mb_mass (bu_body b)) (mb_inertia (bu_body b))) (bu_radius b) (bu_volume b) (bu_force b).
Record situation := Situation { si_body : body; si_eta : R -> R -> R; si_rho : R; si_g : R }.
Definition buoy_step (b : buoy) (s : situation) : buoy := buoy_body_Update (buoy_move b (si_body s)) (si_eta s) (si_rho s) (si_g s).
Definition buoy_run (b : buoy) (l : list situation) : buoy := fold_left buoy_step l b.
