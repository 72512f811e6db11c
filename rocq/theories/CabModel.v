(** Model of the cables: FrCableProperties and FrCable (cable/FrCable.h, cable/FrCable.cpp), FrCatenaryLine
    (cable/FrCatenaryLine.h, cable/FrCatenaryLine.cpp) and FrCatenaryForce (cable/FrCatenaryForce.cpp).
    Paths are relative to /repo/src/frydom.  double is modelled by the reals; a division by zero, the logarithm
    of zero and the inverse of a singular matrix, which give infinities or NaN in the program, have no value in
    the model ([Undef]).  Nodes are represented by the world positions (NWU) they report at the time of the call.
    mathutils is not in the repository; the contracts used are Inverse() (in place, cofactors over determinant as
    in Eigen) and infNorm() (greatest absolute value).  Assets, logging and the console message about damping are
    not modelled.  No proofs in this file. *)
From Coq Require Import Reals List.
From Verif Require Import GeoModel BodyModel SeaModel.
Import ListNotations.
Open Scope R_scope.

(** DBL_EPSILON *)
Definition DBL_EPSILON : R := / 4503599627370496.

(** ** FrCableProperties: FrCable.h 36-44 (m_rayleighDamping has no accessor and is left out) *)
Record cprops := CP { cp_section : R; cp_young : R; cp_lin : R; cp_break : R }.
(** The defaults of FrCable.h 38-42; make_cable_properties() FrCable.cpp 84-86 *)
Definition default_props : cprops := CP (5 / 100) 31416000000 (616538 / 1000) 0.
(** FrCable.cpp: SetYoungModulus 27-29, GetYoungModulus 31-33, SetSectionArea 35-37, GetSectionArea 39-41 *)
Definition SetYoungModulus (c : cprops) (E : R) : cprops := CP (cp_section c) E (cp_lin c) (cp_break c).
Definition GetYoungModulus (c : cprops) : R := cp_young c.
Definition SetSectionArea (c : cprops) (A : R) : cprops := CP A (cp_young c) (cp_lin c) (cp_break c).
Definition GetSectionArea (c : cprops) : R := cp_section c.
(** SetDiameter 43-45, GetDiameter 47-49 *)
Definition SetDiameter (c : cprops) (d : R) : cprops := CP (PI * (d * (1 / 2)) ^ 2) (cp_young c) (cp_lin c) (cp_break c).
Definition GetDiameter (c : cprops) : R := sqrt (4 * cp_section c / PI).
(** SetEA 51-53, GetEA 55-57 *)
Definition SetEA (c : cprops) (EA : R) : cprops := CP (cp_section c) (EA / cp_section c) (cp_lin c) (cp_break c).
Definition GetEA (c : cprops) : R := cp_young c * cp_section c.
(** SetLinearDensity 59-61, GetLinearDensity 63-65, SetDensity 67-69, GetDensity 71-73 *)
Definition SetLinearDensity (c : cprops) (lambda : R) : cprops := CP (cp_section c) (cp_young c) lambda (cp_break c).
Definition GetLinearDensity (c : cprops) : R := cp_lin c.
Definition SetDensity (c : cprops) (rho : R) : cprops := CP (cp_section c) (cp_young c) (rho * cp_section c) (cp_break c).
Definition GetDensity (c : cprops) : R := cp_lin c / cp_section c.
(** SetBreakingTension 75-78 (assertion), GetBreakingTension 80-82 *)
Definition SetBreakingTension (c : cprops) (t : R) : res cprops :=
  if Rlt_dec DBL_EPSILON t then Ok (CP (cp_section c) (cp_young c) (cp_lin c) t) else Fails.
Definition GetBreakingTension (c : cprops) : R := cp_break c.
(** Constructor FrCable.cpp 22-25: the members are initialised, then SetDiameter *)
Definition new_props (diameter linearDensity youngModulus : R) : cprops :=
  SetDiameter (CP (cp_section default_props) youngModulus linearDensity (cp_break default_props)) diameter.
(** make_cable_properties FrCable.cpp 88-90: the arguments are passed as (youngModulus, diameter, linearDensity) *)
Definition make_cable_properties (diameter linearDensity youngModulus : R) : cprops :=
  new_props youngModulus diameter linearDensity.

(** ** FrCatenaryLine: the members of FrCable (FrCable.h 119-128) and of FrCatenaryLine (FrCatenaryLine.h);
    [l_ns] and [l_ne] count the forces given to the two bodies (a force pointer is null when its count is zero) *)
Record line := Line {
  l_time : R; l_step : R; l_props : cprops; l_len : R; l_speed : R;
  l_elastic : bool; l_t0 : vec; l_q : R; l_qvec : vec; l_umat : mat;
  l_tol : R; l_itermax : nat; l_relax : R; l_ns : nat; l_ne : nat }.
(** m_u: FrCatenaryLine.h, direction of the distributed load *)
Definition m_u : vec := V 0 0 (-1).
Definition set_t0 (l : line) (t : vec) : line :=
  Line (l_time l) (l_step l) (l_props l) (l_len l) (l_speed l) (l_elastic l) t (l_q l) (l_qvec l) (l_umat l) (l_tol l) (l_itermax l) (l_relax l) (l_ns l) (l_ne l).
Definition set_relax (l : line) (r : R) : line :=
  Line (l_time l) (l_step l) (l_props l) (l_len l) (l_speed l) (l_elastic l) (l_t0 l) (l_q l) (l_qvec l) (l_umat l) (l_tol l) (l_itermax l) r (l_ns l) (l_ne l).
Definition set_load (l : line) (q : R) (qv : vec) (um : mat) : line :=
  Line (l_time l) (l_step l) (l_props l) (l_len l) (l_speed l) (l_elastic l) (l_t0 l) q qv um (l_tol l) (l_itermax l) (l_relax l) (l_ns l) (l_ne l).
Definition set_len (l : line) (x : R) : line :=
  Line (l_time l) (l_step l) (l_props l) x (l_speed l) (l_elastic l) (l_t0 l) (l_q l) (l_qvec l) (l_umat l) (l_tol l) (l_itermax l) (l_relax l) (l_ns l) (l_ne l).
(** FrCable::SetUnrollingSpeed FrCable.cpp 175-177 *)
Definition set_speed (l : line) (x : R) : line :=
  Line (l_time l) (l_step l) (l_props l) (l_len l) x (l_elastic l) (l_t0 l) (l_q l) (l_qvec l) (l_umat l) (l_tol l) (l_itermax l) (l_relax l) (l_ns l) (l_ne l).
(** FrCable::SetCableProperties 118-120 *)
Definition set_props (l : line) (c : cprops) : line :=
  Line (l_time l) (l_step l) c (l_len l) (l_speed l) (l_elastic l) (l_t0 l) (l_q l) (l_qvec l) (l_umat l) (l_tol l) (l_itermax l) (l_relax l) (l_ns l) (l_ne l).
(** SetSolverTolerance, SetSolverMaxIter, SetSolverInitialRelaxFactor: FrCatenaryLine.cpp 65-75 *)
Definition set_tol (l : line) (x : R) : line :=
  Line (l_time l) (l_step l) (l_props l) (l_len l) (l_speed l) (l_elastic l) (l_t0 l) (l_q l) (l_qvec l) (l_umat l) x (l_itermax l) (l_relax l) (l_ns l) (l_ne l).
Definition set_iter (l : line) (n : nat) : line :=
  Line (l_time l) (l_step l) (l_props l) (l_len l) (l_speed l) (l_elastic l) (l_t0 l) (l_q l) (l_qvec l) (l_umat l) (l_tol l) n (l_relax l) (l_ns l) (l_ne l).
(** Constructor FrCatenaryLine.cpp 26-42 with the initialisers of the headers: m_q holds the linear density (in
    kg/m) until Initialize; [junk] stands for the members that have no initialiser *)
Definition new_line (props : cprops) (elastic : bool) (unstrainedLength : R) (junk_t0 junk_qvec : vec) (junk_umat : mat) : line :=
  Line 0 0 props unstrainedLength 0 elastic junk_t0 (GetLinearDensity props) junk_qvec junk_umat (1 / 1000000) 100 (1 / 10) 0 0.

(** GetTension 102-106, GetStartingNodeTension 116-118, GetEndingNodeTension 120-122 *)
Definition GetTension (l : line) (s : R) (fc : conv) : vec := swap_if fc (vsub (l_t0 l) (vscale s (l_qvec l))).
Definition GetStartingNodeTension (l : line) (fc : conv) : vec := GetTension l 0 fc.
Definition GetEndingNodeTension (l : line) (fc : conv) : vec := vneg (GetTension l (l_len l) fc).
(** _rho 124-127 *)
Definition rho (l : line) (s : R) : R := let t := GetTension l s NWU in vnorm t - vdot m_u t.
(** GetUnstrainedChord 133-147 *)
Definition GetUnstrainedChord (l : line) (s : R) (fc : conv) : res vec :=
  let q := l_q l in
  if Req_EM_T q 0 then Undef else
  let pc := vscale (vnorm (GetTension l s NWU) - vnorm (l_t0 l)) (vneg (vscale (/ q) m_u)) in
  let rho_0 := rho l 0 in
  let pc := if Rlt_dec 0 rho_0 then
              let rho_s := rho l s in
              if Rlt_dec 0 rho_s then vadd pc (vscale (ln (rho_s / rho_0)) (vscale (/ q) (mapply (l_umat l) (l_t0 l)))) else pc
            else pc in
  Ok (swap_if fc pc).
(** GetElasticIncrement 149-154 *)
Definition GetElasticIncrement (l : line) (s : R) (fc : conv) : res vec :=
  inc <<- (if l_elastic l then
             if Req_EM_T (l_q l) 0 then Undef else
             if Req_EM_T (GetEA (l_props l)) 0 then Undef else
             Ok (vscale (/ GetEA (l_props l)) (vscale (l_q l * s) (vsub (vscale (/ l_q l) (l_t0 l)) (vscale (1 / 2 * s) m_u))))
           else Ok vzero);
  Ok (swap_if fc inc).
(** GetNodePositionInWorld 156-164, for the starting node at [p0] *)
Definition GetNodePositionInWorld (p0 : vec) (l : line) (s : R) (fc : conv) : res vec :=
  chord <<- GetUnstrainedChord l s fc;
  inc <<- GetElasticIncrement l s fc;
  Ok (vadd (vadd (vadd vzero (swap_if fc p0)) chord) inc).
(** get_residual 166-168, for the ending node at [pL] *)
Definition get_residual (p0 pL : vec) (l : line) (fc : conv) : res vec :=
  p <<- GetNodePositionInWorld p0 l (l_len l) fc; Ok (vsub p (swap_if fc pL)).

(** analytical_jacobian 170-220: coefficients of vectors and matrices by index *)
Definition vget (v : vec) (i : nat) : R := match i with 0 => vx v | 1 => vy v | _ => vz v end%nat.
Definition mrow (m : mat) (i : nat) : vec :=
  match i with 0 => V (m00 m) (m01 m) (m02 m) | 1 => V (m10 m) (m11 m) (m12 m) | _ => V (m20 m) (m21 m) (m22 m) end%nat.
Definition analytical_jacobian (l : line) : res mat :=
  let q := l_q l in let t0 := l_t0 l in
  let t0n := vnorm t0 in
  let tL := vsub t0 (vscale (l_len l) (l_qvec l)) in
  let tLn := vnorm tL in
  if Req_EM_T q 0 then Undef else
  if Req_EM_T t0n 0 then Undef else
  if Req_EM_T tLn 0 then Undef else
  let rho_0 := rho l 0 in
  let rho_L := rho l (l_len l) in
  if (if Rlt_dec 0 rho_0 then if Rlt_dec 0 rho_L then false else true else false) then Undef else
  let ln_q := ln (rho_L / rho_0) / q in
  if (if l_elastic l then if Req_EM_T (GetEA (l_props l)) 0 then true else false else false) then Undef else
  let L_EA := if l_elastic l then l_len l / GetEA (l_props l) else 0 in
  let upper i j :=
    let Uit0 := vdot (mrow (l_umat l) i) t0 / q in
    let jac_ij := - (vget tL j / tLn - vget t0 j / t0n) * vget m_u i / q in
    let jac_ij := if Rlt_dec 0 rho_0 then
                    let diff_ln := (vget tL j / tLn - vget m_u j) / rho_L - (vget t0 j / t0n - vget m_u j) / rho_0 in
                    jac_ij + vget (mrow (l_umat l) i) j * ln_q + Uit0 * diff_ln
                  else jac_ij in
    if Nat.eqb i j then jac_ij + L_EA else jac_ij in
  Ok (M (upper 0 0) (upper 0 1) (upper 0 2) (upper 0 1) (upper 1 1) (upper 1 2) (upper 0 2) (upper 1 2) (upper 2 2))%nat.
(** Matrix33::Inverse (contract) *)
Definition det3 (m : mat) : R :=
  m00 m * (m11 m * m22 m - m12 m * m21 m) - m01 m * (m10 m * m22 m - m12 m * m20 m) + m02 m * (m10 m * m21 m - m11 m * m20 m).
Definition Inverse (m : mat) : res mat :=
  let d := det3 m in
  if Req_EM_T d 0 then Undef else
  Ok (M ((m11 m * m22 m - m12 m * m21 m) / d) ((m02 m * m21 m - m01 m * m22 m) / d) ((m01 m * m12 m - m02 m * m11 m) / d)
        ((m12 m * m20 m - m10 m * m22 m) / d) ((m00 m * m22 m - m02 m * m20 m) / d) ((m02 m * m10 m - m00 m * m12 m) / d)
        ((m10 m * m21 m - m11 m * m20 m) / d) ((m01 m * m20 m - m00 m * m21 m) / d) ((m00 m * m11 m - m01 m * m10 m) / d)).
Definition infNorm (v : vec) : R := Rmax (Rabs (vx v)) (Rmax (Rabs (vy v)) (Rabs (vz v))).
(** solve 222-261.  The Newton correction (lines 224-228 and 239-243) *)
Definition newton_delta (p0 pL : vec) (l : line) : res vec :=
  r <<- get_residual p0 pL l NWU;
  jac <<- analytical_jacobian l;
  inv <<- Inverse jac;
  Ok (mapply inv (vneg r)).
(** The damping loop 245-250: [Running] when it has not ended within the fuel *)
Fixpoint damp (fuel : nat) (delta_norm temp_norm relax : R) : res R :=
  match fuel with
  | O => Running
  | S f => if Rlt_dec delta_norm (relax * temp_norm) then damp f delta_norm temp_norm (relax * (1 / 2)) else Ok relax
  end.
(** The loop 235-259; [n] is the number of iterations still allowed *)
Fixpoint newton_loop (n fuel : nat) (p0 pL : vec) (l : line) (delta : vec) (err : R) : res line :=
  match n with
  | O => Ok l
  | S m =>
    if Rlt_dec (l_tol l) err then
      temp <<- newton_delta p0 pL l;
      relax <<- damp fuel (infNorm delta) (infNorm temp) (l_relax l);
      let l := set_t0 l (vadd (l_t0 l) (vscale relax temp)) in
      let l := set_relax l (Rmin 1 (relax * 2)) in
      r <<- get_residual p0 pL l NWU;
      newton_loop m fuel p0 pL l temp (infNorm r)
    else Ok l
  end.
Definition solve (fuel : nat) (p0 pL : vec) (l : line) : res line :=
  delta <<- newton_delta p0 pL l;
  let l := set_t0 l (vadd (l_t0 l) (vscale (l_relax l) delta)) in
  r <<- get_residual p0 pL l NWU;
  newton_loop (l_itermax l - 1) fuel p0 pL l delta (infNorm r).
(** guess_tension 77-100 *)
Definition guess_tension (p0 pL : vec) (l : line) : res line :=
  let p := vsub pL p0 in
  let lx := vx p in let ly := vy p in let lz := vz p in
  let chord_length := vnorm p in
  if Req_EM_T chord_length 0 then Undef else
  let v := vcross (vcross m_u (vscale (/ chord_length) p)) m_u in
  let lambda :=
    if Rle_dec (l_len l) chord_length then 2 / 10
    else if Rlt_dec (vnorm (vcross m_u p)) (1 / 10000) then 1000000
    else sqrt (3 * (l_len l * l_len l - lz * lz) / (lx * lx + ly * ly)) in
  let fu := - (1 / 2) * l_q l * (lz / tanh lambda - l_len l) in
  let fv := 1 / 2 * l_q l * sqrt (lx * lx + ly * ly) / lambda in
  Ok (set_t0 l (vadd (vscale fu m_u) (vscale fv v))).
(** Initialize 263-299; [g] and [fluid_density] are GetGravityAcceleration() and GetFluidDensity(c_fluid) *)
Definition CInitialize (fuel : nat) (p0 pL : vec) (g fluid_density : R) (l : line) : res line :=
  let q := (GetLinearDensity (l_props l) - GetSectionArea (l_props l) * fluid_density) * g in
  let umat := M (1 - vx m_u * vx m_u) (0 - vx m_u * vy m_u) (0 - vx m_u * vz m_u)
                (0 - vy m_u * vx m_u) (1 - vy m_u * vy m_u) (0 - vy m_u * vz m_u)
                (0 - vz m_u * vx m_u) (0 - vz m_u * vy m_u) (1 - vz m_u * vz m_u) in
  let l := set_load l q (vscale q m_u) umat in
  l <<- guess_tension p0 pL l;
  l <<- solve fuel p0 pL l;
  Ok (Line (l_time l) (l_step l) (l_props l) (l_len l) (l_speed l) (l_elastic l) (l_t0 l) (l_q l) (l_qvec l) (l_umat l) (l_tol l) (l_itermax l) (l_relax l)
           (if Nat.eqb (l_ns l) 0 then 1 else l_ns l)%nat (if Nat.eqb (l_ne l) 0 then 1 else l_ne l)%nat).
(** FrCable::UpdateTime FrCable.cpp 183-186, FrCable::UpdateState 188-192 *)
Definition UpdateTime (l : line) (time : R) : line :=
  Line time (time - l_time l) (l_props l) (l_len l) (l_speed l) (l_elastic l) (l_t0 l) (l_q l) (l_qvec l) (l_umat l) (l_tol l) (l_itermax l) (l_relax l) (l_ns l) (l_ne l).
Definition CableUpdateState (l : line) : line :=
  if Rlt_dec DBL_EPSILON (Rabs (l_speed l)) then
    if Rlt_dec DBL_EPSILON (Rabs (l_step l)) then set_len l (l_len l + l_speed l * l_step l) else l
  else l.
(** FrCatenaryLine::Compute 301-306 and UpdateState 308-311 *)
Definition CCompute (fuel : nat) (p0 pL : vec) (time : R) (l : line) : res line :=
  solve fuel p0 pL (CableUpdateState (UpdateTime l time)).
(** FrCable::GetStrainedLength FrCable.cpp 194-208: positions at i * L / 999 for i = 0 .. 999 *)
Fixpoint polyline (pos : nat -> res vec) (i n : nat) (prev : vec) (cl : R) : res R :=
  match n with
  | O => Ok cl
  | S m => p <<- pos i; polyline pos (S i) m p (cl + vnorm (vsub p prev))
  end.
Definition GetStrainedLength (p0 : vec) (l : line) : res R :=
  let ds := l_len l / 999 in
  prev <<- GetNodePositionInWorld p0 l 0 NWU;
  polyline (fun i => GetNodePositionInWorld p0 l (INR i * ds) NWU) 0 1000 prev 0.

(** ** Histories of a line *)
Inductive line_op :=
| LInit (p0 pL : vec) (g fluid_density : R)
| LCompute (p0 pL : vec) (time : R)
| LSetLength (x : R) | LSetSpeed (x : R) | LSetProps (c : cprops)
| LSetTol (x : R) | LSetIter (n : nat) | LSetRelax (x : R).
Definition line_step (fuel : nat) (o : line_op) (l : line) : res line :=
  match o with
  | LInit p0 pL g rhof => CInitialize fuel p0 pL g rhof l
  | LCompute p0 pL t => CCompute fuel p0 pL t l
  | LSetLength x => Ok (set_len l x)
  | LSetSpeed x => Ok (set_speed l x)
  | LSetProps c => Ok (set_props l c)
  | LSetTol x => Ok (set_tol l x)
  | LSetIter n => Ok (set_iter l n)
  | LSetRelax x => Ok (set_relax l x)
  end.
Fixpoint line_run (fuel : nat) (l : line) (ops : list line_op) : res line :=
  match ops with [] => Ok l | o :: r => l' <<- line_step fuel o l; line_run fuel l' r end.

(** ** FrCatenaryForce::Compute FrCatenaryForce.cpp 29-49: [b] is the body of the node [m] on that side and
    [f0] the value of the force before *)
Inductive side := LINE_START | LINE_END.
Definition CatForceCompute (l : line) (sd : side) (b : body) (m : marker) (f0 : force) : force :=
  let ForceInWorld := match sd with LINE_START => GetStartingNodeTension l NWU | LINE_END => GetEndingNodeTension l NWU end in
  SetForceTorqueInWorldAtPointInBody b f0 ForceInWorld vzero (NGetPositionInBody b m NWU) NWU.
