(** Model of the flow fields and of the forces that depend on them: FrUniformField, FrFlowBase and FrFlowForce
    (environment/flow), FrEnvironment (environment/FrEnvironment.cpp), FrWindStandardForce, FrCurrentStandardForce,
    FrLinearDamping and FrQuadraticDamping (hydrodynamics/damping), FrITTCResistance
    (hydrodynamics/wave_resistance) and FrManDampingTaylorExpansion (hydrodynamics/manoeuvring).
    Paths are relative to /repo/src/frydom.  double is modelled by the reals; a division by zero has no value
    ([Undef]).  mathutils is not in the repository; contracts used: GetProjectedAngleAroundZ is atan2(y, x),
    Normalize_0_2PI returns the congruent angle in [0, 2 pi), convert_velocity_unit multiplies by a factor that
    depends on the unit, LookupTable1D interpolates linearly and throws outside its range.
    FrQuadDamping (no constructor accessible from the API, body of Compute commented out) is left out.
    No proofs in this file. *)
From Coq Require Import Reals List Bool Ascii String.
From Verif Require Import GeoModel BodyModel WavModel SeaModel.
Import ListNotations.
Open Scope R_scope.

(** ** Compass directions: core/math/FrVector.cpp 18-64, in NWU *)
Definition MU_SQRT2_2 : R := sqrt 2 / 2.
Inductive compass := CNorth | CNorthEast | CEast | CSouthEast | CSouth | CSouthWest | CWest | CNorthWest.
Definition compass_dir (c : compass) (fc : conv) : vec :=
  swap_if fc
    match c with
    | CNorth => V 1 0 0
    | CNorthEast => V MU_SQRT2_2 (- MU_SQRT2_2) 0
    | CEast => V 0 (-1) 0
    | CSouthEast => V (- MU_SQRT2_2) (- MU_SQRT2_2) 0
    | CSouth => V (-1) 0 0
    | CSouthWest => V (- MU_SQRT2_2) MU_SQRT2_2 0
    | CWest => V 0 1 0
    | CNorthWest => V MU_SQRT2_2 MU_SQRT2_2 0
    end.

(** ** FrUniformField (FrUniformField.cpp); the field is its only member m_fluxVectorNWU.
    [unit_ms] is the factor of convert_velocity_unit to metres per second *)
(** Set(velocity, fc, dc) 18-31 *)
Definition FSetVector (velocity : vec) (fc : conv) (dc : dconv) : vec :=
  let v := swap_if fc velocity in match dc with COMEFROM => vneg v | GOTO => v end.
(** Set(angle, magnitude, angleUnit, speedUnit, fc, dc) 33-46 *)
Definition FSetAngle (angle magnitude : R) (unit : aunit) (unit_ms : R) (fc : conv) (dc : dconv) : vec :=
  let magnitude := magnitude * unit_ms in
  let angle := match unit with DEG => angle * DEG2RAD | RAD => angle end in
  let angle := if IsNED fc then - angle else angle in
  let angle := match dc with COMEFROM => angle + PI | GOTO => angle end in
  V (magnitude * cos angle) (magnitude * sin angle) 0.
(** Set(direction, magnitude, speed_unit, dc) 48-53 and SetNorth .. SetNorthWest 55-85 *)
Definition FSetCompass (c : compass) (magnitude unit_ms : R) (dc : dconv) : vec :=
  let v := vscale (magnitude * unit_ms) (compass_dir c NWU) in match dc with COMEFROM => vneg v | GOTO => v end.
(** GetFluxVelocityInWorld 91-95 *)
Definition FieldGet (m_fluxVectorNWU : vec) (fc : conv) : vec := swap_if fc m_fluxVectorNWU.

(** ** FrFlowBase (FrFlowBase.h 40-44, FrFlowBase.cpp) *)
Record flow := Flow { w_field : vec; w_time : R; w_ramp : R }.
(** Constructor 25-27; the uniform field starts at zero (FrUniformField.h) *)
Definition new_flow : flow := Flow vzero 0 1.
(** GetFluxVelocityInWorld 29-31 *)
Definition GetFluxVelocityInWorld (w : flow) (fc : conv) : vec := vscale (w_ramp w) (FieldGet (w_field w) fc).
(** GetRelativeVelocityInFrame 33-38 (the field does not depend on the position of the frame) *)
Definition GetRelativeVelocityInFrame (w : flow) (f : frame) (worldVel : vec) (fc : conv) : vec :=
  let v := vsub (GetFluxVelocityInWorld w fc) worldVel in
  let v := if IsNED fc then SwapFrameConvention v else v in
  UQ_Rotate (UQ_Inverse (frot f)) v NWU.
(** The time ramp of the environment: inactive, or active with its values (C08) *)
Definition ramp_value (ramp : option (R -> R)) (t : R) : R := match ramp with Some y => y t | None => 1 end.
(** Initialize 49-56 and StepFinalize 63-70 do the same with the ramp; Update 58-61.  GetFieldUniform()->Set.. *)
Inductive flow_op := WInitialize (ramp : option (R -> R)) | WUpdate (time : R) | WStepFinalize (ramp : option (R -> R)) | WSet (field : vec) | WMakeFieldUniform.
Definition flow_step (o : flow_op) (w : flow) : flow :=
  match o with
  | WInitialize ramp | WStepFinalize ramp => Flow (w_field w) (w_time w) (ramp_value ramp (w_time w))
  | WUpdate t => Flow (w_field w) t (w_ramp w)
  | WSet v => Flow v (w_time w) (w_ramp w)
  | WMakeFieldUniform => Flow vzero (w_time w) (w_ramp w)   (* MakeFieldUniform 40-43: a new field *)
  end.
Definition flow_run (ops : list flow_op) (w : flow) : flow := fold_left (fun s o => flow_step o s) ops w.

(** ** FrEnvironment: GetRelativeVelocityInFrame 69-79, GetFluidDensity 81-90, GetFluidTypeAtPointInWorld 92-113 *)
Inductive fluid := WATER | AIR.
Record envt := Env { e_current : flow; e_wind : flow; e_rho_water : R; e_rho_air : R; e_nu_water : R }.
Definition env_flow (e : envt) (ft : fluid) : flow := match ft with WATER => e_current e | AIR => e_wind e end.
Definition EGetRelativeVelocityInFrame (e : envt) (f : frame) (worldVel : vec) (ft : fluid) (fc : conv) : vec :=
  GetRelativeVelocityInFrame (env_flow e ft) f worldVel fc.
Definition GetFluidDensity (e : envt) (ft : fluid) : R := match ft with AIR => e_rho_air e | WATER => e_rho_water e end.
Definition DBL_EPSILON : R := / 4503599627370496.
(** [waveElevation] is 0 or the answer of FrFreeSurface::GetElevation in the convention fc *)
Definition GetFluidType (waveElevation : R) (worldPos : vec) (fc : conv) : fluid :=
  if IsNED fc then if Rlt_dec (vz worldPos) (waveElevation + DBL_EPSILON) then AIR else WATER
  else if Rlt_dec (waveElevation - DBL_EPSILON) (vz worldPos) then AIR else WATER.
(** FrOcean::GetReynoldsNumberInWater ocean/FrOcean.cpp 63-65 *)
Definition GetReynoldsNumberInWater (e : envt) (length velocity : R) : R := Rabs velocity * length / e_nu_water e.

(** ** FrLinearDamping (FrLinearDamping.h, .cpp); the 6x6 matrix by coefficients *)
Definition mat6 := nat -> nat -> R.
Definition upd6 (d : mat6) (i j : nat) (x : R) : mat6 := fun i' j' => if (Nat.eqb i' i && Nat.eqb j' j)%bool then x else d i' j'.
Record lindamp := LD { ld_mat : mat6; ld_relative : bool; ld_fluid : fluid }.
(** Constructor 22-31, SetNull 33-35 *)
Definition new_lindamp (ft : fluid) (relative : bool) : lindamp := LD (fun _ _ => 0) relative ft.
(** SetDampingMatrix 37-39, SetDiagonalTranslationDamping 46-50, SetDiagonalRotationDamping 52-56,
    SetDiagonalDamping 41-44, SetDampingCoeff 58-60 (an index beyond the matrix: Eigen's assertion, or undefined), 62-64 *)
Inductive lin_op :=
| LSetNull | LSetMatrix (d : mat6) | LSetDiagonal (Du Dv Dw Dp Dq Dr : R) | LSetTranslation (Du Dv Dw : R)
| LSetRotation (Dp Dq Dr : R) | LSetCoeff (i j : nat) (c : R) | LSetRelative (r : bool).
Definition set_translation (d : mat6) (Du Dv Dw : R) : mat6 := upd6 (upd6 (upd6 d 0 0 Du) 1 1 Dv) 2 2 Dw.
Definition set_rotation (d : mat6) (Dp Dq Dr : R) : mat6 := upd6 (upd6 (upd6 d 3 3 Dp) 4 4 Dq) 5 5 Dr.
Definition lin_step (o : lin_op) (l : lindamp) : res lindamp :=
  match o with
  | LSetNull => Ok (LD (fun _ _ => 0) (ld_relative l) (ld_fluid l))
  | LSetMatrix d => Ok (LD d (ld_relative l) (ld_fluid l))
  | LSetDiagonal Du Dv Dw Dp Dq Dr => Ok (LD (set_rotation (set_translation (ld_mat l) Du Dv Dw) Dp Dq Dr) (ld_relative l) (ld_fluid l))
  | LSetTranslation Du Dv Dw => Ok (LD (set_translation (ld_mat l) Du Dv Dw) (ld_relative l) (ld_fluid l))
  | LSetRotation Dp Dq Dr => Ok (LD (set_rotation (ld_mat l) Dp Dq Dr) (ld_relative l) (ld_fluid l))
  | LSetCoeff i j c => if (Nat.ltb i 6 && Nat.ltb j 6)%bool then Ok (LD (upd6 (ld_mat l) i j c) (ld_relative l) (ld_fluid l)) else Undef
  | LSetRelative r => Ok (LD (ld_mat l) r (ld_fluid l))
  end.
Fixpoint lin_run (ops : list lin_op) (l : lindamp) : res lindamp :=
  match ops with [] => Ok l | o :: r => l' <<- lin_step o l; lin_run r l' end.
(** Initialize 93-96, Check 98-107 *)
Definition six : list nat := [0; 1; 2; 3; 4; 5]%nat.
Definition lin_check (l : lindamp) : res lindamp :=
  if existsb (fun i => existsb (fun j => if Rlt_dec (ld_mat l i j) 0 then true else false) six) six then Throws else Ok l.
(** Velocity of the centre of gravity used by Compute, 73-81 *)
Definition cog_rel_vel (e : envt) (b : body) (relative : bool) (ft : fluid) : vec :=
  if relative then vneg (EGetRelativeVelocityInFrame e (GetFrameAtCOG b NWU) (GetCOGLinearVelocityInWorld b NWU) ft NWU)
  else GetCOGVelocityInBody b NWU.
(** Product of the matrix by a generalized velocity: three components of translation, three of rotation *)
Definition gen6 (v w : vec) (i : nat) : R :=
  match i with 0 => vx v | 1 => vy v | 2 => vz v | 3 => vx w | 4 => vy w | _ => vz w end%nat.
Definition row6 (d : mat6) (i : nat) (v w : vec) : R :=
  fold_left (fun s j => s + - d i j * gen6 v w j) six 0.
(** Compute 68-91 *)
Definition lin_compute (e : envt) (b : body) (l : lindamp) (s : force) : force :=
  let v := cog_rel_vel e b (ld_relative l) (ld_fluid l) in
  let w := BGetAngularVelocityInBody b NWU in
  let d := ld_mat l in
  SetForceTorqueInBodyAtCOG b s (V (row6 d 0 v w) (row6 d 1 v w) (row6 d 2 v w)) (V (row6 d 3 v w) (row6 d 4 v w) (row6 d 5 v w)) NWU.

(** ** FrQuadraticDamping: coefficients, sections; Compute 60-85 *)
Record quaddamp := QD { qd_C : vec; qd_S : vec; qd_relative : bool; qd_fluid : fluid }.
Definition new_quaddamp (ft : fluid) (relative : bool) : quaddamp := QD vzero vzero relative ft.
Definition SetDampingCoefficients (q : quaddamp) (Cu Cv Cw : R) : quaddamp := QD (V Cu Cv Cw) (qd_S q) (qd_relative q) (qd_fluid q).
Definition SetProjectedSections (q : quaddamp) (Su Sv Sw : R) : quaddamp := QD (qd_C q) (V Su Sv Sw) (qd_relative q) (qd_fluid q).
Definition SetRelative2Fluid (q : quaddamp) (r : bool) : quaddamp := QD (qd_C q) (qd_S q) r (qd_fluid q).
Definition quad_compute (e : envt) (b : body) (q : quaddamp) (s : force) : force :=
  let v := cog_rel_vel e b (qd_relative q) (qd_fluid q) in
  let rho := GetFluidDensity e (qd_fluid q) in
  SetForceInBody b s
    (V (- (1 / 2) * rho * vx (qd_S q) * vx (qd_C q) * vx v * Rabs (vx v))
       (- (1 / 2) * rho * vy (qd_S q) * vy (qd_C q) * vy v * Rabs (vy v))
       (- (1 / 2) * rho * vz (qd_S q) * vz (qd_C q) * vz v * Rabs (vz v))) NWU.

(** ** FrITTCResistance *)
Record ittc := ITTC { it_Lpp : R; it_hull : R; it_k : R; it_cr : R; it_ca : R; it_caa : R; it_capp : R }.
(** SetRoughnessFromLength 47-49, SetAirResistanceFromArea 51-53 *)
Definition SetRoughnessFromLength (i : ittc) (Lwl rough : R) : ittc :=
  ITTC (it_Lpp i) (it_hull i) (it_k i) (it_cr i) ((105 * Rpower (rough / Lwl) (1 / 3) - 64 / 100) * (1 / 1000)) (it_caa i) (it_capp i).
Definition SetAirResistanceFromArea (i : ittc) (area : R) : ittc :=
  ITTC (it_Lpp i) (it_hull i) (it_k i) (it_cr i) (it_ca i) (area / (1000 * it_hull i)) (it_capp i).
(** Line 36.  At rest the program computes log10(0) = -inf, its square +inf and Cf = 0; for Re = 100 the
    division by zero has no value *)
Definition ittc_Cf (Re : R) : res R :=
  if Req_EM_T Re 0 then Ok 0
  else let d := (ln Re / ln 10 - 2) ^ 2 in if Req_EM_T d 0 then Undef else Ok (75 / 1000 / d).
(** Compute 23-45 *)
Definition ittc_compute (e : envt) (b : body) (i : ittc) (s : force) : res force :=
  let ux := vx (GetCOGVelocityInBody b NWU) in
  let Re := GetReynoldsNumberInWater e (it_Lpp i) ux in
  Cf <<- ittc_Cf Re;
  let Ct := (1 + it_k i) * Cf + it_cr i + it_ca i + it_caa i + it_capp i in
  let Rt := - (1 / 2) * e_rho_water e * it_hull i * Ct * ux * Rabs ux in
  Ok (SetForceInBody b s (V Rt 0 0) NWU).

(** ** FrManDampingTaylorExpansion *)
(** TypeParam_ (FrManoeuvringDamping.h 39-47): a value and, for each of the three velocities, the exponents of
    its absolute value and of itself when the flag is set *)
Record param := Param { pr_val : R; pr_m : option (nat * nat); pr_n : option (nat * nat); pr_p : option (nat * nat) }.
Definition split_exp (m : Z) : option (nat * nat) :=
  if (0 <? m)%Z then let f := Z.to_nat (Z.quot m 2) in Some (f, (Z.to_nat m - f)%nat) else None.
(** SetParams(val, m, n, p) 21-40; SetParams(tag, val) 42-47 *)
Definition SetParams (val : R) (m n p : Z) : param := Param val (split_exp m) (split_exp n) (split_exp p).
Definition count_char (c : ascii) (tag : string) : Z :=
  Z.of_nat (List.length (filter (fun x => Ascii.eqb x c) (list_ascii_of_string tag))).
Definition SetParamsTag (tag : string) (val : R) : param :=
  SetParams val (count_char "u" tag) (count_char "v" tag) (count_char "w" tag).
(** ForceComponent 49-62 *)
Definition factor (o : option (nat * nat)) (x : R) : R :=
  match o with Some (f, s) => Rabs x ^ f * x ^ s | None => 1 end.
Definition ForceComponent (p : param) (vx vy vrz : R) : R :=
  pr_val p * factor (pr_m p) vx * factor (pr_n p) vy * factor (pr_p p) vrz.
Record manoeuvring := Man { mn_x : list param; mn_y : list param; mn_n : list param }.
Definition new_manoeuvring : manoeuvring := Man [] [] [].
Definition addX (m : manoeuvring) (p : param) : manoeuvring := Man (mn_x m ++ [p]) (mn_y m) (mn_n m).
Definition addY (m : manoeuvring) (p : param) : manoeuvring := Man (mn_x m) (mn_y m ++ [p]) (mn_n m).
Definition addN (m : manoeuvring) (p : param) : manoeuvring := Man (mn_x m) (mn_y m) (mn_n m ++ [p]).
(** Set 64-75 (std::string::at throws on an empty tag), SetX/Y/N 77-99, ClearAll 101-105 *)
Inductive man_op :=
| MSet (tag : string) (val : R)
| MSetXTag (tag : string) (val : R) | MSetYTag (tag : string) (val : R) | MSetNTag (tag : string) (val : R)
| MSetX (val : R) (m n p : Z) | MSetY (val : R) (m n p : Z) | MSetN (val : R) (m n p : Z)
| MClearAll.
Definition man_step (o : man_op) (m : manoeuvring) : res manoeuvring :=
  match o with
  | MSet tag val =>
      match tag with
      | EmptyString => Throws
      | String c _ => if Ascii.eqb c "X" then Ok (addX m (SetParamsTag tag val))
                      else if Ascii.eqb c "Y" then Ok (addY m (SetParamsTag tag val))
                      else if Ascii.eqb c "N" then Ok (addN m (SetParamsTag tag val))
                      else Ok m
      end
  | MSetXTag tag val => Ok (addX m (SetParamsTag tag val))
  | MSetYTag tag val => Ok (addY m (SetParamsTag tag val))
  | MSetNTag tag val => Ok (addN m (SetParamsTag tag val))
  | MSetX val a b c => Ok (addX m (SetParams val a b c))
  | MSetY val a b c => Ok (addY m (SetParams val a b c))
  | MSetN val a b c => Ok (addN m (SetParams val a b c))
  | MClearAll => Ok new_manoeuvring
  end.
Fixpoint man_run (ops : list man_op) (m : manoeuvring) : res manoeuvring :=
  match ops with [] => Ok m | o :: r => m' <<- man_step o m; man_run r m' end.
(** Compute 107-129 *)
Definition man_sum (l : list param) (u v r : R) : R := fold_left (fun s p => s - ForceComponent p u v r) l 0.
Definition man_compute (b : body) (m : manoeuvring) (s : force) : force :=
  let u := vx (GetVelocityInBody b NWU) in
  let v := vy (GetVelocityInBody b NWU) in
  let r := vz (BGetAngularVelocityInBody b NWU) in
  SetForceTorqueInBodyAtCOG b s (V (man_sum (mn_x m) u v r) (man_sum (mn_y m) u v r) 0) (V 0 0 (man_sum (mn_n m) u v r)) NWU.

(** ** The horizontal frame used by the flow forces: FrWindStandardForce.cpp 90-93, FrCurrentStandardForce.cpp
    108-111, FrFlowForce.cpp 138-141 *)
Definition yaw_frame (b : body) : frame :=
  let psi := a_psi (Rot_GetCardan_RADIANS (GetQuaternion b) NWU) in
  Frame_make (GetCOGPositionInWorld b NWU) (UQ_SetAxisAngle (V 0 0 1) psi NWU) NWU.
Definition projected_angle (v : vec) : R := Normalize_0_2PI (atan2 (vy v) (vx v)).

(** ** FrWindStandardForce; [None] for a member that has not been given a value: m_xCenter has no initialiser
    and the three others hold -1 *)
Definition FLT_EPSILON : R := / 8388608.
Record standard := Std { sd_lateral : R; sd_transverse : R; sd_lpp : R; sd_xc : option R; sd_breadth : R; sd_draft : R }.
Definition new_standard : standard := Std (-1) (-1) (-1) None (-1) (-1).
(** Setters with their assertions: FrWindStandardForce.cpp 26-43, FrCurrentStandardForce.cpp 30-57 *)
Inductive std_op := SSetLateral (x : R) | SSetTransverse (x : R) | SSetLpp (x : R) | SSetXCenter (x : R) | SSetBreadth (x : R) | SSetDraft (x : R).
Definition positive (x : R) (r : standard) : res standard := if Rlt_dec FLT_EPSILON x then Ok r else Fails.
Definition std_step (o : std_op) (s : standard) : res standard :=
  match o with
  | SSetLateral x => positive x (Std x (sd_transverse s) (sd_lpp s) (sd_xc s) (sd_breadth s) (sd_draft s))
  | SSetTransverse x => positive x (Std (sd_lateral s) x (sd_lpp s) (sd_xc s) (sd_breadth s) (sd_draft s))
  | SSetLpp x => positive x (Std (sd_lateral s) (sd_transverse s) x (sd_xc s) (sd_breadth s) (sd_draft s))
  | SSetXCenter x => Ok (Std (sd_lateral s) (sd_transverse s) (sd_lpp s) (Some x) (sd_breadth s) (sd_draft s))
  | SSetBreadth x => positive x (Std (sd_lateral s) (sd_transverse s) (sd_lpp s) (sd_xc s) x (sd_draft s))
  | SSetDraft x => positive x (Std (sd_lateral s) (sd_transverse s) (sd_lpp s) (sd_xc s) (sd_breadth s) x)
  end.
Fixpoint std_run (ops : list std_op) (s : standard) : res standard :=
  match ops with [] => Ok s | o :: r => s' <<- std_step o s; std_run r s' end.
(** Initialize: FrWindStandardForce.cpp 45-50 *)
Definition std_checks (s : standard) : res standard :=
  if Rlt_dec (sd_transverse s) FLT_EPSILON then Throws
  else if Rlt_dec (sd_lateral s) FLT_EPSILON then Throws
  else if Rlt_dec (sd_lpp s) FLT_EPSILON then Throws else Ok s.
Definition wind_init (s : standard) : res standard := std_checks s.
(** FrCurrentStandardForce.cpp 59-68 *)
Definition current_init (s : standard) : res standard :=
  let s := if Rlt_dec (sd_transverse s) FLT_EPSILON then
             if Rlt_dec FLT_EPSILON (sd_draft s) then
               if Rlt_dec FLT_EPSILON (sd_breadth s) then Std (sd_lateral s) (sd_draft s * sd_breadth s) (sd_lpp s) (sd_xc s) (sd_breadth s) (sd_draft s)
               else s else s else s in
  std_checks s.
(** The relative velocity as seen in lines 64-72 of FrWindStandardForce.cpp and 81-89 of FrCurrentStandardForce.cpp *)
Definition std_flux (w : flow) (b : body) : vec :=
  let v := GetLinearVelocityInWorld b NWU in
  let v := V (vx v) (vy v) 0 in
  vneg (SwapFrameConvention (GetRelativeVelocityInFrame w (GetFrameAtCOG b NWU) v NWU)).
(** Lever arms: FrWindStandardForce.cpp 83-84, FrCurrentStandardForce.cpp 100-102 *)
Definition folded (alpha : R) : R := if Rlt_dec PI alpha then 2 * PI - alpha else alpha.
Definition wind_lever (alpha : R) : R := 3 / 10 * (1 - 2 * folded alpha / PI).
Definition current_lever (alpha : R) : R := Rmax (Rmin (4 / 10 * (1 - 2 * folded alpha / PI)) (1 / 4)) (- (2 / 10)).
(** Compute: FrWindStandardForce.cpp 52-99 (cx = 0.7, cy = 0.9), FrCurrentStandardForce.cpp 70-117 (0.07, 0.6);
    reading m_xCenter before it is set has no value *)
Definition std_compute (cx cy : R) (lever : R -> R) (w : flow) (rho : R) (b : body) (sd : standard) (s : force) : res force :=
  let v := std_flux w b in
  let alpha := projected_angle v in
  let ak := 1 / 2 * rho * vdot v v in
  let fx := - cx * ak * sd_transverse sd * cos alpha in
  let fy := cy * ak * sd_lateral sd * sin alpha in
  let mz := fy * lever alpha * sd_lpp sd in
  let f := ProjectVectorFrameInParent (yaw_frame b) (V fx fy 0) NWU in
  let t := ProjectVectorFrameInParent (yaw_frame b) (V 0 0 mz) NWU in
  match sd_xc sd with
  | Some xc => Ok (SetForceTorqueInWorldAtPointInBody b s f t (V xc 0 0) NWU)
  | None => Undef
  end.
Definition wind_compute (e : envt) (b : body) (sd : standard) (s : force) : res force :=
  std_compute (7 / 10) (9 / 10) wind_lever (e_wind e) (e_rho_air e) b sd s.
Definition current_compute (e : envt) (b : body) (sd : standard) (s : force) : res force :=
  std_compute (7 / 100) (6 / 10) current_lever (e_current e) (e_rho_water e) b sd s.

(** ** FrFlowForce: polar tables.  [row] is an angle with (cx, cy, cn) *)
Definition row : Type := R * vec.
Record polar_file := PF { pf_rows : list row; pf_unit : aunit; pf_fc : conv; pf_dc : dconv; pf_front : R; pf_lat : R; pf_len : R }.
Definition mirror_coef (c : vec) : vec := V (vx c) (- vy c) (- vz c).
(** The loops 58-62 and 64-68: rows size-2 down to 1, appended; [f] gives the new angle.  On a single row
    size() - 2 wraps around and the read is out of range *)
Definition complete (f : R -> R) (l : list row) : res (list row) :=
  if Nat.leb (List.length l) 1 then Undef
  else Ok (l ++ map (fun r => (f (fst r), mirror_coef (snd r))) (rev (removelast (tl l)))).
Definition near (a b : R) : bool := if Rlt_dec (Rabs (a - b)) (1 / 10) then true else false.
(** std::sort by angle *)
Fixpoint insert_row (r : row) (l : list row) : list row :=
  match l with [] => [r] | r' :: t => if Rlt_dec (fst r') (fst r) then r' :: insert_row r t else r :: l end.
Definition sort_rows (l : list row) : list row := fold_right insert_row [] l.
(** ReadTable 36-116 *)
Definition last_angle (l : list row) : R := fst (last l (0, vzero)).
Definition ReadTable (p : polar_file) : res (list row) :=
  let l := match pf_unit p with DEG => map (fun r => (fst r * DEG2RAD, snd r)) (pf_rows p) | RAD => pf_rows p end in
  match l with
  | [] => Undef
  | (min_angle, _) :: _ =>
    let max_angle := last_angle l in
    l <<- (if (near min_angle 0 && near max_angle PI)%bool then complete (fun a => 2 * PI - a) l
           else if (near min_angle (- PI) && near max_angle 0)%bool then complete (fun a => - a) l
           else Ok l);
    let l := if ((near min_angle 0 && near (last_angle l) (2 * PI)) || (near min_angle (- PI) && near (last_angle l) PI))%bool then removelast l else l in
    let l := match pf_fc p with NED => map (fun r => (- fst r, mirror_coef (snd r))) l | NWU => l end in
    let l := match pf_dc p with COMEFROM => map (fun r => (fst r + PI, snd r)) l | GOTO => l end in
    let l := map (fun r => (Normalize_0_2PI (fst r), snd r)) l in
    let l := sort_rows l in
    match l with
    | [] => Undef
    | (_, c) :: _ => Ok (l ++ [(2 * PI, c)])
    end
  end.
(** LookupTable1D::Eval (contract): linear interpolation between the first angle not below x and the one before
    it; outside the range of the table it throws; between equal angles the quotient has no value *)
Definition lerp (x a b : R) (c d : vec) : vec := vadd c (vscale ((x - a) / (b - a)) (vsub d c)).
Fixpoint lookup_from (a : R) (c : vec) (l : list row) (x : R) : res vec :=
  match l with
  | [] => Throws
  | (b, d) :: t => if Rlt_dec b x then lookup_from b d t x else if Req_EM_T a b then Undef else Ok (lerp x a b c d)
  end.
Definition Lookup (l : list row) (x : R) : res vec :=
  match l with
  | [] => Throws
  | (a, c) :: t => if Rlt_dec x a then Throws else lookup_from a c t x
  end.
(** Compute 118-148; FrCurrentForce::Compute 150-162 and FrWindForce::Compute 173-186 give the relative velocity *)
Definition polar_compute (p : polar_file) (table : list row) (w : flow) (rho : R) (b : body) (s : force) : res force :=
  let v := GetRelativeVelocityInFrame w (GetFrameAtCOG b NWU) (GetCOGLinearVelocityInWorld b NWU) NWU in
  c <<- Lookup table (projected_angle v);
  let v2 := vdot v v in
  let fx := 1 / 2 * rho * vx c * pf_front p * v2 in
  let fy := 1 / 2 * rho * vy c * pf_lat p * v2 in
  let fz := 1 / 2 * rho * vz c * pf_lat p * pf_len p * v2 in
  Ok (SetForceTorqueInWorldAtCOG b s (ProjectVectorFrameInParent (yaw_frame b) (V fx fy 0) NWU)
        (ProjectVectorFrameInParent (yaw_frame b) (V 0 0 fz) NWU) NWU).
