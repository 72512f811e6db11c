(** Model of the Airy wave fields and of the kinematic stretching
    (environment/ocean/freeSurface/waves: FrKinematicStretching.cpp, FrWaveField.cpp,
    airy/FrAiryRegularWaveField.cpp, airy/FrAiryRegularOptimWaveField.cpp, and the queries of
    airy/FrAiryIrregularWaveField.cpp).  Paths are relative to
    /repo/src/frydom/environment/ocean/freeSurface/waves.  double is modelled by the reals,
    std::complex by Coquelicot's C.  Access outside a vector is undefined behaviour: [None].
    mathutils (Normalize_0_2PI, Normalize_0_360, S2RADS) is not in the repository: the functions
    below are the contract used.  Logging is not modelled.  No proofs in this file. *)
From Coq Require Import Reals List.
From Coquelicot Require Import Coquelicot.
From Verif Require Import GeoModel DispModel.
Import ListNotations.
Open Scope R_scope.

(** DBL_EPSILON of <cfloat>: 2^-52 *)
Definition DBL_EPSILON : R := / 4503599627370496.
(** std::exp on complex numbers; JJ *)
Definition cexp (z : C) : C := (exp (Re z) * cos (Im z), exp (Re z) * sin (Im z)).
Definition JJ : C := Ci.

(** ** FrKinematicStretching.h 22-30 (enum), FrKinematicStretching.cpp *)
Inductive STRETCHING_TYPE := NO_STRETCHING | VERTICAL | EXTRAPOLATE | WHEELER | CHAKRABARTI | DELTA | HDELTA.
(** The classes and their parameters; Delta carries m_hd and m_delta, HDelta carries m_delta *)
Inductive stretching := SNone | SVertical | SExtrapol | SWheeler | SChakrabarti | SDelta (hd delta : R) | SHDelta (delta : R).
(** An object of one of these classes with c_infinite_depth *)
Record vfactor := VF { vf_kind : stretching; vf_inf : bool }.
(** Ez 72-78, diffEz 80-86 *)
Definition Ez (inf : bool) (z konde depth : R) : R :=
  if inf then exp (konde * z) else cosh (konde * (z + depth)) / sinh (konde * depth).
Definition diffEz (inf : bool) (z konde depth : R) : R :=
  if inf then konde * exp (konde * z) else konde * sinh (konde * (z + depth)) / sinh (konde * depth).
(** The virtual three-argument Eval / EvalDZ: base 26-28 and 49-51, Vertical 92-106, Extrapol 112-126,
    Wheeler 163-171; Chakrabarti, Delta and HDelta do not override them *)
Definition Eval3 (vf : vfactor) (z konde depth : R) : R :=
  match vf_kind vf with
  | SVertical => if Rlt_dec z DBL_EPSILON then Ez (vf_inf vf) z konde depth else Ez (vf_inf vf) 0 konde depth
  | SExtrapol => if Rlt_dec z DBL_EPSILON then Ez (vf_inf vf) z konde depth else Ez (vf_inf vf) 0 konde depth + konde * z
  | SWheeler => 1
  | _ => Ez (vf_inf vf) z konde depth
  end.
Definition EvalDZ3 (vf : vfactor) (z konde depth : R) : R :=
  match vf_kind vf with
  | SVertical => if Rlt_dec z DBL_EPSILON then diffEz (vf_inf vf) z konde depth else diffEz (vf_inf vf) 0 konde depth
  | SExtrapol => if Rlt_dec z DBL_EPSILON then diffEz (vf_inf vf) z konde depth else diffEz (vf_inf vf) 0 konde depth + konde
  | SWheeler => 1
  | _ => diffEz (vf_inf vf) z konde depth
  end.
(** FrKinStretchingDelta::Zp 231-242, DZp 244-254 *)
Definition Zp_delta (hd delta eta z : R) : R := if Rlt_dec (- hd) z then (z + hd) * (hd + delta * eta) / (hd + eta) - hd else z.
Definition DZp_delta (hd delta eta z : R) : R := if Rlt_dec (- hd) z then (hd + delta * eta) / (hd + eta) else 1.
(** FrKinStretchingHDelta::Zp 300-305, DZp 307-312 *)
Definition Zp_hdelta (delta eta z depth : R) : R := (z + depth) * (depth + delta * eta) / (depth + eta) - depth.
Definition DZp_hdelta (delta eta depth : R) : R := (depth + delta * eta) / (depth + eta).
(** The virtual five-argument Eval, used by the wave fields.  Base 30-33 (returns Ez, and is not
    overridden by Vertical and Extrapol), Wheeler 132-141, Chakrabarti 176-184, Delta 206-216,
    HDelta 273-283.  [eta] is m_waveField->GetElevation(x, y, NWU). *)
Definition Eval5 (vf : vfactor) (eta : R -> R -> R) (x y z konde depth : R) : R :=
  match vf_kind vf with
  | SWheeler =>
      let rz := (depth + z) / (depth + eta x y) in
      Ez (vf_inf vf) (depth * (rz - 1)) konde depth
  | SChakrabarti => if vf_inf vf then exp (konde * z) else cosh (konde * (z + depth)) / sinh (konde * (depth + eta x y))
  | SDelta hd delta =>
      let zp := Zp_delta hd delta (eta x y) z in
      if Rlt_dec zp DBL_EPSILON then Ez (vf_inf vf) zp konde depth else Ez (vf_inf vf) 0 konde depth + konde * zp
  | SHDelta delta =>
      let zp := Zp_hdelta delta (eta x y) z depth in
      if Rlt_dec zp DBL_EPSILON then Ez (vf_inf vf) zp konde depth else Ez (vf_inf vf) 0 konde depth + konde * zp
  | _ => Ez (vf_inf vf) z konde depth
  end.
(** The virtual five-argument EvalDZ.  Base 53-56 (calls the virtual three-argument one),
    Wheeler 144-154, Chakrabarti 186-197, Delta 218-229, HDelta 285-297 *)
Definition EvalDZ5 (vf : vfactor) (eta : R -> R -> R) (x y z konde depth : R) : R :=
  match vf_kind vf with
  | SWheeler =>
      let rz := (depth + z) / (depth + eta x y) in
      diffEz (vf_inf vf) (depth * (rz - 1)) konde depth * (depth / (depth + eta x y))
  | SChakrabarti => if vf_inf vf then konde * exp (konde * z) else konde * sinh (konde * (z + depth)) / sinh (konde * (depth + eta x y))
  | SDelta hd delta =>
      let zp := Zp_delta hd delta (eta x y) z in
      let drz := DZp_delta hd delta (eta x y) z in
      if Rlt_dec zp DBL_EPSILON then diffEz (vf_inf vf) zp konde depth * drz else diffEz (vf_inf vf) 0 konde depth * drz + konde
  | SHDelta delta =>
      let zp := Zp_hdelta delta (eta x y) z depth in
      let drz := DZp_hdelta delta (eta x y) depth in
      if Rlt_dec zp DBL_EPSILON then diffEz (vf_inf vf) zp konde depth * drz else diffEz (vf_inf vf) 0 konde depth * drz + konde
  | _ => EvalDZ3 vf z konde depth
  end.
(** Constructors: Delta 256-259 (delta 0.3, hd 0), HDelta (header: delta 0.3) *)
Definition new_delta : stretching := SDelta 0 (3 / 10).
Definition new_hdelta : stretching := SHDelta (3 / 10).
(** FrAiryRegularWaveField::SetStretching 95-118: the cases CHAKRABARTI and DELTA fall through to the default *)
Definition RStretching (t : STRETCHING_TYPE) : stretching :=
  match t with
  | NO_STRETCHING => SNone | VERTICAL => SVertical | EXTRAPOLATE => SExtrapol | WHEELER => SWheeler
  | CHAKRABARTI => SNone | DELTA => SNone | HDELTA => SNone
  end.
(** FrAiryIrregularWaveField::SetStretching 182-219 *)
Definition IStretching (t : STRETCHING_TYPE) : stretching :=
  match t with
  | NO_STRETCHING => SNone | VERTICAL => SVertical | EXTRAPOLATE => SExtrapol | WHEELER => SWheeler
  | CHAKRABARTI => SChakrabarti | DELTA => new_delta | HDELTA => new_hdelta
  end.

(** ** The surroundings of a wave field at a call: GetSeabed()->GetInfiniteDepth(), GetOcean()->GetDepth(NWU)
    (read only if the depth is finite), GetDensity(), GetGravityAcceleration(), GetTimeRamp() ([None]: not active) *)
Record sea := Sea { s_inf : bool; s_depth : R; s_dens : R; s_grav : R; s_ramp : option (R -> R) }.
(** The members of FrWaveField (FrWaveField.h): c_ramp, c_time, c_depth, m_infinite_depth, c_density, c_gravity *)
Record wbase := WB { b_ramp : R; b_time : R; b_depth : R; b_inf : bool; b_dens : R; b_grav : R }.
(** Constructor FrWaveField.cpp 24-26; c_time, c_depth, c_density and c_gravity keep the garbage of [junk] *)
Definition base_make (s : sea) (junk : wbase) : wbase := WB 1 (b_time junk) (b_depth junk) (s_inf s) (b_dens junk) (b_grav junk).
(** FrWaveField::Initialize 60-65 *)
Definition base_init (s : sea) (b : wbase) : wbase :=
  WB (b_ramp b) (b_time b) (if s_inf s then b_depth b else s_depth s) (s_inf s) (s_dens s) (s_grav s).
(** FrWaveField::Update 140-146 *)
Definition base_update (s : sea) (b : wbase) (time : R) : wbase :=
  WB (match s_ramp s with Some r => r time | None => b_ramp b end) time
     (if b_inf b then b_depth b else s_depth s) (b_inf b) (b_dens b) (b_grav b).

(** ** airy/FrAiryRegularWaveField.cpp: m_height, m_period, m_omega, m_k, m_dirAngle, m_verticalFactor *)
Record rwf := RW { rw_height : R; rw_period : R; rw_omega : R; rw_k : R; rw_dir : R; rw_vf : vfactor; rw_b : wbase }.
(** Constructor 25-29 *)
Definition R_make (s : sea) (junk : wbase) : rwf :=
  let b := base_make s junk in RW 0 0 0 0 0 (VF SNone (b_inf b)) b.
(** SetWaveHeight 31 *)
Definition SetWaveHeight (w : rwf) (height : R) : rwf := RW height (rw_period w) (rw_omega w) (rw_k w) (rw_dir w) (rw_vf w) (rw_b w).
(** SetWavePeriod 35-54.  mathutils::S2RADS(T) = 2 pi / T.  [None]: the dispersion solver is still running. *)
Definition SetWavePeriod (fuel : nat) (s : sea) (w : rwf) (period : R) : option rwf :=
  let omega := 2 * PI / period in
  let b := rw_b w in
  let put k inf := Some (RW (rw_height w) period omega k (rw_dir w) (VF (vf_kind (rw_vf w)) inf)
                            (WB (b_ramp b) (b_time b) (b_depth b) inf (b_dens b) (b_grav b))) in
  if b_inf b then put (omega * omega / s_grav s) true
  else
    match SolveWaveDispersionRelation fuel (s_depth s) omega (s_grav s) with
    | Some k => put k (if Rlt_dec (3 / k) (s_depth s) then true else false)
    | None => None
    end.
(** Angles *)
Inductive aunit := RAD | DEG.
Inductive dconv := GOTO | COMEFROM.
Definition DEG2RAD : R := PI / 180.
Definition RAD2DEG : R := 180 / PI.
(** Contract of mathutils::Normalize_0_2PI and Normalize_0_360 *)
Definition Normalize_0_2PI (a : R) : R := a - 2 * PI * IZR (Int_part (a / (2 * PI))).
Definition Normalize_0_360 (a : R) : R := a - 360 * IZR (Int_part (a / 360)).
(** SetDirection(angle, unit, fc, dc) 60-70.  Whether the call on line 68, whose value is discarded, acts
    on its argument depends on the signature in mathutils: [inplace]. *)
Definition wave_angle (inplace : bool) (dirAngle : R) (unit : aunit) (fc : conv) (dc : dconv) : R :=
  let a := match unit with DEG => dirAngle * DEG2RAD | RAD => dirAngle end in
  let a := match fc with NED => - a | NWU => a end in
  let a := match dc with COMEFROM => a - PI | GOTO => a end in
  if inplace then Normalize_0_2PI a else a.
Definition SetDirection (inplace : bool) (w : rwf) (dirAngle : R) (unit : aunit) (fc : conv) (dc : dconv) : rwf :=
  RW (rw_height w) (rw_period w) (rw_omega w) (rw_k w) (wave_angle inplace dirAngle unit fc dc) (rw_vf w) (rw_b w).
(** SetDirection(direction, fc, dc) 72-76; the assertion on the vertical component is a hypothesis of its users *)
Definition SetDirectionVec (inplace : bool) (w : rwf) (direction : vec) (fc : conv) (dc : dconv) : rwf :=
  SetDirection inplace w (atan2 (vy direction) (vx direction)) RAD fc dc.
(** GetDirectionAngle 78-86 (and FrAiryIrregularWaveField::GetMeanWaveDirectionAngle 446-454 on m_meanDir) *)
Definition angle_get (m_dirAngle : R) (unit : aunit) (fc : conv) (dc : dconv) : R :=
  let a := match fc with NED => - m_dirAngle | NWU => m_dirAngle end in
  let a := match dc with COMEFROM => a - PI | GOTO => a end in
  let a := match unit with DEG => a * RAD2DEG | RAD => a end in
  Normalize_0_360 a.
Definition GetDirectionAngle (w : rwf) (unit : aunit) (fc : conv) (dc : dconv) : R := angle_get (rw_dir w) unit fc dc.
(** GetDirection 88-91 *)
Definition GetDirection (w : rwf) (fc : conv) (dc : dconv) : vec :=
  let a := GetDirectionAngle w RAD fc dc in V (cos a) (sin a) 0.
(** GetWaveDirections 203-214 *)
Definition GetWaveDirections (inplace : bool) (w : rwf) (unit : aunit) (fc : conv) (dc : dconv) : R :=
  let a := match fc with NED => - rw_dir w | NWU => rw_dir w end in
  let a := match dc with COMEFROM => a + PI | GOTO => a end in
  let a := if inplace then Normalize_0_2PI a else a in
  match unit with DEG => a * (180 / PI) | RAD => a end.
(** GetWaveLength 93 *)
Definition GetWaveLength (w : rwf) : R := 2 * PI / rw_k w.
(** SetStretching 95-118 *)
Definition RSetStretching (w : rwf) (t : STRETCHING_TYPE) : rwf :=
  RW (rw_height w) (rw_period w) (rw_omega w) (rw_k w) (rw_dir w) (VF (RStretching t) (b_inf (rw_b w))) (rw_b w).
(** Initialize and Update of FrWaveField; the regular field does not override them *)
Definition R_init (s : sea) (w : rwf) : rwf := RW (rw_height w) (rw_period w) (rw_omega w) (rw_k w) (rw_dir w) (rw_vf w) (base_init s (rw_b w)).
Definition R_update (s : sea) (w : rwf) (t : R) : rwf := RW (rw_height w) (rw_period w) (rw_omega w) (rw_k w) (rw_dir w) (rw_vf w) (base_update s (rw_b w) t).

Definition NWUsign (fc : conv) : R := match fc with NED => - 1 | NWU => 1 end.
Definition flip_in (fc : conv) (a : R) : R := match fc with NED => - a | NWU => a end.
(** GetComplexElevation 122-132 (the only element of the table) *)
Definition RComplexElevation (w : rwf) (x y : R) (fc : conv) : C :=
  let y := flip_in fc y in
  let kdir := x * cos (rw_dir w) + y * sin (rw_dir w) in
  (RtoC (rw_height w) * cexp (JJ * RtoC (rw_k w * kdir - rw_omega w * b_time (rw_b w))) * RtoC (NWUsign fc) * RtoC (b_ramp (rw_b w)))%C.
(** Vector of complex numbers *)
Record cvec := CV { cvx : C; cvy : C; cvz : C }.
(** GetComplexVelocity 134-151.  The virtual GetComplexElevation is [cel]; cth and sth are cos and sin of
    the direction; GetElevation(x, y, NWU) used by the stretching is the imaginary part of [cel]. *)
Definition complex_velocity (w : rwf) (cth sth : R) (cel : R -> R -> conv -> C) (x y z : R) (fc : conv) : cvec :=
  let y := flip_in fc y in
  let z := flip_in fc z in
  let e := cel x y fc in
  let eta := fun x y => Im (cel x y NWU) in
  let Vtemp := (RtoC (rw_omega w) * e * RtoC (Eval5 (rw_vf w) eta x y z (rw_k w) (b_depth (rw_b w))))%C in
  CV (RtoC cth * Vtemp * RtoC (NWUsign fc))%C
     (RtoC sth * Vtemp)%C
     (- JJ * RtoC (rw_omega w) / RtoC (rw_k w) * e * RtoC (EvalDZ5 (rw_vf w) eta x y z (rw_k w) (b_depth (rw_b w))))%C.
Definition RComplexVelocity (w : rwf) : R -> R -> R -> conv -> cvec :=
  complex_velocity w (cos (rw_dir w)) (sin (rw_dir w)) (RComplexElevation w).
Definition cvec_im (v : cvec) : vec := V (Im (cvx v)) (Im (cvy v)) (Im (cvz v)).
Definition cvec_scal (c : C) (v : cvec) : cvec := CV (c * cvx v)%C (c * cvy v)%C (c * cvz v)%C.
(** GetElevation 153-155 *)
Definition RGetElevation (w : rwf) (x y : R) (fc : conv) : R := Im (RComplexElevation w x y fc).
(** GetVelocity 157-160 *)
Definition RGetVelocity (w : rwf) (x y z : R) (fc : conv) : vec := cvec_im (RComplexVelocity w x y z fc).
(** GetAcceleration 162-167 *)
Definition RGetAcceleration (w : rwf) (x y z : R) (fc : conv) : vec :=
  cvec_im (cvec_scal (- JJ * RtoC (rw_omega w))%C (RComplexVelocity w x y z fc)).
(** GetPressure 171-187, for the virtual GetComplexElevation [cel] *)
Definition pressure (w : rwf) (cel : R -> R -> conv -> C) (x y z : R) (fc : conv) : R :=
  let b := rw_b w in
  let Eta := Im (cel x y fc) in
  let eta := fun x y => Im (cel x y NWU) in
  let E := Eval5 (rw_vf w) eta x y z (rw_k w) (b_depth b) in
  if b_inf b then b_dens b * b_grav b * Eta * E
  else b_dens b * b_grav b * Eta * E * tanh (rw_k w * b_depth b).
Definition RGetPressure (w : rwf) : R -> R -> R -> conv -> R := pressure w (RComplexElevation w).
(** FrWaveField::GetVelocity(x, y, z, cutoff, fc) 31-40 and GetAcceleration 46-55, for the virtual queries *)
Definition cutoff_query (elevation : R -> R -> conv -> R) (q : R -> R -> R -> conv -> vec) (x y z : R) (cutoff : bool) (fc : conv) : vec :=
  if cutoff then (if Rlt_dec (elevation x y fc) z then V 0 0 0 else q x y z fc) else q x y z fc.

(** ** airy/FrAiryRegularOptimWaveField.cpp: c_expJwt, c_cosTheta, c_sinTheta (not initialised before Initialize) *)
Record rwo := RO { ro_w : rwf; ro_exp : C; ro_cos : R; ro_sin : R }.
(** InternalUpdate 18-22 *)
Definition InternalUpdate (o : rwo) : rwo :=
  let w := ro_w o in
  RO w (RtoC (rw_height w) * cexp (- JJ * RtoC (rw_omega w) * RtoC (b_time (rw_b w))))%C (cos (rw_dir w)) (sin (rw_dir w)).
(** Initialize 24-30, StepFinalize 32-35; Update is that of FrWaveField *)
Definition RO_init (s : sea) (o : rwo) : rwo := InternalUpdate (RO (R_init s (ro_w o)) (ro_exp o) (ro_cos o) (ro_sin o)).
Definition RO_finalize (o : rwo) : rwo := InternalUpdate o.
(** GetComplexElevation 37-48 *)
Definition ROComplexElevation (o : rwo) (x y : R) (fc : conv) : C :=
  let w := ro_w o in
  let y := flip_in fc y in
  let kdir := x * ro_cos o + y * ro_sin o in
  (ro_exp o * cexp (JJ * RtoC (rw_k w) * RtoC kdir) * RtoC (NWUsign fc) * RtoC (b_ramp (rw_b w)))%C.
(** GetComplexVelocity 50-68 *)
Definition ROComplexVelocity (o : rwo) : R -> R -> R -> conv -> cvec :=
  complex_velocity (ro_w o) (ro_cos o) (ro_sin o) (ROComplexElevation o).
(** The inherited queries *)
Definition ROGetElevation (o : rwo) (x y : R) (fc : conv) : R := Im (ROComplexElevation o x y fc).
Definition ROGetVelocity (o : rwo) (x y z : R) (fc : conv) : vec := cvec_im (ROComplexVelocity o x y z fc).
Definition ROGetAcceleration (o : rwo) (x y z : R) (fc : conv) : vec :=
  cvec_im (cvec_scal (- JJ * RtoC (rw_omega (ro_w o)))%C (ROComplexVelocity o x y z fc)).
Definition ROGetPressure (o : rwo) : R -> R -> R -> conv -> R := pressure (ro_w o) (ROComplexElevation o).

(** Calls on a regular wave field, with the surroundings at the call *)
Inductive rop :=
| OpHeight (h : R) | OpPeriod (T : R) | OpDirection (a : R) (u : aunit) (fc : conv) (dc : dconv) | OpStretching (t : STRETCHING_TYPE)
| OpInitialize | OpUpdate (t : R) | OpStepFinalize.
Definition r_op (fuel : nat) (inplace : bool) (w : rwf) (c : sea * rop) : option rwf :=
  let '(s, o) := c in
  match o with
  | OpHeight h => Some (SetWaveHeight w h)
  | OpPeriod T => SetWavePeriod fuel s w T
  | OpDirection a u fc dc => Some (SetDirection inplace w a u fc dc)
  | OpStretching t => Some (RSetStretching w t)
  | OpInitialize => Some (R_init s w)
  | OpUpdate t => Some (R_update s w t)
  | OpStepFinalize => Some w
  end.
Definition ro_op (fuel : nat) (inplace : bool) (o : rwo) (c : sea * rop) : option rwo :=
  match snd c with
  | OpInitialize => Some (RO_init (fst c) o)
  | OpStepFinalize => Some (RO_finalize o)
  | _ => match r_op fuel inplace (ro_w o) c with Some w => Some (RO w (ro_exp o) (ro_cos o) (ro_sin o)) | None => None end
  end.
Fixpoint runs {A B : Type} (f : A -> B -> option A) (a : A) (l : list B) : option A :=
  match l with [] => Some a | b :: r => match f a b with Some a' => runs f a' r | None => None end end.

(** ** airy/FrAiryIrregularWaveField.cpp, the queries.  Members m_nbDir, m_nbFreq, m_waveDirections,
    m_waveFrequencies, m_waveNumbers, c_amplitude, m_wavePhases, m_verticalFactor *)
Record iwq := IQ { iq_nbDir : nat; iq_nbFreq : nat; iq_dirs : list R; iq_freqs : list R; iq_ks : list R;
                   iq_amp : list (list R); iq_phases : list (list R); iq_vf : vfactor; iq_b : wbase }.
Definition bind {A B : Type} (a : option A) (f : A -> option B) : option B := match a with Some x => f x | None => None end.
Notation "x <- a ; b" := (bind a (fun x => b)) (at level 100, a at next level, right associativity).
(** v[i], v[i][j] *)
Definition at1 {A : Type} (l : list A) (i : nat) : option A := nth_error l i.
Definition at2 {A : Type} (l : list (list A)) (i j : nat) : option A := r <- at1 l i; at1 r j.
(** for (i = 0; i < n; ++i) v.push_back(f(i)) *)
Fixpoint collect {A : Type} (f : nat -> option A) (i n : nat) : option (list A) :=
  match n with O => Some [] | S m => a <- f i; r <- collect f (S i) m; Some (a :: r) end.
(** for (i = 0; i < n; ++i) acc = f(acc, i) *)
Fixpoint loop {A : Type} (f : A -> nat -> option A) (acc : A) (i n : nat) : option A :=
  match n with O => Some acc | S m => a <- f acc i; loop f a (S i) m end.
(** GetComplexElevation 318-365 *)
Definition IComplexElevation (w : iwq) (x y : R) (fc : conv) : option (list (list C)) :=
  let y := flip_in fc y in
  collect (fun idir =>
    dir <- at1 (iq_dirs w) idir;
    let kdir := x * cos dir + y * sin dir in
    amplitudeTemp <- at1 (iq_amp w) idir;
    collect (fun ifreq =>
      ki <- at1 (iq_ks w) ifreq;
      aik <- at1 amplitudeTemp ifreq;
      phi <- at2 (iq_phases w) idir ifreq;
      wi <- at1 (iq_freqs w) ifreq;
      Some (RtoC aik * cexp (JJ * RtoC (ki * kdir - wi * b_time (iq_b w) + phi)) * RtoC (NWUsign fc) * RtoC (b_ramp (iq_b w)))%C)
      0 (iq_nbFreq w))
    0 (iq_nbDir w).
(** GetElevation 404-414 on the table of complex elevations *)
Definition sum_elevation (w : iwq) (t : list (list C)) : option R :=
  loop (fun acc idir => loop (fun acc ifreq => e <- at2 t idir ifreq; Some (acc + Im e)) acc 0 (iq_nbFreq w)) 0 0 (iq_nbDir w).
Definition IGetElevation (w : iwq) (x y : R) (fc : conv) : option R := t <- IComplexElevation w x y fc; sum_elevation w t.
(** GetComplexVelocity 367-402.  The stretching that needs the elevation asks GetElevation(x, y, NWU); [eta] is its
    value (total function: the elevation is defined whenever the table of line 386 is) *)
Definition I_eta (w : iwq) (x y : R) : R := match IGetElevation w x y NWU with Some e => e | None => 0 end.
Definition IComplexVelocity (w : iwq) (x y z : R) (fc : conv) : option (list cvec) :=
  let y := flip_in fc y in
  let z := flip_in fc z in
  t <- IComplexElevation w x y fc;
  collect (fun ifreq =>
    ki <- at1 (iq_ks w) ifreq;
    wi <- at1 (iq_freqs w) ifreq;
    let St := Eval5 (iq_vf w) (I_eta w) x y z ki (b_depth (iq_b w)) in
    let StDZ := EvalDZ5 (iq_vf w) (I_eta w) x y z ki (b_depth (iq_b w)) in
    loop (fun acc idir =>
      thetaj <- at1 (iq_dirs w) idir;
      e <- at2 t idir ifreq;
      Some (CV (cvx acc + RtoC (cos thetaj) * RtoC wi * e * RtoC St * RtoC (NWUsign fc))%C
               (cvy acc + RtoC (sin thetaj) * RtoC wi * e * RtoC St)%C
               (cvz acc + - JJ / RtoC ki * RtoC wi * e * RtoC StDZ)%C))
      (CV 0 0 0) 0 (iq_nbDir w))
    0 (iq_nbFreq w).
(** GetVelocity 416-425 *)
Definition vec_add (a b : vec) : vec := V (vx a + vx b) (vy a + vy b) (vz a + vz b).
Definition IGetVelocity (w : iwq) (x y z : R) (fc : conv) : option vec :=
  cv <- IComplexVelocity w x y z fc;
  loop (fun acc ifreq => v <- at1 cv ifreq; Some (vec_add acc (cvec_im v))) (V 0 0 0) 0 (iq_nbFreq w).
(** GetAcceleration 428-439 *)
Definition IGetAcceleration (w : iwq) (x y z : R) (fc : conv) : option vec :=
  cv <- IComplexVelocity w x y z fc;
  loop (fun acc ifreq =>
    wi <- at1 (iq_freqs w) ifreq;
    v <- at1 cv ifreq;
    Some (vec_add acc (cvec_im (cvec_scal (- JJ * RtoC wi)%C v)))) (V 0 0 0) 0 (iq_nbFreq w).
(** GetPressure 460-501 *)
Definition IGetPressure (w : iwq) (x y z : R) (fc : conv) : option R :=
  let b := iq_b w in
  let y := flip_in fc y in
  P <- loop (fun acc ifreq =>
    ki <- at1 (iq_ks w) ifreq;
    let th := if b_inf b then 1 else tanh (ki * b_depth b) in
    let E := Eval5 (iq_vf w) (I_eta w) x y z ki (b_depth b) in
    loop (fun acc idir =>
      dir <- at1 (iq_dirs w) idir;
      let kdir := x * cos dir + y * sin dir in
      aik <- at2 (iq_amp w) idir ifreq;
      phi <- at2 (iq_phases w) idir ifreq;
      wi <- at1 (iq_freqs w) ifreq;
      Some (acc + E * th * Im (RtoC aik * cexp (JJ * RtoC (ki * kdir - wi * b_time b + phi)) * RtoC (NWUsign fc) * RtoC (b_ramp b))%C))
      acc 0 (iq_nbDir w)) 0 0 (iq_nbFreq w);
  Some (P * b_dens b * b_grav b).
(** Update of FrWaveField on it *)
Definition I_update (s : sea) (w : iwq) (t : R) : iwq :=
  IQ (iq_nbDir w) (iq_nbFreq w) (iq_dirs w) (iq_freqs w) (iq_ks w) (iq_amp w) (iq_phases w) (iq_vf w) (base_update s (iq_b w) t).
(** SetStretching 183-220 *)
Definition ISetStretching (w : iwq) (t : STRETCHING_TYPE) : iwq :=
  IQ (iq_nbDir w) (iq_nbFreq w) (iq_dirs w) (iq_freqs w) (iq_ks w) (iq_amp w) (iq_phases w) (VF (IStretching t) (b_inf (iq_b w))) (iq_b w).
(** FrNullWaveField: every query answers zero (FrWaveField.cpp 153-197) *)
Definition NullGetElevation (x y : R) (fc : conv) : R := 0.
Definition NullGetVelocity (x y z : R) (fc : conv) : vec := V 0 0 0.
Definition NullGetAcceleration (x y z : R) (fc : conv) : vec := V 0 0 0.
Definition NullGetPressure (x y z : R) (fc : conv) : R := 0.
