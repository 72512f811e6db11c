(** Model of the environment container of FRyDoM: tide (environment/ocean/freeSurface/tidal/FrTidalModel.{h,cpp}), free
    surface (environment/ocean/freeSurface/FrFreeSurface.{h,cpp}), seabed (environment/ocean/seabed/FrSeabed.{h,cpp}),
    ocean (environment/ocean/FrOcean.cpp), atmosphere (environment/atmosphere/FrAtmosphere.cpp), FrEnvironment.cpp.
    Paths are relative to /repo/src/frydom; [double] is modelled by [R].
    Simplifications: the assert macros are active (a false one is [Fails]); [Fails] is also exit(EXIT_FAILURE).  A wave
    field is seen through its elevation only, a function of time and of the NWU coordinates (the wave fields are in
    WavModel.v and SeaModel.v); the time ramp is part of that function.  mathutils::LookupTable1D is not in the
    repository; contract: linear interpolation, exception outside the table.  Grid assets and log messages are not
    modelled.  Members left uninitialised by a constructor are parameters.  No proofs in this file. *)
From Coq Require Import Reals List.
From Verif Require Import GeoModel SeaModel FloModel.
Import ListNotations.
Open Scope R_scope.

(** ** FrUTCTime: m_hours, m_minutes, m_seconds (unsigned int); m_local_correction keeps its initial value 0 *)
Record utctime := UTC { u_h : nat; u_m : nat; u_s : nat }.
(** Check, FrTidalModel.cpp 22-27 *)
Definition Check (t : utctime) : res utctime :=
  if (Nat.ltb 0 (u_h t) && Nat.ltb (u_h t) 24 && (Nat.ltb 0 (u_m t) && Nat.leb (u_m t) 60) && (Nat.ltb 0 (u_s t) && Nat.leb (u_s t) 60))%bool
  then Ok t else Fails.
(** Constructors FrTidalModel.cpp 29-34 and 36-41, FrTidalModel.h 45 *)
Definition UTCTime3 (h m s : nat) : res utctime := Check (UTC h m s).
Definition UTCTime2 (h m : nat) : res utctime := Check (UTC h m 0).
Definition UTCTime0 : utctime := UTC 0 0 0.
(** GetHours 43-45, GetMinutes 47-49, GetSeconds 51-53 *)
Definition GetHours (t : utctime) : R := INR (u_h t) + INR (u_m t) / 60 + INR (u_s t) / 3600.
Definition GetMinutes (t : utctime) : R := INR (u_h t) * 60 + INR (u_m t) + INR (u_s t) / 60.
Definition GetSeconds (t : utctime) : R := INR (u_h t) * 3600 + INR (u_m t) * 60 + INR (u_s t).

(** ** FrTidal: m_time, m_mode, m_level1, m_t1, m_h1, m_t2, m_h2, tidalTable, m_tidalFrame (None: null pointer; the
    height of the frame otherwise) *)
Inductive level := LOW | HIGH.
Inductive tmode := NO_TIDAL | TWELFTH_RULE.
Record tidal := Tidal { td_time : R; td_mode : tmode; td_level1 : level; td_t1 : utctime; td_h1 : R; td_t2 : utctime; td_h2 : R;
                        td_table : list (R * R); td_frame : option R }.
(** BuildTwelfthRuleTable 64-99: SetX(timeVect) and AddY("tidal_height", hVect) *)
Definition twelfths : list R := [0; 1; 3; 6; 9; 11; 12].
Definition BuildTwelfthRuleTable (lev : level) (tm1 : utctime) (h1 : R) (tm2 : utctime) (h2 : R) : list (R * R) :=
  let h_twelfth := Rabs (h2 - h1) / 12 in
  let t1 := GetMinutes tm1 in
  let t2 := GetMinutes tm2 in
  let dt := (t2 - t1) / 6 in
  let timeVect := map (fun it => t1 + INR it * dt) (seq 0 7) in
  let op := match lev with LOW => 1 | HIGH => - 1 end in
  let hVect := map (fun n => h1 + op * n * h_twelfth) twelfths in
  combine timeVect hVect.
(** Constructor 101-103; m_level1 and m_h2 are not initialised *)
Definition Tidal1 (lev : level) (h2 : R) : tidal := Tidal 0 NO_TIDAL lev UTCTime0 0 UTCTime0 h2 [] (Some 0).
(** Constructor 105-123; m_tidalFrame is left null *)
Definition level_eqb (a b : level) : bool := match a, b with LOW, LOW | HIGH, HIGH => true | _, _ => false end.
Definition Tidal2 (t1 : utctime) (h1 : R) (level1 : level) (t2 : utctime) (h2 : R) (level2 : level) : res tidal :=
  if Rle_dec 0 h1 then if Rle_dec 0 h2 then
    if level_eqb level1 level2 then Fails
    else if Rlt_dec (GetSeconds t1) (GetSeconds t2)
         then Ok (Tidal 0 TWELFTH_RULE level1 t1 h1 t2 h2 (BuildTwelfthRuleTable level1 t1 h1 t2 h2) None)
         else Fails
  else Fails else Fails.
(** LookupTable1D::Eval (contract) *)
Fixpoint table_from (a c : R) (l : list (R * R)) (x : R) : res R :=
  match l with
  | [] => Throws
  | (b, d) :: t => if Rlt_dec b x then table_from b d t x else if Req_EM_T a b then Undef else Ok (c + (x - a) / (b - a) * (d - c))
  end.
Definition TableEval (l : list (R * R)) (x : R) : res R :=
  match l with [] => Throws | (a, c) :: t => if Rlt_dec x a then Throws else table_from a c t x end.
(** Update 125-137: the table is read at m_time, not at the argument; writing through the null frame is undefined *)
Definition tidal_update (td : tidal) (time : R) : res tidal :=
  waterHeight <<- (match td_mode td with NO_TIDAL => Ok (td_h1 td) | TWELFTH_RULE => TableEval (td_table td) (td_time td) end);
  match td_frame td with
  | None => Undef
  | Some _ => Ok (Tidal (td_time td) (td_mode td) (td_level1 td) (td_t1 td) (td_h1 td) (td_t2 td) (td_h2 td) (td_table td) (Some waterHeight))
  end.
(** GetHeight 139-143 *)
Definition GetHeight (td : tidal) (fc : conv) : res R :=
  match td_frame td with None => Undef | Some z => Ok (if IsNED fc then - z else z) end.
(** SetNoTidal 158 *)
Definition SetNoTidal (td : tidal) : tidal :=
  Tidal (td_time td) NO_TIDAL (td_level1 td) (td_t1 td) (td_h1 td) (td_t2 td) (td_h2 td) (td_table td) (td_frame td).

(** ** FrSeabed: FrNullSeabed, or FrMeanSeabed with m_bathymetry (m_showSeabed is always true, FrSeabed.h 147) *)
Inductive seabed := NullSeabed | MeanSeabed (m_bathymetry : R).
(** FrSeabed.h 150 *)
Definition new_mean_seabed : seabed := MeanSeabed (- 30).
(** FrSeabed.cpp 33, 46; 48-54 and 91-96; 56-70 and 98-110 (the two GetBathymetry give the same value) *)
Definition GetInfiniteDepth (s : seabed) : bool := match s with NullSeabed => true | MeanSeabed _ => false end.
Definition SetBathymetry (s : seabed) (bathymetry : R) (fc : conv) : res seabed :=
  match s with NullSeabed => Fails | MeanSeabed _ => Ok (MeanSeabed (if IsNED fc then - bathymetry else bathymetry)) end.
Definition GetBathymetry (s : seabed) (fc : conv) : res R :=
  match s with NullSeabed => Fails | MeanSeabed b => Ok (if IsNED fc then - b else b) end.

(** ** FrFluidProperties (FrFluidType.h 27-55) *)
Record fluidprop := FP { f_temp : R; f_dens : R; f_dyn : R; f_kin : R; f_sal : R; f_pres : R }.
Inductive prop := Temperature | Density | DynamicViscosity | KinematicViscosity | Salinity | Pressure.
(** The getters and setters of FrOcean.cpp 38-61 and FrAtmosphere.cpp 33-56 *)
Definition get_prop (p : fluidprop) (k : prop) : R :=
  match k with Temperature => f_temp p | Density => f_dens p | DynamicViscosity => f_dyn p | KinematicViscosity => f_kin p | Salinity => f_sal p | Pressure => f_pres p end.
Definition set_prop (p : fluidprop) (k : prop) (x : R) : fluidprop :=
  match k with
  | Temperature => FP x (f_dens p) (f_dyn p) (f_kin p) (f_sal p) (f_pres p)
  | Density => FP (f_temp p) x (f_dyn p) (f_kin p) (f_sal p) (f_pres p)
  | DynamicViscosity => FP (f_temp p) (f_dens p) x (f_kin p) (f_sal p) (f_pres p)
  | KinematicViscosity => FP (f_temp p) (f_dens p) (f_dyn p) x (f_sal p) (f_pres p)
  | Salinity => FP (f_temp p) (f_dens p) (f_dyn p) (f_kin p) x (f_pres p)
  | Pressure => FP (f_temp p) (f_dens p) (f_dyn p) (f_kin p) (f_sal p) x
  end.
(** FrOcean.cpp 31, FrAtmosphere.cpp 27 *)
Definition default_water : fluidprop := FP 10 1027 (1397 / 1000000) (13604 / 10000000000) 35 (12030 / 10000000).
Definition default_air : fluidprop := FP 20 (1204 / 1000) 0 0 0 0.

(** ** A wave field: its elevation (None: FrNullWaveField), c_time, m_infinite_depth, c_depth *)
Record waves := Waves { wv_eta : option (R -> R -> R -> R); wv_time : R; wv_inf : bool; wv_depth : R }.
(** FrEnvironment: water properties, seabed, m_showFreeSurface, tide, wave field, air properties, and the vertical
    component of the gravity vector of the Chrono system *)
Record env := Envt { n_water : fluidprop; n_seabed : seabed; n_show : bool; n_tide : tidal; n_waves : waves; n_air : fluidprop; n_gz : R }.
(** FrWaveField constructor FrWaveField.cpp 25-27 ([t0], [d0]: the uninitialised c_time and c_depth) *)
Definition make_waves (s : seabed) (eta : option (R -> R -> R -> R)) (t0 d0 : R) : waves := Waves eta t0 (GetInfiniteDepth s) d0.
(** SetGravityAcceleration / GetGravityAcceleration: core/FrOffshoreSystem.cpp 866-874 through FrEnvironment.cpp *)
Definition GetGravityAcceleration (e : env) : R := Rabs (n_gz e).
(** Constructors FrEnvironment.cpp 32-48, FrOcean.cpp 26-33, FrFreeSurface.cpp 24-31, FrAtmosphere.cpp 22-29 *)
Definition new_env (lev : level) (h2 t0 d0 : R) : env :=
  Envt default_water new_mean_seabed true (Tidal1 lev h2) (make_waves new_mean_seabed None t0 d0) default_air (- (981 / 100)).
(** FrOcean::GetDepth FrOcean.cpp 101-107 (the two functions give the same value): left operand first *)
Definition GetDepth (e : env) (fc : conv) : res R :=
  h <<- GetHeight (n_tide e) fc; b <<- GetBathymetry (n_seabed e) fc; Ok (h - b).
(** GetElevation of a wave field in a convention (convention contract of the wave fields; FrNullWaveField: FrWaveField.cpp 159-161) *)
Definition wave_elevation (w : waves) (x y : R) (fc : conv) : R :=
  match wv_eta w with
  | None => 0
  | Some eta => if IsNED fc then - eta (wv_time w) x (- y) else eta (wv_time w) x y
  end.
(** FrFreeSurface::GetElevation FrFreeSurface.cpp 43-45, GetPosition 55-57, 63-65 *)
Definition GetElevation (e : env) (x y : R) (fc : conv) : R := wave_elevation (n_waves e) x y fc.
Definition GetSurfacePosition (e : env) (x y : R) (fc : conv) : res R :=
  h <<- GetHeight (n_tide e) fc; Ok (h + wave_elevation (n_waves e) x y fc).
Definition MoveToSurface (e : env) (worldPos : vec) (fc : conv) : res vec :=
  z <<- GetSurfacePosition e (vx worldPos) (vy worldPos) fc; Ok (V (vx worldPos) (vy worldPos) z).
(** FrEnvironment::GetFluidTypeAtPointInWorld FrEnvironment.cpp 93-116 (FloModel.GetFluidType: 100-116) *)
Definition GetFluidTypeAtPointInWorld (e : env) (worldPos : vec) (fc : conv) (waveDeformation : bool) : fluid :=
  GetFluidType (if waveDeformation then GetElevation e (vx worldPos) (vy worldPos) fc else 0) worldPos fc.
(** FrEnvironment::GetFluidDensity 81-91 *)
Definition FluidDensity (e : env) (ft : fluid) : R := match ft with AIR => get_prop (n_air e) Density | WATER => get_prop (n_water e) Density end.
(** FrOcean.cpp 63-69, FrAtmosphere.cpp 58-64; Undef: a division by zero or the root of a negative number (infinity or NaN) *)
Definition quotient (a b : R) : res R := if Req_EM_T b 0 then Undef else Ok (a / b).
Definition Reynolds (p : fluidprop) (characteristicLength velocity : R) : res R :=
  quotient (Rabs velocity * characteristicLength) (get_prop p KinematicViscosity).
Definition Froude (e : env) (characteristicLength velocity : R) : res R :=
  let a := GetGravityAcceleration e * characteristicLength in
  if Rlt_dec a 0 then Undef else quotient (Rabs velocity) (sqrt a).

(** ** The calls *)
Inductive eop :=
  OUpdate (time : R) | OInitialize | OStepFinalize
| OShowFreeSurface (show : bool) | OShowSeabed (show : bool) | OSetInfiniteDepth | OSetBathymetry (b : R) (fc : conv)
| ONoWaves (t0 d0 : R) | OSetWaves (eta : R -> R -> R -> R) (t0 d0 : R)
| OSetWater (k : prop) (x : R) | OSetAir (k : prop) (x : R) | OSetGravity (g : R).
Definition set_tide (e : env) (t : tidal) : env := Envt (n_water e) (n_seabed e) (n_show e) t (n_waves e) (n_air e) (n_gz e).
Definition set_waves (e : env) (w : waves) : env := Envt (n_water e) (n_seabed e) (n_show e) (n_tide e) w (n_air e) (n_gz e).
Definition set_seabed (e : env) (s : seabed) : env := Envt (n_water e) s (n_show e) (n_tide e) (n_waves e) (n_air e) (n_gz e).
(** FrWaveField::Initialize FrWaveField.cpp 61-66 *)
Definition waves_init (e : env) : res env :=
  let inf := GetInfiniteDepth (n_seabed e) in
  d <<- (if inf then Ok (wv_depth (n_waves e)) else GetDepth e NWU);
  Ok (set_waves e (Waves (wv_eta (n_waves e)) (wv_time (n_waves e)) inf d)).
(** FrWaveField::Update FrWaveField.cpp 140-146 *)
Definition waves_update (e : env) (time : R) : res env :=
  d <<- (if wv_inf (n_waves e) then Ok (wv_depth (n_waves e)) else GetDepth e NWU);
  Ok (set_waves e (Waves (wv_eta (n_waves e)) time (wv_inf (n_waves e)) d)).
Definition env_step (e : env) (o : eop) : res env :=
  match o with
  (** FrEnvironment.cpp 140-144, FrOcean.cpp 77-83, FrFreeSurface.cpp 162-167 *)
  | OUpdate time => if n_show e then t <<- tidal_update (n_tide e) time; waves_update (set_tide e t) time else Ok e
  (** FrEnvironment.cpp 146-160, FrOcean.cpp 85-93, FrFreeSurface.cpp 146-160 *)
  | OInitialize => if n_show e then waves_init e else Ok e
  (** FrOcean.cpp 95-99, FrFreeSurface.cpp 181-185 *)
  | OStepFinalize => Ok e
  (** FrFreeSurface.cpp 169-179; the new null wave field has uninitialised c_time and c_depth, which nothing reads before an update *)
  | OShowFreeSurface show =>
      Ok (if show then Envt (n_water e) (n_seabed e) true (n_tide e) (n_waves e) (n_air e) (n_gz e)
          else Envt (n_water e) (n_seabed e) false (SetNoTidal (n_tide e)) (make_waves (n_seabed e) None 0 0) (n_air e) (n_gz e))
  (** FrOcean.cpp 109-116, 122 *)
  | OShowSeabed show => Ok (set_seabed e (if show then new_mean_seabed else NullSeabed))
  | OSetInfiniteDepth => Ok (set_seabed e NullSeabed)
  | OSetBathymetry b fc => s <<- SetBathymetry (n_seabed e) b fc; Ok (set_seabed e s)
  (** FrFreeSurface.cpp 74-76 and 78-144 *)
  | ONoWaves t0 d0 => Ok (set_waves e (make_waves (n_seabed e) None t0 d0))
  | OSetWaves eta t0 d0 => Ok (set_waves e (make_waves (n_seabed e) (Some eta) t0 d0))
  | OSetWater k x => Ok (Envt (set_prop (n_water e) k x) (n_seabed e) (n_show e) (n_tide e) (n_waves e) (n_air e) (n_gz e))
  | OSetAir k x => Ok (Envt (n_water e) (n_seabed e) (n_show e) (n_tide e) (n_waves e) (set_prop (n_air e) k x) (n_gz e))
  | OSetGravity g => Ok (Envt (n_water e) (n_seabed e) (n_show e) (n_tide e) (n_waves e) (n_air e) (- g))
  end.
Fixpoint env_run (e : env) (l : list eop) : res env :=
  match l with [] => Ok e | o :: t => e' <<- env_step e o; env_run e' t end.
