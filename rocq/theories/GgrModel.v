(** Model of environment/geographicServices/FrGeographicServices.{h,cpp}.  Paths are relative to /repo/src/frydom;
    [double] is modelled by [R].  GeographicLib is not in the repository; contracts written out below from its
    documentation: Geocentric (WGS84) and LocalCartesian in closed form; LocalCartesian::Reverse and MagneticModel are
    parameters; angles in degrees.  [Undef]: a latitude out of [-90, 90], for which GeographicLib answers NaN.
    No proofs in this file. *)
From Coq Require Import Reals.
From Verif Require Import GeoModel SeaModel.
Open Scope R_scope.

(** FrGeographicCoord FrGeographicServices.cpp 26-42: latitude, longitude, height *)
Record coord := GC { g_lat : R; g_lon : R; g_h : R }.

(** ** GeographicLib (contract) *)
Definition rad (deg : R) : R := deg * (PI / 180).
Definition EARTH_A : R := 6378137.
Definition EARTH_F : R := 1 / (298257223563 / 1000000000).
Definition E2 : R := EARTH_F * (2 - EARTH_F).
(** Geocentric::Forward: the radius of the prime vertical, then the Earth-centred coordinates *)
Definition prime_vertical (phi : R) : R := EARTH_A / sqrt (1 - E2 * (sin phi * sin phi)).
Definition geocentric (c : coord) : vec :=
  let phi := rad (g_lat c) in
  let lam := rad (g_lon c) in
  let n := prime_vertical phi in
  V ((n + g_h c) * cos phi * cos lam) ((n + g_h c) * cos phi * sin lam) (((1 - E2) * n + g_h c) * sin phi).
Definition lat_ok (lat : R) : bool := if Rle_dec (-90) lat then if Rle_dec lat 90 then true else false else false.
(** AngNormalize *)
Definition AngNormalize (x : R) : R := x - 360 * IZR (Int_part ((x + 180) / 360)).
(** LocalCartesian::Reset *)
Definition Reset (lat0 lon0 h0 : R) : res coord := if lat_ok lat0 then Ok (GC lat0 (AngNormalize lon0) h0) else Undef.
(** LocalCartesian::Forward: east, north, up *)
Definition Forward (o c : coord) : res vec :=
  if lat_ok (g_lat c) then
    let d := vsub (geocentric c) (geocentric o) in
    let phi := rad (g_lat o) in
    let lam := rad (g_lon o) in
    Ok (V (- sin lam * vx d + cos lam * vy d)
          (- cos lam * sin phi * vx d - sin lam * sin phi * vy d + cos phi * vz d)
          (cos lam * cos phi * vx d + sin lam * cos phi * vy d + sin phi * vz d))
  else Undef.
(** MagneticModel::FieldComponents: the declination, in degrees *)
Definition FieldD (Bx By : R) : R := atan2 Bx By * (180 / PI).

(** ** FrGeographicServices: its state is the origin of m_LocalCartesian *)
(** Constructor 44-46 (it declares a function and does nothing): default LocalCartesian *)
Definition default_origin : coord := GC 0 0 0.
(** SetGeographicOrigin 52-58, GetGeographicOrigin 60-68 *)
Definition SetGeographicOrigin (o : coord) (lat0 lon0 h0 : R) : res coord := Reset lat0 lon0 h0.
Definition GetGeographicOrigin (o : coord) : coord := GC (g_lat o) (g_lon o) (g_h o).
(** GeoToCart 71-91 *)
Definition GeoToCart (o : coord) (c : coord) (fc : conv) : res vec :=
  f <<- Forward o c;
  let y := vx f in let x := vy f in let z := vz f in
  Ok (if IsNED fc then V x y (- z) else V x (- y) z).
Section with_library.
(** LocalCartesian::Reverse of an origin: east, north, up to geographic *)
Variable Reverse : coord -> vec -> coord.
(** MagneticModel::operator(): year, latitude, longitude, height to (east, north, up) *)
Variable magneticModel : R -> R -> R -> R -> vec.
(** CartToGeo 94-111 *)
Definition CartToGeo (o : coord) (p : vec) (fc : conv) : coord :=
  let Ztemp := if IsNED fc then - vz p else vz p in
  let Ytemp := if IsNED fc then vy p else - vy p in
  Reverse o (V Ytemp (vx p) Ztemp).
(** GetMagneticComponentsFromGeo 144-162 *)
Definition GetMagneticComponentsFromGeo (c : coord) (year : R) (fc : conv) : vec :=
  let B := magneticModel year (g_lat c) (g_lon c) (g_h c) in
  swap_if fc (V (vy B) (- vx B) (vz B)).
(** GetMagneticComponentsFromCart 164-168 *)
Definition GetMagneticComponentsFromCart (o : coord) (p : vec) (year : R) (fc : conv) : vec :=
  GetMagneticComponentsFromGeo (CartToGeo o p fc) year fc.
(** GetDeclinationFromGeo 126-142, GetDeclinationFromCart 114-124 *)
Definition GetDeclinationFromGeo (c : coord) (year : R) : R :=
  let m := GetMagneticComponentsFromGeo c year NWU in FieldD (- vy m) (vx m).
Definition GetDeclinationFromCart (o : coord) (p : vec) (year : R) (fc : conv) : R := GetDeclinationFromGeo (CartToGeo o p fc) year.
End with_library.
