(** Specification of the environment properties, independent of the functions of EnvModel. *)
From Coq Require Import Reals List.
From Verif Require Import GeoModel SeaModel FloModel EnvModel.
Import ListNotations.
Open Scope R_scope.

(** The rule of twelfths: the parts of the tidal range covered in each sixth of the interval *)
Definition hourly : list R := [1; 2; 3; 3; 2; 1].
Definition covered (i : nat) : R := fold_right Rplus 0 (firstn i hourly) / 12.
(** The instant after [i] sixths of the interval from [a] to [b] *)
Definition sixth (a b : R) (i : nat) : R := a + INR i * ((b - a) / 6).
(** The first extremum is named LOW or HIGH as its height says *)
Definition agrees (l : level) (h1 h2 : R) : Prop := match l with LOW => h1 <= h2 | HIGH => h2 <= h1 end.
(** Seconds since midnight *)
Definition since_midnight (h m s : nat) : R := INR (3600 * h + 60 * m + s).

(** A call that sets property [k] of the water, of the air *)
Definition sets_water (k : prop) (o : eop) : bool :=
  match o with OSetWater k' _ => match k, k' with
    | Temperature, Temperature | Density, Density | DynamicViscosity, DynamicViscosity | KinematicViscosity, KinematicViscosity | Salinity, Salinity | Pressure, Pressure => true
    | _, _ => false end | _ => false end.
Definition sets_air (k : prop) (o : eop) : bool :=
  match o with OSetAir k' x => sets_water k (OSetWater k' x) | _ => false end.
Definition sets_gravity (o : eop) : bool := match o with OSetGravity _ => true | _ => false end.
(** A call that changes the seabed, the wave field *)
Definition on_seabed (o : eop) : bool := match o with OShowSeabed _ | OSetInfiniteDepth | OSetBathymetry _ _ => true | _ => false end.
Definition on_waves (o : eop) : bool := match o with ONoWaves _ _ | OSetWaves _ _ _ | OShowFreeSurface false => true | _ => false end.
Definition hides (o : eop) : bool := match o with OShowFreeSurface false => true | _ => false end.
Definition stepping (o : eop) : bool := match o with OUpdate _ | OStepFinalize | OInitialize => true | _ => false end.
Definition nowhere (f : eop -> bool) (l : list eop) : Prop := forall o, In o l -> f o = false.
(** A state a program can reach *)
Definition reached (l : list eop) (e : env) : Prop := exists lev h2 t0 d0, env_run (new_env lev h2 t0 d0) l = Ok e.
