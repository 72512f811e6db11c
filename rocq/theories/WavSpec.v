(** Specification vocabulary for the wave fields (C37, C38, C39, C43, C61, C62). *)
From Coq Require Import Reals List.
From Coquelicot Require Import Coquelicot.
From Verif Require Import GeoModel WavModel.
Open Scope R_scope.

(** ** Linear wave theory.  A velocity field at a time is a function of x, y, z (NWU, z up, mean level 0). *)
Definition divergence_free (U : R -> R -> R -> vec) : Prop := forall x y z, exists a b c : R,
  is_derive (fun s => vx (U s y z)) x a /\ is_derive (fun s => vy (U x s z)) y b /\ is_derive (fun s => vz (U x y s)) z c /\
  a + b + c = 0.
Definition irrotational (U : R -> R -> R -> vec) : Prop := forall x y z, exists a b c : R,
  is_derive (fun s => vz (U x s z)) y a /\ is_derive (fun s => vy (U x y s)) z a /\
  is_derive (fun s => vx (U x y s)) z b /\ is_derive (fun s => vz (U s y z)) x b /\
  is_derive (fun s => vy (U s y z)) x c /\ is_derive (fun s => vx (U x s z)) y c.
(** A is the time derivative of U *)
Definition rate_of (U A : R -> R -> R -> R -> vec) : Prop := forall x y z t,
  is_derive (fun s => vx (U x y z s)) t (vx (A x y z t)) /\ is_derive (fun s => vy (U x y z s)) t (vy (A x y z t)) /\
  is_derive (fun s => vz (U x y z s)) t (vz (A x y z t)).
(** The water at the mean level follows the surface *)
Definition follows_surface (eta : R -> R -> R -> R) (U : R -> R -> R -> R -> vec) : Prop := forall x y t,
  is_derive (fun s => eta x y s) t (vz (U x y 0 t)).
(** No flow through the bed at depth h *)
Definition tight_bed (h : R) (U : R -> R -> R -> R -> vec) : Prop := forall x y t, vz (U x y (- h) t) = 0.
(** Euler's equation without convection: the pressure gradient balances the acceleration *)
Definition pressure_balances (rho : R) (p : R -> R -> R -> R -> R) (A : R -> R -> R -> R -> vec) : Prop := forall x y z t,
  is_derive (fun s => p s y z t) x (- rho * vx (A x y z t)) /\ is_derive (fun s => p x s z t) y (- rho * vy (A x y z t)) /\
  is_derive (fun s => p x y s t) z (- rho * vz (A x y z t)).
(** The wave number k of frequency w is exact for gravity g: depth h, or deep water *)
Definition dispersion (deep : bool) (g h w k : R) : Prop := w * w = g * k * (if deep then 1 else tanh (k * h)).

(** ** Sizes of the tables of an irregular wave field *)
Definition tables_fit (w : iwq) : Prop :=
  length (iq_dirs w) = iq_nbDir w /\ length (iq_freqs w) = iq_nbFreq w /\ length (iq_ks w) = iq_nbFreq w /\
  length (iq_amp w) = iq_nbDir w /\ (forall r, In r (iq_amp w) -> length r = iq_nbFreq w) /\
  length (iq_phases w) = iq_nbDir w /\ (forall r, In r (iq_phases w) -> length r = iq_nbFreq w).

(** ** Vertical profiles of linear theory and of the stretching models, for the elevation eta *)
Definition airy_profile (deep : bool) (k h z : R) : R := if deep then exp (k * z) else cosh (k * (z + h)) / sinh (k * h).
Definition profile (t : STRETCHING_TYPE) (deep : bool) (k h eta z : R) : R :=
  match t with
  | NO_STRETCHING => airy_profile deep k h z
  | VERTICAL => airy_profile deep k h (Rmin z 0)
  | EXTRAPOLATE => if Rle_dec z 0 then airy_profile deep k h z else airy_profile deep k h 0 + k * z
  | WHEELER => airy_profile deep k h (h * (z - eta) / (h + eta))
  | CHAKRABARTI => if deep then airy_profile true k h z else cosh (k * (z + h)) / sinh (k * (h + eta))
  | DELTA => let zp := if Rle_dec z 0 then z else 3 / 10 * z in
             if Rle_dec zp 0 then airy_profile deep k h zp else airy_profile deep k h 0 + k * zp
  | HDELTA => let zp := (z + h) * (h + 3 / 10 * eta) / (h + eta) - h in
              if Rle_dec zp 0 then airy_profile deep k h zp else airy_profile deep k h 0 + k * zp
  end.

(** Sum of f over the components (direction number j, frequency number i) of an irregular field *)
Definition components_sum (w : iwq) (f : nat -> nat -> R) : R :=
  fold_right Rplus 0 (map (fun i => fold_right Rplus 0 (map (fun j => f j i) (seq 0 (iq_nbDir w)))) (seq 0 (iq_nbFreq w))).
(** Elevation of one component *)
Definition component_elevation (w : iwq) (j i : nat) (x y : R) : R :=
  let k := nth i (iq_ks w) 0 in let om := nth i (iq_freqs w) 0 in let d := nth j (iq_dirs w) 0 in
  nth i (nth j (iq_amp w) nil) 0 * b_ramp (iq_b w) *
  sin (k * (x * cos d + y * sin d) - om * b_time (iq_b w) + nth i (nth j (iq_phases w) nil) 0).

(** ** Directions *)
(** Two angles in the same unit show the same direction *)
Definition same_direction (u : aunit) (a b : R) : Prop := exists n : Z, a = b + IZR n * (match u with RAD => 2 * PI | DEG => 360 end).
