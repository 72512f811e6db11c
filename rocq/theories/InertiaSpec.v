(** Specification vocabulary for C18 and C19: finite distributions of point masses. *)
From Coq Require Import Reals List.
From Verif Require Import GeoModel GeoSpec InertiaModel.
Import ListNotations.
Open Scope R_scope.

(** A distribution: masses and their NWU coordinates in some frame *)
Definition masses := list (R * vec).
Fixpoint total (D : masses) : R := match D with nil => 0 | (m, _) :: D => m + total D end.
(** First moment: sum of m p *)
Fixpoint moment1 (D : masses) : vec := match D with nil => origin | (m, p) :: D => plus3 (scal3 m p) (moment1 D) end.
(** Textbook inertia: moments  sum m (y^2+z^2) ...  and products  - sum m x y ... about the origin of
    the frame the coordinates refer to *)
Fixpoint sum_m (f : vec -> R) (D : masses) : R := match D with nil => 0 | (m, p) :: D => m * f p + sum_m f D end.
Definition inertia_of (D : masses) : coeffs :=
  Coeffs (sum_m (fun p => vy p ^ 2 + vz p ^ 2) D)
         (sum_m (fun p => vx p ^ 2 + vz p ^ 2) D)
         (sum_m (fun p => vx p ^ 2 + vy p ^ 2) D)
         (- sum_m (fun p => vx p * vy p) D)
         (- sum_m (fun p => vx p * vz p) D)
         (- sum_m (fun p => vy p * vz p) D).
(** Same masses seen after mapping the coordinates *)
Definition moved (g : vec -> vec) (D : masses) : masses := map (fun mp => (fst mp, g (snd mp))) D.
(** Coordinates in the parent of the point of coordinates x in the frame f *)
Definition place (f : frame) (x : vec) : vec := plus3 (fpos f) (quat_action (frot f) x).
(** [G] is the centre of gravity of D *)
Definition is_cog (D : masses) (G : vec) : Prop := scal3 (total D) G = moment1 D.

(** The tensor object reports the mass, the centre of gravity and, about it, the inertia of D
    (coordinates of D in the body reference frame, NWU), in both conventions. *)
Definition describes (t : tensor) (D : masses) : Prop :=
  TGetMass t = total D /\
  (exists G, is_cog D G /\ forall fc,
     TGetCOGPosition t fc = convert fc G /\
     GetInertiaCoeffsAtCOG t fc = inertia_of (moved (fun p => convert fc (minus3 p G)) D) /\
     GetInertiaMatrixAtCOG t fc = coeffs_matrix (inertia_of (moved (fun p => convert fc (minus3 p G)) D))).
