(** Specification of the geographic properties. *)
From Coq Require Import Reals.
From Verif Require Import GeoModel GeoSpec SeaModel GgrModel.
Open Scope R_scope.
(** Squared distance of two points *)
Definition dist2 (p q : vec) : R := (vx p - vx q) * (vx p - vx q) + (vy p - vy q) * (vy p - vy q) + (vz p - vz q) * (vz p - vz q).
(** The same meridian, up to whole turns *)
Definition congruent_deg (a b : R) : Prop := exists k : Z, a = b + 360 * IZR k.
(** An origin a program can set *)
Definition an_origin (o : coord) : Prop := o = default_origin \/ exists o' lat lon h, SetGeographicOrigin o' lat lon h = Ok o.
(** The library inverts Forward at the east-north-up position [p], at the coordinates [c] *)
Definition inverts_at (Reverse : coord -> vec -> coord) (o : coord) (p : vec) : Prop := Forward o (Reverse o p) = Ok p.
Definition recovers_at (Reverse : coord -> vec -> coord) (o c : coord) : Prop := forall p, Forward o c = Ok p -> Reverse o p = c.
