(** Specification vocabulary for C28 and C29: sampled signals and their piecewise-linear interpolation. *)
From Coq Require Import Reals List.
Import ListNotations.
Open Scope R_scope.

(** Samples (time, value) in chronological order *)
Definition samples := list (R * R).
(** Affine interpolation between two samples *)
Definition affine (p q : R * R) (t : R) : R := snd p + (snd q - snd p) * (t - fst p) / (fst q - fst p).
(** v is the value at time t of the polyline through the samples *)
Inductive on_polyline : samples -> R -> R -> Prop :=
| at_sample t v h : on_polyline ((t, v) :: h) t v
| between p q h t v : fst p <= t <= fst q -> v = affine p q t -> on_polyline (p :: q :: h) t v
| later p h t v : on_polyline h t v -> on_polyline (p :: h) t v.
(** Successive increments in (0, step] *)
Fixpoint steps_within (step : R) (h : samples) : Prop :=
  match h with
  | p :: ((q :: _) as h') => 0 < fst q - fst p <= step /\ steps_within step h'
  | _ => True
  end.
Definition first_time (h : samples) : R := match h with nil => 0 | p :: _ => fst p end.
Definition last_time (h : samples) : R := match h with nil => 0 | p :: h' => fst (last h' p) end.

(** ** Quadrature *)
Fixpoint increasing (x : list R) : Prop :=
  match x with a :: ((b :: _) as t) => a < b /\ increasing t | _ => True end.
(** Composite trapezoidal rule: sum over the intervals of width times mean ordinate *)
Fixpoint trapezoids (x y : list R) : R :=
  match x, y with
  | a :: ((b :: _) as x'), c :: ((d :: _) as y') => (b - a) * ((c + d) / 2) + trapezoids x' y'
  | _, _ => 0
  end.
(** f is the polyline through the points: affine on every interval *)
Fixpoint polyline (x y : list R) (f : R -> R) : Prop :=
  match x, y with
  | a :: ((b :: _) as x'), c :: ((d :: _) as y') =>
      (forall t, a <= t <= b -> f t = affine (a, c) (b, d) t) /\ polyline x' y' f
  | _, _ => True
  end.
