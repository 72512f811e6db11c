(** Vocabulary of the properties of the dynamic cable (C246-C256): directions, right handed axes, positions along a straight line, locked motions. *)
From Coq Require Import Reals List Bool.
From Verif Require Import GeoModel GeoSpec DynModel.
Import ListNotations.
Open Scope R_scope.

(** [u] is the unit vector with the direction of [v] *)
Definition along (u v : vec) : Prop := dot3 u u = 1 /\ exists k, 0 < k /\ v = scal3 k u.
(** Three orthogonal unit vectors, in the right handed order *)
Definition right_handed (f : vec * vec * vec) : Prop :=
  let '(a, b, c) := f in unit3 a /\ unit3 b /\ unit3 c /\ dot3 a b = 0 /\ dot3 b c = 0 /\ dot3 c a = 0 /\ cross3 a b = c.
Definition first_axis (f : vec * vec * vec) : vec := let '(a, _, _) := f in a.
Definition third_axis (f : vec * vec * vec) : vec := let '(_, _, c) := f in c.
(** Position and axes of the node number i *)
Definition node_at (c : dcable) (i : nat) : option fnode := nth_error (d_nodes c) i.
(** A cable whose mesh is not built yet, with a positive length and at least one element *)
Definition fresh (c : dcable) : Prop := d_nodes c = [] /\ d_beams c = [] /\ 0 < d_length c /\ (1 <= d_elements c)%nat.
(** Abscissa of the node i of a cable cut in elements of the same length *)
Definition abscissa (c : dcable) (i : nat) : R := INR i / INR (d_elements c) * d_length c.
(** A chain: n elements, the element i joins the nodes i and i+1 *)
Definition chain (c : dcable) : Prop :=
  List.length (d_nodes c) = S (d_elements c) /\ List.length (d_beams c) = d_elements c /\ forall i, (i < d_elements c)%nat -> nth_error (d_beams c) i = Some (i, S i).
(** The motions locked by a hinge: x, y, z, then the three rotations *)
Definition holds_position (l : list bool) (b : bool) : Prop := exists r, l = ([b; b; b] ++ r)%list /\ List.length r = 3%nat.
Definition holds_rotation (l : list bool) (b : bool) : Prop := exists t, l = (t ++ [b; b; b])%list /\ List.length t = 3%nat.
