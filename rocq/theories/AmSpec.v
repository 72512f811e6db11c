(** Specification vocabulary for the added mass: generalized mass of a fleet as a linear operator, its inverse. *)
From Coq Require Import Reals List Arith.
From Verif Require Import GeoModel GeoSpec BodyModel InertiaModel SeaModel FloModel RadModel RadSpec AmModel.
Import ListNotations.
Open Scope R_scope.

(** Sum over the six components, and over the bodies of a list *)
Definition sum6 (g : nat -> R) : R := total (map g [0%nat; 1%nat; 2%nat; 3%nat; 4%nat; 5%nat]).
Definition over (l : list nat) (g : nat -> R) : R := total (map g l).
Definition delta (i j : nat) : R := if Nat.eqb i j then 1 else 0.
(** P is the inverse of M, both n by n *)
Definition is_inverse (n : nat) (M P : matrix) : Prop := forall r c, (r < n)%nat -> (c < n)%nat ->
  total (map (fun k => M r k * P k c) (seq 0 n)) = delta r c /\ total (map (fun k => P r k * M k c) (seq 0 n)) = delta r c.
(** What is asked of the matrix library: what it returns is the inverse *)
Definition inverts (inv : nat -> matrix -> option matrix) : Prop := forall n M P, inv n M = Some P -> is_inverse n M P.

(** The bodies of a fleet, each once, with the infinite frequency added masses A of all pairs *)
Definition bodies (f : fleet) : list nat := h_order (fl_db f).
Definition has_added_mass (f : fleet) (A : nat -> nat -> mat6) : Prop := NoDup (bodies f) /\
  forall i j, In i (bodies f) -> In j (bodies f) -> bm_Ainf (h_bem (fl_db f) i) j = Some (A i j).
(** Mass and inertia of body i at its centre of gravity plus the added masses *)
Definition inertia_of_pair (f : fleet) (A : nat -> nat -> mat6) (i j a b : nat) : R :=
  A i j a b + if Nat.eqb i j then GetMassMatrixAtCOG (fl_tensor f i) a b else 0.
(** Component a of body i of the generalized mass times the accelerations (or velocities) x of all the bodies *)
Definition momentum (f : fleet) (A : nat -> nat -> mat6) (x : nat -> vec6) (i a : nat) : R :=
  over (bodies f) (fun j => sum6 (fun b => inertia_of_pair f A i j a b * x j b)).
(** All the bodies move *)
Definition all_active (f : fleet) : Prop := forall i, In i (bodies f) -> fl_active f i = true.
(** The places of two bodies in the state do not overlap *)
Definition apart (f : fleet) : Prop := forall i j, In i (bodies f) -> In j (bodies f) -> i <> j ->
  (fl_offset f i + 6 <= fl_offset f j \/ fl_offset f j + 6 <= fl_offset f i)%nat.
(** Twice the kinetic energy *)
Definition energy (f : fleet) (A : nat -> nat -> mat6) (x : nat -> vec6) : R := over (bodies f) (fun i => sum6 (fun a => x i a * momentum f A x i a)).
(** Quadratic form of the added masses alone *)
Definition added_energy (f : fleet) (A : nat -> nat -> mat6) (x : nat -> vec6) : R :=
  over (bodies f) (fun i => sum6 (fun a => x i a * over (bodies f) (fun j => sum6 (fun b => A i j a b * x j b)))).
(** A body has mass: its kinetic energy is positive in every motion *)
Definition massive (t : tensor) : Prop := forall x : vec6, 0 <= sum6 (fun a => x a * sum6 (fun b => GetMassMatrixAtCOG t a b * x b)) /\
  (sum6 (fun a => x a * sum6 (fun b => GetMassMatrixAtCOG t a b * x b)) = 0 -> forall a, (a < 6)%nat -> x a = 0).

(** The inverse applied to vectors v of all the bodies, pair by pair, and the momenta of all the bodies put in fb *)
Fixpoint by_pairs (m : block_map) (i : nat) (v : nat -> vec6) (l : list nat) (r : vec6) : res vec6 :=
  match l with [] => Ok r | j :: t => r' <<- Compute_inc_invMb_v_of m i r (v j) j; by_pairs m i v t r' end.
Fixpoint load_momenta (l : list nat) (f : fleet) : res fleet :=
  match l with [] => Ok f | i :: t => g <<- VariablesFbIncrementMq (VariablesFbReset f i) i; load_momenta t g end.
(** Linear part of the added mass in the axes of a ship of heading psi applied to a vector given in world axes *)
Definition in_heading (A : mat6) (psi : R) (u : vec) : vec :=
  let s := mv (Rz (- psi)) u in
  mv (Rz psi) (V (A 0 0 * vx s + A 0 1 * vy s + A 0 2 * vz s) (A 1 0 * vx s + A 1 1 * vy s + A 1 2 * vz s) (A 2 0 * vx s + A 2 1 * vy s + A 2 2 * vz s))%nat.
