(** Specification vocabulary for C75-C80: kernels given by tables, convolution with a recorded history, masks. *)
From Coq Require Import Reals List ZArith.
From Verif Require Import GeoModel BodyModel SigModel SigSpec EqfModel SeaModel FloModel RadModel.
Import ListNotations.
Open Scope R_scope.

(** Sum of a list *)
Fixpoint total (l : list R) : R := match l with [] => 0 | a :: t => a + total t end.
(** Value at x of the polyline through the points (xs, ys) *)
Fixpoint interpolated (xs ys : list R) (x : R) : R :=
  match xs, ys with
  | a :: ((b :: _) as xs'), c :: ((d :: _) as ys') => if Rle_dec x b then affine (a, c) (b, d) x else interpolated xs' ys' x
  | _, _ => 0
  end.
(** A table starts at 0, reaches T and has one column of values per abscissa *)
Definition reaches (xs : list R) (T : R) : Prop := increasing xs /\ nth 0 xs 1 = 0 /\ T <= last xs 0 /\ (2 <= length xs)%nat.
Definition kernel_table (t : interp6) (T : R) : Prop := length (i6_y t) = length (i6_x t) /\ reaches (i6_x t) T.
(** Component k of the kernel of a table *)
Definition kernel (t : interp6) (k : nat) (x : R) : R := interpolated (i6_x t) (map (fun v : vec6 => v k) (i6_y t)) x.
(** Trapezoidal integral over the ages a of K(age) times the value w recorded at that age *)
Definition convolution (K : R -> R) (a w : list R) : R := trapezoids a (map (fun p => K (fst p) * snd p) (combine a w)).

(** What the calls show of component d of the perturbation velocity of body j *)
Definition past (calls : list call) (j d : nat) : samples :=
  map (fun c => (snd (fst c), GetPerturbationGeneralizedVelocityInFrame (fst (snd c j)) (snd (snd c j)) d)) calls.
(** The calls are not those made at the time of the system *)
Definition recorded (sysStep : R) (c : call) : Prop := snd (fst c) <= FLT_EPSILON \/ sysStep / 10 <= Rabs (snd (fst c) - fst (fst c)).
(** The equilibrium frame of body i does not advance (below the threshold of the code) *)
Definition stationary (c : call) (i : nat) : Prop := let u := GetFrameVelocityInFrame (fst (snd c i)) NWU in vdot u u <= FLT_EPSILON.
(** Kernels for all the pairs of bodies of the database, over the memory T j of body j *)
Definition kernels_ready (h : hdb) (K : nat -> list interp6) (dofs : nat -> list nat) (T : nat -> R) : Prop :=
  forall j d, In j (h_order h) -> In d (dofs j) -> (d < 6)%nat /\ exists t, nth_error (K j) d = Some t /\ kernel_table t (T j).
(** The table of kernel i <- j for motion d *)
Definition the_table (K : nat -> list interp6) (j d : nat) : interp6 := nth d (K j) (I6 [] []).

(** The memory of the recorder of time step dt and persistence Te after calls that span from t0 to t: ages a *)
Definition memory (Te dt t0 t : R) (a : list R) : Prop :=
  exists delta m, 0 <= delta < dt /\ t - t0 = INR m * dt + delta /\
    length a = Nat.min (capacity Te dt) (S m) /\ nth 0 a 1 = 0 /\
    forall i, (S i < length a)%nat -> nth (S i) a 0 = delta + INR i * dt.

(** ** Masks: the mask is a 0/1 vector *)
Definition binary (mask : nat -> Z) : Prop := forall i, (i < 6)%nat -> mask i = 0%Z \/ mask i = 1%Z.
Definition active (mask : nat -> Z) : list nat := filter (fun i => Z.eqb (mask i) 1) (seq 0 6).
(** Number of active degrees of freedom before i *)
Definition rank (mask : nat -> Z) (i : nat) : nat := length (filter (fun i => Z.eqb (mask i) 1) (seq 0 i)).
(** Sum over the bodies in motion and their degrees of freedom of the convolutions *)
Definition memory_force (h : hdb) (K : nat -> list interp6) (dofs : nat -> list nat) (a : nat -> list R) (w : nat -> nat -> list R) (k : nat) : R :=
  total (map (fun j => total (map (fun d => convolution (kernel (the_table K j d) k) (a j) (w j d)) (dofs j))) (h_order h)).
(** The recorded histories: a j are the ages held for body j, w j d the velocities of the polyline through the past *)
Definition held (order : list nat) (calls : list call) (Te dt : nat -> R) (a : nat -> list R) (w : nat -> nat -> list R) : Prop :=
  forall j, In j order ->
    memory (Te j) (dt j) (first_time (past calls j 0)) (last_time (past calls j 0)) (a j) /\
    forall d, (d < 6)%nat -> length (w j d) = length (a j) /\
      forall i, (i < length (a j))%nat -> on_polyline (past calls j d) (last_time (past calls j 0) - nth i (a j) 0) (nth i (w j d) 0).
(** Recorders just sized *)
Definition sized (order : list nat) (m : rad) (Te dt : nat -> R) : Prop :=
  NoDup order /\ forall j, In j order -> rd_rec m j = Some (newRec6 (Te j) (dt j)) /\ 0 < dt j <= Te j.
(** Every call is made at a new time, at most one recorder step after the previous one *)
Definition paced (sysStep : R) (order : list nat) (dt : nat -> R) (calls : list call) : Prop :=
  calls <> [] /\ List.Forall (recorded sysStep) calls /\ forall j, In j order -> steps_within (dt j) (past calls j 0).
(** Two motions superposed: same equilibrium frames; the perturbation velocities of the third are those of the first
    plus c times those of the second *)
Definition superposed (c : R) (e1 e2 e3 : frames) : Prop :=
  forall j, ef_frame (fst (e2 j)) = ef_frame (fst (e1 j)) /\ ef_frame (fst (e3 j)) = ef_frame (fst (e1 j)) /\
    ef_vel (fst (e2 j)) = ef_vel (fst (e1 j)) /\ ef_vel (fst (e3 j)) = ef_vel (fst (e1 j)) /\
    forall k, (k < 6)%nat -> GetPerturbationGeneralizedVelocityInFrame (fst (e3 j)) (snd (e3 j)) k =
      GetPerturbationGeneralizedVelocityInFrame (fst (e1 j)) (snd (e1 j)) k + c * GetPerturbationGeneralizedVelocityInFrame (fst (e2 j)) (snd (e2 j)) k.
Inductive superposed_calls (c : R) : list call -> list call -> list call -> Prop :=
| sup_nil : superposed_calls c [] [] []
| sup_cons s t e1 e2 e3 l1 l2 l3 : superposed c e1 e2 e3 -> superposed_calls c l1 l2 l3 ->
    superposed_calls c ((s, t, e1) :: l1) ((s, t, e2) :: l2) ((s, t, e3) :: l3).
(** A body that stays at rest with respect to its equilibrium frame *)
Definition at_rest (c : call) : Prop := forall j k, (k < 6)%nat -> GetPerturbationGeneralizedVelocityInFrame (fst (snd c j)) (snd (snd c j)) k = 0.
(** The masks list degrees of freedom of a rigid body *)
Definition dofs_ok (h : hdb) : Prop := forall j d, In j (h_order h) -> In d (GetListDOF (h_bem h j)) -> (d < 6)%nat.
(** The speed used by the code: the length of the velocity of the equilibrium frame, zero below the threshold *)
Definition forward_speed (e : eqf) : R := let u := GetFrameVelocityInFrame e NWU in if Rlt_dec FLT_EPSILON (vdot u u) then vnorm u else 0.
(** Forward speed correction on a body with added mass A and tables Ku, whose angular velocity is pw *)
Definition speed_terms (Ku : nat -> list interp6) (A : mat6) (j : nat) (a : list R) (w : nat -> list R) (pw : vec) (k : nat) : R :=
  total (map (fun d => convolution (kernel (the_table Ku j d) k) a (w d)) [4%nat; 5%nat]) + A k 2%nat * vy pw - A k 1%nat * vz pw.
(** What a mapper should answer for a mapping (BEM body, body, equilibrium frame) *)
Definition maps_to (m : mapper) (e : nat * nat * nat) : Prop :=
  let '(b, o, f) := e in MGetBody m b = Ok o /\ MGetBEMBody m o = Ok b /\ MGetEquilibriumFrame m b = Ok f /\ MGetEquilibriumFrameOf m o = Ok f.
