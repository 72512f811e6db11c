(** Model of the added mass of bodies in a hydrodynamic database: FrRadiationModelBase and FrVariablesBEMBodyBase
    (/repo/src/frydom/hydrodynamics/seakeeping/linear/radiation/FrRadiationModelBase.cpp and
    FrVariablesBEMBodyBase.cpp) and the parts of FrBodyBase that call them (core/body/FrBody.cpp 131-175).
    BEM bodies are numbers as in RadModel; the mapper sends BEM body i to body i (C79), and GetNbMappings is the
    number of pairs the loops go over.  Chrono: fb and qb are the force and speed vectors of six components of the
    variables of a body (linear part in world axes, angular part in body axes), Equals compares element by element.
    MatrixMN::Inverse is not in the repository: it is the parameter inv, None for a singular matrix.  A vector of
    six components or of the whole system is a function of the index.  Sums are written in one order.  No proofs. *)
From Coq Require Import Reals List Bool Arith.
From Verif Require Import GeoModel BodyModel InertiaModel SeaModel FloModel RadModel.
Import ListNotations.
Open Scope R_scope.

(** The bodies of the database at some time of the simulation: the database with its added masses, the inertia tensor,
    activity (not fixed, not sleeping), offset in the state (GetOffset_w), position and attitude, fb and qb of each *)
Record fleet := Fleet { fl_db : hdb; fl_tensor : nat -> tensor; fl_active : nat -> bool; fl_offset : nat -> nat; fl_frame : nat -> frame;
  fl_fb : nat -> vec6; fl_qb : nat -> vec6 }.
Definition matrix := nat -> nat -> R.

(** FrBEMBody::GetInfiniteAddedMass (hdb/FrBEMBody.cpp 341-343): at() throws *)
Definition GetInfiniteAddedMass (b : bem) (j : nat) : res mat6 := match bm_Ainf b j with Some A => Ok A | None => Throws end.
Definition mat6_add (a b : mat6) : mat6 := fun i j => a i j + b i j.

(** BuildGeneralizedMass 119-127 and GetGeneralizedMass 171-181: the block of bodies i (load) and j (motion) *)
Definition GetGeneralizedMass (f : fleet) (i j : nat) : res mat6 :=
  A <<- GetInfiniteAddedMass (h_bem (fl_db f) i) j;
  Ok (if Nat.eqb i j then mat6_add A (GetMassMatrixAtCOG (fl_tensor f i)) else A).

(** BuildGeneralizedMass 109-135: one row of blocks, then all rows, in iteration order *)
Fixpoint block_row (f : fleet) (i : nat) (l : list nat) : res (list mat6) :=
  match l with [] => Ok [] | j :: t => m <<- GetGeneralizedMass f i j; r <<- block_row f i t; Ok (m :: r) end.
Fixpoint block_rows (f : fleet) (l : list nat) : res (list (list mat6)) :=
  match l with [] => Ok [] | i :: t => r <<- block_row f i (h_order (fl_db f)); q <<- block_rows f t; Ok (r :: q) end.
(** massMatrix(6*iBody + i, 6*jBody + j) = subMatrix(i, j) 129-133 *)
Definition mass_matrix (rows : list (list mat6)) : matrix :=
  fun r c => nth (c / 6) (nth (r / 6) rows []) (fun _ _ => 0) (r mod 6)%nat (c mod 6)%nat.
(** m_invGeneralizedMass: a map from pairs of BEM bodies to blocks *)
Definition block_map := nat -> nat -> option mat6.
Definition no_blocks : block_map := fun _ _ => None.
Definition put_block (m : block_map) (i j : nat) (b : mat6) : block_map := fun a c => if andb (Nat.eqb a i) (Nat.eqb c j) then Some b else m a c.
(** 142-161: the blocks of the inverse, saved by pair of bodies.  ib, jb: iBody, jBody *)
Fixpoint save_row (P : matrix) (ib i : nat) (jb : nat) (l : list nat) (m : block_map) : block_map :=
  match l with [] => m | j :: t => save_row P ib i (S jb) t (put_block m i j (fun a b => P (6 * ib + a) (6 * jb + b))%nat) end.
Fixpoint save_rows (P : matrix) (order : list nat) (ib : nat) (l : list nat) (m : block_map) : block_map :=
  match l with [] => m | i :: t => save_rows P order (S ib) t (save_row P ib i 0 order m) end.
(** BuildGeneralizedMass 109-162 on the map of earlier calls.  Undef: the inverse of a singular matrix *)
Definition BuildGeneralizedMass (inv : nat -> matrix -> option matrix) (f : fleet) (m : block_map) : res block_map :=
  let order := h_order (fl_db f) in
  rows <<- block_rows f order;
  P <<- of_option (inv (6 * length order)%nat (mass_matrix rows));
  Ok (save_rows P order 0 order m).
(** GetInverseGeneralizedMass 165-168: at() throws *)
Definition GetInverseGeneralizedMass (m : block_map) (i j : nat) : res mat6 := match m i j with Some b => Ok b | None => Throws end.

(** ** FrVariablesBEMBodyBase *)
(** for i, for j: result(i) += m(i, j) * v(j), on components 0 to 5 *)
Definition inc_mul (result : vec6) (m : mat6) (v : vec6) : vec6 :=
  fun i => if Nat.ltb i 6 then result i + (m i 0%nat * v 0%nat + m i 1%nat * v 1%nat + m i 2%nat * v 2%nat + m i 3%nat * v 3%nat + m i 4%nat * v 4%nat + m i 5%nat * v 5%nat) else result i.
(** vect.Equals(other) *)
Definition Equals (a b : vec6) : bool :=
  forallb (fun k => if Req_EM_T (a k) (b k) then true else false) [0%nat; 1%nat; 2%nat; 3%nat; 4%nat; 5%nat].
(** for (bodyMotion) if active: result += block(bodyMotion) * x(bodyMotion) *)
Fixpoint inc_bodies (f : fleet) (block : nat -> res mat6) (x : nat -> vec6) (l : list nat) (result : vec6) : res vec6 :=
  match l with
  | [] => Ok result
  | j :: t => if fl_active f j then b <<- block j; inc_bodies f block x t (inc_mul result b (x j)) else inc_bodies f block x t result
  end.
(** Compute_inc_invMb_v(result, vect) 75-107, of the variables of BEM body i *)
Definition Compute_inc_invMb_v (f : fleet) (m : block_map) (i : nat) (result vect : vec6) : res vec6 :=
  if Equals vect (fl_fb f i) then inc_bodies f (GetInverseGeneralizedMass m i) (fl_fb f) (h_order (fl_db f)) result
  else b <<- GetInverseGeneralizedMass m i i; Ok (inc_mul result b vect).
(** Compute_invMb_v 38-73: result.Reset() first *)
Definition Compute_invMb_v (f : fleet) (m : block_map) (i : nat) (vect : vec6) : res vec6 := Compute_inc_invMb_v f m i zero6 vect.
(** Compute_inc_invMb_v(result, vect, variable) 109-121, for the variables of BEM body i2 *)
Definition Compute_inc_invMb_v_of (m : block_map) (i : nat) (result vect : vec6) (i2 : nat) : res vec6 :=
  b <<- GetInverseGeneralizedMass m i i2; Ok (inc_mul result b vect).
(** Compute_inc_Mb_v 123-154 *)
Definition Compute_inc_Mb_v (f : fleet) (i : nat) (result vect : vec6) : res vec6 :=
  if Equals vect (fl_qb f i) then inc_bodies f (GetGeneralizedMass f i) (fl_qb f) (h_order (fl_db f)) result
  else b <<- GetGeneralizedMass f i i; Ok (inc_mul result b vect).
(** MultiplyAndAdd 156-168: result has an offset, vect has not *)
Definition MultiplyAndAdd (f : fleet) (i : nat) (offset : nat) (result vect : nat -> R) (c_a : R) : res (nat -> R) :=
  g <<- GetGeneralizedMass f i i;
  Ok (fun r => if andb (Nat.leb offset r) (Nat.ltb r (offset + 6)) then result r + inc_mul zero6 (fun a b => c_a * g a b) vect (r - offset)%nat else result r).
(** DiagonalAdd 170-178 *)
Definition DiagonalAdd (f : fleet) (i : nat) (offset : nat) (result : nat -> R) (c_a : R) : res (nat -> R) :=
  g <<- GetGeneralizedMass f i i;
  Ok (fun r => if andb (Nat.leb offset r) (Nat.ltb r (offset + 6)) then result r + c_a * g (r - offset)%nat (r - offset)%nat else result r).
(** Build_M 180-189 *)
Definition Build_M (f : fleet) (i : nat) (insrow inscol : nat) (c_a : R) (storage : matrix) : res matrix :=
  g <<- GetGeneralizedMass f i i;
  Ok (fun r c => if andb (andb (Nat.leb insrow r) (Nat.ltb r (insrow + 6))) (andb (Nat.leb inscol c) (Nat.ltb c (inscol + 6)))
    then c_a * g (r - insrow)%nat (c - inscol)%nat else storage r c).

(** ** FrBodyBase (core/body/FrBody.cpp) *)
Definition set_fb (f : fleet) (i : nat) (v : vec6) : fleet := Fleet (fl_db f) (fl_tensor f) (fl_active f) (fl_offset f) (fl_frame f) (fupd (fl_fb f) i v) (fl_qb f).
(** VariablesFbReset 141-143 *)
Definition VariablesFbReset (f : fleet) (i : nat) : fleet := set_fb f i zero6.
(** VariablesFbIncrementMq 157-159: result and vect are fb and qb of the body *)
Definition VariablesFbIncrementMq (f : fleet) (i : nat) : res fleet := v <<- Compute_inc_Mb_v f i (fl_fb f i) (fl_qb f i); Ok (set_fb f i v).

(** ** FrRadiationModelBase::IntLoadResidual_Mv 43-75 *)
(** R.PasteSumVector twice: the six components of Mv at the offset *)
Definition paste_sum (R0 : nat -> R) (off : nat) (v : vec6) : nat -> R := fun r => if andb (Nat.leb off r) (Nat.ltb r (off + 6)) then R0 r + v (r - off)%nat else R0 r.
Fixpoint residual_of (f : fleet) (i : nat) (l : list nat) (w : nat -> R) (c : R) (R0 : nat -> R) : res (nat -> R) :=
  match l with
  | [] => Ok R0
  | j :: t => if fl_active f j then
      A <<- GetInfiniteAddedMass (h_bem (fl_db f) i) j;
      let q := fun k => w (fl_offset f j + k)%nat in
      residual_of f i t w c (paste_sum R0 (fl_offset f i) (inc_mul zero6 (fun a b => c * A a b) q))
    else residual_of f i t w c R0
  end.
Fixpoint residual_all (f : fleet) (l : list nat) (w : nat -> R) (c : R) (R0 : nat -> R) : res (nat -> R) :=
  match l with
  | [] => Ok R0
  | i :: t => if fl_active f i then R1 <<- residual_of f i (h_order (fl_db f)) w c R0; residual_all f t w c R1 else residual_all f t w c R0
  end.
Definition IntLoadResidual_Mv (f : fleet) (w : nat -> R) (c : R) (R0 : nat -> R) : res (nat -> R) := residual_all f (h_order (fl_db f)) w c R0.

(** FrBody::SetInertiaTensor seen from here *)
Definition set_tensor (f : fleet) (i : nat) (t : tensor) : fleet := Fleet (fl_db f) (fupd (fl_tensor f) i t) (fl_active f) (fl_offset f) (fl_frame f) (fl_fb f) (fl_qb f).
