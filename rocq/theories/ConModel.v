(** Model of the scalar constraint between two bodies with hydrodynamic coupling: core/link/constraint/FrConstraintTwoBodiesBase.cpp, used by
    the links of FrLinkMaskBase.cpp and FrLink.cpp.  Paths are relative to /repo/src/frydom.
    Contracts: chrono::ChConstraintTwoBodies keeps cfm_i, the jacobians, Eq_a and Eq_b, which are zero when built; its Increment_q adds
    Eq_a times the impulse to the speeds (qb) of the first body and Eq_b times the impulse to those of the second, when they are active.
    The variables of the first body are those of a BEM body; the second body is another BEM body, or the ground, which is not active.
    Bodies that are active without being BEM bodies are not modelled.  No proofs in this file. *)
From Coq Require Import Reals List Bool.
From Verif Require Import GeoModel SeaModel FloModel RadModel AmModel.
Import ListNotations.
Open Scope R_scope.

(** MatrMultiply of a row and a column of six *)
Definition row_col (c e : vec6) : R := c 0%nat * e 0%nat + c 1%nat * e 1%nat + c 2%nat * e 2%nat + c 3%nat * e 3%nat + c 4%nat * e 4%nat + c 5%nat * e 5%nat.
(** IsActive of the variables; None is the ground *)
Definition is_active (f : fleet) (b : option nat) : bool := match b with Some j => fl_active f j | None => false end.
(** Update_auxiliary 12-57: Eq_a, Eq_b and g_i *)
Definition Update_auxiliary (f : fleet) (m : block_map) (a : nat) (b : option nat) (Cq_a Cq_b : vec6) (cfm : R) : res (vec6 * vec6 * R) :=
  Eq_a <<- (if fl_active f a then Compute_invMb_v f m a Cq_a else Ok zero6);
  Eq_b <<- (match b with Some j => if fl_active f j then Compute_invMb_v f m j Cq_b else Ok zero6 | None => Ok zero6 end);
  r <<- (match b with
         | Some j => if andb (fl_active f a) (fl_active f j) then
                       x <<- Compute_inc_invMb_v_of m a Eq_a Cq_b j; y <<- Compute_inc_invMb_v_of m j Eq_b Cq_a a; Ok (x, y)
                     else Ok (Eq_a, Eq_b)
         | None => Ok (Eq_a, Eq_b)
         end);
  let '(Eq_a, Eq_b) := r in
  let g := if fl_active f a then row_col Cq_a Eq_a else 0 in
  let g := if is_active f b then g + row_col Cq_b Eq_b else g in
  Ok (Eq_a, Eq_b, g + cfm).
(** The speeds of the bodies *)
Definition set_qb (f : fleet) (i : nat) (v : vec6) : fleet := Fleet (fl_db f) (fl_tensor f) (fl_active f) (fl_offset f) (fl_frame f) (fl_fb f) (fupd (fl_qb f) i v).
(** chrono::ChConstraintTwoBodies::Increment_q (contract above) *)
Definition Increment_q (f : fleet) (a : nat) (b : option nat) (Eq_a Eq_b : vec6) (impulse : R) : fleet :=
  let f := if fl_active f a then set_qb f a (fun k => fl_qb f a k + Eq_a k * impulse) else f in
  match b with Some j => if fl_active f j then set_qb f j (fun k => fl_qb f j k + Eq_b k * impulse) else f | None => f end.
