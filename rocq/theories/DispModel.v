(** Model of the wave dispersion solver
    (environment/ocean/freeSurface/waves/FrWaveDispersionRelation.cpp; paths relative to
    /repo/src/frydom).  double is modelled by the real numbers.  The unbounded while loop takes a
    number of iterations; [None] means that it has not left the loop after that many.  No proofs. *)
From Coq Require Import Reals List.
Import ListNotations.
Open Scope R_scope.

(** static const double tol, line 26 *)
Definition tol : R := / 1000000.
(** One turn of the loop, lines 45-50, on X *)
Definition newton_step (A X : R) : R :=
  let thX := tanh X in
  let residue := A - X * thX in
  let Cdot := - thX - X * (1 - thX * thX) in
  X - residue / Cdot.
(** The loop, lines 41-52 *)
Fixpoint newton (fuel : nat) (A X : R) : option R :=
  if Rlt_dec tol (Rabs (A - X * tanh X)) then
    match fuel with O => None | S n => newton n A (newton_step A X) end
  else Some X.
(** SolveWaveDispersionRelation(water_height, omega, gravity) 22-58 *)
Definition SolveWaveDispersionRelation (fuel : nat) (water_height omega gravity : R) : option R :=
  let w2_g := omega * omega / gravity in
  if Rle_dec water_height 0 then Some w2_g
  else
    let A := w2_g * water_height in
    match newton fuel A A with Some X => Some (X / water_height) | None => None end.
(** The overload on a vector of frequencies 60-72 *)
Fixpoint SolveWaveDispersionRelationVect (fuel : nat) (water_height : R) (omega : list R) (gravity : R) : option (list R) :=
  match omega with
  | [] => Some []
  | w :: r =>
      match SolveWaveDispersionRelation fuel water_height w gravity, SolveWaveDispersionRelationVect fuel water_height r gravity with
      | Some k, Some kv => Some (k :: kv)
      | _, _ => None
      end
  end.
