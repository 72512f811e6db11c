(** Specification vocabulary for the cables (C45, C46, C47, C66, C67, C68). *)
From Coq Require Import Reals List.
From Coquelicot Require Import Coquelicot.
From Verif Require Import GeoModel GeoSpec HydSpec BodyModel SeaModel CabModel.
Import ListNotations.
Open Scope R_scope.

(** Length of a vector *)
Definition len3 (v : vec) : R := sqrt (dot3 v v).
(** Unit vector along v *)
Definition along (v : vec) : vec := scal3 (/ len3 v) v.
(** A vector that is not vertical *)
Definition slanted (v : vec) : Prop := vx v <> 0 \/ vy v <> 0.
(** A line obtained from its constructor by a history of calls, one of which is Initialize; all calls succeeded *)
Definition is_init (o : line_op) : bool := match o with LInit _ _ _ _ => true | _ => false end.
Definition initialised (fuel : nat) (l : line) : Prop :=
  exists props elastic len j1 j2 j3 ops, existsb is_init ops = true /\ line_run fuel (new_line props elastic len j1 j2 j3) ops = Ok l.
(** Submerged weight per unit length (identified by C45_weight) and elongation per unit of tension *)
Definition weight (l : line) : R := l_q l.
Definition compliance (l : line) : R := if l_elastic l then / GetEA (l_props l) else 0.
(** The line carries a load, and a stiffness when it is elastic *)
Definition loaded (l : line) : Prop := weight l <> 0 /\ (l_elastic l = true -> 0 < GetEA (l_props l)).
(** The start tension of the line replaced by t *)
Definition with_tension (l : line) (t : vec) : line := set_t0 l t.
(** Integral of a vector valued function *)
Definition integral3 (f : R -> vec) (a b : R) (I : vec) : Prop :=
  is_RInt (fun s => vx (f s)) a b (vx I) /\ is_RInt (fun s => vy (f s)) a b (vy I) /\ is_RInt (fun s => vz (f s)) a b (vz I).
(** Symmetric positive definite matrices *)
Definition symmetric (m : mat) : Prop := mt m = m.
Definition positive_definite (m : mat) : Prop := forall v, v <> origin -> 0 < dot3 v (mv m v).
(** Every coordinate of v is at most e in absolute value *)
Definition within (e : R) (v : vec) : Prop := Rabs (vx v) <= e /\ Rabs (vy v) <= e /\ Rabs (vz v) <= e.
(** One damped Newton correction of the start tension, for nodes at p0 and pL: the correction d solves
    J d = - residual and a fraction k of it is applied; nothing else but the relaxation factor changes *)
Definition correction (p0 pL : vec) (l l' : line) : Prop :=
  exists r J d k, get_residual p0 pL l NWU = Ok r /\ analytical_jacobian l = Ok J /\ mv J d = scal3 (-1) r /\ 0 < k <= 1 /\
    set_relax l' (l_relax l) = with_tension l (plus3 (l_t0 l) (scal3 k d)).
Inductive corrections (p0 pL : vec) : nat -> line -> line -> Prop :=
| cor_one : forall l l', correction p0 pL l l' -> corrections p0 pL 1 l l'
| cor_more : forall n l l1 l', correction p0 pL l l1 -> corrections p0 pL n l1 l' -> corrections p0 pL (S n) l l'.
(** Calls that leave the length, the speed and the clock of the line alone *)
Definition about_solver (o : line_op) : bool :=
  match o with LSetTol _ | LSetIter _ | LSetRelax _ | LSetProps _ | LInit _ _ _ _ => true | _ => false end.
(** Length paid out over a history: speed times elapsed time for every Compute, starting from the length, the
    speed and the clock given; steps and speeds not above DBL_EPSILON count for nothing *)
Definition counts (x : R) : R := if Rlt_dec DBL_EPSILON (Rabs x) then x else 0.
Fixpoint paid_out (len speed clock : R) (ops : list line_op) : R :=
  match ops with
  | [] => len
  | LCompute _ _ t :: r => paid_out (len + counts speed * counts (t - clock)) speed t r
  | LSetLength x :: r => paid_out x speed clock r
  | LSetSpeed v :: r => paid_out len v clock r
  | _ :: r => paid_out len speed clock r
  end.
