(** Specification vocabulary for the spectra and the irregular wave fields (C41, C42, C44, C63, C64, C65). *)
From Coq Require Import Reals List.
From Coquelicot Require Import Coquelicot.
From Verif Require Import GeoModel WavModel WavSpec SeaModel.
Import ListNotations.
Open Scope R_scope.

(** The zero-order moment of a spectrum: integral over all positive frequencies *)
Definition zero_moment (S : R -> R) (m0 : R) : Prop := is_RInt_gen S (at_right 0) (Rbar_locally p_infty) m0.
(** Sum of a list *)
Definition total (l : list R) : R := fold_right Rplus 0 l.
(** Range covered by a list of frequencies *)
Definition covers (l : list R) (range : R) : Prop := exists a b, nth_error l 0 = Some a /\ nth_error l (length l - 1) = Some b /\ range = b - a.
(** The width given to frequency number i of the list *)
Definition width (v : list R) (i : nat) : R :=
  let n := length v in
  if Nat.eqb n 1 then 1
  else if Nat.eqb i 0 then nth 1 v 0 - nth 0 v 0
  else if Nat.eqb i (n - 1) then nth (n - 1) v 0 - nth (n - 2) v 0
  else (nth (i + 1) v 0 - nth (i - 1) v 0) / 2.
(** Trapezoidal rule for f over the list of abscissas *)
Fixpoint trapezoid (f : R -> R) (v : list R) : R :=
  match v with
  | a :: ((b :: _) as r) => (b - a) * (f a + f b) / 2 + trapezoid f r
  | _ => 0
  end.
(** Contract of tgamma used: factorials *)
Definition gamma_factorial (tgamma : R -> R) : Prop := forall n : nat, tgamma (INR n + 1) = INR (fact n).
(** The wave number of every frequency, for the surroundings [s]: exact in deep water, with the tolerance
    1e-6 of the solver otherwise *)
Definition wave_numbers (s : sea) (freqs ks : list R) : Prop :=
  Forall2 (fun w k => if s_inf s then w * w = s_grav s * k
                      else w * w / s_grav s <= k /\ Rabs (w * w * s_depth s / s_grav s - k * s_depth s * tanh (k * s_depth s)) <= 1 / 1000000) freqs ks.
(** Calls that keep the configuration self-made: no file, and at least one direction *)
Definition own_call (c : sea * iop) : Prop := match snd c with ILoad _ => False | IDir n _ _ => n <> 0%nat | _ => True end.
(** A document whose tables have the sizes of its lists of directions and frequencies *)
Definition doc_fits (d : document) : Prop :=
  d_freqs d <> [] /\ length (d_ks d) = length (d_freqs d) /\ length (d_amp d) = length (d_dirs d) /\ (forall r, In r (d_amp d) -> length r = length (d_freqs d)) /\
  length (d_phases d) = length (d_dirs d) /\ (forall r, In r (d_phases d) -> length r = length (d_freqs d)).
(** Simulation steps of the optimised irregular field: Update then StepFinalize *)
Fixpoint io_steps (o : iwo) (l : list (sea * R)) : res iwo :=
  match l with [] => Ok o | (s, t) :: r => o' <<- IO_finalize (IO_update s o t); io_steps o' r end.
