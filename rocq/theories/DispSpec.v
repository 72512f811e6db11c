(** Specification vocabulary for the dispersion relation (C40). *)
From Coq Require Import Reals List.
Open Scope R_scope.

(** k is the wave number of a free linear wave of angular frequency w over the depth h under gravity g *)
Definition free_wave (g h w k : R) : Prop := 0 <= k /\ w * w = g * k * tanh (k * h).
(** A computation that may run for any number of turns ends with the answer a *)
Definition ends_with {A : Type} (run : nat -> option A) (a : A) : Prop := exists n, forall m, (n <= m)%nat -> run m = Some a.
