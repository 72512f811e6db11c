(** Theorems about the dispersion solver (C40) *)
From Coq Require Import Reals List Lra Lia Psatz.
From Coquelicot Require Import Coquelicot.
From Verif Require Import DispModel DispSpec DispProofs.
Import ListNotations.
Open Scope R_scope.

(** ** C40 *)
(** For every depth, frequency and positive gravity the solver ends, whatever the number of turns
    its loop needs. *)
Theorem C40_ends : forall h w g, 0 < g -> exists k, ends_with (fun n => SolveWaveDispersionRelation n h w g) k.
Proof.
  intros h w g G. unfold SolveWaveDispersionRelation. destruct (Rle_dec h 0) as [H|H].
  - exists (w * w / g), O. auto.
  - assert (A0 : 0 <= w * w / g * h). { apply Rmult_le_pos; [|lra]. apply Rmult_le_pos; [apply Rle_0_sqr|left; apply Rinv_0_lt_compat; auto]. }
    destruct (newton_ends _ A0) as (n & r & E & _). exists (r / h), n. intros m L. rewrite (newton_mono n _ _ _ E m L). reflexivity.
Qed.
(** The answer does not depend on the number of turns granted *)
Theorem C40_deterministic : forall h w g k n, SolveWaveDispersionRelation n h w g = Some k ->
  ends_with (fun n => SolveWaveDispersionRelation n h w g) k.
Proof.
  intros h w g k n H. exists n. intros m L. unfold SolveWaveDispersionRelation in *. destruct (Rle_dec h 0) as [Q|Q]; [exact H|].
  destruct (newton n (w * w / g * h) (w * w / g * h)) as [X|] eqn:E; [|discriminate]. rewrite (newton_mono n _ _ _ E m L). exact H.
Qed.
(** For every positive depth there is exactly one exact wave number, and the residual of the answer is
    below 1e-6 (in terms of kh tanh kh = w^2 h/g) *)
Theorem C40_exact_exists : forall g h w, 0 < g -> 0 < h -> exists k, free_wave g h w k /\ forall k', free_wave g h w k' -> k' = k.
Proof.
  intros g h w G H. assert (A0 : 0 <= w * w / g * h). { apply Rmult_le_pos; [|lra]. apply Rmult_le_pos; [apply Rle_0_sqr|left; apply Rinv_0_lt_compat; auto]. }
  destruct (gf_root _ A0) as (X & X0 & E). exists (X / h). split.
  - split; [apply Rmult_le_pos; [auto|left; apply Rinv_0_lt_compat; auto]|]. replace (X / h * h) with X by (field; lra). unfold gf in E.
    replace (g * (X / h) * tanh X) with (g / h * (X * tanh X)) by (field; lra). rewrite E. field. lra.
  - intros k' (K0 & K). assert (k' * h = X). { apply gf_inj; auto; [apply Rmult_le_pos; lra|]. rewrite E. unfold gf. rewrite K. field. lra. }
    rewrite <- H0. field. lra.
Qed.
Theorem C40_residual : forall n h w g k, 0 < g -> 0 < h -> SolveWaveDispersionRelation n h w g = Some k ->
  w * w / g <= k /\ Rabs (w * w * h / g - k * h * tanh (k * h)) <= 1 / 1000000.
Proof.
  intros n h w g k G H E. unfold SolveWaveDispersionRelation in E. destruct (Rle_dec h 0) as [Q|Q]; [lra|].
  set (A := w * w / g * h) in *. destruct (newton n A A) as [X|] eqn:N; [|discriminate]. injection E as <-.
  replace (X / h * h) with X by (field; lra). replace (w * w * h / g) with A by (unfold A; field; lra). split.
  - assert (A <= X). { assert (A0 : 0 <= A). { apply Rmult_le_pos; [|lra]. apply Rmult_le_pos; [apply Rle_0_sqr|left; apply Rinv_0_lt_compat; auto]. }
      destruct A0 as [A0|A0]; [apply (newton_ge n A A X A0 ltac:(lra) N)|].
      destruct (newton_ends A ltac:(lra)) as (m & r & Nr & L).
      pose proof (newton_mono n A A X N (n + m) ltac:(lia)) as E1. rewrite (newton_mono m A A r Nr (n + m) ltac:(lia)) in E1. injection E1 as <-. exact L. }
    apply Rmult_le_reg_r with h; auto. replace (X / h * h) with X by (field; lra). exact H0.
  - apply Rle_trans with tol; [apply (newton_exit n A A X N)|unfold tol; lra].
Qed.
(** Error bound: the answer k and the exact wave number k0 satisfy |k - k0| h tanh (max k k0 h) <= 1e-6,
    so |k - k0| h <= 1/900 for every depth and frequency *)
Theorem C40_accuracy : forall n h w g k k0, 0 < g -> 0 < h -> SolveWaveDispersionRelation n h w g = Some k -> free_wave g h w k0 ->
  Rabs (k - k0) * h * tanh (Rmax k k0 * h) <= 1 / 1000000 /\ Rabs (k - k0) * h <= 1 / 900.
Proof.
  intros n h w g k k0 G H E (K0 & K). destruct (C40_residual n h w g k G H E) as (L & Hr).
  assert (A0 : 0 <= w * w / g) by (apply Rmult_le_pos; [apply Rle_0_sqr|left; apply Rinv_0_lt_compat; auto]).
  replace (w * w * h / g) with (gf (k0 * h)) in Hr by (unfold gf; rewrite K; field; lra). change (k * h * tanh (k * h)) with (gf (k * h)) in Hr.
  assert (P : forall a b, 0 <= a -> a <= b -> Rabs (gf b - gf a) <= 1 / 1000000 -> Rabs (b - a) * tanh b <= 1 / 1000000 /\ Rabs (b - a) <= 1 / 900).
  { intros a b Ha L' B. pose proof (gf_diff a b Ha L') as D. apply Rabs_le_between in B. rewrite (Rabs_pos_eq (b - a)) by lra. split; [lra|].
    apply root_small; [lra|]. unfold tol. apply Rle_trans with ((b - a) * tanh b); [|lra]. apply Rmult_le_compat_l; [lra|]. apply tanh_le. lra. }
  rewrite <- (Rabs_pos_eq h) by lra. rewrite <- Rabs_mult. rewrite (Rabs_pos_eq h) by lra. replace ((k - k0) * h) with (k * h - k0 * h) by ring.
  destruct (Rle_dec k0 k) as [Q|Q].
  - rewrite Rmax_left by auto. apply P; [apply Rmult_le_pos; lra|apply Rmult_le_compat_r; lra|]. rewrite Rabs_minus_sym. exact Hr.
  - rewrite Rmax_right by lra. rewrite Rabs_minus_sym. apply P; [apply Rmult_le_pos; lra|apply Rmult_le_compat_r; lra|exact Hr].
Qed.
(** Non-positive depth: deep water *)
Theorem C40_deep : forall n h w g, h <= 0 -> SolveWaveDispersionRelation n h w g = Some (w * w / g).
Proof. intros n h w g H. unfold SolveWaveDispersionRelation. destruct (Rle_dec h 0); [reflexivity|contradiction]. Qed.
(** The overload on a vector answers frequency by frequency *)
Theorem C40_vector : forall n h ws g ks, SolveWaveDispersionRelationVect n h ws g = Some ks <->
  Forall2 (fun w k => SolveWaveDispersionRelation n h w g = Some k) ws ks.
Proof.
  intros n h ws g. induction ws as [|w ws IH]; intros ks; cbn.
  - split; [intros [= <-]; constructor|intros H; inversion H; reflexivity].
  - destruct (SolveWaveDispersionRelation n h w g) as [k|] eqn:E.
    + destruct (SolveWaveDispersionRelationVect n h ws g) as [kv|] eqn:F.
      * split; [intros [= <-]; constructor; [exact E|apply IH; reflexivity]|]. intros H. inversion H as [|? ? ? ? J1 J2]; subst. apply IH in J2. congruence.
      * split; [discriminate|]. intros H. inversion H as [|? ? ? ? J1 J2]; subst. apply IH in J2. discriminate.
    + split; [discriminate|]. intros H. inversion H; congruence.
Qed.
(** The error bound is absolute.  A user who expects a relative accuracy of the wave number is
    disappointed for long waves in shallow water: whatever the factor F there are a depth and a
    frequency for which the exact wave number exceeds F times the answer. *)
Theorem C113_relative_accuracy_refuted : forall F, 1 <= F -> exists h w g k k0, 0 < g /\ 0 < h /\
  ends_with (fun n => SolveWaveDispersionRelation n h w g) k /\ free_wave g h w k0 /\ F * k < k0.
Proof.
  intros F HF.
  set (A := / (1000000 * (F * F + 1))).
  assert (A0 : 0 < A) by (apply Rinv_0_lt_compat; nra).
  assert (A1 : A <= / 1000000) by (apply Rinv_le_contravar; nra).
  assert (AF : F * F * A < 1 / 1000000). { unfold A. assert (0 < F * F + 1) by nra. apply Rmult_lt_reg_r with (1000000 * (F * F + 1)); [nra|].
    replace (F * F * / (1000000 * (F * F + 1)) * (1000000 * (F * F + 1))) with (F * F) by (field; nra). nra. }
  destruct (gf_root A ltac:(lra)) as (X & X0 & E).
  exists 1, (sqrt A), 1, A, X. split; [lra|]. split; [lra|].
  assert (SQ : sqrt A * sqrt A = A) by (apply sqrt_sqrt; lra).
  split; [|split].
  - exists O. intros m _. unfold SolveWaveDispersionRelation. destruct (Rle_dec 1 0); [lra|]. rewrite SQ. replace (A / 1 * 1) with A by field.
    rewrite (newton_mono 0 A A A); [f_equal; field| |lia]. rewrite newton_unfold. destruct (Rlt_dec tol (Rabs (res A A))) as [Q|Q]; [|reflexivity].
    exfalso. unfold res, gf in Q. pose proof (tanh_pos A A0). pose proof (tanh_lt1 A). rewrite Rabs_pos_eq in Q by nra. unfold tol in Q. nra.
  - split; [auto|]. rewrite SQ, Rmult_1_r. unfold gf in E. lra.
  - destruct (Rlt_dec (F * A) X) as [Q|Q]; auto. exfalso.
    assert (gf X <= X * X) by (unfold gf; pose proof (tanh_le_id X X0); nra). assert (X * X <= (F * A) * (F * A)) by nra.
    assert (0 < F * A) by nra. assert (F * A * (F * A) < A); [|lra].
    assert (F * F * A * A < A * 1) by nra. lra.
Qed.
(** Example: a wave of period 2 pi over one metre of water under gravity 9.81 *)
Example C40_case : exists k k0, ends_with (fun n => SolveWaveDispersionRelation n 1 1 (981 / 100)) k /\ free_wave (981 / 100) 1 1 k0 /\ Rabs (k - k0) <= 1 / 900 /\ 0 < k0.
Proof.
  destruct (C40_ends 1 1 (981 / 100) ltac:(lra)) as (k & N). destruct (C40_exact_exists (981 / 100) 1 1 ltac:(lra) ltac:(lra)) as (k0 & K & _).
  exists k, k0. split; [exact N|]. split; [exact K|]. destruct N as (n & N). destruct (C40_accuracy n 1 1 (981 / 100) k k0 ltac:(lra) ltac:(lra) (N n (le_n n)) K) as (_ & B).
  split; [lra|]. destruct K as ([P|<-] & E); [auto|]. rewrite Rmult_0_l, tanh_0 in E. lra.
Qed.
