(** Properties C28 (time recorder) and C29 (trapezoidal quadrature).
    [on_polyline], [steps_within], [trapezoids], [polyline] are in SigSpec. *)
From Coq Require Import Reals List Lra Lia Arith.
From Coquelicot Require Import Coquelicot.
From Verif Require Import SigModel SigSpec SigProofs SigProofs2.
Import ListNotations.
Open Scope R_scope.

(** ** C28 *)
Lemma rec_const h : forall r, r_cap (rec_run r h) = r_cap r /\ r_step (rec_run r h) = r_step r.
Proof.
  induction h as [|p h IH]; intros r; [split; reflexivity|]. unfold rec_run in *. cbn [fold_left]. destruct (IH (Record_ r (fst p) (snd p))) as [-> ->].
  unfold Record_. destruct (r_data r); [split; reflexivity|]. destruct Req_EM_T; [split; reflexivity|]. destruct Rlt_dec; split; reflexivity.
Qed.
Lemma capacity_pos persistence step : 0 < step -> step <= persistence -> (1 <= capacity persistence step)%nat.
Proof.
  intros H1 H2. unfold capacity. destruct (base_Int_part (persistence / step)) as [A B].
  assert (1 <= persistence / step) by (apply Rmult_le_reg_r with step; [lra|]; field_simplify; lra).
  assert (0 < IZR (Int_part (persistence / step))) by lra. apply lt_IZR in H0. apply (Z2Nat.inj_le 1); lia.
Qed.
Lemma capacity_le persistence step : 0 < step -> 0 <= persistence -> INR (capacity persistence step) <= persistence / step.
Proof.
  intros H1 H2. unfold capacity. destruct (base_Int_part (persistence / step)) as [A B].
  assert (0 <= persistence / step) by (apply Rmult_le_pos; [lra|]; left; apply Rinv_0_lt_compat; lra).
  destruct (Z.le_gt_cases 0 (Int_part (persistence / step))).
  - rewrite INR_IZR_INZ, Z2Nat.id; auto.
  - replace (Z.to_nat (Int_part (persistence / step))) with 0%nat by lia. cbn. lra.
Qed.
(** Ages of the stored values: 0, delta, delta + step, delta + 2 step, ... *)
Definition ages (delta step : R) (n : nat) : list R :=
  match n with 0%nat => nil | S k => 0 :: map (fun j => delta + INR j * step) (seq 0 k) end.
Lemma ages_age delta step n : ages delta step n = map (age delta step) (seq 0 n).
Proof. destruct n; [reflexivity|]. cbn [ages seq map age]. f_equal. rewrite <- seq_shift, map_map. reflexivity. Qed.

(** For every recorder, new or cleared after any use, and every recording sequence with increments in
    (0, step]: the last time is the one recorded; the stored values are those of the polyline through the
    samples at the reported ages 0, delta, delta + step, ...; their number is the number of whole
    steps elapsed plus one, cut at the capacity, which is at most persistence / step. *)
Theorem C28_resampled_history : forall persistence step h0 h, 0 < step <= persistence -> h <> nil -> steps_within step h ->
  let s := rec_run (RClear (rec_run (newRecorder persistence step) h0)) h in
  exists delta m, 0 <= delta < step /\ last_time h - first_time h = INR m * step + delta /\
    GetLastTime s = last_time h /\
    length (GetData s) = Nat.min (capacity persistence step) (S m) /\
    INR (length (GetData s)) <= persistence / step /\
    GetTime s = ages delta step (length (GetData s)) /\
    forall i, (i < length (GetData s))%nat -> on_polyline h (last_time h - nth i (GetTime s) 0) (nth i (GetData s) 0).
Proof.
  intros persistence step h0 h Hs Hn W s.
  destruct (recorder_main (capacity persistence step) step (RClear (rec_run (newRecorder persistence step) h0)) h) as (delta & m & A & B & C & D & E & F); auto.
  - apply capacity_pos; lra.
  - lra.
  - cbn [RClear r_cap]. apply rec_const.
  - cbn [RClear r_step]. apply rec_const.
  - fold s in B, D, E, F. exists delta, m. repeat split; try apply A; auto.
    + apply Rle_trans with (INR (capacity persistence step)); [apply le_INR; lia|apply capacity_le; lra].
    + rewrite ages_age. exact E.
    + intros i Hi. rewrite E. replace (nth i (map (fun i => age delta step i) (seq 0 (length (GetData s)))) 0) with (age delta step i); [auto|].
      rewrite (nth_indep _ 0 (age delta step 0)) by (rewrite map_length, seq_length; auto). rewrite (map_nth (age delta step)), seq_nth; auto.
Qed.
(** A second value at the time of the last one is ignored. *)
Theorem C28_same_time_ignored : forall r h p v, r_data r = nil -> (1 <= r_cap r)%nat -> h <> nil -> last h (0, 0) = p ->
  Record_ (rec_run r h) (fst p) v = rec_run r h.
Proof.
  intros r h p v E Hc Hn Hp. destruct (samples_last h Hn) as (h' & q & ->). rewrite last_last in Hp. subst q.
  assert (N : forall h, h <> nil -> r_data (rec_run r h) <> nil).
  { intros h. induction h as [|a h IH] using rev_ind; [congruence|]. intros _. unfold rec_run. rewrite fold_left_app. cbn [fold_left]. fold (rec_run r h).
    unfold Record_. pose proof (proj1 (rec_const h r)) as Ec. destruct (r_data (rec_run r h)) eqn:F; cbn [r_data].
    - rewrite Ec. unfold push_front. destruct (r_cap r); [lia|]. discriminate.
    - destruct Req_EM_T; [congruence|]. destruct Rlt_dec; cbn [r_data]; [discriminate|]. rewrite Ec. unfold push_front. destruct (r_cap r); [lia|]. discriminate. }
  assert (L : r_last (rec_run r (h' ++ [p])) = fst p).
  { unfold rec_run. rewrite fold_left_app. cbn [fold_left]. fold (rec_run r h'). unfold Record_. destruct (r_data (rec_run r h')); [reflexivity|].
    destruct Req_EM_T; auto. destruct Rlt_dec; reflexivity. }
  apply (same_time _ v (fst p) v); auto.
Qed.
(** The value at any age up to the oldest one is the linear interpolation of the two neighbouring stored values. *)
Theorem C28_value_at_age : forall persistence step h t, 0 < step <= persistence -> h <> nil -> steps_within step h ->
  let s := rec_run (newRecorder persistence step) h in
  0 < t <= last (GetTime s) 0 ->
  exists i, (S i < length (GetData s))%nat /\ nth i (GetTime s) 0 < t <= nth (S i) (GetTime s) 0 /\
    GetDataAt s t = Some (affine (nth i (GetTime s) 0, nth i (GetData s) 0) (nth (S i) (GetTime s) 0, nth (S i) (GetData s) 0) t).
Proof.
  intros persistence step h t Hs Hn W s Ht.
  destruct (recorder_main (capacity persistence step) step (newRecorder persistence step) h) as (delta & m & A & B & C & D & E & F); auto; try reflexivity.
  - apply capacity_pos; lra.
  - lra.
  - fold s in B, D, E, F. set (n := length (GetData s)) in *.
    assert (NP : (1 <= n)%nat) by (pose proof (capacity_pos persistence step); rewrite D; specialize (H ltac:(lra) ltac:(lra)); lia).
    assert (NTH : forall i, (i < n)%nat -> nth i (GetTime s) 0 = age delta step i).
    { intros i Hi. rewrite E. rewrite (nth_indep _ 0 (age delta step 0)) by (rewrite map_length, seq_length; auto). rewrite (map_nth (age delta step)), seq_nth; auto. }
    destruct (get_data_at s n delta step t) as (i & P & Q & R0); auto; try lra.
    + split; [lra|]. replace (age delta step (n - 1)) with (last (GetTime s) 0); [lra|]. rewrite E. destruct n; [lia|].
      rewrite seq_S, map_app. cbn [map]. rewrite last_last. f_equal. lia.
    + exists i. rewrite !NTH by lia. auto.
Qed.
(** The mean is the average of the stored values. *)
Theorem C28_mean : forall r, GetData r <> nil -> GetMean r * INR (length (GetData r)) = fold_right Rplus 0 (GetData r).
Proof.
  intros r. unfold GetMean, GetData. intros H.
  assert (S1 : forall l, fold_left Rplus l 0 = fold_right Rplus 0 l) by (intros; apply fold_symmetric; intros; ring).
  destruct (r_data r) as [|a l]; [congruence|]. rewrite S1. field. apply not_0_INR. discriminate.
Qed.
Lemma poly_inv l t v : on_polyline l t v ->
  match l with nil => False | p :: h =>
    (t = fst p /\ v = snd p) \/ (exists q h', h = q :: h' /\ fst p <= t <= fst q /\ v = affine p q t) \/ on_polyline h t v end.
Proof. intros H; destruct H; cbn; auto. right; left; eauto. Qed.
(** Refuted for increments larger than the step: a value is extrapolated away from the signal. *)
Theorem C106_large_steps_refuted : exists h t v,
  let s := rec_run (newRecorder 10 1) h in
  In v (GetData s) /\ In t (GetTime s) /\ nth 1 (GetTime s) 0 = t /\ nth 1 (GetData s) 0 = v /\
  (forall w, on_polyline h (last_time h - t) w -> w = 2) /\ v = -11.
Proof.
  exists [(0, 0); (3, 3); (7/2, 10)], (3/2), (-11). cbv zeta.
  assert (C : capacity 10 1 = 10%nat).
  { unfold capacity. replace (Int_part (10 / 1)) with 10%Z; [reflexivity|]. symmetry. unfold Int_part.
    rewrite <- (tech_up (10 / 1) 11); [reflexivity| |]; rewrite ?plus_IZR; lra. }
  assert (S0 : rec_run (newRecorder 10 1) [(0, 0); (3, 3); (7/2, 10)] = Rec 10 1 [10; -11; 1] (7/2) 2 (3/2)).
  { unfold rec_run, newRecorder. rewrite C. cbn [fold_left fst snd].
    assert (R1 : Record_ (Rec 10 1 [] 0 0 0) 0 0 = Rec 10 1 [0] 0 0 0) by reflexivity. rewrite R1. clear R1.
    assert (R2 : Record_ (Rec 10 1 [0] 0 0 0) 3 3 = Rec 10 1 [3; 1] 3 1 2).
    { unfold Record_; cbn [r_data r_last r_prev r_step r_cap]. destruct Req_EM_T; [lra|]. destruct Rlt_dec; [lra|]. unfold push_front, Interpolate; cbn [firstn].
      f_equal; try lra. f_equal. f_equal. lra. }
    rewrite R2. unfold Record_; cbn [r_data r_last r_prev r_step r_cap]. destruct Req_EM_T; [lra|]. destruct Rlt_dec; [lra|].
    unfold push_front, Interpolate; cbn [firstn]. f_equal; try lra. f_equal. f_equal. lra. }
  rewrite S0. cbn [GetData r_data In GetTime length Nat.ltb Nat.leb app r_delta r_step seq map Nat.sub nth]. repeat split; auto.
  intros w Hw. cbn [last_time last fst] in Hw. replace (7/2 - 3/2) with 2 in Hw by lra.
  pose proof (poly_inv _ _ _ Hw) as [[E _]|[(q & h' & E & Ht & ->)|H]]; cbn [fst snd] in *; [lra| |].
  { injection E as <- <-. unfold affine; cbn. lra. }
  pose proof (poly_inv _ _ _ H) as [[E _]|[(q & h' & E & Ht & ->)|H']]; cbn [fst snd] in *; [lra|lra|].
  pose proof (poly_inv _ _ _ H') as [[E _]|[(q & h' & E & Ht & ->)|H'']]; cbn [fst snd] in *; [lra|discriminate|].
  inversion H''.
Qed.
Example C28_nonvacuous : steps_within 1 [(0, 5); (1/2, 6); (3/2, 4); (2, 0)] /\ 0 < 1 <= 10.
Proof. cbn. lra. Qed.

(** ** C29 *)
(** The quadrature is the composite trapezoidal rule, for every number of points (0 for less than two). *)
Theorem C29_trapezoidal_rule : forall x y, length x = length y -> TrapzLoc x y = Some (trapezoids x y).
Proof. exact trapz_spec. Qed.
(** It integrates every polyline exactly. *)
Theorem C29_exact_on_polylines : forall a x c y f, length x = length y -> increasing (a :: x) -> polyline (a :: x) (c :: y) f ->
  exists I, TrapzLoc (a :: x) (c :: y) = Some I /\ is_RInt f a (last x a) I.
Proof.
  intros a x c y f L Hi P. exists (trapezoids (a :: x) (c :: y)). split; [apply trapz_spec; cbn; auto|]. apply trapz_exact; auto.
Qed.
(** Linear and monotone in the ordinates, additive over adjacent intervals *)
Theorem C29_linear : forall x y z k Iy Iz, length x = length y -> length x = length z -> TrapzLoc x y = Some Iy -> TrapzLoc x z = Some Iz ->
  TrapzLoc x (map (fun p => k * fst p + snd p) (combine y z)) = Some (k * Iy + Iz).
Proof.
  intros x y z k Iy Iz A B. rewrite !trapz_spec; auto.
  - intros H1 H2. injection H1 as <-. injection H2 as <-. f_equal. apply trapz_linear; auto.
  - rewrite map_length, combine_length. lia.
Qed.
Theorem C29_monotone : forall x y z Iy Iz, increasing x -> length x = length y -> List.Forall2 Rle y z ->
  TrapzLoc x y = Some Iy -> TrapzLoc x z = Some Iz -> Iy <= Iz.
Proof.
  intros x y z Iy Iz Hi L F. rewrite !trapz_spec; auto.
  - intros H1 H2. injection H1 as <-. injection H2 as <-. apply trapz_mono; auto.
  - rewrite L. clear -F. induction F; cbn; auto.
Qed.
Theorem C29_additive : forall x1 y1 a c x2 y2 I1 I2, length x1 = length y1 -> length x2 = length y2 ->
  TrapzLoc (x1 ++ [a]) (y1 ++ [c]) = Some I1 -> TrapzLoc (a :: x2) (c :: y2) = Some I2 ->
  TrapzLoc (x1 ++ a :: x2) (y1 ++ c :: y2) = Some (I1 + I2).
Proof.
  intros x1 y1 a c x2 y2 I1 I2 A B. rewrite !trapz_spec by (rewrite ?app_length; cbn; lia).
  intros H1 H2. injection H1 as <-. injection H2 as <-. f_equal. apply trapz_split; auto.
Qed.
(** Lists of different lengths (more than one ordinate) stop the program. *)
Theorem C29_size_mismatch : forall x y, (1 < length y)%nat -> length x <> length y -> TrapzLoc x y = None.
Proof. exact trapz_assert. Qed.
Example C29_nonvacuous : increasing [0; 1; 3] /\ polyline [0; 1; 3] [1; 2; 4] (fun t => t + 1) /\ TrapzLoc [0; 1; 3] [1; 2; 4] = Some (15/2).
Proof.
  split; [cbn; lra|]. split; [cbn; unfold affine; cbn [fst snd]; repeat split; intros; field|].
  rewrite trapz_spec by reflexivity. f_equal. cbn. field.
Qed.
