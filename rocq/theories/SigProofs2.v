From Coq Require Import Reals List Lra Lia Arith.
From Verif Require Import SigModel SigSpec.
Import ListNotations.
Open Scope R_scope.

(** ** Recorder *)
Lemma nth_firstn_lt {A} (l : list A) d : forall n i, (i < n)%nat -> nth i (firstn n l) d = nth i l d.
Proof. induction l as [|a l IH]; intros [|n] [|i] H; cbn; auto; try lia. apply IH. lia. Qed.
Lemma on_snoc h t v p : on_polyline h t v -> on_polyline (h ++ [p]) t v.
Proof.
  intros H. induction H; cbn [app].
  - apply at_sample.
  - apply between; auto.
  - apply later; auto.
Qed.
Lemma on_new h p : on_polyline (h ++ [p]) (fst p) (snd p).
Proof. induction h; cbn [app]; [destruct p; apply at_sample|apply later; auto]. Qed.
Lemma on_between h p q t : fst p <= t <= fst q -> on_polyline ((h ++ [p]) ++ [q]) t (affine p q t).
Proof. intros H. induction h; cbn [app]; [apply between; auto|apply later; auto]. Qed.
Lemma steps_snoc step h p q : steps_within step ((h ++ [p]) ++ [q]) <-> steps_within step (h ++ [p]) /\ 0 < fst q - fst p <= step.
Proof.
  induction h as [|a h IH]; cbn [app].
  - cbn. tauto.
  - destruct h as [|b h]; cbn [app] in *; cbn [steps_within] in *; [tauto|].
    change (a :: b :: (h ++ [p]) ++ [q]) with (a :: b :: (h ++ [p]) ++ [q]). tauto.
Qed.
Lemma last_snoc h p : last_time (h ++ [p]) = fst p.
Proof.
  destruct h as [|a h]; [reflexivity|]. cbn [app last_time]. rewrite last_last. reflexivity.
Qed.
Lemma first_snoc h p : h <> nil -> first_time (h ++ [p]) = first_time h.
Proof. destruct h; [congruence|reflexivity]. Qed.

Definition rec_run (r : recorder) (h : samples) : recorder := fold_left (fun r p => Record_ r (fst p) (snd p)) h r.
Record rinv (cap : nat) (step : R) (h : samples) (p : R * R) (r : recorder) (m : nat) : Prop := RInv {
  i_cap : r_cap r = cap;
  i_step : r_step r = step;
  i_last : r_last r = fst p;
  i_prev : r_prev r = first_time (h ++ [p]) + INR m * step;
  i_delta : 0 <= r_last r - r_prev r < step;
  i_dm : (1 <= m)%nat -> r_delta r = r_last r - r_prev r;
  i_len : length (r_data r) = Nat.min cap (S m);
  i_front : exists rest, r_data r = snd p :: rest;
  i_old : forall j, (S j < length (r_data r))%nat -> on_polyline (h ++ [p]) (r_prev r - INR j * step) (nth (S j) (r_data r) 0) }.

Lemma rinv_first cap step p r : (1 <= cap)%nat -> 0 < step -> r_cap r = cap -> r_step r = step -> r_data r = nil ->
  rinv cap step nil p (Record_ r (fst p) (snd p)) 0.
Proof.
  intros Hc Hs E1 E2 E3. unfold Record_. rewrite E3. destruct cap as [|cap]; [lia|].
  assert (L : push_front (r_cap r) (snd p) nil = [snd p]) by (rewrite E1; unfold push_front; cbn; destruct cap; reflexivity).
  rewrite L. constructor; cbn [r_cap r_step r_last r_prev r_delta r_data app first_time]; auto; try (cbn; lra).
  - intros; lia.
  - cbn. lia.
  - exists nil; auto.
  - intros j H. cbn in H. lia.
Qed.
Lemma rinv_step cap step h p q r m : (1 <= cap)%nat -> 0 < step -> rinv cap step h p r m -> 0 < fst q - fst p <= step ->
  exists m', rinv cap step (h ++ [p]) q (Record_ r (fst q) (snd q)) m'.
Proof.
  intros Hc Hs I Hq. destruct (i_front _ _ _ _ _ _ I) as [rest E]. pose proof (i_last _ _ _ _ _ _ I) as Hl. pose proof (i_delta _ _ _ _ _ _ I) as Hd.
  unfold Record_. rewrite E. destruct (Req_EM_T (fst q) (r_last r)) as [F|_]; [lra|].
  rewrite (i_step _ _ _ _ _ _ I).
  assert (Ff : first_time ((h ++ [p]) ++ [q]) = first_time (h ++ [p])) by (apply first_snoc; destruct h; discriminate).
  destruct (Rlt_dec (fst q - r_prev r) step) as [L|L].
  - exists m. constructor; cbn [r_cap r_step r_last r_prev r_delta r_data]; auto; try apply I; try lra.
    + rewrite Ff. apply I.
    + rewrite <- (i_len _ _ _ _ _ _ I), E. reflexivity.
    + eauto.
    + intros j Hj. apply on_snoc. change (nth (S j) (snd q :: rest) 0) with (nth (S j) (snd p :: rest) 0). rewrite <- E. apply I. rewrite E. exact Hj.
  - exists (S m). constructor; cbn [r_cap r_step r_last r_prev r_delta r_data]; auto; try apply I; try lra.
    + rewrite Ff, (i_prev _ _ _ _ _ _ I), S_INR. ring.
    + rewrite (i_cap _ _ _ _ _ _ I). unfold push_front. rewrite firstn_length. cbn [length].
      pose proof (i_len _ _ _ _ _ _ I) as N. rewrite E in N. cbn [length] in N. lia.
    + rewrite (i_cap _ _ _ _ _ _ I). destruct cap; [lia|]. unfold push_front. cbn [firstn]. eauto.
    + intros j Hj. rewrite (i_cap _ _ _ _ _ _ I) in *. unfold push_front in *. rewrite firstn_length in Hj. cbn [length] in Hj.
      rewrite nth_firstn_lt by lia. destruct j as [|j].
      * cbn [nth INR]. replace (r_prev r + step - 0 * step) with (r_prev r + step) by ring.
        replace (Interpolate (snd p) (r_last r) (r_prev r + step) (snd q) (fst q)) with (affine p q (r_prev r + step)).
        -- apply on_between. lra.
        -- unfold Interpolate, affine. rewrite Hl. field. lra.
      * apply on_snoc. change (nth (S (S j)) (snd q :: Interpolate (snd p) (r_last r) (r_prev r + step) (snd q) (fst q) :: rest) 0) with (nth (S j) (snd p :: rest) 0).
        rewrite <- E. rewrite S_INR. replace (r_prev r + step - (INR j + 1) * step) with (r_prev r - INR j * step) by ring. apply I. rewrite E. cbn [length]. lia.
Qed.
Lemma rinv_run cap step r h : forall p, (1 <= cap)%nat -> 0 < step -> r_cap r = cap -> r_step r = step -> r_data r = nil ->
  steps_within step (h ++ [p]) -> exists m, rinv cap step h p (rec_run r (h ++ [p])) m.
Proof.
  induction h as [|a h IH] using rev_ind; intros p Hc Hs E1 E2 E3 W.
  - exists 0%nat. cbn. apply rinv_first; auto.
  - apply steps_snoc in W. destruct W as [W Hp]. destruct (IH a Hc Hs E1 E2 E3 W) as [m I].
    unfold rec_run. rewrite fold_left_app. cbn [fold_left]. fold (rec_run r (h ++ [a])). eapply rinv_step; eauto.
Qed.

(** Ages *)
Definition age (delta step : R) (i : nat) : R := match i with 0%nat => 0 | S j => delta + INR j * step end.
Lemma GetTime_ages r : r_data r <> nil -> GetTime r = map (age (r_delta r) (r_step r)) (seq 0 (length (r_data r))).
Proof.
  intros H. unfold GetTime. destruct (r_data r) as [|a [|b l]]; [congruence|reflexivity|]. cbn [length].
  replace (Nat.ltb 1 (S (S (length l)))) with true by (symmetry; apply Nat.ltb_lt; lia).
  cbn [seq map app age]. f_equal. f_equal.
  - cbn. ring.
  - replace (S (S (length l)) - 2)%nat with (length l) by lia. rewrite <- (seq_shift (length l) 1), map_map. apply map_ext. intros i. reflexivity.
Qed.

Lemma same_time r d t v : r_data r <> nil -> r_last r = t -> Record_ r t d = r /\ Record_ r t v = r.
Proof.
  intros H E. unfold Record_. destruct (r_data r); [congruence|]. destruct (Req_EM_T t (r_last r)); [auto|congruence].
Qed.

Lemma samples_last (h : samples) : h <> nil -> exists h1 p, h = h1 ++ [p].
Proof. intros H. destruct (exists_last H) as (h' & p & E). eauto. Qed.

Lemma recorder_main cap step r h : (1 <= cap)%nat -> 0 < step -> r_cap r = cap -> r_step r = step -> r_data r = nil ->
  h <> nil -> steps_within step h ->
  let s := rec_run r h in
  exists delta m, 0 <= delta < step /\ GetLastTime s = last_time h /\
    last_time h - first_time h = INR m * step + delta /\
    length (GetData s) = Nat.min cap (S m) /\
    GetTime s = map (fun i => age delta step i) (seq 0 (length (GetData s))) /\
    forall i, (i < length (GetData s))%nat -> on_polyline h (last_time h - age delta step i) (nth i (GetData s) 0).
Proof.
  intros Hc Hs E1 E2 E3 Hn W s. destruct (samples_last h Hn) as (h' & p & ->).
  destruct (rinv_run cap step r h' p Hc Hs E1 E2 E3 W) as [m I]. fold s in I.
  exists (r_last s - r_prev s), m. rewrite last_snoc. unfold GetLastTime, GetData.
  assert (D : (1 < length (r_data s))%nat -> r_delta s = r_last s - r_prev s).
  { intros H. apply I. pose proof (i_len _ _ _ _ _ _ I). lia. }
  destruct (i_front _ _ _ _ _ _ I) as [rest E].
  split; [apply I|]. split; [apply I|]. split.
  { rewrite (i_prev _ _ _ _ _ _ I), (i_last _ _ _ _ _ _ I). ring. }
  split; [apply I|]. split.
  - rewrite GetTime_ages by (rewrite E; discriminate). rewrite (i_step _ _ _ _ _ _ I). apply map_ext_in. intros i Hi. apply in_seq in Hi.
    destruct i as [|j]; [reflexivity|]. cbn [age]. rewrite D by lia. reflexivity.
  - intros [|j] Hj.
    + cbn [age]. rewrite E. cbn [nth]. rewrite Rminus_0_r. apply on_new.
    + cbn [age]. rewrite <- (i_last _ _ _ _ _ _ I). replace (r_last s - (r_last s - r_prev s + INR j * step)) with (r_prev s - INR j * step) by ring. apply I; auto.
Qed.

(** lower_bound on increasing sequences *)
Lemma lower_bound_spec l t : (forall i, (i < lower_bound l t)%nat -> nth i l 0 < t) /\
  ((lower_bound l t < length l)%nat -> t <= nth (lower_bound l t) l 0) /\ (lower_bound l t <= length l)%nat.
Proof.
  induction l as [|x l (A & B & C)]; cbn [lower_bound]; [split; [intros i H; lia|]; split; [cbn; lia|cbn; lia]|].
  destruct (Rlt_dec x t) as [L|L].
  - split; [|split].
    + intros [|i] H; [exact L|]. apply A. lia.
    + intros H. apply B. cbn in H. lia.
    + cbn. lia.
  - split; [intros i H; lia|]. split; [intros _; cbn; lra|lia].
Qed.
Lemma lower_bound_pos l t : 0 < t -> (1 <= lower_bound (0%R :: l) t)%nat.
Proof. intros H. cbn. destruct (Rlt_dec 0 t); [lia|lra]. Qed.
Lemma get_data_at s n delta step t : length (r_data s) = n -> GetTime s = map (age delta step) (seq 0 n) -> 0 <= delta -> 0 < step ->
  (1 <= n)%nat -> 0 < t <= age delta step (n - 1) ->
  exists i, (S i < n)%nat /\ age delta step i < t <= age delta step (S i) /\
    GetDataAt s t = Some (affine (age delta step i, nth i (r_data s) 0) (age delta step (S i), nth (S i) (r_data s) 0) t).
Proof.
  intros Hn E Hd Hs H1 Ht. unfold GetDataAt. rewrite E. pose proof (lower_bound_spec (map (age delta step) (seq 0 n)) t) as (A & B & C).
  rewrite map_length, seq_length in B, C.
  assert (NTH : forall i, (i < n)%nat -> nth i (map (age delta step) (seq 0 n)) 0 = age delta step i).
  { intros i Hi. rewrite (nth_indep _ 0 (age delta step 0)) by (rewrite map_length, seq_length; auto). rewrite map_nth, seq_nth; auto. }
  destruct (lower_bound (map (age delta step) (seq 0 n)) t) as [|i] eqn:L.
  - exfalso. destruct n; [lia|]. cbn [seq map] in L. pose proof (lower_bound_pos (map (age delta step) (seq 1 n)) t ltac:(lra)). cbn [age] in L. lia.
  - assert (Hi : (S i < n)%nat).
    { destruct (Nat.lt_ge_cases (S i) n) as [|G]; auto. exfalso. assert (En : n = S i) by lia. specialize (A i ltac:(lia)). rewrite NTH in A by lia.
      replace (n - 1)%nat with i in Ht by lia. lra. }
    exists i. split; auto. specialize (A i ltac:(lia)). rewrite NTH in A by lia. specialize (B Hi). rewrite NTH in B by lia. split; [lra|].
    assert (NE : forall k, (k < n)%nat -> nth_error (map (age delta step) (seq 0 n)) k = Some (age delta step k)).
    { intros k Hk. rewrite (nth_error_nth' _ 0) by (rewrite map_length, seq_length; auto). rewrite NTH; auto. }
    rewrite (NE i), (NE (S i)) by lia. rewrite !(nth_error_nth' (r_data s) 0) by lia. f_equal.
    unfold affine. cbn [fst snd]. field. lra.
Qed.
