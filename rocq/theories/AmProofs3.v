(** Energy, round trip of momenta, sample fleets. *)
From Coq Require Import Reals List Bool Arith Lia Lra Psatz FunctionalExtensionality.
From Verif Require Import GeoModel GeoSpec BodyModel InertiaModel SeaModel FloModel RadModel RadSpec RadProofs7 RadProofs8 ExcProofs5 AmModel AmSpec AmProofs AmProofs2.
Import ListNotations.
Open Scope R_scope.

Lemma sum6_plus g h : sum6 (fun b => g b + h b) = sum6 g + sum6 h.
Proof. unfold sum6. cbn [map total]. ring. Qed.
Lemma sum6_ext g h : (forall b, (b < 6)%nat -> g b = h b) -> sum6 g = sum6 h.
Proof. intros H. unfold sum6. apply tot_in. intros b Hb. apply H. cbn in Hb. lia. Qed.
Lemma over_plus l g h : over l (fun b => g b + h b) = over l g + over l h.
Proof. apply total_plus. Qed.
Lemma over_ext l g h : (forall b, In b l -> g b = h b) -> over l g = over l h.
Proof. apply tot_in. Qed.
Lemma over_pick l (g : nat -> R) i : NoDup l -> In i l -> over l (fun j => if Nat.eqb i j then g j else 0) = g i.
Proof. intros Hn Hi. rewrite <- (pick g i l Hn Hi). apply tot_in. intros j _. unfold delta. destruct (Nat.eqb i j); ring. Qed.
Lemma momentum_split f A x i a : has_added_mass f A -> In i (bodies f) ->
  momentum f A x i a = over (bodies f) (fun j => sum6 (fun b => A i j a b * x j b)) + sum6 (fun b => GetMassMatrixAtCOG (fl_tensor f i) a b * x i b).
Proof.
  intros [Hn _] Ii. unfold momentum, inertia_of_pair. rewrite <- (over_pick (bodies f) (fun j => sum6 (fun b => GetMassMatrixAtCOG (fl_tensor f i) a b * x j b)) i Hn Ii).
  rewrite <- over_plus. apply over_ext. intros j _. destruct (Nat.eqb i j). { rewrite <- sum6_plus. apply sum6_ext. intros. ring. }
  rewrite Rplus_0_r. apply sum6_ext. intros. ring.
Qed.
Lemma over_nonneg l g : (forall i, In i l -> 0 <= g i) -> 0 <= over l g /\ (over l g = 0 -> forall i, In i l -> g i = 0).
Proof.
  unfold over. induction l as [|a l IH]; intros H; cbn [map total]. { split; [lra|]. intros _ i []. }
  assert (Ha := H a (or_introl eq_refl)). destruct IH as [I1 I2]. { intros. apply H. right. auto. }
  split; [lra|]. intros E i [<-|Hi]; [lra|]. apply I2; [lra|auto].
Qed.
Lemma energy_positive f A x : has_added_mass f A -> (forall y, 0 <= added_energy f A y) -> (forall i, In i (bodies f) -> massive (fl_tensor f i)) ->
  0 <= energy f A x /\ (energy f A x = 0 -> forall i a, In i (bodies f) -> (a < 6)%nat -> x i a = 0).
Proof.
  intros HA Hp Hm.
  assert (E : energy f A x = added_energy f A x + over (bodies f) (fun i => sum6 (fun a => x i a * sum6 (fun b => GetMassMatrixAtCOG (fl_tensor f i) a b * x i b)))).
  { unfold energy, added_energy. rewrite <- over_plus. apply over_ext. intros i Ii. rewrite <- sum6_plus. apply sum6_ext. intros a _. rewrite (momentum_split f A x i a HA Ii). ring. }
  destruct (over_nonneg (bodies f) (fun i => sum6 (fun a => x i a * sum6 (fun b => GetMassMatrixAtCOG (fl_tensor f i) a b * x i b)))) as [N1 N2].
  { intros i Ii. apply (Hm i Ii (x i)). }
  pose proof (Hp x). split; [lra|]. intros E0 i a Ii Ha. apply (proj2 (Hm i Ii (x i))); [|exact Ha]. apply N2; [lra|exact Ii].
Qed.
Lemma work f A g acc : (forall i a, In i (bodies f) -> (a < 6)%nat -> momentum f A acc i a = fl_fb g i a) ->
  over (bodies f) (fun i => sum6 (fun a => acc i a * fl_fb g i a)) = energy f A acc.
Proof. intros H. unfold energy. apply over_ext. intros i Ii. apply sum6_ext. intros a Ha. rewrite H by auto. reflexivity. Qed.
Lemma rest_force f A g acc : (forall i a, In i (bodies f) -> (a < 6)%nat -> momentum f A acc i a = fl_fb g i a) -> (forall i a, In i (bodies f) -> (a < 6)%nat -> acc i a = 0) ->
  forall i a, In i (bodies f) -> (a < 6)%nat -> fl_fb g i a = 0.
Proof.
  intros H H0 i a Ii Ha. rewrite <- H by auto. unfold momentum. rewrite (over_ext _ _ (fun _ => 0)). { unfold over. apply total_zero. reflexivity. }
  intros j Hj. rewrite (sum6_ext _ (fun _ => 0)). { unfold sum6. cbn. ring. } intros b Hb. rewrite H0 by auto. ring.
Qed.

(** ** By pairs: linear for all vectors *)
Lemma by_pairs_sum m N i v : forall l r0, (forall j, In j l -> m i j = Some (N i j)) -> exists r, by_pairs m i v l r0 = Ok r /\ forall a, (a < 6)%nat -> r a = r0 a + over l (fun j => sum6 (fun b => N i j a b * v j b)).
Proof.
  unfold over. induction l as [|j l IH]; intros r0 H; cbn [by_pairs]. { exists r0. split; [reflexivity|]. intros. cbn [map total]. ring. }
  unfold Compute_inc_invMb_v_of, GetInverseGeneralizedMass. rewrite (H j (or_introl eq_refl)). cbn [rbind].
  destruct (IH (inc_mul r0 (N i j) (v j)) (fun k K => H k (or_intror K))) as (r & E & Hr). exists r. split; [exact E|]. intros a Ha. rewrite Hr, inc_mul_sum by auto. cbn [map total]. ring.
Qed.
Lemma momentum_db f g A x i a : fl_db g = fl_db f -> fl_tensor g = fl_tensor f -> momentum g A x i a = momentum f A x i a.
Proof. intros E1 E2. unfold momentum, inertia_of_pair, bodies. rewrite E1, E2. reflexivity. Qed.
(** ** Momenta loaded into fb *)
Lemma momenta_loaded A : forall l f, has_added_mass f A -> all_active f -> NoDup l -> (forall i, In i l -> In i (bodies f)) -> exists g, load_momenta l f = Ok g /\
  fl_db g = fl_db f /\ fl_tensor g = fl_tensor f /\ fl_active g = fl_active f /\ fl_qb g = fl_qb f /\ (forall i, ~ In i l -> fl_fb g i = fl_fb f i) /\
  forall i a, In i l -> (a < 6)%nat -> fl_fb g i a = momentum f A (fl_qb f) i a.
Proof.
  induction l as [|i l IH]; intros f HA Hact Hn Hl; cbn [load_momenta]. { exists f. repeat split; try reflexivity. intros i a []. }
  inversion Hn as [|? ? Hni Hn']; subst. unfold VariablesFbIncrementMq. set (f0 := VariablesFbReset f i).
  assert (HA0 : has_added_mass f0 A) by exact HA. assert (Hact0 : all_active f0) by exact Hact.
  destruct (inc_mass f0 A i (fl_fb f0 i) HA0 (Hl i (or_introl eq_refl)) Hact0) as (r & Er & Hr). rewrite Er. cbn [rbind].
  destruct (IH (set_fb f0 i r) HA0 Hact0 Hn' (fun k K => Hl k (or_intror K))) as (g & Eg & G1 & G2 & G3 & G4 & G5 & G6). exists g. split; [exact Eg|].
  split; [rewrite G1; reflexivity|]. split; [rewrite G2; reflexivity|]. split; [rewrite G3; reflexivity|]. split; [rewrite G4; reflexivity|]. split.
  - intros k K. rewrite G5 by (intro; apply K; right; auto). cbn [set_fb f0 VariablesFbReset fl_fb]. unfold fupd. destruct (Nat.eqb_spec k i) as [->|]; [exfalso; apply K; left; reflexivity|reflexivity].
  - intros k a [<-|K] Ha.
    + rewrite G5 by exact Hni. unfold set_fb at 1. cbn [fl_fb]. unfold fupd at 1. rewrite Nat.eqb_refl. rewrite Hr by exact Ha.
      cbn [f0 VariablesFbReset set_fb fl_fb fl_qb]. unfold fupd. rewrite Nat.eqb_refl. unfold zero6. rewrite Rplus_0_l. apply momentum_db; reflexivity.
    + rewrite (G6 k a K Ha). apply momentum_db; reflexivity.
Qed.
