(** Masks; drift of regular waves *)
From Coq Require Import Reals List Bool ZArith Lra Lia Arith.
From Coquelicot Require Import Complex.
From Verif Require Import GeoModel GeoSpec GeoProofs BodyModel BodySpec BodyProofs3 BodyProofs4 BodyProps MeshModel MeshSpec SigSpec EqfModel EqfSpec EqfProofs EqfProofs2 SeaModel SeaProofs6 DispModel WavModel WavSpec WavProofs WavProofs2 WavProofs3 FloModel FloProofs FloProofs5 RadModel RadSpec RadProofs RadProofs5 RadProofs7 RadProofs8
  ExcModel ExcSpec ExcProofs ExcProofs2 ExcProofs3 ExcProofs4 ExcProofs5 ExcProofs7.
Import ListNotations.
Open Scope R_scope.
Local Notation turn := BodySpec.turn.

Ltac six n H := destruct n as [|[|[|[|[|[|[|n]]]]]]]; try (exfalso; lia).
Lemma prefix_binary n : binary (prefix_mask n).
Proof. intros i _. unfold prefix_mask. destruct (Nat.ltb i n); [right|left]; reflexivity. Qed.
Lemma prefix_active n : (n <= 6)%nat -> length (active (prefix_mask n)) = n.
Proof. intros H. six n H; reflexivity. Qed.
Lemma prefix_spread n T a i f : (n <= 6)%nat -> (i < n)%nat -> spread (prefix_mask n) T a i f = T a i f.
Proof.
  intros H Hi. unfold spread. assert (E : Z.eqb (prefix_mask n i) 1 = true) by (unfold prefix_mask; replace (Nat.ltb i n) with true by (symmetry; apply Nat.ltb_lt; exact Hi); reflexivity). rewrite E.
  assert (Rk : rank (prefix_mask n) i = i); [|rewrite Rk; reflexivity]. six n H; six i Hi; reflexivity.
Qed.
Lemma prefix_modes n L : (n <= 6)%nat -> let M := fun i => if Nat.ltb i n then L i else 0 in
  mode_sum rigid_modes LINEAR L n = V (M 0%nat) (M 1%nat) (M 2%nat) /\ mode_sum rigid_modes ANGULAR L n = V (M 3%nat) (M 4%nat) (M 5%nat).
Proof.
  intros H. cbv zeta. six n H; unfold mode_sum, rigid_modes, sum3; cbn [seq map nth_error bm_type bm_dir fold_right Nat.ltb Nat.leb]; unfold scal3, plus3, origin; cbn [vx vy vz]; split; apply vec_eq; cbn [vx vy vz]; ring.
Qed.
Lemma single_binary n : binary (single_mask n).
Proof. intros i _. unfold single_mask. destruct (Nat.eqb i n); [right|left]; reflexivity. Qed.
Lemma single_active n : (n < 6)%nat -> length (active (single_mask n)) = 1%nat.
Proof. intros H. six n H; reflexivity. Qed.
Lemma zero_load d T w eta k : good_db d -> (forall a f, T a k f = RtoC 0) -> wave_load d T w eta k = 0.
Proof.
  intros G H. unfold wave_load. rewrite (component_ext w _ (fun i j => 0)); [apply component_zero; reflexivity|]. intros i j _ _.
  assert (E : coefficient d T k (reduced (dir_of w j)) (om_of w i) = RtoC 0).
  { pose proof (coefficient_sum d T T k (reduced (dir_of w j)) (om_of w i)) as Q.
    rewrite (coefficient_ext d _ T) in Q by (intros a f; rewrite H; apply injective_projections; cbn; ring). destruct (coefficient d T k (reduced (dir_of w j)) (om_of w i)) as [x y]. unfold Cplus in Q. cbn [fst snd] in Q. inversion Q. unfold RtoC. f_equal; lra. }
  rewrite E. destruct (eta_of eta j i). unfold Im, Cmult, RtoC. cbn [fst snd]. ring.
Qed.
Lemma single_zero d n modes k D K w eta : good_db d -> (1 <= n < 6)%nat ->
  mode_sum modes LINEAR (wave_load d (spread (single_mask n) (tables_of k D K)) w eta) 1 = origin /\
  mode_sum modes ANGULAR (wave_load d (spread (single_mask n) (tables_of k D K)) w eta) 1 = origin.
Proof.
  intros G H. assert (Z : wave_load d (spread (single_mask n) (tables_of k D K)) w eta 0 = 0).
  { apply zero_load; [exact G|]. intros a f. unfold spread, single_mask. destruct n; [lia|]. reflexivity. }
  unfold mode_sum. cbn [seq map]. rewrite Z.
  split; (destruct (nth_error modes 0) as [m|]; [destruct (bm_type m)|]); unfold sum3, plus3, scal3, origin; cbn [fold_right vx vy vz]; apply vec_eq; cbn [vx vy vz]; ring.
Qed.
(** Drift with scaled amplitudes *)
Lemma drift_scaled t w1 w2 c psi U m : wv_freqs w2 = wv_freqs w1 -> wv_dirs w2 = wv_dirs w1 -> wv_ks w2 = wv_ks w1 ->
  (forall j i, amp_of w2 j i = c * amp_of w1 j i) -> drift_load t w2 psi U m = c ^ 2 * drift_load t w1 psi U m.
Proof.
  intros E1 E2 E3 E4. unfold drift_load, component_sum. rewrite E1, E2, <- total_scale. apply total_ext. intros i. rewrite <- total_scale. apply total_ext. intros j.
  rewrite E4. unfold om_of, k_of, dir_of. rewrite E1, E2, E3. ring.
Qed.
Lemma drift_regular_sized ip w : drift_sized (regular_waves ip w).
Proof. split; [discriminate|]. split; [reflexivity|]. split; [reflexivity|]. intros r [<-|[]]. reflexivity. Qed.
Lemma drift_regular_load ip w t psi U m : drift_load t (regular_waves ip w) psi U m =
  rw_height w ^ 2 * drift_coefficient t m (GetWaveDirections ip w RAD NWU GOTO - psi) (encounter (rw_omega w) (rw_k w) (GetWaveDirections ip w RAD NWU GOTO) U).
Proof. unfold drift_load, component_sum, amp_of, dir_of, om_of, k_of. cbn. rewrite !Rplus_0_r. reflexivity. Qed.
Lemma polar0_range ip psi : 0 <= psi <= 4 -> drift_in_range polar0 (regular_waves ip (reg0 0)) (- psi) origin.
Proof.
  intros H. pose proof PI_RGT_0 as P.
  assert (E0 : GetWaveDirections ip (reg0 0) RAD NWU GOTO = 0).
  { unfold GetWaveDirections. cbn [rw_dir reg0]. destruct ip; [|reflexivity]. apply reduced_id. lra. }
  unfold drift_in_range, dir_of, om_of, k_of, inside, encounter. cbn [regular_waves wv_dirs wv_freqs wv_ks length polar0 pl_x pl_y last nth]. split.
  - intros [|j] Hj; [|lia]. cbn [nth]. rewrite E0. lra.
  - intros [|i] [|j] Hi Hj; try lia. cbn [nth reg0 rw_omega rw_k]. unfold origin. cbn [vx vy vz]. lra.
Qed.
Lemma polar0_drift ip psi m : 0 <= psi <= 4 -> drift_load polar0 (regular_waves ip (reg0 0)) (- psi) origin m = if Nat.eqb m 1 then 1 else 0.
Proof.
  intros H. pose proof PI_RGT_0 as P. rewrite drift_regular_load.
  assert (E0 : GetWaveDirections ip (reg0 0) RAD NWU GOTO = 0).
  { unfold GetWaveDirections. cbn [rw_dir reg0]. destruct ip; [|reflexivity]. apply reduced_id. lra. }
  rewrite E0, polar0_value; cbn [reg0 rw_height rw_omega rw_k]; [ring|lra|]. unfold encounter, origin. cbn [vx vy vz]. lra.
Qed.
Lemma range_same d w1 w2 : same_components w1 w2 -> in_range d w1 -> in_range d w2.
Proof. intros [E1 E2]. unfold in_range. rewrite E1, E2. trivial. Qed.
Lemma load_same d T w1 w2 eta k : same_components w1 w2 -> wave_load d T w2 eta k = wave_load d T w1 eta k.
Proof. intros [E1 E2]. unfold wave_load, component_sum, dir_of, om_of. rewrite E1, E2. reflexivity. Qed.
Lemma turn_scaled b c x y z : reachable b -> turn (body_map b) (V (c * x) (c * y) (c * z)) = scal3 c (turn (body_map b) (V x y z)).
Proof.
  intros H. destruct (reach_can b H) as (F & v & d & cg & N & E & U & _). rewrite E, !turn_can, !qrotate_action by exact U. unfold quat_action, scal3, plus3, cross3, dot3, minus3. cbn [vx vy vz]. apply vec_eq; cbn [vx vy vz]; ring.
Qed.
