(** Wave loads: C81 (linear loads), C82 (linearity and bounds), C83 (excitation), C84 (initialisation), C85 (new waves), C86
    (heading), C87 (masks), C88 (drift), C89 (drift: quadratic, steady), C90 (drift: directions, axes), C91 (nonlinear
    Froude-Krylov), C92 (still water), C93 (drift and ramp). *)
From Coq Require Import Reals List Bool ZArith Lra Lia Arith Permutation.
From Coquelicot Require Import Complex.
From Verif Require Import GeoModel GeoSpec GeoProofs BodyModel BodySpec BodyProofs4 BodyProps MeshModel MeshSpec MeshProofs MeshProofs2 MeshProps SigSpec EqfModel EqfSpec EqfProofs EqfProofs2 SeaModel SeaProofs6 DispModel WavModel WavSpec WavProofs WavProofs2 WavProofs3 FloModel FloProofs FloProofs5 RadModel RadSpec RadProofs RadProofs5 RadProofs7 RadProofs8
  ExcModel ExcSpec ExcProofs ExcProofs2 ExcProofs3 ExcProofs4 ExcProofs5 ExcProofs6 ExcProofs7 ExcProofs8.
Import ListNotations.
Open Scope R_scope.
Local Notation turn := BodySpec.turn.

(** ** C81: the value of the load *)
(** A database with the six modes of a rigid body, read from the tables D and K; waves in the range of the database; a
    force initialised with these waves; an equilibrium frame that stands at P with heading psi.  Each mode receives the sum
    over the wave components of Im (eta X), eta the complex elevation at P and X the coefficient interpolated at the direction
    and frequency of the component; forces and moments are along the axes of the frame, at the centre of gravity. *)
Theorem C81_load : forall k d D K xb w f e b s P psi eta, good_db d -> loaded d all_on rigid_modes D K xb -> in_range d w -> ready k d xb w f ->
  reachable b -> stands (ef_frame e) P psi -> wv_eta w (vx P) (vy P) = Ok eta -> eta_sized w eta ->
  exists s', Compute_F_HDB xb w f e b s = Ok s' /\ let L := wave_load d (tables_of k D K) w eta in
    reads_as b s' (W (mv (Rz psi) (V (L 0%nat) (L 1%nat) (L 2%nat))) (mv (Rz psi) (V (L 3%nat) (L 4%nat) (L 5%nat))) (GetCOGPositionInWorld b NWU)).
Proof.
  intros k d D K xb w f e b s P psi eta G L I Rd Rb St He Hs.
  destruct (full_mask k d rigid_modes D K xb w f e b s eta G L I Rd) as (s' & E & H); try assumption; [cbn; lia|exact (stands_unit _ _ _ St)|rewrite (stands_at _ _ _ _ St); exact He|].
  exists s'. split; [exact E|]. cbv zeta in H |- *. rewrite rigid_force, rigid_moment, (stands_wrench _ _ _ _ _ _ St) in H. exact H.
Qed.
(** At the directions and frequencies of the file the coefficient is that of the file *)
Theorem C81_nodes : forall d T k a f, good_db d -> (a < d_n (x_dirs d))%nat -> (f < d_n (x_freqs d))%nat ->
  coefficient d T k (nth a (angles d) 0) (nth f (pulsations d) 0) = T a k f.
Proof. exact coefficient_node. Qed.
(** Regular waves: A (Re X sin a + Im X cos a), a the phase of the wave at P *)
Theorem C81_regular : forall ip w d T x y, exists eta, wv_eta (regular_waves ip w) x y = Ok eta /\ eta_sized (regular_waves ip w) eta /\
  forall k, wave_load d T (regular_waves ip w) eta k =
    response (rw_height w * b_ramp (rw_b w)) (coefficient d T k (reduced (rw_dir w)) (rw_omega w)) (rw_k w * (x * cos (rw_dir w) + y * sin (rw_dir w)) - rw_omega w * b_time (rw_b w)).
Proof.
  intros ip w d T x y. destruct (regular_eta ip w x y) as (eta & E & Sz & _). exists eta. split; [exact E|]. split; [exact Sz|]. intros k. exact (proj2 (regular_load ip w d T x y eta k E)).
Qed.
(** Irregular waves: the sum over the components, each with its phase *)
Theorem C81_irregular : forall ip w d T x y, tables_fit w -> exists eta, wv_eta (irregular_waves ip w) x y = Ok eta /\ eta_sized (irregular_waves ip w) eta /\
  forall k, wave_load d T (irregular_waves ip w) eta k =
    total (map (fun i => total (map (fun j => let c := nth j (iq_dirs w) 0 in
      response (nth i (nth j (iq_amp w) []) 0 * b_ramp (iq_b w)) (coefficient d T k (reduced c) (nth i (iq_freqs w) 0))
        (nth i (iq_ks w) 0 * (x * cos c + y * sin c) - nth i (iq_freqs w) 0 * b_time (iq_b w) + nth i (nth j (iq_phases w) []) 0)) (seq 0 (iq_nbDir w)))) (seq 0 (iq_nbFreq w))).
Proof.
  intros ip w d T x y T0. destruct (irregular_eta ip w x y T0) as (eta & E & Sz & _). exists eta. split; [exact E|]. split; [exact Sz|]. intros k. exact (proj2 (irregular_load ip w d T x y eta k T0 E)).
Qed.
(** A database, a wave, a frame and a ship that meet the hypotheses: a surge force 1 *)
Example C81_case : exists xb f eta s', let w := regular_waves true (reg0 PI) in
  good_db db0 /\ loaded db0 all_on rigid_modes (dir_table 0) no_table xb /\ in_range db0 w /\ ready Excitation db0 xb w f /\ reachable ship0 /\ stands (ef_frame (frame_at origin)) origin 0 /\
  wv_eta w 0 0 = Ok eta /\ eta_sized w eta /\ Compute_F_HDB xb w f (frame_at origin) ship0 (Force vzero vzero) = Ok s' /\ GetForceInWorld s' NWU = V 1 0 0.
Proof.
  destruct (loaded_exists db0 all_on rigid_modes (dir_table 0) no_table all_binary ltac:(discriminate)) as (xb & L). pose proof (reg0_range true PI (or_intror eq_refl)) as I.
  destruct (loaded_holds _ _ _ _ _ _ all_binary L) as (_ & _ & H). pose proof (init_ok Excitation db0 xb 6 _ (regular_waves true (reg0 PI)) db0_good I (H Excitation)) as Rd.
  destruct (C81_regular true (reg0 PI) db0 (tables_of Excitation (dir_table 0) no_table) 0 0) as (eta & E & Sz & _).
  destruct (C81_load Excitation db0 (dir_table 0) no_table xb _ _ (frame_at origin) ship0 (Force vzero vzero) origin 0 eta db0_good L I Rd ship0_ok (frame_stands origin) E Sz) as (s' & Es & Q).
  eexists xb, _, eta, s'. cbv zeta in *. split; [exact db0_good|]. split; [exact L|]. split; [exact I|]. split; [exact Rd|]. split; [exact ship0_ok|]. split; [apply frame_stands|]. split; [exact E|]. split; [exact Sz|]. split; [exact Es|].
  rewrite (reads_force _ _ _ Q). cbn [w_force]. rewrite !(load1 true) by exact E. unfold tables_of, dir_table, no_table. cbn [Nat.eqb]. unfold Cplus, Im, RtoC, Rz, mv, dot3. cbn. rewrite cos_0, sin_0. apply vec_eq; cbn [vx vy vz]; ring.
Qed.

(** ** C82: linearity and bounds *)
(** Three waves with the same frequencies and directions, the third elevation being the first plus c times the second: so are
    force and torque *)
Theorem C82_superposition : forall k d D K xb w1 w2 w3 f e b s P psi e1 e2 e3 c, good_db d -> loaded d all_on rigid_modes D K xb -> in_range d w1 -> ready k d xb w1 f ->
  same_components w1 w2 -> same_components w1 w3 -> reachable b -> stands (ef_frame e) P psi ->
  wv_eta w1 (vx P) (vy P) = Ok e1 -> wv_eta w2 (vx P) (vy P) = Ok e2 -> wv_eta w3 (vx P) (vy P) = Ok e3 -> eta_sized w1 e1 -> eta_sized w2 e2 -> eta_sized w3 e3 -> superposed_eta c e1 e2 e3 ->
  exists s1 s2 s3, Compute_F_HDB xb w1 f e b s = Ok s1 /\ Compute_F_HDB xb w2 f e b s = Ok s2 /\ Compute_F_HDB xb w3 f e b s = Ok s3 /\
    GetForceInWorld s3 NWU = plus3 (GetForceInWorld s1 NWU) (scal3 c (GetForceInWorld s2 NWU)) /\
    GetTorqueInWorldAtCOG b s3 NWU = plus3 (GetTorqueInWorldAtCOG b s1 NWU) (scal3 c (GetTorqueInWorldAtCOG b s2 NWU)).
Proof.
  intros k d D K xb w1 w2 w3 f e b s P psi e1 e2 e3 c G L I R1 S2 S3 Rb St E1 E2 E3 Z1 Z2 Z3 Sup.
  pose proof (ready_same k d xb w1 w2 f S2 R1) as R2. pose proof (ready_same k d xb w1 w3 f S3 R1) as R3. pose proof (range_same d w1 w2 S2 I) as I2. pose proof (range_same d w1 w3 S3 I) as I3.
  destruct (C81_load k d D K xb w1 f e b s P psi e1 G L I R1 Rb St E1 Z1) as (s1 & C1 & H1).
  destruct (C81_load k d D K xb w2 f e b s P psi e2 G L I2 R2 Rb St E2 Z2) as (s2 & C2 & H2).
  destruct (C81_load k d D K xb w3 f e b s P psi e3 G L I3 R3 Rb St E3 Z3) as (s3 & C3 & H3). cbv zeta in H1, H2, H3.
  exists s1, s2, s3. split; [exact C1|]. split; [exact C2|]. split; [exact C3|]. rewrite !(load_same d _ w1 w2 e2 _ S2) in H2. rewrite !(load_same d _ w1 w3 e3 _ S3) in H3. rewrite !(load_superposed d _ w1 e1 e2 e3 c _ Sup) in H3.
  destruct H1 as ((F1 & _) & (M1 & _) & _), H2 as ((F2 & _) & (M2 & _) & _), H3 as ((F3 & _) & (M3 & _) & _). rewrite (F1 NWU), (F2 NWU), (F3 NWU), (M1 NWU), (M2 NWU), (M3 NWU).
  unfold BodySpec.moment_of. cbn [w_force w_moment w_point convert]. generalize (GetCOGPositionInWorld b NWU). intros g.
  split; unfold Rz, mv, dot3, plus3, cross3, minus3, scal3; cbn [vx vy vz m00 m01 m02 m10 m11 m12 m20 m21 m22]; apply vec_eq; cbn [vx vy vz]; ring.
Qed.
(** Along the axes of the frame no load exceeds the sum of amplitude times modulus of the coefficient *)
Theorem C82_bound : forall k d D K xb w f e b s P psi eta, good_db d -> loaded d all_on rigid_modes D K xb -> in_range d w -> ready k d xb w f ->
  reachable b -> stands (ef_frame e) P psi -> wv_eta w (vx P) (vy P) = Ok eta -> eta_sized w eta ->
  exists s' L, Compute_F_HDB xb w f e b s = Ok s' /\
    reads_as b s' (W (mv (Rz psi) (V (L 0%nat) (L 1%nat) (L 2%nat))) (mv (Rz psi) (V (L 3%nat) (L 4%nat) (L 5%nat))) (GetCOGPositionInWorld b NWU)) /\
    forall m, Rabs (L m) <= component_sum w (fun i j => Cmod (eta_of eta j i) * Cmod (coefficient d (tables_of k D K) m (reduced (dir_of w j)) (om_of w i))).
Proof.
  intros k d D K xb w f e b s P psi eta G L I Rd Rb St He Hs. destruct (C81_load k d D K xb w f e b s P psi eta G L I Rd Rb St He Hs) as (s' & E & H).
  exists s', (wave_load d (tables_of k D K) w eta). split; [exact E|]. split; [exact H|]. intros m. apply load_bound.
Qed.
(** In a regular wave the load is a sine of the phase: amplitude |A| |X| at most, at each time, and a phase that does not depend on time *)
Theorem C82_harmonic : forall A X a, Rabs (response A X a) <= Rabs A * Cmod X /\ exists phi, forall t, response A X (a + t) = A * Cmod X * sin (a + t + phi).
Proof. intros A X a. split; [apply response_bound|apply response_form]. Qed.
Example C82_case : superposed_eta 2 [[(1, 0)]] [[(0, 3)]] [[(1, 6)]].
Proof. intros [|[|j]] [|[|i]]; unfold eta_of; cbn; unfold Cplus, Cmult, RtoC; cbn [fst snd]; f_equal; ring. Qed.

(** ** C83: the excitation load is the sum of the diffraction and Froude-Krylov loads *)
Theorem C83_excitation_is_sum : forall d D K xb w fd fk fe e b s P psi eta, good_db d -> loaded d all_on rigid_modes D K xb -> in_range d w ->
  ready Diffraction d xb w fd -> ready FroudeKrylov d xb w fk -> ready Excitation d xb w fe -> reachable b -> stands (ef_frame e) P psi -> wv_eta w (vx P) (vy P) = Ok eta -> eta_sized w eta ->
  exists sd sk se, Compute_F_HDB xb w fd e b s = Ok sd /\ Compute_F_HDB xb w fk e b s = Ok sk /\ Compute_F_HDB xb w fe e b s = Ok se /\
    GetForceInWorld se NWU = plus3 (GetForceInWorld sd NWU) (GetForceInWorld sk NWU) /\
    GetTorqueInWorldAtCOG b se NWU = plus3 (GetTorqueInWorldAtCOG b sd NWU) (GetTorqueInWorldAtCOG b sk NWU).
Proof.
  intros d D K xb w fd fk fe e b s P psi eta G L I R1 R2 R3 Rb St He Hs.
  destruct (C81_load Diffraction d D K xb w fd e b s P psi eta G L I R1 Rb St He Hs) as (sd & E1 & H1).
  destruct (C81_load FroudeKrylov d D K xb w fk e b s P psi eta G L I R2 Rb St He Hs) as (sk & E2 & H2).
  destruct (C81_load Excitation d D K xb w fe e b s P psi eta G L I R3 Rb St He Hs) as (se & E3 & H3). cbv zeta in H1, H2, H3.
  exists sd, sk, se. split; [exact E1|]. split; [exact E2|]. split; [exact E3|]. cbn [tables_of] in H3. rewrite !load_tables in H3. cbn [tables_of] in H1, H2.
  destruct H1 as ((F1 & _) & (M1 & _) & _), H2 as ((F2 & _) & (M2 & _) & _), H3 as ((F3 & _) & (M3 & _) & _). rewrite (F1 NWU), (F2 NWU), (F3 NWU), (M1 NWU), (M2 NWU), (M3 NWU).
  unfold BodySpec.moment_of. cbn [w_force w_moment w_point convert]. generalize (GetCOGPositionInWorld b NWU). intros g.
  split; unfold Rz, mv, dot3, plus3, cross3, minus3; cbn [vx vy vz m00 m01 m02 m10 m11 m12 m20 m21 m22]; apply vec_eq; cbn [vx vy vz]; ring.
Qed.
(** The hypotheses are met *)
Example C83_case : exists xb fd fk fe, let w := regular_waves true (reg0 PI) in loaded db0 all_on rigid_modes (dir_table 0) (dir_table 2) xb /\
  ready Diffraction db0 xb w fd /\ ready FroudeKrylov db0 xb w fk /\ ready Excitation db0 xb w fe /\ in_range db0 w.
Proof.
  destruct (loaded_exists db0 all_on rigid_modes (dir_table 0) (dir_table 2) all_binary ltac:(discriminate)) as (xb & L). pose proof (reg0_range true PI (or_intror eq_refl)) as I.
  destruct (loaded_holds _ _ _ _ _ _ all_binary L) as (_ & _ & H). do 4 eexists. cbv zeta. split; [exact L|].
  repeat (split; [exact (init_ok _ db0 xb 6 _ (regular_waves true (reg0 PI)) db0_good I (H _))|]). exact I.
Qed.

(** ** C84: initialisation *)
(** It succeeds exactly when every frequency and every direction (between 0 and 2 pi) is in the range of the database;
    otherwise the program stops *)
Theorem C84_initialisation : forall k d mask modes D K xb w, good_db d -> binary mask -> loaded d mask modes D K xb -> active mask <> [] -> wv_dirs w <> [] ->
  (in_range d w -> exists f, ready k d xb w f) /\ (~ in_range d w -> HF_Initialize k d xb w new_hforce = Fails).
Proof.
  intros k d mask modes D K xb w G B L Ha Hd. destruct (loaded_holds d mask modes D K xb B L) as (N & _ & H). split.
  - intros I. eexists. exact (init_ok k d xb 6 _ w G I (H k)).
  - intros I. apply (init_fails k d xb 6 (spread mask (tables_of k D K)) w G); [rewrite N; destruct (active mask); [congruence|cbn; lia]|exact Hd|exact I|exact (H k)].
Qed.
(** Every database whose frequencies are positive stops the program in still water *)
Theorem C92_still_water_refuted : forall k d mask modes D K xb, good_db d -> binary mask -> loaded d mask modes D K xb -> active mask <> [] -> 0 < d_min (x_freqs d) ->
  HF_Initialize k d xb null_waves new_hforce = Fails.
Proof.
  intros k d mask modes D K xb G B L Ha P. apply (proj2 (C84_initialisation k d mask modes D K xb null_waves G B L Ha ltac:(discriminate))). intros [H _]. inversion H as [|x l H1 H2]; subst. unfold inside, pulsations in H1.
  destruct G as (_ & _ & _ & G4). rewrite linspace_nth in H1 by lia. cbn [INR] in H1. lra.
Qed.
Example C84_case : exists xb, loaded db0 all_on rigid_modes (dir_table 0) no_table xb /\ active all_on <> [] /\ 0 < d_min (x_freqs db0) /\ ~ in_range db0 (regular_waves true (RW 1 1 3 1 0 (VF SNone true) (WB 1 0 0 true 1000 10))).
Proof.
  destruct (loaded_exists db0 all_on rigid_modes (dir_table 0) no_table all_binary ltac:(discriminate)) as (xb & L). exists xb. split; [exact L|]. split; [discriminate|]. split; [cbn; lra|].
  intros [H _]. inversion H as [|x l H1 H2]; subst. unfold inside in H1. rewrite db0_pulsations in H1. cbn in H1. lra.
Qed.

(** ** C85: new waves *)
(** Initialising again changes nothing: right when frequencies and directions are the same *)
Theorem C85_same_components : forall k d mask modes D K xb w1 w2 f, good_db d -> binary mask -> loaded d mask modes D K xb -> in_range d w1 -> wv_dirs w1 <> [] -> ready k d xb w1 f ->
  same_components w1 w2 -> HF_Initialize k d xb w2 f = Ok f /\ ready k d xb w2 f.
Proof.
  intros k d mask modes D K xb w1 w2 f G B L I Nd Rd Sm. split; [exact (again k d mask modes D K xb w1 w2 f G B L I Nd Rd)|exact (ready_same k d xb w1 w2 f Sm Rd)].
Qed.
(** Otherwise the coefficients of the old waves are kept: a wave turned by 180 degrees, initialised again, still loads
    with the coefficients of the first direction *)
Theorem C149_new_waves_refuted : exists d D K xb w1 w2 f f' eta s', good_db d /\ loaded d all_on rigid_modes D K xb /\ in_range d w1 /\ in_range d w2 /\ ready Excitation d xb w1 f /\
  HF_Initialize Excitation d xb w2 f = Ok f' /\ wv_eta w2 0 0 = Ok eta /\ eta_sized w2 eta /\ reachable ship0 /\ Compute_F_HDB xb w2 f' (frame_at origin) ship0 (Force vzero vzero) = Ok s' /\
  vx (GetForceInWorld s' NWU) = 0 /\ wave_load d (tables_of Excitation D K) w2 eta 0 = 1.
Proof.
  destruct (loaded_exists db0 all_on rigid_modes (dir_table 0) no_table all_binary ltac:(discriminate)) as (xb & L).
  pose proof (reg0_range true 0 (or_introl eq_refl)) as I1. pose proof (reg0_range true PI (or_intror eq_refl)) as I2.
  destruct (loaded_holds _ _ _ _ _ _ all_binary L) as (N & Mo & H). pose proof (init_ok Excitation db0 xb 6 _ (regular_waves true (reg0 0)) db0_good I1 (H Excitation)) as Rd.
  destruct (C81_regular true (reg0 PI) db0 (tables_of Excitation (dir_table 0) no_table) 0 0) as (eta & E & Sz & _).
  set (f := HF _ _) in Rd. pose proof (again Excitation db0 all_on rigid_modes (dir_table 0) no_table xb (regular_waves true (reg0 0)) (regular_waves true (reg0 PI)) f db0_good all_binary L I1 ltac:(discriminate) Rd) as Ag.
  set (w2' := Waves (wv_freqs (regular_waves true (reg0 0))) (wv_dirs (regular_waves true (reg0 0))) [] [] (wv_eta (regular_waves true (reg0 PI)))).
  assert (Rd' : ready Excitation db0 xb w2' f) by (apply (ready_same _ _ _ (regular_waves true (reg0 0))); [split; reflexivity|exact Rd]).
  destruct (C81_load Excitation db0 (dir_table 0) no_table xb w2' f (frame_at origin) ship0 (Force vzero vzero) origin 0 eta db0_good L I1 Rd' ship0_ok (frame_stands origin) E Sz) as (s' & Es & Q).
  exists db0, (dir_table 0), no_table, xb, (regular_waves true (reg0 0)), (regular_waves true (reg0 PI)), f, f, eta, s'.
  split; [exact db0_good|]. split; [exact L|]. split; [exact I1|]. split; [exact I2|]. split; [exact Rd|]. split; [exact Ag|]. split; [exact E|]. split; [exact Sz|]. split; [exact ship0_ok|]. split; [exact Es|]. split.
  - cbv zeta in Q. rewrite (reads_force _ _ _ Q). cbn [w_force].
    assert (Dz : reduced (GetWaveDirections true (reg0 0) RAD NWU GOTO) = 0) by (pose proof PI_RGT_0; transitivity (reduced 0); [exact (reduced_dir true 0)|apply reduced_id; lra]).
    assert (Z : forall k, wave_load db0 (tables_of Excitation (dir_table 0) no_table) w2' eta k = 0).
    { intros k. unfold wave_load, component_sum. cbn [w2' wv_freqs wv_dirs regular_waves length seq map total]. unfold dir_of, om_of. cbn [wv_dirs wv_freqs nth w2' regular_waves]. cbn [rw_omega reg0]. rewrite Dz, node0. unfold tables_of, dir_table, no_table. replace (_ + RtoC 0)%C with (RtoC 0) by (destruct (Nat.eqb k 0); cbn [INR]; unfold Cplus, RtoC; cbn [fst snd]; f_equal; ring). destruct (eta_of eta 0 0). unfold Im, Cmult, RtoC. cbn [fst snd]. ring. }
    rewrite !Z. unfold Rz, mv, dot3. cbn. ring.
  - rewrite (load1 true) by exact E. unfold tables_of, dir_table, no_table. cbn. ring.
Qed.

(** ** C86: heading *)
(** The coefficients are taken at the direction of the waves in the world although the loads are applied along the axes of the
    frame of the ship: after a turn by 180 degrees the same wave gives the same load in the axes of the ship, not that of a wave
    seen from the other side *)
Theorem C86_heading_refuted : exists d D K xb w f e b s s' P psi eta, good_db d /\ loaded d all_on rigid_modes D K xb /\ in_range d w /\ in_range d (seen_from psi w) /\ ready Excitation d xb w f /\
  reachable b /\ stands (ef_frame e) P psi /\ wv_eta w (vx P) (vy P) = Ok eta /\ eta_sized w eta /\ Compute_F_HDB xb w f e b s = Ok s' /\
  let L := wave_load d (tables_of Excitation D K) (seen_from psi w) eta in
  ~ reads_as b s' (W (mv (Rz psi) (V (L 0%nat) (L 1%nat) (L 2%nat))) (mv (Rz psi) (V (L 3%nat) (L 4%nat) (L 5%nat))) (GetCOGPositionInWorld b NWU)).
Proof.
  destruct (loaded_exists db0 all_on rigid_modes (dir_table 0) no_table all_binary ltac:(discriminate)) as (xb & L).
  pose proof (reg0_range true PI (or_intror eq_refl)) as I2.
  destruct (loaded_holds _ _ _ _ _ _ all_binary L) as (_ & _ & H). pose proof (init_ok Excitation db0 xb 6 _ (regular_waves true (reg0 PI)) db0_good I2 (H Excitation)) as Rd.
  destruct (C81_regular true (reg0 PI) db0 (tables_of Excitation (dir_table 0) no_table) 0 0) as (eta & E & Sz & _).
  destruct (C81_load Excitation db0 (dir_table 0) no_table xb _ _ about ship0 (Force vzero vzero) origin PI eta db0_good L I2 Rd ship0_ok about_stands E Sz) as (s' & Es & Q). cbv zeta in Q.
  assert (Dz : reduced (GetWaveDirections true (reg0 PI) RAD NWU GOTO - PI) = 0).
  { unfold GetWaveDirections. cbn [rw_dir reg0]. change (Normalize_0_2PI PI) with (reduced PI). pose proof PI_RGT_0. rewrite (reduced_id PI) by lra. replace (PI - PI) with 0 by ring. apply reduced_id. lra. }
  do 13 eexists. split; [exact db0_good|]. split; [exact L|]. split; [exact I2|]. split; [|split; [exact Rd|split; [exact ship0_ok|split; [exact about_stands|split; [exact E|split; [exact Sz|split; [exact Es|]]]]]]].
  - split; [exact (proj1 I2)|]. constructor; [|constructor]. rewrite Dz. unfold inside. rewrite db0_angles. cbn. pose proof PI_RGT_0. lra.
  - cbv zeta. intros Q2. pose proof (reads_force _ _ _ Q) as F1. rewrite (reads_force _ _ _ Q2) in F1. cbn [w_force] in F1. apply (f_equal vx) in F1.
    rewrite !(load1 true) in F1 by exact E. unfold wave_load, component_sum in F1. cbn [seen_from wv_freqs wv_dirs regular_waves length seq map total] in F1. unfold dir_of, om_of in F1. cbn [wv_dirs wv_freqs nth seen_from regular_waves map] in F1.
    rewrite Dz in F1. cbn [rw_omega reg0] in F1. rewrite !node0 in F1. unfold tables_of, dir_table, no_table in F1. cbn [Nat.eqb INR] in F1. unfold Rz, mv, dot3 in F1. cbn [vx vy vz m00 m01 m02] in F1. rewrite cos_PI, sin_PI in F1.
    destruct (eta_of eta 0 0). unfold Im, Cmult, Cplus, RtoC in F1. cbn [fst snd] in F1. lra.
Qed.

(** ** C87: masks *)
(** With the first n degrees of freedom active, exactly these receive the load of their row of the file *)
Theorem C87_prefix : forall n k d D K xb w f e b s P psi eta, (1 <= n <= 6)%nat -> good_db d -> loaded d (prefix_mask n) rigid_modes D K xb -> in_range d w -> ready k d xb w f ->
  reachable b -> stands (ef_frame e) P psi -> wv_eta w (vx P) (vy P) = Ok eta -> eta_sized w eta ->
  exists s', Compute_F_HDB xb w f e b s = Ok s' /\ let L := fun i => if Nat.ltb i n then wave_load d (tables_of k D K) w eta i else 0 in
    reads_as b s' (W (mv (Rz psi) (V (L 0%nat) (L 1%nat) (L 2%nat))) (mv (Rz psi) (V (L 3%nat) (L 4%nat) (L 5%nat))) (GetCOGPositionInWorld b NWU)).
Proof.
  intros n k d D K xb w f e b s P psi eta Hn G L I Rd Rb St He Hs.
  destruct (any_mask k d (prefix_mask n) rigid_modes D K xb w f e b s eta G (prefix_binary n) L I Rd) as (s' & E & H); try assumption; [rewrite prefix_active by lia; cbn; lia|exact (stands_unit _ _ _ St)|rewrite (stands_at _ _ _ _ St); exact He|].
  exists s'. split; [exact E|]. cbv zeta in H |- *. rewrite prefix_active in H by lia.
  assert (X : forall i, (i < n)%nat -> wave_load d (spread (prefix_mask n) (tables_of k D K)) w eta i = wave_load d (tables_of k D K) w eta i) by (intros i Hi; apply load_ext; intros a g; apply prefix_spread; lia).
  rewrite !(mode_sum_ext rigid_modes _ _ _ n X) in H. destruct (prefix_modes n (wave_load d (tables_of k D K) w eta) ltac:(lia)) as [M1 M2]. rewrite M1, M2, (stands_wrench _ _ _ _ _ _ St) in H. exact H.
Qed.
(** With one degree of freedom other than the first, the load is zero, whatever the coefficients of the file *)
Theorem C150_single_refuted : forall n k d modes D K xb w f e b s P psi eta, (1 <= n < 6)%nat -> modes <> [] -> good_db d -> loaded d (single_mask n) modes D K xb -> in_range d w -> ready k d xb w f ->
  reachable b -> stands (ef_frame e) P psi -> wv_eta w (vx P) (vy P) = Ok eta -> eta_sized w eta ->
  exists s', Compute_F_HDB xb w f e b s = Ok s' /\ reads_as b s' (W (V 0 0 0) (V 0 0 0) (GetCOGPositionInWorld b NWU)).
Proof.
  intros n k d modes D K xb w f e b s P psi eta Hn Hm G L I Rd Rb St He Hs.
  destruct (any_mask k d (single_mask n) modes D K xb w f e b s eta G (single_binary n) L I Rd) as (s' & E & H); try assumption; [rewrite single_active by lia; destruct modes; [congruence|cbn; lia]|exact (stands_unit _ _ _ St)|rewrite (stands_at _ _ _ _ St); exact He|].
  exists s'. split; [exact E|]. cbv zeta in H. rewrite single_active in H by lia. destruct (single_zero d n modes k D K w eta G Hn) as [Z1 Z2]. rewrite Z1, Z2, (stands_wrench _ _ _ _ _ _ St) in H.
  replace (mv (Rz psi) origin) with (V 0 0 0) in H by (unfold mv, dot3, origin; cbn [vx vy vz]; apply vec_eq; cbn [vx vy vz]; ring). exact H.
Qed.
(** Heave only, a file with a heave coefficient that is not zero *)
Example C87_case : exists xb f eta, let w := regular_waves true (reg0 PI) in loaded db0 (single_mask 2) [BMode LINEAR (V 0 0 1)] (dir_table 0) no_table xb /\ in_range db0 w /\ ready Excitation db0 xb w f /\
  wv_eta w 0 0 = Ok eta /\ wave_load db0 (tables_of Excitation (dir_table 0) no_table) w eta 0 = 1.
Proof.
  destruct (loaded_exists db0 (single_mask 2) [BMode LINEAR (V 0 0 1)] (dir_table 0) no_table (single_binary 2) ltac:(discriminate)) as (xb & L). pose proof (reg0_range true PI (or_intror eq_refl)) as I.
  destruct (loaded_holds _ _ _ _ _ _ (single_binary 2) L) as (_ & _ & H). destruct (C81_regular true (reg0 PI) db0 (tables_of Excitation (dir_table 0) no_table) 0 0) as (eta & E & _).
  eexists xb, _, eta. cbv zeta. split; [exact L|]. split; [exact I|]. split; [exact (init_ok Excitation db0 xb 6 _ (regular_waves true (reg0 PI)) db0_good I (H Excitation))|]. split; [exact E|].
  rewrite (load1 true) by exact E. unfold tables_of, dir_table, no_table. cbn. ring.
Qed.

(** ** C88: wave drift *)
(** In the range of the table: sum over the components of squared amplitude times the coefficient interpolated at the direction from
    the heading and at the encounter frequency; forces and moments along the axes of the body, at the centre of gravity *)
Theorem C88_drift : forall t w e b s P psi, good_polar t -> drift_sized w -> stands (ef_frame e) P psi -> - PI < psi <= PI -> drift_in_range t w psi (ef_vel e) -> reachable b ->
  exists s', Drift_Compute t w e b s = Ok s' /\ let L := drift_load t w psi (ef_vel e) in
    reads_as b s' (W (turn (body_map b) (V (L 0%nat) (L 1%nat) (L 2%nat))) (turn (body_map b) (V (L 3%nat) (L 4%nat) (L 5%nat))) (GetCOGPositionInWorld b NWU)).
Proof.
  intros t w e b s P psi G Sz St Bd I Rb. pose proof (stands_psi_of _ _ _ St Bd) as E. pose proof (drift_reads t w e b s G Sz) as H. rewrite E in H. exact (H I Rb).
Qed.
(** Outside of the range the program stops *)
Theorem C88_outside : forall t w e b s P psi m l, good_polar t -> drift_sized w -> wv_freqs w <> [] -> stands (ef_frame e) P psi -> - PI < psi <= PI -> (m < 6)%nat -> pl_series t m = Some l ->
  ~ drift_in_range t w psi (ef_vel e) -> Drift_Compute t w e b s = Fails.
Proof.
  intros t w e b s P psi m l G Sz Nf St Bd Hm Hl N. apply (drift_fails t w e b s m l); try assumption. rewrite (stands_psi_of _ _ _ St Bd). exact N.
Qed.
Example C88_case : exists s', Drift_Compute polar0 (regular_waves true (reg0 0)) (frame_at origin) ship0 (Force vzero vzero) = Ok s' /\ GetForceInWorld s' NWU = V 0 1 0.
Proof.
  pose proof PI_RGT_0 as P. destruct (polar0_range true 0 ltac:(lra)) as [H1 H2]. rewrite Ropp_0 in H1.
  destruct (C88_drift polar0 (regular_waves true (reg0 0)) (frame_at origin) ship0 (Force vzero vzero) origin 0 polar0_good (drift_regular_sized _ _) (frame_stands origin) ltac:(lra) (conj H1 H2) ship0_ok) as (s' & E & Q).
  exists s'. split; [exact E|]. cbv zeta in Q. rewrite (reads_force _ _ _ Q). cbn [w_force]. cbn [ef_vel frame_at].
  assert (V0 : forall m, drift_load polar0 (regular_waves true (reg0 0)) 0 origin m = if Nat.eqb m 1 then 1 else 0) by (intros m; rewrite <- (polar0_drift true 0 m ltac:(lra)), Ropp_0; reflexivity). rewrite !V0. cbn [Nat.eqb].
  destruct (moving_one origin origin origin) as (_ & _ & BM & _). unfold BodySpec.turn. change ship0 with (moving qone origin origin origin). rewrite !BM. unfold minus3, origin. apply vec_eq; cbn [vx vy vz]; ring.
Qed.

(** ** C89: the drift load is quadratic in the amplitudes and steady *)
Theorem C89_quadratic : forall t w1 w2 e b s P psi c, good_polar t -> drift_sized w1 -> drift_sized w2 -> stands (ef_frame e) P psi -> - PI < psi <= PI -> drift_in_range t w1 psi (ef_vel e) -> reachable b ->
  wv_freqs w2 = wv_freqs w1 -> wv_dirs w2 = wv_dirs w1 -> wv_ks w2 = wv_ks w1 -> (forall j i, amp_of w2 j i = c * amp_of w1 j i) ->
  exists s1 s2, Drift_Compute t w1 e b s = Ok s1 /\ Drift_Compute t w2 e b s = Ok s2 /\
    GetForceInWorld s2 NWU = scal3 (c ^ 2) (GetForceInWorld s1 NWU) /\ GetTorqueInWorldAtCOG b s2 NWU = scal3 (c ^ 2) (GetTorqueInWorldAtCOG b s1 NWU).
Proof.
  intros t w1 w2 e b s P psi c G Z1 Z2 St Bd I Rb E1 E2 E3 E4.
  assert (I2 : drift_in_range t w2 psi (ef_vel e)) by (unfold drift_in_range, dir_of, om_of, k_of in *; rewrite E1, E2, E3; exact I).
  destruct (C88_drift t w1 e b s P psi G Z1 St Bd I Rb) as (s1 & C1 & H1). destruct (C88_drift t w2 e b s P psi G Z2 St Bd I2 Rb) as (s2 & C2 & H2). cbv zeta in H1, H2.
  exists s1, s2. split; [exact C1|]. split; [exact C2|]. rewrite !(drift_scaled t w1 w2 c psi (ef_vel e) _ E1 E2 E3 E4) in H2.
  destruct H1 as ((F1 & _) & (M1 & _) & _), H2 as ((F2 & _) & (M2 & _) & _). rewrite (F1 NWU), (F2 NWU), (M1 NWU), (M2 NWU).
  unfold BodySpec.moment_of. cbn [w_force w_moment w_point convert]. change (fun x => body_map b x) with (body_map b). rewrite !(turn_scaled b _ _ _ _ Rb).
  generalize (GetCOGPositionInWorld b NWU), (turn (body_map b)). intros g T.
  split; unfold plus3, cross3, minus3, scal3; cbn [vx vy vz]; apply vec_eq; cbn [vx vy vz]; ring.
Qed.
(** It does not change from one update of the waves to another *)
Theorem C89_steady : forall t ip sea w T e b s, Drift_Compute t (regular_waves ip (R_update sea w T)) e b s = Drift_Compute t (regular_waves ip w) e b s.
Proof. reflexivity. Qed.
Theorem C89_steady_irregular : forall t ip sea w T e b s, Drift_Compute t (irregular_waves ip (I_update sea w T)) e b s = Drift_Compute t (irregular_waves ip w) e b s.
Proof. reflexivity. Qed.
Example C89_case : drift_load polar0 (regular_waves true (reg0 0)) 0 origin 1 = 1 /\ (forall j i, amp_of (regular_waves true (SetWaveHeight (reg0 0) 3)) j i = 3 * amp_of (regular_waves true (reg0 0)) j i).
Proof.
  split; [pose proof (polar0_drift true 0 1 ltac:(lra)) as H; rewrite Ropp_0 in H; exact H|]. intros [|[|j]] [|[|i]]; unfold amp_of; cbn; ring.
Qed.
(** Also during the ramp: in waves that the ramp holds at zero the drift load is that of the full waves *)
Theorem C93_ramp_refuted : exists t w e b s s', good_polar t /\ reachable b /\ b_ramp (rw_b w) = 0 /\ (forall x y, exists eta, wv_eta (regular_waves true w) x y = Ok eta /\ forall j i, eta_of eta j i = RtoC 0) /\
  Drift_Compute t (regular_waves true w) e b s = Ok s' /\ GetForceInWorld s' NWU = V 0 1 0.
Proof.
  destruct C88_case as (s' & E & F). exists polar0, (RW 1 (2 * PI) 1 1 0 (VF SNone true) (WB 0 0 0 true 1000 10)), (frame_at origin), ship0, (Force vzero vzero), s'.
  split; [exact polar0_good|]. split; [exact ship0_ok|]. split; [reflexivity|]. split; [|split; [exact E|exact F]].
  intros x y. destruct (regular_eta true (RW 1 (2 * PI) 1 1 0 (VF SNone true) (WB 0 0 0 true 1000 10)) x y) as (eta & Ee & Sz & V0). exists eta. split; [exact Ee|].
  cbn [rw_height rw_b b_ramp] in V0. unfold pt in V0. rewrite !Rmult_0_r, !Rmult_0_l in V0. destruct Sz as [S1 S2]. cbn in S1. destruct eta as [|r [|r2 eta]]; try discriminate. specialize (S2 r (or_introl eq_refl)). cbn in S2. destruct r as [|z [|z2 r]]; try discriminate.
  unfold eta_of in V0. cbn [nth] in V0. intros [|[|j]] [|[|i]]; unfold eta_of; cbn [nth]; try reflexivity; exact V0.
Qed.

(** ** C90: drift directions and axes *)
(** Directions from the heading are not reduced: on a table that starts at 0 or above, any wave with a direction below the
    heading stops the program *)
Theorem C90_direction_refuted : forall t w e b s P psi m l j, good_polar t -> 0 <= nth 0 (pl_x t) 0 -> drift_sized w -> wv_freqs w <> [] -> stands (ef_frame e) P psi -> - PI < psi <= PI ->
  (m < 6)%nat -> pl_series t m = Some l -> (j < length (wv_dirs w))%nat -> dir_of w j < psi -> Drift_Compute t w e b s = Fails.
Proof.
  intros t w e b s P psi m l j G X0 Sz Nf St Bd Hm Hl Hj Hd. apply (C88_outside t w e b s P psi m l); try assumption. intros [H _]. specialize (H j Hj). unfold inside in H. lra.
Qed.
Example C90_case : Drift_Compute polar0 (regular_waves true (reg0 0)) about ship0 (Force vzero vzero) = Fails.
Proof.
  pose proof PI_RGT_0 as P.
  refine (C90_direction_refuted polar0 _ about ship0 _ origin PI 1%nat [1; 1; 1; 1] 0%nat polar0_good _ (drift_regular_sized _ _) _ about_stands _ _ eq_refl _ _); [cbn; lra|discriminate|lra|lia|cbn; lia|].
  unfold dir_of. cbn [regular_waves wv_dirs nth]. unfold GetWaveDirections. cbn [rw_dir reg0]. change (Normalize_0_2PI 0) with (reduced 0). rewrite reduced_id by lra. exact P.
Qed.
(** The load turns with the roll of the body although it is a horizontal load of the equilibrium frame: a capsized ship
    is pushed to the other side *)
Theorem C90_axes_refuted : exists t w e b s s' P psi, good_polar t /\ drift_sized w /\ stands (ef_frame e) P psi /\ - PI < psi <= PI /\ drift_in_range t w psi (ef_vel e) /\ reachable b /\
  Drift_Compute t w e b s = Ok s' /\ drift_load t w psi (ef_vel e) 1 = 1 /\ GetForceInWorld s' NWU = V 0 (-1) 0.
Proof.
  pose proof PI_RGT_0 as P. destruct (polar0_range true 0 ltac:(lra)) as [H1 H2]. rewrite Ropp_0 in H1. destruct capsized_ok as [Rb Tb].
  destruct (C88_drift polar0 (regular_waves true (reg0 0)) (frame_at origin) capsized (Force vzero vzero) origin 0 polar0_good (drift_regular_sized _ _) (frame_stands origin) ltac:(lra) (conj H1 H2) Rb) as (s' & E & Q).
  assert (V0 : forall m, drift_load polar0 (regular_waves true (reg0 0)) 0 origin m = if Nat.eqb m 1 then 1 else 0) by (intros m; rewrite <- (polar0_drift true 0 m ltac:(lra)), Ropp_0; reflexivity).
  exists polar0, (regular_waves true (reg0 0)), (frame_at origin), capsized, (Force vzero vzero), s', origin, 0. split; [exact polar0_good|]. split; [apply drift_regular_sized|]. split; [apply frame_stands|]. split; [lra|]. split; [exact (conj H1 H2)|]. split; [exact Rb|]. split; [exact E|].
  split; [exact (V0 1%nat)|]. cbv zeta in Q. rewrite (reads_force _ _ _ Q). cbn [w_force ef_vel frame_at]. rewrite !V0, Tb. cbn [Nat.eqb vx vy vz]. apply vec_eq; cbn [vx vy vz]; ring.
Qed.

(** ** C91: nonlinear Froude-Krylov *)
(** Force and moment about every point: the sum over the triangles of minus the pressure at the centre times the area, along the
    normal; the triangles are those of the mesh, moved horizontally with the body *)
Theorem C91_wrench : forall p m b s, reachable b -> exists w, reads_as b (NLFK_Compute p (facets m) b s) w /\
  w_force w = sum3 (map (patch_force p (body_point b)) (patches m)) /\
  forall P, BodySpec.moment_of w P = sum3 (map (fun t => cross3 (minus3 (world_centre (body_point b) t) P) (patch_force p (body_point b) t)) (patches m)).
Proof. exact nlfk_reads. Qed.
(** For pressures that are affine functions of the position, the force on each triangle is the exact integral *)
Theorem C91_affine_exact : forall c g o t, patch_force (affine_pressure c g) o t = exact_force (affine_pressure c g) o t.
Proof. exact affine_exact. Qed.
(** On a closed surface an affine pressure gives minus its gradient times the volume; a uniform pressure gives neither force nor moment *)
Theorem C91_closed : forall c g m b s, reachable b -> watertight (patches m) -> exists w, reads_as b (NLFK_Compute (affine_pressure c g) (facets m) b s) w /\
  w_force w = scal3 (- volume (patches m)) g /\ (g = origin -> forall P, BodySpec.moment_of w P = origin).
Proof.
  intros c g m b s Rb Wt. destruct (nlfk_reads (affine_pressure c g) m b s Rb) as (w & H & F & M). exists w. split; [exact H|]. split; [rewrite F; apply affine_closed; exact Wt|].
  intros -> P. rewrite M. apply uniform_moment. exact Wt.
Qed.
(** A closed tetrahedron with volume 1/6 *)
Example C91_case : exists m, watertight (patches m) /\ volume (patches m) = 1 / 6.
Proof.
  exists (Mesh [V 0 0 0; V 1 0 0; V 0 1 0; V 0 0 1] [(0, 2, 1); (0, 1, 3); (0, 3, 2); (1, 2, 3)]%nat [] None). split.
  - unfold watertight, patches, soup_of, soup_edges. cbn. apply NoDup_Permutation_bis; [|cbn; lia|].
    + repeat (constructor; [cbn; intros Hc; repeat (destruct Hc as [Hc|Hc]; [injection Hc; intros; lra|]); exact Hc|]). constructor.
    + unfold flip. cbn [map fst snd]. intros x Hx. repeat (destruct Hx as [<-|Hx]; [cbn; tauto|]). destruct Hx.
  - rewrite C32_signed_tetrahedra. unfold patches, soup_of. cbn. unfold sum, det3, dot3, cross3. cbn. field.
Qed.
