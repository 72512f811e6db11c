(** Standing frames, regular and irregular waves, linearity, bounds, samples *)
From Coq Require Import Reals List Bool ZArith Lra Lia Arith.
From Coquelicot Require Import Complex.
From Verif Require Import GeoModel GeoSpec GeoProofs GeoProofs2 GeoProofs3 BodyModel BodySpec BodyProofs4 BodyProps MeshModel MeshSpec SigSpec EqfModel EqfSpec EqfProofs EqfProofs2 SeaModel SeaProofs6 DispModel WavModel WavSpec WavProofs WavProofs2 WavProofs3 FloModel FloProofs FloProofs5 RadModel RadSpec RadProofs RadProofs5 RadProofs7 RadProofs8
  ExcModel ExcSpec ExcProofs ExcProofs2 ExcProofs3 ExcProofs4 ExcProofs5.
Import ListNotations.
Open Scope R_scope.
Local Notation turn := BodySpec.turn.

Lemma stands_wrench e P psi G F M : stands (ef_frame e) P psi -> wrench_in e G F M = W (mv (Rz psi) F) (mv (Rz psi) M) G.
Proof.
  intros H. destruct (stands_parts _ _ _ H) as (U & _ & Q). unfold wrench_in. rewrite <- !qrotate_action by exact U. rewrite !Q. reflexivity.
Qed.
Lemma stands_unit e P psi : stands (ef_frame e) P psi -> unitq (frot (ef_frame e)).
Proof. intros H. destruct (stands_parts _ _ _ H) as (U & _). exact U. Qed.
Lemma stands_at w e P psi : stands (ef_frame e) P psi -> at_frame w e = wv_eta w (vx P) (vy P).
Proof. intros H. destruct (stands_parts _ _ _ H) as (_ & E & _). unfold at_frame. rewrite E. reflexivity. Qed.
Lemma stands_psi_of e P psi : stands (ef_frame e) P psi -> - PI < psi <= PI -> psi_of e = psi.
Proof. intros H B. exact (stands_psi _ _ _ H B). Qed.

Lemma coefficient_node d T k a f : good_db d -> (a < d_n (x_dirs d))%nat -> (f < d_n (x_freqs d))%nat ->
  coefficient d T k (nth a (angles d) 0) (nth f (pulsations d) 0) = T a k f.
Proof.
  intros G Ha Hf. pose proof (angles_inc d G) as IA. pose proof (pulsations_inc d G) as IP. pose proof (angles_length d) as LA. pose proof (pulsations_length d) as LP. destruct G as (_ & G2 & _ & G4).
  assert (P : forall part : C -> R, part_at d T part k (nth a (angles d) 0) (nth f (pulsations d) 0) = part (T a k f)).
  { intros part. unfold part_at. rewrite interpolated_node; [|exact IP|rewrite map_length, seq_length, LP; reflexivity|lia|lia]. rewrite nth_map_seq by exact Hf.
    rewrite interpolated_node; [|exact IA|rewrite map_length, seq_length, LA; reflexivity|lia|lia]. exact (nth_map_seq (fun a => part (T a k f)) _ _ 0 Ha). }
  unfold coefficient. rewrite !P. destruct (T a k f). reflexivity.
Qed.
Lemma reduced_twice a : reduced (reduced a) = reduced a.
Proof. unfold reduced at 1. apply norm_id. exact (norm2pi_range a). Qed.
Lemma reduced_id a : 0 <= a < 2 * PI -> reduced a = a.
Proof. intros H. apply norm_id. exact H. Qed.
Lemma reduced_dir (ip : bool) a : reduced (if ip then Normalize_0_2PI a else a) = reduced a.
Proof. destruct ip; [exact (reduced_twice a)|reflexivity]. Qed.

Lemma regular_load ip w d T x y eta k : wv_eta (regular_waves ip w) x y = Ok eta ->
  eta_sized (regular_waves ip w) eta /\ wave_load d T (regular_waves ip w) eta k =
  response (rw_height w * b_ramp (rw_b w)) (coefficient d T k (reduced (rw_dir w)) (rw_omega w)) (rw_k w * (x * cos (rw_dir w) + y * sin (rw_dir w)) - rw_omega w * b_time (rw_b w)).
Proof.
  intros E. destruct (regular_eta ip w x y) as (eta' & E' & Sz & V). rewrite E in E'. inversion E'; subst eta'. split; [exact Sz|].
  unfold wave_load, component_sum. cbn [regular_waves wv_freqs wv_dirs length seq map total]. rewrite !Rplus_0_r. rewrite V, im_response. f_equal. unfold dir_of, om_of. cbn [wv_dirs wv_freqs nth].
  f_equal. unfold GetWaveDirections. apply reduced_dir.
Qed.
Lemma irregular_load ip w d T x y eta k : tables_fit w -> wv_eta (irregular_waves ip w) x y = Ok eta ->
  eta_sized (irregular_waves ip w) eta /\ wave_load d T (irregular_waves ip w) eta k =
  total (map (fun i => total (map (fun j => let c := nth j (iq_dirs w) 0 in
    response (nth i (nth j (iq_amp w) []) 0 * b_ramp (iq_b w)) (coefficient d T k (reduced c) (nth i (iq_freqs w) 0))
      (nth i (iq_ks w) 0 * (x * cos c + y * sin c) - nth i (iq_freqs w) 0 * b_time (iq_b w) + nth i (nth j (iq_phases w) []) 0)) (seq 0 (iq_nbDir w)))) (seq 0 (iq_nbFreq w))).
Proof.
  intros T0 E. destruct (irregular_eta ip w x y T0) as (eta' & E' & Sz & V). rewrite E in E'. inversion E'; subst eta'. split; [exact Sz|]. destruct T0 as (T1 & T2 & T3).
  unfold wave_load, component_sum. cbn [irregular_waves wv_freqs wv_dirs]. rewrite map_length. rewrite T1, T2. f_equal. apply map_ext_in. intros i Hi. apply in_seq in Hi. f_equal. apply map_ext_in. intros j Hj. apply in_seq in Hj.
  rewrite V by lia. rewrite im_response. unfold dir_of, om_of. cbn [wv_dirs wv_freqs irregular_waves]. cbv zeta.
  assert (RD : reduced (nth j (map (fun dir => if ip then Normalize_0_2PI dir else dir) (iq_dirs w)) 0) = reduced (nth j (iq_dirs w) 0)).
  { rewrite (nth_indep _ 0 (if ip then Normalize_0_2PI 0 else 0)) by (rewrite map_length; lia). rewrite (map_nth (fun dir => if ip then Normalize_0_2PI dir else dir)). apply reduced_dir. }
  rewrite RD. f_equal.
Qed.
(** Linearity *)
Lemma component_lin w c f g : component_sum w (fun i j => f i j + c * g i j) = component_sum w f + c * component_sum w g.
Proof.
  unfold component_sum. rewrite <- total_scale, <- total_plus. apply total_ext. intros i. rewrite <- total_scale, <- total_plus. apply total_ext. reflexivity.
Qed.
Lemma load_superposed d T w e1 e2 e3 c k : superposed_eta c e1 e2 e3 -> wave_load d T w e3 k = wave_load d T w e1 k + c * wave_load d T w e2 k.
Proof.
  intros H. unfold wave_load. rewrite <- component_lin. apply component_ext. intros i j _ _. rewrite H. set (X := coefficient _ _ _ _ _). destruct (eta_of e1 j i), (eta_of e2 j i), X. unfold Im, Cmult, Cplus, RtoC. cbn [fst snd]. ring.
Qed.
Lemma load_tables d T U w eta k : wave_load d (fun a m f => (T a m f + U a m f)%C) w eta k = wave_load d T w eta k + wave_load d U w eta k.
Proof.
  unfold wave_load. rewrite <- (Rmult_1_l (component_sum w (fun i j => Im (eta_of eta j i * coefficient d U _ _ _)%C))). rewrite <- component_lin. apply component_ext. intros i j _ _.
  rewrite coefficient_sum. set (X := coefficient d T _ _ _). set (Y := coefficient d U _ _ _). destruct (eta_of eta j i), X, Y. unfold Im, Cmult, Cplus. cbn [fst snd]. ring.
Qed.
(** Bounds *)
Lemma total_bound {A : Type} (f g : A -> R) : (forall a, Rabs (f a) <= g a) -> forall l, Rabs (total (map f l)) <= total (map g l).
Proof.
  intros H. induction l as [|a l IH]; cbn [map total]; [rewrite Rabs_R0; lra|]. eapply Rle_trans; [apply Rabs_triang|]. specialize (H a). lra.
Qed.
Lemma Im_bound z : Rabs (Im z) <= Cmod z.
Proof. destruct z as [a b]. unfold Im, Cmod. cbn [fst snd]. rewrite <- sqrt_Rsqr_abs. apply sqrt_le_1_alt. unfold Rsqr. nra. Qed.
Lemma load_bound d T w eta k : Rabs (wave_load d T w eta k) <= component_sum w (fun i j => Cmod (eta_of eta j i) * Cmod (coefficient d T k (reduced (dir_of w j)) (om_of w i))).
Proof.
  unfold wave_load, component_sum. apply total_bound. intros i. apply total_bound. intros j. eapply Rle_trans; [apply Im_bound|]. rewrite Cmod_mult. lra.
Qed.
Lemma response_bound A X a : Rabs (response A X a) <= Rabs A * Cmod X.
Proof.
  unfold response. rewrite Rabs_mult. apply Rmult_le_compat_l; [apply Rabs_pos|]. destruct X as [x y]. unfold Re, Im, Cmod. cbn [fst snd]. rewrite <- sqrt_Rsqr_abs. apply sqrt_le_1_alt. unfold Rsqr. pose proof (sin2_cos2 a) as S2. unfold Rsqr in S2.
  set (s := sin a) in *. set (c := cos a) in *. clearbody s c.
  replace (x ^ 2 + y ^ 2) with ((x ^ 2 + y ^ 2) * (s * s + c * c)) by (rewrite S2; ring). pose proof (Rle_0_sqr (x * c - y * s)) as Q. unfold Rsqr in Q. nra.
Qed.
Lemma response_form A X a : exists phi, forall t, response A X (a + t) = A * Cmod X * sin (a + t + phi).
Proof.
  destruct (Req_dec (Cmod X) 0) as [E|N].
  - exists 0. intros t. apply Cmod_eq_0 in E. subst X. unfold response. cbn [Re Im fst snd]. rewrite Cmod_0. unfold Re, Im, RtoC. cbn. ring.
  - assert (P : 0 < Cmod X) by (pose proof (Cmod_ge_0 X); lra). destruct X as [x y].
    assert (Q : Cmod (x, y) * Cmod (x, y) = x * x + y * y) by (unfold Cmod; cbn [fst snd]; rewrite sqrt_sqrt by nra; ring).
    destruct (atan2_unit (x / Cmod (x, y)) (y / Cmod (x, y))) as [C S].
    { set (m := Cmod (x, y)) in *. clearbody m. transitivity ((x * x + y * y) / (m * m)); [field; lra|]. rewrite <- Q. field. lra. }
    exists (atan2 (y / Cmod (x, y)) (x / Cmod (x, y))). intros t. rewrite sin_plus, C, S. unfold response, Re, Im. cbn [fst snd]. field. lra.
Qed.

(** ** Initialisation again *)
Lemma again k d mask modes D K xb w1 w2 f : good_db d -> binary mask -> loaded d mask modes D K xb -> in_range d w1 -> wv_dirs w1 <> [] -> ready k d xb w1 f ->
  HF_Initialize k d xb w2 f = Ok f.
Proof.
  intros G B L I Nd Rd. pose proof (ready_eq _ _ _ _ _ _ _ _ _ G B L I Rd) as E. destruct (loaded_holds d mask modes D K xb B L) as (N & _ & H). rewrite E.
  unfold HF_Initialize. rewrite (build_ok k d xb 6 _ (H k)), N. cbn [rbind hf_F].
  assert (Nm : wave_mats d (spread mask (tables_of k D K)) (length (active mask)) w1 <> []).
  { unfold wave_mats. destruct (wv_dirs w1); [congruence|]. cbn [length seq map]. discriminate. }
  destruct (wave_mats d (spread mask (tables_of k D K)) (length (active mask)) w1) eqn:EM; [congruence|]. cbn [rbind]. reflexivity.
Qed.
Lemma ready_same k d xb w1 w2 f : same_components w1 w2 -> ready k d xb w1 f -> ready k d xb w2 f.
Proof. intros [E1 E2]. unfold ready, HF_Initialize. rewrite E1, E2. trivial. Qed.

(** ** Samples *)
(** Directions 0, 180 and 360 degrees, frequencies 1 and 2 *)
Definition db0 : xdb := XDB (Disc 0 360 3) (Disc 1 2 2).
Lemma db0_good : good_db db0.
Proof. unfold good_db, db0. cbn [x_dirs x_freqs d_min d_max d_n]. repeat split; lra || lia. Qed.
Lemma db0_angles : angles db0 = [0; PI; 2 * PI].
Proof. unfold angles, db0, linspace. cbn [x_dirs d_min d_max d_n seq map Nat.sub INR]. f_equal; [field|]. f_equal; [field|]. f_equal. field. Qed.
Lemma db0_pulsations : pulsations db0 = [1; 2].
Proof. unfold pulsations, db0, linspace. cbn [x_freqs d_min d_max d_n seq map Nat.sub INR]. f_equal; [field|]. f_equal. field. Qed.
(** The coefficient of mode m is i times the number of the direction *)
Definition dir_table (m : nat) : coefs := fun a k f => if Nat.eqb k m then (0, INR a) else RtoC 0.
Definition no_table : coefs := fun a k f => RtoC 0.
(** A wave of amplitude 1 and frequency 1 *)
Definition reg0 (dir : R) : rwf := RW 1 (2 * PI) 1 1 dir (VF SNone true) (WB 1 0 0 true 1000 10).
Lemma reg0_range ip dir : (dir = 0 \/ dir = PI) -> in_range db0 (regular_waves ip (reg0 dir)).
Proof.
  intros H. pose proof PI_RGT_0. unfold in_range. cbn [regular_waves wv_freqs wv_dirs reg0 rw_omega]. split; (constructor; [|constructor]).
  - unfold inside. rewrite db0_pulsations. cbn [nth last]. lra.
  - unfold inside. rewrite db0_angles. cbn [nth last]. unfold GetWaveDirections. cbn [rw_dir reg0]. rewrite reduced_dir. destruct H as [-> | ->]; rewrite reduced_id by lra; lra.
Qed.
Lemma node0 T k : coefficient db0 T k 0 1 = T 0%nat k 0%nat.
Proof. pose proof (coefficient_node db0 T k 0 0 db0_good) as H. rewrite db0_angles, db0_pulsations in H. cbn [nth] in H. apply H; cbn; lia. Qed.
Lemma node1 T k : coefficient db0 T k PI 1 = T 1%nat k 0%nat.
Proof. pose proof (coefficient_node db0 T k 1 0 db0_good) as H. rewrite db0_angles, db0_pulsations in H. cbn [nth] in H. apply H; cbn; lia. Qed.
Lemma response0 A X : response A X 0 = A * Im X.
Proof. unfold response. rewrite sin_0, cos_0. ring. Qed.
Lemma load0 ip T k eta : wv_eta (regular_waves ip (reg0 0)) 0 0 = Ok eta -> wave_load db0 T (regular_waves ip (reg0 0)) eta k = Im (T 0%nat k 0%nat).
Proof.
  intros E. destruct (regular_load ip (reg0 0) db0 T 0 0 eta k E) as [_ ->]. pose proof PI_RGT_0. cbn [reg0 rw_height rw_b b_ramp rw_dir rw_omega rw_k b_time]. rewrite reduced_id by lra. rewrite node0.
  replace (1 * (0 * cos 0 + 0 * sin 0) - 1 * 0) with 0 by ring. rewrite response0. ring.
Qed.
Lemma load1 ip T k eta : wv_eta (regular_waves ip (reg0 PI)) 0 0 = Ok eta -> wave_load db0 T (regular_waves ip (reg0 PI)) eta k = Im (T 1%nat k 0%nat).
Proof.
  intros E. destruct (regular_load ip (reg0 PI) db0 T 0 0 eta k E) as [_ ->]. pose proof PI_RGT_0. cbn [reg0 rw_height rw_b b_ramp rw_dir rw_omega rw_k b_time]. rewrite reduced_id by lra. rewrite node1.
  replace (1 * (0 * cos PI + 0 * sin PI) - 1 * 0) with 0 by ring. rewrite response0. ring.
Qed.
(** The frame at the origin with heading pi *)
Definition about : eqf := EF (Fr origin (Q 0 0 0 1)) origin 0 false 0.
Lemma about_stands : stands (ef_frame about) origin PI.
Proof.
  apply stands_intro; [unfold about; cbn [ef_frame]; unfold GeoProofs3.unitf, unitq; cbn; ring|reflexivity|]. intros [x y z]. unfold about. cbn [ef_frame frot]. unfold qrotate, Rz, mv, dot3, qmul, qconj, qim. cbn. rewrite cos_PI, sin_PI. apply vec_eq; cbn [vx vy vz]; ring.
Qed.
Lemma frame_stands u : stands (ef_frame (frame_at u)) origin 0.
Proof. exact stands_ident. Qed.
(** A ship at rest, upright or rolled by pi *)
Definition ship0 : body := moving qone origin origin origin.
Lemma ship0_ok : reachable ship0. Proof. exact (proj1 (moving_one origin origin origin)). Qed.
Definition capsized : body := moving (Q 0 1 0 0) origin origin origin.
Lemma capsized_ok : reachable capsized /\ forall x, turn (body_map capsized) x = V (vx x) (- vy x) (- vz x).
Proof.
  assert (U : unitq (Q 0 1 0 0)) by (unfold unitq; cbn; ring). destruct (moving_ok (Q 0 1 0 0) origin origin origin U) as (H & B & _). split; [exact H|].
  assert (Qx : forall y, qrotate (Q 0 1 0 0) y = V (vx y) (- vy y) (- vz y)) by (intros [a b c]; unfold qrotate, qmul, qconj, qim; cbn; apply vec_eq; cbn [vx vy vz]; ring).
  intros x. unfold BodySpec.turn. change (body_map capsized) with (body_map (moving (Q 0 1 0 0) origin origin origin)). rewrite !B, !Qx. unfold minus3, origin. cbn [vx vy vz]. apply vec_eq; cbn [vx vy vz]; ring.
Qed.
Lemma reads_force b s w1 : reads_as b s w1 -> GetForceInWorld s NWU = w_force w1.
Proof. intros [[H _] _]. exact (H NWU). Qed.
(** A drift table: directions 0 and pi, frequencies 1 and 2, sway coefficient 1 *)
Definition polar0 : polar := Polar [0; 4] [1; 2] (fun i => if Nat.eqb i 1 then Some [1; 1; 1; 1] else None).
Lemma polar0_good : good_polar polar0.
Proof.
  unfold good_polar, polar0. cbn [pl_x pl_y pl_series length]. split; [cbn; repeat split; lra|]. split; [lia|]. split; [cbn; repeat split; lra|]. split; [lia|].
  intros i l. destruct (Nat.eqb i 1); [|discriminate]. intros E. inversion E. reflexivity.
Qed.
Lemma polar0_value m x y : 0 <= x <= 4 -> 1 <= y <= 2 -> drift_coefficient polar0 m x y = if Nat.eqb m 1 then 1 else 0.
Proof.
  intros Hx Hy. unfold drift_coefficient, polar0. cbn [pl_series pl_x pl_y]. destruct (Nat.eqb m 1); [|reflexivity]. cbn [length seq map nth Nat.mul Nat.add interpolated].
  destruct (Rle_dec x 4); [|lra]. destruct (Rle_dec y 2); [|lra]. unfold affine. cbn [fst snd]. field.
Qed.
