(** Counterexamples and samples for C158 - C169. *)
From Coq Require Import Reals List Bool Lra Psatz Lia.
From Verif Require Import SeaModel GeoModel GeoSpec GeoProofs GeoProofs2 GeoProofs3 GeoProofs4 BodyModel BodySpec BodyProofs BodyProofs2 BodyProofs3 BodyProofs4 BodyProps MorModel MorSpec MorProofs MorProofs2 MorProofs3 MorProofs4 MorProofs5 MorProofs6.
Import ListNotations.
Open Scope R_scope.
Local Notation turn := BodySpec.turn.

Definition low : vec := V 0 0 (-1). Definition high : vec := V 0 0 1.
Lemma size_high : size3 (minus3 high low) = 2.
Proof. unfold size3, high, low, minus3, dot3. cbn [vx vy vz]. replace ((0 - 0) * (0 - 0) + (0 - 0) * (0 - 0) + (1 - -1) * (1 - -1)) with (2 * 2) by ring. apply sqrt_square. lra. Qed.
Lemma eps_small : 0 < FLT_EPS < 1 / 1000.
Proof. unfold FLT_EPS. split; [apply Rinv_0_lt_compat; lra|]. apply Rmult_lt_reg_l with 8388608; [lra|]. rewrite Rinv_r by lra. lra. Qed.
Lemma low_high : low <> high. Proof. intros E. injection E. lra. Qed.
Lemma good_flat x y : 1 <= x * x + y * y -> good_reference low high (V x y 0).
Proof.
  intros H. left. rewrite size_high. pose proof eps_small. assert (E : 1 <= size3 (cross3 (V x y 0) (minus3 high low))); [|lra].
  unfold size3. rewrite <- sqrt_1. apply sqrt_le_1_alt. unfold dot3, cross3, minus3, high, low. cbn [vx vy vz]. nra.
Qed.
Lemma good_x : good_reference low high (V 1 0 0).
Proof. apply good_flat. lra. Qed.
Lemma good_z : good_reference low high (V 0 0 1).
Proof. right. unfold cross3, minus3, high, low, origin. cbn [vx vy vz]. split; [apply vec_eq; cbn [vx vy vz]; ring|ring]. Qed.
(** the axes of the vertical tube with the reference (x, y, 0) of unit length: e1 = t (-y, x, 0), e2 = t (-x, -y, 0), with t = 1 or -1 *)
Lemma vertical_axes x y e1 e2 e3 : x * x + y * y = 1 -> tube_axes low high (V x y 0) e1 e2 e3 -> exists t, t * t = 1 /\ e1 = V (- (t * y)) (t * x) 0 /\ e2 = V (- (t * x)) (- (t * y)) 0 /\ e3 = V 0 0 1.
Proof.
  intros H (A1 & A2 & A3 & A4 & A5 & A6 & A7 & A8 & A9). rewrite size_high in A8. destruct e1 as [a1 b1 c1], e2 as [a2 b2 c2], e3 as [a3 b3 c3]. unfold minus3, high, low, scal3 in A8. cbn [vx vy vz] in A8. injection A8 as X1 X2 X3.
  assert (a3 = 0) by lra. assert (b3 = 0) by lra. assert (c3 = 1) by lra. subst a3 b3 c3. unfold dot3, cross3 in *. cbn [vx vy vz] in *. injection A7 as Y1 Y2 Y3. assert (c1 = 0) by lra. assert (c2 = 0) by lra. subst c1 c2.
  assert (XY : x * a1 + y * b1 = 0) by lra. assert (K1 : a1 = - ((x * b1 - y * a1) * y)). { transitivity (a1 * (x * x + y * y) - x * (x * a1 + y * b1)); [rewrite H, XY; ring|ring]. } assert (K2 : b1 = (x * b1 - y * a1) * x). { transitivity (b1 * (x * x + y * y) - y * (x * a1 + y * b1)); [rewrite H, XY; ring|ring]. } exists (x * b1 - y * a1).
  assert (K4 : a2 * a2 + b2 * b2 = 1) by lra. assert (K5 : a2 = - b1). { transitivity (a2 * (a1 * a1 + b1 * b1)); [replace (a1 * a1 + b1 * b1) with 1 by lra; ring|]. transitivity (- b1 * (a1 * b2 - b1 * a2) + a1 * (a1 * a2 + b1 * b2)); [ring|]. replace (a1 * b2 - b1 * a2) with 1 by lra. replace (a1 * a2 + b1 * b2) with 0 by lra. ring. }
  assert (K6 : b2 = a1). { transitivity (b2 * (a1 * a1 + b1 * b1)); [replace (a1 * a1 + b1 * b1) with 1 by lra; ring|]. transitivity (a1 * (a1 * b2 - b1 * a2) + b1 * (a1 * a2 + b1 * b2)); [ring|]. replace (a1 * b2 - b1 * a2) with 1 by lra. replace (a1 * a2 + b1 * b2) with 0 by lra. ring. }
  split; [|subst a2 b2; repeat split; try (apply vec_eq; cbn [vx vy vz]; lra)].
  assert (Q : a1 * a1 + b1 * b1 = (x * b1 - y * a1) * (x * b1 - y * a1) * (x * x + y * y)). { transitivity ((a1 * a1 + b1 * b1) * (x * x + y * y) - (x * a1 + y * b1) * (x * a1 + y * b1)); [rewrite H, XY; ring|]. transitivity ((x * b1 - y * a1) * (x * b1 - y * a1)); [ring|rewrite H; ring]. } rewrite H in Q. lra.
Qed.
Definition pitched : quat := Q (sqrt 2 / 2) 0 (sqrt 2 / 2) 0.
Lemma half2 : sqrt 2 / 2 * (sqrt 2 / 2) = 1 / 2.
Proof. pose proof (sqrt_sqrt 2 ltac:(lra)). nra. Qed.
Lemma pitched_unit : unitq pitched.
Proof. unfold unitq, pitched. cbn [q0 q1 q2 q3]. pose proof half2. lra. Qed.
Lemma pitched_rot x y z : qrotate pitched (V x y z) = V z y (- x).
Proof. unfold qrotate, pitched. cbn [q0 q1 q2 q3 vx vy vz]. pose proof half2 as H. set (h := sqrt 2 / 2) in *. clearbody h. assert (K : forall u, h * h * u = u / 2) by (intros u; rewrite H; field). pose proof (K x). pose proof (K y). pose proof (K z). apply vec_eq; cbn [vx vy vz]; lra. Qed.
Definition still (rho : R) (wave acc cur : vec) : sea := SeaState rho (fun _ => wave) (fun _ => acc) (fun _ => cur).
Lemma vv_0 : plus3 origin origin = origin. Proof. apply p3_0l. Qed.
Lemma coeffs_ok : no_coeff_negative (Co 0 0) (Co 1 1) 0 1.
Proof. unfold no_coeff_negative. cbn [co_x co_y]. lra. Qed.
(** what the sample gives for a model: compute the force of the tube on the moving body *)
Lemma sample_force q A B d ca cd cf r v w junk s acc : unitq q -> A <> B -> good_reference A B r -> no_coeff_negative ca cd cf d ->
  exists b, let b2 := body_run [BOSetGenVelInBodyAtPointInBody origin v w NWU] b in let L := size3 (minus3 B A) in
  tube_AB (1 / 10) junk (body_run [BOSetRotation q] newbody) A B d ca cd cf r = Ok (b, new_tube junk 0 ca cd cf d L) /\
  reachable b2 /\ (forall x, body_map b2 x = qrotate q x) /\ velocity_reads_everywhere b2 origin (qrotate q v) (qrotate q w) /\
  exists e1 e2 e3, tube_axes A B r e1 e2 e3 /\ forall x cur, exists f' e',
  morison_compute s acc b2 (SetIncludeCurrent (SetExtendedModel (new_tube junk 0 ca cd cf d L) x) cur) (Force vzero vzero) = Ok (f', e') /\
  reads_as b2 f' (W (morison_force s (acc 0%nat) cur x (Props cd ca cf d L (PI / 4 * d * d * L)) (qrotate q (qrotate q e1)) (qrotate q (qrotate q e2)) (qrotate q (qrotate q e3)) (qrotate q (middle A B)) (rigid_velocity origin (qrotate q v) (qrotate q w) (qrotate q (middle A B)))) origin (qrotate q (middle A B))).
Proof.
  intros U NE G NC. destruct (sample q A B d ca cd cf r v w junk U NE G NC) as (b & EB & RB & BM & TN & VR & TA & ST). exists b. cbv zeta in *. split; [exact EB|]. split; [exact RB|]. split; [exact BM|]. split; [exact VR|].
  exists (axis1 A B r), (axis2 A B r), (axis3 A B r). split; [exact TA|]. intros x cur.
  destruct (tube_law _ 0%nat A B _ _ _ s acc (Header 0 cur x vzero vzero) (SetVolume (Props cd ca cf d (size3 (minus3 B A)) 0)) origin (qrotate q v) (qrotate q w) (Force vzero vzero) RB ST eq_refl VR) as (f' & e' & X1 & X2).
  exists f', e'. split; [exact X1|]. cbv zeta in X2. rewrite !TN, !BM in X2. exact X2.
Qed.
Lemma mid_lh : middle low high = origin.
Proof. apply vec_eq; unfold middle, low, high, scal3, plus3, origin; cbn [vx vy vz]; field. Qed.
Lemma sq_cases t : t * t = 1 -> t = 1 \/ t = -1.
Proof. intros H. assert (E : (t - 1) * (t + 1) = 0) by nra. apply Rmult_integral in E. destruct E; [left|right]; lra. Qed.
Lemma placed tol junk b A B d ca cd cf v : 0 <= tol -> reachable b -> A <> B -> good_reference A B v -> no_coeff_negative ca cd cf d ->
  exists b1 h p e1 e2 e3, tube_AB tol junk b A B d ca cd cf v = Ok (b1, Tube h p) /\ reachable b1 /\ (forall x, body_map b1 x = body_map b x) /\
    (forall i m, nth_error (b_marks b) i = Some m -> nth_error (b_marks b1) i = Some m) /\ p_cd p = cd /\ p_ca p = ca /\ p_cf p = cf /\
    p_length p = size3 (minus3 B A) /\ p_diameter p = d /\ p_volume p = tube_volume d (size3 (minus3 B A)) /\ tube_axes A B v e1 e2 e3 /\
    forall l, Forall body_ok l -> Forall no_node_op l -> let b2 := body_run l b1 in node_stands b2 (h_node h) A B e1 e2 e3 /\
      exists m, nth_error (b_marks b2) (h_node h) = Some m /\ forall x, act (NGetFrameInWorld m) x = body_map b2 (tube_point A B e1 e2 e3 x).
Proof.
  intros T RB NE G NC. pose proof RB as RB'. destruct (reach_can b RB') as (F & v' & d' & c & Ns & -> & HF & HN). rewrite (tube_can tol junk F v' d' c Ns A B d ca cd cf v T NE G NC).
  set (N := Fr (middle A B) (qaxes A B v)). assert (RN : reachable (canon F v' d' c (Ns ++ [N]))). { pose proof (reach_node _ N RB (qaxes_unitf A B v NE G)) as X. rewrite nwf_can in X. exact X. }
  assert (ST : node_stands (canon F v' d' c (Ns ++ [N])) (length Ns) A B (axis1 A B v) (axis2 A B v) (axis3 A B v)).
  { apply node_can with (N := N); auto. rewrite nth_error_app2 by lia. rewrite Nat.sub_diag. reflexivity. }
  do 3 eexists. exists (axis1 A B v), (axis2 A B v), (axis3 A B v). split; [reflexivity|]. split; [exact RN|]. split; [intros x; rewrite !bmap_can; reflexivity|].
  split. { intros i m E. rewrite marks_can in *. rewrite nth_error_map in *. rewrite nth_error_app1; [exact E|]. apply nth_error_Some. intros Z. rewrite Z in E. discriminate. }
  repeat (split; [reflexivity|]). split; [unfold SetVolume, tube_volume; cbn [p_volume p_diameter p_length]; field|]. split; [apply axes3; assumption|].
  intros l OK NN. cbv zeta. cbn [h_node new_header]. assert (S2 := stands_run l _ _ _ _ _ _ _ RN OK NN ST). split; [exact S2|]. exact (stands_world _ _ _ _ _ _ _ (reach_run _ _ RN OK) S2).
Qed.
Lemma quad_sign rho c S u a t : t * t = 1 -> quad_along rho c S u (scal3 t a) = quad_along rho c S u a.
Proof.
  intros H. apply sq_cases in H. unfold quad_along. replace (dot3 u (scal3 t a)) with (t * dot3 u a) by (unfold dot3, scal3; cbn [vx vy vz]; ring). rewrite Rabs_mult.
  destruct H as [->| ->]; [rewrite Rabs_R1|rewrite Rabs_left by lra]; apply vec_eq; unfold scal3; cbn [vx vy vz]; ring.
Qed.
Lemma quad_x rho c S u : quad_along rho c S u (V 1 0 0) = V (1 / 2 * rho * c * S * (vx u * Rabs (vx u))) 0 0.
Proof. unfold quad_along. replace (dot3 u (V 1 0 0)) with (vx u) by (unfold dot3; cbn [vx vy vz]; ring). apply vec_eq; unfold scal3; cbn [vx vy vz]; ring. Qed.
Lemma quad_y rho c S u : quad_along rho c S u (V 0 1 0) = V 0 (1 / 2 * rho * c * S * (vy u * Rabs (vy u))) 0.
Proof. unfold quad_along. replace (dot3 u (V 0 1 0)) with (vy u) by (unfold dot3; cbn [vx vy vz]; ring). apply vec_eq; unfold scal3; cbn [vx vy vz]; ring. Qed.
Lemma quad_z rho c S u : quad_along rho c S u (V 0 0 1) = V 0 0 (1 / 2 * rho * c * S * (vz u * Rabs (vz u))).
Proof. unfold quad_along. replace (dot3 u (V 0 0 1)) with (vz u) by (unfold dot3; cbn [vx vy vz]; ring). apply vec_eq; unfold scal3; cbn [vx vy vz]; ring. Qed.
(** drag of a tube whose axes are, up to the sign, y, x, z *)
Lemma drag_xyz rho cd cf d len u t1 t2 t3 : t1 * t1 = 1 -> t2 * t2 = 1 -> t3 * t3 = 1 ->
  drag_on rho cd cf d len (V 0 t1 0) (V t2 0 0) (V 0 0 t3) u =
  V (1 / 2 * rho * co_y cd * (d * len) * (vx u * Rabs (vx u))) (1 / 2 * rho * co_x cd * (d * len) * (vy u * Rabs (vy u))) (1 / 2 * rho * cf * (PI * d * len) * (vz u * Rabs (vz u))).
Proof.
  intros A B C. unfold drag_on. replace (V 0 t1 0) with (scal3 t1 (V 0 1 0)) by (apply vec_eq; unfold scal3; cbn [vx vy vz]; ring). replace (V t2 0 0) with (scal3 t2 (V 1 0 0)) by (apply vec_eq; unfold scal3; cbn [vx vy vz]; ring). replace (V 0 0 t3) with (scal3 t3 (V 0 0 1)) by (apply vec_eq; unfold scal3; cbn [vx vy vz]; ring).
  rewrite !quad_sign by assumption. rewrite quad_x, quad_y, quad_z. apply vec_eq; unfold plus3; cbn [vx vy vz]; ring.
Qed.
Lemma still_u rho wave acc cur P : plus3 (sea_wave (still rho wave acc cur) P) (if false then sea_current (still rho wave acc cur) P else origin) = wave.
Proof. apply p3_0r. Qed.
Lemma rv0 X : rigid_velocity origin origin origin X = origin.
Proof. apply vec_eq; unfold rigid_velocity, plus3, cross3, minus3, origin; cbn [vx vy vz]; ring. Qed.
Lemma m3_0 a : minus3 a origin = a.
Proof. apply vec_eq; unfold minus3, origin; cbn [vx vy vz]; ring. Qed.
(** a tube without friction in a flow along its axis, on a body pitched by 90 degrees *)
Lemma pitched_bad : exists b e, tube_AB (1 / 10) false (body_run [BOSetRotation pitched] newbody) low high 1 (Co 0 0) (Co 1 1) 0 (V 1 0 0) = Ok (b, e) /\
  let b2 := body_run [BOSetGenVelInBodyAtPointInBody origin origin origin NWU] b in reachable b2 /\ minus3 (body_map b2 high) (body_map b2 low) = V 2 0 0 /\ velocity_reads_everywhere b2 origin origin origin /\
  exists f' e', morison_compute (still 2 (V 1 0 0) origin origin) (fun _ => origin) b2 e (Force vzero vzero) = Ok (f', e') /\ GetForceInWorld f' NWU = V 2 0 0.
Proof.
  destruct (sample_force pitched low high 1 (Co 0 0) (Co 1 1) 0 (V 1 0 0) origin origin false (still 2 (V 1 0 0) origin origin) (fun _ => origin) pitched_unit low_high good_x coeffs_ok) as (b & EB & RB & BM & VR & e1 & e2 & e3 & TA & H). cbv zeta in *.
  exists b. eexists. split; [exact EB|]. split; [exact RB|]. split; [rewrite !BM; unfold high, low; rewrite !pitched_rot; apply vec_eq; unfold minus3; cbn [vx vy vz]; ring|]. rewrite !qr_0 in VR. split; [exact VR|].
  destruct (H false false) as (f' & e' & X1 & X2). exists f', e'. split; [exact X1|]. destruct X2 as [[X2 _] _]. specialize (X2 NWU). cbn [w_force convert] in X2. rewrite X2.
  unfold morison_force. cbv zeta. rewrite still_u. rewrite mid_lh, !qr_0, rv0, m3_0. destruct (vertical_axes 1 0 e1 e2 e3 ltac:(lra) TA) as (t & T & -> & -> & ->). rewrite !pitched_rot. cbn [p_cd p_cf p_diameter p_length]. rewrite size_high.
  replace (V (- (- (t * 0))) (t * 1) (- 0)) with (V 0 t 0) by (apply vec_eq; cbn [vx vy vz]; ring). 
  match goal with |- drag_on _ _ _ _ _ ?a1 ?a2 ?a3 _ = _ => replace a1 with (V 0 t 0) by (apply vec_eq; cbn [vx vy vz]; ring); replace a2 with (V t 0 0) by (apply vec_eq; cbn [vx vy vz]; ring); replace a3 with (V 0 0 (-1)) by (apply vec_eq; cbn [vx vy vz]; ring) end.
  rewrite drag_xyz by (assumption || ring). cbn [sea_rho still co_x co_y vx vy vz]. rewrite Rabs_R1, !Rabs_R0. apply vec_eq; cbn [vx vy vz]; field.
Qed.
(** the same tube on an upright body *)
Lemma upright_force (cd : coeff) ca (cf : R) x cur s acc v junk : no_coeff_negative ca cd cf 1 ->
  exists b e, tube_AB (1 / 10) junk (body_run [BOSetRotation qone] newbody) low high 1 ca cd cf (V 1 0 0) = Ok (b, e) /\
  let b2 := body_run [BOSetGenVelInBodyAtPointInBody origin v origin NWU] b in reachable b2 /\ (forall y, body_map b2 y = y) /\ velocity_reads_everywhere b2 origin v origin /\
  exists f' e' t, t * t = 1 /\ morison_compute s acc b2 (SetIncludeCurrent (SetExtendedModel e x) cur) (Force vzero vzero) = Ok (f', e') /\
   GetForceInWorld f' NWU = morison_force s (acc 0%nat) cur x (Props cd ca cf 1 2 (PI / 2)) (V 0 t 0) (V t 0 0) (V 0 0 1) origin v.
Proof.
  intros NC. destruct (sample_force qone low high 1 ca cd cf (V 1 0 0) v origin junk s acc unitq_one low_high good_x NC) as (b & EB & RB & BM & VR & e1 & e2 & e3 & TA & H). cbv zeta in *.
  exists b. eexists. split; [exact EB|]. split; [exact RB|]. assert (Q1 : forall y, qrotate qone y = y) by (intros y; apply qrotate_one). split; [intros y; rewrite BM; apply Q1|]. rewrite !Q1 in VR. split; [exact VR|].
  destruct (H x cur) as (f' & e' & X1 & X2). destruct (vertical_axes 1 0 e1 e2 e3 ltac:(lra) TA) as (t & T & -> & -> & ->). exists f', e', (- t). split; [nra|]. split; [exact X1|].
  destruct X2 as [[X2 _] _]. specialize (X2 NWU). cbn [w_force convert] in X2. rewrite X2. rewrite !Q1, mid_lh, size_high. replace (PI / 4 * 1 * 1 * 2) with (PI / 2) by field.
  assert (RV : rigid_velocity origin v origin origin = v) by (apply vec_eq; unfold rigid_velocity, plus3, cross3, minus3, origin; cbn [vx vy vz]; ring). rewrite RV.
  unfold morison_force. cbv zeta. unfold drag_on, inertia_on.
  assert (I1 : forall k u a s0, s0 * s0 = 1 -> scal3 (k * dot3 u (scal3 s0 a)) (scal3 s0 a) = scal3 (k * dot3 u a) a). { intros k u a s0 S0. replace (dot3 u (scal3 s0 a)) with (s0 * dot3 u a) by (unfold dot3, scal3; cbn [vx vy vz]; ring). apply sq_cases in S0. destruct S0 as [->| ->]; apply vec_eq; unfold scal3; cbn [vx vy vz]; ring. }
  replace (V (- (t * 0)) (t * 1) 0) with (scal3 (-1) (V 0 (- t) 0)) by (apply vec_eq; unfold scal3; cbn [vx vy vz]; ring). replace (V (- (t * 1)) (- (t * 0)) 0) with (V (- t) 0 0) by (apply vec_eq; cbn [vx vy vz]; ring).
  rewrite !quad_sign by ring. rewrite !I1 by ring. reflexivity.
Qed.
