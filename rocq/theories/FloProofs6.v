(** Proofs for C73 and C74. *)
From Coq Require Import Reals List Bool Lra Lia ZArith Permutation.
From Verif Require Import WavModel SeaModel FloModel WavProofs3 GeoModel GeoSpec GeoProofs GeoProofs2 BodyModel BodySpec BodyProofs BodyProofs3 BodyProofs4 FloSpec FloProofs FloProofs2 FloProofs3 FloProofs4.
Import ListNotations.
Open Scope R_scope.
Local Notation turn := BodySpec.turn.
Local Notation congruent := FloSpec.congruent.

Lemma read_class p s K : starts_at s -> stands_for s (rad_rows p) K -> exists table, ReadTable p = Ok table /\ good_table (pf_fc p) (pf_dc p) K table.
Proof.
  intros S [[A ->]|[A|(c0 & cn & mid & A & ->)]]; [eapply read_all; eauto|eapply read_closed; eauto|]. exact (read_half p s c0 cn mid S A).
Qed.
Lemma congr_sym a b : congruent a b -> congruent b a.
Proof. intros [k E]. exists (- k)%Z. rewrite opp_IZR. lra. Qed.
Lemma congr_trans a b c : congruent a b -> congruent b c -> congruent a c.
Proof. intros [k E] [j F]. exists (k + j)%Z. rewrite plus_IZR. lra. Qed.
Lemma norm_self x : congruent (Normalize_0_2PI x) x.
Proof. unfold Normalize_0_2PI. exists (- Int_part (x / (2 * PI)))%Z. rewrite opp_IZR. lra. Qed.
Lemma norm_fix x : 0 <= x < 2 * PI -> Normalize_0_2PI x = x.
Proof. intros. unfold Normalize_0_2PI. apply norm_id; lra. Qed.
Lemma norm_of x y : 0 <= x < 2 * PI -> congruent x y -> Normalize_0_2PI y = x.
Proof. intros H C. rewrite <- (norm_fix x H). symmetry. apply congr_norm, C. Qed.
Lemma good_row_at fc dc K table a c x : good_table fc dc K table -> In (a, c) K -> 0 <= x < 2 * PI -> congruent x (row_direction fc dc a) -> Lookup table x = Ok (row_coef fc c).
Proof. intros G I X C. rewrite <- (norm_of _ _ X C). apply (good_rows fc dc K table a c G I). Qed.
Lemma good_interp fc dc K table x : good_table fc dc K table -> (exists a c, In (a, c) K /\ congruent (row_direction fc dc a) 0) -> 0 <= x <= 2 * PI ->
  exists a c b d xa xb, In (a, c) K /\ In (b, d) K /\ congruent xa (row_direction fc dc a) /\ congruent xb (row_direction fc dc b) /\ xa <= x <= xb /\ xa < xb /\
    (forall e f y, In (e, f) K -> congruent y (row_direction fc dc e) -> ~ (xa < y < xb)) /\ Lookup table x = Ok (segment ((x - xa) / (xb - xa)) (row_coef fc c) (row_coef fc d)).
Proof.
  intros G Z X. destruct (good_first _ _ _ _ G Z) as [c0 [A0 B0]]. pose proof PI_RGT_0 as PP. destruct (adjacent table x 0 (2 * PI) c0 c0 (gt_inc _ _ _ _ G) A0 B0 X ltac:(lra)) as (xa & ca & xb & cb & I1 & I2 & L & NB & AX).
  assert (RG : forall y d, In (y, d) table -> 0 <= y <= 2 * PI). { destruct (gt_end _ _ _ _ G) as (xf & cf & F1 & _ & F2 & MN). intros y d I. pose proof (MN _ _ I). pose proof (MN _ _ A0). destruct (gt_back _ _ _ _ G _ _ F1 F2) as (? & ? & _ & E & _). pose proof (norm2pi_range (row_direction fc dc x0)). lra. }
  assert (BK : forall y d, In (y, d) table -> exists a c, In (a, c) K /\ congruent y (row_direction fc dc a) /\ d = row_coef fc c).
  { intros y d I. destruct (Req_EM_T y (2 * PI)) as [E|E].
    - subst y. assert (d = c0) by (eapply inc_unique; [apply (gt_inc _ _ _ _ G)|exact I|exact B0]). subst d. destruct (gt_back _ _ _ _ G _ _ A0 ltac:(lra)) as (a & c & IK & E & EC). exists a, c. split; [exact IK|]. split; [|exact EC]. pose proof (norm_self (row_direction fc dc a)) as N. rewrite <- E in N. eapply congr_trans; [|exact N]. exists 1%Z. lra.
    - pose proof (RG _ _ I). destruct (gt_back _ _ _ _ G y d I ltac:(lra)) as (a & c & IK & E2 & EC). exists a, c. split; [exact IK|]. split; [rewrite E2; apply norm_self|exact EC]. }
  destruct (BK _ _ I1) as (a & c & IA & CA & EA). destruct (BK _ _ I2) as (b & d & IB & CB & EB). exists a, c, b, d, xa, xb. do 6 (split; [assumption|]). split.
  - intros e f y IE CY [Y1 Y2]. pose proof (RG _ _ I1). pose proof (RG _ _ I2). pose proof (gt_row _ _ _ _ G e f IE) as T. rewrite (norm_of y _ ltac:(lra) CY) in T. apply (NB _ T). cbn. lra.
  - rewrite (lookup_between table xa ca xb cb x (gt_inc _ _ _ _ G) I1 I2 L NB AX). rewrite EA, EB. reflexivity.
Qed.
(** the angle of the relative flow *)
Lemma same_angle a x : cos a = cos x -> sin a = sin x -> - (2 * PI) < a - x < 2 * PI -> a = x.
Proof.
  intros C S H. assert (E : cos (a - x) = 1). { rewrite cos_minus, C, S. pose proof (sin2_cos2 x) as Q. unfold Rsqr in Q. lra. }
  assert (H2 : sin ((a - x) / 2) = 0). { pose proof (cos_2a_sin ((a - x) / 2)) as Q. replace (2 * ((a - x) / 2)) with (a - x) in Q by field. rewrite E in Q. nra. }
  apply sin_eq_0_0 in H2. destruct H2 as [k K]. apply congr_close; [|exact H]. exists k. lra.
Qed.
Lemma proj_heading v x : heading_of v x -> 0 < vx v * vx v + vy v * vy v -> projected_angle v = x.
Proof.
  intros (X & HX & HY) P. unfold projected_angle. destruct (atan2_spec (vx v) (vy v)) as [A B]; [lra|]. destruct (norm_cos (atan2 (vy v) (vx v))) as [C S]. assert (HP : 0 < sqrt (vx v * vx v + vy v * vy v)) by (apply sqrt_lt_R0; exact P). set (n := sqrt _) in *. clearbody n.
  pose proof (norm2pi_range (atan2 (vy v) (vx v))) as RG. apply same_angle; [| |lra]; [rewrite C|rewrite S]; apply Rmult_eq_reg_l with n; lra.
Qed.
Lemma polar_v w b psi : body_facts b -> level b psi -> GetRelativeVelocityInFrame w (GetFrameAtCOG b NWU) (GetCOGLinearVelocityInWorld b NWU) NWU = in_ship_axes psi (cog_flow w b).
Proof.
  intros BF LV. pose proof (rel_eq w (GetFrameAtCOG b NWU) (GetCOGLinearVelocityInWorld b NWU) NWU (cog_unit b BF)) as E. cbn [convert] in E. rewrite (bf_cogframe b BF), <- (bf_turn b BF), LV in E.
  unfold in_ship_axes, cog_flow. rewrite <- E, Rz_inv. reflexivity.
Qed.
Lemma polar_reads p table w rho b s psi c : reachable b -> level b psi -> let u := in_ship_axes psi (cog_flow w b) in Lookup table (projected_angle u) = Ok c ->
  exists s', polar_compute p table w rho b s = Ok s' /\
    reads_as b s' (W (turn (body_map b) (scal3 (rho / 2 * dot3 u u) (V (vx c * pf_front p) (vy c * pf_lat p) 0))) (V 0 0 (rho / 2 * dot3 u u * (vz c * pf_lat p * pf_len p))) (GetCOGPositionInWorld b NWU)).
Proof.
  intros RB LV. cbv zeta. intros LK. pose proof (facts b RB) as BF. unfold polar_compute. rewrite (polar_v w b psi BF LV). set (u := in_ship_axes psi (cog_flow w b)) in *. cbv zeta. rewrite LK. cbn [rbind]. eexists. split; [reflexivity|]. rewrite !(yaw_level b psi _ BF LV).
  set (f := V _ _ 0). set (t := V 0 0 (1 / 2 * _ * _ * _ * _ * _)). destruct (one_op b (FOBothWorldCOG (turn (body_map b) f) (turn (body_map b) t) NWU) s RB) as [w0 [_ H]]. cbn [force_step force_means convert] in H.
  assert (EF : f = scal3 (rho / 2 * dot3 u u) (V (vx c * pf_front p) (vy c * pf_lat p) 0)) by (unfold f, vdot, dot3, scal3; apply vec_eq; cbn [vx vy vz]; field).
  assert (ET : turn (body_map b) t = V 0 0 (rho / 2 * dot3 u u * (vz c * pf_lat p * pf_len p))). { rewrite LV. unfold t, mv, Rz, vdot, dot3. cbn [vx vy vz m00 m01 m02 m10 m11 m12 m20 m21 m22]. apply vec_eq; cbn [vx vy vz]; field. }
  rewrite <- EF, <- ET. exact H.
Qed.
