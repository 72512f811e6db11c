(** Proofs for the links: bodies that meet the hypotheses. *)
From Coq Require Import Reals List Bool Lra Psatz Lia ZArith.
From Verif Require Import SeaModel GeoModel GeoSpec GeoProofs GeoProofs3 BodyModel BodySpec BodyProofs BodyProofs2 BodyProofs3 WavProofs3 MorSpec LnkModel LnkSpec LnkProofs LnkProofs2 LnkProofs3 LnkProofs4 LnkProofs5.
Import ListNotations.
Open Scope R_scope.
Local Notation turn := BodySpec.turn.

(** A body of orientation q with a node at p in the body, with its axes; velocity v of its origin and w *)
Definition sample_ops (q : quat) (p v w : vec) : list body_op := [BOSetRotation q; BONewNode; BONodeSetFrameInBody 0 (Fr p qone); BOSetGenVelInBodyAtPointInBody origin v w NWU].
Definition sample (q : quat) (p v w : vec) : body := body_run (sample_ops q p v w) newbody.
Definition sample_node (q : quat) (p v w : vec) : marker := hd (Mk fident (MF fident vzero qzero)) (b_marks (sample q p v w)).
Lemma sample_ok q p v w : unitq q -> let b := sample q p v w in let m := sample_node q p v w in has_node b 0 m /\ NGetFrameInWorld m = Fr (qrotate q p) q /\ velocity_reads_everywhere b origin (qrotate q v) (qrotate q w).
Proof.
  intros U b m. assert (RB : reachable b) by (exists (sample_ops q p v w); split; [repeat constructor; cbn; auto using unitq_one|reflexivity]).
  assert (E : exists v', b = canon (Fr origin q) v' (spin (Fr origin q) (qrotate q w)) origin [Fr p qone] /\ v' = rigid_velocity origin (qrotate q v) (qrotate q w) (plus3 origin (qrotate q origin))).
  { unfold b, sample, sample_ops. cbn [body_run body_step]. rewrite newbody_can, setrot_can, newnode_can. cbn [app].
    rewrite (on_node_can (Fr (fpos fident) q) vzero qzero origin [Fr origin qone] 0 _ (Fr origin qone) eq_refl (Fr p qone)) by apply nsfb_can. cbn [updf].
    rewrite genvel_can by exact U. cbn [fpos frot fident convert]. change vzero with origin. eexists. split; [reflexivity|]. rewrite !qr_origin. unfold rigid_velocity. f_equal. f_equal. v3. }
  destruct E as (v' & E & EV). assert (NE : nth_error (b_marks b) 0 = Some m) by (unfold m, sample_node; fold b; rewrite E; reflexivity).
  split; [split; assumption|]. split.
  - unfold m, sample_node. fold b. rewrite E. unfold canon. cbn [b_marks map hd]. change (NGetFrameInWorld (mkn (Fr origin q) v' (spin (Fr origin q) (qrotate q w)) origin (Fr p qone)) = Fr (qrotate q p) q). rewrite ngfw_can. unfold chmul. cbn [fpos frot]. rewrite qmul_1r. f_equal. v3.
  - rewrite E. apply spinning_everywhere; [exact U|repeat constructor; exact unitq_one|exact EV].
Qed.
Definition rotz (th : R) : quat := Q_from_AngAxis th (V 0 0 1).
Lemma unit_z : unit3 (V 0 0 1). Proof. unfold unit3, dot3. cbn [vx vy vz]. ring. Qed.
Lemma rotz_unit th : unitq (rotz th). Proof. apply unitq_angaxis, unit_z. Qed.
Lemma rotz_mv th x : qrotate (rotz th) x = mv (Rz th) x.
Proof. unfold rotz. rewrite angaxis_rodrigues by exact unit_z. unfold rodrigues, mv, Rz, dot3. cbn [m00 m01 m02 m10 m11 m12 m20 m21 m22 vx vy vz]. v3. Qed.
(** the first body stands still at the origin of the world *)
Definition base : body := sample qone origin origin origin.
Definition base_node : marker := sample_node qone origin origin origin.
Lemma base_ok : has_node base 0 base_node /\ (forall x, act (NGetFrameInWorld base_node) x = x) /\ NGetFrameInWorld base_node = fident /\ velocity_reads_everywhere base origin origin origin.
Proof.
  destruct (sample_ok qone origin origin origin unitq_one) as (A & B & C). rewrite !qrotate_one in *. split; [exact A|]. split; [|split; [exact B|exact C]]. intros x. unfold base_node. rewrite B, act_eq by exact unitq_one. cbn [fpos frot]. rewrite qrotate_one. v3.
Qed.
Global Opaque sample sample_node base base_node.
Lemma sample_act q p v w x : unitq q -> act (NGetFrameInWorld (sample_node q p v w)) x = plus3 (qrotate q p) (qrotate q x).
Proof. intros U. destruct (sample_ok q p v w U) as (_ & E & _). rewrite E, act_eq by exact U. reflexivity. Qed.
Lemma sample_hinge th v w : hinge base_node (sample_node (rotz th) origin v w) th.
Proof. intros x. rewrite sample_act by apply rotz_unit. rewrite (proj1 (proj2 base_ok)), qr_origin, rotz_mv. v3. Qed.
Lemma sample_slide z v w : slide base_node (sample_node qone (V 0 0 z) v w) z.
Proof. intros x. rewrite sample_act by apply unitq_one. rewrite (proj1 (proj2 base_ok)), !qrotate_one. reflexivity. Qed.
Lemma rel_of m1 m2 a q : NGetFrameInWorld m1 = fident -> NGetFrameInWorld m2 = Fr a q -> RelM m1 m2 = Fr a q.
Proof.
  intros B E. unfold NGetFrameInWorld in E, B. unfold RelM. rewrite E, B. unfold chmul, chinv, fident. cbn [fpos frot]. 
  destruct q as [a0 a1 a2 a3]. f_equal; [|unfold qmul, qconj, qone; cbn [q0 q1 q2 q3]; f_equal; ring]. replace (qconj qone) with qone by (unfold qconj, qone; cbn [q0 q1 q2 q3]; f_equal; ring). rewrite !qrotate_one. v3.
Qed.
Lemma sample_rel q p v w : unitq q -> RelM base_node (sample_node q p v w) = Fr (qrotate q p) q.
Proof. intros U. apply rel_of; [apply base_ok|apply (sample_ok q p v w U)]. Qed.
Lemma acos_small : acos Q_LIMIT < PI / 8.
Proof.
  pose proof PI_RGT_0. pose proof (acos_bound Q_LIMIT) as B. destruct (Rlt_dec (acos Q_LIMIT) (PI / 8)) as [L|L]; [exact L|]. exfalso. assert (D : cos (acos Q_LIMIT) <= cos (PI / 8)) by (apply cos_decr_1; lra). rewrite cos_acos in D by (unfold Q_LIMIT; lra).
  pose proof (cos_2a_cos (PI / 8)) as C. replace (2 * (PI / 8)) with (PI / 4) in C by field. rewrite cos_PI4 in C.
  assert (S : 1 / sqrt 2 < 8 / 10). { assert (S2 : sqrt 2 * sqrt 2 = 2) by (apply sqrt_sqrt; lra). assert (SP : 0 < sqrt 2) by (apply sqrt_lt_R0; lra). apply (Rmult_lt_reg_r (sqrt 2)); [exact SP|]. unfold Rdiv. rewrite Rmult_assoc, Rinv_l by lra. nra. }
  unfold Q_LIMIT in D. nra.
Qed.
Lemma DEAD_small : DEAD < PI / 4. Proof. unfold DEAD. pose proof acos_small. lra. Qed.
Lemma sharp_quarter : sharp (PI / 2) /\ sharp (- (PI / 2)).
Proof.
  unfold sharp. replace (- (PI / 2) / 2) with (- (PI / 4)) by field. replace (PI / 2 / 2) with (PI / 4) by field. rewrite cos_neg, cos_PI4. 
  assert (S2 : sqrt 2 * sqrt 2 = 2) by (apply sqrt_sqrt; lra). assert (SP : 0 < sqrt 2) by (apply sqrt_lt_R0; lra).
  assert (S : 0 < 1 / sqrt 2 < 8 / 10). { split; [apply Rdiv_lt_0_compat; lra|]. apply (Rmult_lt_reg_r (sqrt 2)); [exact SP|]. unfold Rdiv. rewrite Rmult_assoc, Rinv_l by lra. nra. }
  rewrite Rabs_right by lra. unfold Q_LIMIT. split; lra.
Qed.
(** a hinge turned by -pi/2 *)
Definition turned : marker := sample_node (rotz (- (PI / 2))) origin origin origin.
Lemma turned_ok : has_node (sample (rotz (- (PI / 2))) origin origin origin) 0 turned /\ hinge base_node turned (- (PI / 2)).
Proof. split; [apply (sample_ok (rotz (- (PI / 2))) origin origin origin (rotz_unit _))|apply sample_hinge]. Qed.
Lemma turned_angle : GetAngle (frot (RelM base_node turned)) = PI / 2.
Proof.
  unfold turned. rewrite sample_rel by apply rotz_unit. cbn [frot]. pose proof PI_RGT_0. assert (AB : Rabs (- (PI / 2)) = PI / 2) by (rewrite Rabs_Ropp, Rabs_right; lra).
  assert (Q0 : q0 (rotz (- (PI / 2))) = cos (- (PI / 2) / 2)) by reflexivity. assert (CP : 0 <= cos (- (PI / 2) / 2)) by (apply cos_ge_0; lra).
  destruct (angle_pos (rotz (- (PI / 2))) (- (PI / 2))) as [A _]; [lra|rewrite Q0; apply Rabs_right; lra|rewrite Q0; exact CP|]. rewrite (A (proj2 sharp_quarter)). exact AB.
Qed.
Lemma turned_total rf rt : rv_total (RUpdate new_revolute base_node turned rf rt) = - (PI / 2).
Proof.
  destruct base_ok as (B & _). destruct turned_ok as (T & G). pose proof PI_RGT_0. pose proof DEAD_range. pose proof DEAD_small. apply (track_step new_revolute _ _ _ _ _ _ rf rt 0 (- (PI / 2)) B T G); [cbn [new_revolute rv_total]; rewrite Rminus_0_r, Rabs_R0; lra| |apply sharp_quarter].
  rewrite Rminus_0_r, Rabs_Ropp, Rabs_right; lra.
Qed.
