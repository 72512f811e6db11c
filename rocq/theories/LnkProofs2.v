(** Proofs for the links: the angle of a hinge. *)
From Coq Require Import Reals List Bool Lra Psatz Lia ZArith.
From Verif Require Import SeaModel GeoModel GeoSpec GeoProofs GeoProofs3 BodyModel BodySpec BodyProofs3 WavProofs3 MorSpec LnkModel LnkSpec LnkProofs.
Import ListNotations.
Open Scope R_scope.
Local Notation turn := BodySpec.turn.

Lemma abs_between a b : Rabs a <= b -> - b <= a <= b.
Proof. unfold Rabs. destruct (Rcase_abs a); lra. Qed.
Lemma Q_LIMIT_range : 0 < Q_LIMIT < 1. Proof. unfold Q_LIMIT. lra. Qed.
Lemma DEAD_range : 0 < DEAD < PI.
Proof.
  unfold DEAD. pose proof Q_LIMIT_range as Q. pose proof PI_RGT_0. pose proof (acos_bound Q_LIMIT) as B. pose proof (cos_acos Q_LIMIT ltac:(lra)) as C.
  split.
  - destruct (Req_dec (acos Q_LIMIT) 0) as [E|E]; [rewrite E, cos_0 in C; lra|lra].
  - destruct (Rlt_dec (acos Q_LIMIT) (PI / 2)) as [L|L]; [lra|]. exfalso. assert (D : cos (acos Q_LIMIT) <= cos (PI / 2)) by (apply cos_decr_1; lra). rewrite cos_PI2 in D. lra.
Qed.
Lemma rel_inj b i m x y : has_node b i m -> act (NGetFrameInWorld m) x = act (NGetFrameInWorld m) y -> x = y.
Proof.
  intros H E. destruct (node_facts b i m H) as (q & _ & U & _). destruct (inv_act (NGetFrameInWorld m) x U) as [_ A]. destruct (inv_act (NGetFrameInWorld m) y U) as [_ B]. rewrite <- A, <- B, E. reflexivity.
Qed.
Lemma hinge_rel b1 i1 m1 b2 i2 m2 th : has_node b1 i1 m1 -> has_node b2 i2 m2 -> hinge m1 m2 th -> unitq (frot (RelM m1 m2)) /\ fpos (RelM m1 m2) = origin /\ forall x, qrotate (frot (RelM m1 m2)) x = mv (Rz th) x.
Proof.
  intros H1 H2 G. destruct (rel_unit _ _ _ _ _ _ H1 H2) as [UR _].
  assert (A : forall x, act (RelM m1 m2) x = mv (Rz th) x). { intros x. apply (rel_inj _ _ _ _ _ H1). rewrite (rel_act _ _ _ _ _ _ x H1 H2). apply G. }
  assert (P0 : fpos (RelM m1 m2) = origin). { pose proof (A origin) as E. rewrite act_eq, qr_origin in E by exact UR. assert (M0 : mv (Rz th) origin = origin) by (apply vec_eq; unfold mv, Rz, dot3, origin; cbn [vx vy vz m00 m01 m02 m10 m11 m12 m20 m21 m22]; ring). rewrite M0 in E. revert E. generalize (fpos (RelM m1 m2)). intros a E. transitivity (plus3 a origin); [v3|exact E]. }
  split; [exact UR|]. split; [exact P0|]. intros x. rewrite <- A, act_eq by exact UR. rewrite P0. generalize (qrotate (frot (RelM m1 m2)) x). intros a. clear. v3.
Qed.
(** the quaternion of a rotation about z *)
Lemma quat_z q th : unitq q -> (forall x, qrotate q x = mv (Rz th) x) -> exists e, (e = 1 \/ e = -1) /\ q0 q = e * cos (th / 2) /\ q1 q = 0 /\ q2 q = 0 /\ q3 q = e * sin (th / 2).
Proof.
  intros U A. pose proof (A (V 0 0 1)) as Ez. pose proof (A (V 1 0 0)) as Ex. destruct q as [a b c d]. unfold unitq in U. unfold qrotate, mv, Rz, dot3 in Ez, Ex. cbn [vx vy vz q0 q1 q2 q3 m00 m01 m02 m10 m11 m12 m20 m21 m22] in *.
  pose proof (f_equal vz Ez) as Z3. pose proof (f_equal vx Ex) as X1. pose proof (f_equal vy Ex) as X2. cbn [vx vy vz] in Z3, X1, X2. clear Ez Ex A.
  assert (B0 : b = 0) by nra. assert (C0 : c = 0) by nra. subst b c.
  assert (CT : cos th = a * a - d * d) by nra. assert (ST : sin th = 2 * a * d) by nra. set (h := th / 2) in *. assert (TH : th = 2 * h) by (unfold h; field). rewrite TH in CT, ST. rewrite cos_2a in CT. rewrite sin_2a in ST. pose proof (sin2_cos2 h) as SC. unfold Rsqr in SC.
  set (cc := cos h) in *. set (s := sin h) in *. clearbody cc s. clear TH h th Z3 X1 X2.
  assert (CC : cc * cc = a * a) by nra. assert (SS : s * s = d * d) by nra. assert (CS : s * cc = a * d) by nra.
  exists (a * cc + d * s). assert (E2 : (a * cc + d * s) * (a * cc + d * s) = 1).
  { replace ((a * cc + d * s) * (a * cc + d * s)) with (a * a * (cc * cc) + 2 * (a * d) * (s * cc) + d * d * (s * s)) by ring. rewrite CC, SS, CS. replace (a * a * (a * a) + 2 * (a * d) * (a * d) + d * d * (d * d)) with ((a * a + d * d) * (a * a + d * d)) by ring. replace (a * a + d * d) with 1 by lra. ring. }
  assert (EA : a = (a * cc + d * s) * cc). { replace ((a * cc + d * s) * cc) with (a * (cc * cc) + d * (s * cc)) by ring. rewrite CC, CS. replace (a * (a * a) + d * (a * d)) with (a * (a * a + d * d)) by ring. replace (a * a + d * d) with 1 by lra. ring. }
  assert (ED : d = (a * cc + d * s) * s). { replace ((a * cc + d * s) * s) with (a * (s * cc) + d * (s * s)) by ring. rewrite SS, CS. replace (a * (a * d) + d * (d * d)) with (d * (a * a + d * d)) by ring. replace (a * a + d * d) with 1 by lra. ring. }
  split; [|repeat split; assumption]. assert ((a * cc + d * s - 1) * (a * cc + d * s + 1) = 0) by lra. apply Rmult_integral in H. destruct H; [left|right]; lra.
Qed.
(** the measured angle: equal to the angle modulo 2 pi out of the dead zone, within DEAD in it *)
Definition sharp (th : R) : Prop := Rabs (cos (th / 2)) < Q_LIMIT.
Lemma norm_mod a : exists k : Z, Normalize__PI_PI a = a + 2 * PI * IZR k.
Proof. exists (- Int_part ((a + PI) / (2 * PI)))%Z. unfold Normalize__PI_PI. rewrite opp_IZR. ring. Qed.
Lemma norm_pi a : - PI <= Normalize__PI_PI a < PI.
Proof. pose proof PI_RGT_0. pose proof (norm_range (a + PI) (2 * PI) ltac:(lra)). unfold Normalize__PI_PI. lra. Qed.
Lemma norm_pi_id a : - PI <= a < PI -> Normalize__PI_PI a = a.
Proof. intros H. pose proof (norm_id (a + PI) (2 * PI) ltac:(lra)) as E. unfold Normalize__PI_PI. lra. Qed.
(** rounding to an integer *)
Lemma near_int x : exists k : Z, Rabs (x - IZR k) <= 1 / 2.
Proof. exists (Int_part (x + 1 / 2)). pose proof (Int_part_bounds (x + 1 / 2)). apply Rabs_le. lra. Qed.
Lemma cos_shift x k : Rabs (cos (x + IZR k * PI)) = Rabs (cos x).
Proof.
  rewrite cos_plus. assert (S0 : sin (IZR k * PI) = 0) by (apply sin_eq_0_1; exists k; reflexivity). rewrite S0. pose proof (sin2_cos2 (IZR k * PI)) as SC. unfold Rsqr in SC. rewrite S0 in SC.
  rewrite Rmult_0_r, Rminus_0_r, Rabs_mult. assert (C1 : Rabs (cos (IZR k * PI)) = 1). { assert ((cos (IZR k * PI) - 1) * (cos (IZR k * PI) + 1) = 0) by lra. apply Rmult_integral in H. destruct H; [rewrite Rabs_right by lra; lra|rewrite Rabs_left by lra; lra]. }
  rewrite C1. ring.
Qed.
Lemma dead_near th : ~ sharp th -> exists k : Z, Rabs (th + 2 * PI * IZR k) <= DEAD.
Proof.
  intros NS. unfold sharp in NS. apply Rnot_lt_le in NS. pose proof PI_RGT_0. destruct (near_int (th / 2 / PI)) as [k K]. set (r := th / 2 - IZR k * PI).
  assert (RR : Rabs r <= PI / 2). { unfold r. replace (th / 2 - IZR k * PI) with ((th / 2 / PI - IZR k) * PI) by (field; lra). rewrite Rabs_mult, (Rabs_right PI) by lra. nra. }
  assert (CR : Q_LIMIT <= cos r). { replace (th / 2) with (r + IZR k * PI) in NS by (unfold r; ring). rewrite cos_shift in NS. rewrite Rabs_right in NS; [exact NS|]. apply Rle_ge, cos_ge_0; apply abs_between in RR; lra. }
  exists (- k)%Z. rewrite opp_IZR. replace (th + 2 * PI * - IZR k) with (2 * r) by (unfold r; field). rewrite Rabs_mult, (Rabs_right 2) by lra. unfold DEAD. apply Rmult_le_compat_l; [lra|].
  destruct (Rle_dec (Rabs r) (acos Q_LIMIT)) as [L|L]; [exact L|]. exfalso. apply Rnot_le_lt in L. pose proof Q_LIMIT_range. pose proof (acos_bound Q_LIMIT) as AB.
  assert (D : cos (Rabs r) < cos (acos Q_LIMIT)) by (apply cos_decreasing_1; lra). rewrite cos_acos in D by lra. assert (CA : cos (Rabs r) = cos r) by (unfold Rabs; destruct (Rcase_abs r); [apply cos_neg|reflexivity]). lra.
Qed.
Lemma rotvec_z q th : unitq q -> (forall x, qrotate q x = mv (Rz th) x) ->
  (sharp th -> exists k : Z, vz (GetRotationVector q NWU) = th + 2 * PI * IZR k) /\ (~ sharp th -> vz (GetRotationVector q NWU) = 0).
Proof.
  intros U A. destruct (quat_z q th U A) as (e & He & E0 & E1 & E2 & E3). unfold GetRotationVector, Q_to_AngAxis.
  assert (AB : Rabs (q0 q) = Rabs (cos (th / 2))). { rewrite E0, Rabs_mult. destruct He as [->| ->]; [rewrite Rabs_R1|replace (-1) with (- (1)) by ring; rewrite Rabs_Ropp, Rabs_R1]; ring. }
  rewrite AB. split; intros SH.
  - destruct (Rlt_dec _ _) as [_|N]; [|contradiction]. cbv zeta. cbn [fst snd]. pose proof Q_LIMIT_range.
    assert (QB : -1 < q0 q < 1). { unfold sharp in SH. rewrite <- AB in SH. apply Rabs_def2 in SH. lra. }
    set (arg := acos (q0 q)). assert (CA : cos arg = q0 q) by (apply cos_acos; lra). assert (SA : sin arg = sqrt (1 - (q0 q)²)) by (apply sin_acos; lra).
    assert (Q3 : q3 q * q3 q = 1 - q0 q * q0 q). { unfold unitq in U. rewrite E1, E2 in U. lra. }
    assert (SP : 0 < sin arg). { rewrite SA. apply sqrt_lt_R0. unfold Rsqr. nra. } assert (S2 : sin arg * sin arg = q3 q * q3 q). { rewrite SA, sqrt_sqrt; [unfold Rsqr; lra|unfold Rsqr; nra]. }
    rewrite E1, E2, !Rmult_0_r. set (t := / sin arg * q3 q). assert (TT : t * t = 1). { unfold t. replace (/ sin arg * q3 q * (/ sin arg * q3 q)) with (q3 q * q3 q / (sin arg * sin arg)) by (field; lra). rewrite <- S2. field. lra. }
    assert (TS : sin arg * t = q3 q) by (unfold t; field; lra).
    assert (NV : vnormalize (V 0 0 t) = V 0 0 t). { unfold vnormalize, vnorm, vdot, vscale. cbn [vx vy vz]. replace (0 * 0 + 0 * 0 + t * t) with 1 by lra. rewrite sqrt_1. destruct (Rlt_dec _ _); apply vec_eq; cbn [vx vy vz]; field. }
    rewrite NV. rewrite swap_convert. unfold vscale. cbn [convert vx vy vz]. clearbody t. clear NV.
    (* phi = t * arg has the cosine and sine of th / 2, up to the sign e *)
    assert (CP : cos (t * arg) = q0 q). { assert (T1 : t = 1 \/ t = -1) by (assert (X : (t - 1) * (t + 1) = 0) by lra; apply Rmult_integral in X; destruct X; [left|right]; lra). destruct T1 as [->| ->]; [rewrite Rmult_1_l; exact CA|]. replace (-1 * arg) with (- arg) by ring. rewrite cos_neg. exact CA. }
    assert (SPH : sin (t * arg) = q3 q). { assert (T1 : t = 1 \/ t = -1) by (assert (X : (t - 1) * (t + 1) = 0) by lra; apply Rmult_integral in X; destruct X; [left|right]; lra). destruct T1 as [->| ->]; [rewrite Rmult_1_l; lra|]. replace (-1 * arg) with (- arg) by ring. rewrite sin_neg. lra. }
    assert (SD : sin (t * arg - th / 2) = 0). { rewrite sin_minus, CP, SPH, E0, E3. ring. }
    apply sin_eq_0_0 in SD. destruct SD as [k SD]. exists k. lra.
  - destruct (Rlt_dec _ _) as [Y|_]; [contradiction|]. cbn [fst snd]. rewrite swap_convert. unfold vscale. cbn [convert vx vy vz]. ring.
Qed.
Lemma measured c th : unitq (frot (c_21 c)) -> (forall x, qrotate (frot (c_21 c)) x = mv (Rz th) x) ->
  - PI <= GetUpdatedRelativeAngle c < PI /\ exists (k : Z) e, GetUpdatedRelativeAngle c = th + e + 2 * PI * IZR k /\ Rabs e <= DEAD /\ (sharp th -> e = 0).
Proof.
  intros U A. unfold GetUpdatedRelativeAngle. split; [apply norm_pi|]. destruct (rotvec_z _ _ U A) as [H1 H2]. pose proof DEAD_range. destruct (Rlt_dec (Rabs (cos (th / 2))) Q_LIMIT) as [S|N].
  - destruct (H1 S) as [k K]. destruct (norm_mod (vz (GetRotationVector (frot (c_21 c)) NWU))) as [j J]. exists (k + j)%Z, 0. rewrite J, K, plus_IZR, Rabs_R0. split; [ring|]. split; [lra|reflexivity].
  - rewrite (H2 N). rewrite norm_pi_id by (pose proof PI_RGT_0; lra). destruct (dead_near th N) as [k K]. exists k, (- (th + 2 * PI * IZR k)). rewrite Rabs_Ropp. split; [ring|]. split; [exact K|]. intros S. contradiction.
Qed.
Lemma trunc_bounds x : Rabs (x - IZR (trunc x)) < 1.
Proof. unfold trunc. destruct (Rle_dec 0 x); [pose proof (Int_part_bounds x); rewrite Rabs_right; lra|]. rewrite opp_IZR. pose proof (Int_part_bounds (- x)). apply Rabs_def1; lra. Qed.
Lemma fmod_bounds a : Rabs (fmod_2PI a) < 2 * PI.
Proof.
  unfold fmod_2PI. pose proof PI_RGT_0. pose proof (trunc_bounds (a / (2 * PI))) as T. replace (a - 2 * PI * IZR (trunc (a / (2 * PI)))) with (2 * PI * (a / (2 * PI) - IZR (trunc (a / (2 * PI))))) by (field; lra).
  rewrite Rabs_mult, (Rabs_right (2 * PI)) by lra. nra.
Qed.
Lemma increment_small l u : Rabs l < 2 * PI -> - PI <= u < PI -> Rabs (angle_increment l u) <= PI.
Proof.
  intros L U. pose proof PI_RGT_0. apply Rabs_def2 in L. unfold angle_increment. destruct (Rlt_dec _ _) as [A|A]; [|destruct (Rlt_dec _ _) as [B|B]].
  - apply Rabs_le. unfold Rabs in A. destruct (Rcase_abs _), (Rcase_abs _); lra.
  - apply Rabs_le. unfold Rabs in A, B. repeat destruct (Rcase_abs _); lra.
  - apply Rabs_le. unfold Rabs in A, B. repeat destruct (Rcase_abs _); lra.
Qed.
Lemma increment_mod l u : exists k : Z, angle_increment l u = u - l + 2 * PI * IZR k.
Proof. unfold angle_increment. destruct (Rlt_dec _ _); [exists 1%Z; ring|]. destruct (Rlt_dec _ _); [exists (-1)%Z; ring|exists 0%Z; ring]. Qed.
(** one update *)
Lemma track_step r b1 i1 m1 b2 i2 m2 rf rt th0 th : has_node b1 i1 m1 -> has_node b2 i2 m2 -> hinge m1 m2 th -> Rabs (rv_total r - th0) <= DEAD -> Rabs (th - th0) < PI - 2 * DEAD ->
  Rabs (rv_total (RUpdate r m1 m2 rf rt) - th) <= DEAD /\ (sharp th -> rv_total (RUpdate r m1 m2 rf rt) = th).
Proof.
  intros H1 H2 G HT HS. destruct (hinge_rel _ _ _ _ _ _ _ H1 H2 G) as (UR & _ & AR).
  unfold RUpdate. cbv zeta. cbn [rv_total]. set (c := GenerateCache m1 m2 rf rt). destruct (measured c th UR AR) as [MB (k & e & ME & EB & ES)].
  set (u := GetUpdatedRelativeAngle c) in *. clearbody u. unfold GetRelativeLinkAngle. replace (fmod_2PI (rv_total r) - rv_rest r + rv_rest r) with (fmod_2PI (rv_total r)) by ring.
  pose proof (fmod_bounds (rv_total r)) as FB. pose proof (increment_small _ _ FB MB) as IS. destruct (increment_mod (fmod_2PI (rv_total r)) u) as [j J]. set (inc := angle_increment (fmod_2PI (rv_total r)) u) in *. clearbody inc.
  assert (EX : exists n : Z, rv_total r + inc = th + e + 2 * PI * IZR n). { exists (k + j + trunc (rv_total r / (2 * PI)))%Z. rewrite J, ME, !plus_IZR. unfold fmod_2PI. ring. }
  destruct EX as [n EX]. pose proof PI_RGT_0. assert (N0 : n = 0%Z).
  { assert (B : Rabs (2 * PI * IZR n) < 2 * PI). { replace (2 * PI * IZR n) with (inc + (rv_total r - th0) + (th0 - th) - e) by lra. apply Rabs_def1; repeat match goal with X : Rabs _ <= _ |- _ => apply abs_between in X end; apply Rabs_def2 in HS; lra. }
    rewrite Rabs_mult, (Rabs_right (2 * PI)) in B by lra. assert (B1 : Rabs (IZR n) < 1) by nra. apply Rabs_def2 in B1. destruct B1 as [B1 B2]. apply lt_IZR in B1. assert (B3 : IZR (-1) < IZR n) by lra. apply lt_IZR in B3. lia. }
  subst n. assert (EE : rv_total r + inc = th + e) by lra. rewrite EE. split; [replace (th + e - th) with e by ring; exact EB|]. intros S. rewrite (ES S). ring.
Qed.
Lemma track l h : hinge_history l h -> forall r th0, Rabs (rv_total r - th0) <= DEAD -> slow (PI - 2 * DEAD) th0 h ->
  Rabs (rv_total (rev_run l r) - last_angle th0 h) <= DEAD /\ (h <> [] -> sharp (last_angle th0 h) -> rv_total (rev_run l r) = last_angle th0 h).
Proof.
  induction 1 as [|k c l h _ IH|a l h _ IH|l h _ IH|l h _ IH|l h _ IH|b1 b2 i1 i2 m1 m2 rf rt th l h H1 H2 G HH IH]; intros r th0 HT SL; cbn [rev_run]; try (apply IH; [exact HT|exact SL]).
  - split; [exact HT|congruence].
  - destruct SL as [SL1 SL2]. cbn [rev_step]. destruct (track_step r _ _ _ _ _ _ rf rt th0 th H1 H2 G HT SL1) as [A B]. destruct (IH (RUpdate r m1 m2 rf rt) th A SL2) as [C E].
    assert (LA : last_angle th0 (th :: h) = last_angle th h). { unfold last_angle. cbn [last]. destruct h as [|x t]; [reflexivity|]. clear. revert x. induction t as [|y t IHt]; intros x; [reflexivity|]. cbn [last]. apply IHt. }
    rewrite LA. split; [exact C|]. intros _ SH. destruct h as [|x t]; [|apply E; [discriminate|exact SH]]. clear E. unfold last_angle in *. cbn [last] in *.
    (* no later update: the other operations keep the angle *)
    assert (KEEP : forall l r, hinge_history l [] -> rv_total (rev_run l r) = rv_total r).
    { clear. intros l. induction l as [|o l IH]; intros r HH; [reflexivity|]. inversion HH; subst; cbn [rev_run]; rewrite IH by assumption; reflexivity. }
    rewrite KEEP by exact HH. apply B. exact SH.
Qed.
