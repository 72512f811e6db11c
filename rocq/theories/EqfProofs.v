(** Proofs for the equilibrium frames: poses and motion *)
From Coq Require Import Reals List Lra Lia.
From Verif Require Import GeoModel GeoSpec BodyModel BodySpec GeoProofs GeoProofs2 GeoProofs3 GeoProofs4 BodyProofs BodyProofs2 BodyProofs3 SigModel HydModel EqfModel EqfSpec.
Import ListNotations.
Open Scope R_scope.

Lemma mv_plus m a b : mv m (plus3 a b) = plus3 (mv m a) (mv m b).
Proof. destruct m, a, b; geo; veq; ring. Qed.
Lemma mv_origin m : mv m origin = origin.
Proof. destruct m; geo; veq; ring. Qed.
Lemma plus_cancel a b c : plus3 a b = plus3 a c -> b = c.
Proof. destruct a as [a1 a2 a3], b as [b1 b2 b3], c as [c1 c2 c3]. geo. intros E. injection E. intros. f_equal; lra. Qed.
Lemma plus_origin a : plus3 a origin = a. Proof. destruct a; geo; veq; ring. Qed.
Lemma origin_plus a : plus3 origin a = a. Proof. destruct a; geo; veq; ring. Qed.
Lemma Rz_add a b x : mv (Rz a) (mv (Rz b) x) = mv (Rz (a + b)) x.
Proof. destruct x. unfold Rz; geo. rewrite cos_plus, sin_plus. veq; ring. Qed.
Lemma Rz_zero x : mv (Rz 0) x = x.
Proof. destruct x. unfold Rz; geo. rewrite cos_0, sin_0. veq; ring. Qed.

Lemma stands_parts f P psi : stands f P psi -> unitf f /\ GeoModel.fpos f = P /\ forall x, qrotate (frot f) x = mv (Rz psi) x.
Proof.
  intros [U H]. change (forall x, pmap f x = plus3 P (mv (Rz psi) x)) in H. split; [exact U|].
  assert (E : GeoModel.fpos f = P). { rewrite <- pmap0, H, mv_origin. apply plus_origin. }
  split; [exact E|]. intros x. specialize (H x). rewrite pmap_eq, E in H. apply plus_cancel in H. exact H.
Qed.
Lemma stands_intro f P psi : unitf f -> GeoModel.fpos f = P -> (forall x, qrotate (frot f) x = mv (Rz psi) x) -> stands f P psi.
Proof. intros U E H. split; [exact U|]. intros x. change (GetPointPositionInParent f x NWU) with (pmap f x). rewrite pmap_eq, E, H. reflexivity. Qed.
Lemma unit_ez : unit3 (V 0 0 1). Proof. unfold unit3; geo; ring. Qed.

Lemma stands_turn f P psi a fc : stands f P psi -> stands (RotZ_RADIANS f a fc true) P (psi + yaw_in fc a).
Proof.
  intros H. destruct (stands_parts _ _ _ H) as (U & E & Q). apply stands_intro.
  - unfold RotZ_RADIANS, unitf; cbn [frot]. apply unitq_mul; [|exact U]. apply unitq_angaxis. rewrite qzaxis_rot. apply unit3_rot; [exact U|apply unit_ez].
  - exact E.
  - intros x. unfold RotZ_RADIANS; cbn [frot]. rewrite qzaxis_rot, local_axis; [|exact U|apply unit_ez]. rewrite rod_z, Q, Rz_add.
    destruct fc; cbn [IsNED yaw_in]; reflexivity.
Qed.
Lemma stands_moved f P psi p : stands f P psi -> stands (SetPosition f p NWU) p psi.
Proof. intros H. destruct (stands_parts _ _ _ H) as (U & E & Q). apply stands_intro; [exact U|reflexivity|exact Q]. Qed.
Lemma stands_rot f P psi a : stands f P psi -> stands (SetRotation f (Rot_RotAxisAngle (frot f) (V 0 0 1) a NWU)) P (psi + a).
Proof.
  intros H. destruct (stands_parts _ _ _ H) as (U & E & Q). apply stands_intro.
  - unfold unitf, Rot_RotAxisAngle, UQ_mul, SetRotation, UQ_SetAxisAngle; cbn [frot]. apply unitq_mul; [exact U|]. apply unitq_angaxis. cbn. apply unit_ez.
  - exact E.
  - intros x. unfold Rot_RotAxisAngle, UQ_mul, SetRotation, UQ_SetAxisAngle; cbn [frot]. rewrite qrotate_mul; [|exact U|apply unitq_angaxis, unit_ez].
    cbn [IsNED swap_if]. rewrite angaxis_rodrigues by apply unit_ez. rewrite rod_z, Q, Rz_add. reflexivity.
Qed.
Lemma stands_pos f P psi : stands f P psi -> GetPosition f NWU = P.
Proof. intros H. destruct (stands_parts _ _ _ H) as (_ & E & _). exact E. Qed.
Lemma stands_ident : stands fident origin 0.
Proof. apply stands_intro; [apply unitq_one|reflexivity|]. intros x. rewrite Rz_zero. apply qrotate_one. Qed.
Lemma stands_heading f P psi psi' : stands f P psi -> cos psi' = cos psi -> sin psi' = sin psi -> stands f P psi'.
Proof. intros [U H] C S0. split; [exact U|]. intros x. rewrite H. unfold Rz. rewrite C, S0. reflexivity. Qed.

(** ** Cardan heading of a matrix *)
Lemma mat_ext (a b : mat) : (forall x, mv a x = mv b x) -> a = b.
Proof.
  intros H. pose proof (H (V 1 0 0)) as E1. pose proof (H (V 0 1 0)) as E2. pose proof (H (V 0 0 1)) as E3. destruct a as [a1 a2 a3 a4 a5 a6 a7 a8 a9], b as [b1 b2 b3 b4 b5 b6 b7 b8 b9]. geo.
  injection E1; injection E2; injection E3; intros. f_equal; lra.
Qed.
Lemma attitude_heading q phi theta psi : unitq q -> (forall x, qrotate q x = mv (attitude phi theta psi) x) -> - (PI / 2) < theta < PI / 2 ->
  let a := Rot_GetCardan_RADIANS q NWU in cos (a_psi a) = cos psi /\ sin (a_psi a) = sin psi /\ - PI < a_psi a <= PI /\ a_theta a = theta /\
  exists p, a_phi a = Some p /\ cos p = cos phi /\ sin p = sin phi /\ - PI < p <= PI.
Proof.
  intros U H T. cbv zeta. unfold Rot_GetCardan_RADIANS. cbn [IsNED].
  assert (E : Set_A_quaternion q = attitude phi theta psi). { apply mat_ext. intros x. rewrite qrotate_mat. apply H. }
  rewrite E.
  assert (RED : forall y, exists y', - PI < y' <= PI /\ cos y' = cos y /\ sin y' = sin y).
  { intros y. exists (atan2 (sin y) (cos y)). split; [apply atan2_range|]. apply atan2_unit. generalize (sin2_cos2 y). unfold Rsqr. lra. }
  destruct (RED phi) as (p' & P1 & P2 & P3). destruct (RED psi) as (s' & S1 & S2 & S3).
  assert (E2 : attitude phi theta psi = attitude p' theta s') by (unfold attitude, Rx, Rz; rewrite P2, P3, S2, S3; reflexivity).
  rewrite E2. unfold attitude. rewrite mat2eul_cardan by auto. cbn [a_psi a_phi a_theta]. repeat split; try tauto. exists p'. auto.
Qed.
Lemma stands_cardan f P psi : stands f P psi -> let a := Rot_GetCardan_RADIANS (frot f) NWU in cos (a_psi a) = cos psi /\ sin (a_psi a) = sin psi /\ - PI < a_psi a <= PI.
Proof.
  intros H. destruct (stands_parts _ _ _ H) as (U & _ & Q). pose proof PI_RGT_0.
  destruct (attitude_heading (frot f) 0 0 psi U) as (A & B & C & _); [|lra|auto].
  intros x. rewrite Q. unfold attitude. rewrite !mv_mm. f_equal. unfold Rx, Ry. rewrite cos_0, sin_0. destruct x; geo; veq; ring.
Qed.
Lemma cossin_eq a b : - PI < a <= PI -> - PI < b <= PI -> cos a = cos b -> sin a = sin b -> a = b.
Proof.
  intros A B C D. rewrite <- (atan2_polar 1 a), <- (atan2_polar 1 b) by lra. rewrite C, D. reflexivity.
Qed.

(** ** Creation *)
Lemma updf_app (Ns : list frame) (N N' : frame) : updf (Ns ++ N :: nil) (length Ns) N' = Ns ++ N' :: nil.
Proof. induction Ns as [|a l IH]; cbn [app length updf]; [reflexivity|]. rewrite IH. reflexivity. Qed.
Lemma set_marker_can F v d c Ns N : set_marker (NewNode (canon F v d c Ns)) (length (b_marks (canon F v d c Ns))) (mkn F v d c N) = canon F v d c (Ns ++ N :: nil).
Proof.
  rewrite newnode_can. unfold set_marker, canon; cbn [b_cog b_aux b_ref b_marks]. f_equal.
  rewrite map_length. change (fun N0 : frame => Mk (relf c N0) (mf_mul (cogm F v d c) (relf c N0))) with (mkn F v d c).
  rewrite upd_map. f_equal. apply updf_app.
Qed.
Lemma first_node F v d c Ns : Impose_Rel_Coord (b_cog (canon F v d c Ns)) fident = mkn F v d c (Fr c qone).
Proof.
  unfold Impose_Rel_Coord, mkn, relf; cbn [GeoModel.fpos frot b_cog canon]. replace (vsub c c) with vzero by (destruct c; geo; veq; ring). reflexivity.
Qed.
Lemma make_can F v d c Ns p rot fc : unitf F -> let b := canon F v d c Ns in
  let f0 := SetPosition fident (plus3 (GeoModel.fpos F) (qrotate (frot F) (convert fc p))) NWU in
  let f := RotZ_RADIANS (ApplyFrameProjection b f0) rot fc true in
  unitf f -> EF_make b p rot fc = (canon F v d c (Ns ++ chmul (chinv F) f :: nil), EF f vzero 0 false 0).
Proof.
  intros U b f0 f Uf. unfold EF_make. unfold SetEqFramePositionOrientation. cbv zeta.
  assert (E : NGetPositionInWorld (NSetPositionInBody (NewNode b) (Impose_Rel_Coord (b_cog b) fident) p fc) NWU = plus3 (GeoModel.fpos F) (qrotate (frot F) (convert fc p))).
  { unfold b at 2. rewrite first_node. unfold NSetPositionInBody, b. rewrite newnode_can. rewrite ngfb_can. rewrite nsfb_can. unfold NGetPositionInWorld. rewrite ngfw_can.
    unfold GetPosition, SetPosition, chmul; cbn [GeoModel.fpos frot]. unfold swap_if at 1; cbn [IsNED]. rewrite swap_convert. reflexivity. }
  rewrite E. change (ApplyFrameProjection (NewNode b) (SetPosition fident (plus3 (GeoModel.fpos F) (qrotate (frot F) (convert fc p))) NWU)) with (ApplyFrameProjection b f0). fold f.
  assert (E2 : NSetFrameInWorld (NewNode b) f = mkn F v d c (chmul (chinv F) f)) by (unfold b; rewrite newnode_can; apply nsfw_can; assumption).
  rewrite E2. unfold b. rewrite set_marker_can. reflexivity.
Qed.
Lemma projection_stands F v d c Ns P phi theta psi : unitf F -> (forall x, qrotate (frot F) x = mv (attitude phi theta psi) x) -> - (PI / 2) < theta < PI / 2 ->
  stands (ApplyFrameProjection (canon F v d c Ns) (SetPosition fident P NWU)) P psi.
Proof.
  intros U A T. unfold ApplyFrameProjection. rewrite quat_can. destruct (attitude_heading (frot F) phi theta psi U A T) as (C & S0 & _).
  pose proof (stands_turn _ _ _ (a_psi (Rot_GetCardan_RADIANS (frot F) NWU)) NWU (stands_moved _ _ _ P stands_ident)) as K.
  refine (stands_heading _ _ _ psi K _ _); cbn [yaw_in]; rewrite ?Rplus_0_l; auto.
Qed.
Lemma run_snoc l o b : body_run (l ++ [o]) b = body_step o (body_run l b).
Proof. revert b. induction l as [|a l IH]; intros b; cbn [app body_run]; [reflexivity|]. apply IH. Qed.
Lemma reach_step b o : reachable b -> body_ok o -> reachable (body_step o b).
Proof. intros [l [H E]] O. exists (l ++ [o]). split; [apply Forall_app; auto|]. rewrite run_snoc, E. reflexivity. Qed.
Lemma created b p rot fc phi theta psi : reachable b -> (forall x, turn (body_map b) x = mv (attitude phi theta psi) x) -> - (PI / 2) < theta < PI / 2 ->
  let '(b', e) := EF_make b p rot fc in
  stands (EF_GetFrame e) (body_map b (convert fc p)) (psi + yaw_in fc rot) /\
  reachable b' /\ (forall x, body_map b' x = body_map b x) /\
  exists n, nth_error (b_marks b') (length (b_marks b)) = Some n /\ NGetFrameInWorld n = EF_GetFrame e.
Proof.
  intros RB A T. destruct (reach_can b RB) as (F & v & d & c & Ns & E & U & UN). subst b.
  assert (Q : forall x, qrotate (frot F) x = mv (attitude phi theta psi) x) by (intros x; rewrite <- A; symmetry; apply turn_can).
  pose proof (stands_turn _ _ _ rot fc (projection_stands F v d c Ns (plus3 (GeoModel.fpos F) (qrotate (frot F) (convert fc p))) phi theta psi U Q T)) as SF.
  pose proof (stands_parts _ _ _ SF) as (UF & _).
  rewrite (make_can F v d c Ns p rot fc U UF). unfold EF_GetFrame; cbn [ef_frame]. rewrite bmap_can. split; [exact SF|]. split; [|split].
  - set (f := RotZ_RADIANS _ _ _ _) in *. replace (canon F v d c (Ns ++ [chmul (chinv F) f])) with (body_step (BONodeSetFrameInWorld (length Ns) f) (body_step BONewNode (canon F v d c Ns))).
    + apply reach_step; [apply reach_step; [exact RB|exact I]|exact UF].
    + cbn [body_step]. rewrite newnode_can. rewrite (on_node_can F v d c (Ns ++ [Fr c qone]) (length Ns) _ (Fr c qone)) with (N' := chmul (chinv F) f); [f_equal; apply updf_app| |apply nsfw_can; assumption].
      rewrite nth_error_app2, PeanoNat.Nat.sub_diag by lia. reflexivity.
  - intros x. rewrite !bmap_can. reflexivity.
  - exists (mkn F v d c (chmul (chinv F) (RotZ_RADIANS (ApplyFrameProjection (canon F v d c Ns) (SetPosition fident (plus3 (GeoModel.fpos F) (qrotate (frot F) (convert fc p))) NWU)) rot fc true))).
    split.
    + unfold canon; cbn [b_marks]. rewrite !map_length, map_app. cbn [map]. rewrite nth_error_app2, map_length, PeanoNat.Nat.sub_diag by (rewrite map_length; lia). reflexivity.
    + rewrite ngfw_can. apply chinv_cancel; assumption.
Qed.

(** ** Motion *)
Lemma compute_step e t P psi : stands (ef_frame e) P psi -> fast_enough FLT_EPSILON (ef_vel e) -> turns_enough FLT_EPSILON (ef_w e) ->
  FLT_EPSILON <= Rabs (t - ef_prev e) -> let e' := EF_Compute e t in
  stands (ef_frame e') (plus3 P (scal3 (t - ef_prev e) (ef_vel e))) (psi + (t - ef_prev e) * ef_w e) /\
  ef_vel e' = ef_vel e /\ ef_w e' = ef_w e /\ ef_prev e' = t.
Proof.
  intros H FV FW D. cbv zeta. unfold EF_Compute. destruct (Rlt_dec _ _) as [K|_]; [lra|]. cbv zeta. cbn [ef_frame ef_vel ef_w ef_prev]. split; [|auto].
  set (dt := t - ef_prev e). rewrite (stands_pos _ _ _ H).
  assert (S1 : stands (if Rlt_dec FLT_EPSILON (vdot (ef_vel e) (ef_vel e)) then SetPosition (ef_frame e) (vadd P (vscale dt (ef_vel e))) NWU else ef_frame e)
      (plus3 P (scal3 dt (ef_vel e))) psi).
  { destruct (Rlt_dec _ _) as [_|K].
    - apply (stands_moved _ _ _ _ H).
    - destruct FV as [Z|Z]; [|exfalso; apply K; exact Z]. rewrite Z. replace (plus3 P (scal3 dt origin)) with P; [exact H|]. destruct P; geo; veq; ring. }
  destruct (Rlt_dec FLT_EPSILON (Rabs (ef_w e))) as [_|K].
  - replace (dt * ef_w e) with (yaw_in NWU (ef_w e * dt)) by (cbn [yaw_in]; ring). apply stands_turn, S1.
  - destruct FW as [Z|Z]; [|exfalso; apply K; exact Z]. rewrite Z, Rmult_0_r, Rplus_0_r. exact S1.
Qed.
Lemma compute_skip e t : Rabs (t - ef_prev e) < FLT_EPSILON -> EF_Compute e t = e.
Proof. intros H. unfold EF_Compute. destruct (Rlt_dec _ _); [reflexivity|lra]. Qed.
Definition pose_at (e : eqf) (P : vec) (psi : R) (v : vec) (w T : R) : Prop :=
  stands (ef_frame e) (plus3 P (scal3 T v)) (psi + T * w) /\ ef_vel e = v /\ ef_w e = w /\ ef_prev e = T.
Lemma pose_step e P psi v w T t : fast_enough FLT_EPSILON v -> turns_enough FLT_EPSILON w -> FLT_EPSILON <= Rabs (t - T) ->
  pose_at e P psi v w T -> pose_at (EF_Compute e t) P psi v w t.
Proof.
  intros FV FW D (S0 & <- & <- & <-). destruct (compute_step e t _ _ S0 FV FW D) as (S1 & E1 & E2 & E3). unfold pose_at. split; [|auto].
  replace (plus3 P (scal3 t (ef_vel e))) with (plus3 (plus3 P (scal3 (ef_prev e) (ef_vel e))) (scal3 (t - ef_prev e) (ef_vel e))) by (generalize (ef_vel e); intros []; destruct P; geo; veq; ring).
  replace (psi + t * ef_w e) with (psi + ef_prev e * ef_w e + (t - ef_prev e) * ef_w e) by ring. exact S1.
Qed.
Lemma pose_spaced l : forall e P psi v w T, fast_enough FLT_EPSILON v -> turns_enough FLT_EPSILON w -> spaced FLT_EPSILON T l ->
  pose_at e P psi v w T -> pose_at (EF_ComputeAll e l) P psi v w (last l T).
Proof.
  induction l as [|t l IH]; intros e P psi v w T FV FW SP H; [exact H|]. destruct SP as [D SP].
  change (EF_ComputeAll e (t :: l)) with (EF_ComputeAll (EF_Compute e t) l). pose proof (IH _ P psi v w t FV FW SP (pose_step _ _ _ _ _ _ _ FV FW D H)) as K.
  replace (last (t :: l) T) with (last l t); [exact K|]. clear. revert t. induction l as [|a l IH]; intros t; [reflexivity|]. cbn [last] in *. destruct l; [reflexivity|]. rewrite !IH in *. specialize (IH t). rewrite <- IH. reflexivity.
Qed.
Lemma pose_any l : forall e P psi v w T, fast_enough FLT_EPSILON v -> turns_enough FLT_EPSILON w -> pose_at e P psi v w T ->
  exists T', Rabs (T' - last l T) < FLT_EPSILON /\ pose_at (EF_ComputeAll e l) P psi v w T'.
Proof.
  assert (EP : 0 < FLT_EPSILON) by (unfold FLT_EPSILON; lra).
  intros e P psi v w T FV FW H. destruct (exists_last (l := T :: l)) as (l0 & x & E); [discriminate|]. clear E l0 x.
  induction l as [|t l IH] using rev_ind.
  - exists T. split; [|exact H]. cbn [last]. replace (T - T) with 0 by ring. rewrite Rabs_R0. exact EP.
  - destruct IH as (T' & D & K). rewrite last_last. unfold EF_ComputeAll. rewrite fold_left_app. cbn [fold_left]. fold (EF_ComputeAll e l).
    destruct (Rlt_dec (Rabs (t - T')) FLT_EPSILON) as [Q|Q].
    + exists T'. split; [rewrite Rabs_minus_sym; exact Q|]. rewrite compute_skip; [exact K|]. destruct K as (_ & _ & _ & ->). exact Q.
    + exists t. split; [replace (t - t) with 0 by ring; rewrite Rabs_R0; exact EP|]. apply (pose_step _ _ _ _ _ T'); auto. lra.
Qed.
