(** Proofs for bodies: observation of the pose, velocities (C21) and forces (C22). *)
From Coq Require Import Reals List Lra Psatz Lia.
From Verif Require Import GeoModel GeoSpec GeoProofs GeoProofs2 GeoProofs3 BodyModel BodySpec BodyProofs BodyProofs2.
Open Scope R_scope.

Lemma bmap_can : forall F v d c Ns x, body_map (canon F v d c Ns) x = plus3 (fpos F) (qrotate (frot F) x).
Proof. intros. unfold body_map. rewrite world_can. reflexivity. Qed.
Lemma turn_can : forall F v d c Ns x, turn (body_map (canon F v d c Ns)) x = qrotate (frot F) x.
Proof.
  intros. unfold turn. rewrite !bmap_can, minus_plus_l, <- qrotate_minus. f_equal. destruct x; geo; veq; ring.
Qed.
Lemma act_eq : forall f x, unitf f -> act f x = plus3 (fpos f) (qrotate (frot f) x).
Proof. intros. unfold act. rewrite qrotate_action; auto. Qed.
Lemma observes_can : forall F v d c Ns, unitf F -> List.Forall unitf Ns -> observes (canon F v d c Ns) (st F c Ns).
Proof.
  intros F v d c Ns HF HN. unfold observes. cbn [st bs_map bs_cog bs_nodes]. repeat split.
  - intros. rewrite frame_can. rewrite <- act_pmap; auto.
  - intros. rewrite pos_can, pmap0. reflexivity.
  - intros. rewrite world_can, pmap_eq. reflexivity.
  - intros. rewrite body_can, convert_invol, pmap_eq, plus_minus3, qrotate_conj_l, convert_invol; auto.
  - intros. apply cogpos_can.
  - intros. rewrite cogworld_can, pmap_eq. reflexivity.
  - intros. unfold GetFrameAtPoint, SetRotation, SetPosition; cbn [fpos]. rewrite quat_can, swap_convert, world_can, convert_invol.
    rewrite act_eq by exact HF. cbn [fpos frot]. rewrite pmap_eq, qrotate_plus3, plus_assoc3. reflexivity.
  - unfold rigid. intros a b. exact (pmap_rigid F NWU a b HF).
  - unfold canon; cbn [b_marks]. rewrite !map_length. reflexivity.
  - intros x. unfold canon in H; cbn [b_marks] in H. rewrite nth_error_map in H, H0.
    destruct (nth_error Ns i) as [N|] eqn:E; cbn in H, H0; inversion H; inversion H0; subst.
    change (Mk (relf c N) (mf_mul (cogm F v d c) (relf c N))) with (mkn F v d c N).
    assert (HNu : unitf N) by (eapply Forall_forall; eauto using nth_error_In).
    rewrite ngfb_can, <- act_pmap; auto.
  - intros x. unfold canon in H; cbn [b_marks] in H. rewrite nth_error_map in H, H0.
    destruct (nth_error Ns i) as [N|] eqn:E; cbn in H, H0; inversion H; inversion H0; subst.
    change (Mk (relf c N) (mf_mul (cogm F v d c) (relf c N))) with (mkn F v d c N).
    assert (HNu : unitf N) by (eapply Forall_forall; eauto using nth_error_In).
    rewrite ngfw_can, <- act_pmap; [|apply unitf_mul; auto]. cbn [bs_map]. apply pmap_chmul; auto.
  - intros fc. unfold canon in H; cbn [b_marks] in H. rewrite nth_error_map in H, H0.
    destruct (nth_error Ns i) as [N|] eqn:E; cbn in H, H0; inversion H; inversion H0; subst.
    change (Mk (relf c N) (mf_mul (cogm F v d c) (relf c N))) with (mkn F v d c N).
    unfold NGetPositionInBody. rewrite ngfb_can, pmap0. apply swap_convert.
  - intros fc. unfold canon in H; cbn [b_marks] in H. rewrite nth_error_map in H, H0.
    destruct (nth_error Ns i) as [N|] eqn:E; cbn in H, H0; inversion H; inversion H0; subst.
    change (Mk (relf c N) (mf_mul (cogm F v d c) (relf c N))) with (mkn F v d c N).
    unfold NGetPositionInWorld. rewrite ngfw_can, pmap0; cbn [bs_map st]; rewrite pmap_eq. apply swap_convert.
Qed.

Lemma reach_can : forall b, reachable b -> exists F v d c Ns, b = canon F v d c Ns /\ unitf F /\ List.Forall unitf Ns.
Proof.
  intros b [l [Hl E]]. rewrite newbody_can in E.
  destruct (body_run_ok l fident vzero qzero origin nil Hl unitq_one (Forall_nil _)) as (F & v & d & c & Ns & E' & HF & HN & _).
  exists F, v, d, c, Ns. rewrite E, E'. auto.
Qed.
Lemma st_new : st fident origin nil = BS (pmap fident) origin nil. Proof. reflexivity. Qed.
(** A sequence of operations is insensitive to the initial map being the identity only pointwise. *)
Lemma sequence_means : forall l, List.Forall body_ok l -> List.Forall (fun o => ~ in_node_axes o) l ->
  exists s0 s, (forall x, bs_map s0 x = x) /\ bs_cog s0 = origin /\ bs_nodes s0 = nil /\
    body_ops_mean l s0 s /\ observes (body_run l newbody) s.
Proof.
  intros l Hl Hg. rewrite newbody_can.
  destruct (body_run_ok l fident vzero qzero origin nil Hl unitq_one (Forall_nil _)) as (F & v & d & c & Ns & E' & HF & HN & Hm).
  exists (st fident origin nil), (st F c Ns). rewrite E'.
  split; [|split; [reflexivity|split; [reflexivity|split; [auto|apply observes_can; auto]]]].
  intros x. cbn [st bs_map]. rewrite pmap_eq. unfold fident; cbn [fpos frot]. rewrite qrotate_one. destruct x; geo; veq; ring.
Qed.
Lemma step_observed : forall b s o, reachable b -> body_ok o -> ~ in_node_axes o -> observes b s ->
  exists s', observes (body_step o b) s' /\ reachable (body_step o b).
Proof.
  intros b s o Hr Ho Hn Hob. destruct (reach_can b Hr) as (F & v & d & c & Ns & -> & HF & HN).
  destruct (body_step_ok o F v d c Ns) as (F1 & v1 & d1 & c1 & N1 & E & HF1 & HN1 & Hm); auto.
  exists (st F1 c1 N1). rewrite E. split; [apply observes_can; auto|].
  destruct Hr as [l [Hl El]]. exists (l ++ o :: nil). split; [apply Forall_app; auto|].
  assert (X : forall l b, body_run (l ++ o :: nil) b = body_step o (body_run l b)) by (induction l0; intros; cbn; auto).
  rewrite X, <- El. auto.
Qed.

(** *** velocities *)
Section V.
Variables (F : frame) (v : vec) (d : quat) (c : vec) (Ns : list frame).
Hypothesis HF : unitf F.
Let B := canon F v d c Ns.
Let w := Wvel_par (cogm F v d c).
Let u := mf_vel (b_ref B).
Lemma proj_back : forall x fc, qrotate (frot F) (convert fc (ProjectVectorInBody B x fc)) = convert fc x.
Proof. intros. unfold B. rewrite pib_can, convert_invol, qrotate_conj_r; auto. Qed.
Lemma proj_fwd : forall x fc, ProjectVectorInWorld B x fc = convert fc (qrotate (frot F) (convert fc x)).
Proof. intros. apply piw_can. Qed.
Lemma angw : forall fc, BGetAngularVelocityInWorld B fc = convert fc w.
Proof. intros. unfold BGetAngularVelocityInWorld. rewrite swap_convert. reflexivity. Qed.
Lemma linw : forall fc, GetLinearVelocityInWorld B fc = convert fc u.
Proof. intros. unfold GetLinearVelocityInWorld. rewrite swap_convert. reflexivity. Qed.
Lemma angb : forall fc, qrotate (frot F) (convert fc (BGetAngularVelocityInBody B fc)) = w.
Proof. intros. unfold BGetAngularVelocityInBody. rewrite proj_back, angw, convert_invol. reflexivity. Qed.
Lemma linb : forall fc, qrotate (frot F) (convert fc (GetVelocityInBody B fc)) = u.
Proof. intros. unfold GetVelocityInBody. rewrite proj_back, linw, convert_invol. reflexivity. Qed.
Lemma bbvel : forall p fc, qrotate (frot F) (convert fc (GetVelocityInBodyAtPointInBody B p fc)) =
  plus3 u (cross3 w (qrotate (frot F) (convert fc p))).
Proof.
  intros. unfold GetVelocityInBodyAtPointInBody. rewrite vadd_plus, convert_plus, qrotate_plus3, linb. f_equal.
  change vcross with cross3. rewrite <- convert_cross, <- qrotate_cross, angb; auto.
Qed.
Lemma turnB : forall x, turn (body_map B) x = qrotate (frot F) x. Proof. apply turn_can. Qed.
Lemma bmapB : forall x, body_map B x = plus3 (fpos F) (qrotate (frot F) x). Proof. apply bmap_can. Qed.
Lemma bodyB : forall X fc, qrotate (frot F) (convert fc (GetPointPositionInBody B X fc)) = minus3 (convert fc X) (fpos F).
Proof. intros. unfold B. rewrite body_can, convert_invol, qrotate_conj_r; auto. Qed.
Lemma field_can : velocity_reads B (fpos F) u w.
Proof.
  unfold velocity_reads, vector_read, point_field; cbv zeta.
  assert (E : rigid_velocity (fpos F) u w (body_map B origin) = u).
  { unfold rigid_velocity. rewrite bmapB, plus_minus3.
    replace (qrotate (frot F) origin) with origin by (destruct (frot F); geo; veq; ring).
    generalize w u; intros [] []; geo; veq; ring. }
  repeat split; intros; rewrite ?turnB, ?E.
  - apply angw.
  - apply angb.
  - apply linw.
  - apply linb.
  - unfold GetVelocityInWorldAtPointInWorld, GetVelocityInWorldAtPointInBody. rewrite proj_fwd, bbvel, bodyB. reflexivity.
  - unfold GetVelocityInWorldAtPointInBody. rewrite proj_fwd, bbvel, bmapB. unfold rigid_velocity. rewrite plus_minus3. reflexivity.
  - unfold GetVelocityInBodyAtPointInWorld. rewrite bbvel, bodyB. reflexivity.
  - rewrite bbvel, bmapB. unfold rigid_velocity. rewrite plus_minus3. reflexivity.
Qed.
End V.

(** *** spinning bodies *)
Definition spin (F : frame) (w : vec) : quat := qscale (/2) (qmul (qpure w) (frot F)).
Lemma spin_w : forall F v w c, unitf F -> Wvel_par (cogm F v (spin F w) c) = w.
Proof.
  intros [p q] v w c H. unfold unitf in H; cbn [frot] in H. unfold Wvel_par, cogm, spin; cbn [mf_qdt mf_frame frot].
  destruct q as [qa qb qc qd], w. apply unitq_elim in H; cbn [q0 q1 q2 q3] in H. bgeo. veq; field [H].
Qed.
Lemma spin_pt : forall F v w c p, unitf F -> PointSpeed (cogm F v (spin F w) c) p = plus3 v (cross3 w (qrotate (frot F) p)).
Proof.
  intros [fp q] v w c p H. unfold unitf in H; cbn [frot] in H. unfold PointSpeed, cogm, spin; cbn [mf_vel mf_qdt mf_frame frot].
  destruct q as [qa qb qc qd], w, p, v. apply unitq_elim in H; cbn [q0 q1 q2 q3] in H. bgeo. veq; field [H].
Qed.
Lemma rv_shift : forall P v w Q, forall X, rigid_velocity Q (rigid_velocity P v w Q) w X = rigid_velocity P v w X.
Proof. intros [] [] [] [] []; unfold rigid_velocity; geo; veq; ring. Qed.
Lemma vr_ext : forall b P v w P' v', velocity_reads b P v w ->
  (forall X, rigid_velocity P' v' w X = rigid_velocity P v w X) -> velocity_reads b P' v' w.
Proof.
  intros b P v w P' v' (A & (B1 & B2) & (C1 & C2 & C3 & C4)) E. unfold velocity_reads, vector_read, point_field.
  repeat split; intros; rewrite ?E; try apply A; auto.
Qed.
Lemma spinning_everywhere : forall F v w c Ns P V0, unitf F -> List.Forall unitf Ns ->
  v = rigid_velocity P V0 w (plus3 (fpos F) (qrotate (frot F) c)) ->
  velocity_reads_everywhere (canon F v (spin F w) c Ns) P V0 w.
Proof.
  intros F v w c Ns P V0 HF HN Hv.
  assert (Eu : mf_vel (b_ref (canon F v (spin F w) c Ns)) = rigid_velocity P V0 w (fpos F)).
  { unfold canon; cbn [b_ref mf_mul mf_vel auxf fpos]. rewrite spin_pt by auto. subst v. unfold rigid_velocity.
    rewrite qrotate_neg. generalize (qrotate (frot F) c). destruct (fpos F), P, V0, w. intros []; geo; veq; ring. }
  split; [|split].
  - pose proof (field_can F v (spin F w) c Ns HF) as X. rewrite spin_w, Eu in X by auto.
    eapply vr_ext; [exact X|]. intros Y. symmetry. apply rv_shift.
  - assert (Ec : GetCOGPositionInWorld (canon F v (spin F w) c Ns) NWU = plus3 (fpos F) (qrotate (frot F) c))
      by (rewrite cogworld_can; reflexivity).
    rewrite Ec, <- Hv. split.
    + intros fc. unfold GetCOGLinearVelocityInWorld. rewrite swap_convert. reflexivity.
    + intros fc. rewrite turn_can. unfold GetCOGVelocityInBody. rewrite proj_back by auto.
      unfold GetCOGLinearVelocityInWorld. rewrite swap_convert, convert_invol. reflexivity.
  - intros i m Hm. unfold canon in Hm; cbn [b_marks] in Hm. rewrite nth_error_map in Hm.
    destruct (nth_error Ns i) as [N|] eqn:E; cbn in Hm; inversion Hm; subst m.
    assert (HNu : unitf N) by (eapply Forall_forall; eauto using nth_error_In).
    split; intros fc.
    + unfold NGetVelocityInWorld; cbn [mk_abs mf_mul mf_vel relf fpos]. rewrite swap_convert, spin_pt by auto. f_equal.
      unfold NGetPositionInWorld, NGetFrameInWorld; cbn [mk_abs]. rewrite mf_node. unfold GetPosition. rewrite swapNWU.
      cbn [chmul fpos]. subst v. rewrite qrotate_vsub. unfold rigid_velocity.
      generalize (qrotate (frot F) c) (qrotate (frot F) (fpos N)). destruct (fpos F), P, V0, w. intros [] []; geo; veq; ring.
    + unfold NGetAngularVelocityInWorld; cbn [mk_abs]. rewrite swap_convert. f_equal.
      rewrite <- (spin_w F v w c HF) at 2.
      unfold Wvel_par, mf_mul; cbn [mf_qdt mf_frame chmul frot relf cogm].
      replace (qmul (qmul (spin F w) (frot N)) (qconj (qmul (frot F) (frot N)))) with (qmul (spin F w) (qconj (frot F))); [reflexivity|].
      replace (qconj (qmul (frot F) (frot N))) with (qmul (qconj (frot N)) (qconj (frot F))).
      2:{ destruct (frot F), (frot N). geo. qeq; ring. }
      rewrite <- !qmul_assoc. f_equal. rewrite qmul_assoc, qmul_conj_r, qmul_1r; auto.
Qed.

Lemma genvel_can : forall F v d c Ns p x w fc, unitf F ->
  SetGenVelInBodyAtPointInBody (canon F v d c Ns) p x w fc =
  canon F (rigid_velocity (plus3 (fpos F) (qrotate (frot F) (convert fc p))) (qrotate (frot F) (convert fc x))
            (qrotate (frot F) (convert fc w)) (plus3 (fpos F) (qrotate (frot F) c)))
        (spin F (qrotate (frot F) (convert fc w))) c Ns.
Proof.
  intros F v d c Ns p x w fc HF. unfold SetGenVelInBodyAtPointInBody, SetVelocityInBodyNoRotation, SetAngularVelocityInBody.
  rewrite setvel_can, setang_can, !piw_can, !convert_invol, cogpos_can. unfold spin. f_equal.
  change vcross with cross3. rewrite vadd_plus, convert_plus, <- convert_cross, qrotate_plus3, <- qrotate_cross by auto.
  rewrite vsub_minus, convert_minus, convert_invol, qrotate_minus. unfold rigid_velocity. rewrite minus_plus_l. reflexivity.
Qed.
Lemma vel_run_can : forall F v d c Ns o, unitf F ->
  exists v' w, vel_run (canon F v d c Ns) o = canon F v' (spin F w) c Ns /\
   (let '(P, V0, W0) := vel_prescribed (body_map (canon F v d c Ns)) o in
    W0 = w /\ v' = rigid_velocity P V0 w (plus3 (fpos F) (qrotate (frot F) c))).
Proof.
  intros F v d c Ns o HF. 
  destruct o; cbn [vel_run vel_prescribed]; rewrite ?turn_can, ?bmap_can;
   unfold SetGenVelInWorld, SetGenVelInBody, SetGenVelInWorldAtPointInWorld, SetGenVelInBodyAtPointInWorld, SetGenVelInWorldAtPointInBody;
   rewrite genvel_can by auto; eexists _, _; (split; [reflexivity|]);
   repeat rewrite proj_back by auto; rewrite ?body_can, ?convert_invol, ?qrotate_conj_r, ?minus_plus3 by auto; 
   (split; [reflexivity|]); try reflexivity.
  all: assert (E : convert fc vzero = origin) by (destruct fc; geo; veq; ring); rewrite ?E; reflexivity.
Qed.

Lemma moves_keep : forall o F v w c Ns, body_ok o -> keeps_orientation o -> unitf F -> List.Forall unitf Ns ->
  exists F' v' c' Ns', body_step o (canon F v (spin F w) c Ns) = canon F' v' (spin F' w) c' Ns' /\ unitf F' /\ List.Forall unitf Ns' /\
    frot F' = frot F /\
    (forall P V0, v = rigid_velocity P V0 w (plus3 (fpos F) (qrotate (frot F) c)) ->
       exists P', v' = rigid_velocity P' V0 w (plus3 (fpos F') (qrotate (frot F') c')) /\
       forall x, minus3 (plus3 (fpos F') (qrotate (frot F') x)) P' = minus3 (plus3 (fpos F) (qrotate (frot F) x)) P).
Proof.
  intros o F v w c Ns Ho Hk HF HN.
  assert (T : forall t, (exists F', F' = Fr (plus3 (fpos F) t) (frot F) /\
     body_step o (canon F v (spin F w) c Ns) = canon F' v (spin F w) c Ns) ->
     exists F' v' c' Ns', body_step o (canon F v (spin F w) c Ns) = canon F' v' (spin F' w) c' Ns' /\ unitf F' /\ List.Forall unitf Ns' /\
    frot F' = frot F /\
    (forall P V0, v = rigid_velocity P V0 w (plus3 (fpos F) (qrotate (frot F) c)) ->
       exists P', v' = rigid_velocity P' V0 w (plus3 (fpos F') (qrotate (frot F') c')) /\
       forall x, minus3 (plus3 (fpos F') (qrotate (frot F') x)) P' = minus3 (plus3 (fpos F) (qrotate (frot F) x)) P)).
  { intros t [F' [EF E]]. exists F', v, c, Ns. rewrite E. subst F'. repeat split; auto.
    intros P V0 Hv. exists (plus3 P t). cbn [fpos frot]. split.
    - rewrite Hv at 1. unfold rigid_velocity. generalize (qrotate (frot F) c). destruct (fpos F), P, V0, w, t.
      intros []; geo; veq; ring.
    - intros x. generalize (qrotate (frot F) x). destruct (fpos F), P, t. intros []; geo; veq; ring. }
  assert (N : (exists Ns', List.Forall unitf Ns' /\ body_step o (canon F v (spin F w) c Ns) = canon F v (spin F w) c Ns') ->
     exists F' v' c' Ns', body_step o (canon F v (spin F w) c Ns) = canon F' v' (spin F' w) c' Ns' /\ unitf F' /\ List.Forall unitf Ns' /\
    frot F' = frot F /\
    (forall P V0, v = rigid_velocity P V0 w (plus3 (fpos F) (qrotate (frot F) c)) ->
       exists P', v' = rigid_velocity P' V0 w (plus3 (fpos F') (qrotate (frot F') c')) /\
       forall x, minus3 (plus3 (fpos F') (qrotate (frot F') x)) P' = minus3 (plus3 (fpos F) (qrotate (frot F) x)) P)).
  { intros [Ns' [HN' E]]. exists F, v, c, Ns'. rewrite E. repeat split; auto. intros P V0 Hv. exists P. auto. }
  destruct o; cbn [keeps_orientation body_ok] in *; try contradiction.
  - clear T N. cbn [body_step]. destruct (setcog_can F v (spin F w) c Ns p fc HF) as [v' [E S]]. rewrite E.
    exists F, v', (convert fc p), Ns. repeat split; auto.
    intros P V0 Hv. exists P. split; [|auto].
    specialize (S (convert fc p)).
    pose proof (spin_pt F v' w (convert fc p) (vsub (convert fc p) (convert fc p)) HF) as S1.
    pose proof (spin_pt F v w c (vsub (convert fc p) c) HF) as S2.
    unfold PointSpeed, cogm in S1, S2; cbn [mf_vel mf_qdt mf_frame frot] in S1, S2.
    rewrite S1, S2 in S. rewrite Hv in S. rewrite !qrotate_vsub in S. unfold rigid_velocity in *.
    assert (Z : v' = plus3 v' (cross3 w (vsub (qrotate (frot F) (convert fc p)) (qrotate (frot F) (convert fc p)))))
      by (generalize (qrotate (frot F) (convert fc p)); destruct v', w; intros []; geo; veq; ring).
    rewrite Z, S. generalize (qrotate (frot F) (convert fc p)) (qrotate (frot F) c). destruct (fpos F), P, V0, w.
    intros [] []; geo; veq; ring.
  - apply (T (minus3 (convert fc p) (fpos F))). eexists; split; [reflexivity|]. cbn [body_step].
    rewrite setpos_can, minus_plus3. reflexivity.
  - apply (T (minus3 (convert fc worldPos) (plus3 (fpos F) (qrotate (frot F) (convert fc bodyPoint))))).
    eexists; split; [reflexivity|]. cbn [body_step]. apply setpt_can.
  - apply (T (convert fc t)). eexists; split; [reflexivity|]. apply transw_can.
  - apply (T (qrotate (frot F) (convert fc t))). eexists; split; [reflexivity|]. apply transb_can.
  - apply N. eexists; split; [|apply newnode_can]. apply Forall_app; split; auto. constructor; auto. exact unitq_one.
  - apply N; clear T N.
    destruct (nth_error Ns i) as [X|] eqn:E; [|exists Ns; split; [auto|apply on_node_none; auto]].
    exists (updf Ns i f). split; [apply updf_forall; auto|]. eapply on_node_can; eauto. apply nsfb_can.
  - apply N; clear T N.
    destruct (nth_error Ns i) as [X|] eqn:E; [|exists Ns; split; [auto|apply on_node_none; auto]].
    eexists. split; [|eapply on_node_can; [exact E|apply nsfw_can; auto]].
    apply updf_forall; auto. apply unitf_mul; auto. apply unitf_inv; auto.
  - apply N; clear T N.
    destruct (nth_error Ns i) as [X|] eqn:E; [|exists Ns; split; [auto|apply on_node_none; auto]].
    assert (HX : unitf X) by (eapply Forall_forall; eauto using nth_error_In).
    eexists. split; [|eapply on_node_can; [exact E|unfold NSetPositionInBody; rewrite ngfb_can, nsfb_can; reflexivity]].
    apply updf_forall; auto.
  - apply N; clear T N.
    destruct (nth_error Ns i) as [X|] eqn:E; [|exists Ns; split; [auto|apply on_node_none; auto]].
    assert (HX : unitf X) by (eapply Forall_forall; eauto using nth_error_In).
    assert (Hu : unitf (SetPosition (chmul F X) p fc)) by (apply (unitf_mul F X); auto).
    eexists. split; [|eapply on_node_can; [exact E|unfold NSetPositionInWorld; rewrite ngfw_can; apply nsfw_can; auto]].
    apply updf_forall; auto. apply unitf_mul; auto. apply unitf_inv; auto.
  - apply N; clear T N.
    destruct (nth_error Ns i) as [X|] eqn:E; [|exists Ns; split; [auto|apply on_node_none; auto]].
    assert (HX : unitf X) by (eapply Forall_forall; eauto using nth_error_In).
    eexists. split; [|eapply on_node_can; [exact E|unfold NTranslateInBody; rewrite ngfb_can, nsfb_can; reflexivity]].
    apply updf_forall; auto.
  - apply N; clear T N.
    destruct (nth_error Ns i) as [X|] eqn:E; [|exists Ns; split; [auto|apply on_node_none; auto]].
    assert (HX : unitf X) by (eapply Forall_forall; eauto using nth_error_In).
    assert (Hu : unitf (TranslateInParent (chmul F X) t fc)) by (apply (unitf_mul F X); auto).
    eexists. split; [|eapply on_node_can; [exact E|unfold NTranslateInWorld; rewrite ngfw_can; apply nsfw_can; auto]].
    apply updf_forall; auto. apply unitf_mul; auto. apply unitf_inv; auto.
  - apply N; clear T N.
    destruct (nth_error Ns i) as [X|] eqn:E; [|exists Ns; split; [auto|apply on_node_none; auto]].
    eexists. split; [|eapply on_node_can; [exact E|unfold NSetOrientationInBody; rewrite ngfb_can, nsfb_can; reflexivity]].
    apply updf_forall; auto.
  - apply N; clear T N.
    destruct (nth_error Ns i) as [X|] eqn:E; [|exists Ns; split; [auto|apply on_node_none; auto]].
    assert (HX : unitf X) by (eapply Forall_forall; eauto using nth_error_In).
    eexists. split; [|eapply on_node_can; [exact E|unfold NRotateInBody; rewrite ngfb_can, nsfb_can; reflexivity]].
    apply updf_forall; auto. apply unitq_mul; auto.
  - apply N; clear T N.
    destruct (nth_error Ns i) as [X|] eqn:E; [|exists Ns; split; [auto|apply on_node_none; auto]].
    assert (HX : unitf X) by (eapply Forall_forall; eauto using nth_error_In).
    assert (Hu : unitf (RotateInFrame (chmul F X) q)) by (apply unitq_mul; auto; apply (unitf_mul F X); auto).
    eexists. split; [|eapply on_node_can; [exact E|unfold NRotateInWorld; rewrite ngfw_can; apply nsfw_can; auto]].
    apply updf_forall; auto. apply unitf_mul; auto. apply unitf_inv; auto.
Qed.
Lemma run_keep : forall l F v w c Ns P V0, List.Forall body_ok l -> List.Forall keeps_orientation l -> unitf F -> List.Forall unitf Ns ->
  v = rigid_velocity P V0 w (plus3 (fpos F) (qrotate (frot F) c)) ->
  exists F' v' c' Ns' P', body_run l (canon F v (spin F w) c Ns) = canon F' v' (spin F' w) c' Ns' /\ unitf F' /\ List.Forall unitf Ns' /\
    v' = rigid_velocity P' V0 w (plus3 (fpos F') (qrotate (frot F') c')) /\
    forall x, minus3 (plus3 (fpos F') (qrotate (frot F') x)) P' = minus3 (plus3 (fpos F) (qrotate (frot F) x)) P.
Proof.
  induction l as [|o l IH]; intros F v w c Ns P V0 Hl Hk HF HN Hv.
  - exists F, v, c, Ns, P. repeat split; auto.
  - inversion Hl; inversion Hk; subst. 
    destruct (moves_keep o F (rigid_velocity P V0 w (plus3 (fpos F) (qrotate (frot F) c))) w c Ns) as (F1 & v1 & c1 & N1 & E & HF1 & HN1 & _ & Hm); auto.
    destruct (Hm P V0 eq_refl) as [P1 [Hv1 Hx]].
    destruct (IH F1 v1 w c1 N1 P1 V0) as (F2 & v2 & c2 & N2 & P2 & E2 & HF2 & HN2 & Hv2 & Hx2); auto.
    exists F2, v2, c2, N2, P2. cbn [body_run]. rewrite E. repeat split; auto. intros x. rewrite Hx2. apply Hx.
Qed.
Lemma set_read_keep : forall b o l, reachable b -> List.Forall body_ok l -> List.Forall keeps_orientation l ->
  let g := body_map b in let '(P, V0, W0) := vel_prescribed g o in
  let b1 := vel_run b o in let b2 := body_run l b1 in
  (forall x, body_map b1 x = g x) /\
  velocity_reads_everywhere b1 P V0 W0 /\
  exists P2, (forall x, minus3 (body_map b2 x) P2 = minus3 (g x) P) /\ velocity_reads_everywhere b2 P2 V0 W0.
Proof.
  intros b o l Hr Hl Hk. destruct (reach_can b Hr) as (F & v & d & c & Ns & -> & HF & HN).
  destruct (vel_run_can F v d c Ns o HF) as (v' & w & E & H). cbv zeta.
  destruct (vel_prescribed (body_map (canon F v d c Ns)) o) as [[P V0] W0]. destruct H as [-> Hv].
  rewrite E. split; [intros x; rewrite !bmap_can; reflexivity|].
  split; [apply spinning_everywhere; auto|].
  destruct (run_keep l F v' w c Ns P V0 Hl Hk HF HN Hv) as (F2 & v2 & c2 & N2 & P2 & E2 & HF2 & HN2 & Hv2 & Hx).
  exists P2. rewrite E2. split; [intros x; rewrite !bmap_can; apply Hx|]. apply spinning_everywhere; auto.
Qed.
Lemma field_reach : forall b, reachable b -> exists v w, velocity_reads b (body_map b origin) v w.
Proof.
  intros b Hr. destruct (reach_can b Hr) as (F & v & d & c & Ns & -> & HF & HN).
  eexists _, _. eapply vr_ext; [apply field_can; auto|]. intros X. rewrite bmap_can.
  replace (plus3 (fpos F) (qrotate (frot F) origin)) with (fpos F); [reflexivity|].
  destruct F as [[] []]; geo; veq; ring.
Qed.
