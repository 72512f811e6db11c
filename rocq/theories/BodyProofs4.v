(** Proofs for forces (C22) and for the node methods that act in node axes (C17). *)
From Coq Require Import Reals List Lra Psatz Lia.
From Verif Require Import GeoModel GeoSpec GeoProofs GeoProofs2 GeoProofs3 BodyModel BodySpec BodyProofs BodyProofs2 BodyProofs3.
Open Scope R_scope.

(** wrench of a force state on a canonical body *)
Definition wr (F : frame) (c : vec) (s : force) : wrench :=
  W (f_force s) (qrotate (frot F) (f_torque s)) (plus3 (fpos F) (qrotate (frot F) c)).
Lemma cross_self0 : forall a b, plus3 a (cross3 (minus3 b b) a) = a.
Proof. intros [] []; geo; veq; ring. Qed.
Lemma moment_self : forall f m p, moment_of (W f m p) p = m.
Proof. intros [] [] []; unfold moment_of; cbn [w_moment w_point w_force]; geo; veq; ring. Qed.
Section Fo.
Variables (F : frame) (v : vec) (d : quat) (c : vec) (Ns : list frame).
Hypothesis HF : unitf F.
Let B := canon F v d c Ns.
Let G := plus3 (fpos F) (qrotate (frot F) c).
Lemma projback2 : forall x fc, qrotate (frot F) (convert fc (ProjectVectorInBody B x fc)) = convert fc x.
Proof. exact (proj_back F v d c Ns HF). Qed.
Lemma tcog : forall s fc, GetTorqueInWorldAtCOG B s fc = convert fc (qrotate (frot F) (f_torque s)).
Proof.
  intros. unfold GetTorqueInWorldAtCOG, GetTorqueInBodyAtCOG, B. rewrite piw_can, swap_convert, convert_invol. reflexivity.
Qed.
Lemma tww : forall s X fc, GetTorqueInWorldAtPointInWorld B s X fc = convert fc (moment_of (wr F c s) (convert fc X)).
Proof.
  intros. unfold GetTorqueInWorldAtPointInWorld, GetForceInWorld. rewrite tcog, swap_convert. unfold B. rewrite cogworld_can.
  change vcross with cross3. rewrite vsub_minus, vadd_plus.
  rewrite <- (convert_invol fc X) at 1. rewrite <- convert_minus, convert_cross, <- convert_plus. reflexivity.
Qed.
Lemma wworld : forall p fc, convert fc (GetPointPositionInWorld B p fc) = body_map B (convert fc p).
Proof. intros. unfold B. rewrite world_can, bmap_can, convert_invol. reflexivity. Qed.
Lemma bmapB2 : forall x, body_map B x = plus3 (fpos F) (qrotate (frot F) x). Proof. apply bmap_can. Qed.
Lemma turnB2 : forall x, turn (body_map B) x = qrotate (frot F) x. Proof. apply turn_can. Qed.
Lemma reads_can : forall s, reads_as B s (wr F c s).
Proof.
  intros s. unfold reads_as, vector_read, point_field; cbv zeta.
  assert (EG : GetCOGPositionInWorld B NWU = G) by (unfold B; rewrite cogworld_can; reflexivity).
  rewrite EG. repeat split; intros; rewrite ?turnB2.
  - unfold GetForceInWorld. rewrite swap_convert. reflexivity.
  - unfold GetForceInBody. rewrite projback2. unfold GetForceInWorld. rewrite swap_convert, convert_invol. reflexivity.
  - rewrite tcog. unfold wr. fold G. rewrite moment_self. reflexivity.
  - unfold GetTorqueInBodyAtCOG. rewrite swap_convert, convert_invol. unfold wr. fold G. rewrite moment_self. reflexivity.
  - apply tww.
  - unfold GetTorqueInWorldAtPointInBody. rewrite tww, wworld. reflexivity.
  - unfold GetTorqueInBodyAtPointInWorld. rewrite projback2, tww, convert_invol. reflexivity.
  - unfold GetTorqueInBodyAtPointInBody. rewrite projback2. unfold GetTorqueInWorldAtPointInBody. rewrite tww, wworld, convert_invol. reflexivity.
Qed.
Definition weq (a b : wrench) : Prop := w_force a = w_force b /\ forall X, moment_of a X = moment_of b X.
Lemma reads_ext : forall s a b, weq a b -> reads_as B s a -> reads_as B s b.
Proof.
  intros s a b [E1 E2] (A & (B1 & B2) & (C1 & C2 & C3 & C4)). unfold reads_as, vector_read, point_field in *; cbv zeta in *.
  repeat split; intros; rewrite <- ?E1, <- ?E2; auto; apply A.
Qed.
Lemma reads_weq : forall s a, reads_as B s a -> weq (wr F c s) a.
Proof.
  intros s a Ha. pose proof (reads_can s) as Hw.
  destruct Ha as ((A1 & A2) & _ & (C1 & _)). destruct Hw as ((A1' & _) & _ & (C1' & _)). split.
  - specialize (A1 NWU). specialize (A1' NWU). cbn [convert] in *. congruence.
  - intros X. specialize (C1 X NWU). specialize (C1' X NWU). cbn [convert] in *. congruence.
Qed.
(** moment of a force applied at a body point *)
Lemma torque_pt : forall s f p fc,
  weq (wr F c (SetForceInWorldAtPointInBody B s f p fc)) (W (convert fc f) origin (body_map B (convert fc p))).
Proof.
  intros. unfold SetForceInWorldAtPointInBody, SetTorqueInBodyAtCOG, SetForceInWorldAtCOG, wr; cbn [f_force f_torque].
  rewrite !swap_convert. split; [reflexivity|]. intros X. unfold moment_of; cbn [w_moment w_point w_force].
  rewrite bmapB2.
  change vcross with cross3. rewrite <- convert_cross, <- qrotate_cross, projback2 by auto.
  unfold B. rewrite cogpos_can, vsub_minus, convert_minus, convert_invol, qrotate_minus.
  generalize (qrotate (frot F) (convert fc p)) (qrotate (frot F) c) (convert fc f) (fpos F). destruct X.
  intros [] [] [] []; geo; veq; ring.
Qed.
Lemma back_pt : forall X fc, body_map B (convert fc (GetPointPositionInBody B X fc)) = convert fc X.
Proof. intros. unfold B. rewrite body_can, convert_invol, bmap_can, qrotate_conj_r, minus_plus3; auto. Qed.
Lemma weq_trans : forall a b e, weq a b -> weq b e -> weq a e.
Proof. intros a b e [A1 A2] [B1 B2]. split; [congruence|]. intros; rewrite A2; auto. Qed.
Lemma weq_refl : forall a, weq a a. Proof. intros; split; auto. Qed.
Lemma add_torque : forall s t f P, weq (wr F c s) (W f origin P) ->
  forall fc t', qrotate (frot F) (convert fc t') = t ->
  weq (wr F c (SetTorqueInBodyAtCOG s (vadd (GetTorqueInBodyAtCOG s fc) t') fc)) (W f t P).
Proof.
  intros s t f P [E1 E2] fc t' Et. unfold SetTorqueInBodyAtCOG, GetTorqueInBodyAtCOG, wr in *; cbn [f_force f_torque w_force] in *.
  split; [exact E1|]. intros X. specialize (E2 X). unfold moment_of in *; cbn [w_moment w_point w_force] in *.
  change vadd with plus3; rewrite !swap_convert, convert_plus, convert_invol, qrotate_plus3, Et.
  assert (R : plus3 (plus3 (qrotate (frot F) (f_torque s)) t) (cross3 (minus3 (plus3 (fpos F) (qrotate (frot F) c)) X) (f_force s)) =
     plus3 t (plus3 (qrotate (frot F) (f_torque s)) (cross3 (minus3 (plus3 (fpos F) (qrotate (frot F) c)) X) (f_force s)))).
  { generalize (qrotate (frot F) (f_torque s)) (cross3 (minus3 (plus3 (fpos F) (qrotate (frot F) c)) X) (f_force s)).
    destruct t. intros [] []; geo; veq; ring. }
  rewrite R, E2. generalize (cross3 (minus3 P X) f). destruct t. intros []; geo; veq; ring.
Qed.
Lemma force_step_can : forall o s w, weq (wr F c s) w -> weq (wr F c (force_step B o s)) (force_means (body_map B) G o w).
Proof.
  intros o s w Hw.
  assert (E0 : moment_of w G = qrotate (frot F) (f_torque s)).
  { destruct Hw as [_ Hw]. rewrite <- Hw. apply moment_self. }
  assert (Ef : w_force w = f_force s) by (symmetry; apply Hw).
  destruct o; cbn [force_step force_means]; rewrite ?turnB2.
  - unfold SetForceInWorldAtCOG, wr; cbn [f_force f_torque]. rewrite swap_convert, E0. apply weq_refl.
  - unfold SetForceInBody, SetForceInWorldAtCOG, wr; cbn [f_force f_torque]. unfold B. rewrite piw_can, swap_convert, convert_invol, E0. apply weq_refl.
  - apply torque_pt.
  - unfold SetForceInWorldAtPointInWorld. rewrite <- (back_pt p fc). apply torque_pt.
  - unfold SetForceInBodyAtPointInBody. replace (qrotate (frot F) (convert fc f)) with (convert fc (ProjectVectorInWorld B f fc)). { apply torque_pt. }
    unfold B. rewrite piw_can, convert_invol. reflexivity.
  - unfold SetForceInBodyAtPointInWorld, SetForceInWorldAtPointInWorld. replace (qrotate (frot F) (convert fc f)) with (convert fc (ProjectVectorInWorld B f fc)). { rewrite <- (back_pt p fc). apply torque_pt. }
    unfold B. rewrite piw_can, convert_invol. reflexivity.
  - unfold SetTorqueInWorldAtCOG, SetTorqueInBodyAtCOG, wr; cbn [f_force f_torque]. rewrite swap_convert, projback2, Ef. apply weq_refl.
  - unfold SetTorqueInBodyAtCOG, wr; cbn [f_force f_torque]. rewrite swap_convert, Ef. apply weq_refl.
  - unfold SetForceTorqueInWorldAtCOG, SetTorqueInWorldAtCOG, SetForceInWorldAtCOG, SetTorqueInBodyAtCOG, wr; cbn [f_force f_torque]. rewrite !swap_convert, projback2. apply weq_refl.
  - unfold SetForceTorqueInBodyAtCOG, SetForceInBody, SetForceInWorldAtCOG, SetTorqueInBodyAtCOG, wr; cbn [f_force f_torque]. unfold B. rewrite !swap_convert, piw_can, convert_invol. apply weq_refl.
  - unfold SetForceTorqueInWorldAtPointInBody. apply add_torque; [apply torque_pt|apply projback2].
  - unfold SetForceTorqueInWorldAtPointInWorld. apply add_torque; [|apply projback2]. unfold SetForceInWorldAtPointInWorld. rewrite <- (back_pt p fc). apply torque_pt.
  - unfold SetForceTorqueInBodyAtPointInBody. apply add_torque; [|reflexivity].
    unfold SetForceInBodyAtPointInBody. replace (qrotate (frot F) (convert fc f)) with (convert fc (ProjectVectorInWorld B f fc)). { apply torque_pt. }
    unfold B. rewrite piw_can, convert_invol. reflexivity.
  - unfold SetForceTorqueInBodyAtPointInWorld. apply add_torque; [|reflexivity].
    unfold SetForceInBodyAtPointInWorld, SetForceInWorldAtPointInWorld. replace (qrotate (frot F) (convert fc f)) with (convert fc (ProjectVectorInWorld B f fc)). { rewrite <- (back_pt p fc). apply torque_pt. }
    unfold B. rewrite piw_can, convert_invol. reflexivity.
Qed.
End Fo.

Definition force_run (b : body) (l : list force_op) (s : force) : force := fold_left (fun s o => force_step b o s) l s.
Lemma force_sequence : forall b l s w, reachable b -> reads_as b s w ->
  reads_as b (force_run b l s) (forces_mean (body_map b) (GetCOGPositionInWorld b NWU) l w).
Proof.
  intros b l. induction l as [|o l IH]; intros s w Hr Hs; [exact Hs|].
  unfold force_run; cbn [fold_left forces_mean]. apply IH; [exact Hr|].
  destruct (reach_can b Hr) as (F & v & d & c & Ns & -> & HF & HN).
  apply (reads_ext F v d c Ns _ (wr F c (force_step (canon F v d c Ns) o s))); [|apply reads_can; auto].
  rewrite cogworld_can. apply force_step_can; auto. eapply reads_weq; eauto.
Qed.
Lemma force_some : forall b s, reachable b -> exists w, reads_as b s w.
Proof.
  intros b s Hr. destruct (reach_can b Hr) as (F & v & d & c & Ns & -> & HF & HN).
  exists (wr F c s). apply reads_can; auto.
Qed.

(** limits *)
Lemma vnorm_scale : forall k x, 0 <= k -> vnorm (vscale k x) = k * vnorm x.
Proof.
  intros k [a b e] Hk. unfold vnorm. replace (vdot (vscale k (V a b e)) (vscale k (V a b e))) with (Rsqr k * vdot (V a b e) (V a b e)).
  - rewrite sqrt_mult_alt by apply Rle_0_sqr. rewrite sqrt_Rsqr; auto.
  - unfold Rsqr. geo. ring.
Qed.
Lemma vnorm_nonneg : forall x, 0 <= vnorm x. Proof. intros. apply sqrt_pos. Qed.
Lemma limit_spec : forall lim x, 0 <= lim ->
  vnorm (limit_to lim x) <= lim /\ (vnorm x <= lim -> limit_to lim x = x) /\
  (exists k, 0 <= k <= 1 /\ limit_to lim x = scal3 k x) /\ (lim < vnorm x -> vnorm (limit_to lim x) = lim).
Proof.
  intros lim x Hl. unfold limit_to. cbv zeta. destruct (Rlt_dec lim (vnorm x)) as [H|H].
  - assert (Hp : 0 < vnorm x) by lra.
    assert (Hk : 0 <= lim / vnorm x) by (apply Rmult_le_pos; [lra|left; apply Rinv_0_lt_compat; lra]).
    assert (Hk1 : lim / vnorm x <= 1).
    { apply (Rmult_le_reg_r (vnorm x)); [lra|]. unfold Rdiv. rewrite Rmult_assoc, Rinv_l; lra. }
    assert (E : vnorm (vscale (lim / vnorm x) x) = lim) by (rewrite vnorm_scale by auto; field; lra).
    rewrite E. repeat split; try lra. exists (lim / vnorm x). split; [lra|reflexivity].
  - repeat split; try lra; auto. exists 1. split; [lra|]. destruct x; geo; veq; ring.
Qed.

(** *** node methods acting in node axes *)
Lemma node_actual : forall b i m, reachable b -> nth_error (b_marks b) i = Some m ->
  exists g n : motion,
   (forall x, act (NGetFrameInBody b m) x = n x) /\ (forall x, body_map b x = g x) /\
   (forall t fc m', nth_error (b_marks (body_step (BONodeTranslateInBody i t fc) b)) i = Some m' ->
      forall x, act (NGetFrameInBody b m') x = n (plus3 x (convert fc t))) /\
   (forall q m', unitq q -> nth_error (b_marks (body_step (BONodeRotateInBody i q) b)) i = Some m' ->
      forall x, act (NGetFrameInBody b m') x = n (quat_action q x)) /\
   (forall q m', unitq q -> nth_error (b_marks (body_step (BONodeRotateInWorld i q) b)) i = Some m' ->
      forall x, act (NGetFrameInWorld m') x = g (n (quat_action q x))).
Proof.
  intros b i m Hr Hm. destruct (reach_can b Hr) as (F & v & d & c & Ns & -> & HF & HN).
  unfold canon in Hm; cbn [b_marks] in Hm. rewrite nth_error_map in Hm.
  destruct (nth_error Ns i) as [N|] eqn:E; cbn in Hm; inversion Hm; subst m; clear Hm.
  change (Mk (relf c N) (mf_mul (cogm F v d c) (relf c N))) with (mkn F v d c N).
  assert (HNu : unitf N) by (eapply Forall_forall; eauto using nth_error_In).
  exists (pmap F), (pmap N). split; [|split; [|split; [|split]]].
  - intros x. rewrite ngfb_can. symmetry; apply act_pmap; auto.
  - intros x. rewrite bmap_can, pmap_eq. reflexivity.
  - intros t fc m' Hm' x. cbn [body_step] in Hm'.
    rewrite (on_node_can F v d c Ns i _ N E (TranslateInFrame N t fc)) in Hm'
      by (unfold NTranslateInBody; rewrite ngfb_can, nsfb_can; reflexivity).
    unfold canon in Hm'; cbn [b_marks] in Hm'. rewrite nth_error_map, (updf_nth _ _ _ _ E) in Hm'. cbn in Hm'. inversion Hm'; subst m'.
    change (Mk (relf c (TranslateInFrame N t fc)) (mf_mul (cogm F v d c) (relf c (TranslateInFrame N t fc)))) with (mkn F v d c (TranslateInFrame N t fc)).
    rewrite ngfb_can, <- act_pmap by exact HNu. apply (step_means (OTranslateInFrame t fc) N I HNu).
  - intros q m' Hq Hm' x. cbn [body_step] in Hm'.
    rewrite (on_node_can F v d c Ns i _ N E (RotateInFrame N q)) in Hm'
      by (unfold NRotateInBody; rewrite ngfb_can, nsfb_can; reflexivity).
    unfold canon in Hm'; cbn [b_marks] in Hm'. rewrite nth_error_map, (updf_nth _ _ _ _ E) in Hm'. cbn in Hm'. inversion Hm'; subst m'.
    change (Mk (relf c (RotateInFrame N q)) (mf_mul (cogm F v d c) (relf c (RotateInFrame N q)))) with (mkn F v d c (RotateInFrame N q)).
    rewrite ngfb_can, <- act_pmap by (apply unitq_mul; auto). apply (step_means (ORotateInFrame q) N Hq HNu).
  - intros q m' Hq Hm' x. cbn [body_step] in Hm'.
    assert (Hu : unitf (RotateInFrame (chmul F N) q)) by (apply unitq_mul; auto; apply (unitf_mul F N); auto).
    rewrite (on_node_can F v d c Ns i _ N E (chmul (chinv F) (RotateInFrame (chmul F N) q))) in Hm'
      by (unfold NRotateInWorld; rewrite ngfw_can; apply nsfw_can; auto).
    unfold canon in Hm'; cbn [b_marks] in Hm'. rewrite nth_error_map, (updf_nth _ _ _ _ E) in Hm'. cbn in Hm'. inversion Hm'; subst m'.
    match goal with |- act (NGetFrameInWorld (Mk (relf c ?X) _)) _ = _ => change (NGetFrameInWorld (Mk (relf c X) (mf_mul (cogm F v d c) (relf c X)))) with (NGetFrameInWorld (mkn F v d c X)) end.
    rewrite ngfw_can, chinv_cancel, <- act_pmap by auto.
    rewrite (step_means (ORotateInFrame q) (chmul F N) Hq) by (apply (unitf_mul F N); auto).
    rewrite pmap_chmul by auto. reflexivity.
Qed.
