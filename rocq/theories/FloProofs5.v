(** Proofs for C70 - C72: bodies for examples, setters of the standard forces. *)
From Coq Require Import Reals List Bool Lra Psatz Lia ZArith Ascii String.
From Verif Require Import WavModel SeaModel FloModel WavProofs3 GeoModel GeoSpec GeoProofs GeoProofs2 BodyModel BodySpec BodyProofs BodyProofs2 BodyProofs3 BodyProofs4 BodyProps FloSpec FloProofs FloProofs2 FloProofs3 FloProofs4.
Import ListNotations.
Open Scope R_scope.
Local Notation turn := BodySpec.turn.
Local Notation congruent := FloSpec.congruent.

(** ** Bodies that meet the hypotheses used below: orientation q, the centre of gravity c in the body, the velocity
    v of the origin of the body and the angular velocity w along the axes of the body *)
Definition moving (q : quat) (c v w : vec) : body := body_run [BOSetRotation q; BOSetCOG c NWU; BOSetGenVelInBodyAtPointInBody origin v w NWU] newbody.
Lemma moving_ok q c v w : unitq q -> let b := moving q c v w in reachable b /\ (forall x, body_map b x = qrotate q x) /\
  velocity_reads_everywhere b origin (qrotate q v) (qrotate q w) /\ GetCOGPositionInWorld b NWU = qrotate q c.
Proof.
  intros U. cbv zeta. assert (R1 : reachable (body_run [BOSetRotation q; BOSetCOG c NWU] newbody)) by (eexists; split; [|reflexivity]; repeat constructor; exact U).
  assert (R2 : reachable (moving q c v w)) by (eexists; split; [|reflexivity]; repeat constructor; exact U).
  pose proof (C21_set_then_read _ (VOBodyPtBody origin v w NWU) [] R1 (Forall_nil _) (Forall_nil _)) as H. cbv zeta in H. cbn [vel_prescribed] in H.
  assert (CAN : exists v', body_run [BOSetRotation q; BOSetCOG c NWU] newbody = canon (Fr origin q) v' qzero c nil).
  { cbn [body_run body_step]. rewrite newbody_can, setrot_can. destruct (setcog_can (Fr (fpos fident) q) vzero qzero origin [] c NWU U) as [v' [E _]]. exists v'. exact E. }
  destruct CAN as [v' CAN]. assert (BM : forall x, body_map (body_run [BOSetRotation q; BOSetCOG c NWU] newbody) x = qrotate q x).
  { intros x. rewrite CAN, bmap_can. cbn [fpos frot]. apply vec_eq; unfold plus3, origin; cbn [vx vy vz]; ring. }
  assert (TN : forall x, turn (body_map (body_run [BOSetRotation q; BOSetCOG c NWU] newbody)) x = qrotate q x) by (intros x; rewrite CAN, turn_can; reflexivity).
  rewrite !TN, !BM in H. cbn [convert] in H. destruct H as [H1 [H2 _]]. change (vel_run (body_run [BOSetRotation q; BOSetCOG c NWU] newbody) (VOBodyPtBody origin v w NWU)) with (moving q c v w) in *.
  assert (Q0 : qrotate q origin = origin). { pose proof (qrotate_minus q origin origin) as X. replace (minus3 origin origin) with origin in X by (apply vec_eq; unfold minus3, origin; cbn [vx vy vz]; ring). rewrite X. apply vec_eq; unfold minus3, origin; cbn [vx vy vz]; ring. }
  split; [exact R2|]. split; [intros x; rewrite H1, BM; reflexivity|]. split; [rewrite Q0 in H2; exact H2|].
  unfold moving. change (body_run [BOSetRotation q; BOSetCOG c NWU; BOSetGenVelInBodyAtPointInBody origin v w NWU] newbody) with (SetGenVelInBodyAtPointInBody (body_run [BOSetRotation q; BOSetCOG c NWU] newbody) origin v w NWU).
  rewrite CAN, genvel_can by exact U. rewrite cogworld_can. cbn [convert fpos frot]. apply vec_eq; unfold plus3, origin; cbn [vx vy vz]; ring.
Qed.
Lemma qone_id x : qrotate qone x = x.
Proof. destruct x. geo; veq; ring. Qed.
Lemma moving_one c v w : let b := moving qone c v w in reachable b /\ level b 0 /\ (forall x, body_map b x = x) /\ GetCOGPositionInWorld b NWU = c /\
  GetLinearVelocityInWorld b NWU = v /\ GetVelocityInBody b NWU = v /\ GetCOGLinearVelocityInWorld b NWU = plus3 v (cross3 w c) /\ GetCOGVelocityInBody b NWU = plus3 v (cross3 w c) /\
  BGetAngularVelocityInWorld b NWU = w /\ BGetAngularVelocityInBody b NWU = w.
Proof.
  cbv zeta. destruct (moving_ok qone c v w unitq_one) as (RB & BM & VR & CG). set (b := moving qone c v w) in *. clearbody b. rewrite !qone_id in *.
  assert (BI : forall x, body_map b x = x) by (intros x; rewrite BM; apply qone_id).
  assert (TI : forall x, turn (body_map b) x = x) by (intros x; unfold BodySpec.turn; rewrite !BI; apply vec_eq; unfold minus3, origin; cbn [vx vy vz]; ring).
  destruct VR as [V1 [V2 _]]. destruct V1 as (A & B & _). destruct A as [A1 A2], B as [B1 B2], V2 as [C1 C2]. rewrite BI in B1, B2. rewrite CG in C1, C2.
  specialize (A1 NWU). specialize (A2 NWU). specialize (B1 NWU). specialize (B2 NWU). specialize (C1 NWU). specialize (C2 NWU). rewrite TI in A2, B2, C2. cbn [convert] in *.
  assert (R0 : rigid_velocity origin v w origin = v) by (apply vec_eq; unfold rigid_velocity, plus3, cross3, minus3, origin; cbn [vx vy vz]; ring).
  assert (RC : rigid_velocity origin v w c = plus3 v (cross3 w c)) by (apply vec_eq; unfold rigid_velocity, plus3, cross3, minus3, origin; cbn [vx vy vz]; ring). rewrite R0 in B1, B2. rewrite RC in C1, C2.
  split; [exact RB|]. split; [|auto 20]. intros x. rewrite TI. apply vec_eq; unfold mv, Rz, dot3; cbn [vx vy vz m00 m01 m02 m10 m11 m12 m20 m21 m22]; rewrite ?cos_0, ?sin_0; ring.
Qed.

Lemma positive_factor a d : a * d = 75 / 1000 -> 0 <= d -> 0 < a.
Proof. intros. apply Rnot_le_lt. intros L. nra. Qed.
Lemma mixed_small x : mixed_power 0 x = 1 /\ mixed_power 1 x = x /\ mixed_power 2 x = Rabs x * x /\ mixed_power 3 x = Rabs x * (x * x).
Proof.
  unfold mixed_power. change (Z.to_nat 1) with 1%nat. change (Z.to_nat 2) with 2%nat. change (Z.to_nat 3) with 3%nat. change (1 / 2)%nat with 0%nat. change (2 / 2)%nat with 1%nat. change (3 / 2)%nat with 1%nat. change (1 - 0)%nat with 1%nat. change (2 - 1)%nat with 1%nat. change (3 - 1)%nat with 2%nat. cbn [Z.leb Z.compare]. repeat split; ring.
Qed.
Definition reads_or (g : Prop) (x : R) : Prop := (g /\ FLT_EPSILON < x) \/ (~ g /\ x = -1).
Lemma std_fields ops : forall s s' L T P B H, std_run ops s = Ok s' ->
  reads_or L (sd_lateral s) -> reads_or T (sd_transverse s) -> reads_or P (sd_lpp s) -> reads_or B (sd_breadth s) -> reads_or H (sd_draft s) ->
  reads_or (L \/ given SSetLateral ops) (sd_lateral s') /\ reads_or (T \/ given SSetTransverse ops) (sd_transverse s') /\ reads_or (P \/ given SSetLpp ops) (sd_lpp s') /\
  reads_or (B \/ given SSetBreadth ops) (sd_breadth s') /\ reads_or (H \/ given SSetDraft ops) (sd_draft s').
Proof.
  assert (EQ : forall (g g' : Prop) x, (g <-> g') -> reads_or g x -> reads_or g' x) by (intros g g' x A [[B C]|[B C]]; [left|right]; split; tauto).
  induction ops as [|o r IH]; intros s s' L T P B H E RL RT RP RBR RH; cbn [std_run] in E.
  - injection E as <-. assert (NG : forall Q, ~ given Q []) by (intros Q [x []]). repeat split; eapply EQ; try eassumption; pose proof (NG SSetLateral); pose proof (NG SSetTransverse); pose proof (NG SSetLpp); pose proof (NG SSetBreadth); pose proof (NG SSetDraft); tauto.
  - destruct (std_step o s) as [s1| | | |] eqn:ST; cbn [rbind] in E; try discriminate.
    assert (GC : forall Q, given Q (o :: r) <-> (exists x, o = Q x) \/ given Q r). { intros Q. split; [intros [x [I|I]]; [left|right]; exists x; auto|intros [[x I]|[x I]]; exists x; [left|right]; auto]. }
    pose proof (IH s1 s' (L \/ exists x, o = SSetLateral x) (T \/ exists x, o = SSetTransverse x) (P \/ exists x, o = SSetLpp x) (B \/ exists x, o = SSetBreadth x) (H \/ exists x, o = SSetDraft x) E) as K.
    assert (KEEP : forall (g : Prop) (Q : R -> std_op) x, (forall y, o <> Q y) -> reads_or g x -> reads_or (g \/ exists y, o = Q y) x). { intros g Q x NE RR. eapply EQ; [|exact RR]. split; [tauto|]. intros [|[y F]]; [assumption|destruct (NE y F)]. }
    assert (NEW : forall (g : Prop) (Q : R -> std_op) x, (exists y, o = Q y) -> FLT_EPSILON < x -> reads_or (g \/ exists y, o = Q y) x) by (intros g Q x EX GT; left; split; [right; exact EX|exact GT]).
    assert (Y : reads_or (L \/ exists x, o = SSetLateral x) (sd_lateral s1) /\ reads_or (T \/ exists x, o = SSetTransverse x) (sd_transverse s1) /\ reads_or (P \/ exists x, o = SSetLpp x) (sd_lpp s1) /\ reads_or (B \/ exists x, o = SSetBreadth x) (sd_breadth s1) /\ reads_or (H \/ exists x, o = SSetDraft x) (sd_draft s1)).
    { destruct o; cbn [std_step] in ST; unfold positive in ST; try (destruct (Rlt_dec FLT_EPSILON x) as [GT|]; [|discriminate]); injection ST as <-; cbn [sd_lateral sd_transverse sd_lpp sd_breadth sd_draft];
      repeat split; first [apply KEEP; [intros; discriminate|assumption]|apply NEW; [eexists; reflexivity|exact GT]]. }
    destruct Y as (Y1 & Y2 & Y3 & Y4 & Y5). destruct (K Y1 Y2 Y3 Y4 Y5) as (K1 & K2 & K3 & K4 & K5). pose proof (GC SSetLateral). pose proof (GC SSetTransverse). pose proof (GC SSetLpp). pose proof (GC SSetBreadth). pose proof (GC SSetDraft).
    repeat split; eapply EQ; try eassumption; tauto.
Qed.
Lemma new_fields ops s : std_run ops new_standard = Ok s ->
  reads_or (given SSetLateral ops) (sd_lateral s) /\ reads_or (given SSetTransverse ops) (sd_transverse s) /\ reads_or (given SSetLpp ops) (sd_lpp s) /\ reads_or (given SSetBreadth ops) (sd_breadth s) /\ reads_or (given SSetDraft ops) (sd_draft s).
Proof.
  intros E. assert (N : reads_or False (-1)) by (right; split; [tauto|reflexivity]). pose proof (std_fields ops new_standard s False False False False False E N N N N N) as H.
  assert (EQ : forall (g : Prop) x, reads_or (False \/ g) x -> reads_or g x) by (intros g x [[B C]|[B C]]; [left|right]; split; tauto). destruct H as (A & B & C & D & F). auto 10.
Qed.
