(** Properties C17, C20, C21 and C22: bodies, nodes and forces.
    [reachable], [observes], [body_means] ... are in BodySpec. *)
From Coq Require Import Reals List Lra Psatz Lia.
From Verif Require Import GeoModel GeoSpec GeoProofs GeoProofs2 GeoProofs3 BodyModel BodySpec BodyProofs BodyProofs2 BodyProofs3 BodyProofs4.
Import ListNotations.
Open Scope R_scope.

(** ** C20: body pose operations move the body rigidly *)

(** For every sequence of calls on a new body (with arbitrary COG changes, velocity settings and
    node operations interleaved) the reported frame, positions of all body points, COG and nodes are
    those prescribed by the meaning of the calls. *)
Theorem C20_every_operation_sequence : forall l, List.Forall body_ok l -> List.Forall (fun o => ~ in_node_axes o) l ->
  exists s0 s, (forall x, bs_map s0 x = x) /\ bs_cog s0 = origin /\ bs_nodes s0 = nil /\
    body_ops_mean l s0 s /\ observes (body_run l newbody) s.
Proof. exact sequence_means. Qed.

(** One call from any reachable body *)
Theorem C20_every_operation : forall b o, reachable b -> body_ok o -> ~ in_node_axes o ->
  exists s s', observes b s /\ body_means o s s' /\ observes (body_step o b) s' /\ reachable (body_step o b).
Proof.
  intros b o Hr Ho Hn. destruct (reach_can b Hr) as (F & v & d & c & Ns & E & HF & HN).
  destruct (body_step_ok o F v d c Ns) as (F1 & v1 & d1 & c1 & N1 & E1 & HF1 & HN1 & Hm); auto.
  exists (st F c Ns), (st F1 c1 N1).
  destruct (step_observed b (st F c Ns) o Hr Ho Hn) as [s1 [_ Hr1]]; [subst b; apply observes_can; auto|].
  split; [subst b; apply observes_can; auto|]. split; [auto|]. split; [subst b; rewrite E1; apply observes_can; auto|exact Hr1].
Qed.

(** Read-back corollaries for the setters *)
Theorem C20_setters_read_back : forall b, reachable b ->
  (forall p fc, BGetPosition (BSetPosition b p fc) fc = p /\ GetQuaternion (BSetPosition b p fc) = GetQuaternion b) /\
  (forall q, GetQuaternion (BSetRotation b q) = q /\ forall fc, BGetPosition (BSetRotation b q) fc = BGetPosition b fc) /\
  (forall f, GetFrame (BSetFrame b f) = f) /\
  (forall p w fc, GetPointPositionInWorld (SetPositionOfBodyPoint b p w fc) p fc = w) /\
  (forall q w fc, unitq q -> GetPointPositionInWorld (RotateAroundPointInWorld b q w fc) (GetPointPositionInBody b w fc) fc = w) /\
  (forall q p fc, unitq q -> GetPointPositionInWorld (RotateAroundPointInBody b q p fc) p fc = GetPointPositionInWorld b p fc) /\
  (forall q fc, unitq q -> GetCOGPositionInWorld (RotateAroundCOG b q fc) fc = GetCOGPositionInWorld b fc) /\
  (forall p fc, GetCOG (SetCOG b p fc) fc = p /\ GetFrame (SetCOG b p fc) = GetFrame b).
Proof.
  intros b Hr. destruct (reach_can b Hr) as (F & v & d & c & Ns & -> & HF & HN).
  split; [|split; [|split; [|split; [|split; [|split; [|split]]]]]].
  - intros. rewrite setpos_can, pos_can, !quat_can; cbn [fpos frot]; rewrite convert_invol; auto.
  - intros. rewrite setrot_can, quat_can. split; auto. intros. rewrite !pos_can. reflexivity.
  - intros. unfold BSetFrame. rewrite setpos_can, setrot_can, frame_can. destruct f; reflexivity.
  - intros. rewrite setpt_can, world_can. cbn [fpos frot].
    apply (convert_inj fc). rewrite convert_invol. generalize (qrotate (frot F) (convert fc p)) (fpos F) (convert fc w).
    intros [] [] []; geo; veq; ring.
  - intros. unfold RotateAroundPointInWorld, BRotate. rewrite setrot_can, setpt_can, world_can. cbn [fpos frot].
    apply (convert_inj fc). rewrite convert_invol.
    generalize (qrotate (UQ_mul (GetQuaternion (canon F v d c Ns)) q) (convert fc (GetPointPositionInBody (canon F v d c Ns) w fc))) (fpos F) (convert fc w).
    intros [] [] []; geo; veq; ring.
  - intros. unfold RotateAroundPointInBody, BRotate. rewrite setrot_can, setpt_can, !world_can. cbn [fpos frot]. f_equal.
    rewrite convert_invol. generalize (qrotate (UQ_mul (GetQuaternion (canon F v d c Ns)) q) (convert fc p)) (qrotate (frot F) (convert fc p)) (fpos F).
    intros [] [] []; geo; veq; ring.
  - intros. unfold RotateAroundCOG, RotateAroundPointInBody, BRotate. rewrite setrot_can, setpt_can, world_can, cogpos_can, !cogworld_can. cbn [fpos frot]. f_equal.
    rewrite !convert_invol. generalize (qrotate (UQ_mul (GetQuaternion (canon F v d c Ns)) q) c) (qrotate (frot F) c) (fpos F).
    intros [] [] []; geo; veq; ring.
  - intros. destruct (setcog_can F v d c Ns p fc HF) as [v' [E _]]. rewrite E, cogpos_can, convert_invol, !frame_can. auto.
Qed.

Definition q180z : quat := Q 0 0 0 1.
Definition qcyc : quat := Q (/2) (/2) (/2) (/2).
Lemma uq180z : unitq q180z. Proof. unfold unitq, q180z; cbn [q0 q1 q2 q3]; ring. Qed.
Lemma uqcyc : unitq qcyc. Proof. unfold unitq, qcyc; cbn [q0 q1 q2 q3]; field. Qed.
(** Non-vacuity: a rotated, translated body with an offset COG and a node *)
Definition demo : list body_op :=
  [BOSetCOG (V 1 2 3) NED; BONewNode; BONodeSetOrientationInBody 0 qcyc; BOSetRotation q180z; BOTranslateInBody (V 5 0 0) NWU; BONodeTranslateInWorld 0 (V 0 0 1) NED].
Example demo_ok : List.Forall body_ok demo /\ List.Forall (fun o => ~ in_node_axes o) demo /\ reachable (body_run demo newbody).
Proof.
  assert (H : List.Forall body_ok demo) by (repeat constructor; try apply uqcyc; apply uq180z).
  split; [exact H|]. split; [repeat constructor; cbn; auto|]. exists demo; auto.
Qed.
Example demo_value : BGetPosition (body_run demo newbody) NWU = V (-5) 0 0.
Proof.
  assert (H : reachable (body_run [BOSetCOG (V 1 2 3) NED; BONewNode; BONodeSetOrientationInBody 0 qcyc] newbody)).
  { eexists; split; [|reflexivity]. repeat constructor. apply uqcyc. }
  unfold demo. destruct (reach_can _ H) as (F & v & d & c & Ns & E & HF & HN).
  assert (EF : F = fident).
  { rewrite <- (frame_can F v d c Ns), <- E. cbn [body_run body_step]. rewrite newbody_can.
    destruct (setcog_can fident vzero qzero origin [] (V 1 2 3) NED unitq_one) as [v' [E' _]]. rewrite E', newnode_can.
    erewrite on_node_can; [apply frame_can|reflexivity|]. unfold NSetOrientationInBody. rewrite ngfb_can, nsfb_can. reflexivity. }
  change [BOSetCOG (V 1 2 3) NED; BONewNode; BONodeSetOrientationInBody 0 qcyc; BOSetRotation q180z; BOTranslateInBody (V 5 0 0) NWU; BONodeTranslateInWorld 0 (V 0 0 1) NED]
   with ([BOSetCOG (V 1 2 3) NED; BONewNode; BONodeSetOrientationInBody 0 qcyc] ++ [BOSetRotation q180z; BOTranslateInBody (V 5 0 0) NWU; BONodeTranslateInWorld 0 (V 0 0 1) NED]).
  assert (X : forall l1 l2 b, body_run (l1 ++ l2) b = body_run l2 (body_run l1 b)) by (induction l1; intros; cbn; auto).
  rewrite X, E. cbn [body_run body_step]. rewrite setrot_can, transb_can.
  assert (Y : forall b i k fc, BGetPosition (on_node b i k) fc = BGetPosition b fc).
  { intros. unfold on_node. destruct (nth_error (b_marks b) i); reflexivity. }
  rewrite Y, pos_can, EF. cbn [fpos frot]. unfold q180z, fident; cbn [fpos]. geo. veq; ring.
Qed.

(** ** C17: nodes stay rigidly attached to their body *)

(** The frame of a node in the body is not changed by any motion of the body nor by a change of its
    COG, and its world frame is the body frame composed with it: this is [observes] together with
    [same_nodes] in C20_every_operation_sequence; stated here directly. *)
Theorem C17_attached : forall b i m, reachable b -> nth_error (b_marks b) i = Some m ->
  (forall x, act (NGetFrameInWorld m) x = body_map b (act (NGetFrameInBody b m) x)) /\
  (forall o, body_ok o ->
     match o with BONewNode | BONodeSetFrameInBody _ _ | BONodeSetFrameInWorld _ _ | BONodeSetPositionInBody _ _ _
                | BONodeSetPositionInWorld _ _ _ | BONodeTranslateInBody _ _ _ | BONodeTranslateInWorld _ _ _
                | BONodeSetOrientationInBody _ _ | BONodeRotateInBody _ _ | BONodeRotateInWorld _ _ => False | _ => True end ->
     exists m', nth_error (b_marks (body_step o b)) i = Some m' /\
       forall x, act (NGetFrameInBody (body_step o b) m') x = act (NGetFrameInBody b m) x).
Proof.
  intros b i m Hr Hm. destruct (reach_can b Hr) as (F & v & d & c & Ns & -> & HF & HN).
  pose proof (observes_can F v d c Ns HF HN) as (_ & _ & HP & _ & _ & _ & _ & _ & Hlen & Hob).
  assert (Hi : (i < length (bs_nodes (st F c Ns)))%nat).
  { rewrite <- Hlen. apply nth_error_Some. congruence. }
  destruct (nth_error (bs_nodes (st F c Ns)) i) as [n|] eqn:En; [|apply nth_error_None in En; lia].
  destruct (Hob i m n Hm En) as (A1 & A2 & _). split.
  - intros x. rewrite A2, A1. unfold body_map. rewrite HP. reflexivity.
  - intros o Ho Hb.
    destruct (body_step_ok o F v d c Ns) as (F1 & v1 & d1 & c1 & N1 & E1 & HF1 & HN1 & Hmean); auto.
    assert (Hs : same_nodes (st F c Ns) (st F1 c1 N1)).
    { destruct o; try contradiction; cbn in Hmean; specialize (Hmean (fun h => h));
        try (exact (proj2 (proj2 Hmean))).
      destruct Hmean as (p0 & _ & _ & _ & HH). exact HH. }
    specialize (Hs i). rewrite En in Hs. unfold same_node in Hs.
    pose proof (observes_can F1 v1 d1 c1 N1 HF1 HN1) as (_ & _ & _ & _ & _ & _ & _ & _ & Hlen1 & Hob1).
    destruct (nth_error (bs_nodes (st F1 c1 N1)) i) as [n1|] eqn:En1; [|contradiction].
    rewrite E1. destruct (nth_error (b_marks (canon F1 v1 d1 c1 N1)) i) as [m1|] eqn:Em1.
    + exists m1. split; auto. intros x. destruct (Hob1 i m1 n1 Em1 En1) as (B1 & _). rewrite B1, A1. apply Hs.
    + apply nth_error_None in Em1. rewrite Hlen1 in Em1. apply nth_error_None in Em1. congruence.
Qed.

(** Placing operations have their meaning, for every sequence of calls that avoids the three
    methods below.  The three methods have property C101 (refuted below). *)
Theorem C17_node_operations : forall b o, reachable b -> body_ok o -> ~ in_node_axes o ->
  exists s s', observes b s /\ body_means o s s' /\ observes (body_step o b) s'.
Proof. intros b o Hr Ho Hn. destruct (C20_every_operation b o Hr Ho Hn) as (s & s' & A & B & D & _). eauto. Qed.

(** TranslateInBody and RotateInBody act in the axes of the node, RotateInWorld too. *)
Theorem C101_node_axes_actual : forall b i m, reachable b -> nth_error (b_marks b) i = Some m ->
  exists g n : motion,
   (forall x, act (NGetFrameInBody b m) x = n x) /\ (forall x, body_map b x = g x) /\
   (forall t fc m', nth_error (b_marks (body_step (BONodeTranslateInBody i t fc) b)) i = Some m' ->
      forall x, act (NGetFrameInBody b m') x = n (plus3 x (convert fc t))) /\
   (forall q m', unitq q -> nth_error (b_marks (body_step (BONodeRotateInBody i q) b)) i = Some m' ->
      forall x, act (NGetFrameInBody b m') x = n (quat_action q x)) /\
   (forall q m', unitq q -> nth_error (b_marks (body_step (BONodeRotateInWorld i q) b)) i = Some m' ->
      forall x, act (NGetFrameInWorld m') x = g (n (quat_action q x))).
Proof. exact node_actual. Qed.

Definition turned_node : body := body_run [BONewNode; BONodeSetOrientationInBody 0 qcyc] newbody.
Lemma turned_reach : reachable turned_node.
Proof. eexists; split; [|reflexivity]. repeat constructor. apply uqcyc. Qed.
Lemma turned_can : turned_node = canon fident vzero qzero origin [Fr origin qcyc].
Proof.
  unfold turned_node. rewrite newbody_can. cbn [body_run body_step]. rewrite newnode_can.
  erewrite on_node_can; [|reflexivity|]. 2:{ unfold NSetOrientationInBody. rewrite ngfb_can, nsfb_can. reflexivity. }
  reflexivity.
Qed.
Lemma obs_node : forall b s, observes b s -> forall i m, nth_error (b_marks b) i = Some m ->
  exists n, nth_error (bs_nodes s) i = Some n /\ node_observes b s m n.
Proof.
  intros b s (_ & _ & _ & _ & _ & _ & _ & _ & Hl & Ho) i m Hm.
  destruct (nth_error (bs_nodes s) i) as [n|] eqn:En; [eauto|].
  apply nth_error_None in En. rewrite <- Hl in En. apply nth_error_None in En. congruence.
Qed.
Lemma fident_map : forall x, pmap fident x = x.
Proof. intros. rewrite pmap_eq. unfold fident; cbn [fpos frot]. rewrite qrotate_one. destruct x; geo; veq; ring. Qed.

(** On a node turned in its body, TranslateInBody moves it along its own axes. *)
Theorem C101_translate_in_body_refuted : exists b o, reachable b /\ body_ok o /\
  o = BONodeTranslateInBody 0 (V 1 0 0) NWU /\
  forall s s', observes b s -> observes (body_step o b) s' -> ~ body_means o s s'.
Proof.
  exists turned_node, (BONodeTranslateInBody 0 (V 1 0 0) NWU). split; [exact turned_reach|]. split; [exact I|]. split; [reflexivity|].
  rewrite turned_can. intros s s' Ho Ho' [_ [_ Hn]].
  destruct (obs_node _ _ Ho 0%nat _ eq_refl) as (n & En & (A & _)).
  cbn [body_step] in Ho'. erewrite on_node_can in Ho'; [|reflexivity|unfold NTranslateInBody; rewrite ngfb_can, nsfb_can; reflexivity].
  cbn [updf] in Ho'.
  destruct (obs_node _ _ Ho' 0%nat _ eq_refl) as (n' & En' & (A' & _)).
  rewrite En, En' in Hn. specialize (Hn origin). rewrite <- A, <- A' in Hn.
  change (Mk (relf origin ?X) (mf_mul (cogm ?a ?b ?c ?e) (relf origin ?X))) with (mkn a b c e X) in Hn.
  rewrite !ngfb_can in Hn. unfold act, TranslateInFrame, TranslateInParent, ProjectVectorFrameInParent in Hn; cbn [fpos frot] in Hn.
  unfold quat_action, qcyc in Hn. revert Hn. geo. intros Hn. injection Hn. intros. lra.
Qed.
Theorem C101_rotate_in_body_refuted : exists b o, reachable b /\ body_ok o /\ o = BONodeRotateInBody 0 q180z /\
  forall s s', observes b s -> observes (body_step o b) s' -> ~ body_means o s s'.
Proof.
  exists turned_node, (BONodeRotateInBody 0 q180z). split; [exact turned_reach|]. split; [exact uq180z|]. split; [reflexivity|].
  rewrite turned_can. intros s s' Ho Ho' [_ [_ Hn]].
  destruct (obs_node _ _ Ho 0%nat _ eq_refl) as (n & En & (A & _)).
  cbn [body_step] in Ho'. erewrite on_node_can in Ho'; [|reflexivity|unfold NRotateInBody; rewrite ngfb_can, nsfb_can; reflexivity].
  cbn [updf] in Ho'.
  destruct (obs_node _ _ Ho' 0%nat _ eq_refl) as (n' & En' & (A' & _)).
  rewrite En, En' in Hn. specialize (Hn (V 0 1 0)). unfold turn in Hn. rewrite <- !A, <- A' in Hn.
  change (Mk (relf origin ?X) (mf_mul (cogm ?a ?b ?c ?e) (relf origin ?X))) with (mkn a b c e X) in Hn.
  rewrite !ngfb_can in Hn. unfold act, RotateInFrame in Hn; cbn [fpos frot] in Hn.
  unfold quat_action, qcyc, q180z in Hn. revert Hn. geo. intros Hn. injection Hn. intros. lra.
Qed.
Theorem C101_rotate_in_world_refuted : exists b o, reachable b /\ body_ok o /\ o = BONodeRotateInWorld 0 q180z /\
  forall s s', observes b s -> observes (body_step o b) s' -> ~ body_means o s s'.
Proof.
  exists turned_node, (BONodeRotateInWorld 0 q180z). split; [exact turned_reach|]. split; [exact uq180z|]. split; [reflexivity|].
  rewrite turned_can. intros s s' Ho Ho' [_ [_ Hn]].
  destruct (obs_node _ _ Ho 0%nat _ eq_refl) as (n & En & (A & _)).
  assert (Hs : forall x, bs_map s x = x).
  { intros x. destruct Ho as (Hf & _). rewrite <- Hf, frame_can, <- act_pmap by exact unitq_one. apply fident_map. }
  assert (U : unitf (RotateInFrame (chmul fident (Fr origin qcyc)) q180z)).
  { apply unitq_mul; [apply (unitf_mul fident (Fr origin qcyc)); [exact unitq_one|exact uqcyc]|exact uq180z]. }
  cbn [body_step] in Ho'. erewrite on_node_can in Ho'; [|reflexivity|unfold NRotateInWorld; rewrite ngfw_can; apply nsfw_can; [exact unitq_one|exact U]].
  cbn [updf] in Ho'.
  destruct (obs_node _ _ Ho' 0%nat _ eq_refl) as (n' & En' & (A' & _)).
  rewrite En, En' in Hn. specialize (Hn (V 0 1 0)). rewrite !Hs in Hn. rewrite <- !A, <- A' in Hn.
  change (Mk (relf origin ?X) (mf_mul (cogm ?a ?b ?c ?e) (relf origin ?X))) with (mkn a b c e X) in Hn.
  rewrite !ngfb_can, chmul_1l in Hn. replace (chinv fident) with fident in Hn.
  2:{ unfold chinv, fident; cbn [fpos frot]. apply fr_eq; cbn [fpos frot]; geo; [veq|qeq]; ring. }
  rewrite chmul_1l in Hn.
  unfold act, RotateInFrame in Hn; cbn [fpos frot] in Hn.
  unfold quat_action, qcyc, q180z in Hn. revert Hn. geo. intros Hn. injection Hn. intros. lra.
Qed.

(** ** C21: velocities form a rigid velocity field *)

(** Whatever the history of the body, the eight velocity readers report one rigid velocity field. *)
Theorem C21_rigid_field : forall b, reachable b -> exists v w, velocity_reads b (body_map b origin) v w.
Proof. exact field_reach. Qed.

(** After any of the six generalized velocity setters, all readers (including those of the COG and
    of the nodes) report the field prescribed; this remains so, the field moving with the body,
    after any sequence of calls that neither turn the body nor set its velocity. *)
Theorem C21_set_then_read : forall b o l, reachable b -> List.Forall body_ok l -> List.Forall keeps_orientation l ->
  let g := body_map b in let '(P, V0, W0) := vel_prescribed g o in
  let b1 := vel_run b o in let b2 := body_run l b1 in
  (forall x, body_map b1 x = g x) /\
  velocity_reads_everywhere b1 P V0 W0 /\
  exists P2, (forall x, minus3 (body_map b2 x) P2 = minus3 (g x) P) /\ velocity_reads_everywhere b2 P2 V0 W0.
Proof. exact set_read_keep. Qed.

(** ** C22: a force set at a point is the same wrench whatever getter reads it *)

(** Every sequence of setter calls, from any force state, on any reachable body. *)
Theorem C22_wrench : forall b l s w, reachable b -> reads_as b s w ->
  reads_as b (force_run b l s) (forces_mean (body_map b) (GetCOGPositionInWorld b NWU) l w).
Proof. exact force_sequence. Qed.
Theorem C22_every_state_is_a_wrench : forall b s, reachable b -> exists w, reads_as b s w.
Proof. exact force_some. Qed.
(** Limits: the norms reported never exceed the limits, directions are kept, values within the
    limits are not changed. *)
Theorem C22_limits : forall active flim tlim compute b s, 0 <= flim -> 0 <= tlim ->
  let raw := ForceUpdateState active false flim tlim compute b s in
  let res := ForceUpdateState active true flim tlim compute b s in
  (vnorm (GetForceInWorld res NWU) <= flim /\ vnorm (GetTorqueInBodyAtCOG res NWU) <= tlim) /\
  (exists k, 0 <= k <= 1 /\ GetForceInWorld res NWU = scal3 k (GetForceInWorld raw NWU)) /\
  (exists k, 0 <= k <= 1 /\ GetTorqueInBodyAtCOG res NWU = scal3 k (GetTorqueInBodyAtCOG raw NWU)) /\
  (vnorm (GetForceInWorld raw NWU) <= flim -> GetForceInWorld res NWU = GetForceInWorld raw NWU) /\
  (vnorm (GetTorqueInBodyAtCOG raw NWU) <= tlim -> GetTorqueInBodyAtCOG res NWU = GetTorqueInBodyAtCOG raw NWU) /\
  (flim < vnorm (GetForceInWorld raw NWU) -> vnorm (GetForceInWorld res NWU) = flim) /\
  (tlim < vnorm (GetTorqueInBodyAtCOG raw NWU) -> vnorm (GetTorqueInBodyAtCOG res NWU) = tlim).
Proof.
  intros active flim tlim compute b s Hf Ht raw res. unfold raw, res, ForceUpdateState, GetForceInWorld, GetTorqueInBodyAtCOG.
  rewrite !swapNWU. cbn [f_force f_torque].
  destruct (limit_spec flim (f_force (ForceUpdate active compute b s)) Hf) as (A & B & D & E).
  destruct (limit_spec tlim (f_torque (ForceUpdate active compute b s)) Ht) as (A' & B' & D' & E').
  repeat split; auto.
Qed.
(** An inactive force contributes nothing, whatever it was before and whatever the limits. *)
Theorem C22_inactive : forall limited flim tlim compute b s, 0 <= flim -> 0 <= tlim ->
  let res := ForceUpdateState false limited flim tlim compute b s in
  (forall fc, GetForceInWorld res fc = origin) /\ (forall fc, GetTorqueInBodyAtCOG res fc = origin).
Proof.
  intros limited flim tlim compute b s Hf Ht res. unfold res, ForceUpdateState, ForceUpdate.
  assert (E : SetForceTorqueInBodyAtCOG b s vzero vzero NWU = Force origin origin).
  { unfold SetForceTorqueInBodyAtCOG, SetTorqueInBodyAtCOG, SetForceInBody, SetForceInWorldAtCOG, ProjectVectorInWorld, UQ_Rotate.
    rewrite !swapNWU. cbn [f_force]. f_equal. destruct (GetQuaternion b). geo; veq; ring. }
  rewrite E. cbn [f_force f_torque].
  assert (Z : forall lim, 0 <= lim -> limit_to lim origin = origin).
  { intros lim Hl. destruct (limit_spec lim origin Hl) as (_ & B & _). apply B.
    replace (vnorm origin) with 0; [exact Hl|]. unfold vnorm. replace (vdot origin origin) with 0 by (geo; ring). symmetry; apply sqrt_0. }
  assert (Y : forall fc, swap_if fc origin = origin) by (intros []; geo; veq; ring).
  destruct limited; unfold GetForceInWorld, GetTorqueInBodyAtCOG; cbn [f_force f_torque]; rewrite ?Z by assumption; split; intros; apply Y.
Qed.
(** Non-vacuity of the limits: a force of norm 5 limited to 1. *)
Example C22_limit_case : ForceUpdateState true true 1 10 (fun _ => Force (V 3 0 4) (V 0 0 2)) newbody (Force origin origin)
  = Force (V (3/5) 0 (4/5)) (V 0 0 2).
Proof.
  unfold ForceUpdateState, ForceUpdate, limit_to; cbv zeta; cbn [f_force f_torque].
  assert (E1 : vnorm (V 3 0 4) = 5).
  { unfold vnorm. replace (vdot (V 3 0 4) (V 3 0 4)) with (5*5) by (geo; ring). apply sqrt_square; lra. }
  assert (E2 : vnorm (V 0 0 2) = 2).
  { unfold vnorm. replace (vdot (V 0 0 2) (V 0 0 2)) with (2*2) by (geo; ring). apply sqrt_square; lra. }
  rewrite E1, E2. destruct (Rlt_dec 1 5); [|lra]. destruct (Rlt_dec 10 2); [lra|]. f_equal. geo; veq; field.
Qed.
(** Non-vacuity of C21 and C22: the reachable body of [demo_ok], followed by calls that keep the
    orientation, carrying an off-centre force. *)
Example C21_C22_hypotheses :
  List.Forall body_ok [BOSetPosition (V 1 1 1) NED; BONodeRotateInBody 0 qcyc; BOSetCOG (V 0 0 1) NWU] /\
  List.Forall keeps_orientation [BOSetPosition (V 1 1 1) NED; BONodeRotateInBody 0 qcyc; BOSetCOG (V 0 0 1) NWU] /\
  exists w, reads_as (body_run demo newbody) (Force (V 1 0 0) (V 0 1 0)) w.
Proof.
  split; [repeat constructor; apply uqcyc|]. split; [repeat constructor|]. apply force_some. apply demo_ok.
Qed.
