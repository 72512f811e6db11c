(** Proofs for bodies: every operation sequence (C17, C20). *)
From Coq Require Import Reals List Lra Psatz Lia.
From Verif Require Import GeoModel GeoSpec GeoProofs GeoProofs2 GeoProofs3 BodyModel BodySpec BodyProofs.
Open Scope R_scope.

Definition st (F : frame) (c : vec) (Ns : list frame) : bstate := BS (pmap F) c (map pmap Ns).
Definition mkn (F : frame) (v : vec) (d : quat) (c : vec) (N : frame) : marker :=
  Mk (relf c N) (mf_mul (cogm F v d c) (relf c N)).
Fixpoint updf (l : list frame) (i : nat) (f : frame) : list frame :=
  match l, i with nil, _ => nil | _ :: t, O => f :: t | h :: t, S j => h :: updf t j f end.
Lemma upd_map : forall (k : frame -> marker) l i f, upd (map k l) i (k f) = map k (updf l i f).
Proof. induction l; destruct i; intros; cbn; congruence. Qed.
Lemma updf_nth : forall l i f N, nth_error l i = Some N -> nth_error (updf l i f) i = Some f.
Proof. induction l; destruct i; cbn; intros; try discriminate; eauto. Qed.
Lemma updf_other : forall l i j f, j <> i -> nth_error (updf l i f) j = nth_error l j.
Proof. induction l; destruct i, j; cbn; intros; try congruence; eauto. Qed.
Lemma updf_len : forall l i f, length (updf l i f) = length l.
Proof. induction l; destruct i; cbn; intros; auto. Qed.
Lemma updf_forall : forall (P : frame -> Prop) l i f, List.Forall P l -> P f -> List.Forall P (updf l i f).
Proof. induction l; destruct i; cbn; intros f H Hf; auto; inversion H; subst; constructor; auto. Qed.

Section Vel.
Variables (F : frame) (v : vec) (d : quat) (c : vec) (Ns : list frame).
Let B := canon F v d c Ns.
Lemma setvel_can : forall x fc, SetVelocityInWorldNoRotation B x fc = canon F (convert fc x) qzero c Ns.
Proof. intros. unfold SetVelocityInWorldNoRotation. rewrite swap_convert. unfold SetCoord_dt, B. 
  apply (UAM_canon F (convert fc x) qzero c Ns _ F v d). Qed.
Lemma setang_can : forall w fc, SetAngularVelocityInWorld B w fc =
  canon F v (qscale (/2) (qmul (qpure (convert fc w)) (frot F))) c Ns.
Proof. intros. unfold SetAngularVelocityInWorld. rewrite swap_convert. unfold SetWvel_par, B. 
  apply (UAM_canon F v (qscale (/2) (qmul (qpure (convert fc w)) (frot F))) c Ns _ F v d). Qed.
Lemma newnode_can : NewNode B = canon F v d c (Ns ++ Fr c qone :: nil).
Proof.
  unfold NewNode, B, canon; cbn [b_cog b_aux b_ref b_marks]. f_equal. rewrite map_app. cbn [map]. do 2 f_equal.
  unfold Impose_Rel_Coord, relf; cbn [fpos frot].
  replace (vsub c c) with vzero by (destruct c; geo; veq; ring). reflexivity.
Qed.
Lemma on_node_can : forall i k N, nth_error Ns i = Some N ->
  forall N', k (mkn F v d c N) = mkn F v d c N' -> on_node B i k = canon F v d c (updf Ns i N').
Proof.
  intros i k N H N' E. unfold on_node, B, canon; cbn [b_marks].
  rewrite (map_nth_error _ _ _ H). change (Mk (relf c N) (mf_mul (cogm F v d c) (relf c N))) with (mkn F v d c N).
  rewrite E. unfold set_marker; cbn [b_cog b_aux b_ref b_marks]. f_equal.
  change (fun N0 : frame => Mk (relf c N0) (mf_mul (cogm F v d c) (relf c N0))) with (mkn F v d c). apply upd_map.
Qed.
Lemma on_node_none : forall i k, nth_error Ns i = None -> on_node B i k = B.
Proof.
  intros i k H. unfold on_node, B, canon; cbn [b_marks]. rewrite nth_error_map, H. reflexivity.
Qed.
Lemma nsfb_can : forall f, NSetFrameInBody B f = mkn F v d c f.
Proof. intros. unfold NSetFrameInBody. rewrite (cogpos_can F v d c Ns). reflexivity. Qed.
Lemma ngfb_can : forall N, NGetFrameInBody B (mkn F v d c N) = N.
Proof.
  intros. unfold NGetFrameInBody. rewrite (cogpos_can F v d c Ns). cbn [convert].
  unfold mkn, NGetFrameWRT_COG, Frame_make, TranslateInParent; cbn [mk_rel]. rewrite !swapNWU.
  unfold relf; cbn [fpos frot]. destruct N as [p q]; cbn [fpos frot]. f_equal. destruct p, c; geo; veq; ring.
Qed.
Lemma ngfw_can : forall N, NGetFrameInWorld (mkn F v d c N) = chmul F N.
Proof. intros. apply mf_node. Qed.
Lemma nsfw_can : forall f, unitf F -> unitf f -> NSetFrameInWorld B f = mkn F v d c (chmul (chinv F) f).
Proof.
  intros f HF Hf. unfold NSetFrameInWorld, Impose_Abs_Coord. 
  assert (E : chmul (chinv (mf_frame (b_cog B))) f = relf c (chmul (chinv F) f)).
  { change (mf_frame (b_cog B)) with (Fr (vadd (fpos F) (qrotate (frot F) c)) (frot F)).
    unfold chinv, chmul, relf; cbn [fpos frot]. f_equal.
    rewrite qrotate_plus, qrotate_conj_l by exact HF.
    generalize (qrotate (qconj (frot F)) (fpos F)) (qrotate (qconj (frot F)) (fpos f)).
    destruct c. intros [] []; geo; veq; ring. }
  rewrite E. reflexivity.
Qed.
End Vel.

Lemma act_pmap : forall f x, unitf f -> pmap f x = act f x.
Proof. intros. rewrite pmap_eq. unfold act. rewrite qrotate_action by assumption. reflexivity. Qed.
Lemma same_nodes_refl : forall F c F' c' Ns, same_nodes (st F c Ns) (st F' c' Ns).
Proof. intros F c F' c' Ns i. cbn [st bs_nodes]. destruct (nth_error (map pmap Ns) i); cbn; auto. Qed.
Lemma moves_st : forall F F' c Ns h, (forall x, pmap F' x = h x) -> moves (st F c Ns) (st F' c Ns) h.
Proof. intros. repeat split; [assumption|]. apply same_nodes_refl. Qed.
Lemma node_ch : forall F c Ns i N N' (P : motion -> motion -> Prop), nth_error Ns i = Some N -> P (pmap N) (pmap N') ->
  unmoved (st F c Ns) (st F c (updf Ns i N')) /\ node_changes (st F c Ns) (st F c (updf Ns i N')) i P.
Proof.
  intros F c Ns i N N' P H HP. split; [split; reflexivity|]. split.
  - intros j Hj. cbn [st bs_nodes]. rewrite !nth_error_map, updf_other by assumption.
    destruct (nth_error Ns j); cbn; auto.
  - cbn [st bs_nodes]. rewrite !nth_error_map, (updf_nth _ _ _ _ H), H. exact HP.
Qed.
Lemma node_ch_none : forall F c Ns i (P : motion -> motion -> Prop), nth_error Ns i = None ->
  unmoved (st F c Ns) (st F c Ns) /\ node_changes (st F c Ns) (st F c Ns) i P.
Proof.
  intros F c Ns i P H. split; [split; reflexivity|]. split.
  - intros j Hj. cbn [st bs_nodes]. destruct (nth_error (map pmap Ns) j); cbn; auto.
  - cbn [st bs_nodes]. rewrite nth_error_map, H. exact I.
Qed.
Lemma pmap_chmul : forall a b x, unitf a -> unitf b -> pmap (chmul a b) x = pmap a (pmap b x).
Proof. intros. apply (pmap_mul a b x NWU); assumption. Qed.
Lemma chinv_cancel : forall F f, unitf F -> chmul F (chmul (chinv F) f) = f.
Proof. intros F f H. rewrite <- chmul_assoc, chmul_inv_r, chmul_1l; auto. apply unitf_inv; auto. Qed.
Lemma pmap_back : forall F f x, unitf F -> unitf f -> pmap F (pmap (chmul (chinv F) f) x) = pmap f x.
Proof.
  intros. rewrite <- pmap_chmul; auto. { rewrite chinv_cancel; auto. } apply unitf_mul; auto. apply unitf_inv; auto.
Qed.
Ltac vring := repeat match goal with |- context [qrotate ?q ?v] => generalize (qrotate q v) end.

Lemma body_step_ok : forall o F v d c Ns, body_ok o -> unitf F -> List.Forall unitf Ns ->
  exists F' v' d' c' Ns', body_step o (canon F v d c Ns) = canon F' v' d' c' Ns' /\ unitf F' /\ List.Forall unitf Ns' /\
   (~ in_node_axes o -> body_means o (st F c Ns) (st F' c' Ns')).
Proof.
  intros o F v d c Ns Ho HF HN.
  assert (HFq : unitq (frot F)) by exact HF.
  destruct o; cbn [body_step body_ok in_node_axes] in *.
  - destruct (setcog_can F v d c Ns p fc HF) as [v' [E _]].
    exists F, v', d, (convert fc p), Ns. repeat split; auto. apply same_nodes_refl.
  - exists (Fr (convert fc p) (frot F)), v, d, c, Ns. repeat split; auto. { apply setpos_can. }
    { cbn [st bs_map]. intros x. unfold turn. rewrite !pmap_eq; cbn [fpos frot].
      rewrite minus_plus_l, <- qrotate_minus. f_equal. f_equal. destruct x; geo; veq; ring. }
    apply same_nodes_refl.
  - exists (Fr (fpos F) q), v, d, c, Ns. repeat split; auto. { apply setrot_can. }
    { cbn [st bs_map]. intros x. rewrite pmap0, pmap_eq; cbn [fpos frot]. rewrite qrotate_action; auto. }
    apply same_nodes_refl.
  - exists f, v, d, c, Ns. repeat split; auto.
    { unfold BSetFrame. rewrite setpos_can, setrot_can. cbn [fpos]. destruct f; reflexivity. }
    { cbn [st bs_map]. intros x. apply act_pmap. exact Ho. }
    apply same_nodes_refl.
  - eexists _, v, d, c, Ns. split; [apply setpt_can|]. repeat split; auto.
    { cbn [st bs_map]. intros x. rewrite !pmap_eq; cbn [fpos frot].
      generalize (qrotate (frot F) x) (qrotate (frot F) (convert fc bodyPoint)) (convert fc worldPos) (fpos F).
      intros [] [] [] []; geo; veq; ring. }
    apply same_nodes_refl.
  - eexists _, v, d, c, Ns. split; [apply transw_can|]. repeat split; auto.
    { cbn [st bs_map]. intros x. rewrite !pmap_eq; cbn [fpos frot].
      generalize (qrotate (frot F) x) (convert fc t) (fpos F).
      intros [] [] []; geo; veq; ring. }
    apply same_nodes_refl.
  - eexists _, v, d, c, Ns. split; [apply transb_can|]. repeat split; auto.
    { cbn [st bs_map]. intros x. rewrite !pmap_eq; cbn [fpos frot]. rewrite qrotate_plus3.
      generalize (qrotate (frot F) x) (qrotate (frot F) (convert fc t)) (fpos F).
      intros [] [] []; geo; veq; ring. }
    apply same_nodes_refl.
  - exists (Fr (fpos F) (qmul (frot F) q)), v, d, c, Ns. repeat split; auto.
    { unfold BRotate. rewrite setrot_can. reflexivity. } { apply unitq_mul; auto. }
    { cbn [st bs_map]. intros x. rewrite !pmap_eq; cbn [fpos frot].
      rewrite qrotate_mul, (qrotate_action q) by auto. reflexivity. }
    apply same_nodes_refl.
  - eexists _, v, d, c, Ns. split.
    { unfold RotateAroundPointInWorld, BRotate. rewrite setrot_can, quat_can, setpt_can, body_can, convert_invol. reflexivity. }
    cbn [frot fpos]. split; [apply unitq_mul; auto|]. split; [auto|]. intros _.
    set (P := qrotate (qconj (frot F)) (minus3 (convert fc p) (fpos F))).
    exists P. split.
    { cbn [st bs_map]. rewrite pmap_eq. unfold P. rewrite qrotate_conj_r by auto. apply minus_plus3. }
    split; [|split; [reflexivity|apply same_nodes_refl]].
    cbn [st bs_map]. intros x. rewrite !pmap_eq; cbn [fpos frot]. unfold UQ_mul.
    rewrite !qrotate_mul, <- !qrotate_action, qrotate_plus3, !qrotate_minus by auto.
    replace (convert fc p) with (plus3 (fpos F) (qrotate (frot F) P)).
    2:{ unfold P. rewrite qrotate_conj_r by auto. apply minus_plus3. }
    generalize (qrotate (frot F) P) (qrotate (frot F) (qrotate q x)) (qrotate (frot F) (qrotate q P)) (fpos F).
    intros [] [] [] []; geo; veq; ring.
  - eexists _, v, d, c, Ns. split.
    { unfold RotateAroundPointInBody, BRotate. rewrite setrot_can, quat_can, setpt_can, world_can, convert_invol. reflexivity. }
    cbn [frot fpos]. split; [apply unitq_mul; auto|]. split; [auto|]. intros _.
    split; [|split; [reflexivity|apply same_nodes_refl]].
    cbn [st bs_map]. intros x. rewrite !pmap_eq; cbn [fpos frot]. unfold UQ_mul.
    rewrite !qrotate_mul, <- !qrotate_action, qrotate_plus3, !qrotate_minus by auto.
    set (P := convert fc p).
    generalize (qrotate (frot F) P) (qrotate (frot F) (qrotate q x)) (qrotate (frot F) (qrotate q P)) (fpos F).
    intros [] [] [] []; geo; veq; ring.
  - eexists _, v, d, c, Ns. split.
    { unfold RotateAroundCOG, RotateAroundPointInBody, BRotate. rewrite setrot_can, quat_can, setpt_can, world_can, cogpos_can, !convert_invol. reflexivity. }
    cbn [frot fpos]. split; [apply unitq_mul; auto|]. split; [auto|]. intros _.
    split; [|split; [reflexivity|apply same_nodes_refl]].
    cbn [st bs_map bs_cog]. intros x. rewrite !pmap_eq; cbn [fpos frot]. unfold UQ_mul.
    rewrite !qrotate_mul, <- !qrotate_action, qrotate_plus3, !qrotate_minus by auto.
    generalize (qrotate (frot F) c) (qrotate (frot F) (qrotate q x)) (qrotate (frot F) (qrotate q c)) (fpos F).
    intros [] [] [] []; geo; veq; ring.
  - eexists F, _, _, c, Ns. split; [apply setvel_can|]. repeat split; auto. apply same_nodes_refl.
  - eexists F, _, _, c, Ns. split; [apply setang_can|]. repeat split; auto. apply same_nodes_refl.
  - eexists F, _, _, c, Ns. split.
    { unfold SetGenVelInBodyAtPointInBody, SetVelocityInBodyNoRotation, SetAngularVelocityInBody.
      rewrite setvel_can, setang_can. reflexivity. }
    repeat split; auto. apply same_nodes_refl.
  - exists F, v, d, c, (Ns ++ Fr c qone :: nil). split; [apply newnode_can|]. split; [auto|]. split.
    { apply Forall_app; split; auto. constructor; auto. exact unitq_one. }
    intros _. split; [split; reflexivity|]. cbn [st bs_nodes]. rewrite !map_app, app_length, !map_length. cbn [length map].
    split; [|split; [lia|]].
    + intros i Hi. rewrite nth_error_app1 by (rewrite map_length; exact Hi).
      destruct (nth_error (map pmap Ns) i); cbn; auto.
    + exists (pmap (Fr c qone)). split.
      { rewrite nth_error_app2; rewrite map_length; [|lia]. rewrite Nat.sub_diag. reflexivity. }
      intros x. rewrite pmap_eq; cbn [fpos frot]. rewrite qrotate_one. reflexivity.
  - destruct (nth_error Ns i) as [N|] eqn:E.
    + exists F, v, d, c, (updf Ns i f). split.
      { eapply on_node_can; eauto. apply nsfb_can. }
      split; [auto|]. split; [apply updf_forall; auto|].
      intros _. apply (node_ch F c Ns i N f _ E); intros; apply act_pmap; exact Ho.
    + exists F, v, d, c, Ns. split; [apply on_node_none; auto|]. split; [auto|]. split; [auto|]. intros _. apply node_ch_none; auto.
  - destruct (nth_error Ns i) as [N|] eqn:E.
    + exists F, v, d, c, (updf Ns i (chmul (chinv F) f)). split.
      { eapply on_node_can; eauto. apply nsfw_can; auto. }
      split; [auto|]. split; [apply updf_forall; auto; apply unitf_mul; auto; apply unitf_inv; auto|].
      intros _. apply (node_ch F c Ns i N _ _ E). intros x. cbn [st bs_map]. rewrite pmap_back by auto. apply act_pmap; auto.
    + exists F, v, d, c, Ns. split; [apply on_node_none; auto|]. split; [auto|]. split; [auto|]. intros _. apply node_ch_none; auto.
  - destruct (nth_error Ns i) as [N|] eqn:E.
    + assert (HNu : unitf N) by (eapply Forall_forall; eauto using nth_error_In).
      exists F, v, d, c, (updf Ns i (Fr (convert fc p) (frot N))). split.
      { eapply on_node_can; eauto. unfold NSetPositionInBody. rewrite ngfb_can, nsfb_can. unfold SetPosition. rewrite swap_convert. reflexivity. }
      split; [auto|]. split; [apply updf_forall; auto|].
      intros _. apply (node_ch F c Ns i N _ _ E). intros x. unfold turn. rewrite !pmap_eq; cbn [fpos frot].
      rewrite minus_plus_l, <- qrotate_minus. f_equal. f_equal. destruct x; geo; veq; ring.
    + exists F, v, d, c, Ns. split; [apply on_node_none; auto|]. split; [auto|]. split; [auto|]. intros _. apply node_ch_none; auto.
  - destruct (nth_error Ns i) as [N|] eqn:E.
    + assert (HNu : unitf N) by (eapply Forall_forall; eauto using nth_error_In).
      assert (Hu : unitf (Fr (convert fc p) (frot (chmul F N)))) by (apply (unitf_mul F N); auto).
      exists F, v, d, c, (updf Ns i (chmul (chinv F) (Fr (convert fc p) (frot (chmul F N))))). split.
      { eapply on_node_can; eauto. unfold NSetPositionInWorld. rewrite ngfw_can. unfold SetPosition. rewrite swap_convert.
        apply nsfw_can; auto. }
      split; [auto|]. split; [apply updf_forall; auto; apply unitf_mul; auto; apply unitf_inv; auto|].
      intros _. apply (node_ch F c Ns i N _ _ E). intros x. cbn [st bs_map]. rewrite pmap_back by auto.
      rewrite <- !pmap_chmul by auto. rewrite !pmap_eq; cbn [fpos frot].
      rewrite minus_plus_l, <- qrotate_minus. f_equal. f_equal. destruct x; geo; veq; ring.
    + exists F, v, d, c, Ns. split; [apply on_node_none; auto|]. split; [auto|]. split; [auto|]. intros _. apply node_ch_none; auto.
  - destruct (nth_error Ns i) as [N|] eqn:E.
    + assert (HNu : unitf N) by (eapply Forall_forall; eauto using nth_error_In).
      exists F, v, d, c, (updf Ns i (TranslateInFrame N t fc)). split.
      { eapply on_node_can; eauto. unfold NTranslateInBody. rewrite ngfb_can, nsfb_can. reflexivity. }
      split; [auto|]. split; [apply updf_forall; auto|]. intros H; exfalso; auto.
    + exists F, v, d, c, Ns. split; [apply on_node_none; auto|]. split; [auto|]. split; [auto|]. intros _. apply node_ch_none; auto.
  - destruct (nth_error Ns i) as [N|] eqn:E.
    + assert (HNu : unitf N) by (eapply Forall_forall; eauto using nth_error_In).
      assert (Hu : unitf (TranslateInParent (chmul F N) t fc)) by (apply (unitf_mul F N); auto).
      exists F, v, d, c, (updf Ns i (chmul (chinv F) (TranslateInParent (chmul F N) t fc))). split.
      { eapply on_node_can; eauto. unfold NTranslateInWorld. rewrite ngfw_can. apply nsfw_can; auto. }
      split; [auto|]. split; [apply updf_forall; auto; apply unitf_mul; auto; apply unitf_inv; auto|].
      intros _. apply (node_ch F c Ns i N _ _ E). intros x. cbn [st bs_map]. rewrite pmap_back by auto.
      rewrite <- !pmap_chmul by auto. unfold TranslateInParent. rewrite swap_convert, !pmap_eq. cbn [fpos frot].
      generalize (qrotate (frot (chmul F N)) x) (fpos (chmul F N)) (convert fc t). intros [] [] []; geo; veq; ring.
    + exists F, v, d, c, Ns. split; [apply on_node_none; auto|]. split; [auto|]. split; [auto|]. intros _. apply node_ch_none; auto.
  - destruct (nth_error Ns i) as [N|] eqn:E.
    + exists F, v, d, c, (updf Ns i (Fr (fpos N) q)). split.
      { eapply on_node_can; eauto. unfold NSetOrientationInBody. rewrite ngfb_can, nsfb_can. reflexivity. }
      split; [auto|]. split; [apply updf_forall; auto|].
      intros _. apply (node_ch F c Ns i N _ _ E). intros x. rewrite pmap0, pmap_eq; cbn [fpos frot]. rewrite qrotate_action; auto.
    + exists F, v, d, c, Ns. split; [apply on_node_none; auto|]. split; [auto|]. split; [auto|]. intros _. apply node_ch_none; auto.
  - destruct (nth_error Ns i) as [N|] eqn:E.
    + assert (HNu : unitf N) by (eapply Forall_forall; eauto using nth_error_In).
      exists F, v, d, c, (updf Ns i (RotateInFrame N q)). split.
      { eapply on_node_can; eauto. unfold NRotateInBody. rewrite ngfb_can, nsfb_can. reflexivity. }
      split; [auto|]. split; [apply updf_forall; auto; apply unitq_mul; auto|]. intros H; exfalso; auto.
    + exists F, v, d, c, Ns. split; [apply on_node_none; auto|]. split; [auto|]. split; [auto|]. intros _. apply node_ch_none; auto.
  - destruct (nth_error Ns i) as [N|] eqn:E.
    + assert (HNu : unitf N) by (eapply Forall_forall; eauto using nth_error_In).
      assert (Hu : unitf (RotateInFrame (chmul F N) q)) by (apply unitq_mul; auto; apply (unitf_mul F N); auto).
      exists F, v, d, c, (updf Ns i (chmul (chinv F) (RotateInFrame (chmul F N) q))). split.
      { eapply on_node_can; eauto. unfold NRotateInWorld. rewrite ngfw_can. apply nsfw_can; auto. }
      split; [auto|]. split; [apply updf_forall; auto; apply unitf_mul; auto; apply unitf_inv; auto|]. intros H; exfalso; auto.
    + exists F, v, d, c, Ns. split; [apply on_node_none; auto|]. split; [auto|]. split; [auto|]. intros _. apply node_ch_none; auto.
Qed.

Lemma newbody_can : newbody = canon fident vzero qzero origin nil.
Proof.
  unfold newbody, canon, cogm, auxf, origin. cbn [map fident fpos frot].
  assert (E1 : vadd vzero (qrotate qone (V 0 0 0)) = vzero) by (bgeo; veq; ring).
  assert (E2 : vneg (V 0 0 0) = vzero) by (bgeo; veq; ring).
  rewrite E1, E2. f_equal. unfold mf_mul, PointSpeed; cbn [mf_frame mf_vel mf_qdt fpos frot].
  f_equal; [unfold fident, chmul; cbn [fpos frot]; f_equal| |]; bgeo; try veq; try qeq; ring.
Qed.
Lemma body_run_ok : forall l F v d c Ns, List.Forall body_ok l -> unitf F -> List.Forall unitf Ns ->
  exists F' v' d' c' Ns', body_run l (canon F v d c Ns) = canon F' v' d' c' Ns' /\ unitf F' /\ List.Forall unitf Ns' /\
   (List.Forall (fun o => ~ in_node_axes o) l -> body_ops_mean l (st F c Ns) (st F' c' Ns')).
Proof.
  induction l as [|o l IH]; intros F v d c Ns Hl HF HN.
  - exists F, v, d, c, Ns. repeat split; auto. intros; constructor.
  - inversion Hl; subst. destruct (body_step_ok o F v d c Ns) as (F1 & v1 & d1 & c1 & N1 & E & HF1 & HN1 & Hm); auto.
    destruct (IH F1 v1 d1 c1 N1) as (F2 & v2 & d2 & c2 & N2 & E2 & HF2 & HN2 & Hm2); auto.
    exists F2, v2, d2, c2, N2. cbn [body_run]. rewrite E. repeat split; auto.
    intros Hg; inversion Hg; subst. econstructor; eauto.
Qed.
