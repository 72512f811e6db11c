(** Proofs for bodies: canonical form of a reachable body, and the effect of every operation. *)
From Coq Require Import Reals List Lra Psatz Lia.
From Verif Require Import GeoModel GeoSpec GeoProofs GeoProofs2 GeoProofs3 BodyModel BodySpec.
Open Scope R_scope.

Ltac bgeo := cbv beta iota zeta delta [PointSpeed Wvel_par SetWvel_par qpure qim qscale qzero mf_frame mf_vel mf_qdt mf_mul]; geo.

(** moving frame of the COG: reference frame F, velocity v, quaternion rate d, COG offset c *)
Definition cogm (F : frame) (v : vec) (d : quat) (c : vec) : mframe :=
  MF (Fr (vadd (fpos F) (qrotate (frot F) c)) (frot F)) v d.
Definition auxf (c : vec) : frame := Fr (vneg c) qone.
Definition relf (c : vec) (N : frame) : frame := Fr (vsub (fpos N) c) (frot N).
Definition canon (F : frame) (v : vec) (d : quat) (c : vec) (Ns : list frame) : body :=
  Body (cogm F v d c) (auxf c) (mf_mul (cogm F v d c) (auxf c))
       (map (fun N => Mk (relf c N) (mf_mul (cogm F v d c) (relf c N))) Ns).

Lemma fr_eq : forall a b : frame, fpos a = fpos b -> frot a = frot b -> a = b.
Proof. intros [] [] ? ?; cbn in *; congruence. Qed.
Lemma qrotate_neg : forall q v, qrotate q (vneg v) = vneg (qrotate q v).
Proof. intros [] []; geo; veq; ring. Qed.
Lemma qrotate_vsub : forall q a b, qrotate q (vsub a b) = vsub (qrotate q a) (qrotate q b).
Proof. intros [] [] []; geo; veq; ring. Qed.
Lemma mf_ref : forall F v d c, mf_frame (mf_mul (cogm F v d c) (auxf c)) = F.
Proof.
  intros F v d c. apply fr_eq; cbn [mf_mul mf_frame cogm auxf chmul fpos frot].
  - rewrite qrotate_neg. generalize (qrotate (frot F) c). destruct (fpos F). intros []; geo; veq; ring.
  - apply qmul_1r.
Qed.
Lemma mf_node : forall F v d c N, mf_frame (mf_mul (cogm F v d c) (relf c N)) = chmul F N.
Proof.
  intros F v d c N. apply fr_eq; cbn [mf_mul mf_frame cogm relf chmul fpos frot]; [|reflexivity].
  rewrite qrotate_vsub. generalize (qrotate (frot F) c) (qrotate (frot F) (fpos N)). destruct (fpos F).
  intros [] []; geo; veq; ring.
Qed.
Lemma inv_aux : forall c, chinv (auxf c) = Fr c qone.
Proof.
  intros []. unfold chinv, auxf; cbn [fpos frot]. apply fr_eq; cbn [fpos frot]; geo; [veq|qeq]; ring.
Qed.
Lemma SetREF_canon : forall F v d c Ns F',
  SetFrame_REF_to_abs (canon F v d c Ns) F' = 
  Body (cogm F' v d c) (auxf c) (MF F' vzero qzero) (b_marks (canon F v d c Ns)).
Proof.
  intros. unfold SetFrame_REF_to_abs, canon; cbn [b_cog b_aux b_marks mf_vel mf_qdt cogm].
  rewrite inv_aux. f_equal. unfold cogm, chmul; cbn [fpos frot]. rewrite qmul_1r. reflexivity.
Qed.
Lemma chmul_aux : forall F v d c, chmul (chmul (mf_frame (cogm F v d c)) (auxf c)) (chinv (auxf c)) = mf_frame (cogm F v d c).
Proof.
  intros. pose proof (mf_ref F v d c) as H; cbn [mf_mul mf_frame] in H. rewrite H, inv_aux.
  unfold chmul, cogm; cbn [fpos frot mf_frame]. rewrite qmul_1r. reflexivity.
Qed.
Lemma UAM_canon : forall F v d c Ns r F0 v0 d0,
  UpdateAfterMove (Body (cogm F v d c) (auxf c) r (b_marks (canon F0 v0 d0 c Ns))) = canon F v d c Ns.
Proof.
  intros. unfold UpdateAfterMove, SetFrame_REF_to_abs, UpdateMarkers, Update;
  cbn [b_cog b_aux b_marks b_ref mf_mul mf_frame mf_vel mf_qdt].
  rewrite chmul_aux. cbn [canon b_marks].
  unfold canon. f_equal. rewrite map_map. reflexivity.
Qed.
Lemma swapNWU : forall v, swap_if NWU v = v. Proof. reflexivity. Qed.
Lemma qrotate_pure : forall q v, unitq q -> qmul (qmul q (qpure v)) (qconj q) = qpure (qrotate q v).
Proof.
  intros [a b c d] [x y z] H. apply unitq_elim in H. bgeo. cbn [q0 q1 q2 q3] in H.
  qeq; ring [H].
Qed.
(** composition of moving frames *)
Lemma mf_assoc : forall m f g, unitf (mf_frame m) -> unitf f -> mf_mul (mf_mul m f) g = mf_mul m (chmul f g).
Proof.
  intros [fr v d] f g Hm Hf. unfold mf_mul; cbn [mf_frame mf_vel mf_qdt].
  rewrite (chmul_assoc fr f g) by assumption.
  f_equal; [|cbn [chmul frot]; apply qmul_assoc].
  unfold PointSpeed; cbn [mf_frame mf_vel mf_qdt fpos chmul frot].
  replace (qmul (qmul (qmul d (frot f)) (qpure (fpos g))) (qconj (qmul (frot fr) (frot f))))
    with (qmul (qmul d (qpure (qrotate (frot f) (fpos g)))) (qconj (frot fr))).
  - generalize (qrotate (frot f) (fpos g)); intros t. destruct fr as [fp fq], f as [p fr2], g as [pg rg]; cbn [fpos frot].
    destruct v, p, t, d, fq. bgeo. veq; ring.
  - rewrite <- (qrotate_pure (frot f)) by exact Hf.
    replace (qconj (qmul (frot fr) (frot f))) with (qmul (qconj (frot f)) (qconj (frot fr))).
    + rewrite !qmul_assoc. reflexivity.
    + destruct (frot f), (frot fr). geo. qeq; ring.
Qed.

(** pose operations on canonical bodies *)
Section Ops.
Variables (F : frame) (v : vec) (d : quat) (c : vec) (Ns : list frame).
Let B := canon F v d c Ns.
Lemma ref_can : mf_frame (b_ref B) = F. Proof. apply mf_ref. Qed.
Lemma cog_can : mf_frame (b_cog B) = Fr (vadd (fpos F) (qrotate (frot F) c)) (frot F). Proof. reflexivity. Qed.
Lemma pos_can : forall fc, BGetPosition B fc = convert fc (fpos F).
Proof. intros. unfold BGetPosition. rewrite ref_can, swap_convert. reflexivity. Qed.
Lemma quat_can : GetQuaternion B = frot F. Proof. reflexivity. Qed.
Lemma frame_can : GetFrame B = F.
Proof. unfold GetFrame. rewrite quat_can, pos_can. destruct F; reflexivity. Qed.
Lemma cogpos_can : forall fc, GetCOG B fc = convert fc c.
Proof. intros. unfold GetCOG. cbn [B canon b_aux]. rewrite inv_aux, swap_convert. reflexivity. Qed.
Lemma cogworld_can : forall fc, GetCOGPositionInWorld B fc = convert fc (plus3 (fpos F) (qrotate (frot F) c)).
Proof. intros. unfold GetCOGPositionInWorld. rewrite swap_convert. reflexivity. Qed.
Lemma piw_can : forall x fc, ProjectVectorInWorld B x fc = convert fc (qrotate (frot F) (convert fc x)).
Proof. intros. unfold ProjectVectorInWorld. rewrite UQ_Rotate_convert. reflexivity. Qed.
Lemma pib_can : forall x fc, ProjectVectorInBody B x fc = convert fc (qrotate (qconj (frot F)) (convert fc x)).
Proof. intros. unfold ProjectVectorInBody. rewrite UQ_Rotate_convert. reflexivity. Qed.
Lemma world_can : forall x fc, GetPointPositionInWorld B x fc = convert fc (plus3 (fpos F) (qrotate (frot F) (convert fc x))).
Proof. intros. unfold GetPointPositionInWorld. rewrite pos_can, piw_can, convert_plus. reflexivity. Qed.
Lemma body_can : forall x fc, GetPointPositionInBody B x fc = convert fc (qrotate (qconj (frot F)) (minus3 (convert fc x) (fpos F))).
Proof. intros. unfold GetPointPositionInBody. rewrite pos_can, pib_can, vsub_minus, convert_minus, convert_invol. reflexivity. Qed.
Lemma REF_UAM : forall F', UpdateAfterMove (SetFrame_REF_to_abs B F') = canon F' v d c Ns.
Proof. intros. unfold B. rewrite SetREF_canon. apply UAM_canon. Qed.
Lemma setpos_can : forall p fc, BSetPosition B p fc = canon (Fr (convert fc p) (frot F)) v d c Ns.
Proof. intros. unfold BSetPosition. rewrite REF_UAM, frame_can. unfold SetPosition. rewrite swap_convert. reflexivity. Qed.
Lemma transw_can : forall t fc, BTranslateInWorld B t fc = canon (Fr (plus3 (fpos F) (convert fc t)) (frot F)) v d c Ns.
Proof.
  intros. unfold BTranslateInWorld. rewrite REF_UAM, frame_can. unfold SetPosition, GetPosition.
  rewrite !swap_convert, vadd_plus, convert_plus, convert_invol. reflexivity.
Qed.
Lemma transb_can : forall t fc, BTranslateInBody B t fc = canon (Fr (plus3 (fpos F) (qrotate (frot F) (convert fc t))) (frot F)) v d c Ns.
Proof.
  intros. unfold BTranslateInBody. rewrite REF_UAM, frame_can, piw_can. unfold SetPosition, GetPosition.
  rewrite !swap_convert, vadd_plus, convert_plus, !convert_invol. reflexivity.
Qed.
Lemma setpt_can : forall p w fc, SetPositionOfBodyPoint B p w fc =
  canon (Fr (plus3 (fpos F) (minus3 (convert fc w) (plus3 (fpos F) (qrotate (frot F) (convert fc p))))) (frot F)) v d c Ns.
Proof.
  intros. unfold SetPositionOfBodyPoint. rewrite transw_can, world_can, vsub_minus, convert_minus, convert_invol. reflexivity.
Qed.
Lemma SetREF_rot : forall q F', SetFrame_REF_to_abs (SetRot B q) F' = SetFrame_REF_to_abs B F'.
Proof. reflexivity. Qed.
Lemma setrot_can : forall q, BSetRotation B q = canon (Fr (fpos F) q) v d c Ns.
Proof.
  intros. unfold BSetRotation. rewrite pos_can. unfold BSetPosition. rewrite SetREF_rot, REF_UAM. reflexivity.
Qed.
Lemma setcog_can : forall p fc, unitf F ->
  exists v', SetCOG B p fc = canon F v' d (convert fc p) Ns /\
    forall x, vadd v' (vscale 2 (qim (qmul (qmul d (qpure (vsub x (convert fc p)))) (qconj (frot F))))) =
              vadd v (vscale 2 (qim (qmul (qmul d (qpure (vsub x c))) (qconj (frot F))))).
Proof.
  intros p fc HF. unfold SetCOG, SetPosition. rewrite swap_convert. set (p' := convert fc p).
  unfold SetFrame_COG_to_REF. cbn [B canon b_cog b_aux b_marks].
  assert (Hc : unitf (mf_frame (cogm F v d c))) by exact HF.
  assert (Ha : unitf (auxf c)) by exact unitq_one.
  assert (Hi : unitf (Fr p' (frot fident))) by exact unitq_one.
  assert (E0 : chinv (Fr p' (frot fident)) = auxf p').
  { destruct p'. unfold chinv, auxf; cbn [fpos frot fident]. apply fr_eq; cbn [fpos frot]; geo; [veq|qeq]; ring. }
  exists (PointSpeed (cogm F v d c) (vsub p' c)).
  assert (E1 : mf_mul (mf_mul (cogm F v d c) (auxf c)) (Fr p' (frot fident)) =
    cogm F (PointSpeed (cogm F v d c) (vsub p' c)) d p').
  { rewrite mf_assoc by assumption.
    assert (E : chmul (auxf c) (Fr p' (frot fident)) = Fr (vsub p' c) qone).
    { destruct c, p'. apply fr_eq; cbn [chmul auxf fpos frot fident]; geo; [veq|qeq]; ring. }
    rewrite E. unfold mf_mul; cbn [fpos frot]. unfold cogm at 1; cbn [mf_frame mf_qdt].
    unfold cogm. f_equal; [|apply qmul_1r].
    apply fr_eq; cbn [chmul fpos frot]; [|apply qmul_1r].
    rewrite qrotate_vsub. generalize (qrotate (frot F) c) (qrotate (frot F) p') (fpos F).
    intros [] [] []; geo; veq; ring. }
  set (v' := PointSpeed (cogm F v d c) (vsub p' c)) in *.
  assert (E2 : chmul (chinv (mf_frame (cogm F v' d p'))) (mf_frame (cogm F v d c)) = Fr (vsub c p') qone).
  { assert (X : mf_frame (cogm F v d c) = chmul (mf_frame (cogm F v' d p')) (Fr (vsub c p') qone)).
    { apply fr_eq; cbn [cogm chmul mf_frame fpos frot]; [|symmetry; apply qmul_1r].
      rewrite qrotate_vsub. generalize (qrotate (frot F) c) (qrotate (frot F) p') (fpos F).
      intros [] [] []; geo; veq; ring. }
    rewrite X, <- chmul_assoc, chmul_inv_l, chmul_1l; auto. apply unitf_inv; exact HF. }
  split.
  - rewrite E0, E1, E2. unfold canon. f_equal. rewrite map_map. apply map_ext. intros N. cbn [mk_rel mk_abs].
    assert (E3 : chmul (Fr (vsub c p') qone) (relf c N) = relf p' N).
    { unfold relf. apply fr_eq; cbn [chmul fpos frot]; [|apply qmul_1l].
      rewrite qrotate_one. destruct c, p', (fpos N); geo; veq; ring. }
    rewrite E3. f_equal.
    rewrite <- E1. rewrite (mf_assoc (mf_mul (cogm F v d c) (auxf c))); [| |exact Hi].
    2:{ apply (unitf_mul (mf_frame (cogm F v d c)) (auxf c)); assumption. }
    rewrite mf_assoc by assumption.
    f_equal. unfold relf, auxf; cbn [fident frot]. apply fr_eq; cbn [chmul fpos frot]; rewrite ?qmul_1l, ?qrotate_one; [|reflexivity].
    destruct c, p', (fpos N); geo; veq; ring.
  - intros x. unfold v', PointSpeed, cogm; cbn [mf_vel mf_qdt mf_frame frot].
    destruct F as [fp fq]; cbn [frot]. destruct d, v, c, p', x, fq. bgeo. veq; ring.
Qed.
End Ops.
