(** Proofs for the inertia tensors (C18, C19). *)
From Coq Require Import Reals List Lra Psatz Lia.
From Verif Require Import GeoModel GeoSpec GeoProofs GeoProofs2 GeoProofs3 GeoProofs4 BodyModel BodySpec BodyProofs BodyProofs2 BodyProofs3 InertiaModel InertiaSpec.
Import ListNotations.
Open Scope R_scope.

Ltac igeo := cbv beta iota zeta delta [coeffs_matrix madd msub mscale mtransp mmul GetPointMassInertiaMatrix
  SwapInertia SwapInertiaMatrix SplitMatrix33IntoCoeffs Ixx Iyy Izz Ixy Ixz Iyz inertia_of]; geo.
Definition Imat (D : masses) : mat := coeffs_matrix (inertia_of D).

Lemma total_moved : forall g D, total (moved g D) = total D.
Proof. induction D as [|[m p] D IH]; cbn; auto. rewrite <- IH. reflexivity. Qed.
Lemma total_app : forall D E, total (D ++ E) = total D + total E.
Proof. induction D as [|[m p] D IH]; intros; cbn [total app]; [ring|rewrite IH; ring]. Qed.
Lemma moment_app : forall D E, moment1 (D ++ E) = plus3 (moment1 D) (moment1 E).
Proof.
  induction D as [|[m p] D IH]; intros; cbn [moment1 app]; [|rewrite IH, plus_assoc3; auto].
  destruct (moment1 E); geo; veq; ring.
Qed.
Lemma summ_app : forall f D E, sum_m f (D ++ E) = sum_m f D + sum_m f E.
Proof. induction D as [|[m p] D IH]; intros; cbn [sum_m app]; [ring|rewrite IH; ring]. Qed.
Lemma moved_app : forall g D E, moved g (D ++ E) = moved g D ++ moved g E.
Proof. intros; apply map_app. Qed.
Lemma moved_moved : forall g h D, moved g (moved h D) = moved (fun x => g (h x)) D.
Proof. intros; unfold moved; rewrite map_map; reflexivity. Qed.
Lemma moved_ext : forall g h D, (forall x, g x = h x) -> moved g D = moved h D.
Proof. intros; apply map_ext; intros []; cbn; rewrite H; auto. Qed.
Lemma moved_id : forall D, moved (fun x => x) D = D.
Proof. induction D as [|[m p] D IH]; cbn; f_equal; auto. Qed.
Lemma Imat_app : forall D E, Imat (D ++ E) = madd (Imat D) (Imat E).
Proof. intros; unfold Imat, inertia_of, coeffs_matrix, madd; cbn [Ixx Iyy Izz Ixy Ixz Iyz m00 m01 m02 m10 m11 m12 m20 m21 m22]; rewrite !summ_app; f_equal; ring. Qed.
Lemma Imat_cons : forall m p D, Imat ((m, p) :: D) = madd (GetPointMassInertiaMatrix m p) (Imat D).
Proof. intros m [a b c] D; unfold Imat; igeo; cbn [sum_m vx vy vz]; f_equal; ring. Qed.

Lemma place_eq : forall f x, unitf f -> place f x = plus3 (fpos f) (qrotate (frot f) x).
Proof. intros; unfold place; rewrite qrotate_action; auto. Qed.
Lemma moment_moved_rot : forall q D, moment1 (moved (qrotate q) D) = qrotate q (moment1 D).
Proof.
  induction D as [|[m p] D IH]; cbn [moment1 moved map fst snd].
  - destruct q; geo; veq; ring.
  - change (map _ D) with (moved (qrotate q) D). rewrite IH. destruct q, p; geo; destruct (moment1 D); geo; veq; ring.
Qed.
Lemma moment_moved_plus : forall a D, moment1 (moved (plus3 a) D) = plus3 (scal3 (total D) a) (moment1 D).
Proof.
  induction D as [|[m p] D IH]; cbn [moment1 total moved map fst snd].
  - destruct a; geo; veq; ring.
  - change (map _ D) with (moved (plus3 a) D). rewrite IH. destruct a, p; geo; destruct (moment1 D); geo; veq; ring.
Qed.
Lemma moment_place : forall f D, unitf f -> moment1 (moved (place f) D) = plus3 (scal3 (total D) (fpos f)) (qrotate (frot f) (moment1 D)).
Proof.
  intros f D H. rewrite (moved_ext _ (fun x => plus3 (fpos f) (qrotate (frot f) x))) by (intros; apply place_eq; auto).
  rewrite <- moved_moved, moment_moved_plus, moment_moved_rot, total_moved. reflexivity.
Qed.

(** rotation of the second moments *)
Lemma Imat_rot : forall q D, unitq q ->
  Imat (moved (qrotate q) D) = mmul (mmul (Set_A_quaternion q) (Imat D)) (mtransp (Set_A_quaternion q)).
Proof.
  intros q D H. induction D as [|[m p] D IH].
  - unfold Imat; destruct q; igeo; cbn [sum_m map moved]; meq; ring.
  - cbn [moved map fst snd]. change (map _ D) with (moved (qrotate q) D). rewrite !Imat_cons, IH.
    generalize (Imat D). intros [n00 n01 n02 n10 n11 n12 n20 n21 n22].
    assert (E : GetPointMassInertiaMatrix m (qrotate q p) =
      mmul (mmul (Set_A_quaternion q) (GetPointMassInertiaMatrix m p)) (mtransp (Set_A_quaternion q))).
    { apply unitq_elim in H. destruct q as [qa qb qc qd], p; igeo. meq; ring [H]. }
    rewrite E. generalize (Set_A_quaternion q) (GetPointMassInertiaMatrix m p).
    intros [] []; igeo; meq; ring.
Qed.
(** parallel axes *)
Lemma Imat_shift : forall a D,
  Imat (moved (fun p => minus3 p a) D) = madd (Imat D) (let g := moment1 D in let M0 := total D in
   M (M0 * (vy a ^ 2 + vz a ^ 2) - 2 * (vy a * vy g + vz a * vz g)) (vx a * vy g + vy a * vx g - M0 * (vx a * vy a)) (vx a * vz g + vz a * vx g - M0 * (vx a * vz a))
     (vx a * vy g + vy a * vx g - M0 * (vx a * vy a)) (M0 * (vx a ^ 2 + vz a ^ 2) - 2 * (vx a * vx g + vz a * vz g)) (vy a * vz g + vz a * vy g - M0 * (vy a * vz a))
     (vx a * vz g + vz a * vx g - M0 * (vx a * vz a)) (vy a * vz g + vz a * vy g - M0 * (vy a * vz a)) (M0 * (vx a ^ 2 + vy a ^ 2) - 2 * (vx a * vx g + vy a * vy g))).
Proof.
  intros a D. induction D as [|[m p] D IH].
  - unfold Imat; destruct a; igeo; cbn [sum_m map moved moment1 total]; geo; meq; ring.
  - cbn [moved map fst snd]. change (map _ D) with (moved (fun p => minus3 p a) D). rewrite !Imat_cons, IH. cbn [moment1 total].
    generalize (Imat D) (moment1 D) (total D). intros [n00 n01 n02 n10 n11 n12 n20 n21 n22] [gx gy gz] M0. destruct a as [ax ay az], p as [px py pz].
    igeo; meq; ring.
Qed.
Lemma Imat_steiner : forall a G D, is_cog D G ->
  Imat (moved (fun p => minus3 p a) D) =
  madd (Imat (moved (fun p => minus3 p G) D)) (GetPointMassInertiaMatrix (total D) (vsub G a)).
Proof.
  intros a G D H. rewrite !Imat_shift. unfold is_cog in H. rewrite <- H.
  generalize (Imat D) (total D). intros [] M0. destruct a as [ax ay az], G as [gx gy gz]. igeo; meq; ring.
Qed.
Lemma convert_qrot : forall fc p, convert fc p = qrotate (match fc with NWU => qone | NED => Q 0 1 0 0 end) p.
Proof. intros [] []; geo; veq; ring. Qed.
Lemma Imat_convert : forall fc D, Imat (moved (convert fc) D) = convert_mat fc (Imat D).
Proof.
  intros fc D. rewrite (moved_ext _ (qrotate (match fc with NWU => qone | NED => Q 0 1 0 0 end))) by (intros; apply convert_qrot).
  rewrite Imat_rot by (destruct fc; unfold unitq; geo; ring).
  generalize (Imat D). intros []. destruct fc; igeo; meq; ring.
Qed.
Lemma coeffs_inj : forall a b, coeffs_matrix a = coeffs_matrix b -> a = b.
Proof. intros [a1 a2 a3 a4 a5 a6] [b1 b2 b3 b4 b5 b6] H; unfold coeffs_matrix in H; cbn [Ixx Iyy Izz Ixy Ixz Iyz] in H; injection H; intros; subst; auto. Qed.
Lemma split_matrix : forall c, SplitMatrix33IntoCoeffs (coeffs_matrix c) = c.
Proof. intros []; reflexivity. Qed.
Lemma swap_coeffs : forall fc c, coeffs_matrix (if IsNED fc then SwapInertia c else c) = convert_mat fc (coeffs_matrix c).
Proof. intros [] []; reflexivity. Qed.
Lemma swap_matrix : forall fc m, (if IsNED fc then SwapInertiaMatrix m else m) = convert_mat fc m.
Proof. intros [] []; reflexivity. Qed.
Lemma swap_vec : forall fc m, (if IsNED fc then SwapFrameConvention m else m) = convert fc m.
Proof. intros [] []; reflexivity. Qed.
Lemma convert_mat_invol : forall fc m, convert_mat fc (convert_mat fc m) = m.
Proof. intros [] []; geo; meq; ring. Qed.

Definition desc (t : tensor) (D : masses) : Prop :=
  i_mass t = total D /\ is_cog D (i_cog t) /\ i_mat t = Imat (moved (fun p => minus3 p (i_cog t)) D).
Lemma desc_describes : forall t D, desc t D <-> describes t D.
Proof.
  intros t D; split.
  - intros (Hm & Hc & Hi). split; [exact Hm|]. exists (i_cog t). split; [exact Hc|]. intros fc.
    assert (E : convert_mat fc (i_mat t) = coeffs_matrix (inertia_of (moved (fun p => convert fc (minus3 p (i_cog t))) D))).
    { rewrite Hi, <- Imat_convert. unfold Imat. rewrite moved_moved. reflexivity. }
    split; [apply swap_vec|]. split.
    + apply coeffs_inj. rewrite <- E. unfold GetInertiaCoeffsAtCOG. rewrite swap_coeffs. rewrite Hi at 1. unfold Imat at 1. rewrite split_matrix. fold (Imat (moved (fun p => minus3 p (i_cog t)) D)). rewrite Hi. reflexivity.
    + unfold GetInertiaMatrixAtCOG. rewrite swap_matrix. exact E.
  - intros (Hm & G & Hc & H). destruct (H NWU) as (Hg & _ & Hi). unfold TGetCOGPosition, convert in Hg; cbn [IsNED] in Hg.
    subst G. split; [exact Hm|]. split; [exact Hc|]. exact Hi.
Qed.
Lemma invrot_conj : forall q, unitq q -> UQ_GetInverseRotationMatrix q = Set_A_quaternion (qconj q).
Proof.
  intros q H. unfold UQ_GetInverseRotationMatrix, qinverse. assert (E : qnorm2 q = 1) by exact H. rewrite E.
  unfold qconj. f_equal. f_equal; field.
Qed.
Lemma mtransp_conj : forall q, mtransp (Set_A_quaternion q) = Set_A_quaternion (qconj q).
Proof. intros []; igeo; meq; ring. Qed.

(** Report at any frame *)
Lemma at_frame_matrix : forall t f D', unitf f -> desc t (moved (place f) D') ->
  forall fc, GetInertiaMatrixAtFrame t f fc = convert_mat fc (Imat D').
Proof.
  intros t f D' Hf (Hm & Hc & Hi) fc. unfold GetInertiaMatrixAtFrame, GetInertiaCoeffsAtFrame. rewrite swap_coeffs. f_equal.
  change (GetPosition f NWU) with (fpos f). rewrite Hi, Hm.
  rewrite <- (Imat_steiner (fpos f) _ _ Hc). rewrite moved_moved.
  rewrite (moved_ext _ (qrotate (frot f))) by (intros; rewrite place_eq by auto; apply plus_minus3).
  rewrite invrot_conj by auto. rewrite <- Imat_rot by (apply unitq_conj; auto). rewrite moved_moved.
  rewrite (moved_ext _ (fun x => x)) by (intros; apply qrotate_conj_l; auto). rewrite moved_id.
  unfold Imat. rewrite split_matrix. reflexivity.
Qed.
Lemma at_frame_coeffs : forall t f D', unitf f -> desc t (moved (place f) D') ->
  forall fc, GetInertiaCoeffsAtFrame t f fc = inertia_of (moved (convert fc) D').
Proof. intros. apply coeffs_inj. change (coeffs_matrix (GetInertiaCoeffsAtFrame t f fc)) with (GetInertiaMatrixAtFrame t f fc).
  rewrite (at_frame_matrix t f D'); auto. rewrite <- Imat_convert. reflexivity. Qed.
(** Construction from data at any frame *)
Lemma from_frame : forall D' f G, unitf f -> is_cog (moved (place f) D') G ->
  desc (Tensor (total D') G (msub (mmul (mmul (Set_A_quaternion (frot f)) (Imat D')) (mtransp (Set_A_quaternion (frot f))))
     (GetPointMassInertiaMatrix (total D') (vsub G (fpos f))))) (moved (place f) D').
Proof.
  intros D' f G Hf HG. split; [|split]; cbn [i_mass i_cog i_mat]; auto.
  - rewrite total_moved; auto.
  - rewrite <- Imat_rot by auto.
    pose proof (Imat_steiner (fpos f) G _ HG) as E. rewrite moved_moved, total_moved in E.
    rewrite (moved_ext _ (qrotate (frot f))) in E by (intros; rewrite place_eq by auto; apply plus_minus3).
    rewrite E. generalize (Imat (moved (fun p => minus3 p G) (moved (place f) D'))). intros [].
    generalize (GetPointMassInertiaMatrix (total D') (vsub G (fpos f))). intros []. igeo; meq; ring.
Qed.
Lemma ctor_frame : forall D' f G fc, unitf f -> is_cog (moved (place f) D') G ->
  desc (Tensor_AtFrame (total D') (inertia_of (moved (convert fc) D')) f (convert fc G) fc) (moved (place f) D').
Proof.
  intros. unfold Tensor_AtFrame. rewrite swap_coeffs, swap_vec, convert_invol.
  fold (Imat (moved (convert fc) D')). rewrite Imat_convert, convert_mat_invol. apply from_frame; auto.
Qed.
Lemma set_frame : forall t D' f G fc, unitf f -> is_cog (moved (place f) D') G ->
  desc (SetInertiaTensorAtFrame t (total D') (coeffs_matrix (inertia_of (moved (convert fc) D'))) f (convert fc G) fc) (moved (place f) D').
Proof.
  intros. unfold SetInertiaTensorAtFrame. rewrite swap_matrix, swap_vec, convert_invol.
  fold (Imat (moved (convert fc) D')). rewrite Imat_convert, convert_mat_invol. apply from_frame; auto.
Qed.
(** Addition *)
Lemma place_inv : forall f x, unitf f -> place f (place (chinv f) x) = x.
Proof.
  intros f x H. rewrite !place_eq by (auto; apply unitf_inv; auto). cbn [chinv fpos frot].
  change (vneg (qrotate (qconj (frot f)) (fpos f))) with (vneg (qrotate (qconj (frot f)) (fpos f))).
  assert (E : plus3 (vneg (qrotate (qconj (frot f)) (fpos f))) (qrotate (qconj (frot f)) x) = qrotate (qconj (frot f)) (minus3 x (fpos f))).
  { destruct f as [[] []], x; geo; veq; ring. }
  rewrite E, qrotate_conj_r by auto. apply minus_plus3.
Qed.
Lemma place_inv' : forall f x, unitf f -> place (chinv f) (place f x) = x.
Proof. intros f x H. rewrite <- (chinv_invol f) at 2 by auto. apply place_inv. apply unitf_inv; auto. Qed.
Lemma is_cog_unique : forall D G G', total D <> 0 -> is_cog D G -> is_cog D G' -> G = G'.
Proof.
  unfold is_cog. intros D [a b c] [a' b' c'] H E E'. rewrite <- E' in E. geo. injection E; intros.
  f_equal; eapply Rmult_eq_reg_l; eauto.
Qed.
Lemma add_desc : forall t1 t2 f D1 D2, unitf f -> total D1 + total D2 <> 0 -> desc t1 D1 -> desc t2 D2 ->
  desc (Tensor_Add t1 t2 f) (D1 ++ moved (place f) D2).
Proof.
  intros t1 t2 f D1 D2 Hf Hn H1 H2. pose proof H1 as (Hm1 & Hc1 & Hi1). pose proof H2 as (Hm2 & Hc2 & Hi2).
  set (D := D1 ++ moved (place f) D2).
  assert (HT : total D = total D1 + total D2) by (unfold D; rewrite total_app, total_moved; auto).
  unfold Tensor_Add, SetInertiaTensorAtCOG. rewrite Hm1, Hm2.
  set (nc := V _ _ _).
  assert (Hnc : is_cog D nc).
  { unfold is_cog. rewrite HT. unfold D. rewrite moment_app, moment_place by auto.
    unfold is_cog in Hc1, Hc2. rewrite <- Hc1, <- Hc2. unfold nc.
    change (GetPointPositionInParent f (i_cog t2) NWU) with (plus3 (fpos f) (qrotate (frot f) (i_cog t2))).
    destruct (i_cog t1), (i_cog t2), f as [[] []]. geo. veq; field; auto. }
  set (F := TranslateInFrame (Frame_Inverse f) nc NWU).
  assert (HF : unitf F). { unfold F, unitf. apply (unitf_inv f Hf). }
  assert (E2 : moved (place F) (moved (fun p => minus3 p nc) (moved (place f) D2)) = D2).
  { rewrite !moved_moved. rewrite <- (moved_id D2) at 2. apply moved_ext. intros x. rewrite place_eq by auto.
    unfold F, TranslateInFrame, TranslateInParent. cbn [fpos frot]. unfold ProjectVectorFrameInParent, Frame_Inverse.
    rewrite UQ_Rotate_convert. unfold swap_if, convert; cbn [IsNED].
    rewrite <- (place_inv' f x Hf) at 2. rewrite (place_eq (chinv f)) by (apply unitf_inv; auto).
    rewrite qrotate_minus. change vadd with plus3. generalize (qrotate (frot (chinv f)) nc) (qrotate (frot (chinv f)) (place f x)) (fpos (chinv f)).
    intros [] [] []; geo; veq; ring. }
  rewrite (at_frame_matrix t2 F (moved (fun p => minus3 p nc) (moved (place f) D2)) HF) by (rewrite E2; auto).
  set (F1 := SetPosition (SetNoRotation F) nc NWU).
  assert (HF1 : unitf F1) by apply unitq_one.
  rewrite (at_frame_matrix t1 F1 (moved (fun p => minus3 p nc) D1) HF1).
  2:{ rewrite moved_moved. rewrite (moved_ext _ (fun x => x)), moved_id; auto. intros x. rewrite place_eq by auto.
      unfold F1, SetPosition, SetNoRotation. cbn [fpos frot]. rewrite qrotate_one. apply minus_plus3. }
  split; [|split]; cbn [i_mass i_cog i_mat].
  - rewrite HT; auto.
  - exact Hnc.
  - unfold convert_mat. unfold D. rewrite moved_app, Imat_app.
    generalize (Imat (moved (fun p => minus3 p nc) D1)) (Imat (moved (fun p => minus3 p nc) (moved (place f) D2))).
    intros [] []; igeo; meq; ring.
Qed.

(** Bodies and assemblies *)
Lemma body_roundtrip : forall b t D, reachable (mb_body b) -> desc t D ->
  BGetInertiaTensor (BSetInertiaTensor b t) = t.
Proof.
  intros [b m0 I0] t D Hr (Hm & Hc & Hi). unfold BGetInertiaTensor, BSetInertiaTensor; cbn [mb_body mb_mass mb_inertia] in *.
  destruct (reach_can b Hr) as (F & v & d & c & Ns & -> & HF & HN).
  destruct (setcog_can F v d c Ns (TGetCOGPosition t NWU) NWU HF) as [v' [E _]]. rewrite E, cogpos_can.
  destruct t as [m G I]. unfold Tensor_AtCOG, TGetCOGPosition, TGetMass in *; cbn [IsNED i_cog i_mass i_mat convert] in *.
  f_equal. rewrite !split_matrix. unfold GetInertiaCoeffsAtCOG; cbn [IsNED i_mat]. subst I. unfold Imat. rewrite split_matrix. reflexivity.
Qed.
Lemma cog_kept : forall o s s', body_means o s s' -> (forall p fc, o <> BOSetCOG p fc) -> bs_cog s' = bs_cog s.
Proof.
  intros o s s' H Hn. destruct o; cbn [body_means] in H; unfold moves, unmoved in H; try tauto.
  - exfalso; eapply Hn; reflexivity.
  - destruct H as [? [_ H]]. tauto.
Qed.
Lemma cog_step : forall o b, reachable b -> body_ok o -> (forall p fc, o <> BOSetCOG p fc) ->
  reachable (body_step o b) /\ forall fc, GetCOG (body_step o b) fc = GetCOG b fc.
Proof.
  intros o b Hr Ho Hn. split.
  { destruct Hr as [l [Hl E]]. exists (l ++ [o]). split; [apply Forall_app; split; auto|]. rewrite E.
    clear. generalize newbody. induction l; intros; cbn [body_run app]; auto. }
  destruct (reach_can b Hr) as (F & v & d & c & Ns & -> & HF & HN).
  destruct (body_step_ok o F v d c Ns) as (F1 & v1 & d1 & c1 & N1 & E1 & HF1 & HN1 & Hm); auto.
  intros fc. rewrite E1, !cogpos_can. f_equal.
  destruct o; try (exact (cog_kept _ (st F c Ns) (st F1 c1 N1) (Hm (fun H => H)) Hn)).
  all: clear Hm; cbn [body_step] in E1; apply (f_equal (fun b => GetCOG b NWU)) in E1; rewrite cogpos_can in E1; cbn [convert] in E1; rewrite <- E1;
    unfold on_node; match goal with |- context[nth_error ?l ?i] => destruct (nth_error l i) end;
    [change (GetCOG (canon F v d c Ns) NWU = c)|]; rewrite cogpos_can; auto.
Qed.
Lemma cog_run : forall l b, reachable b -> List.Forall body_ok l -> List.Forall (fun o => forall p fc, o <> BOSetCOG p fc) l ->
  reachable (body_run l b) /\ forall fc, GetCOG (body_run l b) fc = GetCOG b fc.
Proof.
  induction l as [|o l IH]; intros b Hr Ho Hn; cbn [body_run]; auto.
  inversion Ho; inversion Hn; subst. destruct (cog_step o b Hr) as [H0 H0']; auto.
  destruct (IH (body_step o b)) as [H3' H3'']; auto. split; auto. intros. rewrite H3''. auto.
Qed.

Lemma place_mul : forall f g x, unitf f -> unitf g -> place (chmul f g) x = place f (place g x).
Proof.
  intros f g x Hf Hg. rewrite !place_eq by (auto; apply unitf_mul; auto). cbn [chmul fpos frot].
  rewrite qrotate_mul by auto. rewrite qrotate_plus3. change vadd with plus3. apply plus_assoc3.
Qed.
Lemma reach_unitf : forall b, reachable b -> unitf (GetFrame b).
Proof. intros b H. destruct (reach_can b H) as (F & v & d & c & Ns & -> & HF & HN). rewrite frame_can. auto. Qed.
Definition in_world (p : mbody * masses) : masses := moved (place (GetFrame (mb_body (fst p)))) (snd p).
Lemma assembly_fold : forall L FM t D0, unitf FM -> desc t D0 -> 0 < total D0 ->
  List.Forall (fun p => reachable (mb_body (fst p)) /\ desc (BGetInertiaTensor (fst p)) (snd p) /\ 0 <= total (snd p)) L ->
  desc (fold_left (fun t b => Tensor_Add t (BGetInertiaTensor b) (OtherRelThis FM (GetFrame (mb_body b)))) (map fst L) t)
       (D0 ++ concat (map (fun p => moved (place (OtherRelThis FM (GetFrame (mb_body (fst p))))) (snd p)) L)).
Proof.
  induction L as [|[b D] L IH]; intros FM t D0 HF Ht Hpos HL; cbn [map fold_left concat fst snd].
  - rewrite app_nil_r. auto.
  - inversion HL as [|? ? (Hb & Hd & Hp) HL']; subst; cbn [fst snd] in *. rewrite app_assoc. apply IH; auto.
    + apply add_desc; auto; [|lra]. unfold OtherRelThis, Frame_mul, Frame_Inverse. apply unitf_mul; [apply unitf_inv; auto|apply reach_unitf; auto].
    + rewrite total_app, total_moved. lra.
Qed.
Lemma assembly_desc : forall m Dm L, reachable (mb_body m) -> desc (BGetInertiaTensor m) Dm -> 0 < total Dm ->
  List.Forall (fun p => reachable (mb_body (fst p)) /\ desc (BGetInertiaTensor (fst p)) (snd p) /\ 0 <= total (snd p)) L ->
  exists t D, AssemblyInertiaTensor (Assembly (Some m) (map fst L)) = Some t /\ desc t D /\
    moved (place (GetFrame (mb_body m))) D = in_world (m, Dm) ++ concat (map in_world L).
Proof.
  intros m Dm L Hr Hd Hp HL. pose proof (reach_unitf _ Hr) as HF.
  eexists _, _. split; [reflexivity|]. split; [apply assembly_fold; [exact HF|exact Hd|exact Hp|exact HL]|].
  rewrite moved_app. unfold in_world at 1; cbn [fst snd]. f_equal.
  clear - HL HF. induction L as [|[b D] L IH]; cbn [map concat fst snd]; auto.
  inversion HL as [|? ? (Hb & _) HL']; subst; cbn [fst snd] in *. 
  rewrite moved_app, IH by auto. f_equal. rewrite moved_moved. unfold in_world; cbn [fst snd]. apply moved_ext. intros x.
  pose proof (reach_unitf _ Hb) as Hb'.
  rewrite <- (relative_other (GetFrame (mb_body m)) (GetFrame (mb_body b))) at 2 by auto.
  unfold Frame_mul at 1. rewrite place_mul; auto.
  unfold OtherRelThis, Frame_mul, Frame_Inverse. apply unitf_mul; [apply unitf_inv; auto|auto].
Qed.
Lemma add_list : forall l a, AddListToAssembly a l = Assembly (as_master a) (as_bodies a ++ l).
Proof.
  induction l as [|b l IH]; intros a; unfold AddListToAssembly; cbn [fold_left].
  - destruct a; cbn; rewrite app_nil_r; auto.
  - fold (AddListToAssembly (AddToAssembly a b) l). rewrite IH. unfold AddToAssembly; cbn [as_master as_bodies]. rewrite <- app_assoc. reflexivity.
Qed.
