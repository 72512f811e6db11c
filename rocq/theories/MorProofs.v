(** Proofs for C158: frames of the tubes. *)
From Coq Require Import Reals List Bool Lra Psatz Lia.
From Verif Require Import SeaModel GeoModel GeoSpec GeoProofs GeoProofs2 GeoProofs3 GeoProofs4 BodyModel BodySpec BodyProofs BodyProofs2 BodyProofs3 BodyProofs4 BodyProps MorModel MorSpec.
Import ListNotations.
Open Scope R_scope.
Local Notation turn := BodySpec.turn.

Lemma vn_dot a : vdot a a = dot3 a a. Proof. reflexivity. Qed.
Lemma dot_nn a : 0 <= dot3 a a.
Proof. unfold dot3. nra. Qed.
Lemma size_pos a : dot3 a a <> 0 -> 0 < size3 a.
Proof. intros H. apply sqrt_lt_R0. pose proof (dot_nn a). lra. Qed.
Lemma size_sq a : size3 a * size3 a = dot3 a a.
Proof. apply sqrt_sqrt. apply dot_nn. Qed.
Lemma dot_zero a : dot3 a a = 0 -> a = origin.
Proof. unfold dot3. intros H. apply vec_eq; unfold origin; cbn [vx vy vz]; nra. Qed.
Lemma normalize_ok a : dot3 a a <> 0 -> dot3 (vnormalize a) (vnormalize a) = 1 /\ a = scal3 (size3 a) (vnormalize a) /\ vnormalize a = scal3 (/ size3 a) a.
Proof.
  intros H. pose proof (size_pos a H) as P. pose proof (size_sq a) as Q. assert (N : vnormalize a = scal3 (/ size3 a) a).
  { unfold vnormalize. rewrite vn_dot. pose proof (dot_nn a). destruct (Rlt_dec 0 (dot3 a a)); [reflexivity|lra]. }
  rewrite N. split; [|split; [|reflexivity]].
  - replace (dot3 (scal3 (/ size3 a) a) (scal3 (/ size3 a) a)) with (/ size3 a * / size3 a * dot3 a a) by (unfold dot3, scal3; cbn [vx vy vz]; ring). rewrite <- Q. field. lra.
  - apply vec_eq; unfold scal3; cbn [vx vy vz]; field; lra.
Qed.
Lemma normalize_unit a : dot3 a a = 1 -> vnormalize a = a.
Proof.
  intros H. destruct (normalize_ok a) as (_ & E & _); [lra|]. assert (S1 : size3 a = 1) by (unfold size3; rewrite H; apply sqrt_1).
  rewrite S1 in E. rewrite E at 2. apply vec_eq; unfold scal3; cbn [vx vy vz]; ring.
Qed.
(** right-handed basis from two unit orthogonal vectors *)
Lemma lagrange a b : dot3 (cross3 a b) (cross3 a b) = dot3 a a * dot3 b b - dot3 a b * dot3 a b.
Proof. unfold dot3, cross3; cbn [vx vy vz]; ring. Qed.
Lemma triple a b c : cross3 a (cross3 b c) = minus3 (scal3 (dot3 a c) b) (scal3 (dot3 a b) c).
Proof. apply vec_eq; unfold dot3, cross3, minus3, scal3; cbn [vx vy vz]; ring. Qed.
Lemma basis e1 e3 : dot3 e1 e1 = 1 -> dot3 e3 e3 = 1 -> dot3 e3 e1 = 0 -> let e2 := cross3 e3 e1 in
  dot3 e2 e2 = 1 /\ dot3 e1 e2 = 0 /\ dot3 e2 e3 = 0 /\ cross3 e1 e2 = e3.
Proof.
  intros A B C. cbv zeta. split; [rewrite lagrange, A, B, C; ring|]. split; [unfold dot3, cross3; cbn [vx vy vz]; ring|]. split; [unfold dot3, cross3; cbn [vx vy vz]; ring|].
  rewrite triple, A. replace (dot3 e1 e3) with 0 by (rewrite <- C; unfold dot3; ring). apply vec_eq; unfold minus3, scal3; cbn [vx vy vz]; ring.
Qed.
Lemma axes_ok A B v : A <> B -> good_reference A B v -> let '(e1, e2, e3) := frame_axes A B v in tube_axes A B v e1 e2 e3.
Proof.
  intros NE G. unfold frame_axes, tube_axes. unfold good_reference in G. cbv zeta. change (vsub B A) with (minus3 B A).
  assert (NZ : dot3 (minus3 B A) (minus3 B A) <> 0). { intros Z. apply NE. apply dot_zero in Z. pose proof (f_equal vx Z). pose proof (f_equal vy Z). pose proof (f_equal vz Z). unfold minus3, origin in *; cbn [vx vy vz] in *. apply vec_eq; lra. }
  set (w := minus3 B A) in *. clearbody w. destruct (normalize_ok w NZ) as (U3 & E3 & D3). pose proof (size_pos w NZ) as PW.
  set (e3 := vnormalize w) in *. change (vcross v e3) with (cross3 v e3).
  assert (CE : cross3 v e3 = scal3 (/ size3 w) (cross3 v w)). { rewrite D3. apply vec_eq; unfold cross3, scal3; cbn [vx vy vz]; ring. }
  assert (SZ : vnorm (cross3 v e3) = / size3 w * size3 (cross3 v w)).
  { unfold vnorm. rewrite vn_dot, CE. replace (dot3 (scal3 (/ size3 w) (cross3 v w)) (scal3 (/ size3 w) (cross3 v w))) with ((/ size3 w) * (/ size3 w) * dot3 (cross3 v w) (cross3 v w)) by (unfold dot3, scal3; cbn [vx vy vz]; ring).
    assert (0 < / size3 w) by (apply Rinv_0_lt_compat; exact PW). rewrite sqrt_mult by (try apply dot_nn; nra). rewrite sqrt_square by lra. reflexivity. }
  assert (FIN : forall e1, dot3 e1 e1 = 1 -> dot3 e3 e1 = 0 -> dot3 e1 v = 0 ->
     dot3 e1 e1 = 1 /\ dot3 (vnormalize (vcross e3 e1)) (vnormalize (vcross e3 e1)) = 1 /\ dot3 e3 e3 = 1 /\ dot3 e1 (vnormalize (vcross e3 e1)) = 0 /\ dot3 (vnormalize (vcross e3 e1)) e3 = 0 /\ dot3 e3 e1 = 0 /\
     cross3 e1 (vnormalize (vcross e3 e1)) = e3 /\ w = scal3 (size3 w) e3 /\ dot3 e1 v = 0).
  { intros e1 H1 H2 H3. change (vcross e3 e1) with (cross3 e3 e1). destruct (basis e1 e3 H1 U3 H2) as (K1 & K2 & K3 & K4). rewrite (normalize_unit _ K1). auto 12. }
  destruct (Rlt_dec FLT_EPS (Rabs (vnorm (cross3 v e3)))) as [L|L].
  - apply FIN.
    + apply normalize_ok. intros Z. unfold vnorm in L. rewrite vn_dot, Z, sqrt_0, Rabs_R0 in L. unfold FLT_EPS in L. assert (0 < / 8388608) by (apply Rinv_0_lt_compat; lra). lra.
    + assert (NZ2 : dot3 (cross3 v e3) (cross3 v e3) <> 0). { intros Z. unfold vnorm in L. rewrite vn_dot, Z, sqrt_0, Rabs_R0 in L. unfold FLT_EPS in L. assert (0 < / 8388608) by (apply Rinv_0_lt_compat; lra). lra. }
      destruct (normalize_ok _ NZ2) as (_ & _ & ->). unfold dot3, scal3, cross3; cbn [vx vy vz]; ring.
    + assert (NZ2 : dot3 (cross3 v e3) (cross3 v e3) <> 0). { intros Z. unfold vnorm in L. rewrite vn_dot, Z, sqrt_0, Rabs_R0 in L. unfold FLT_EPS in L. assert (0 < / 8388608) by (apply Rinv_0_lt_compat; lra). lra. }
      destruct (normalize_ok _ NZ2) as (_ & _ & ->). unfold dot3, scal3, cross3; cbn [vx vy vz]; ring.
  - destruct G as [G|[G1 G2]].
    + exfalso. apply L. rewrite SZ. assert (0 < / size3 w) by (apply Rinv_0_lt_compat; exact PW). rewrite Rabs_right.
      * apply Rmult_lt_reg_l with (size3 w); [exact PW|]. rewrite <- Rmult_assoc, Rinv_r, Rmult_1_l by lra. lra.
      * apply Rle_ge. apply Rmult_le_pos; [lra|]. apply sqrt_pos.
    + apply FIN; [unfold dot3; cbn [vx vy vz]; ring| |].
      * rewrite D3. unfold dot3, scal3; cbn [vx vy vz]. rewrite G2. ring.
      * unfold dot3; cbn [vx vy vz]. pose proof (f_equal vx G1) as X1. pose proof (f_equal vy G1) as X2. pose proof (f_equal vz G1) as X3. unfold cross3, origin in *; cbn [vx vy vz] in *. unfold dot3 in NZ. rewrite G2 in *. assert (Z : vx v * (0 * 0 + vy w * vy w + vz w * vz w) = 0) by (transitivity ((vx v * vy w - vy v * 0) * vy w - (vz v * 0 - vx v * vz w) * vz w); [ring|rewrite X2, X3; ring]). apply Rmult_integral in Z. destruct Z as [Z|Z]; [lra|contradiction].
Qed.
Lemma axes_rot A B v e1 e2 e3 : tube_axes A B v e1 e2 e3 -> rotation_matrix (M (vx e1) (vx e2) (vx e3) (vy e1) (vy e2) (vy e3) (vz e1) (vz e2) (vz e3)).
Proof.
  intros (A1 & A2 & A3 & A4 & A5 & A6 & A7 & _). pose proof (f_equal vx A7) as X. pose proof (f_equal vy A7) as Y. pose proof (f_equal vz A7) as Z.
  assert (E1 : cross3 e2 e3 = e1). { rewrite <- A7, triple, A2. replace (dot3 e2 e1) with 0 by (rewrite <- A4; unfold dot3; ring). apply vec_eq; unfold minus3, scal3; cbn [vx vy vz]; ring. }
  assert (E2 : cross3 e3 e1 = e2). { transitivity (scal3 (-1) (cross3 e1 e3)). { apply vec_eq; unfold cross3, scal3; cbn [vx vy vz]; ring. } rewrite <- A7, triple, A1, A4. apply vec_eq; unfold minus3, scal3; cbn [vx vy vz]; ring. }
  pose proof (f_equal vx E1) as X1. pose proof (f_equal vy E1) as Y1. pose proof (f_equal vz E1) as Z1. pose proof (f_equal vx E2) as X2. pose proof (f_equal vy E2) as Y2. pose proof (f_equal vz E2) as Z2.
  destruct e1 as [a1 b1 c1], e2 as [a2 b2 c2], e3 as [a3 b3 c3]. unfold dot3, cross3 in *. cbn [vx vy vz] in *.
  assert (MT : mm (mt (M a1 a2 a3 b1 b2 b3 c1 c2 c3)) (M a1 a2 a3 b1 b2 b3 c1 c2 c3) = GeoSpec.mid).
  { unfold mm, mt, GeoSpec.mid, dot3; cbn [vx vy vz m00 m01 m02 m10 m11 m12 m20 m21 m22]. f_equal; lra. }
  assert (DET : a1 * (b2 * c3 - b3 * c2) + a2 * (b3 * c1 - b1 * c3) + a3 * (b1 * c2 - b2 * c1) = 1).
  { transitivity (a1 * (b2 * c3 - c2 * b3) + b1 * (c2 * a3 - a2 * c3) + c1 * (a2 * b3 - b2 * a3)); [ring|]. rewrite X1, Y1, Z1. exact A1. }
  unfold rotation_matrix. split; [exact MT|]. split; [|unfold mdet, dot3, cross3; cbn [vx vy vz m00 m01 m02 m10 m11 m12 m20 m21 m22]; lra].
  unfold mm, mt, GeoSpec.mid, dot3; cbn [vx vy vz m00 m01 m02 m10 m11 m12 m20 m21 m22].
  assert (P : forall x1 x2 x3 y1 y2 y3 : R, x1 = y1 -> x2 = y2 -> x3 = y3 -> forall r1 r2 r3, r1 * x1 + r2 * x2 + r3 * x3 = r1 * y1 + r2 * y2 + r3 * y3) by (intros; subst; reflexivity).
  f_equal.
  - rewrite (P _ _ _ _ _ _ (eq_sym X1) (eq_sym X2) (eq_sym X) a1 a2 a3). lra.
  - rewrite (P _ _ _ _ _ _ (eq_sym Y1) (eq_sym Y2) (eq_sym Y) a1 a2 a3). ring.
  - rewrite (P _ _ _ _ _ _ (eq_sym Z1) (eq_sym Z2) (eq_sym Z) a1 a2 a3). ring.
  - rewrite (P _ _ _ _ _ _ (eq_sym X1) (eq_sym X2) (eq_sym X) b1 b2 b3). ring.
  - rewrite (P _ _ _ _ _ _ (eq_sym Y1) (eq_sym Y2) (eq_sym Y) b1 b2 b3). lra.
  - rewrite (P _ _ _ _ _ _ (eq_sym Z1) (eq_sym Z2) (eq_sym Z) b1 b2 b3). ring.
  - rewrite (P _ _ _ _ _ _ (eq_sym X1) (eq_sym X2) (eq_sym X) c1 c2 c3). ring.
  - rewrite (P _ _ _ _ _ _ (eq_sym Y1) (eq_sym Y2) (eq_sym Y) c1 c2 c3). ring.
  - rewrite (P _ _ _ _ _ _ (eq_sym Z1) (eq_sym Z2) (eq_sym Z) c1 c2 c3). lra.
Qed.

(** ** Nodes in the canonical form of a body *)
Lemma marks_can F v d c Ns : b_marks (canon F v d c Ns) = map (mkn F v d c) Ns.
Proof. reflexivity. Qed.
Lemma updf_last l f g : updf (l ++ [f]) (length l) g = l ++ [g].
Proof. induction l as [|a l IH]; [reflexivity|]. cbn. rewrite IH. reflexivity. Qed.
Lemma nwf_can F v d c Ns f : node_with_frame (canon F v d c Ns) f = (length Ns, canon F v d c (Ns ++ [f])).
Proof.
  unfold node_with_frame. cbv zeta. rewrite marks_can, map_length, newnode_can, nsfb_can. f_equal.
  unfold set_marker. rewrite marks_can, upd_map, updf_last. reflexivity.
Qed.
Definition qaxes (A B v : vec) : quat :=
  let '(e1, e2, e3) := frame_axes A B v in Get_A_quaternion (M (vx e1) (vx e2) (vx e3) (vy e1) (vy e2) (vy e3) (vz e1) (vz e2) (vz e3)).
Definition axis1 (A B v : vec) : vec := fst (fst (frame_axes A B v)).
Definition axis2 (A B v : vec) : vec := snd (fst (frame_axes A B v)).
Definition axis3 (A B v : vec) : vec := snd (frame_axes A B v).
Lemma axes3 A B v : A <> B -> good_reference A B v -> tube_axes A B v (axis1 A B v) (axis2 A B v) (axis3 A B v).
Proof. intros H G. pose proof (axes_ok A B v H G) as K. unfold axis1, axis2, axis3. destruct (frame_axes A B v) as [[e1 e2] e3]. exact K. Qed.
Lemma qaxes_ok A B v : A <> B -> good_reference A B v -> unitq (qaxes A B v) /\
  forall x, qrotate (qaxes A B v) x = plus3 (plus3 (scal3 (vx x) (axis1 A B v)) (scal3 (vy x) (axis2 A B v))) (scal3 (vz x) (axis3 A B v)).
Proof.
  intros H G. pose proof (axes3 A B v H G) as K. unfold qaxes, axis1, axis2, axis3 in *. destruct (frame_axes A B v) as [[e1 e2] e3]. cbn [fst snd] in *.
  destruct (A_quat_sound _ (axes_rot _ _ _ _ _ _ K)) as [U E]. split; [exact U|]. intros x. rewrite <- qrotate_mat, E.
  apply vec_eq; unfold mv, dot3, plus3, scal3; cbn [vx vy vz m00 m01 m02 m10 m11 m12 m20 m21 m22]; ring.
Qed.
Lemma not_neg x : 0 <= x -> not_negative x = true.
Proof. intros H. unfold not_negative. destruct (Rle_dec (- FLT_EPS) x) as [|N]; [reflexivity|]. exfalso. apply N. unfold FLT_EPS. assert (0 < / 8388608) by (apply Rinv_0_lt_compat; lra). lra. Qed.
Lemma check_ok ca cd cf d : no_coeff_negative ca cd cf d -> check_props ca cd cf d = true.
Proof. intros (A & B & C & E & F & G). unfold check_props. rewrite !not_neg by assumption. reflexivity. Qed.
Lemma setframe_can tol F v d c Ns A B r : 0 <= tol -> A <> B -> good_reference A B r ->
  SetFrameAB tol (canon F v d c Ns) A B r = Ok (length Ns, canon F v d c (Ns ++ [Fr (middle A B) (qaxes A B r)])).
Proof.
  intros T H G. pose proof (axes3 A B r H G) as K. unfold SetFrameAB, qaxes, axis1, axis2, axis3 in *. destruct (frame_axes A B r) as [[e1 e2] e3]. cbn [fst snd] in K.
  destruct (rot_axes_assert tol e1 e2 e3 NWU T (axes_rot _ _ _ _ _ _ K)) as [q E]. rewrite E. unfold Rot_SetAxes in E. destruct (_ && _)%bool; [|discriminate]. injection E as <-.
  rewrite nwf_can. reflexivity.
Qed.
Lemma tube_can tol junk F v d c Ns A B dia ca cd cf r : 0 <= tol -> A <> B -> good_reference A B r -> no_coeff_negative ca cd cf dia ->
  tube_AB tol junk (canon F v d c Ns) A B dia ca cd cf r =
  Ok (canon F v d c (Ns ++ [Fr (middle A B) (qaxes A B r)]), new_tube junk (length Ns) ca cd cf dia (size3 (minus3 B A))).
Proof. intros T H G N. unfold tube_AB. rewrite (check_ok _ _ _ _ N), (setframe_can tol F v d c Ns A B r T H G). reflexivity. Qed.
Lemma qaxes_unitf A B v : A <> B -> good_reference A B v -> unitf (Fr (middle A B) (qaxes A B v)).
Proof. intros H G. exact (proj1 (qaxes_ok A B v H G)). Qed.
(** a body in canonical form with one more node is reachable *)
Lemma reach_node b f : reachable b -> unitf f -> reachable (snd (node_with_frame b f)).
Proof.
  intros (l & Hl & ->) U. exists (l ++ [BONewNode; BONodeSetFrameInBody (length (b_marks (body_run l newbody))) f]). split.
  - apply Forall_app. split; [exact Hl|]. repeat constructor. exact U.
  - assert (APP : forall l1 l2 b0, body_run (l1 ++ l2) b0 = body_run l2 (body_run l1 b0)) by (induction l1; intros; cbn; auto).
    rewrite APP. cbn [body_run body_step]. unfold node_with_frame, on_node. cbv zeta. cbn [snd].
    set (b0 := body_run l newbody). unfold NewNode at 3. cbn [b_marks]. rewrite nth_error_app2 by lia. rewrite Nat.sub_diag. reflexivity.
Qed.
Lemma reach_run b l : reachable b -> Forall body_ok l -> reachable (body_run l b).
Proof.
  intros (l0 & H0 & ->) H. exists (l0 ++ l). split; [apply Forall_app; auto|].
  assert (APP : forall l1 l2 b0, body_run (l1 ++ l2) b0 = body_run l2 (body_run l1 b0)) by (induction l1; intros; cbn; auto). rewrite APP. reflexivity.
Qed.
(** node i of a body in canonical form *)
Lemma node_can F v d c Ns i N A B r : nth_error Ns i = Some N -> N = Fr (middle A B) (qaxes A B r) -> A <> B -> good_reference A B r ->
  node_stands (canon F v d c Ns) i A B (axis1 A B r) (axis2 A B r) (axis3 A B r).
Proof.
  intros E -> H G. exists (mkn F v d c (Fr (middle A B) (qaxes A B r))). split; [rewrite marks_can; apply map_nth_error; exact E|].
  intros x. rewrite ngfb_can. destruct (qaxes_ok A B r H G) as [U Q]. rewrite act_eq by exact U. cbn [fpos frot]. rewrite Q. reflexivity.
Qed.
(** attached to the body *)
Lemma stands_step b i A B e1 e2 e3 o : reachable b -> body_ok o -> no_node_op o -> node_stands b i A B e1 e2 e3 -> node_stands (body_step o b) i A B e1 e2 e3.
Proof.
  intros R K N (m & E & H). destruct (C17_attached b i m R E) as [_ Q]. destruct (Q o K N) as (m' & E' & Q'). exists m'. split; [exact E'|]. intros x. rewrite Q'. apply H.
Qed.
Lemma stands_run l : forall b i A B e1 e2 e3, reachable b -> Forall body_ok l -> Forall no_node_op l -> node_stands b i A B e1 e2 e3 -> node_stands (body_run l b) i A B e1 e2 e3.
Proof.
  induction l as [|o l IH]; intros b i A B e1 e2 e3 R K N H; [exact H|]. inversion K; subst. inversion N; subst. cbn [body_run]. apply IH; auto.
  - exact (reach_run b [o] R (Forall_cons _ H2 (Forall_nil _))).
  - apply stands_step; auto.
Qed.
Lemma stands_world b i A B e1 e2 e3 : reachable b -> node_stands b i A B e1 e2 e3 ->
  exists m, nth_error (b_marks b) i = Some m /\ (forall x, act (NGetFrameInWorld m) x = body_map b (tube_point A B e1 e2 e3 x)).
Proof. intros R (m & E & H). exists m. split; [exact E|]. intros x. rewrite (proj1 (C17_attached b i m R E)), H. reflexivity. Qed.
