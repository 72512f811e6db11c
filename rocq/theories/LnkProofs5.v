(** Proofs for the links: flags, planes, lines, locked degrees of freedom, samples. *)
From Coq Require Import Reals List Bool Lra Psatz Lia ZArith.
From Verif Require Import SeaModel GeoModel GeoSpec GeoProofs GeoProofs3 BodyModel BodySpec BodyProofs BodyProofs2 BodyProofs3 WavProofs3 MorSpec LnkModel LnkSpec LnkProofs LnkProofs2 LnkProofs3 LnkProofs4.
Import ListNotations.
Open Scope R_scope.
Local Notation turn := BodySpec.turn.

(** ** Flags *)
Lemma flag_app l o : flag_run (l ++ [o]) = flag_step o (flag_run l).
Proof. unfold flag_run. rewrite fold_left_app. reflexivity. Qed.
Lemma unbreakable l : ~ In (FSetBreakable true) l -> fl_breakable (flag_run l) = false /\ fl_broken (flag_run l) = false.
Proof.
  induction l as [|o l IH] using rev_ind; intros N; [split; reflexivity|]. rewrite flag_app. destruct IH as [A B]; [intros X; apply N, in_or_app; auto|].
  destruct o as [x|x|x| |]; cbn [flag_step fl_breakable fl_broken]; try (split; assumption).
  - destruct x; [exfalso; apply N, in_or_app; right; left; reflexivity|]. split; [reflexivity|exact B].
  - rewrite A. split; assumption.
Qed.
Definition about_state (o : flag_op) : bool := match o with FSetDisabled _ | FSetBroken _ => true | _ => false end.
Lemma flag_keep l o : match o with FSetDisabled _ => False | _ => True end -> fl_disabled (flag_run (l ++ [o])) = fl_disabled (flag_run l).
Proof. intros H. rewrite flag_app. destruct o as [x|x|x| |]; cbn; try reflexivity; try contradiction. destruct (fl_breakable (flag_run l)); reflexivity. Qed.

(** ** Planes *)
(** the normal, in the world, up to the sign of the convention *)
Definition side (a : axis_label) (fc : conv) : R := match a, fc with XAXIS, _ => 1 | _, NWU => 1 | _, NED => -1 end.
Lemma axis_world b i m a fc : has_node b i m -> axis_in_world m a fc = scal3 (side a fc) (convert fc (node_axes m (unit_axis a))).
Proof.
  intros H. rewrite (axes_rot _ _ _ H). unfold axis_in_world, UQ_GetXAxis, UQ_GetYAxis, UQ_GetZAxis. set (q := frot (NGetFrameInWorld m)). clearbody q.
  destruct a; rewrite ?qxaxis_rot, ?qyaxis_rot, ?qzaxis_rot, qrotate_swap; cbn [unit_axis side]; destruct fc; cbn [convert]; try v3; cbn [vx vy vz].
  - replace (V 1 (- 0) (- 0)) with (V 1 0 0) by v3. v3.
  - replace (V 0 (- (1)) (- 0)) with (scal3 (-1) (V 0 1 0)) by v3. rewrite qr_scal. v3.
  - replace (V 0 (- 0) (- (1))) with (scal3 (-1) (V 0 0 1)) by v3. rewrite qr_scal. v3.
Qed.
Lemma side_sq a fc : side a fc * side a fc = 1. Proof. destruct a, fc; cbn [side]; ring. Qed.
Lemma unit_axis_1 b i m a : has_node b i m -> dot3 (node_axes m (unit_axis a)) (node_axes m (unit_axis a)) = 1.
Proof. intros H. rewrite (axes_dot _ _ _ _ _ H). destruct a; unfold dot3; cbn [unit_axis vx vy vz]; ring. Qed.
Lemma dot_scal k a b : dot3 a (scal3 k b) = k * dot3 a b. Proof. unfold dot3, scal3. cbn [vx vy vz]. ring. Qed.
Lemma pos_conv b i m fc : has_node b i m -> NGetPositionInWorld m fc = convert fc (node_place m).
Proof. intros H. rewrite <- (pos_place _ _ _ H). unfold NGetPositionInWorld, GetPosition. rewrite !swap_convert. reflexivity. Qed.
Lemma conv_minus fc a b : convert fc (minus3 a b) = minus3 (convert fc a) (convert fc b).
Proof. destruct fc; [reflexivity|]. unfold convert. v3. Qed.
Lemma distance_ok b i m a p fc : has_node b i m -> GetDistanceToPointInWorld m a p fc = side a fc * dot3 (minus3 (convert fc p) (node_place m)) (node_axes m (unit_axis a)).
Proof.
  intros H. unfold GetDistanceToPointInWorld. rewrite (axis_world _ _ _ _ _ H), (pos_conv _ _ _ _ H). change vdot with dot3. change vsub with minus3. rewrite dot_scal. f_equal.
  rewrite <- (convert_invol fc p) at 1. rewrite <- conv_minus, convert_dot. reflexivity.
Qed.
Lemma intersection_ok b i m a P0 P1 fc X : has_node b i m -> GetIntersectionWithLineInWorld m a P0 P1 fc = Ok X ->
  (exists s, X = plus3 P0 (scal3 s (minus3 P1 P0))) /\ dot3 (minus3 (convert fc X) (node_place m)) (node_axes m (unit_axis a)) = 0.
Proof.
  intros H E. unfold GetIntersectionWithLineInWorld in E. cbv zeta in E. destruct (Rlt_dec _ _) as [L|L]; [|discriminate]. destruct (Req_EM_T _ _) as [Z|NZ]; [discriminate|]. inversion E; subst X; clear E.
  change vdot with dot3 in *. change vsub with minus3 in *. change vadd with plus3 in *. change vscale with scal3 in *.
  split; [eexists; reflexivity|]. set (n := axis_in_world m a fc) in *. set (s := _ / _).
  assert (D : dot3 (minus3 (plus3 P0 (scal3 s (minus3 P1 P0))) (NGetPositionInWorld m fc)) n = 0).
  { replace (dot3 (minus3 (plus3 P0 (scal3 s (minus3 P1 P0))) (NGetPositionInWorld m fc)) n) with (s * dot3 (minus3 P1 P0) n - dot3 (minus3 (NGetPositionInWorld m fc) P0) n) by (unfold dot3, minus3, plus3, scal3; cbn [vx vy vz]; ring). unfold s. field. exact NZ. }
  unfold n in D. rewrite (axis_world _ _ _ _ _ H), (pos_conv _ _ _ _ H), dot_scal in D. set (Y := plus3 P0 _) in *. rewrite <- (convert_invol fc Y) in D. rewrite <- conv_minus, convert_dot in D.
  pose proof (side_sq a fc). apply Rmult_integral in D. destruct D as [D|D]; [rewrite D in H0; lra|exact D].
Qed.
Lemma intersection_ok_iff m a P0 P1 fc : (exists X, GetIntersectionWithLineInWorld m a P0 P1 fc = Ok X) <-> (/ 10 ^ 16 < vnorm (minus3 P1 P0) /\ dot3 (minus3 P1 P0) (axis_in_world m a fc) <> 0).
Proof.
  unfold GetIntersectionWithLineInWorld. cbv zeta. change vsub with minus3. change vdot with dot3. destruct (Rlt_dec _ _) as [L|L]; [|split; [intros [X E]; discriminate|tauto]]. destruct (Req_EM_T _ _) as [Z|Z]; [split; [intros [X E]; discriminate|tauto]|].
  split; [intros _; split; assumption|]. intros _. eexists. reflexivity.
Qed.
Lemma closest_ok b i m a p fc : has_node b i m -> exists X, GetClosestPointOnPlaneInWorld m a p fc = Ok X /\
  dot3 (minus3 (convert fc X) (node_place m)) (node_axes m (unit_axis a)) = 0 /\
  (forall Y, dot3 (minus3 (convert fc Y) (node_place m)) (node_axes m (unit_axis a)) = 0 -> dot3 (minus3 p X) (minus3 p X) <= dot3 (minus3 p Y) (minus3 p Y)) /\
  dot3 (minus3 p X) (minus3 p X) = GetDistanceToPointInWorld m a p fc * GetDistanceToPointInWorld m a p fc.
Proof.
  intros H. set (n := axis_in_world m a fc). assert (N1 : dot3 n n = 1).
  { unfold n. rewrite (axis_world _ _ _ _ _ H). set (k := side a fc). set (y := convert fc _). replace (dot3 (scal3 k y) (scal3 k y)) with (k * k * dot3 y y) by (unfold dot3, scal3; cbn [vx vy vz]; ring). unfold k, y. rewrite side_sq, convert_dot, (unit_axis_1 _ _ _ _ H). ring. }
  assert (PN : minus3 (plus3 p n) p = n) by (clearbody n; v3).
  destruct (proj2 (intersection_ok_iff m a p (plus3 p n) fc)) as [X E].
  { rewrite PN. fold n. split; [|lra]. unfold vnorm. change vdot with dot3. rewrite N1, sqrt_1. apply (Rmult_lt_reg_l (10 ^ 16)); [lra|]. rewrite Rinv_r by lra. lra. }
  exists X. assert (EC : GetClosestPointOnPlaneInWorld m a p fc = Ok X) by exact E. split; [exact EC|]. destruct (intersection_ok _ _ _ _ _ _ _ _ H E) as [[s S] P]. split; [exact P|]. rewrite PN in S.
  assert (AW : n = scal3 (side a fc) (convert fc (node_axes m (unit_axis a)))) by apply (axis_world _ _ _ _ _ H).
  assert (IN : forall Y, dot3 (minus3 (convert fc Y) (node_place m)) (node_axes m (unit_axis a)) = 0 -> dot3 (minus3 Y (convert fc (node_place m))) n = 0).
  { intros Y HY. rewrite AW, dot_scal. rewrite <- (convert_invol fc Y), <- conv_minus, convert_dot, HY. ring. }
  pose proof (IN X P) as XN.
  assert (XX : dot3 (minus3 p X) (minus3 p X) = s * s). { rewrite S. replace (minus3 p (plus3 p (scal3 s n))) with (scal3 (- s) n) by (clearbody n; v3). replace (dot3 (scal3 (- s) n) (scal3 (- s) n)) with (s * s * dot3 n n) by (unfold dot3, scal3; cbn [vx vy vz]; ring). rewrite N1. ring. }
  assert (DS : GetDistanceToPointInWorld m a p fc = - s).
  { unfold GetDistanceToPointInWorld. fold n. rewrite (pos_conv _ _ _ _ H). change vdot with dot3. change vsub with minus3. rewrite S in XN. set (c := convert fc (node_place m)) in *. clearbody c n. assert (dot3 (minus3 p c) n = dot3 (minus3 (plus3 p (scal3 s n)) c) n - s * dot3 n n) by (unfold dot3, minus3, plus3, scal3; cbn [vx vy vz]; ring). rewrite H0, XN, N1. ring. }
  split; [|rewrite XX, DS; ring]. intros Y HY. pose proof (IN Y HY) as YN. rewrite XX.
  assert (PY : dot3 (minus3 p Y) n = - s). { assert (dot3 (minus3 p Y) n = dot3 (minus3 p X) n + dot3 (minus3 X (convert fc (node_place m))) n - dot3 (minus3 Y (convert fc (node_place m))) n) by (generalize (convert fc (node_place m)); intros c; unfold dot3, minus3; cbn [vx vy vz]; ring). rewrite H0, XN, YN, S. replace (minus3 p (plus3 p (scal3 s n))) with (scal3 (- s) n) by (clearbody n; v3). replace (dot3 (scal3 (- s) n) n) with (- s * dot3 n n) by (unfold dot3, scal3; cbn [vx vy vz]; ring). rewrite N1. ring. }
  (* Cauchy: |p - Y|^2 >= (n . (p - Y))^2 *)
  set (d := minus3 p Y) in *. assert (C : 0 <= dot3 (plus3 d (scal3 s n)) (plus3 d (scal3 s n))) by (unfold dot3; nra).
  replace (dot3 (plus3 d (scal3 s n)) (plus3 d (scal3 s n))) with (dot3 d d + 2 * s * dot3 d n + s * s * dot3 n n) in C by (unfold dot3, plus3, scal3; cbn [vx vy vz]; ring). rewrite PY, N1 in C. lra.
Qed.
(** ** Point on a line *)
Lemma point_on_line_ok b i m a : has_node b i m -> parallel (qrotate (frot (point_on_line_frame m a)) (V 1 0 0)) (node_axes m (unit_axis a)) /\
  dot3 (qrotate (frot (point_on_line_frame m a)) (V 1 0 0)) (qrotate (frot (point_on_line_frame m a)) (V 1 0 0)) = 1 /\ fpos (point_on_line_frame m a) = node_place m /\ unitq (frot (point_on_line_frame m a)).
Proof.
  intros H. destruct (node_facts _ _ _ H) as (q & _ & U & _). pose proof (axes_rot _ _ _ H) as AX. pose proof (unit_axis_1 _ _ _ a H) as N1.
  assert (UY : unit3 (V 0 1 0)) by (unfold unit3, dot3; cbn [vx vy vz]; ring). assert (UZ : unit3 (V 0 0 1)) by (unfold unit3, dot3; cbn [vx vy vz]; ring).
  assert (A90 : 90 * DEG2RAD = PI / 2) by (unfold DEG2RAD; field).
  assert (K : exists k, k * k = 1 /\ qrotate (frot (point_on_line_frame m a)) (V 1 0 0) = scal3 k (node_axes m (unit_axis a))).
  { destruct a; unfold point_on_line_frame, RotZ_RADIANS, RotY_RADIANS; cbv zeta; cbn [IsNED frot unit_axis].
    - exists 1. split; [ring|]. rewrite AX. v3.
    - exists 1. split; [ring|]. rewrite A90, qzaxis_rot, local_axis, AX by assumption. rewrite <- qr_scal. f_equal. unfold rodrigues. rewrite cos_PI2, sin_PI2. v3.
    - exists (-1). split; [ring|]. rewrite A90, qyaxis_rot, local_axis, AX by assumption. rewrite <- qr_scal. f_equal. unfold rodrigues. rewrite cos_PI2, sin_PI2. v3. }
  destruct K as (k & K1 & K2). split; [exists k; exact K2|]. split.
  { rewrite K2. set (y := node_axes m (unit_axis a)) in *. replace (dot3 (scal3 k y) (scal3 k y)) with (k * k * dot3 y y) by (unfold dot3, scal3; cbn [vx vy vz]; ring). rewrite K1, N1. ring. }
  rewrite (place_pos _ _ _ H). destruct a; unfold point_on_line_frame, RotZ_RADIANS, RotY_RADIANS; cbv zeta; cbn [IsNED frot fpos]; rewrite ?qyaxis_rot, ?qzaxis_rot; (split; [reflexivity|]); auto using unitq_mul, unitq_angaxis, unit3_rot.
Qed.

(** ** Locked degrees of freedom *)
Lemma upd_last (l : list marker) x y : upd (l ++ [x]) (List.length l) y = l ++ [y].
Proof. induction l as [|h t IH]; [reflexivity|]. cbn [app List.length upd]. rewrite IH. reflexivity. Qed.
Lemma locked_ok w b : reachable w -> reachable b -> (forall x, body_map w x = x) -> let '(w', b') := InitializeLockedDOF w b in
  exists mw mb, b_marks w' = b_marks w ++ [mw] /\ b_marks b' = b_marks b ++ [mb] /\ (forall x, act (NGetFrameInWorld mw) x = plus3 (GetCOGPositionInWorld b NWU) (turn (body_map b) x)) /\
    (forall x, act (NGetFrameInWorld mb) x = plus3 (GetCOGPositionInWorld b NWU) (turn (body_map b) x)) /\ (forall x, body_map w' x = body_map w x) /\ (forall x, body_map b' x = body_map b x).
Proof.
  intros RW RB WI. destruct (reach_can w RW) as (Fw & vw & dw & cw & Nw & -> & HFw & _). destruct (reach_can b RB) as (F & v & d & c & Ns & -> & HF & _).
  unfold InitializeLockedDOF. cbv zeta. rewrite !newnode_can, !cogworld_can, !quat_can. set (f := Frame_make _ _ _).
  assert (UF : unitf f) by exact HF. assert (Ef : forall x, act f x = plus3 (plus3 (fpos F) (qrotate (frot F) c)) (qrotate (frot F) x)). { intros x. rewrite act_eq by exact HF. unfold f, Frame_make. rewrite swap_convert. reflexivity. }
  rewrite nsfw_can, nsfb_can by assumption. 
  assert (LEN : forall F v d c Ns, List.length (b_marks (canon F v d c Ns)) = List.length Ns) by (intros; apply map_length).
  assert (SET : forall F v d c Ns x N, set_marker (canon F v d c (Ns ++ [x])) (List.length Ns) (mkn F v d c N) = canon F v d c (Ns ++ [N])).
  { intros F' v' d' c' Ns' x N. unfold set_marker, canon. cbn [b_cog b_aux b_ref b_marks]. f_equal. rewrite !map_app. cbn [map]. rewrite <- (map_length (fun N0 : frame => Mk (relf c' N0) (mf_mul (cogm F' v' d' c') (relf c' N0))) Ns') at 1. apply upd_last. }
  rewrite !LEN, !SET. eexists (mkn Fw vw dw cw f), (mkn F v d c (chmul (chinv F) f)). split; [unfold canon; cbn [b_marks]; rewrite map_app; reflexivity|]. split; [unfold canon; cbn [b_marks]; rewrite map_app; reflexivity|].
  rewrite !ngfw_can. split; [|split; [|split; intros x; rewrite !bmap_can; reflexivity]].
  - intros x. cbn [convert]. rewrite turn_can, <- Ef. rewrite act_eq by (apply unitq_mul; assumption). cbn [chmul fpos frot]. rewrite qrotate_mul by assumption. change vadd with plus3.
    replace (plus3 (plus3 (fpos Fw) (qrotate (frot Fw) (fpos f))) (qrotate (frot Fw) (qrotate (frot f) x))) with (plus3 (fpos Fw) (qrotate (frot Fw) (plus3 (fpos f) (qrotate (frot f) x)))) by (rewrite qrotate_plus3; v3).
    rewrite <- (act_eq f x UF). rewrite <- (WI (act f x)) at 2. rewrite bmap_can. reflexivity.
  - intros x. rewrite chinv_cancel by exact HF. cbn [convert]. rewrite turn_can. apply Ef.
Qed.
