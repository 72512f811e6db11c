(** Cables: C45 (equilibrium), C46 (Jacobian), C47 (cable properties), C66 (solver), C67 (lengths), C68 (forces
    on the bodies). *)
From Coq Require Import Reals List Lra Psatz Lia.
From Coquelicot Require Import Coquelicot.
From Verif Require Import GeoModel GeoSpec GeoProofs HydSpec BodyModel BodySpec BodyProps SeaModel CabModel CabSpec CabProofs CabProofs2 CabProofs3 CabProofs4 CabProofs5 CabProofs6.
Import ListNotations.
Open Scope R_scope.

(** ** A line that meets the hypotheses used below *)
Definition sample_ops : list line_op := [LSetIter 1; LSetRelax 0; LInit (V 0 0 0) (V 30 40 (-20)) (981 / 100) 1025; LSetRelax (1 / 10)].
Lemma sample fuel elastic : exists l, line_run fuel (new_line default_props elastic 100 vzero vzero (M 0 0 0 0 0 0 0 0 0)) sample_ops = Ok l /\ initialised fuel l /\ loaded l /\ slanted (l_t0 l) /\ 0 < l_len l /\ l_elastic l = elastic.
Proof.
  set (l0 := set_relax (set_iter (new_line default_props elastic 100 vzero vzero (M 0 0 0 0 0 0 0 0 0)) 1) 0).
  destruct (init_one fuel (V 0 0 0) (V 30 40 (-20)) (981 / 100) 1025 l0) as [l [d [t [E [T [T0 [W [LD [LE EL]]]]]]]]].
  - left. cbn. lra.
  - cbn. lra.
  - intros _. cbn. unfold GetEA. cbn. lra.
  - cbn. lra.
  - cbn. lia.
  - assert (RN : line_run fuel (new_line default_props elastic 100 vzero vzero (M 0 0 0 0 0 0 0 0 0)) sample_ops = Ok (set_relax l (1 / 10))).
    { unfold sample_ops. cbn [line_run line_step rbind]. fold l0. rewrite E. reflexivity. }
    exists (set_relax l (1 / 10)). split; [exact RN|]. split.
    { exists default_props, elastic, 100, vzero, vzero, (M 0 0 0 0 0 0 0 0 0), sample_ops. split; [reflexivity|exact RN]. }
    split; [exact LD|]. cbn [set_relax l_t0 l_len l_elastic]. split; [|split; [rewrite LE; cbn; lra|rewrite EL; reflexivity]]. rewrite T0. cbn [l0 set_relax set_iter l_relax]. unfold slanted, vadd, vscale in *. cbn [vx vy vz]. rewrite !Rmult_0_l, !Rplus_0_r. exact T.
Qed.
Example sample_holds : forall fuel elastic, exists l, initialised fuel l /\ loaded l /\ slanted (l_t0 l) /\ 0 < l_len l /\ l_elastic l = elastic.
Proof. intros fuel elastic. destruct (sample fuel elastic) as [l [_ H]]. exists l. exact H. Qed.

(** ** C45: the line satisfies the cable equations *)
(** The tension varies by the submerged weight of the cable at the last Initialize, in both conventions *)
Theorem C45_weight : forall fuel l0 p0 pL g rhof ops l, existsb is_init ops = false -> line_run fuel l0 (LInit p0 pL g rhof :: ops) = Ok l ->
  weight l = (GetLinearDensity (l_props l0) - GetSectionArea (l_props l0) * rhof) * g /\
  forall s fc, GetTension l s fc = minus3 (GetTension l 0 fc) (scal3 s (convert fc (V 0 0 (- weight l)))).
Proof.
  intros fuel l0 p0 pL g rhof ops l NI H. assert (W : wf l) by (eapply run_wf; [exact H|right; reflexivity]). cbn [line_run] in H. rb H l1 E. cbn [line_step] in E. apply init_inv in E.
  assert (QW : weight l = (GetLinearDensity (l_props l0) - GetSectionArea (l_props l0) * rhof) * g) by (unfold weight; rewrite (run_q _ _ _ _ NI H); apply E). split; [exact QW|].
  intros s fc. pose proof (tension_val l s W) as A. pose proof (tension_val l 0 W) as B. unfold GetTension in *. rewrite !swap_convert in *. cbn [convert] in A, B. rewrite A, B. unfold weight. destruct fc; apply vec_eq; unfold convert, minus3, scal3; cbn [vx vy vz]; ring.
Qed.
(** The tangent of the reported positions is the direction of the tension, stretched by the elastic strain;
    the line starts at its starting node *)
Theorem C45_tangent : forall fuel l p0 fc, initialised fuel l -> loaded l ->
  exists pos, (forall s, GetNodePositionInWorld p0 l s fc = Ok (pos s)) /\ pos 0 = convert fc p0 /\
    forall s, GetTension l s fc <> origin -> derive3 pos s (plus3 (along (GetTension l s fc)) (scal3 (compliance l) (GetTension l s fc))).
Proof.
  intros fuel l p0 fc I LD. pose proof (initialised_wf _ _ I) as W. exists (fun s => convert fc (posf p0 l s)). split; [intros; apply pos_val; auto|]. split; [rewrite pos_0; reflexivity|].
  intros s T. assert (TE : GetTension l s fc = convert fc (GetTension l s NWU)) by (unfold GetTension; rewrite !swap_convert; reflexivity). rewrite TE in *.
  assert (TN : GetTension l s NWU <> origin). { intros F. apply T. rewrite F. destruct fc; apply vec_eq; unfold convert, origin; cbn [vx vy vz]; ring. }
  destruct (pos_D p0 l s W LD TN) as [A [B C]]. destruct fc; [exact (conj A (conj B C))|]. set (t := GetTension l s NWU) in *. clearbody t.
  assert (LN : len3 (convert NED t) = len3 t) by (unfold len3; f_equal; unfold dot3, convert; cbn [vx vy vz]; ring).
  unfold along in *. rewrite LN. unfold derive3, plus3, scal3, convert in *. cbn [vx vy vz] in *. split; [exact A|]. split.
  - evar_last; [apply (is_derive_opp (fun s => vy (posf p0 l s))); exact B|]. unfold opp; cbn. ring.
  - evar_last; [apply (is_derive_opp (fun s => vz (posf p0 l s))); exact C|]. unfold opp; cbn. ring.
Qed.
(** The two end tensions carry the whole submerged weight *)
Theorem C45_balance : forall fuel l fc, initialised fuel l -> plus3 (GetStartingNodeTension l fc) (GetEndingNodeTension l fc) = convert fc (V 0 0 (- (weight l * l_len l))).
Proof.
  intros fuel l fc I. pose proof (initialised_wf _ _ I) as W. pose proof (tension_val l (l_len l) W) as A. pose proof (tension_val l 0 W) as B. unfold GetStartingNodeTension, GetEndingNodeTension, GetTension, weight in *. rewrite !swap_convert in *. cbn [convert] in A, B. rewrite A, B.
  destruct fc; apply vec_eq; unfold convert, plus3, vneg; cbn [vx vy vz]; ring.
Qed.
(** ... and their moments about any point P are the moment of the distributed weight *)
Theorem C45_moment : forall fuel l p0 P, initialised fuel l -> loaded l -> slanted (l_t0 l) ->
  exists pos, (forall s, GetNodePositionInWorld p0 l s NWU = Ok (pos s)) /\
    integral3 (fun s => cross3 (minus3 (pos s) P) (V 0 0 (- weight l))) 0 (l_len l)
      (plus3 (cross3 (minus3 (pos 0) P) (GetStartingNodeTension l NWU)) (cross3 (minus3 (pos (l_len l)) P) (GetEndingNodeTension l NWU))).
Proof.
  intros fuel l p0 P I LD S. pose proof (initialised_wf _ _ I) as W. exists (posf p0 l). split; [intros; apply (pos_val p0 l s NWU); auto|]. rewrite pos_0. apply moment_int; auto.
Qed.
(** A neutrally buoyant line has no value at all: the formulas divide by the weight *)
Theorem C118_neutral_refuted : forall fuel p0 pL g rhof l, pL <> p0 -> GetLinearDensity (l_props l) = GetSectionArea (l_props l) * rhof -> CInitialize fuel p0 pL g rhof l = Undef.
Proof.
  intros fuel p0 pL g rhof l NE N. unfold CInitialize. cbv zeta. rewrite N. match goal with |- context [set_load l ?q ?qv ?um] => set (l0 := set_load l q qv um) end.
  assert (Q : l_q l0 = 0) by (cbn; ring). destruct (guess_val p0 pL l0 NE) as [lam [_ [_ G]]]. rewrite G. cbn [rbind]. unfold solve, newton_delta, get_residual, GetNodePositionInWorld, GetUnstrainedChord. cbv zeta.
  match goal with |- context [Req_EM_T ?x 0] => replace x with 0 by (symmetry; exact Q) end. destruct (Req_EM_T 0 0); [reflexivity|lra].
Qed.
(** The weight is not refreshed when the properties change: it stays the one of the last Initialize *)
Theorem C118_stale_refuted : forall fuel l c, initialised fuel l -> initialised fuel (set_props l c) /\ weight (set_props l c) = weight l.
Proof.
  intros fuel l c [p [e [len [j1 [j2 [j3 [ops [I H]]]]]]]]. split; [|reflexivity]. exists p, e, len, j1, j2, j3, (ops ++ [LSetProps c]). split; [rewrite existsb_app, I; reflexivity|]. rewrite run_app, H. reflexivity.
Qed.

(** ** C46: the Newton matrix *)
(** The matrix is the derivative of the residual with respect to the start tension, in every direction *)
Theorem C46_derivative : forall fuel l p0 pL, initialised fuel l -> loaded l -> slanted (l_t0 l) ->
  exists J res, analytical_jacobian l = Ok J /\ (forall t, get_residual p0 pL (with_tension l t) NWU = Ok (res t)) /\
    forall d, derive3 (fun h => res (plus3 (l_t0 l) (scal3 h d))) 0 (mv J d).
Proof.
  intros fuel l p0 pL I LD S. pose proof (initialised_wf _ _ I) as W. do 2 eexists. split; [apply jac_val; auto|]. split.
  - intros t. apply (residual_val p0 pL (set_t0 l t) NWU); [apply set_t0_wf; auto|apply set_t0_loaded; auto].
  - intros d. apply residual_D; auto.
Qed.
(** It is symmetric, positive definite and invertible: every Newton correction from a tension that is not vertical
    is defined, and solves the linear system *)
Theorem C46_definite : forall fuel l p0 pL, initialised fuel l -> loaded l -> slanted (l_t0 l) -> 0 < l_len l ->
  exists J d r, analytical_jacobian l = Ok J /\ symmetric J /\ positive_definite J /\ newton_delta p0 pL l = Ok d /\ get_residual p0 pL l NWU = Ok r /\ mv J d = scal3 (-1) r.
Proof.
  intros fuel l p0 pL I LD S LP. pose proof (initialised_wf _ _ I) as W. destruct (delta_def p0 pL l W LD S LP) as [d D]. destruct (delta_ok _ _ _ _ D) as [r [J [A [B C]]]]. exists J, d, r. destruct (jac_pd l J W LD S LP B). auto 10.
Qed.

(** ** C47: cable properties *)
(** Every setter is read back by its getter *)
Theorem C47_read_back : forall c,
  (forall x, GetYoungModulus (SetYoungModulus c x) = x) /\ (forall x, GetSectionArea (SetSectionArea c x) = x) /\
  (forall d, 0 <= d -> GetDiameter (SetDiameter c d) = d) /\ (forall x, GetLinearDensity (SetLinearDensity c x) = x) /\
  (0 < GetSectionArea c -> (forall x, GetEA (SetEA c x) = x) /\ (forall x, GetDensity (SetDensity c x) = x)) /\
  (forall x c', SetBreakingTension c x = Ok c' -> GetBreakingTension c' = x).
Proof.
  intros c. repeat split; try reflexivity.
  - intros d D. unfold GetDiameter, SetDiameter. cbn [cp_section]. replace (4 * (PI * (d * (1 / 2)) ^ 2) / PI) with (Rsqr d) by (unfold Rsqr; field; apply PI_neq0). apply sqrt_Rsqr. exact D.
  - intros x. unfold GetEA, SetEA. cbn. unfold GetSectionArea in *. field. lra.
  - intros x. unfold GetDensity, SetDensity. cbn. unfold GetSectionArea in *. field. lra.
  - intros x c' H. unfold SetBreakingTension in H. destruct (Rlt_dec DBL_EPSILON x); [|discriminate]. injection H as <-. reflexivity.
Qed.
(** Relations between the properties: EA is the Young modulus times the section, the density the linear density
    over the section, the section that of the disc; setters leave the independent properties alone *)
Theorem C47_consistent : forall c x, 0 < GetSectionArea c ->
  GetEA c = GetYoungModulus c * GetSectionArea c /\ GetLinearDensity c = GetDensity c * GetSectionArea c /\ GetSectionArea c = PI * (GetDiameter c / 2) ^ 2 /\
  (GetSectionArea (SetYoungModulus c x) = GetSectionArea c /\ GetLinearDensity (SetYoungModulus c x) = GetLinearDensity c) /\
  (GetYoungModulus (SetSectionArea c x) = GetYoungModulus c /\ GetLinearDensity (SetSectionArea c x) = GetLinearDensity c) /\
  (GetYoungModulus (SetDiameter c x) = GetYoungModulus c /\ GetLinearDensity (SetDiameter c x) = GetLinearDensity c) /\
  (GetSectionArea (SetEA c x) = GetSectionArea c /\ GetLinearDensity (SetEA c x) = GetLinearDensity c) /\
  (GetSectionArea (SetLinearDensity c x) = GetSectionArea c /\ GetYoungModulus (SetLinearDensity c x) = GetYoungModulus c) /\
  (GetSectionArea (SetDensity c x) = GetSectionArea c /\ GetYoungModulus (SetDensity c x) = GetYoungModulus c).
Proof.
  intros c x P. unfold GetSectionArea in P. repeat split; try reflexivity.
  - unfold GetDensity, GetLinearDensity, GetSectionArea. field. lra.
  - unfold GetDiameter, GetSectionArea. pose proof PI_RGT_0. assert (0 <= 4 * cp_section c / PI) by (apply Rmult_le_pos; [lra|left; apply Rinv_0_lt_compat; lra]).
    replace ((sqrt (4 * cp_section c / PI) / 2) ^ 2) with (sqrt (4 * cp_section c / PI) * sqrt (4 * cp_section c / PI) / 4) by field. rewrite sqrt_sqrt by assumption. field. lra.
Qed.
(** The class constructor stores its arguments ... *)
Theorem C47_constructor : forall d lam E, 0 <= d -> GetDiameter (new_props d lam E) = d /\ GetLinearDensity (new_props d lam E) = lam /\ GetYoungModulus (new_props d lam E) = E.
Proof. intros d lam E D. split; [apply (C47_read_back (CP (cp_section default_props) E lam (cp_break default_props))); exact D|]. split; reflexivity. Qed.
(** ... but make_cable_properties(diameter, linear density, Young modulus) stores them elsewhere: the diameter is
    read as linear density, the linear density as Young modulus and the Young modulus as diameter *)
Theorem C119_make_refuted : forall d lam E, 0 <= E ->
  let c := make_cable_properties d lam E in GetDiameter c = E /\ GetLinearDensity c = d /\ GetYoungModulus c = lam.
Proof. intros d lam E H c. split; [apply (C47_read_back (CP (cp_section default_props) lam d (cp_break default_props))); exact H|]. split; reflexivity. Qed.
Example C47_make_wrong : exists d lam E, 0 < d /\ 0 < lam /\ 0 < E /\ GetDiameter (make_cable_properties d lam E) <> d.
Proof. exists (1 / 10), 50, 1000000000. split; [lra|]. split; [lra|]. split; [lra|]. rewrite (proj1 (C119_make_refuted (1 / 10) 50 1000000000 ltac:(lra))). lra. Qed.

(** ** C66: the solver *)
(** What a successful solve has done: between one and itermax damped Newton corrections, ending either with the
    far end within the tolerance of its node or after itermax of them *)
Theorem C66_solve : forall fuel p0 pL l l', 0 < l_relax l <= 1 -> solve fuel p0 pL l = Ok l' ->
  exists n r, (1 <= n <= Nat.max 1 (l_itermax l))%nat /\ corrections p0 pL n l l' /\ get_residual p0 pL l' NWU = Ok r /\ (within (l_tol l) r \/ n = Nat.max 1 (l_itermax l)).
Proof. exact solve_cor. Qed.
Example C66_solve_meets : forall fuel, exists p0 pL l l', initialised fuel l /\ 0 < l_relax l <= 1 /\ solve fuel p0 pL l = Ok l'.
Proof.
  intros fuel. destruct (sample fuel true) as [l0 [RN [IN [LD [S [LP _]]]]]]. exists (V 0 0 0), (V 30 40 (-20)), (set_iter (set_relax l0 (1 / 10)) 1).
  pose proof (initialised_wf _ _ IN) as W. set (l := set_iter (set_relax l0 (1 / 10)) 1). assert (W' : wf l) by exact W. assert (LD' : loaded l) by exact LD.
  destruct (delta_def (V 0 0 0) (V 30 40 (-20)) l W' LD' S LP) as [d D].
  eexists. split; [|split; [cbn; lra|unfold solve; rewrite D; cbn [rbind]; cbv zeta; rewrite residual_val; [|apply set_t0_wf; exact W'|apply set_t0_loaded; exact LD']; cbn [rbind]; reflexivity]].
  destruct IN as [p [e [len [j1 [j2 [j3 [ops [I H]]]]]]]]. exists p, e, len, j1, j2, j3, (ops ++ [LSetRelax (1 / 10); LSetIter 1]). split; [rewrite existsb_app, I; reflexivity|]. rewrite run_app, H. reflexivity.
Qed.
(** The loop that reduces the relaxation factor ends as soon as the previous correction is not zero *)
Theorem C66_damping_ends : forall d t r, 0 < d -> 0 < r -> exists fuel r', damp fuel d t r = Ok r'.
Proof.
  intros d t r D P. destruct (Rle_lt_dec (r * t) d) as [H|H]. { exists 1%nat. apply (damp_ends d t D 0 r P). cbn. lra. }
  assert (0 < r * t / d) by (apply Rdiv_lt_0_compat; lra). destruct (Pow_x_infinity 2 ltac:(rewrite Rabs_pos_eq; lra) (r * t / d)) as [n N].
  specialize (N n (le_n n)). rewrite Rabs_pos_eq in N by (apply pow_le; lra). exists (S n). apply (damp_ends d t D n r P). apply Rge_le in N. apply Rmult_le_compat_l with (r := d) in N; [|lra]. replace (d * (r * t / d)) with (r * t) in N by (field; lra). exact N.
Qed.
(** Nodes that are not above one another: the first correction is always defined *)
Theorem C66_starts : forall p0 pL l, wf l -> loaded l -> slanted (minus3 pL p0) -> 0 < l_len l ->
  exists l1 d, guess_tension p0 pL l = Ok l1 /\ slanted (l_t0 l1) /\ newton_delta p0 pL l1 = Ok d.
Proof.
  intros p0 pL l W LD S LP. destruct (guess_slanted p0 pL l S (proj1 LD)) as [t [G T]]. destruct (delta_def p0 pL (set_t0 l t) (set_t0_wf _ _ W) (set_t0_loaded _ _ LD) T LP) as [d D]. exists (set_t0 l t), d. auto.
Qed.
(** At most one start tension that is not vertical brings the line to given nodes; for an elastic line two
    tensions differ by at most EA/L times the distance of the ends they produce *)
Theorem C66_unique : forall fuel l p0 pL t t' r r', initialised fuel l -> loaded l -> 0 < l_len l -> slanted t -> slanted t' ->
  get_residual p0 pL (with_tension l t) NWU = Ok r -> get_residual p0 pL (with_tension l t') NWU = Ok r' ->
  (r = r' -> t = t') /\ compliance l * l_len l * len3 (minus3 t t') <= len3 (minus3 r r').
Proof.
  intros fuel l p0 pL t t' r r' IN LD LP S S' E E'. pose proof (initialised_wf _ _ IN) as W. unfold with_tension in *. rewrite residual_val in E, E' by (apply set_t0_wf || apply set_t0_loaded; auto). cbn [convert] in E, E'. injection E as E. injection E' as E'. change (l_len (set_t0 l t)) with (l_len l) in E. change (l_len (set_t0 l t')) with (l_len l) in E'.
  destruct (gap_growth p0 l t t' (l_len l) W LD S S' LP) as [G1 G2].
  assert (GE : gap p0 l t t' (l_len l) = dot3 (minus3 t t') (minus3 r r')). { unfold gap. f_equal. rewrite <- E, <- E'. apply vec_eq; unfold minus3; cbn [vx vy vz]; ring. }
  rewrite GE in *. pose proof (compliance_nonneg l LD) as K. split.
  - intros RE. assert (Z : dot3 (minus3 t t') (minus3 r r') = 0) by (rewrite RE; unfold dot3, minus3; cbn [vx vy vz]; ring). rewrite Z in *.
    assert (NN : 0 <= compliance l * l_len l * dot3 (minus3 t t') (minus3 t t')). { apply Rmult_le_pos; [apply Rmult_le_pos; lra|]. unfold dot3. nra. }
    destruct (Classical_Prop.classic (t = t')) as [H|H]; [exact H|]. specialize (G2 H). lra.
  - pose proof (cauchy (minus3 t t') (minus3 r r')) as C. rewrite <- len3_sq in G1. pose proof (len3_nonneg (minus3 t t')) as N. destruct (Req_EM_T (len3 (minus3 t t')) 0) as [Z|Z]; [rewrite Z, Rmult_0_r; apply len3_nonneg|].
    apply Rmult_le_reg_r with (len3 (minus3 t t')); [lra|]. lra.
Qed.
(** Accuracy of a converged elastic line: its tension is within sqrt 3 . tolerance . EA / L of the exact one *)
Theorem C66_accuracy : forall fuel l p0 pL t r e, initialised fuel l -> loaded l -> 0 < l_len l -> l_elastic l = true -> slanted (l_t0 l) -> slanted t ->
  get_residual p0 pL l NWU = Ok r -> within e r -> get_residual p0 pL (with_tension l t) NWU = Ok origin ->
  len3 (minus3 (l_t0 l) t) <= sqrt 3 * e * GetEA (l_props l) / l_len l.
Proof.
  intros fuel l p0 pL t r e IN LD LP EL S S' E WI E'. assert (LT : with_tension l (l_t0 l) = l) by (destruct l; reflexivity). pose proof E as E2. rewrite <- LT in E2.
  destruct (C66_unique fuel l p0 pL (l_t0 l) t r origin IN LD LP S S' E2 E') as [_ H]. assert (RZ : minus3 r origin = r) by (apply vec_eq; unfold minus3, origin; cbn [vx vy vz]; ring). rewrite RZ in H. pose proof (within_len e r WI) as WL.
  unfold compliance in H. rewrite EL in H. pose proof (proj2 LD EL) as EA. set (x := len3 (minus3 (l_t0 l) t)) in *. clearbody x.
  assert (H2 : x <= sqrt 3 * e * (GetEA (l_props l) / l_len l)).
  { assert (A : x = / GetEA (l_props l) * l_len l * x * (GetEA (l_props l) / l_len l)) by (field; split; lra). rewrite A. apply Rmult_le_compat_r; [left; apply Rdiv_lt_0_compat; lra|lra]. }
  unfold Rdiv in *. lra.
Qed.
(** Non-convergence is silent.  An inelastic line shorter than the distance of its nodes cannot reach them: whatever
    Initialize or Compute returns, the far end misses the ending node; and Initialize does return *)
Theorem C132_short_refuted : forall fuel l p0 pL r e, initialised fuel l -> loaded l -> 0 <= l_len l -> l_elastic l = false ->
  get_residual p0 pL l NWU = Ok r -> within e r -> len3 (minus3 pL p0) - l_len l <= sqrt 3 * e.
Proof.
  intros fuel l p0 pL r e IN LD LP EL E WI. pose proof (initialised_wf _ _ IN) as W. rewrite residual_val in E by auto. injection E as <-. cbn [convert] in WI. apply within_len in WI. pose proof (reach p0 l W LD EL LP) as RE.
  set (p := posf p0 l (l_len l)) in *. clearbody p. pose proof (triangle (minus3 pL p) (minus3 p p0)) as TR.
  replace (plus3 (minus3 pL p) (minus3 p p0)) with (minus3 pL p0) in TR by (apply vec_eq; unfold plus3, minus3; cbn [vx vy vz]; ring).
  assert (SY : len3 (minus3 pL p) = len3 (minus3 p pL)) by (unfold len3; f_equal; unfold dot3, minus3; cbn [vx vy vz]; ring). lra.
Qed.
Theorem C132_silent_refuted : forall fuel, exists l p0 pL, line_run fuel (new_line default_props false 10 vzero vzero (M 0 0 0 0 0 0 0 0 0)) [LSetIter 1; LInit p0 pL (981 / 100) 1025] = Ok l /\
  exists r, get_residual p0 pL l NWU = Ok r /\ ~ within 40 r.
Proof.
  intros fuel. set (l0 := set_iter (new_line default_props false 10 vzero vzero (M 0 0 0 0 0 0 0 0 0)) 1).
  destruct (init_one fuel (V 0 0 0) (V 100 0 0) (981 / 100) 1025 l0) as [l [d [t [E [T [T0 [W [LD [LE EL]]]]]]]]].
  - left. cbn. lra.
  - cbn. lra.
  - cbn. discriminate.
  - cbn. lra.
  - cbn. lia.
  - exists l, (V 0 0 0), (V 100 0 0). assert (RN : line_run fuel (new_line default_props false 10 vzero vzero (M 0 0 0 0 0 0 0 0 0)) [LSetIter 1; LInit (V 0 0 0) (V 100 0 0) (981 / 100) 1025] = Ok l).
    { cbn [line_run line_step rbind]. fold l0. rewrite E. reflexivity. }
    split; [exact RN|]. eexists. split; [apply residual_val; auto|]. intros WI.
    assert (IN : initialised fuel l) by (exists default_props, false, 10, vzero, vzero, (M 0 0 0 0 0 0 0 0 0), [LSetIter 1; LInit (V 0 0 0) (V 100 0 0) (981 / 100) 1025]; split; [reflexivity|exact RN]).
    pose proof (C132_short_refuted fuel l (V 0 0 0) (V 100 0 0) _ 40 IN LD ltac:(rewrite LE; cbn; lra) EL (residual_val _ _ _ NWU W LD) WI) as H. rewrite LE in H. cbn [l0 set_iter new_line l_len] in H.
    assert (L100 : len3 (minus3 (V 100 0 0) (V 0 0 0)) = 100). { unfold len3. replace (dot3 _ _) with (Rsqr 100) by (unfold dot3, minus3, Rsqr; cbn [vx vy vz]; ring). apply sqrt_Rsqr. lra. } rewrite L100 in H.
    assert (S3 : sqrt 3 < 2). { apply Rlt_le_trans with (sqrt 4); [apply sqrt_lt_1_alt; lra|]. right. replace 4 with (Rsqr 2) by (unfold Rsqr; ring). apply sqrt_Rsqr. lra. } lra.
Qed.
(** An inelastic line hung straight down, of any length, cannot be initialised: the Newton matrix is singular *)
Theorem C132_vertical_refuted : forall fuel p0 pL g rhof l, vx pL = vx p0 -> vy pL = vy p0 -> vz pL < vz p0 -> 0 < (GetLinearDensity (l_props l) - GetSectionArea (l_props l) * rhof) * g -> 0 <= l_len l -> l_elastic l = false ->
  CInitialize fuel p0 pL g rhof l = Undef.
Proof. exact init_vertical. Qed.
Example C66_vertical_meets : let l := new_line default_props false 15 vzero vzero (M 0 0 0 0 0 0 0 0 0) in 0 < (GetLinearDensity (l_props l) - GetSectionArea (l_props l) * 1025) * (981 / 100) /\ 0 <= l_len l /\ l_elastic l = false.
Proof. cbn. lra. Qed.

(** ** C67: lengths *)
(** The unstrained length after any history: the last length set, plus what was paid out since *)
Theorem C67_paid_out : forall fuel l ops l', line_run fuel l ops = Ok l' -> l_len l' = paid_out (l_len l) (l_speed l) (l_time l) ops.
Proof. intros fuel l ops l'. apply run_len. Qed.
(** At constant speed, for steps above DBL_EPSILON, only the first and last time matter *)
Theorem C67_constant_speed : forall fuel l ops l' ts, DBL_EPSILON < Rabs (l_speed l) ->
  Forall2 (fun o t => exists p0 pL, o = LCompute p0 pL t) ops ts -> (forall i, (i < length ts)%nat -> DBL_EPSILON < Rabs (nth i ts 0 - nth i (l_time l :: ts) 0)) ->
  line_run fuel l ops = Ok l' -> l_len l' = l_len l + l_speed l * (last ts (l_time l) - l_time l).
Proof.
  intros fuel l ops l' ts SP F ST H. rewrite (run_len _ _ _ _ H). clear H l'. generalize (l_len l) as len. revert ST. generalize (l_time l) as t0. induction F as [|o t ops ts [p0 [pL ->]] F IH]; intros t0 ST len; cbn [paid_out].
  - cbn. ring.
  - rewrite IH.
    + assert (C1 : counts (l_speed l) = l_speed l) by (unfold counts; destruct (Rlt_dec _ _); [reflexivity|contradiction]).
      assert (C2 : counts (t - t0) = t - t0). { unfold counts. destruct (Rlt_dec _ _) as [_|N]; [reflexivity|]. exfalso. apply N. apply (ST 0%nat). cbn. lia. }
      rewrite C1, C2. assert (LS : last (t :: ts) t0 = last ts t). { clear. revert t t0. induction ts as [|x ts IH]; intros t t0; [reflexivity|]. change (last (t :: x :: ts) t0) with (last (x :: ts) t0). rewrite IH. symmetry. rewrite IH. reflexivity. } rewrite LS. ring.
    + intros i Hi. apply (ST (S i)). cbn. lia.
Qed.
Example C67_constant_meets : DBL_EPSILON < Rabs (l_speed (set_speed (new_line default_props true 100 vzero vzero (M 0 0 0 0 0 0 0 0 0)) 2)) /\
  forall i, (i < length [1; 2; 3])%nat -> DBL_EPSILON < Rabs (nth i [1; 2; 3] 0 - nth i (0 :: [1; 2; 3]) 0).
Proof. unfold DBL_EPSILON. split; [cbn; rewrite Rabs_pos_eq; lra|]. intros [|[|[|i]]] H; cbn; try (rewrite Rabs_pos_eq; lra). cbn in H. lia. Qed.
(** The clock of a line starts at zero: a line added to a running simulation pays out, at its first update, for
    the whole time elapsed before it existed *)
Theorem C133_late_refuted : forall fuel props e len j1 j2 j3 p0 pL g rhof v t l', DBL_EPSILON < Rabs v -> DBL_EPSILON < Rabs t ->
  line_run fuel (new_line props e len j1 j2 j3) [LInit p0 pL g rhof; LSetSpeed v; LCompute p0 pL t] = Ok l' -> l_len l' = len + v * t.
Proof.
  intros fuel props e len j1 j2 j3 p0 pL g rhof v t l' V T H. rewrite (run_len _ _ _ _ H). cbn [paid_out new_line l_len l_speed l_time]. unfold counts. destruct (Rlt_dec DBL_EPSILON (Rabs v)); [|contradiction]. replace (t - 0) with t by ring. destruct (Rlt_dec DBL_EPSILON (Rabs t)); [|contradiction]. reflexivity.
Qed.
(** The strained length reported: at least the distance of the ends, at most the arc length (integral of the
    stretch), and short of it by a small fraction only, for a line of which the tension is not vertical *)
Theorem C67_strained : forall fuel l p0, initialised fuel l -> loaded l -> slanted (l_t0 l) -> 0 <= l_len l ->
  exists pL r, GetNodePositionInWorld p0 l (l_len l) NWU = Ok pL /\ GetStrainedLength p0 l = Ok r /\
    let arc := RInt (fun s => 1 + compliance l * len3 (GetTension l s NWU)) 0 (l_len l) in
    let w := weight l * (l_len l / 999) in let h2 := vx (l_t0 l) * vx (l_t0 l) + vy (l_t0 l) * vy (l_t0 l) in
    len3 (minus3 pL p0) <= r <= arc /\ (1 - w * w / (2 * h2)) * arc <= r.
Proof.
  intros fuel l p0 IN LD S LP. pose proof (initialised_wf _ _ IN) as W. destruct (strained_bounds p0 l W LD S LP) as [r [E B]]. exists (posf p0 l (l_len l)), r. split; [apply (pos_val p0 l _ NWU); auto|]. split; [exact E|]. exact B.
Qed.

(** ** C68: the forces on the bodies *)
(** One force on each of the two bodies once the line is initialised, however often that is done *)
Theorem C68_one_force_each : forall fuel l, initialised fuel l -> l_ns l = 1%nat /\ l_ne l = 1%nat.
Proof.
  intros fuel l [p [e [len [j1 [j2 [j3 [ops [I H]]]]]]]]. destruct (run_forces _ _ _ _ H) as [_ A]. rewrite I in A. apply A. split; reflexivity.
Qed.
(** The force is the end tension of the line, applied at the node: every reading of it on the body agrees *)
Theorem C68_applied : forall l sd b i m f0, reachable b -> nth_error (b_marks b) i = Some m ->
  reads_as b (CatForceCompute l sd b m f0)
    (W (match sd with LINE_START => GetStartingNodeTension l NWU | LINE_END => GetEndingNodeTension l NWU end) origin (NGetPositionInWorld m NWU)).
Proof.
  intros l sd b i m f0 R N. destruct (C22_every_state_is_a_wrench b f0 R) as [w WR]. unfold CatForceCompute. cbv zeta. set (F := match sd with LINE_START => _ | LINE_END => _ end). clearbody F.
  pose proof (C22_wrench b [FOBothWorldPtBody F vzero (NGetPositionInBody b m NWU) NWU] f0 w R WR) as H. unfold BodyProofs4.force_run in H. cbn in H.
  destruct (C17_attached b i m R N) as [A _]. specialize (A origin). 
  assert (AP : forall f, act f origin = fpos f). { intros f. unfold act, quat_action, origin, plus3, scal3, cross3. cbn [vx vy vz]. apply vec_eq; cbn [vx vy vz]; ring. }
  rewrite !AP in A. unfold NGetPositionInWorld, NGetPositionInBody, GetPosition, swap_if in *. cbn [IsNED] in *. rewrite A. exact H.
Qed.
(** Both ends together: the sum of the two forces is the submerged weight, their moments about any point that of the
    distributed weight, when the far end is at the ending node *)
Theorem C68_third_law : forall fuel l p0 pL P, initialised fuel l -> loaded l -> slanted (l_t0 l) -> get_residual p0 pL l NWU = Ok origin ->
  exists pos, (forall s, GetNodePositionInWorld p0 l s NWU = Ok (pos s)) /\ pos 0 = p0 /\ pos (l_len l) = pL /\
    integral3 (fun s => cross3 (minus3 (pos s) P) (V 0 0 (- weight l))) 0 (l_len l)
      (plus3 (cross3 (minus3 p0 P) (GetStartingNodeTension l NWU)) (cross3 (minus3 pL P) (GetEndingNodeTension l NWU))).
Proof.
  intros fuel l p0 pL P IN LD S E. pose proof (initialised_wf _ _ IN) as W. rewrite residual_val in E by auto.
  assert (PQ : posf p0 l (l_len l) = pL).
  { revert E. generalize (posf p0 l (l_len l)). intros [x y z]. destruct pL as [a b c]. unfold minus3, origin, convert. cbn [vx vy vz]. intros E. inversion E. apply vec_eq; cbn [vx vy vz]; lra. }
  exists (posf p0 l). split; [intros; apply (pos_val p0 l s NWU); auto|]. split; [apply pos_0|]. split; [exact PQ|]. rewrite <- PQ. apply moment_int; auto.
Qed.
Example C68_third_meets : forall fuel, exists l p0 pL, initialised fuel l /\ loaded l /\ slanted (l_t0 l) /\ get_residual p0 pL l NWU = Ok origin.
Proof.
  intros fuel. destruct (sample_holds fuel true) as [l [I [LD [S _]]]]. pose proof (initialised_wf _ _ I) as W. exists l, origin, (posf origin l (l_len l)). repeat (split; [assumption|]).
  rewrite residual_val by auto. generalize (posf origin l (l_len l)). intros [x y z]. unfold minus3, origin, convert. cbn [vx vy vz]. f_equal. apply vec_eq; cbn [vx vy vz]; ring.
Qed.
