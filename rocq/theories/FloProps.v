(** Flow fields and the forces that depend on them: C69 (flow), C70 (damping), C71 (manoeuvring), C72 (standard wind
    and current forces), C73 (polar tables), C74 (polar forces). *)
From Coq Require Import Reals List Bool Lra Psatz Lia ZArith Ascii String.
From Verif Require Import WavModel SeaModel FloModel WavProofs3 GeoModel GeoSpec GeoProofs GeoProofs2 BodyModel BodySpec BodyProofs BodyProofs2 BodyProofs3 BodyProofs4 BodyProps FloSpec FloProofs FloProofs2 FloProofs3 FloProofs4 FloProofs5 FloProofs6.
Import ListNotations.
Open Scope R_scope.
Local Notation turn := BodySpec.turn.
Local Notation congruent := FloSpec.congruent.

(** ** C69: what the flow is *)
(** A velocity given by its components, in either convention, as going to or coming from *)
Theorem C69_vector : forall v fc dc fc' w, GetFluxVelocityInWorld (flow_step (WSet (FSetVector v fc dc)) w) fc' = scal3 (w_ramp w) (convert fc' (goes_to dc (convert fc v))).
Proof.
  intros. rewrite flux_eq. cbn [flow_step]. unfold flow_velocity. cbn [w_ramp w_field]. rewrite set_vector. destruct fc'; apply vec_eq; unfold convert, scal3; cbn [vx vy vz]; ring.
Qed.
(** ... by an angle from north and a speed: in NED the angle turns towards east, in NWU towards west *)
Theorem C69_angle : forall a m unit u fc dc fc' w, GetFluxVelocityInWorld (flow_step (WSet (FSetAngle a m unit u fc dc)) w) fc' =
  scal3 (w_ramp w) (convert fc' (goes_to dc (convert fc (scal3 (m * u) (V (cos (radians unit a)) (sin (radians unit a)) 0))))).
Proof.
  intros. rewrite flux_eq. cbn [flow_step]. unfold flow_velocity. cbn [w_ramp w_field]. rewrite set_angle. generalize (radians unit a). intros x. destruct fc', fc, dc; apply vec_eq; unfold convert, goes_to, opp3, scal3; cbn [vx vy vz]; ring.
Qed.
(** ... by a compass point: east is 90 degrees in NED *)
Theorem C69_compass : forall c m u dc, FSetCompass c m u dc = goes_to dc (convert NED (scal3 (m * u) (V (cos (bearing c * PI / 180)) (sin (bearing c * PI / 180)) 0))).
Proof.
  intros. rewrite set_compass, set_angle. change (radians DEG (bearing c)) with (bearing c * PI / 180). generalize (bearing c * PI / 180). intros x. destruct dc; apply vec_eq; unfold convert, goes_to, opp3, scal3; cbn [vx vy vz]; ring.
Qed.
Theorem C69_speed : forall a m unit u fc dc, length3 (FSetAngle a m unit u fc dc) = Rabs (m * u).
Proof.
  intros. rewrite set_angle. unfold length3. rewrite <- sqrt_Rsqr_abs. f_equal. set (x := radians unit a). pose proof (sin2_cos2 x) as S2. unfold Rsqr in *. set (c := cos x) in *. set (s := sin x) in *. clearbody c s. clear x.
  transitivity ((s * s + c * c) * (m * u * (m * u))); [|rewrite S2; ring]. destruct fc, dc; unfold goes_to, opp3, scal3, dot3, convert; cbn [vx vy vz]; ring.
Qed.
Example C69_wind_from_west : FSetCompass CWest 10 1 COMEFROM = V 0 (-10) 0.
Proof. apply vec_eq; unfold FSetCompass, vneg, vscale, compass_dir, swap_if; cbn; ring. Qed.
(** The ramp: after any history, the flow is the field last set, times the value of the ramp at the time of the
    last update before the last end of step *)
Theorem C69_ramp : forall before t between ramp after fc,
  existsb is_update between = false -> existsb sets_ramp after = false ->
  let w := flow_run (before ++ [WUpdate t] ++ between ++ [WStepFinalize ramp] ++ after) new_flow in
  GetFluxVelocityInWorld w fc = scal3 (match ramp with Some y => y t | None => 1 end) (convert fc (field_after (before ++ between ++ after) origin)).
Proof.
  intros before t between ramp after fc NU NR. cbv zeta. rewrite flux_eq. unfold flow_velocity. rewrite run_field. rewrite !run_app. rewrite (run_ramp after) by exact NR.
  set (w1 := flow_run before new_flow). change (flow_run [WUpdate t] w1) with (Flow (w_field w1) t (w_ramp w1)). set (w2 := flow_run between (Flow (w_field w1) t (w_ramp w1))).
  change (flow_run [WStepFinalize ramp] w2) with (Flow (w_field w2) (w_time w2) (ramp_value ramp (w_time w2))). cbn [w_ramp]. assert (T : w_time w2 = t) by (unfold w2; rewrite run_time by exact NU; reflexivity). rewrite T.
  assert (FA : forall l1 l2 v, field_after (l1 ++ l2) v = field_after l2 (field_after l1 v)) by (induction l1 as [|o l IH]; intros; [reflexivity|destruct o; apply IH]). rewrite !FA. cbn [field_after]. change (w_field new_flow) with origin.
  unfold ramp_value. destruct fc; apply vec_eq; unfold convert, scal3; cbn [vx vy vz]; ring.
Qed.
Example C69_ramp_case : let w := flow_run [WSet (V 4 0 0); WInitialize (Some (fun t => t / 10)); WUpdate 5; WStepFinalize (Some (fun t => t / 10))] new_flow in GetFluxVelocityInWorld w NWU = V 2 0 0.
Proof. cbv zeta. rewrite flux_eq. apply vec_eq; cbn; lra. Qed.
(** Before any ramp has been read the flow is the field *)
Theorem C69_no_ramp : forall ops fc, existsb sets_ramp ops = false -> GetFluxVelocityInWorld (flow_run ops new_flow) fc = convert fc (field_after ops origin).
Proof.
  intros ops fc H. rewrite flux_eq. unfold flow_velocity. rewrite (run_ramp ops _ H), run_field. change (w_field new_flow) with origin. destruct fc; apply vec_eq; unfold convert, scal3; cbn [w_ramp new_flow vx vy vz]; ring.
Qed.
(** The velocity of the flow relative to a point that moves at v, in the axes of a frame *)
Theorem C69_relative : forall w f v, unitq (frot f) -> quat_action (frot f) (GetRelativeVelocityInFrame w f v NWU) = minus3 (flow_velocity w) v.
Proof. intros w f v U. rewrite <- qrotate_action by exact U. apply (rel_eq w f v NWU U). Qed.
(** In NED the argument is read in NED but the answer has NWU components: it is not the NED form of the answer *)
Theorem C134_relative_ned_partial : forall w f v, unitq (frot f) -> GetRelativeVelocityInFrame w f v NED = GetRelativeVelocityInFrame w f (convert NED v) NWU.
Proof.
  intros w f v U. pose proof (rel_eq w f v NED U) as A. pose proof (rel_eq w f (convert NED v) NWU U) as B. cbn [convert] in A, B. rewrite <- B in A.
  rewrite <- (qrotate_conj_l (frot f) (GetRelativeVelocityInFrame w f v NED)) by exact U. rewrite A. apply qrotate_conj_l. exact U.
Qed.
Theorem C134_relative_ned_refuted : exists w f v, unitq (frot f) /\ GetRelativeVelocityInFrame w f v NED <> convert NED (GetRelativeVelocityInFrame w f (convert NED v) NWU).
Proof.
  exists (flow_run [WSet (V 0 1 0)] new_flow), fident, origin. split; [exact unitq_one|]. rewrite (C134_relative_ned_partial _ fident origin unitq_one). set (a := GetRelativeVelocityInFrame _ _ _ _). assert (A : a = V 0 1 0).
  { pose proof (rel_eq (flow_run [WSet (V 0 1 0)] new_flow) fident (convert NED origin) NWU unitq_one) as H. fold a in H. cbn [fident frot] in H. rewrite qone_id in H. rewrite H. apply vec_eq; cbn; ring. }
  rewrite A. intros E. apply (f_equal vy) in E. cbn in E. lra.
Qed.
(** Air above the free surface, water below, in both conventions (the surface itself counts as air, within rounding) *)
Theorem C69_fluid : forall z p,
  (GetFluidType z p NWU = AIR <-> z - DBL_EPSILON < vz p) /\ GetFluidType (- z) (convert NED p) NED = GetFluidType z p NWU.
Proof.
  intros z p. unfold GetFluidType. cbn [IsNED convert vz]. split; [destruct (Rlt_dec _ _); split; intros; try assumption; try reflexivity; try discriminate; contradiction|].
  destruct (Rlt_dec (- vz p) (- z + DBL_EPSILON)), (Rlt_dec (z - DBL_EPSILON) (vz p)); try reflexivity; exfalso; lra.
Qed.

(** ** C70: damping *)
(** The coefficients are the last ones given *)
Theorem C70_coefficients : forall l Du Dv Dw Dp Dq Dr, exists l', lin_run [LSetDiagonal Du Dv Dw Dp Dq Dr] l = Ok l' /\
  (forall i j, i <> j -> ld_mat l' i j = ld_mat l i j) /\
  map (fun i => ld_mat l' i i) [0; 1; 2; 3; 4; 5]%nat = [Du; Dv; Dw; Dp; Dq; Dr] /\ ld_relative l' = ld_relative l.
Proof.
  intros. eexists. split; [reflexivity|]. cbn [ld_mat ld_relative]. split; [|split; reflexivity]. intros i j NE. unfold set_rotation, set_translation, upd6.
  repeat match goal with |- context [Nat.eqb i ?a] => destruct (Nat.eqb_spec i a); subst end; cbn [andb]; try reflexivity;
  repeat match goal with |- context [Nat.eqb j ?a] => destruct (Nat.eqb_spec j a); subst end; cbn [andb]; try reflexivity; congruence.
Qed.
Theorem C70_coefficient : forall l i j c, (i < 6)%nat -> (j < 6)%nat -> exists l', lin_run [LSetCoeff i j c] l = Ok l' /\
  ld_mat l' i j = c /\ forall i' j', (i', j') <> (i, j) -> ld_mat l' i' j' = ld_mat l i' j'.
Proof.
  intros l i j c I J. cbn [lin_run lin_step]. replace (Nat.ltb i 6 && Nat.ltb j 6)%bool with true by (symmetry; apply andb_true_iff; split; apply Nat.ltb_lt; assumption). cbn [rbind]. eexists. split; [reflexivity|]. cbn [ld_mat]. unfold upd6. rewrite !Nat.eqb_refl. split; [reflexivity|].
  intros i' j' NE. destruct (Nat.eqb_spec i' i); [|reflexivity]. destruct (Nat.eqb_spec j' j); [subst; congruence|reflexivity].
Qed.
(** Linear damping: minus the matrix times the generalized velocity of the centre of gravity, through the fluid when
    asked; the power it gives to the body is minus the quadratic form of the matrix *)
Theorem C70_linear : forall e b l s, reachable b ->
  exists v w f t, turn (body_map b) v = velocity_through e b (ld_relative l) (ld_fluid l) /\ turn (body_map b) w = BGetAngularVelocityInWorld b NWU /\
    (forall i, (i < 6)%nat -> nth i (coord6 f t) 0 = - sum_list (map (fun j => ld_mat l i j * nth j (coord6 v w) 0) [0; 1; 2; 3; 4; 5]%nat)) /\
    let wr := W (turn (body_map b) f) (turn (body_map b) t) (GetCOGPositionInWorld b NWU) in
    reads_as b (lin_compute e b l s) wr /\
    power wr (GetCOGPositionInWorld b NWU) (velocity_through e b (ld_relative l) (ld_fluid l)) (BGetAngularVelocityInWorld b NWU) = - form6 (ld_mat l) (fun i => nth i (coord6 v w) 0).
Proof.
  intros e b l s RB. pose proof (facts b RB) as BF. pose proof (lin_reads e b l s RB) as H. cbv zeta in H. set (v := cog_rel_vel e b (ld_relative l) (ld_fluid l)) in *. set (w := BGetAngularVelocityInBody b NWU) in *. set (d := ld_mat l) in *.
  exists v, w, (V (row6 d 0 v w) (row6 d 1 v w) (row6 d 2 v w)), (V (row6 d 3 v w) (row6 d 4 v w) (row6 d 5 v w)).
  pose proof (rel_vel_world e b (ld_relative l) (ld_fluid l) BF) as VE. pose proof (ang_world b BF) as WE. fold v in VE. fold w in WE.
  split; [exact VE|]. split; [exact WE|]. split.
  - intros i I. assert (X : nth i (coord6 (V (row6 d 0 v w) (row6 d 1 v w) (row6 d 2 v w)) (V (row6 d 3 v w) (row6 d 4 v w) (row6 d 5 v w))) 0 = row6 d i v w) by (do 6 (destruct i as [|i]; [reflexivity|]); lia). rewrite X, row6_val. cbn [map sum_list coord6 nth]. ring.
  - cbv zeta. split; [exact H|]. unfold power, moment_of. cbn [w_force w_moment w_point]. rewrite <- VE, <- WE.
    assert (Z : forall a f G, plus3 a (cross3 (minus3 G G) f) = a) by (intros; apply vec_eq; unfold plus3, cross3, minus3; cbn [vx vy vz]; ring). rewrite Z, !turn_dot by exact BF.
    replace (form6 d (fun i => nth i (coord6 v w) 0)) with (form6 d (gen6 v w)) by (unfold form6; cbn [map sum_list coord6 nth gen6]; ring). rewrite form6_val. ring.
Qed.
(** Hence, with a positive semidefinite matrix, damping relative to the ground takes energy from the body, and damping
    relative to the fluid opposes the motion through the fluid *)
Theorem C70_dissipates : forall e b l s, reachable b -> psd6 (ld_mat l) ->
  exists wr, reads_as b (lin_compute e b l s) wr /\
    power wr (GetCOGPositionInWorld b NWU) (velocity_through e b (ld_relative l) (ld_fluid l)) (BGetAngularVelocityInWorld b NWU) <= 0.
Proof.
  intros e b l s RB PSD. destruct (C70_linear e b l s RB) as (v & w & f & t & _ & _ & _ & H). cbv zeta in H. destruct H as [A B]. eexists. split; [exact A|]. rewrite B. specialize (PSD (fun i => nth i (coord6 v w) 0)). lra.
Qed.
(** A body that drifts with the fluid, without turning, feels nothing *)
Theorem C70_drift : forall e b l s, reachable b -> velocity_through e b (ld_relative l) (ld_fluid l) = origin -> BGetAngularVelocityInWorld b NWU = origin ->
  reads_as b (lin_compute e b l s) (W origin origin (GetCOGPositionInWorld b NWU)).
Proof.
  intros e b l s RB VZ WZ. pose proof (facts b RB) as BF. pose proof (lin_reads e b l s RB) as H. cbv zeta in H.
  assert (Q0 : qrotate (GetQuaternion b) origin = origin). { pose proof (qrotate_minus (GetQuaternion b) origin origin) as X. replace (minus3 origin origin) with origin in X by (apply vec_eq; unfold minus3, origin; cbn [vx vy vz]; ring). rewrite X. apply vec_eq; unfold minus3, origin; cbn [vx vy vz]; ring. }
  assert (INJ : forall x, turn (body_map b) x = origin -> x = origin). { intros x E. rewrite (bf_turn b BF) in E. rewrite <- (qrotate_conj_l _ x (bf_q b BF)), E. pose proof (qrotate_minus (qconj (GetQuaternion b)) origin origin) as X. replace (minus3 origin origin) with origin in X by (apply vec_eq; unfold minus3, origin; cbn [vx vy vz]; ring). rewrite X. apply vec_eq; unfold minus3, origin; cbn [vx vy vz]; ring. }
  assert (V0 := rel_vel_world e b (ld_relative l) (ld_fluid l) BF). rewrite VZ in V0. apply INJ in V0. assert (W0 := ang_world b BF). rewrite WZ in W0. apply INJ in W0. rewrite V0, W0 in H.
  assert (T0 : turn (body_map b) origin = origin) by (rewrite (bf_turn b BF); exact Q0).
  set (f := V (row6 _ 0 _ _) _ _) in H. set (t := V (row6 _ 3 _ _) _ _) in H. assert (F0 : f = origin) by (unfold f; rewrite !row6_val; apply vec_eq; unfold origin; cbn [vx vy vz]; ring). assert (T1 : t = origin) by (unfold t; rewrite !row6_val; apply vec_eq; unfold origin; cbn [vx vy vz]; ring). rewrite F0, T1, T0 in H. exact H.
Qed.
(** Initialize accepts exactly the matrices without negative coefficient *)
Theorem C135_check_partial : forall l, (lin_check l = Ok l \/ lin_check l = Throws) /\ (lin_check l = Ok l <-> forall i j, (i < 6)%nat -> (j < 6)%nat -> 0 <= ld_mat l i j).
Proof. intros l. split; [apply check_cases|apply check_ok]. Qed.
(** ... which is not the matrices that dissipate: one that gives energy to the body is accepted, one that takes
    energy from any motion is refused *)
Definition coupled (a c : R) : mat6 := fun i j => match i, j with 0%nat, 0%nat | 1%nat, 1%nat => a | 0%nat, 1%nat | 1%nat, 0%nat => c | 2%nat, 2%nat | 3%nat, 3%nat | 4%nat, 4%nat | 5%nat, 5%nat => 1 | _, _ => 0 end.
Theorem C135_check_refuted :
  (exists l, lin_check l = Ok l /\ ~ psd6 (ld_mat l)) /\ (exists l, lin_check l = Throws /\ psd6 (ld_mat l)).
Proof.
  split.
  - exists (LD (coupled 1 2) false WATER). split; [apply check_ok; intros i j _ _; cbn; do 6 (destruct i as [|i]; [do 6 (destruct j as [|j]; [cbn; lra|]); cbn; lra|]); destruct j as [|[|]]; cbn; lra|].
    intros P. specialize (P (fun i => match i with 0%nat => 1 | 1%nat => -1 | _ => 0 end)). unfold form6 in P. cbn in P. lra.
  - exists (LD (coupled 2 (-1)) false WATER). split.
    + destruct (check_cases (LD (coupled 2 (-1)) false WATER)) as [H|H]; [|exact H]. exfalso. pose proof (proj1 (check_ok _) H) as H2. specialize (H2 0%nat 1%nat ltac:(lia) ltac:(lia)). cbn in H2. lra.
    + intros x. unfold form6. cbn [map sum_list ld_mat coupled]. nra.
Qed.
Example C70_case : let b := moving qone origin (V 2 0 0) origin in let e := Env (flow_run [WSet (V 2 0 0)] new_flow) new_flow 1000 1 (1 / 1000000) in
  reachable b /\ psd6 (coupled 2 (-1)) /\ velocity_through e b false WATER = V 2 0 0 /\ velocity_through e b true WATER = origin /\ BGetAngularVelocityInWorld b NWU = origin.
Proof.
  cbv zeta. destruct (moving_one origin (V 2 0 0) origin) as (RB & _ & _ & _ & _ & _ & VC & _ & AW & _). split; [exact RB|]. split; [intros x; unfold form6; cbn [map sum_list coupled]; nra|].
  unfold velocity_through. rewrite VC. split; [|split; [|exact AW]]; apply vec_eq; cbn; ring.
Qed.
(** Quadratic damping: each axis of the body opposes its own velocity; no moment is added *)
Theorem C70_quadratic : forall e b q s w0, reachable b -> reads_as b s w0 ->
  exists v, turn (body_map b) v = velocity_through e b (qd_relative q) (qd_fluid q) /\
    let rho := match qd_fluid q with WATER => e_rho_water e | AIR => e_rho_air e end in
    let F := turn (body_map b) (V (- (1 / 2) * rho * vx (qd_S q) * vx (qd_C q) * vx v * Rabs (vx v))
                                  (- (1 / 2) * rho * vy (qd_S q) * vy (qd_C q) * vy v * Rabs (vy v))
                                  (- (1 / 2) * rho * vz (qd_S q) * vz (qd_C q) * vz v * Rabs (vz v))) in
    reads_as b (quad_compute e b q s) (W F (moment_of w0 (GetCOGPositionInWorld b NWU)) (GetCOGPositionInWorld b NWU)) /\
    (0 <= rho -> 0 <= vx (qd_S q) * vx (qd_C q) -> 0 <= vy (qd_S q) * vy (qd_C q) -> 0 <= vz (qd_S q) * vz (qd_C q) ->
     dot3 F (velocity_through e b (qd_relative q) (qd_fluid q)) <= 0).
Proof.
  intros e b q s w0 RB RD. pose proof (facts b RB) as BF. set (v := cog_rel_vel e b (qd_relative q) (qd_fluid q)). pose proof (rel_vel_world e b (qd_relative q) (qd_fluid q) BF) as VE. fold v in VE. exists v. split; [exact VE|]. cbv zeta.
  set (rho := match qd_fluid q with WATER => _ | AIR => _ end). set (f := V (- (1 / 2) * rho * _ * _ * _ * _) _ _). split.
  - pose proof (force_sequence b [FOForceBody f NWU] s w0 RB RD) as H. cbn [force_run force_step forces_mean force_means convert] in H. exact H.
  - intros RP A B C. rewrite <- VE, turn_dot by exact BF. unfold f, dot3. cbn [vx vy vz]. pose proof (abs_cube (vx v)) as X. pose proof (abs_cube (vy v)) as Y. pose proof (abs_cube (vz v)) as Z.
    pose proof (pow_le (Rabs (vx v)) 3 (Rabs_pos _)) as PX. pose proof (pow_le (Rabs (vy v)) 3 (Rabs_pos _)) as PY. pose proof (pow_le (Rabs (vz v)) 3 (Rabs_pos _)) as PZ. rewrite <- X in PX. rewrite <- Y in PY. rewrite <- Z in PZ. clear X Y Z VE.
    set (rx := vx v * (vx v * Rabs (vx v))) in *. set (ry := vy v * (vy v * Rabs (vy v))) in *. set (rz := vz v * (vz v * Rabs (vz v))) in *. set (sx := vx (qd_S q) * vx (qd_C q)) in *. set (sy := vy (qd_S q) * vy (qd_C q)) in *. set (sz := vz (qd_S q) * vz (qd_C q)) in *.
    replace (_ + _ + _) with (- (1 / 2) * (rho * (sx * rx) + rho * (sy * ry) + rho * (sz * rz))) by (unfold rx, ry, rz, sx, sy, sz; ring). clearbody rho rx ry rz sx sy sz.
    pose proof (Rmult_le_pos _ _ RP (Rmult_le_pos _ _ A PX)). pose proof (Rmult_le_pos _ _ RP (Rmult_le_pos _ _ B PY)). pose proof (Rmult_le_pos _ _ RP (Rmult_le_pos _ _ C PZ)). lra.
Qed.
(** ITTC resistance: along the axis of the body, against the forward velocity u of the centre of gravity, with the
    ITTC 1957 friction line Cf (log10 Re - 2)^2 = 0.075 *)
Theorem C70_resistance : forall e b i s w0, reachable b -> reads_as b s w0 ->
  let u := vx (GetCOGVelocityInBody b NWU) in let Re := Rabs u * it_Lpp i / e_nu_water e in
  0 < Re -> Re <> 100 -> exists s' Cf, ittc_compute e b i s = Ok s' /\ Cf * (ln Re / ln 10 - 2) ^ 2 = 75 / 1000 /\
    let Ct := (1 + it_k i) * Cf + it_cr i + it_ca i + it_caa i + it_capp i in
    let F := turn (body_map b) (V (- (1 / 2) * e_rho_water e * it_hull i * Ct * u * Rabs u) 0 0) in
    reads_as b s' (W F (moment_of w0 (GetCOGPositionInWorld b NWU)) (GetCOGPositionInWorld b NWU)) /\
    (0 <= e_rho_water e -> 0 <= it_hull i -> 0 <= Ct -> dot3 F (GetCOGLinearVelocityInWorld b NWU) <= 0).
Proof.
  intros e b i s w0 RB RD. cbv zeta. set (u := vx (GetCOGVelocityInBody b NWU)). set (Re := Rabs u * it_Lpp i / e_nu_water e). intros RP RN. pose proof (facts b RB) as BF.
  assert (L10 : 0 < ln 10) by (rewrite <- ln_1; apply ln_increasing; lra).
  assert (DN : (ln Re / ln 10 - 2) ^ 2 <> 0). { intros E. apply RN. assert (E2 : ln Re / ln 10 - 2 = 0) by nra. assert (E3 : ln Re = ln 100). { replace 100 with (10 * 10) by ring. rewrite ln_mult by lra. apply Rmult_eq_reg_r with (/ ln 10); [|apply Rinv_neq_0_compat; lra]. replace ((ln 10 + ln 10) * / ln 10) with 2 by (field; lra). unfold Rdiv in E2. lra. } apply ln_inv; lra. }
  assert (CF : ittc_Cf Re = Ok (75 / 1000 / (ln Re / ln 10 - 2) ^ 2)). { unfold ittc_Cf. destruct (Req_EM_T Re 0); [lra|]. cbv zeta. destruct (Req_EM_T _ 0); [contradiction|reflexivity]. }
  set (Cf := 75 / 1000 / (ln Re / ln 10 - 2) ^ 2) in *. unfold ittc_compute. cbv zeta. fold u. change (GetReynoldsNumberInWater e (it_Lpp i) u) with Re. rewrite CF. cbn [rbind]. eexists. exists Cf. split; [reflexivity|]. split; [unfold Cf; generalize dependent ((ln Re / ln 10 - 2) ^ 2); intros dd DD; intros; field; exact DD|].
  set (Ct := (1 + it_k i) * Cf + it_cr i + it_ca i + it_caa i + it_capp i). clearbody Ct. set (f := V _ 0 0). split.
  - pose proof (force_sequence b [FOForceBody f NWU] s w0 RB RD) as H. cbn [force_run force_step forces_mean force_means convert] in H. exact H.
  - intros A B C. pose proof (rel_vel_world e b false WATER BF) as VE. cbn [velocity_through cog_rel_vel] in VE. unfold velocity_through in VE. rewrite <- VE, turn_dot by exact BF. unfold f, dot3. cbn [vx vy vz]. fold u.
    pose proof (abs_cube u) as X. pose proof (pow_le (Rabs u) 3 (Rabs_pos _)) as PX. rewrite <- X in PX. clear X VE RP RN CF DN. set (ru := u * (u * Rabs u)) in *. match goal with |- ?t <= 0 => replace t with (- (1 / 2) * (e_rho_water e * it_hull i * Ct * ru)) by (unfold ru; ring) end. clearbody ru.
    pose proof (Rmult_le_pos _ _ (Rmult_le_pos _ _ (Rmult_le_pos _ _ A B) C) PX). lra.
Qed.
Theorem C70_resistance_at_rest : forall e b i s w0, reachable b -> reads_as b s w0 -> vx (GetCOGVelocityInBody b NWU) = 0 ->
  exists s', ittc_compute e b i s = Ok s' /\ reads_as b s' (W origin (moment_of w0 (GetCOGPositionInWorld b NWU)) (GetCOGPositionInWorld b NWU)).
Proof.
  intros e b i s w0 RB RD U. pose proof (facts b RB) as BF. unfold ittc_compute. cbv zeta. rewrite U. unfold GetReynoldsNumberInWater. rewrite Rabs_R0. replace (0 * it_Lpp i / e_nu_water e) with 0 by (unfold Rdiv; ring). unfold ittc_Cf. destruct (Req_EM_T 0 0); [|congruence]. cbn [rbind]. eexists. split; [reflexivity|].
  match goal with |- reads_as b (SetForceInBody b s ?f NWU) _ => assert (FZ : f = origin) by (apply vec_eq; unfold origin; cbn [vx vy vz]; ring); rewrite FZ end.
  pose proof (force_sequence b [FOForceBody origin NWU] s w0 RB RD) as H. cbn [force_run force_step forces_mean force_means convert] in H. assert (T0 : turn (body_map b) origin = origin).
  { unfold BodySpec.turn. apply vec_eq; unfold minus3, origin; cbn [vx vy vz]; ring. } rewrite T0 in H. exact H.
Qed.
(** At Reynolds number 100 the friction line divides by zero: no force *)
Theorem C135_resistance_refuted : exists e b i s, reachable b /\ 0 < e_nu_water e /\ 0 < it_Lpp i /\ ittc_compute e b i s = Undef.
Proof.
  destruct (moving_one origin (V 1 0 0) origin) as (RB & _ & _ & _ & _ & _ & _ & VC & _).
  exists (Env new_flow new_flow 1000 1 (1 / 100)), (moving qone origin (V 1 0 0) origin), (ITTC 1 1 0 0 0 0 0), (Force vzero vzero). split; [exact RB|]. split; [cbn; lra|]. split; [cbn; lra|].
  unfold ittc_compute. cbv zeta. rewrite VC. cbn [plus3 cross3 vx vy vz origin]. unfold GetReynoldsNumberInWater. cbn [e_nu_water it_Lpp]. replace (1 + (0 * 0 - 0 * 0)) with 1 by ring. rewrite Rabs_R1. replace (1 * 1 / (1 / 100)) with 100 by field.
  unfold ittc_Cf. destruct (Req_EM_T 100 0); [lra|]. cbv zeta. assert (L10 : 0 < ln 10) by (rewrite <- ln_1; apply ln_increasing; lra). destruct (Req_EM_T _ 0) as [|N]; [reflexivity|]. exfalso. apply N. replace 100 with (10 * 10) by ring. rewrite ln_mult by lra. field. lra.
Qed.
(** The resistance is computed from the velocity over ground: a body carried by the current is still held back *)
Theorem C135_resistance_current_refuted : exists e b i s s', reachable b /\ velocity_through e b true WATER = origin /\ BGetAngularVelocityInWorld b NWU = origin /\
  ittc_compute e b i s = Ok s' /\ vx (GetForceInWorld s' NWU) < 0.
Proof.
  destruct (moving_one origin (V 1 0 0) origin) as (RB & _ & BI & _ & _ & _ & VW & VC & AW & _). set (e := Env (flow_run [WSet (V 1 0 0)] new_flow) new_flow 1000 1 1). set (b := moving qone origin (V 1 0 0) origin) in *.
  destruct (force_some b (Force vzero vzero) RB) as [w0 RD]. set (i := ITTC (1000) 1 0 0 0 0 0). assert (UX : vx (GetCOGVelocityInBody b NWU) = 1) by (rewrite VC; cbn; ring).
  pose proof (C70_resistance e b i (Force vzero vzero) w0 RB RD) as H. cbv zeta in H. rewrite UX, Rabs_R1 in H. cbn [e i it_Lpp e_nu_water] in H. destruct (H ltac:(lra) ltac:(lra)) as (s' & Cf & E & CF & RS & _).
  exists e, b, i, (Force vzero vzero), s'. split; [exact RB|]. split; [unfold velocity_through; rewrite VW; apply vec_eq; cbn; ring|]. split; [exact AW|]. split; [exact E|].
  destruct RS as [[RF _] _]. specialize (RF NWU). cbn [convert w_force] in RF. rewrite RF. unfold BodySpec.turn. rewrite !BI. cbn [e i minus3 vx origin e_rho_water it_hull it_k it_cr it_ca it_caa it_capp]. assert (0 < Cf) by exact (positive_factor _ _ CF (pow2_ge_0 _)). lra.
Qed.

(** ** C71: manoeuvring terms *)
(** The setters fail exactly on an empty tag *)
Theorem C71_setters : forall ops m, (exists m', man_run ops m = Ok m') <-> forall val, ~ In (MSet "" val) ops.
Proof.
  intros ops. induction ops as [|o r IH]; intros m; cbn [man_run].
  - split; [intros _ val []|intros _; eexists; reflexivity].
  - assert (ST : (exists m1, man_step o m = Ok m1) \/ (man_step o m = Throws /\ exists val, o = MSet "" val)).
    { destruct o; cbn [man_step]; try (left; eexists; reflexivity). destruct tag as [|c tag]; [right; split; [reflexivity|eexists; reflexivity]|]. left. repeat match goal with |- context [if ?x then _ else _] => destruct x end; eexists; reflexivity. }
    destruct ST as [[m1 S1]|[S1 [val E]]]; rewrite S1; cbn [rbind].
    + rewrite IH. split; intros H val; [|intros I; apply (H val); right; exact I]. intros [E|I]; [subst o; cbn in S1; discriminate|apply (H val I)].
    + split; [intros [m' F]; discriminate|]. intros H. exfalso. apply (H val). left. exact E.
Qed.
(** The force is minus the sum of the terms given since the last ClearAll, at the centre of gravity, with the
    velocities of the origin of the body *)
Theorem C71_force : forall ops m b s, man_run ops new_manoeuvring = Ok m -> reachable b ->
  let u := vx (GetVelocityInBody b NWU) in let v := vy (GetVelocityInBody b NWU) in let r := vz (BGetAngularVelocityInBody b NWU) in
  let X := axis_force (terms_after Surge ops []) u v r in let Y := axis_force (terms_after Sway ops []) u v r in let N := axis_force (terms_after Yaw ops []) u v r in
  reads_as b (man_compute b m s) (W (turn (body_map b) (V X Y 0)) (turn (body_map b) (V 0 0 N)) (GetCOGPositionInWorld b NWU)).
Proof.
  intros ops m b s E RB. cbv zeta. assert (H : forall a, Forall2 pterm (on_axis m a) (terms_after a ops [])) by (apply (run_terms ops new_manoeuvring m (fun _ => [])); [intros []; constructor|exact E]).
  rewrite <- !(man_sum_eq _ _ _ _ _ (H Surge)), <- !(man_sum_eq _ _ _ _ _ (H Sway)), <- !(man_sum_eq _ _ _ _ _ (H Yaw)). apply (man_reads b m s RB).
Qed.
(** The size of a term is that of the product of powers of the velocities *)
Theorem C71_magnitude : forall t u v r, (0 <= tm_u t)%Z -> (0 <= tm_v t)%Z -> (0 <= tm_r t)%Z ->
  Rabs (term_value t u v r) = Rabs (tm_val t) * Rabs u ^ Z.to_nat (tm_u t) * Rabs v ^ Z.to_nat (tm_v t) * Rabs r ^ Z.to_nat (tm_r t).
Proof. intros t u v r A B C. unfold term_value. rewrite !Rabs_mult, !mixed_abs by assumption. reflexivity. Qed.
(** Linear and quadratic terms of surge oppose the motion *)
Theorem C71_opposes : forall k u v r, 0 <= k -> axis_force [Term k 1 0 0] u v r * u <= 0 /\ axis_force [Term k 2 0 0] u v r * u <= 0.
Proof.
  intros k u v r K. unfold axis_force, term_value. cbn [map sum_list tm_val tm_u tm_v tm_r]. destruct (mixed_small u) as (_ & -> & -> & _). destruct (mixed_small v) as (-> & _). destruct (mixed_small r) as (-> & _). pose proof (Rabs_pos u) as P. pose proof (Rle_0_sqr u) as S2. unfold Rsqr in S2. split.
  - assert (0 <= k * (u * u)) by (apply Rmult_le_pos; assumption). lra.
  - assert (0 <= k * (Rabs u * (u * u))) by (apply Rmult_le_pos; [|apply Rmult_le_pos]; assumption). lra.
Qed.
(** A cubic term does not: it pushes backwards whatever the sense of the motion, so a body that goes astern gains
    energy from a positive damping coefficient *)
Theorem C136_cubic_refuted : exists ops m b s wr, man_run ops new_manoeuvring = Ok m /\ ops = [MSet "Xuuu" 1] /\ reachable b /\ reads_as b (man_compute b m s) wr /\
  0 < power wr (GetCOGPositionInWorld b NWU) (GetCOGLinearVelocityInWorld b NWU) (BGetAngularVelocityInWorld b NWU).
Proof.
  destruct (moving_one origin (V (-1) 0 0) origin) as (RB & _ & BI & CG & _ & VB & VW & _ & AW & AB). set (b := moving qone origin (V (-1) 0 0) origin) in *.
  assert (MR : man_run [MSet "Xuuu" 1] new_manoeuvring = Ok (addX new_manoeuvring (SetParamsTag "Xuuu" 1))) by reflexivity.
  pose proof (C71_force _ _ b (Force vzero vzero) MR RB) as H. cbv zeta in H. rewrite VB, AB in H. eexists _, _, b, _, _. split; [exact MR|]. split; [reflexivity|]. split; [exact RB|]. split; [exact H|].
  rewrite VW, AW, CG. unfold power, moment_of, BodySpec.turn. cbn [w_force w_moment w_point]. rewrite !BI. change (terms_after Surge [MSet "Xuuu" 1] []) with [Term 1 3 0 0]. change (terms_after Sway [MSet "Xuuu" 1] []) with (@nil term). change (terms_after Yaw [MSet "Xuuu" 1] []) with (@nil term). unfold axis_force, term_value. cbn [map sum_list tm_val tm_u tm_v tm_r vx vy vz origin]. destruct (mixed_small (-1)) as (_ & _ & _ & ->). destruct (mixed_small 0) as (-> & _). rewrite (Rabs_left (-1)) by lra. unfold dot3, plus3, minus3, cross3, origin. cbn [vx vy vz]. lra.
Qed.
(** The velocities are those of the origin of the body while the force is applied at the centre of gravity: when these
    differ, a linear sway damping can give energy to the body *)
Theorem C136_power_refuted : exists ops m b s wr, man_run ops new_manoeuvring = Ok m /\ ops = [MSet "Yv" 1] /\ reachable b /\ reads_as b (man_compute b m s) wr /\
  0 < power wr (GetCOGPositionInWorld b NWU) (GetCOGLinearVelocityInWorld b NWU) (BGetAngularVelocityInWorld b NWU).
Proof.
  destruct (moving_one (V 5 0 0) (V 0 (-1) 0) (V 0 0 1)) as (RB & _ & BI & CG & _ & VB & VW & _ & AW & AB). set (b := moving qone (V 5 0 0) (V 0 (-1) 0) (V 0 0 1)) in *.
  assert (MR : man_run [MSet "Yv" 1] new_manoeuvring = Ok (addY new_manoeuvring (SetParamsTag "Yv" 1))) by reflexivity.
  pose proof (C71_force _ _ b (Force vzero vzero) MR RB) as H. cbv zeta in H. rewrite VB, AB in H. eexists _, _, b, _, _. split; [exact MR|]. split; [reflexivity|]. split; [exact RB|]. split; [exact H|].
  rewrite VW, AW, CG. unfold power, moment_of, BodySpec.turn. cbn [w_force w_moment w_point]. rewrite !BI. change (terms_after Surge [MSet "Yv" 1] []) with (@nil term). change (terms_after Sway [MSet "Yv" 1] []) with [Term 1 0 1 0]. change (terms_after Yaw [MSet "Yv" 1] []) with (@nil term). unfold axis_force, term_value. cbn [map sum_list tm_val tm_u tm_v tm_r vx vy vz origin]. destruct (mixed_small (-1)) as (_ & -> & _). destruct (mixed_small 0) as (-> & _). destruct (mixed_small 1) as (-> & _). unfold dot3, plus3, minus3, cross3, origin. cbn [vx vy vz]. lra.
Qed.
Example C71_case : exists m, man_run [MSet "Yv" 9; MClearAll; MSet "Xuu" 2; MSet "Zq" 5; MSetN 3 0 1 1] new_manoeuvring = Ok m /\
  let ops := [MSet "Yv" 9; MClearAll; MSet "Xuu" 2; MSet "Zq" 5; MSetN 3 0 1 1] in
  terms_after Surge ops [] = [Term 2 2 0 0] /\ terms_after Sway ops [] = [] /\ terms_after Yaw ops [] = [Term 3 0 1 1].
Proof. eexists. split; [reflexivity|]. cbv zeta. repeat split; reflexivity. Qed.

(** ** C72: standard wind and current forces.  u is the flow relative to the body, in the axes of a level ship *)
Definition wind_arm (lpp : R) (u : vec) : R := 3 / 10 * (1 - 2 * off_bow u / PI) * lpp.
Definition current_arm (lpp : R) (u : vec) : R := Rmax (Rmin (4 / 10 * (1 - 2 * off_bow u / PI)) (1 / 4)) (- (2 / 10)) * lpp.
Theorem C72_wind : forall e b sd s xc psi, reachable b -> level b psi -> sd_xc sd = Some xc ->
  let u := in_ship_axes psi (relative_flow (e_wind e) b) in 0 < vx u * vx u + vy u * vy u ->
  exists s', wind_compute e b sd s = Ok s' /\ let F := standard_force (7 / 10) (9 / 10) (e_rho_air e) sd u in
    reads_as b s' (W (turn (body_map b) F) (V 0 0 (vy F * wind_arm (sd_lpp sd) u)) (body_map b (V xc 0 0))).
Proof.
  intros e b sd s xc psi RB LV X. cbv zeta. intros P. destruct (std_reads (7 / 10) (9 / 10) wind_lever (e_wind e) (e_rho_air e) b sd s xc psi RB LV X P) as [s' [E H]]. exists s'. split; [exact E|]. cbv zeta in H. set (u := in_ship_axes psi (relative_flow (e_wind e) b)) in *. destruct (angle_facts u P) as (_ & _ & FO). unfold wind_lever in H. rewrite FO in H. unfold wind_arm. rewrite <- Rmult_assoc. exact H.
Qed.
Theorem C72_current : forall e b sd s xc psi, reachable b -> level b psi -> sd_xc sd = Some xc ->
  let u := in_ship_axes psi (relative_flow (e_current e) b) in 0 < vx u * vx u + vy u * vy u ->
  exists s', current_compute e b sd s = Ok s' /\ let F := standard_force (7 / 100) (6 / 10) (e_rho_water e) sd u in
    reads_as b s' (W (turn (body_map b) F) (V 0 0 (vy F * current_arm (sd_lpp sd) u)) (body_map b (V xc 0 0))).
Proof.
  intros e b sd s xc psi RB LV X. cbv zeta. intros P. destruct (std_reads (7 / 100) (6 / 10) current_lever (e_current e) (e_rho_water e) b sd s xc psi RB LV X P) as [s' [E H]]. exists s'. split; [exact E|]. cbv zeta in H. set (u := in_ship_axes psi (relative_flow (e_current e) b)) in *. destruct (angle_facts u P) as (_ & _ & FO). unfold current_lever in H. rewrite FO in H. unfold current_arm. rewrite <- Rmult_assoc. exact H.
Qed.
(** A body that drifts with the flow feels nothing *)
Theorem C72_calm : forall e b sd s xc psi, reachable b -> level b psi -> sd_xc sd = Some xc ->
  (relative_flow (e_wind e) b = origin -> exists s', wind_compute e b sd s = Ok s' /\ reads_as b s' (W origin origin (body_map b (V xc 0 0)))) /\
  (relative_flow (e_current e) b = origin -> exists s', current_compute e b sd s = Ok s' /\ reads_as b s' (W origin origin (body_map b (V xc 0 0)))).
Proof. intros e b sd s xc psi RB LV X. split; intros Z; eapply std_calm; eauto. Qed.
(** The force pushes along the flow, and its size is bounded by the larger of the two sections *)
Theorem C72_pushes : forall cx cy rho sd u, 0 <= cx -> 0 <= cy -> 0 <= rho -> 0 <= sd_transverse sd -> 0 <= sd_lateral sd -> 0 < vx u * vx u + vy u * vy u ->
  let F := standard_force cx cy rho sd u in
  0 <= dot3 F u /\ Rabs (vx F) <= rho / 2 * dot3 u u * (cx * sd_transverse sd) /\ Rabs (vy F) <= rho / 2 * dot3 u u * (cy * sd_lateral sd).
Proof.
  intros cx cy rho sd u CX CY RH ST SL P. cbv zeta. unfold standard_force. set (n := sqrt (vx u * vx u + vy u * vy u)). assert (NP : 0 < n) by (apply sqrt_lt_R0; exact P). assert (NN : n * n = vx u * vx u + vy u * vy u) by (apply sqrt_sqrt; lra). clearbody n.
  set (dd := dot3 u u). assert (DP : 0 <= dd) by (unfold dd, dot3; nra). clearbody dd. set (k := rho / 2 * dd). assert (KP : 0 <= k) by (unfold k; apply Rmult_le_pos; [lra|exact DP]). clearbody k.
  assert (IN : 0 < / n) by (apply Rinv_0_lt_compat; exact NP). assert (BX : Rabs (vx u) <= n) by (apply Rabs_le; split; nra). assert (BY : Rabs (vy u) <= n) by (apply Rabs_le; split; nra).
  unfold scal3, dot3. cbn [vx vy vz]. split.
  - replace (k / n * (cx * sd_transverse sd * vx u) * vx u + k / n * (cy * sd_lateral sd * vy u) * vy u + k / n * 0 * vz u) with (k * / n * (cx * sd_transverse sd * (vx u * vx u) + cy * sd_lateral sd * (vy u * vy u))) by (unfold Rdiv; ring).
    apply Rmult_le_pos; [apply Rmult_le_pos; lra|]. apply Rplus_le_le_0_compat; apply Rmult_le_pos; try nra; apply Rmult_le_pos; assumption.
  - assert (AB : forall a x, 0 <= a -> Rabs x <= n -> Rabs (k / n * (a * x)) <= k * a). { intros a x A B. replace (k / n * (a * x)) with (k * a * (x * / n)) by (unfold Rdiv; ring). rewrite Rabs_mult, (Rabs_pos_eq (k * a)) by (apply Rmult_le_pos; assumption). rewrite Rabs_mult, (Rabs_pos_eq (/ n)) by lra. assert (Rabs x * / n <= 1) by (apply Rmult_le_reg_r with n; [exact NP|]; rewrite Rmult_assoc, Rinv_l by lra; lra). pose proof (Rmult_le_pos k a KP A). nra. }
    split; apply AB; try assumption; apply Rmult_le_pos; assumption.
Qed.
(** The centre of the lateral force stays on the ship *)
Theorem C72_arm : forall lpp u, 0 <= lpp -> 0 < vx u * vx u + vy u * vy u -> Rabs (wind_arm lpp u) <= 3 / 10 * lpp /\ - (2 / 10) * lpp <= current_arm lpp u <= 1 / 4 * lpp.
Proof.
  intros lpp u L P. assert (OB : 0 <= off_bow u <= PI). { destruct (angle_facts u P) as (_ & _ & <-). apply folded_range, norm2pi_range. } pose proof PI_RGT_0 as PP.
  assert (T : 0 <= 2 * off_bow u / PI <= 2). { split; [apply Rmult_le_pos; [lra|left; apply Rinv_0_lt_compat; lra]|]. apply Rmult_le_reg_r with PI; [lra|]. unfold Rdiv. rewrite Rmult_assoc, Rinv_l; lra. }
  unfold wind_arm, current_arm. set (t := 2 * off_bow u / PI) in *. clearbody t. split.
  - rewrite Rabs_mult, (Rabs_pos_eq lpp) by exact L. apply Rmult_le_compat_r; [exact L|]. apply Rabs_le. lra.
  - split; apply Rmult_le_compat_r; try exact L; [apply Rmax_r|apply Rmax_lub; [apply Rmin_r|lra]].
Qed.
Example C72_case : let b := moving qone origin origin origin in let e := Env new_flow (flow_run [WSet (FSetCompass CWest 10 1 COMEFROM)] new_flow) 1000 1 1 in
  reachable b /\ level b 0 /\ let u := in_ship_axes 0 (relative_flow (e_wind e) b) in u = V 0 (-10) 0 /\ 0 < vx u * vx u + vy u * vy u.
Proof.
  cbv zeta. destruct (moving_one origin origin origin) as (RB & LV & _ & _ & VW & _). split; [exact RB|]. split; [exact LV|]. assert (E : in_ship_axes 0 (relative_flow (flow_run [WSet (FSetCompass CWest 10 1 COMEFROM)] new_flow) (moving qone origin origin origin)) = V 0 (-10) 0).
  { unfold relative_flow. rewrite VW, C69_wind_from_west. unfold in_ship_axes, mv, Rz, flow_velocity, minus3, scal3, horizontal, dot3, origin. cbn [flow_run fold_left flow_step w_ramp w_field new_flow vx vy vz m00 m01 m02 m10 m11 m12 m20 m21 m22]. rewrite Ropp_0, cos_0, sin_0. apply vec_eq; cbn [vx vy vz]; ring. }
  cbn [e_wind]. rewrite E. split; [reflexivity|]. cbn. lra.
Qed.
(** Initialize: what must have been given.  A setter given a value that is not positive stops the program *)
Theorem C72_wind_initialize : forall ops s, std_run ops new_standard = Ok s ->
  (wind_init s = Ok s <-> given SSetLateral ops /\ given SSetTransverse ops /\ given SSetLpp ops) /\ (wind_init s = Ok s \/ wind_init s = Throws).
Proof.
  intros ops s E. destruct (new_fields ops s E) as (A & B & C & _). assert (FE : 0 < FLT_EPSILON) by (unfold FLT_EPSILON; lra). unfold wind_init, std_checks.
  destruct A as [[A A2]|[A A2]], B as [[B B2]|[B B2]], C as [[C C2]|[C C2]]; repeat match goal with |- context [Rlt_dec ?x ?y] => destruct (Rlt_dec x y); try lra end; (split; [split; [intros F; try discriminate F; tauto|intros; try tauto; reflexivity]|tauto]).
Qed.
Theorem C72_current_initialize : forall ops s s', std_run ops new_standard = Ok s -> current_init s = Ok s' ->
  given SSetLateral ops /\ given SSetLpp ops /\ sd_lateral s' = sd_lateral s /\ sd_lpp s' = sd_lpp s /\ sd_xc s' = sd_xc s /\
  ((given SSetTransverse ops /\ sd_transverse s' = sd_transverse s) \/
   (~ given SSetTransverse ops /\ given SSetDraft ops /\ given SSetBreadth ops /\ sd_transverse s' = sd_draft s * sd_breadth s)).
Proof.
  intros ops s s' E H. destruct (new_fields ops s E) as (A & B & C & D & F). assert (FE : 0 < FLT_EPSILON) by (unfold FLT_EPSILON; lra). unfold current_init, std_checks in H. cbv zeta in H.
  destruct A as [[A A2]|[A A2]], B as [[B B2]|[B B2]], C as [[C C2]|[C C2]], D as [[D D2]|[D D2]], F as [[F F2]|[F F2]]; destruct (Rlt_dec (sd_transverse s) FLT_EPSILON); try lra; try (destruct (Rlt_dec FLT_EPSILON (sd_draft s)); try lra); try (destruct (Rlt_dec FLT_EPSILON (sd_breadth s)); try lra); cbn [sd_transverse sd_lateral sd_lpp] in H; repeat (match type of H with context [Rlt_dec ?x ?y] => destruct (Rlt_dec x y); try lra end); try discriminate H; injection H as <-; cbn [sd_lateral sd_lpp sd_xc sd_transverse]; (split; [tauto|]; split; [tauto|]; do 3 (split; [reflexivity|]); first [left; split; [tauto|reflexivity] | right; repeat split; first [tauto|reflexivity]]).
Qed.
Theorem C72_current_accepts : forall ops s, std_run ops new_standard = Ok s -> given SSetLateral ops -> given SSetLpp ops ->
  (given SSetTransverse ops \/ (given SSetDraft ops /\ given SSetBreadth ops /\ FLT_EPSILON <= sd_draft s * sd_breadth s)) -> exists s', current_init s = Ok s'.
Proof.
  intros ops s E GL GP H. destruct (new_fields ops s E) as (A & B & C & D & F). assert (FE : 0 < FLT_EPSILON) by (unfold FLT_EPSILON; lra). unfold current_init, std_checks. cbv zeta.
  destruct A as [[_ A2]|[A A2]]; [|tauto]. destruct C as [[_ C2]|[C C2]]; [|tauto]. destruct B as [[B B2]|[B B2]].
  - destruct (Rlt_dec (sd_transverse s) FLT_EPSILON); [lra|]. repeat match goal with |- context [Rlt_dec ?x ?y] => destruct (Rlt_dec x y); try lra end. eexists; reflexivity.
  - destruct H as [H|(H1 & H2 & H3)]; [tauto|]. destruct D as [[_ D2]|[D _]]; [|tauto]. destruct F as [[_ F2]|[F _]]; [|tauto].
    destruct (Rlt_dec (sd_transverse s) FLT_EPSILON); [|lra]. destruct (Rlt_dec FLT_EPSILON (sd_draft s)); [|lra]. destruct (Rlt_dec FLT_EPSILON (sd_breadth s)); [|lra]. cbn [sd_transverse sd_lateral sd_lpp].
    repeat match goal with |- context [Rlt_dec ?x ?y] => destruct (Rlt_dec x y); try lra end. eexists; reflexivity.
Qed.
Example C72_initialize_case : exists s, std_run [SSetLateral 100; SSetLpp 50; SSetDraft 5; SSetBreadth 10] new_standard = Ok s /\ sd_draft s * sd_breadth s = 50.
Proof. assert (FE : FLT_EPSILON < 1) by (unfold FLT_EPSILON; lra). cbn [std_run std_step rbind]. unfold positive. repeat match goal with |- context [Rlt_dec ?x ?y] => destruct (Rlt_dec x y); [cbn [rbind]|lra] end. eexists. split; [reflexivity|cbn; lra]. Qed.
(** Initialize does not ask for the abscissa of the centre: without SetXCenter the force is computed from a member
    that has never been given a value *)
Theorem C137_xcenter_refuted : exists ops s, std_run ops new_standard = Ok s /\ wind_init s = Ok s /\ (exists s', current_init s = Ok s') /\ forall e b f, wind_compute e b s f = Undef /\ current_compute e b s f = Undef.
Proof.
  exists [SSetLateral 100; SSetTransverse 20; SSetLpp 50]. assert (FE : 0 < FLT_EPSILON < 1) by (unfold FLT_EPSILON; lra). cbn [std_run std_step rbind]. unfold positive. repeat match goal with |- context [Rlt_dec ?x ?y] => destruct (Rlt_dec x y); [cbn [rbind]|lra] end. eexists. split; [reflexivity|]. cbn [sd_lateral sd_transverse sd_lpp sd_xc sd_breadth sd_draft].
  split; [|split].
  - unfold wind_init, std_checks. cbn [sd_lateral sd_transverse sd_lpp]. repeat match goal with |- context [Rlt_dec ?x ?y] => destruct (Rlt_dec x y); [lra|] end. reflexivity.
  - unfold current_init, std_checks. cbv zeta. cbn [sd_transverse]. destruct (Rlt_dec 20 FLT_EPSILON); [lra|]. cbn [sd_lateral sd_transverse sd_lpp]. repeat match goal with |- context [Rlt_dec ?x ?y] => destruct (Rlt_dec x y); [lra|] end. eexists; reflexivity.
  - intros e b f. split; reflexivity.
Qed.
(** The relative flow is taken in the axes of the body but the force is applied in axes that only follow its heading:
    a capsized body is pushed against the flow *)
Definition capsized : quat := Q 0 1 0 0.
Theorem C137_capsized_refuted : exists e b sd s s', reachable b /\ sd_xc sd = Some 0 /\ 0 < sd_lateral sd /\ 0 < e_rho_air e /\ relative_flow (e_wind e) b = V 0 1 0 /\
  wind_compute e b sd s = Ok s' /\ dot3 (GetForceInWorld s' NWU) (relative_flow (e_wind e) b) < 0.
Proof.
  assert (UQ : unitq capsized) by (unfold unitq, capsized; cbn; ring). destruct (moving_ok capsized origin origin origin UQ) as (RB & BM & VR & CG). set (b := moving capsized origin origin origin) in *. clearbody b.
  assert (QC : forall x, qrotate capsized x = V (vx x) (- vy x) (- vz x)) by (intros [x y z]; unfold capsized; geo; veq; ring).
  set (w := flow_run [WSet (V 0 1 0)] new_flow). set (e := Env new_flow w 1000 1 1). set (sd := Std 1 1 1 (Some 0) (-1) (-1)).
  pose proof (facts b RB) as BF. assert (QB : forall x, qrotate (GetQuaternion b) x = V (vx x) (- vy x) (- vz x)). { intros x. rewrite <- (bf_turn b BF). unfold BodySpec.turn. rewrite !BM, !QC. unfold minus3, origin. apply vec_eq; cbn [vx vy vz]; ring. }
  assert (VW : GetLinearVelocityInWorld b NWU = origin). { destruct VR as [(_ & [H _] & _) _]. rewrite (H NWU), BM, !QC. unfold rigid_velocity, origin, plus3, cross3, minus3. cbn [convert vx vy vz]. apply vec_eq; cbn [vx vy vz]; ring. }
  assert (RF : relative_flow w b = V 0 1 0) by (unfold relative_flow; rewrite VW; unfold w, flow_velocity, minus3, scal3, horizontal, origin; cbn; apply vec_eq; cbn [vx vy vz]; ring).
  assert (FX : std_flux w b = V 0 (-1) 0).
  { unfold std_flux. rewrite VW. cbv zeta. cbn [origin vx vy]. pose proof (rel_eq w (GetFrameAtCOG b NWU) (V 0 0 0) NWU (cog_unit b BF)) as E. rewrite (bf_cogframe b BF), QB in E. set (x := GetRelativeVelocityInFrame _ _ _ _) in *. clearbody x. cbn [convert] in E. unfold w, flow_velocity, minus3, scal3 in E. cbn [flow_run fold_left flow_step w_ramp w_field new_flow vx vy vz] in E. apply (f_equal vx) in E as E1. apply (f_equal vy) in E as E2. apply (f_equal vz) in E as E3. cbn [vx vy vz] in E1, E2, E3. unfold vneg, SwapFrameConvention. apply vec_eq; cbn [vx vy vz]; lra. }
  assert (YF : forall f, ProjectVectorFrameInParent (yaw_frame b) f NWU = f).
  { intros f. unfold yaw_frame, ProjectVectorFrameInParent, UQ_Rotate. cbn [Frame_make frot swap_if IsNED]. rewrite rot_z. assert (E : Set_A_quaternion (GetQuaternion b) = M 1 0 0 0 (-1) 0 0 0 (-1)). { apply mat_of_action. intros x. rewrite QB. unfold mv, dot3. cbn [vx vy vz m00 m01 m02 m10 m11 m12 m20 m21 m22]. apply vec_eq; cbn [vx vy vz]; ring. }
    unfold Rot_GetCardan_RADIANS. rewrite E. cbn [IsNED]. unfold mat2eul_xyz. cbn [m20 m10 m00]. destruct (Rlt_dec 0 1); [|lra]. destruct (Rlt_dec (-1) 0); [|lra]. cbn [a_psi]. destruct (atan2_unit 1 0) as [C S]; [ring|]. unfold Rz. rewrite C, S. unfold mv, dot3. cbn [vx vy vz m00 m01 m02 m10 m11 m12 m20 m21 m22]. apply vec_eq; cbn [vx vy vz]; ring. }
  destruct (angle_facts (V 0 (-1) 0)) as (CO & SI & _); [cbn; lra|]. cbn [vx vy vz] in CO, SI. rewrite Ropp_0 in CO, SI. assert (HN : hnorm (V 0 (-1) 0) = 1) by (unfold hnorm; cbn [vx vy]; replace (0 * 0 + -1 * -1) with 1 by ring; apply sqrt_1). rewrite HN in CO, SI.
  eexists e, b, sd, (Force vzero vzero), _. split; [exact RB|]. split; [reflexivity|]. split; [cbn; lra|]. split; [cbn; lra|]. split; [exact RF|]. split; [unfold wind_compute, std_compute; cbv zeta; change (e_wind e) with w; rewrite FX, !YF; reflexivity|].
  change (e_wind e) with w. rewrite RF. cbn [e e_rho_air sd sd_transverse sd_lateral sd_lpp]. set (f := V _ _ 0). set (t := V 0 0 _). destruct (one_op b (FOBothWorldPtBody f t (V 0 0 0) NWU) (Force vzero vzero) RB) as [w0 [_ H]]. destruct H as [[H _] _]. specialize (H NWU). cbn [convert force_step force_means w_force] in H. rewrite H. unfold f. rewrite CO, SI. unfold vdot, dot3. cbn [vx vy vz]. lra.
Qed.

(** ** C73: polar tables.  x is the direction towards which the relative flow goes, in the axes of the ship *)
(** Every row a table stands for is found at its own direction, with its own coefficients *)
Theorem C73_rows : forall p s K, starts_at s -> stands_for s (rad_rows p) K -> exists table, ReadTable p = Ok table /\
  forall a c x, In (a, c) K -> 0 <= x < 2 * PI -> congruent x (row_direction (pf_fc p) (pf_dc p) a) -> Lookup table x = Ok (row_coef (pf_fc p) c).
Proof. intros p s K S H. destruct (read_class p s K S H) as [t [E G]]. exists t. split; [exact E|]. intros a c x I X C. eapply good_row_at; eauto. Qed.
(** Between two neighbouring rows the coefficients are interpolated, all round, if one of the rows points ahead (x = 0) *)
Theorem C73_interpolates : forall p s K, starts_at s -> stands_for s (rad_rows p) K -> (exists a c, In (a, c) K /\ congruent (row_direction (pf_fc p) (pf_dc p) a) 0) ->
  exists table, ReadTable p = Ok table /\ forall x, 0 <= x <= 2 * PI ->
    exists a c b d xa xb, In (a, c) K /\ In (b, d) K /\ congruent xa (row_direction (pf_fc p) (pf_dc p) a) /\ congruent xb (row_direction (pf_fc p) (pf_dc p) b) /\ xa <= x <= xb /\ xa < xb /\
      (forall e f y, In (e, f) K -> congruent y (row_direction (pf_fc p) (pf_dc p) e) -> ~ (xa < y < xb)) /\
      Lookup table x = Ok (segment ((x - xa) / (xb - xa)) (row_coef (pf_fc p) c) (row_coef (pf_fc p) d)).
Proof. intros p s K S H Z. destruct (read_class p s K S H) as [t [E G]]. exists t. split; [exact E|]. intros x X. apply good_interp; assumption. Qed.
(** A half table gives a symmetric ship: the flow from the other side gives the mirrored coefficients *)
Theorem C73_symmetric : forall p s c0 cn mid, starts_at s -> half_round s c0 cn mid (rad_rows p) -> other_side c0 = c0 -> other_side cn = cn ->
  exists table, ReadTable p = Ok table /\ forall x, 0 <= x <= 2 * PI -> exists c, Lookup table x = Ok c /\ Lookup table (2 * PI - x) = Ok (other_side c).
Proof.
  intros p s c0 cn mid S H A B. destruct (read_half p s c0 cn mid S H) as [t [E G]]. exists t. split; [exact E|]. destruct (half_turn _ _ _ _ _ H) as (INC & NE & T). intros x X.
  exact (good_mirror _ _ _ _ INC T G (half_zero p s c0 cn mid S H) (half_mirror s c0 cn mid _ S H A B) x X).
Qed.
(** Two tables in degrees: half a turn, and a closed one *)
Definition half_table : polar_file := PF [(0, V 1 0 0); (30, V (8 / 10) (3 / 10) (1 / 10)); (90, V 0 1 0); (180, V (-1) 0 0)] DEG NED COMEFROM 10 100 50.
Example C73_half_case : starts_at 0 /\ half_round 0 (V 1 0 0) (V (-1) 0 0) [(30 * PI / 180, V (8 / 10) (3 / 10) (1 / 10)); (90 * PI / 180, V 0 1 0)] (rad_rows half_table) /\
  other_side (V 1 0 0) = V 1 0 0 /\ other_side (V (-1) 0 0) = V (-1) 0 0.
Proof.
  split; [left; reflexivity|]. pose proof pi3 as P3. split; [|split; apply vec_eq; cbn; ring]. unfold half_round, half_table, rad_rows, radians. cbn [pf_rows pf_unit map fst snd app]. split; [|split].
  - replace (0 * PI / 180) with 0 by field. replace (180 * PI / 180) with (0 + PI) by field. reflexivity.
  - cbn. repeat split; lra.
  - intros r [<-|[<-|[]]]; cbn; lra.
Qed.
Definition full_table : polar_file := PF [(0, V 1 0 0); (90, V 0 1 0); (180, V (-1) 0 0); (270, V 0 (-1) 0); (360, V 1 0 0)] DEG NWU GOTO 10 100 50.
Example C73_closed_case : stands_for 0 (rad_rows full_table) (map (fun r => (radians DEG (fst r), snd r)) [(0, V 1 0 0); (90, V 0 1 0); (180, V (-1) 0 0); (270, V 0 (-1) 0)]) /\
  exists a c, In (a, c) (map (fun r => (radians DEG (fst r), snd r)) [(0, V 1 0 0); (90, V 0 1 0); (180, V (-1) 0 0); (270, V 0 (-1) 0)]) /\ congruent (row_direction NWU GOTO a) 0.
Proof.
  pose proof pi3 as P3. split.
  - right. left. exists (V 1 0 0). unfold full_table, rad_rows, radians. cbn [pf_rows pf_unit map fst snd app]. split; [replace (360 * PI / 180) with (0 + 2 * PI) by field; reflexivity|]. split; [cbn; repeat split; lra|]. split; [discriminate|]. cbn. field.
  - exists (radians DEG 0), (V 1 0 0). split; [left; reflexivity|]. exists 0%Z. unfold row_direction, radians. field.
Qed.
(** Without a row that points ahead the table does not close: it throws between there and the first row *)
Theorem C138_gap_refuted : exists p table, all_round (- PI) (rad_rows p) /\ ReadTable p = Ok table /\ Lookup table 0 = Throws.
Proof.
  set (p := PF [(-180, V 1 0 0); (-90, V 0 1 0); (90, V 0 (-1) 0)] DEG NWU GOTO 1 1 1). pose proof pi3 as P3. exists p.
  assert (A : all_round (- PI) (rad_rows p)). { unfold all_round, rad_rows, radians, p. cbn [pf_rows pf_unit map fst snd]. split; [cbn; repeat split; lra|]. split; [discriminate|]. unfold first_angle, final_angle. cbn [last fst]. split; [field|]. split; [lra|]. rewrite Rabs_pos_eq; lra. }
  destruct (read_all p (- PI) (or_intror eq_refl) A) as [t [E G]]. exists t. split; [exact A|]. split; [exact E|]. eapply good_gap; [exact G|]. intros a c I [k K].
  unfold row_direction, p in K. cbn [pf_fc pf_dc] in K. assert (Q : a = - PI \/ a = - PI / 2 \/ a = PI / 2). { unfold rad_rows, radians, p in I. cbn [pf_rows pf_unit map fst snd] in I. destruct I as [I|[I|[I|[]]]]; injection I as I _; lra. }
  assert (X : 2 * IZR k = -1 \/ 2 * IZR k = - 1 / 2 \/ 2 * IZR k = 1 / 2). { destruct Q as [Q|[Q|Q]]; [left|right; left|right; right]; apply Rmult_eq_reg_l with PI; lra. }
  assert (Y : (4 * k = -2 \/ 4 * k = -1 \/ 4 * k = 1)%Z). { destruct X as [X|[X|X]]; [left|right; left|right; right]; apply eq_IZR; rewrite mult_IZR; lra. } lia.
Qed.
(** Rows closer than 0.1 rad (5.7 degrees) to the bow: the completed half loses the row of the other side, taken for a
    second row at 360 degrees, and the ship is no longer symmetric *)
Theorem C138_five_degrees_refuted : exists p table, pf_rows p = [(0, origin); (5, V 0 1 0); (180, origin)] /\ pf_unit p = DEG /\ pf_fc p = NWU /\ pf_dc p = GOTO /\ ReadTable p = Ok table /\
  Lookup table (5 * PI / 180) = Ok (V 0 1 0) /\ Lookup table (2 * PI - 5 * PI / 180) = Ok origin.
Proof.
  set (p := PF [(0, origin); (5, V 0 1 0); (180, origin)] DEG NWU GOTO 1 1 1). pose proof pi3 as P3. pose proof PI_4 as P4. set (K := [(0 * PI / 180, origin); (5 * PI / 180, V 0 1 0); (180 * PI / 180, origin)]).
  assert (RR : rad_rows p = K) by reflexivity.
  assert (KE : kept K = Ok K).
  { unfold kept. cbv zeta. unfold K at 1 2 3 4 5 6. cbn [first_angle]. unfold last_angle. cbn [last fst]. unfold K at 1. cbn [last fst]. replace (180 * PI / 180) with PI by field. replace (0 * PI / 180) with 0 by field. rewrite !near_same. cbn [andb].
    unfold K. replace (180 * PI / 180) with PI by field. replace (0 * PI / 180) with 0 by field. unfold complete. cbn [List.length Nat.leb removelast tl rev map app fst snd rbind last]. assert (NR : near (2 * PI - 5 * PI / 180) (2 * PI) = true). { unfold near. rewrite Rabs_left by lra. destruct (Rlt_dec _ _); [reflexivity|]. assert (P32 : PI < 32 / 10). { pose proof PI_close. lra. } lra. }
    rewrite NR. cbn [first_angle]. rewrite near_same. cbn [andb orb removelast]. reflexivity. }
  assert (TU : increasing K /\ K <> [] /\ final_angle K - first_angle K < 2 * PI). { unfold K, final_angle, first_angle. cbn [last fst]. split; [cbn; repeat split; lra|]. split; [discriminate|lra]. }
  destruct (read_kept p K) as [t [E G]]; [discriminate|rewrite RR; exact KE|exact TU|]. exists p, t. do 4 (split; [reflexivity|]). split; [exact E|]. cbn [p pf_fc pf_dc] in G. split.
  - rewrite (good_row_at NWU GOTO K t (5 * PI / 180) (V 0 1 0) (5 * PI / 180) G); [reflexivity|right; left; reflexivity|lra|exists 0%Z; unfold row_direction; lra].
  - destruct (good_interp NWU GOTO K t (2 * PI - 5 * PI / 180) G) as (a & c & b & d & xa & xb & IA & IB & CA & CB & X & XX & NB & LK); [exists (0 * PI / 180), origin; split; [left; reflexivity|exists 0%Z; unfold row_direction; lra]|lra|].
    assert (N1 : ~ (xa < PI < xb)) by (apply (NB (180 * PI / 180) origin); [right; right; left; reflexivity|exists 0%Z; unfold row_direction; lra]). assert (N2 : ~ (xa < 2 * PI < xb)) by (apply (NB (0 * PI / 180) origin); [left; reflexivity|exists 1%Z; unfold row_direction; lra]).
    assert (XB : PI <= xa /\ xb <= 2 * PI) by lra. assert (NC : forall r x, In r K -> PI <= x <= 2 * PI -> congruent x (row_direction NWU GOTO (fst r)) -> snd r = origin).
    { intros r x I XR [k C]. unfold row_direction in C. destruct I as [<-|[<-|[<-|[]]]]; try reflexivity. exfalso. cbn [fst] in C. assert (0 < IZR k < 1) as [L U] by (split; apply Rmult_lt_reg_l with (2 * PI); lra). apply lt_IZR in L. apply lt_IZR in U. lia. }
    rewrite LK. pose proof (NC _ xa IA ltac:(lra) CA) as C1. pose proof (NC _ xb IB ltac:(lra) CB) as C2. cbn [snd] in C1, C2. subst c d. f_equal. unfold segment, plus3, scal3, minus3, row_coef, convert, origin. apply vec_eq; cbn [vx vy vz]; ring.
Qed.

(** ** C74: forces from polar tables *)
Theorem C74_force : forall p table w rho b s psi c x, reachable b -> level b psi -> let u := in_ship_axes psi (cog_flow w b) in
  0 < vx u * vx u + vy u * vy u -> heading_of u x -> Lookup table x = Ok c ->
  exists s', polar_compute p table w rho b s = Ok s' /\
    reads_as b s' (W (turn (body_map b) (scal3 (rho / 2 * dot3 u u) (V (vx c * pf_front p) (vy c * pf_lat p) 0)))
                     (V 0 0 (rho / 2 * dot3 u u * (vz c * pf_lat p * pf_len p))) (GetCOGPositionInWorld b NWU)).
Proof. intros p table w rho b s psi c x RB LV. cbv zeta. intros P H LK. apply polar_reads; auto. rewrite (proj_heading _ _ H P). exact LK. Qed.
(** No force when the body drifts with the flow *)
Theorem C74_calm : forall p table w rho b s psi c, reachable b -> level b psi -> cog_flow w b = origin -> Lookup table 0 = Ok c ->
  exists s', polar_compute p table w rho b s = Ok s' /\ reads_as b s' (W origin origin (GetCOGPositionInWorld b NWU)).
Proof.
  intros p table w rho b s psi c RB LV Z LK. assert (U : in_ship_axes psi (cog_flow w b) = origin) by (rewrite Z; unfold in_ship_axes, mv, dot3, origin; cbn [vx vy vz]; apply vec_eq; cbn [vx vy vz]; ring).
  pose proof (polar_reads p table w rho b s psi c RB LV) as H. cbv zeta in H. rewrite U in H. assert (PA : projected_angle origin = 0). { unfold projected_angle, origin. cbn [vx vy]. assert (A0 : atan2 0 0 = 0) by (unfold atan2; repeat (destruct (Rlt_dec _ _); [lra|]); reflexivity). rewrite A0. apply norm_fix. pose proof PI_RGT_0. lra. } rewrite PA in H. destruct (H LK) as [s' [E RD]]. exists s'. split; [exact E|].
  assert (F0 : scal3 (rho / 2 * dot3 origin origin) (V (vx c * pf_front p) (vy c * pf_lat p) 0) = origin) by (unfold scal3, dot3, origin; apply vec_eq; cbn [vx vy vz]; ring).
  assert (T0 : V 0 0 (rho / 2 * dot3 origin origin * (vz c * pf_lat p * pf_len p)) = origin) by (unfold dot3, origin; apply vec_eq; cbn [vx vy vz]; ring). rewrite F0, T0 in RD.
  assert (TT : turn (body_map b) origin = origin) by (unfold BodySpec.turn; apply vec_eq; unfold minus3, origin; cbn [vx vy vz]; ring). rewrite TT in RD. exact RD.
Qed.
(** Whatever the attitude of the body, the force is horizontal and the moment at the centre of gravity vertical; the
    force fails only where the table does *)
Theorem C74_horizontal : forall p table w rho b s, reachable b ->
  (forall s', polar_compute p table w rho b s = Ok s' -> vz (GetForceInWorld s' NWU) = 0 /\ vx (GetTorqueInWorldAtCOG b s' NWU) = 0 /\ vy (GetTorqueInWorldAtCOG b s' NWU) = 0) /\
  ((forall x, 0 <= x < 2 * PI -> exists c, Lookup table x = Ok c) -> exists s', polar_compute p table w rho b s = Ok s').
Proof.
  intros p table w rho b s RB. unfold polar_compute. cbv zeta. set (v := GetRelativeVelocityInFrame _ _ _ _). split.
  - intros s' E. destruct (Lookup table (projected_angle v)) as [c| | | |]; cbn [rbind] in E; try discriminate. injection E as <-. destruct (yaw_mv b) as [a YM]. rewrite !YM.
    set (f := mv (Rz a) (V _ _ 0)). set (t := mv (Rz a) (V 0 0 _)). destruct (one_op b (FOBothWorldCOG f t NWU) s RB) as [w0 [_ H]]. cbn [force_step force_means convert] in H. destruct H as [[H1 _] [[H2 _] _]]. specialize (H1 NWU). specialize (H2 NWU). cbn [convert w_force] in H1, H2. rewrite H1, H2.
    unfold moment_of. cbn [w_moment w_point w_force]. unfold f, t, plus3, cross3, minus3, mv, Rz, dot3. cbn [vx vy vz m00 m01 m02 m10 m11 m12 m20 m21 m22]. repeat split; ring.
  - intros H. destruct (H (projected_angle v)) as [c ->]; [apply norm2pi_range|]. cbn [rbind]. eexists; reflexivity.
Qed.
(** A level ship with a symmetric half table, in a flow from port and in the same flow from starboard: the two forces
    mirror each other *)
Theorem C74_symmetric : forall p s0 c0 cn mid, starts_at s0 -> half_round s0 c0 cn mid (rad_rows p) -> other_side c0 = c0 -> other_side cn = cn ->
  exists table, ReadTable p = Ok table /\ forall b psi w w' rho s x, reachable b -> level b psi ->
    let u := in_ship_axes psi (cog_flow w b) in let u' := in_ship_axes psi (cog_flow w' b) in
    u' = V (vx u) (- vy u) (vz u) -> 0 < vx u * vx u + vy u * vy u -> heading_of u x -> 0 < x ->
    exists X Y N s1 s2, polar_compute p table w rho b s = Ok s1 /\ polar_compute p table w' rho b s = Ok s2 /\
      reads_as b s1 (W (turn (body_map b) (V X Y 0)) (V 0 0 N) (GetCOGPositionInWorld b NWU)) /\ reads_as b s2 (W (turn (body_map b) (V X (- Y) 0)) (V 0 0 (- N)) (GetCOGPositionInWorld b NWU)).
Proof.
  intros p s0 c0 cn mid S H A B. destruct (C73_symmetric p s0 c0 cn mid S H A B) as [t [E SY]]. exists t. split; [exact E|]. intros b psi w w' rho s x RB LV. cbv zeta. set (u := in_ship_axes psi (cog_flow w b)). intros U P (XR & HX & HY) XP. destruct (SY x ltac:(lra)) as [c [L1 L2]].
  destruct (C74_force p t w rho b s psi c x RB LV P (conj XR (conj HX HY)) L1) as [s1 [E1 R1]]. fold u in R1.
  pose proof (C74_force p t w' rho b s psi (other_side c) (2 * PI - x) RB LV) as F2. cbv zeta in F2. rewrite U in F2. cbn [vx vy] in F2. assert (SQ : vx u * vx u + - vy u * - vy u = vx u * vx u + vy u * vy u) by ring. destruct F2 as [s2 [E2 R2]]; [rewrite SQ; exact P| |exact L2|].
  { unfold heading_of. cbn [vx vy]. rewrite SQ. replace (2 * PI - x) with (- x + 2 * INR 1 * PI) at 3 4 by (cbn; ring). rewrite cos_period, sin_period, cos_neg, sin_neg. split; [lra|]. split; [exact HX|]. rewrite <- Ropp_mult_distr_r, <- HY. reflexivity. }
  exists (rho / 2 * dot3 u u * (vx c * pf_front p)), (rho / 2 * dot3 u u * (vy c * pf_lat p)), (rho / 2 * dot3 u u * (vz c * pf_lat p * pf_len p)), s1, s2. split; [exact E1|]. split; [exact E2|].
  assert (DD : dot3 (V (vx u) (- vy u) (vz u)) (V (vx u) (- vy u) (vz u)) = dot3 u u) by (unfold dot3; cbn [vx vy vz]; ring). rewrite DD in R2. split.
  - match type of R1 with reads_as _ _ ?w1 => match goal with |- reads_as _ _ ?w2 => replace w2 with w1; [exact R1|] end end. f_equal. f_equal. unfold scal3. apply vec_eq; cbn [vx vy vz]; ring.
  - match type of R2 with reads_as _ _ ?w1 => match goal with |- reads_as _ _ ?w2 => replace w2 with w1; [exact R2|] end end. unfold other_side. cbn [vx vy vz]. f_equal; [f_equal; unfold scal3|]; apply vec_eq; cbn [vx vy vz]; ring.
Qed.
Example C74_case : let b := moving qone origin origin origin in let w := flow_run [WSet (V 0 2 0)] new_flow in
  reachable b /\ level b 0 /\ let u := in_ship_axes 0 (cog_flow w b) in u = V 0 2 0 /\ 0 < vx u * vx u + vy u * vy u /\ heading_of u (PI / 2).
Proof.
  cbv zeta. destruct (moving_one origin origin origin) as (RB & LV & _ & _ & _ & _ & VC & _). split; [exact RB|]. split; [exact LV|]. assert (E : in_ship_axes 0 (cog_flow (flow_run [WSet (V 0 2 0)] new_flow) (moving qone origin origin origin)) = V 0 2 0).
  { unfold cog_flow. rewrite VC. unfold in_ship_axes, mv, Rz, flow_velocity, minus3, plus3, cross3, scal3, dot3, origin. cbn [flow_run fold_left flow_step w_ramp w_field new_flow vx vy vz m00 m01 m02 m10 m11 m12 m20 m21 m22]. rewrite Ropp_0, cos_0, sin_0. apply vec_eq; cbn [vx vy vz]; ring. }
  rewrite E. split; [reflexivity|]. cbn [vx vy]. split; [lra|]. pose proof PI_RGT_0 as PP. unfold heading_of. cbn [vx vy]. split; [lra|]. rewrite cos_PI2, sin_PI2. replace (0 * 0 + 2 * 2) with (2 * 2) by ring. rewrite sqrt_square by lra. lra.
Qed.
