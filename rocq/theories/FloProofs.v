(** Proofs for C69 - C71: fields, relative velocity, damping, manoeuvring. *)
From Coq Require Import Reals List Bool Ascii String Lra Lia ZArith.
From Verif Require Import WavModel SeaModel FloModel GeoModel GeoSpec GeoProofs GeoProofs2 BodyModel BodySpec BodyProofs BodyProofs2 BodyProofs3 BodyProofs4 FloSpec.
Import ListNotations.
Open Scope R_scope.

Lemma opp_neg v : vneg v = opp3 v.
Proof. apply vec_eq; unfold vneg, opp3, scal3; cbn [vx vy vz]; ring. Qed.
Lemma set_vector v fc dc : FSetVector v fc dc = goes_to dc (convert fc v).
Proof. unfold FSetVector. rewrite swap_convert. destruct dc; [reflexivity|apply opp_neg]. Qed.
Lemma set_angle a m unit u fc dc :
  FSetAngle a m unit u fc dc = goes_to dc (convert fc (V (m * u * cos (radians unit a)) (m * u * sin (radians unit a)) 0)).
Proof.
  unfold FSetAngle. assert (E : match unit with DEG => a * WavModel.DEG2RAD | RAD => a end = radians unit a).
  { destruct unit; unfold radians, WavModel.DEG2RAD; [reflexivity|field]. }
  cbv zeta. rewrite E. generalize (radians unit a). intros x.
  destruct fc, dc; cbn [IsNED convert goes_to]; unfold opp3, scal3; cbn [vx vy vz]; apply vec_eq; cbn [vx vy vz]; try ring; rewrite ?neg_cos, ?neg_sin, ?cos_neg, ?sin_neg; ring.
Qed.
Lemma compass_vec c : compass_dir c NWU = convert NED (V (cos (radians DEG (bearing c))) (sin (radians DEG (bearing c))) 0).
Proof.
  unfold compass_dir, radians. cbn [swap_if IsNED convert].
  pose proof (sqrt_lt_R0 2 ltac:(lra)) as S2. assert (SS : sqrt 2 * sqrt 2 = 2) by (apply sqrt_sqrt; lra).
  assert (H4 : 1 / sqrt 2 = MU_SQRT2_2). { unfold MU_SQRT2_2. apply Rmult_eq_reg_r with (sqrt 2); [|lra]. unfold Rdiv. rewrite Rmult_assoc, Rinv_l by lra. lra. }
  destruct c; cbn [bearing].
  - replace (0 * PI / 180) with 0 by field. rewrite cos_0, sin_0. apply vec_eq; cbn [vx vy vz]; ring.
  - replace (45 * PI / 180) with (PI / 4) by field. rewrite cos_PI4, sin_PI4, H4. apply vec_eq; cbn [vx vy vz]; ring.
  - replace (90 * PI / 180) with (PI / 2) by field. rewrite cos_PI2, sin_PI2. apply vec_eq; cbn [vx vy vz]; ring.
  - replace (135 * PI / 180) with (PI / 4 + PI / 2) by field. rewrite cos_plus, sin_plus, cos_PI4, sin_PI4, cos_PI2, sin_PI2, H4. apply vec_eq; cbn [vx vy vz]; ring.
  - replace (180 * PI / 180) with PI by field. rewrite cos_PI, sin_PI. apply vec_eq; cbn [vx vy vz]; ring.
  - replace (225 * PI / 180) with (PI / 4 + PI) by field. rewrite neg_cos, neg_sin, cos_PI4, sin_PI4, H4. apply vec_eq; cbn [vx vy vz]; ring.
  - replace (270 * PI / 180) with (PI / 2 + PI) by field. rewrite neg_cos, neg_sin, cos_PI2, sin_PI2. apply vec_eq; cbn [vx vy vz]; ring.
  - replace (315 * PI / 180) with (PI / 4 + PI / 2 + PI) by field. rewrite neg_cos, neg_sin, cos_plus, sin_plus, cos_PI4, sin_PI4, cos_PI2, sin_PI2, H4. apply vec_eq; cbn [vx vy vz]; ring.
Qed.
Lemma set_compass c m u dc : FSetCompass c m u dc = FSetAngle (bearing c) m DEG u NED dc.
Proof.
  rewrite set_angle. unfold FSetCompass. rewrite compass_vec. cbn [convert]. generalize (radians DEG (bearing c)). intros x.
  destruct dc; unfold goes_to, opp3, scal3, vneg, vscale; cbn [vx vy vz]; apply vec_eq; cbn [vx vy vz]; ring.
Qed.
(** flow histories *)
Lemma run_app l l' w : flow_run (l ++ l') w = flow_run l' (flow_run l w).
Proof. unfold flow_run. apply fold_left_app. Qed.
Lemma run_field ops : forall w, w_field (flow_run ops w) = field_after ops (w_field w).
Proof. induction ops as [|o r IH]; intros w; [reflexivity|]. change (flow_run (o :: r) w) with (flow_run r (flow_step o w)). rewrite IH. destruct o; reflexivity. Qed.
Lemma run_time ops : forall w, existsb is_update ops = false -> w_time (flow_run ops w) = w_time w.
Proof. induction ops as [|o r IH]; intros w H; [reflexivity|]. change (flow_run (o :: r) w) with (flow_run r (flow_step o w)). cbn in H. apply orb_false_iff in H. destruct H as [A B]. rewrite IH by exact B. destruct o; cbn in A |- *; congruence || reflexivity. Qed.
Lemma run_ramp ops : forall w, existsb sets_ramp ops = false -> w_ramp (flow_run ops w) = w_ramp w.
Proof. induction ops as [|o r IH]; intros w H; [reflexivity|]. change (flow_run (o :: r) w) with (flow_run r (flow_step o w)). cbn in H. apply orb_false_iff in H. destruct H as [A B]. rewrite IH by exact B. destruct o; cbn in A |- *; congruence || reflexivity. Qed.
Lemma flux_eq w fc : GetFluxVelocityInWorld w fc = convert fc (flow_velocity w).
Proof. unfold GetFluxVelocityInWorld, FieldGet, flow_velocity. rewrite swap_convert. destruct fc; apply vec_eq; unfold vscale, scal3, convert; cbn [vx vy vz]; ring. Qed.
Lemma rel_eq w f v fc : unitq (frot f) -> qrotate (frot f) (GetRelativeVelocityInFrame w f v fc) = minus3 (flow_velocity w) (convert fc v).
Proof.
  intros U. unfold GetRelativeVelocityInFrame. rewrite flux_eq. unfold UQ_Rotate, UQ_Inverse. rewrite !swap_convert. cbn [convert]. rewrite qrotate_conj_r by exact U.
  destruct fc; cbn [IsNED convert]; apply vec_eq; unfold SwapFrameConvention, vsub, minus3, flow_velocity, scal3; cbn [vx vy vz]; ring.
Qed.

(** bodies: what is needed of the canonical form *)
Record body_facts (b : body) := {
  bf_q : unitq (GetQuaternion b);
  bf_turn : forall x, turn (body_map b) x = qrotate (GetQuaternion b) x;
  bf_cogframe : frot (GetFrameAtCOG b NWU) = GetQuaternion b;
}.
Lemma facts b : reachable b -> body_facts b.
Proof.
  intros R. destruct (reach_can b R) as (F & v & d & c & Ns & -> & HF & HN). constructor.
  - exact HF.
  - intros x. rewrite turn_can. reflexivity.
  - reflexivity.
Qed.
Lemma vel_in_body b x : body_facts b -> qrotate (GetQuaternion b) (ProjectVectorInBody b x NWU) = x.
Proof. intros H. unfold ProjectVectorInBody, UQ_Rotate, UQ_Inverse. cbn [swap_if IsNED]. apply qrotate_conj_r. apply (bf_q b H). Qed.
Lemma rel_vel_world e b r ft : body_facts b -> turn (body_map b) (cog_rel_vel e b r ft) = velocity_through e b r ft.
Proof.
  intros H. rewrite (bf_turn b H). unfold cog_rel_vel, velocity_through. destruct r.
  - rewrite qrotate_neg. unfold EGetRelativeVelocityInFrame. rewrite <- (bf_cogframe b H). rewrite rel_eq by (rewrite (bf_cogframe b H); apply (bf_q b H)).
    replace (env_flow e ft) with (flow_of e ft) by (destruct ft; reflexivity). cbn [convert]. apply vec_eq; unfold vneg, minus3; cbn [vx vy vz]; ring.
  - unfold GetCOGVelocityInBody. apply vel_in_body; auto.
Qed.
Lemma ang_world b : body_facts b -> turn (body_map b) (BGetAngularVelocityInBody b NWU) = BGetAngularVelocityInWorld b NWU.
Proof. intros H. rewrite (bf_turn b H). unfold BGetAngularVelocityInBody. apply vel_in_body; auto. Qed.
Lemma turn_dot b x y : body_facts b -> dot3 (turn (body_map b) x) (turn (body_map b) y) = dot3 x y.
Proof. intros H. rewrite !(bf_turn b H). apply qrotate_dot. apply (bf_q b H). Qed.
(** one setter *)
Lemma one_op b o s : reachable b -> exists w, reads_as b s w /\ reads_as b (force_step b o s) (force_means (body_map b) (GetCOGPositionInWorld b NWU) o w).
Proof.
  intros R. destruct (force_some b s R) as [w Hw]. exists w. split; [exact Hw|]. exact (force_sequence b [o] s w R Hw).
Qed.

(** damping *)
Lemma lin_reads e b l s : reachable b -> let g := body_map b in let v := cog_rel_vel e b (ld_relative l) (ld_fluid l) in let w := BGetAngularVelocityInBody b NWU in let d := ld_mat l in
  reads_as b (lin_compute e b l s) (W (turn g (V (row6 d 0 v w) (row6 d 1 v w) (row6 d 2 v w))) (turn g (V (row6 d 3 v w) (row6 d 4 v w) (row6 d 5 v w))) (GetCOGPositionInWorld b NWU)).
Proof.
  intros R. cbv zeta. set (f := V (row6 _ 0 _ _) _ _). set (t := V (row6 _ 3 _ _) _ _). destruct (one_op b (FOBothBodyCOG f t NWU) s R) as [w [_ H]]. exact H.
Qed.
Lemma row6_val d i v w : row6 d i v w = - (d i 0%nat * vx v + d i 1%nat * vy v + d i 2%nat * vz v + d i 3%nat * vx w + d i 4%nat * vy w + d i 5%nat * vz w).
Proof. unfold row6, six, gen6, fold_left. ring. Qed.
Lemma form6_val d v w : form6 d (gen6 v w) =
  - (dot3 (V (row6 d 0 v w) (row6 d 1 v w) (row6 d 2 v w)) v + dot3 (V (row6 d 3 v w) (row6 d 4 v w) (row6 d 5 v w)) w).
Proof. rewrite !row6_val. unfold form6, dot3, gen6. cbn [map sum_list vx vy vz]. ring. Qed.
Lemma check_ok l : lin_check l = Ok l <-> forall i j, (i < 6)%nat -> (j < 6)%nat -> 0 <= ld_mat l i j.
Proof.
  unfold lin_check. split.
  - intros H i j I J. destruct (existsb _ six) eqn:E; [discriminate|]. apply Rnot_lt_le. intros L.
    assert (IN : forall k, (k < 6)%nat -> In k six). { intros k K. unfold six. cbn. do 6 (destruct k as [|k]; [tauto|]). lia. }
    assert (X : existsb (fun i0 : nat => existsb (fun j0 : nat => if Rlt_dec (ld_mat l i0 j0) 0 then true else false) six) six = true).
    { apply existsb_exists. exists i. split; [apply IN; auto|]. apply existsb_exists. exists j. split; [apply IN; auto|]. destruct (Rlt_dec (ld_mat l i j) 0); [reflexivity|contradiction]. }
    congruence.
  - intros H. destruct (existsb _ six) eqn:E; [|reflexivity]. exfalso. apply existsb_exists in E. destruct E as [i [I E]]. apply existsb_exists in E. destruct E as [j [J E]].
    assert (LT : forall k, In k six -> (k < 6)%nat). { intros k K. unfold six in K. cbn in K. lia. }
    specialize (H i j (LT i I) (LT j J)). destruct (Rlt_dec (ld_mat l i j) 0); [lra|discriminate].
Qed.
Lemma check_cases l : lin_check l = Ok l \/ lin_check l = Throws.
Proof. unfold lin_check. destruct (existsb _ six); auto. Qed.
Lemma quad_reads e b q s : reachable b -> exists w, reads_as b s w /\
  let v := cog_rel_vel e b (qd_relative q) (qd_fluid q) in let rho := GetFluidDensity e (qd_fluid q) in
  reads_as b (quad_compute e b q s) (W (turn (body_map b)
    (V (- (1 / 2) * rho * vx (qd_S q) * vx (qd_C q) * vx v * Rabs (vx v))
       (- (1 / 2) * rho * vy (qd_S q) * vy (qd_C q) * vy v * Rabs (vy v))
       (- (1 / 2) * rho * vz (qd_S q) * vz (qd_C q) * vz v * Rabs (vz v)))) (moment_of w (GetCOGPositionInWorld b NWU)) (GetCOGPositionInWorld b NWU)).
Proof.
  intros R. cbv zeta. set (f := V _ _ _). destruct (one_op b (FOForceBody f NWU) s R) as [w [A H]]. exists w. split; [exact A|exact H].
Qed.
Lemma abs_cube x : x * (x * Rabs x) = Rabs x ^ 3.
Proof. unfold Rabs. destruct (Rcase_abs x); ring. Qed.

(** manoeuvring *)
Lemma count_eq c s : count_char c s = occurrences c s.
Proof.
  unfold count_char, occurrences. f_equal. induction (list_ascii_of_string s) as [|a l IH]; [reflexivity|]. cbn. destruct (Ascii.eqb a c) eqn:E.
  - apply Ascii.eqb_eq in E. subst. destruct (ascii_dec c c); [|congruence]. cbn. rewrite IH. reflexivity.
  - apply Ascii.eqb_neq in E. destruct (ascii_dec a c); [congruence|exact IH].
Qed.
Lemma factor_eq m x : factor (split_exp m) x = mixed_power m x.
Proof.
  unfold split_exp, mixed_power, factor. destruct (0 <? m)%Z eqn:E.
  - apply Z.ltb_lt in E. destruct (m <=? 0)%Z eqn:E2; [apply Z.leb_le in E2; lia|]. assert (Q : Z.to_nat (Z.quot m 2) = (Z.to_nat m / 2)%nat). { rewrite Z.quot_div_nonneg by lia. rewrite Z2Nat.inj_div by lia. reflexivity. } rewrite Q. reflexivity.
  - apply Z.ltb_ge in E. destruct (m <=? 0)%Z eqn:E2; [reflexivity|apply Z.leb_gt in E2; lia].
Qed.
Definition pterm (p : param) (t : term) : Prop := forall u v r, ForceComponent p u v r = term_value t u v r.
Lemma params_term val a b c : pterm (SetParams val a b c) (Term val a b c).
Proof. intros u v r. unfold ForceComponent, SetParams, term_value. cbn [pr_val pr_m pr_n pr_p tm_val tm_u tm_v tm_r]. rewrite !factor_eq. reflexivity. Qed.
Lemma params_tag tag val : pterm (SetParamsTag tag val) (tag_term tag val).
Proof. unfold SetParamsTag, tag_term. rewrite !count_eq. apply params_term. Qed.
Definition on_axis (m : manoeuvring) (a : axis) : list param := match a with Surge => mn_x m | Sway => mn_y m | Yaw => mn_n m end.
Lemma F2_snoc l l' p t : Forall2 pterm l l' -> pterm p t -> Forall2 pterm (l ++ [p]) (l' ++ [t]).
Proof. intros. apply Forall2_app; auto. Qed.
Lemma run_terms ops : forall m m' L, (forall a, Forall2 pterm (on_axis m a) (L a)) -> man_run ops m = Ok m' ->
  forall a, Forall2 pterm (on_axis m' a) (terms_after a ops (L a)).
Proof.
  induction ops as [|o r IH]; intros m m' L H E a; cbn [man_run] in E; [injection E as <-; apply H|].
  destruct (man_step o m) as [m1| | | |] eqn:S1; cbn [rbind] in E; try discriminate.
  assert (ST : forall a, Forall2 pterm (on_axis m1 a) (terms_after a [o] (L a))).
  { intros a'. pose proof (H a') as Ha. destruct o; cbn [man_step] in S1; cbn [terms_after];
      try (injection S1 as <-; destruct a'; cbn [axis_eqb on_axis addX addY addN mn_x mn_y mn_n] in *; try exact Ha; apply F2_snoc; [exact Ha|apply params_tag || apply params_term]).
    - destruct tag as [|c tag]; [discriminate|]. cbv zeta in S1.
      destruct (Ascii.eqb c "X") eqn:EX; [apply Ascii.eqb_eq in EX; subst c; injection S1 as <-; destruct a'; cbn; try exact Ha; apply F2_snoc; [exact Ha|apply params_tag]|].
      destruct (Ascii.eqb c "Y") eqn:EY; [apply Ascii.eqb_eq in EY; subst c; injection S1 as <-; destruct a'; cbn; try exact Ha; apply F2_snoc; [exact Ha|apply params_tag]|].
      destruct (Ascii.eqb c "N") eqn:EN; [apply Ascii.eqb_eq in EN; subst c; injection S1 as <-; destruct a'; cbn; try exact Ha; apply F2_snoc; [exact Ha|apply params_tag]|].
      injection S1 as <-. destruct a'; cbn [letter]; [rewrite EX|rewrite EY|rewrite EN]; exact Ha.
    - injection S1 as <-. destruct a'; constructor. }
  pose proof (IH m1 m' _ ST E a) as R. destruct o; exact R.
Qed.
Lemma man_sum_eq ps ts u v r : Forall2 pterm ps ts -> man_sum ps u v r = axis_force ts u v r.
Proof.
  intros H. unfold man_sum, axis_force. rewrite <- (Rplus_0_l (- _)). generalize 0. induction H as [|p t ps ts P F IH]; intros x; cbn [fold_left map sum_list]; [lra|]. rewrite IH, P. lra.
Qed.
Lemma man_reads b m s : reachable b -> let g := body_map b in
  let u := vx (GetVelocityInBody b NWU) in let v := vy (GetVelocityInBody b NWU) in let r := vz (BGetAngularVelocityInBody b NWU) in
  reads_as b (man_compute b m s) (W (turn g (V (man_sum (mn_x m) u v r) (man_sum (mn_y m) u v r) 0)) (turn g (V 0 0 (man_sum (mn_n m) u v r))) (GetCOGPositionInWorld b NWU)).
Proof.
  intros R. cbv zeta. set (f := V (man_sum (mn_x m) _ _ _) _ _). set (t := V 0 0 _). destruct (one_op b (FOBothBodyCOG f t NWU) s R) as [w [_ H]]. exact H.
Qed.
Lemma mixed_abs m x : (0 <= m)%Z -> Rabs (mixed_power m x) = Rabs x ^ Z.to_nat m.
Proof.
  intros M. unfold mixed_power. destruct (m <=? 0)%Z eqn:E.
  - apply Z.leb_le in E. replace m with 0%Z by lia. cbn. apply Rabs_R1.
  - rewrite Rabs_mult, <- !RPow_abs, Rabs_Rabsolu, <- pow_add. f_equal. pose proof (Nat.div_le_upper_bound (Z.to_nat m) 2 (Z.to_nat m) ltac:(lia) ltac:(lia)). lia.
Qed.
