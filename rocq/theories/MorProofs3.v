(** Proofs for C159 - C161: the law for a tube, the wrench, the power. *)
From Coq Require Import Reals List Bool Lra Psatz Lia.
From Verif Require Import SeaModel GeoModel GeoSpec GeoProofs GeoProofs2 GeoProofs3 GeoProofs4 BodyModel BodySpec BodyProofs BodyProofs2 BodyProofs3 BodyProofs4 BodyProps MorModel MorSpec MorProofs MorProofs2.
Import ListNotations.
Open Scope R_scope.
Local Notation turn := BodySpec.turn.

Lemma canon_nth F v d c Ns i m : nth_error (b_marks (canon F v d c Ns)) i = Some m -> exists N, nth_error Ns i = Some N /\ m = mkn F v d c N.
Proof.
  rewrite marks_can, nth_error_map. destruct (nth_error Ns i) as [N|]; cbn [option_map]; [|discriminate]. intros E. injection E as <-. exists N. auto.
Qed.
Lemma tp_0 A B e1 e2 e3 : tube_point A B e1 e2 e3 origin = middle A B.
Proof. apply vec_eq; unfold tube_point, plus3, scal3, origin; cbn [vx vy vz]; ring. Qed.
Lemma qr_0 q : qrotate q origin = origin.
Proof. destruct q as [a b c d]. apply vec_eq; unfold qrotate, origin; cbn [q0 q1 q2 q3 vx vy vz]; ring. Qed.
Lemma stands_frame F v d c Ns i A B e1 e2 e3 : Forall unitf Ns -> node_stands (canon F v d c Ns) i A B e1 e2 e3 ->
  exists N, nth_error Ns i = Some N /\ unitf N /\ fpos N = middle A B /\ qrotate (frot N) ex = e1 /\ qrotate (frot N) ey = e2 /\ qrotate (frot N) ez = e3.
Proof.
  intros UN (m & E & H). apply canon_nth in E. destruct E as (N & E & ->). exists N. split; [exact E|].
  assert (U : unitf N) by (apply nth_error_In in E; rewrite Forall_forall in UN; auto). split; [exact U|].
  assert (K : forall x, plus3 (fpos N) (qrotate (frot N) x) = tube_point A B e1 e2 e3 x) by (intros x; rewrite <- (act_eq N x U), <- H, ngfb_can; reflexivity).
  assert (P : fpos N = middle A B). { rewrite <- (tp_0 A B e1 e2 e3), <- K, qr_0. symmetry. apply p3_0r. } split; [exact P|].
  assert (X : forall x, qrotate (frot N) x = plus3 (plus3 (scal3 (vx x) e1) (scal3 (vy x) e2)) (scal3 (vz x) e3)).
  { intros x. specialize (K x). rewrite P in K. unfold tube_point in K. pose proof (f_equal vx K). pose proof (f_equal vy K). pose proof (f_equal vz K). apply vec_eq; unfold plus3 in *; cbn [vx vy vz] in *; lra. }
  rewrite !X. repeat split; apply vec_eq; unfold plus3, scal3, ex, ey, ez; cbn [vx vy vz]; ring.
Qed.
Lemma tube_law b i A B e1 e2 e3 s acc h p P0 v0 w0 f : reachable b -> node_stands b i A B e1 e2 e3 -> h_node h = i -> velocity_reads_everywhere b P0 v0 w0 ->
  let g := body_map b in let P := g (middle A B) in exists f' e',
  morison_compute s acc b (Tube h p) f = Ok (f', e') /\
  reads_as b f' (W (morison_force s (acc i) (h_current h) (h_extended h) p (turn g (turn g e1)) (turn g (turn g e2)) (turn g (turn g e3)) P (rigid_velocity P0 v0 w0 P)) origin P).
Proof.
  intros RB ST HI VR. cbv zeta. pose proof RB as RB'. destruct (reach_can b RB') as (F & v & d & c & Ns & -> & HF & HN). destruct (stands_frame _ _ _ _ _ _ _ _ _ _ _ HN ST) as (N & E & U & FP & X1 & X2 & X3).
  destruct (update_tube F v d c Ns N HF U s acc h p) as (t & EU & ET); [rewrite HI; exact E|].
  assert (EC : exists f' e', morison_compute s acc (canon F v d c Ns) (Tube h p) f = Ok (f', e')) by (unfold morison_compute; rewrite EU; cbn [rbind]; eauto).
  destruct EC as (f' & e' & EC). exists f', e'. split; [exact EC|]. destruct (compute_reads _ _ _ _ _ _ _ RB EC) as [EM RD]. rewrite EU in EM. injection EM as <-.
  unfold MGetForceInWorld, MGetTorqueInBody in RD. cbn [header_of h_force h_torque swap_if IsNED] in RD. rewrite turn_can, ET in RD.
  destruct VR as (_ & _ & VN). destruct (VN i (mkn F v d c N)) as [VN1 _]; [rewrite marks_can; apply map_nth_error; exact E|]. specialize (VN1 NWU). cbn [convert] in VN1.
  assert (PP : fpos (chmul F N) = body_map (canon F v d c Ns) (middle A B)) by (rewrite bmap_can, <- FP; reflexivity).
  assert (PN : NGetPositionInWorld (mkn F v d c N) NWU = body_map (canon F v d c Ns) (middle A B)) by (change (NGetPositionInWorld (mkn F v d c N) NWU) with (fpos (NGetFrameInWorld (mkn F v d c N))); rewrite ngfw_can; exact PP).
  rewrite PN in VN1. assert (TF : tube_force F v d c N s (acc (h_node h)) h p = morison_force s (acc i) (h_current h) (h_extended h) p (turn (body_map (canon F v d c Ns)) (turn (body_map (canon F v d c Ns)) e1)) (turn (body_map (canon F v d c Ns)) (turn (body_map (canon F v d c Ns)) e2)) (turn (body_map (canon F v d c Ns)) (turn (body_map (canon F v d c Ns)) e3)) (body_map (canon F v d c Ns) (middle A B)) (rigid_velocity P0 v0 w0 (body_map (canon F v d c Ns) (middle A B)))).
  { unfold tube_force, morison_force, water. cbv zeta. rewrite VN1, PP, HI, !turn_can. unfold seen. rewrite X1, X2, X3. reflexivity. }
  rewrite TF in RD. rewrite PP in RD. apply (reads_weq_ext _ _ _ _ RB) with (2 := RD). split; [reflexivity|]. intros X. unfold moment_of. cbn [w_force w_moment w_point]. apply vec_eq; unfold plus3, cross3, minus3, origin; cbn [vx vy vz]; ring.
Qed.
(** sum of the wrenches of the tubes *)
Lemma moment_sum (F : vec -> vec) ws : (forall a b, F (plus3 a b) = plus3 (F a) (F b)) -> F origin = origin -> sum3 (map F ws) = F (sum3 ws).
Proof. intros H0 H1. induction ws as [|a r IH]; [symmetry; exact H1|]. cbn [map]. change (sum3 (?x :: ?y)) with (plus3 x (sum3 y)). rewrite IH, H0. reflexivity. Qed.
Lemma group_wrench b e s acc f f' e' ws P : reachable b -> morison_compute s acc b e f = Ok (f', e') ->
  Forall2 (fun t w => forall f1, exists f2 e2, morison_compute s acc b (Tube (fst t) (snd t)) f1 = Ok (f2, e2) /\ reads_as b f2 w) (tubes e) ws ->
  reads_as b f' (total_wrench ws P).
Proof.
  intros RB E FW. destruct (compute_reads _ _ _ _ _ _ _ RB E) as [EU RD]. destruct (update_tubes _ _ _ _ _ EU) as (vs & FV & S1 & S2). rewrite S1, S2 in RD.
  set (G := GetCOGPositionInWorld b NWU) in *. assert (TL : (forall a c, turn (body_map b) (plus3 a c) = plus3 (turn (body_map b) a) (turn (body_map b) c)) /\ turn (body_map b) origin = origin).
  { destruct (reach_can b RB) as (F & v & d & c & Ns & -> & HF & HN). split; [intros a c'; rewrite !turn_can; apply qrotate_plus|rewrite turn_can; apply qr_0]. }
  destruct TL as [TL T0]. rewrite <- (moment_sum (turn (body_map b))) in RD by assumption.
  assert (K : sum3 (map fst vs) = sum3 (map w_force ws) /\ forall X, plus3 (sum3 (map (turn (body_map b)) (map snd vs))) (cross3 (minus3 G X) (sum3 (map fst vs))) = sum3 (map (fun w => moment_of w X) ws)).
  { clear S1 S2 RD EU E. revert ws FW. induction FV as [|t w l vs HP _ IH]; intros ws FW; inversion FW as [|t0 w0 l0 ws0 HW FW0]; subst.
    - split; [reflexivity|]. intros X. cbn [map sum3 fold_right]. apply vec_eq; unfold plus3, cross3, minus3, origin; cbn [vx vy vz]; ring.
    - destruct (IH ws0 FW0) as [I1 I2]. destruct HP as (t' & ET & ->). destruct (HW (Force vzero vzero)) as (f2 & e2 & EC & RD). destruct (compute_reads _ _ _ _ _ _ _ RB EC) as [EU2 RD2]. rewrite ET in EU2. injection EU2 as <-.
      destruct (reads_same _ _ _ _ RB RD2 RD) as [W1 W2]. cbn [w_force] in W1. cbn [map fst snd]. change (sum3 (?a :: ?r)) with (plus3 a (sum3 r)). split; [rewrite I1, W1; reflexivity|].
      intros X. rewrite <- (I2 X), <- (W2 X). unfold moment_of. cbn [w_force w_moment w_point]. rewrite W1. fold G. apply vec_eq; unfold plus3, cross3, minus3; cbn [vx vy vz]; ring. }
  destruct K as [K1 K2]. apply (reads_weq_ext _ _ _ _ RB) with (2 := RD). split; [cbn [w_force total_wrench]; exact K1|].
  intros X. unfold total_wrench, moment_of at 1. cbn [w_force w_moment w_point]. rewrite K2. unfold moment_of at 2. cbn [w_force w_moment w_point].
  clear. induction ws as [|w r IH]; cbn [map]; [apply vec_eq; unfold sum3, plus3, cross3, minus3, origin; cbn [fold_right vx vy vz]; ring|]. change (sum3 (?a :: ?r0)) with (plus3 a (sum3 r0)). rewrite IH.
  unfold moment_of at 1 3. apply vec_eq; unfold plus3, cross3, minus3; cbn [vx vy vz]; ring.
Qed.
(** power *)
Lemma quad_dot rho c area u a : 0 <= rho -> 0 <= c -> 0 <= area -> 0 <= dot3 (quad_along rho c area u a) u.
Proof.
  intros A B C. unfold quad_along. replace (dot3 (scal3 (1 / 2 * rho * c * area * (dot3 u a * Rabs (dot3 u a))) a) u) with (1 / 2 * (rho * c * area) * ((dot3 u a * dot3 u a) * Rabs (dot3 u a))) by (unfold dot3, scal3; cbn [vx vy vz]; ring).
  pose proof (Rabs_pos (dot3 u a)). assert (0 <= rho * c * area) by (apply Rmult_le_pos; [apply Rmult_le_pos; assumption|assumption]). assert (0 <= (dot3 u a * dot3 u a) * Rabs (dot3 u a)) by (apply Rmult_le_pos; [nra|assumption]). apply Rmult_le_pos; lra.
Qed.
Lemma drag_dot rho cd cf d len a1 a2 a3 u : 0 <= rho -> 0 <= co_x cd -> 0 <= co_y cd -> 0 <= cf -> 0 <= d -> 0 <= len -> 0 <= dot3 (drag_on rho cd cf d len a1 a2 a3 u) u.
Proof.
  intros A B C D E F. unfold drag_on. assert (AR : 0 <= d * len) by (apply Rmult_le_pos; assumption). assert (AP : 0 <= PI * d * len) by (pose proof PI_RGT_0; apply Rmult_le_pos; [apply Rmult_le_pos; lra|assumption]).
  pose proof (quad_dot rho (co_x cd) (d * len) u a1 A B AR). pose proof (quad_dot rho (co_y cd) (d * len) u a2 A C AR). pose proof (quad_dot rho cf (PI * d * len) u a3 A D AP).
  unfold dot3 at 1, plus3. unfold dot3 in H, H0, H1. cbn [vx vy vz] in *. lra.
Qed.
