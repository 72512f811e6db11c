(** C158 - C169: Morison elements. *)
From Coq Require Import Reals List Bool Lra Psatz Lia.
From Verif Require Import SeaModel GeoModel GeoSpec GeoProofs BodyModel BodySpec BodyProofs4 MorModel MorSpec MorProofs MorProofs2 MorProofs3 MorProofs4 MorProofs5 MorProofs6 MorProofs7.
Import ListNotations.
Open Scope R_scope.
Local Notation turn := BodySpec.turn.

(** C158: a tube built between two points of a body: its node is at the middle, along the tube, its length and its
    volume are those of the cylinder; it stays there whatever the body does, and the body and its other nodes are not
    changed by the construction. *)
Theorem C158_placed : forall tol junk b A B d ca cd cf v, 0 <= tol -> reachable b -> A <> B -> good_reference A B v -> no_coeff_negative ca cd cf d ->
  exists b1 h p e1 e2 e3, tube_AB tol junk b A B d ca cd cf v = Ok (b1, Tube h p) /\ reachable b1 /\ (forall x, body_map b1 x = body_map b x) /\
    (forall i m, nth_error (b_marks b) i = Some m -> nth_error (b_marks b1) i = Some m) /\ p_cd p = cd /\ p_ca p = ca /\ p_cf p = cf /\
    p_length p = size3 (minus3 B A) /\ p_diameter p = d /\ p_volume p = tube_volume d (size3 (minus3 B A)) /\ tube_axes A B v e1 e2 e3 /\
    forall l, Forall body_ok l -> Forall no_node_op l -> let b2 := body_run l b1 in node_stands b2 (h_node h) A B e1 e2 e3 /\
      exists m, nth_error (b_marks b2) (h_node h) = Some m /\ forall x, act (NGetFrameInWorld m) x = body_map b2 (tube_point A B e1 e2 e3 x).
Proof. exact placed. Qed.
Theorem C158_from_nodes : forall tol junk b i j d ca cd cf v a c, reachable b -> nth_error (b_marks b) i = Some a -> nth_error (b_marks b) j = Some c ->
  tube_nodes tol junk b i j d ca cd cf v = tube_AB tol junk b (NGetPositionInBody b a NWU) (NGetPositionInBody b c NWU) d ca cd cf v.
Proof. exact nodes_eq. Qed.
(** the default reference direction (the third axis) with a vertical tube, and with a tube that is not vertical *)
Example C158_hypotheses : reachable newbody /\ V 0 0 (-1) <> V 0 0 1 /\ good_reference (V 0 0 (-1)) (V 0 0 1) (V 0 0 1) /\ good_reference (V 0 0 0) (V 1 0 0) (V 0 0 1) /\ no_coeff_negative (Co 0 0) (Co 1 1) 0 1.
Proof.
  split; [exists []; split; [constructor|reflexivity]|]. split; [exact low_high|]. split; [exact good_z|]. split; [|exact coeffs_ok]. left. pose proof eps_small.
  replace (cross3 (V 0 0 1) (minus3 (V 1 0 0) (V 0 0 0))) with (V 0 1 0) by (apply vec_eq; unfold cross3, minus3; cbn [vx vy vz]; ring). unfold size3, dot3, minus3. cbn [vx vy vz].
  replace ((1 - 0) * (1 - 0) + (0 - 0) * (0 - 0) + (0 - 0) * (0 - 0)) with 1 by ring. replace (0 * 0 + 1 * 1 + 0 * 0) with 1 by ring. rewrite sqrt_1. lra.
Qed.

(** C159: force of one tube, for every attitude of the body: the law of Morison for the axes of the tube turned twice
    by the rotation of the body, with the water read at the middle of the tube and the velocity relative to that point,
    applied at the middle of the tube; for an upright body these axes are those of the tube. *)
Theorem C159_law : forall b i A B e1 e2 e3 s acc h p P0 v0 w0 f, reachable b -> node_stands b i A B e1 e2 e3 -> h_node h = i -> velocity_reads_everywhere b P0 v0 w0 ->
  let g := body_map b in let P := g (middle A B) in exists f' e',
  morison_compute s acc b (Tube h p) f = Ok (f', e') /\
  reads_as b f' (W (morison_force s (acc i) (h_current h) (h_extended h) p (turn g (turn g e1)) (turn g (turn g e2)) (turn g (turn g e3)) P (rigid_velocity P0 v0 w0 P)) origin P).
Proof. exact tube_law. Qed.
Theorem C159_upright : forall b i A B e1 e2 e3 s acc h p P0 v0 w0 f, reachable b -> node_stands b i A B e1 e2 e3 -> h_node h = i -> velocity_reads_everywhere b P0 v0 w0 ->
  (forall x, turn (body_map b) x = x) -> let P := body_map b (middle A B) in exists f' e',
  morison_compute s acc b (Tube h p) f = Ok (f', e') /\
  reads_as b f' (W (morison_force s (acc i) (h_current h) (h_extended h) p e1 e2 e3 P (rigid_velocity P0 v0 w0 P)) origin P).
Proof.
  intros b i A B e1 e2 e3 s acc h p P0 v0 w0 f RB ST HI VR U. destruct (tube_law b i A B e1 e2 e3 s acc h p P0 v0 w0 f RB ST HI VR) as (f' & e' & X1 & X2). cbv zeta in *. rewrite !U in X2. exists f', e'. auto.
Qed.
(** a vertical tube 2 m long in a flow of 3 m/s with a current of 1 m/s: 1/2 1000 1 2 (3 + 1)^2 N *)
Example C159_sample : exists b e, tube_AB (1 / 10) false (body_run [BOSetRotation qone] newbody) (V 0 0 (-1)) (V 0 0 1) 1 (Co 0 0) (Co 1 1) 0 (V 1 0 0) = Ok (b, e) /\
  exists f' e', let b2 := body_run [BOSetGenVelInBodyAtPointInBody origin origin origin NWU] b in
  morison_compute (still 1000 (V 3 0 0) origin (V 1 0 0)) (fun _ => origin) b2 (SetIncludeCurrent (SetExtendedModel e false) true) (Force vzero vzero) = Ok (f', e') /\ GetForceInWorld f' NWU = V 16000 0 0.
Proof.
  destruct (upright_force (Co 1 1) (Co 0 0) 0 false true (still 1000 (V 3 0 0) origin (V 1 0 0)) (fun _ => origin) origin false coeffs_ok) as (b & e & EB & _ & _ & _ & f' & e' & t & T & X1 & X2). exists b, e. split; [exact EB|]. exists f', e'. cbv zeta. split; [exact X1|].
  rewrite X2. unfold morison_force. cbv zeta. rewrite m3_0. cbn [p_cd p_cf p_diameter p_length]. rewrite drag_xyz by (assumption || ring). cbn [sea_rho sea_wave sea_current still co_x co_y plus3 vx vy vz]. rewrite !Rplus_0_r, Rabs_R0, (Rabs_right (3 + 1)) by lra. apply vec_eq; cbn [vx vy vz]; field.
Qed.

(** C160: a composite model, whatever its nesting, applies the sum of the wrenches of its tubes. *)
Theorem C160_sum : forall b e s acc f f' e' ws P, reachable b -> morison_compute s acc b e f = Ok (f', e') ->
  Forall2 (fun t w => forall f1, exists f2 e2, morison_compute s acc b (Tube (fst t) (snd t)) f1 = Ok (f2, e2) /\ reads_as b f2 w) (tubes e) ws ->
  reads_as b f' (total_wrench ws P).
Proof. exact group_wrench. Qed.
(** ... and every model whose nodes are on the body can be computed *)
Theorem C160_total : forall b e s acc f P0 v0 w0, reachable b -> velocity_reads_everywhere b P0 v0 w0 -> Forall (fun t => (h_node (fst t) < length (b_marks b))%nat) (tubes e) ->
  exists f' e' ws, morison_compute s acc b e f = Ok (f', e') /\
  Forall2 (fun t w => forall f1, exists f2 e2, morison_compute s acc b (Tube (fst t) (snd t)) f1 = Ok (f2, e2) /\ reads_as b f2 w) (tubes e) ws.
Proof.
  intros b e s acc f P0 v0 w0 RB VR FT.
  assert (K : exists ws, Forall2 (fun t w => forall f1, exists f2 e2, morison_compute s acc b (Tube (fst t) (snd t)) f1 = Ok (f2, e2) /\ reads_as b f2 w) (tubes e) ws).
  { induction FT as [|t l Ht _ IH]; [exists []; constructor|]. destruct IH as [ws A]. destruct (any_node b (h_node (fst t)) RB Ht) as (p & e1 & e2 & e3 & ST). eexists (_ :: ws). constructor; [|exact A]. intros f1. exact (tube_law b (h_node (fst t)) p p e1 e2 e3 s acc (fst t) (snd t) P0 v0 w0 f1 RB ST eq_refl VR). }
  destruct K as [ws A]. destruct (update_all s acc b e) as [e' EU].
  { intros t IT. clear - A IT RB. induction A as [|t0 w l ws H _ IH]; [destruct IT|]. destruct IT as [->|IT]; [|apply IH; exact IT]. destruct (H (Force vzero vzero)) as (f2 & e2 & X1 & _). destruct (compute_reads _ _ _ _ _ _ _ RB X1) as [X2 _]. eauto. }
  unfold morison_compute. rewrite EU. cbn [rbind]. do 2 eexists. exists ws. split; [reflexivity|exact A].
Qed.

(** C161: in water at rest, without the forces of inertia, a Morison model never gives power to the body, for every
    attitude and every motion of the body. *)
Theorem C161_passive : forall b e s acc P0 v0 w0 f, reachable b -> velocity_reads_everywhere b P0 v0 w0 -> (forall X, sea_wave s X = origin) -> (forall X, sea_current s X = origin) -> 0 <= sea_rho s ->
  Forall (fun t => (h_node (fst t) < length (b_marks b))%nat /\ passive t) (tubes e) ->
  exists f' e' w, morison_compute s acc b e f = Ok (f', e') /\ reads_as b f' w /\ power_on w P0 v0 w0 <= 0.
Proof. exact still_power. Qed.
(** a tube moving at 1 m/s across the water at rest loses 1000 W *)
Example C161_sample : exists b e, tube_AB (1 / 10) false (body_run [BOSetRotation qone] newbody) (V 0 0 (-1)) (V 0 0 1) 1 (Co 0 0) (Co 1 1) 0 (V 1 0 0) = Ok (b, e) /\
  exists f' e', let b2 := body_run [BOSetGenVelInBodyAtPointInBody origin (V 1 0 0) origin NWU] b in reachable b2 /\ velocity_reads_everywhere b2 origin (V 1 0 0) origin /\
  morison_compute (still 1000 origin origin origin) (fun _ => origin) b2 (SetIncludeCurrent (SetExtendedModel e false) false) (Force vzero vzero) = Ok (f', e') /\ dot3 (GetForceInWorld f' NWU) (V 1 0 0) = -1000.
Proof.
  destruct (upright_force (Co 1 1) (Co 0 0) 0 false false (still 1000 origin origin origin) (fun _ => origin) (V 1 0 0) false coeffs_ok) as (b & e & EB & RB & _ & VR & f' & e' & t & T & X1 & X2). exists b, e. split; [exact EB|]. exists f', e'. cbv zeta. split; [exact RB|]. split; [exact VR|]. split; [exact X1|].
  rewrite X2. unfold morison_force. cbv zeta. cbn [p_cd p_cf p_diameter p_length]. rewrite drag_xyz by (assumption || ring). unfold dot3. cbn [sea_rho sea_wave still co_x co_y plus3 minus3 origin vx vy vz]. rewrite (Rabs_left (0 + 0 - 1)) by lra. field.
Qed.

(** C162: a tube divided into n elements in uniform water, on a body that does not turn, applies the same wrench for
    every n: that of the whole tube at its middle. *)
Theorem C162_division : forall tol jk cur b A B d ca cd cf n v y x, reachable b -> 0 <= tol -> (0 < n)%nat -> A <> B -> good_reference A B v -> no_coeff_negative ca cd cf d ->
  FLT_EPS < size3 (minus3 B A) / INR n -> FLT_EPS < d ->
  exists bn en en' e1 e2 e3, group_run tol [GSetIncludeCurrent y; GAddTube (fun _ => cur) A B d ca cd cf n v; GSetExtendedModel x] (new_group jk b) = Ok (bn, en) /\ Initialize en = Ok en' /\ length (tubes en') = n /\ tube_axes A B v e1 e2 e3 /\
  forall l s a acc P0 v0 f, Forall body_ok l -> Forall no_node_op l -> let b2 := body_run l bn in let g := body_map b2 in uniform_sea s -> (forall i, acc i = a) -> velocity_reads_everywhere b2 P0 v0 origin ->
  exists f' e', morison_compute s acc b2 en' f = Ok (f', e') /\
    reads_as b2 f' (W (morison_force s a cur x (Props cd ca cf d (size3 (minus3 B A)) (tube_volume d (size3 (minus3 B A)))) (turn g (turn g e1)) (turn g (turn g e2)) (turn g (turn g e3)) (g (middle A B)) v0) origin (g (middle A B))).
Proof. exact split_wrench. Qed.
Example C162_hypotheses : FLT_EPS < size3 (minus3 (V 0 0 1) (V 0 0 (-1))) / INR 10 /\ uniform_sea (still 1000 (V 1 2 3) (V 1 0 0) origin) /\
  exists b, reachable b /\ velocity_reads_everywhere b origin (V 1 0 0) origin.
Proof.
  split; [|split; [split; [reflexivity|split; reflexivity]|]].
  - change (minus3 (V 0 0 1) (V 0 0 (-1))) with (minus3 high low). rewrite size_high. pose proof eps_small. replace (INR 10) with 10 by (cbn; ring). lra.
  - destruct (upright_force (Co 1 1) (Co 0 0) 0 false false (still 1000 origin origin origin) (fun _ => origin) (V 1 0 0) false coeffs_ok) as (b & e & EB & RB & _ & VR & _). exists (body_run [BOSetGenVelInBodyAtPointInBody origin (V 1 0 0) origin NWU] b). auto.
Qed.

(** C163: on a turned body the force is not that of the tube: a tube without friction, of a body pitched by 90
    degrees, in a flow along its axis, feels a force of 2 N. *)
Theorem C163_turned_refuted : exists b e, tube_AB (1 / 10) false (body_run [BOSetRotation pitched] newbody) (V 0 0 (-1)) (V 0 0 1) 1 (Co 0 0) (Co 1 1) 0 (V 1 0 0) = Ok (b, e) /\
  let b2 := body_run [BOSetGenVelInBodyAtPointInBody origin origin origin NWU] b in reachable b2 /\ minus3 (body_map b2 (V 0 0 1)) (body_map b2 (V 0 0 (-1))) = V 2 0 0 /\ velocity_reads_everywhere b2 origin origin origin /\
  exists f' e', morison_compute (still 2 (V 1 0 0) origin origin) (fun _ => origin) b2 e (Force vzero vzero) = Ok (f', e') /\ GetForceInWorld f' NWU = V 2 0 0.
Proof. exact pitched_bad. Qed.

(** C164: SetIncludeCurrent(true) on a composite model has no effect on its elements: whether the current is included
    depends on what was in memory when they were built. *)
Theorem C164_current_refuted : forall b (junk : bool), reachable b -> exists bn en en',
  group_run (1 / 10) [GSetIncludeCurrent true; GAddTube (fun _ => junk) (V 0 0 (-1)) (V 0 0 1) 1 (Co 0 0) (Co 1 1) 0 1 (V 1 0 0); GSetExtendedModel false] (new_group junk b) = Ok (bn, en) /\ Initialize en = Ok en' /\
  Forall (fun t => h_current (fst t) = junk) (tubes en').
Proof.
  intros b junk RB. destruct (split_wrench (1 / 10) junk junk b low high 1 (Co 0 0) (Co 1 1) 0 1 (V 1 0 0) true false RB ltac:(lra) ltac:(lia) low_high good_x coeffs_ok) as (bn & en & en' & e1 & e2 & e3 & E1 & E2 & _).
  { rewrite size_high. pose proof eps_small. cbn [INR]. lra. } { pose proof eps_small. lra. }
  exists bn, en, en'. split; [exact E1|]. split; [exact E2|]. unfold new_group in E1. cbn [group_run group_step fst snd rbind] in E1. unfold SetIncludeCurrent in E1. cbn [header_of set_header h_node h_current h_extended h_force h_torque new_header fst snd] in E1.
  unfold split_tube in E1. cbn [split_from] in E1. cbv zeta in E1. destruct (tube_AB _ _ _ _ _ _ _ _ _ _) as [[b1 t1]| | | |] eqn:ET; cbn [rbind fst snd] in E1; try discriminate. cbn [push fst snd group_step rbind] in E1. injection E1 as _ <-.
  unfold tube_AB in ET. destruct (check_props _ _ _ _); [|discriminate]. destruct (SetFrameAB _ _ _ _ _) as [r0| | | |]; cbn [rbind] in ET; try discriminate. injection ET as _ <-.
  unfold SetExtendedModel in E2. cbn [header_of set_header app] in E2. rewrite init_group in E2. cbn [init_list] in E2. unfold new_tube in E2. cbn [Initialize] in E2.
  destruct (Rlt_dec _ _); cbn [rbind] in E2; [|discriminate]. destruct (Rlt_dec _ _); cbn [rbind] in E2; [|discriminate]. injection E2 as <-. cbn [tubes flat_map app SetExtendedModel set_header header_of]. repeat constructor.
Qed.

(** C165: a reference direction parallel to a tube along the first axis of the body: the axes are not orthogonal and
    the construction fails, whatever the tolerance below one half. *)
Theorem C165_reference_refuted : forall tol junk b d ca cd cf, 0 <= tol < 1 / 2 -> no_coeff_negative ca cd cf d -> tube_AB tol junk b (V 0 0 0) (V 1 0 0) d ca cd cf (V 1 0 0) = Fails.
Proof.
  intros tol junk b d ca cd cf [T1 T2] NC. unfold tube_AB. rewrite (check_ok _ _ _ _ NC). unfold SetFrameAB, frame_axes. cbv zeta. change (vsub (V 1 0 0) (V 0 0 0)) with (minus3 (V 1 0 0) (V 0 0 0)).
  assert (W1 : minus3 (V 1 0 0) (V 0 0 0) = V 1 0 0) by (apply vec_eq; unfold minus3; cbn [vx vy vz]; ring). rewrite W1. assert (U1 : vnormalize (V 1 0 0) = V 1 0 0) by (apply normalize_unit; unfold dot3; cbn [vx vy vz]; ring). rewrite U1.
  assert (C0 : vcross (V 1 0 0) (V 1 0 0) = origin) by (apply vec_eq; unfold vcross, origin; cbn [vx vy vz]; ring). rewrite C0. pose proof eps_small.
  assert (N0 : vnorm origin = 0) by (unfold vnorm, vdot, origin; cbn [vx vy vz]; rewrite <- sqrt_0 at 7; f_equal; ring). rewrite N0, Rabs_R0. destruct (Rlt_dec FLT_EPS 0) as [L|_]; [exfalso; lra|]. rewrite C0.
  unfold Rot_SetAxes. assert (IC : IsClose tol (vdot (V 1 0 0) (V 1 0 0)) 0 = false). { unfold IsClose. destruct (Rle_dec _ _) as [L|_]; [|reflexivity]. exfalso. unfold vdot in L. cbn [vx vy vz] in L. rewrite Rabs_right in L by lra. lra. }
  rewrite IC. rewrite !andb_false_r. reflexivity.
Qed.

(** C166: with the forces of inertia, a body that accelerates in water at rest feels rho (1 + ca) V times its
    acceleration instead of rho ca V: even for a tube without added mass. *)
Theorem C166_inertia_refuted : exists b e, tube_AB (1 / 10) false (body_run [BOSetRotation qone] newbody) (V 0 0 (-1)) (V 0 0 1) 1 (Co 0 0) (Co 1 1) 0 (V 1 0 0) = Ok (b, e) /\
  let b2 := body_run [BOSetGenVelInBodyAtPointInBody origin origin origin NWU] b in reachable b2 /\ (forall x, body_map b2 x = x) /\ velocity_reads_everywhere b2 origin origin origin /\
  exists f' e', morison_compute (still 1000 origin origin origin) (fun _ => V 1 0 0) b2 (SetIncludeCurrent (SetExtendedModel e true) false) (Force vzero vzero) = Ok (f', e') /\ GetForceInWorld f' NWU = V (- (1000 * tube_volume 1 2)) 0 0.
Proof.
  destruct (upright_force (Co 1 1) (Co 0 0) 0 true false (still 1000 origin origin origin) (fun _ => V 1 0 0) origin false coeffs_ok) as (b & e & EB & RB & BM & VR & f' & e' & t & T & X1 & X2). exists b, e. split; [exact EB|]. cbv zeta. split; [exact RB|]. split; [exact BM|]. split; [exact VR|]. exists f', e'. split; [exact X1|].
  rewrite X2. unfold morison_force. cbv zeta. cbn [p_cd p_cf p_ca p_diameter p_length p_volume]. rewrite drag_xyz by (assumption || ring). unfold inertia_on, tube_volume, dot3, scal3. cbn [sea_rho sea_wave sea_wave_acc still co_x co_y plus3 minus3 origin vx vy vz]. rewrite !Rplus_0_r, !Rminus_0_r, !Rabs_R0.
  apply sq_cases in T. destruct T as [->| ->]; apply vec_eq; unfold plus3; cbn [vx vy vz]; field.
Qed.

(** C167: the elements of a composite model have the properties given with them or the default properties in force
    when they were added, and after the initialisation each has the option of the composite for the forces of inertia. *)
Theorem C167_properties : forall tol jk ops b b' e', group_run tol ops (new_group jk b) = Ok (b', e') ->
  exists h p l, e' = Group h p l /\ map (fun x => quality_of (match x with Tube _ q => q | Group _ q _ => q end)) l = qualities ops (Co 0 0, Co 0 0, 0, 0).
Proof. intros tol jk ops b b' e' E. destruct (settings tol ops _ _ _ _ _ _ E) as (h & p & l & E1 & E2). exists h, p, l. auto. Qed.
Theorem C167_option : forall h p l e, Initialize (Group h p l) = Ok e -> exists l', e = Group h p l' /\ Forall (fun x => h_extended (match x with Tube q _ => q | Group q _ _ => q end) = h_extended h) l'.
Proof. intros h p l e E. rewrite init_group in E. destruct (init_list _ _) as [l'| | | |] eqn:EL; cbn [rbind] in E; try discriminate. injection E as <-. exists l'. split; [reflexivity|]. exact (init_flags _ _ _ EL). Qed.
Example C167_sample : qualities [GSetDrag (Co 1 1); GAddTubeDefault (fun _ => false) (V 0 0 0) (V 0 0 1) 2 (V 1 0 0); GSetDrag (Co 3 3); GAddFrameDefault false fident 1] (Co 0 0, Co 0 0, 0, 0) =
  [(Co 1 1, Co 0 0, 0, 0); (Co 1 1, Co 0 0, 0, 0); (Co 3 3, Co 0 0, 0, 0)].
Proof. reflexivity. Qed.

(** C168: the option does not reach the elements of a composite inside a composite: they are initialised before the
    inner composite receives it. *)
Theorem C168_nested_refuted : forall i j k d ca cd cf len, FLT_EPS < len -> FLT_EPS < d ->
  exists e, Initialize (SetExtendedModel (Group (new_header false i) new_property [Group (new_header false j) new_property [new_tube false k ca cd cf d len]]) true) = Ok e /\
  Forall (fun t => h_extended (fst t) = false) (tubes e) /\ length (tubes e) = 1%nat.
Proof.
  intros i j k d ca cd cf len HL HD. unfold SetExtendedModel. cbn [header_of set_header]. rewrite init_group. cbn [init_list]. rewrite init_group. cbn [init_list]. unfold new_tube. cbn [Initialize].
  change (p_length (SetVolume (Props cd ca cf d len 0))) with len. change (p_diameter (SetVolume (Props cd ca cf d len 0))) with d. destruct (Rlt_dec FLT_EPS len) as [_|N]; [|contradiction]. destruct (Rlt_dec FLT_EPS d) as [_|N]; [|contradiction].
  cbn [rbind]. eexists. split; [reflexivity|]. cbn. repeat constructor.
Qed.

(** C169: the drag of a tube with the same coefficient in both directions depends on the reference direction that was
    used to place its axes, and is not along the flow across the tube. *)
Theorem C169_round_refuted : exists e1 e2 e3 e1' e2' e3', tube_axes (V 0 0 (-1)) (V 0 0 1) (V 1 0 0) e1 e2 e3 /\ tube_axes (V 0 0 (-1)) (V 0 0 1) (V (3 / 5) (4 / 5) 0) e1' e2' e3' /\
  let u := V 3 4 0 in drag_on 2 (Co 1 1) 0 1 2 e1 e2 e3 u <> drag_on 2 (Co 1 1) 0 1 2 e1' e2' e3' u /\ cross3 (drag_on 2 (Co 1 1) 0 1 2 e1 e2 e3 u) u <> origin.
Proof.
  pose proof (axes3 low high (V 1 0 0) low_high good_x) as TA. pose proof (axes3 low high (V (3 / 5) (4 / 5) 0) low_high (good_flat (3 / 5) (4 / 5) ltac:(lra))) as TB.
  do 6 eexists. split; [exact TA|]. split; [exact TB|]. destruct (vertical_axes 1 0 _ _ _ ltac:(lra) TA) as (t & T & -> & -> & ->). destruct (vertical_axes (3 / 5) (4 / 5) _ _ _ ltac:(lra) TB) as (t' & T' & -> & -> & ->). cbv zeta.
  replace (V (- (t * 0)) (t * 1) 0) with (V 0 t 0) by (apply vec_eq; cbn [vx vy vz]; ring). replace (V (- (t * 1)) (- (t * 0)) 0) with (V (- t) 0 0) by (apply vec_eq; cbn [vx vy vz]; ring).
  rewrite (drag_xyz 2 (Co 1 1) 0 1 2 (V 3 4 0) t (- t) 1) by nra. cbn [co_x co_y vx vy vz]. rewrite (Rabs_right 3), (Rabs_right 4), Rabs_R0 by lra. split.
  - unfold drag_on, quad_along. replace (dot3 (V 3 4 0) (V (- (t' * (4 / 5))) (t' * (3 / 5)) 0)) with 0 by (unfold dot3; cbn [vx vy vz]; field). replace (dot3 (V 3 4 0) (V (- (t' * (3 / 5))) (- (t' * (4 / 5))) 0)) with (- 5 * t') by (unfold dot3; cbn [vx vy vz]; field).
    intros E. apply (f_equal vx) in E. unfold plus3, scal3 in E. cbn [vx vy vz co_x co_y] in E. apply sq_cases in T'. destruct T' as [->| ->]; [rewrite (Rabs_left (-5 * 1)) in E by lra|rewrite (Rabs_right (-5 * -1)) in E by lra]; rewrite ?Rabs_R0 in E; lra.
  - intros E. apply (f_equal vz) in E. unfold cross3, origin in E. cbn [vx vy vz] in E. lra.
Qed.
