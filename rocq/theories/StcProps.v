(** Properties C219-C230: static analysis, links, simple solids, mooring buoy. *)
From Coq Require Import Reals List ZArith Bool Lra Lia.
From Verif Require Import GeoModel GeoSpec BodyModel BodySpec InertiaModel SeaModel StcModel StcSpec StcProofs StcProofs2 StcProofs3.
Import ListNotations.
Open Scope R_scope.

(** A system for the examples: a body with a force that is not part of static analyses, a link, an item *)
Definition demo : sys unit :=
  Sys [(1%nat, SB newbody false false [(2%nat, Item true false)])] [(3%nat, Link false false true None)] [(4%nat, Item false true)] tt 7 (1/10) (0, 0, 10, 1).
Definition still_dyn (s : sys unit) (t : R) : (nat -> body) * unit := (fun _ => newbody, tt).
Definition id_mesh (u : unit) : unit := u.
Definition no_residual (u : unit) : R := 0.
Definition three : statics := SetNbIteration (new_statics (0, 0, 0, 0)) 3.

(** C219: the first static analysis gives back, whatever the dynamics does, the time, the time ramp and the activity of every body, force, link and
    physics item that were there before it; it never stops the program, and ends within the number of iterations asked for. *)
Theorem C219_static_restores : forall (F : Type) (mesh_relax : F -> F) mesh_residual dyn fuel a s,
  (forall r a' s', st_map a = [] -> NoDup (addresses s) -> SolveStatic mesh_relax mesh_residual dyn fuel a s = Ok (r, a', s') ->
     y_time s' = y_time s /\ y_ramp s' = y_ramp s /\ y_step s' = y_step s /\
     body_activity s' = body_activity s /\ force_activity s' = force_activity s /\ link_activity s' = link_activity s /\ item_activity s' = item_activity s) /\
  ((0 <= st_iter a)%Z -> (Z.to_nat (st_iter a) <= fuel)%nat -> exists r a' s', SolveStatic mesh_relax mesh_residual dyn fuel a s = Ok (r, a', s')).
Proof.
  intros F mr mres dyn fuel a s. split; [|apply solve_ends]. intros r a' s' E N H. destruct (after mr mres _ _ _ _ _ _ _ H) as (_ & _ & _ & T1 & T2 & T3 & _).
  split; [exact T1|]. split; [exact T2|]. split; [exact T3|]. exact (activity_after mr mres _ _ _ _ _ _ _ E N H).
Qed.
Example C219_inhabited : st_map three = [] /\ NoDup (addresses demo) /\ exists r a' s', SolveStatic id_mesh no_residual still_dyn 3 three demo = Ok (r, a', s').
Proof.
  split; [reflexivity|]. split; [cbn; repeat constructor; cbn; intuition lia|]. apply solve_ends; cbn; lia.
Qed.

(** C220: during the analysis the dynamics only runs with every body awake, every link enabled, exactly the forces and items that are part of static analyses
    active, and a zero time ramp: two dynamics that agree on such systems give the same analysis. *)
Theorem C220_static_configuration : forall (F : Type) (mesh_relax : F -> F) mesh_residual dyn dyn',
  (forall s t, static_configuration s -> dyn s t = dyn' s t) ->
  forall fuel a s, SolveStatic mesh_relax mesh_residual dyn fuel a s = SolveStatic mesh_relax mesh_residual dyn' fuel a s.
Proof.
  intros F mr mres dyn dyn' Q fuel a s. unfold SolveStatic. pose proof (init_static a s) as I. destruct (st_initialize a s) as [a1 s1]. cbn [snd] in I.
  rewrite (loop_dyn mr mres dyn dyn' Q fuel a1 s1 0 I). reflexivity.
Qed.
Example C220_inhabited : static_configuration (snd (st_initialize three demo)) /\ ~ static_configuration demo.
Proof.
  split; [apply init_static|]. intros (_ & _ & C & _). specialize (C (4%nat, Item false true) (or_introl eq_refl)). discriminate.
Qed.

(** C221: a successful analysis with a non-negative time step ends with a residual below the tolerance, in the third iteration or later; the bodies are
    left where they were then; without relaxation each of them moves and turns slower than the tolerance, and with the relaxation of the velocities, whatever
    the verdict, all bodies are at rest. *)
Theorem C221_static_verdict : forall (F : Type) (mesh_relax : F -> F) mesh_residual dyn fuel a s r a' s',
  (forall s t i, reachable (fst (dyn s t) i)) -> all_bodies s reachable -> SolveStatic mesh_relax mesh_residual dyn fuel a s = Ok (r, a', s') ->
  (exists sm, same_places sm s' /\ (r = true -> 0 <= y_step s * IZR (st_nsteps a) ->
     residual mesh_residual sm < st_tol a /\ exists k, (2 <= k)%Z /\ ((0 <= st_iter a)%Z -> (k < st_iter a)%Z) /\
       y_time s + y_step s * IZR (st_nsteps a) < y_time sm <= y_time s + IZR k * y_step s * IZR (st_nsteps a))) /\
  (r = true -> st_relax a = NORELAX -> 0 <= y_step s * IZR (st_nsteps a) -> (forall f, 0 <= mesh_residual f) ->
     all_bodies s' (fun b => vnorm (GetLinearVelocityInWorld b NWU) < st_tol a /\ vnorm (BGetAngularVelocityInWorld b NWU) < st_tol a)) /\
  (st_relax a = VELOCITY \/ st_relax a = VELOCITYANDACCELERATION -> all_bodies s' at_rest).
Proof.
  intros F mr mres dyn fuel a s r a' s' D B H. destruct (solve_inv mr mres _ _ _ _ _ _ _ H) as (Ea & sm & L & Sh & Es').
  assert (st_relax a' = st_relax a) as R1 by (rewrite Ea; reflexivity). assert (st_tol a' = st_tol a) as R2 by (rewrite Ea; reflexivity). assert (st_iter a' = st_iter a) as R3 by (rewrite Ea; reflexivity).
  assert (st_nsteps a' = st_nsteps a) as R4 by (rewrite Ea; reflexivity). assert (st_undo a' = y_time s) as R5 by (rewrite Ea; reflexivity).
  set (i := snd (st_initialize a s)) in *. assert (y_time i = y_time s) as I1 by reflexivity. assert (y_step i = y_step s) as I2 by reflexivity.
  assert (all_bodies i reachable) as I3. { intros e He. unfold i, st_initialize in He. cbn [snd y_bodies] in He. apply in_map_iff in He. destruct He as [e0 [<- He]]. exact (B e0 He). }
  assert (all_bodies sm reachable) as I4 by (eapply reachable_loop; eassumption).
  assert (y_bodies s' = map (fun e => (fst e, SB (relax_body (st_relax a) (sb_body (snd e))) (negb (rec_of (st_map a') (fst e))) (sb_fixed (snd e)) (map (fun f => (fst f, ISetActive (snd f) (rec_of (st_map a') (fst f)))) (sb_forces (snd e))))) (y_bodies sm)) as Eb.
  { rewrite Es'. cbn [y_bodies set_flags Relax]. rewrite map_map, R1. reflexivity. }
  assert (forall P : body -> Prop, (forall b, reachable b -> P (relax_body (st_relax a) b)) -> all_bodies s' P) as W.
  { intros P HP e He. rewrite Eb in He. apply in_map_iff in He. destruct He as [e0 [<- He]]. cbn. apply HP. exact (I4 e0 He). }
  assert (r = true -> 0 <= y_step s * IZR (st_nsteps a) -> residual mres sm < st_tol a /\ exists k, (2 <= k)%Z /\ ((0 <= st_iter a)%Z -> (k < st_iter a)%Z) /\
       y_time s + y_step s * IZR (st_nsteps a) < y_time sm <= y_time s + IZR k * y_step s * IZR (st_nsteps a)) as V.
  { intros -> P. rewrite <- I2, <- R4 in P. destruct (loop_verdict mr mres dyn fuel a' i 0 sm P) as (V1 & V2 & k & V3 & V4 & V5 & V6); [lia|rewrite I1, R5; cbn [Z.max Z.sub Z.add Z.opp Pos.add Z.compare]; lra|exact L|].
    rewrite R2 in V1. rewrite R4, R5, I2 in *. split; [exact V1|]. exists k. split; [exact V4|]. split; [intro; rewrite <- R3; apply V5; lia|lra]. }
  split; [|split].
  - exists sm. split; [|exact V]. unfold same_places. rewrite Eb. clear - I4. unfold all_bodies in I4. induction (y_bodies sm) as [|e t IH]; [constructor|]. cbn [map]. constructor.
    + split; [reflexivity|]. intro x. cbn [snd fst sb_body]. symmetry. apply relax_map. apply I4. left; reflexivity.
    + apply IH. intros e' He. apply I4. right; exact He.
  - intros Hr N P M. destruct (V Hr P) as [V1 _]. intros e He. rewrite Eb in He. apply in_map_iff in He. destruct He as [e0 [<- He]]. cbn [snd fst sb_body]. rewrite N. cbn [relax_body].
    destruct (residual_bound mres sm e0 M He). lra.
  - intro Hr. apply W. intros b Hb. apply relax_rest; assumption.
Qed.
Example C221_inhabited : (forall s t i, reachable (fst (still_dyn s t) i)) /\ all_bodies demo reachable /\ exists a' s', SolveStatic id_mesh no_residual still_dyn 3 three demo = Ok (true, a', s').
Proof.
  assert (reachable newbody) as N by (exists []; split; [constructor|reflexivity]). split; [intros; exact N|]. split; [intros e [<-|[]]; exact N|].
  pose (a := fst (st_initialize three demo)). pose (s0 := snd (st_initialize three demo)).
  assert (exists sm, st_loop id_mesh no_residual still_dyn 3 a s0 0 = Ok (true, sm)) as [sm L].
  { assert (forall s : sys unit, y_bodies s = [(1%nat, SB newbody false false [(2%nat, Item false false)])] -> residual no_residual s < 1 / 1000) as Z0.
    { intros s E. unfold residual, no_residual. rewrite E. cbn [fold_left snd sb_body]. unfold GetLinearVelocityInWorld, BGetAngularVelocityInWorld, Wvel_par, vnorm, newbody, swap_if, vdot.
      cbn [IsNED b_ref b_cog mf_vel mf_qdt mf_frame fident vzero qzero frot qone qconj qmul qim qscale q0 q1 q2 q3 vx vy vz vscale].
      assert (forall x y, x = 0 -> y = 0 -> 0 + (sqrt x + sqrt y) + 0 < 1 / 1000) as Q by (intros x y -> ->; rewrite sqrt_0; lra). apply Q; ring. }
    cbn [st_loop]. change (st_iter a) with 3%Z. cbn [Z.eqb Z.add Pos.eqb Pos.add Pos.succ].
    set (u1 := AdvanceTo still_dyn (Relax id_mesh s0 (st_relax a)) _). set (u2 := AdvanceTo still_dyn (Relax id_mesh u1 (st_relax a)) _). set (u3 := AdvanceTo still_dyn (Relax id_mesh u2 (st_relax a)) _).
    assert (y_step u1 = 1/10 /\ y_time u1 = 7 /\ shell u1 = shell s0) as (P1 & T1 & H1).
    { split; [unfold u1; rewrite (step_shell _ _ (shell_advance _ _ _)); reflexivity|]. split; [unfold u1; rewrite time_advance; cbn; unfold Rmax; destruct (Rle_dec _ _); lra|unfold u1; rewrite shell_advance; apply shell_relax]. }
    assert (y_step u2 = 1/10 /\ y_time u2 = 17 /\ shell u2 = shell s0) as (P2 & T2 & H2).
    { split; [unfold u2; rewrite (step_shell _ _ (shell_advance _ _ _)); exact P1|]. split; [unfold u2; rewrite time_advance; cbn; rewrite P1, T1; unfold Rmax; destruct (Rle_dec _ _); lra|unfold u2; rewrite shell_advance, shell_relax; exact H1]. }
    assert (y_step u3 = 1/10 /\ y_time u3 = 27) as (P3 & T3).
    { split; [unfold u3; rewrite (step_shell _ _ (shell_advance _ _ _)); exact P2|unfold u3; rewrite time_advance; cbn; rewrite P2, T2; unfold Rmax; destruct (Rle_dec _ _); lra]. }
    assert (residual no_residual u3 < 1/1000) as R3.
    { apply Z0. assert (y_time (Relax id_mesh u2 (st_relax a)) = 17) as Q by exact T2. assert (y_step (Relax id_mesh u2 (st_relax a)) = 1/10) as Q2 by exact P2.
      assert (map (fun e => (fst e, (sb_sleeping (snd e), sb_fixed (snd e), sb_forces (snd e)))) (y_bodies (Relax id_mesh u2 (st_relax a))) = map (fun e => (fst e, (sb_sleeping (snd e), sb_fixed (snd e), sb_forces (snd e)))) (y_bodies s0)) as Q3.
      { pose proof (shell_relax id_mesh u2 (st_relax a)) as Q3. rewrite H2 in Q3. exact (f_equal (fun x => fst (fst (fst (fst x)))) Q3). }
      unfold u3, AdvanceTo. destruct (Rlt_dec _ _) as [|Nq]; [|exfalso; apply Nq; rewrite Q, Q2; change (st_undo a) with 7; change (st_nsteps a) with 100%Z; lra].
      cbn [y_bodies still_dyn fst]. revert Q3. generalize (y_bodies (Relax id_mesh u2 (st_relax a))). intros l Q3. destruct l as [|[k [b1 b2 b3 b4]] [|]]; cbn in Q3; inversion Q3; subst. reflexivity. }
    rewrite T1, T2, T3, P1, P2, P3. change (st_undo a) with 7. change (st_nsteps a) with 100%Z. change (st_tol a) with (1/1000).
    destruct (Rlt_dec (7 + 1/10 * 100) 7); [lra|]. destruct (Rlt_dec (7 + 1/10 * 100) 17); [lra|]. destruct (Rlt_dec (7 + 1/10 * 100) 27); [|lra].
    destruct (Rlt_dec (residual no_residual u3) (1/1000)); [|lra].
    destruct (Rlt_dec (residual no_residual u1) (1/1000)), (Rlt_dec (residual no_residual u2) (1/1000)); eauto. }
  destruct (solve_ends id_mesh no_residual still_dyn 3 three demo) as (r & a' & s' & H); [cbn; lia|cbn; lia|].
  pose proof H as H0. unfold SolveStatic in H0. change (st_initialize three demo) with (a, s0) in H0. cbv beta iota in H0. rewrite L in H0. cbn [rbind fst snd] in H0.
  destruct (st_finalize id_mesh a sm); try discriminate. cbn [rbind] in H0. inversion H0; subst. eauto.
Qed.

(** C222: the activities recorded by the first analysis are never replaced: after a second one, forces and items are active as they were before the first one,
    whatever was asked in between. *)
Theorem C222_static_activity_refuted : forall (F : Type) (mesh_relax : F -> F) mesh_residual dyn fuel fuel' a s r a1 s1 s2 r2 a2 s3,
  st_map a = [] -> NoDup (addresses s) -> SolveStatic mesh_relax mesh_residual dyn fuel a s = Ok (r, a1, s1) -> layout s2 = layout s ->
  SolveStatic mesh_relax mesh_residual dyn fuel' a1 s2 = Ok (r2, a2, s3) ->
  force_activity s3 = force_activity s /\ item_activity s3 = item_activity s.
Proof.
  intros F mr mres dyn fuel fuel' a s r a1 s1 s2 r2 a2 s3 E N H L H2. eapply stale; [|exact L|exact N|exact H2].
  intros k v I. eapply record_after; eassumption.
Qed.
Example C222_inhabited : exists s2 : sys unit, layout s2 = layout demo /\ item_activity s2 <> item_activity demo.
Proof. exists (set_flags demo (y_bodies demo) (y_links demo) [(4%nat, Item true true)]). split; [reflexivity|discriminate]. Qed.

(** C223: a body fixed in the world is put to sleep by the analysis, and a broken link is disabled: once released or repaired, they stay inactive. *)
Theorem C223_static_fixed_refuted : forall (F : Type) (mesh_relax : F -> F) mesh_residual dyn fuel a s r a' s',
  st_map a = [] -> NoDup (addresses s) -> SolveStatic mesh_relax mesh_residual dyn fuel a s = Ok (r, a', s') ->
  (forall k b, In (k, b) (y_bodies s) -> sb_fixed b = true -> exists b', In (k, b') (y_bodies s') /\ sb_fixed b' = true /\ BIsActive (SetFixedInWorld b' false) = false) /\
  (forall k l, In (k, l) (y_links s) -> lk_broken l = true -> exists l', In (k, l') (y_links s') /\ lk_breakable l' = lk_breakable l /\ LIsActive (SetBroken l' false) = false) /\
  (forall b, sb_sleeping b = false -> BIsActive (SetFixedInWorld b false) = true) /\
  (forall l, lk_breakable l = true -> lk_disabled l = false -> LIsActive (SetBroken l false) = true).
Proof.
  intros F mr mres dyn fuel a s r a' s' E N H. destruct (after mr mres _ _ _ _ _ _ _ H) as (A & B & _ & _ & _ & _ & M). rewrite E in M.
  pose proof (fun k v => recorded (st_map a') s k v M N) as K. split; [|split; [|split]].
  - intros k b I Fx. assert (In (sh (k, SB (sb_body b) true true (map (fun f => (fst f, ISetActive (snd f) (rec_of (st_map a') (fst f)))) (sb_forces b)))) (map sh (y_bodies s'))) as J.
    { rewrite A. apply in_map_iff. exists (k, b). split; [|exact I]. unfold sh. pose proof (K _ _ (saved_body s (k, b) I)) as Kb. cbn [fst snd] in Kb. cbn [fst snd sb_sleeping sb_fixed sb_forces]. rewrite Kb. unfold BIsActive. rewrite Fx, andb_false_r. reflexivity. }
    apply in_map_iff in J. destruct J as [[k' b'] [Q J]]. unfold sh in Q. cbn in Q. pose proof (f_equal fst Q) as Q1. pose proof (f_equal (fun x => fst (fst (snd x))) Q) as Q2. pose proof (f_equal (fun x => snd (fst (snd x))) Q) as Q3. cbn [fst snd] in Q1, Q2, Q3. subst k'. exists b'. split; [exact J|]. split; [exact Q3|].
    unfold BIsActive, SetFixedInWorld. cbn. rewrite Q2. reflexivity.
  - intros k l I Bk. exists (LSetDisabled (LSetDisabled l false) true). split.
    + rewrite B. apply in_map_iff. exists (k, l). split; [|exact I]. pose proof (K _ _ (saved_link s (k, l) I)) as Kb. cbn [fst snd] in Kb |- *. rewrite Kb. unfold LIsActive. rewrite Bk, andb_false_r. reflexivity.
    + split; [reflexivity|]. unfold SetBroken, LIsActive, LSetDisabled. cbn. destruct (lk_breakable l); reflexivity.
  - intros b S0. unfold BIsActive, SetFixedInWorld. cbn. rewrite S0. reflexivity.
  - intros l Bk S0. unfold LIsActive, SetBroken. rewrite Bk. cbn. rewrite S0. reflexivity.
Qed.
Example C223_inhabited : exists s : sys unit, NoDup (addresses s) /\ In (5%nat, SB newbody false true []) (y_bodies s) /\ In (3%nat, Link false true true None) (y_links s).
Proof.
  exists (set_flags demo [(5%nat, SB newbody false true [])] [(3%nat, Link false true true None)] []). split; [cbn; repeat constructor; cbn; intuition lia|]. split; left; reflexivity.
Qed.

(** C224: with two iterations or fewer the analysis always fails, and with a negative number of iterations it never ends unless it succeeds. *)
Theorem C224_static_iterations_refuted : forall (F : Type) (mesh_relax : F -> F) mesh_residual dyn fuel a s,
  ((0 <= st_iter a <= 2)%Z -> 0 <= y_step s * IZR (st_nsteps a) -> forall r a' s', SolveStatic mesh_relax mesh_residual dyn fuel a s = Ok (r, a', s') -> r = false) /\
  ((st_iter a < 0)%Z -> (forall s, st_tol a <= residual mesh_residual s) -> SolveStatic mesh_relax mesh_residual dyn fuel a s = Running).
Proof.
  intros F mr mres dyn fuel a s. split.
  - intros I P r a' s' H. destruct (solve_inv mr mres _ _ _ _ _ _ _ H) as (Ea & sm & L & _ & _). destruct r; [exfalso|reflexivity].
    rewrite Ea in L. destruct (loop_verdict mr mres dyn fuel (fst (st_initialize a s)) (snd (st_initialize a s)) 0 sm) as (_ & _ & k & _ & V4 & V5 & _); [exact P|lia|cbn; lra|exact L|].
    cbn [st_initialize fst st_iter] in V5. specialize (V5 ltac:(lia)). lia.
  - intros I T. unfold SolveStatic. destruct (st_initialize a s) as [a1 s1] eqn:E. rewrite (never mr mres); [reflexivity| |lia|]; unfold st_initialize in E; inversion E; cbn [st_iter st_tol]; assumption.
Qed.
Example C224_inhabited : exists a : statics, (st_iter a < 0)%Z /\ forall s : sys unit, st_tol a <= residual no_residual s.
Proof.
  exists (SetTolerance (SetNbIteration three (-1)) 0). split; [cbn; lia|]. intro s. cbn [st_tol SetTolerance]. apply (residual_nneg no_residual). intros []. unfold no_residual. lra.
Qed.

(** C225: disabling and enabling a link, or breaking and repairing it, gives it back with its motor; an unbreakable link ignores the order to break. *)
Theorem C225_links : forall l,
  (LIsActive (LSetDisabled l true) = false /\ LIsActive (LSetDisabled l false) = negb (lk_broken l)) /\
  (lk_actuator l <> Some true -> lk_disabled l = false -> LSetDisabled (LSetDisabled l true) false = l) /\
  (lk_breakable l = true -> LIsActive (SetBroken l true) = false /\ (lk_actuator l <> Some true -> lk_broken l = false -> SetBroken (SetBroken l true) false = l)) /\
  (lk_breakable l = false -> forall b, SetBroken l b = l).
Proof.
  intros [d b k o]. unfold LIsActive, SetBroken, LSetDisabled, act_SetDisabled, IsMotorized. cbn. split; [split; reflexivity|]. split; [|split].
  - intros H ->. destruct o as [[|]|]; [contradiction| |]; reflexivity.
  - intros ->. cbn. rewrite andb_false_r. split; [reflexivity|]. intros H ->. destruct o as [[|]|]; [contradiction| |]; reflexivity.
  - intros ->. reflexivity.
Qed.
Example C225_inhabited : lk_actuator (Link false false true (Some false)) <> Some true.
Proof. discriminate. Qed.

(** C226: the motor of a broken link runs again as soon as the link is enabled, as every static analysis does; and repairing a disabled link starts its motor. *)
Theorem C226_broken_motor_refuted : forall l d, lk_breakable l = true -> lk_actuator l = Some d ->
  (let l' := LSetDisabled (SetBroken l true) false in LIsActive l' = false /\ lk_actuator l' = Some false) /\
  (let l' := SetBroken (LSetDisabled l true) false in LIsActive l' = false /\ lk_actuator l' = Some false).
Proof.
  intros [dd b k o] d. cbn. intros -> ->. split; split; reflexivity.
Qed.
Example C226_inhabited : exists l, lk_breakable l = true /\ lk_actuator l = Some false.
Proof. exists (Link false false true (Some false)). split; reflexivity. Qed.

(** C227: a box, a cylinder, a sphere and a mooring buoy have the mass, the centre of gravity and the inertia of the homogeneous solid of their
    dimensions, whatever the body was before. *)
Theorem C227_easy_inertia : forall b, reachable (mb_body (eb_mbody b)) -> forall m,
  (forall x y z, 0 < x -> 0 < y -> 0 < z -> homogeneous (box_integral x y z) m (BGetInertiaTensor (eb_mbody (makeItBox b x y z m)))) /\
  (forall r h, 0 < r -> 0 < h -> homogeneous (cylinder_integral r h) m (BGetInertiaTensor (eb_mbody (makeItCylinder b r h m)))) /\
  (forall r, 0 < r -> homogeneous (ball_integral r) m (BGetInertiaTensor (eb_mbody (makeItSphere b r m)))) /\
  (forall r, 0 < r -> homogeneous (ball_integral r) m (BGetInertiaTensor (bu_body (new_buoy r m)))).
Proof.
  intros b H m. split; [|split; [|split]].
  - intros. apply box_homog; assumption.
  - intros. apply cyl_homog; assumption.
  - intros r Hr. exact (ball_homog (eb_mbody b) r m H Hr).
  - intros r Hr. apply (ball_homog (MBody newbody 0 (M 0 0 0 0 0 0 0 0 0)) r m); [|exact Hr]. exists []. split; [constructor|reflexivity].
Qed.
Example C227_inhabited : reachable newbody.
Proof. exists []. split; [constructor|reflexivity]. Qed.

(** C228: the solid that collides is the solid that is shown: same points; a second call replaces the collision shape but keeps the old visual one. *)
Theorem C228_easy_shapes : forall b m (p : vec),
  (forall x y z, exists c v, eb_collision (makeItBox b x y z m) = [c] /\ eb_visual (makeItBox b x y z m) = (eb_visual b ++ [v])%list /\
     (inside c p <-> inside v p) /\ (inside c p <-> Rabs (vx p) <= x / 2 /\ Rabs (vy p) <= y / 2 /\ Rabs (vz p) <= z / 2)) /\
  (forall r h, 0 < r -> 0 < h -> exists c v, eb_collision (makeItCylinder b r h m) = [c] /\ eb_visual (makeItCylinder b r h m) = (eb_visual b ++ [v])%list /\
     (inside c p <-> inside v p) /\ (inside c p <-> vx p * vx p + vz p * vz p <= r * r /\ Rabs (vy p) <= h / 2)) /\
  (forall r, exists c v, eb_collision (makeItSphere b r m) = [c] /\ eb_visual (makeItSphere b r m) = (eb_visual b ++ [v])%list /\
     (inside c p <-> inside v p) /\ (inside c p <-> dot3 p p <= r * r)).
Proof.
  intros b m p. split; [|split].
  - intros x y z. exists (Box (x * (1/2)) (y * (1/2)) (z * (1/2))), (BoxShape x y z). split; [reflexivity|]. split; [reflexivity|].
    assert (E : forall a, a * (1/2) = a / 2) by (intro; field). unfold BoxShape. rewrite !E. split; reflexivity.
  - intros r h Hr Hh. exists (EllipticCylinder r r (h * (1/2))), (CylinderShape r h). split; [reflexivity|]. split; [reflexivity|].
    split; [apply cyl_points; assumption|]. apply cyl_solid. exact Hr.
  - intros r. exists (Sphere r), (SphereShape r). split; [reflexivity|]. split; [reflexivity|]. split; reflexivity.
Qed.
Example C228_inhabited : inside (CylinderShape 2 6) (V 1 (-3) (-1)) /\ ~ inside (CylinderShape 2 6) (V 1 (-4) (-1)).
Proof.
  split.
  - apply cyl_points; [lra|lra|]. apply cyl_solid; [lra|]. cbn. split; [lra|]. unfold Rabs. destruct (Rcase_abs _); lra.
  - intro H. apply cyl_points in H; [|lra|lra]. apply cyl_solid in H; [|lra]. cbn in H. unfold Rabs in H. destruct (Rcase_abs _); lra.
Qed.

(** C229: the volume of the buoy after an update is the volume of the part of the ball below the water surface at its centre: none when it is out of the
    water, the whole ball when it is under it, and never less when the water rises; and once the buoy has been updated at a place, the hydrostatic force
    that it has there at the next update is the weight of the water displaced, upwards. *)
Theorem C229_buoy_volume : forall r m, 0 <= r -> forall l s,
  let p := BGetPosition (si_body s) NWU in
  let d := si_eta s (vx p) (vy p) - vz p in
  bu_volume (buoy_run (new_buoy r m) ((l ++ [s])%list)) = Some (wetted_volume r d) /\
  0 <= wetted_volume r d <= 4 / 3 * PI * (r * r * r) /\
  (d <= - r -> wetted_volume r d = 0) /\ (r <= d -> wetted_volume r d = 4 / 3 * PI * (r * r * r)) /\
  (forall d', d <= d' -> wetted_volume r d <= wetted_volume r d') /\
  bu_force (buoy_run (new_buoy r m) (l ++ [s; s])%list) = Some (V 0 0 (si_rho s * si_g s * wetted_volume r d)).
Proof.
  intros r m H l s p d. split; [|split; [|split; [|split; [|split]]]]; try apply (wetted_bounds r d H).
  - unfold buoy_run. rewrite fold_left_app. cbn [fold_left]. change (fold_left buoy_step l (new_buoy r m)) with (buoy_run (new_buoy r m) l).
    rewrite step_volume; rewrite run_radius; [reflexivity|exact H].
  - apply two_steps. exact H.
Qed.
Example C229_inhabited : wetted_volume 1 0 = 2 / 3 * PI /\ (1 <= 2 /\ wetted_volume 1 2 = 4 / 3 * PI).
Proof.
  split; [|split; [lra|]].
  - rewrite wetted by lra. unfold Rmax, Rmin. cbv zeta. destruct (Rle_dec 1 0); [lra|]. destruct (Rle_dec (- (1)) 0); [field|lra].
  - destruct (wetted_bounds 1 2) as (_ & _ & K & _); [lra|]. rewrite K by lra. field.
Qed.

(** C230: the force lags one update behind: at the first update it comes from a volume that was never computed, and then always from the volume of the
    update before; a buoy that has left the water keeps the push it had in it. *)
Theorem C230_buoy_force_refuted :
  (forall r m s, bu_force (buoy_run (new_buoy r m) [s]) = None) /\
  (forall r m l s s', 0 <= r -> let p := BGetPosition (si_body s) NWU in
     bu_force (buoy_run (new_buoy r m) (l ++ [s; s'])) = Some (V 0 0 (si_rho s' * si_g s' * wetted_volume r (si_eta s (vx p) (vy p) - vz p)))) /\
  (forall r m rho g, 0 < r -> 0 < rho -> 0 < g -> exists s s',
     let p := BGetPosition (si_body s') NWU in si_rho s' = rho /\ si_g s' = g /\ si_eta s' (vx p) (vy p) - vz p <= - r /\
     exists f, bu_force (buoy_run (new_buoy r m) [s; s']) = Some f /\ f = V 0 0 (rho * g * (4 / 3 * PI * (r * r * r))) /\ 0 < vz f).
Proof.
  split; [reflexivity|]. split; [intros r m l s s' H p; apply two_steps; exact H|].
  intros r m rho g Hr Hrho Hg. set (p := BGetPosition newbody NWU).
  exists (Situation newbody (fun _ _ => vz p + r) rho g), (Situation newbody (fun _ _ => vz p - r) rho g). cbn [si_body si_eta si_rho si_g]. fold p. cbv zeta.
  split; [reflexivity|]. split; [reflexivity|]. split; [lra|].
  eexists. split; [exact (two_steps r m [] _ _ ltac:(lra))|]. unfold wet. cbn [si_body si_eta si_rho si_g]. fold p.
  destruct (wetted_bounds r (vz p + r - vz p)) as (_ & _ & K & _); [lra|]. rewrite K by lra. split; [reflexivity|]. cbn [vz].
  generalize PI_RGT_0. generalize PI. intros q Q. repeat apply Rmult_lt_0_compat; lra.
Qed.
