(** Properties C23-C27: force lists, log paths and system registries.
    [survivors], [path_spec], [lineage], [typed] ... are in RegSpec. *)
From Coq Require Import List String Ascii Bool Arith Lia.
From Verif Require Import RegModel RegSpec RegProofs RegProofs2 RegProofs3 RegProofs4 RegProofs5.
Import ListNotations.
Open Scope string_scope.
Open Scope list_scope.

(** ** C24: log paths *)

(** In every history of calls, whether their exceptions are caught or not, two objects with a path
    have different paths. *)
Theorem C24_unique_paths : forall i n h s o1 o2, sys_run_catch (new_system i n) h = Ok s ->
  GetTreePath s o1 <> "" -> GetTreePath s o1 = GetTreePath s o2 -> o1 = o2.
Proof. intros i n h s o1 o2 H. apply paths_inj. eapply catch_paths; [apply new_paths|left; exact H]. Qed.
(** The path of an object is the concatenation of the labels of its ancestors and its own. *)
Theorem C24_path_is_parent_then_label : forall i n h s o, sys_run_catch (new_system i n) h = Ok s ->
  GetTreePath s o <> "" -> GetTreePath s o = path_spec o.
Proof.
  intros i n h s o H N. rewrite <- GetPath_spec. apply find_tree; auto. eapply catch_paths; [apply new_paths|left; exact H].
Qed.
(** Adding an object with a path throws exactly when some object of that path was registered. *)
Theorem C24_used_path_throws : forall i n h s o, sys_run_catch (new_system i n) h = Ok s -> has_path (kind_of o) = true ->
  ((exists s', Add s o = Throw s') <-> (exists o', GetTreePath s o' = path_spec o)) /\
  ((exists s', Add s o = Ok s') <-> ~ (exists o', GetTreePath s o' = path_spec o)).
Proof.
  intros i n h s o H Hp. assert (P : paths_ok s) by (eapply catch_paths; [apply new_paths|left; exact H]).
  rewrite <- GetPath_spec, <- path_used by auto. split; split.
  - intros [s' E]. apply Add_throw in E. tauto.
  - apply Add_used; auto.
  - intros [s' E] F. destruct (Add_used s o Hp F). congruence.
  - apply Add_unused.
Qed.
(** For names without "/", the path tells the class and the name of the object and all its ancestors. *)
Theorem C24_path_determines_names : forall o1 o2, plain o1 -> plain o2 ->
  path_spec o1 = path_spec o2 -> lineage o1 = lineage o2.
Proof. intros o1 o2 P1 P2. rewrite <- !GetPath_spec. apply plain_inj; auto. Qed.
(** Refuted for other names: a body "a/FORCES/FORCE_f" prevents the force f of another body a. *)
Theorem C104_names_with_slash_refuted : exists o1 o2, kind_of o1 = KBody /\ kind_of o2 = KForce /\ path_spec o1 = path_spec o2 /\
  exists h s s', sys_run (new_system 0 "s") h = Ok s /\ ~ In (SAdd o2) h /\
    AddExternalForce s (Child 2 KBody "a" (Root 0 KSystem "s")) o2 = Throw s'.
Proof.
  pose (r := Root 0 KSystem "s"). pose (b1 := Child 1 KBody "a/FORCES/FORCE_f" r). pose (b2 := Child 2 KBody "a" r).
  exists b1, (Child 3 KForce "f" b2). split; [reflexivity|]. split; [reflexivity|]. split; [reflexivity|].
  exists [SAdd b1; SAdd b2]. eexists. eexists. split; [vm_compute; reflexivity|]. split; [intros [H|[H|[]]]; discriminate|].
  vm_compute; reflexivity.
Qed.
(** Non-vacuity *)
Definition sysA := Root 0 KSystem "sys".
Definition bodyA := Child 1 KBody "hull" sysA.
Definition forceA := Child 2 KForce "drag" bodyA.
Definition nodeA := Child 3 KNode "fairlead" bodyA.
Definition linkA := Child 4 KLink "hinge" sysA.
Example C24_example : exists s, sys_run_catch (new_system 0 "sys") [SAdd bodyA; SAddForce bodyA forceA; SAdd bodyA; SAdd linkA] = Ok s /\
  GetTreePath s forceA = "FRYDOM_sys/BODIES/BODY_hull/FORCES/FORCE_drag/" /\ plain forceA /\ plain linkA.
Proof.
  eexists. split; [vm_compute; reflexivity|]. split; [vm_compute; reflexivity|]. cbn. unfold no_slash; cbn. repeat split; try discriminate; intuition discriminate.
Qed.

(** ** C23: external forces *)

(** After every history without error, a body carries exactly the forces added to it and not removed
    since (singly, all together or with the body), in the order of their addition, each once. *)
Theorem C23_forces_added_not_removed : forall i n h s b, sys_run (new_system i n) h = Ok s -> List.Forall typed h ->
  forces_of s b = survivors (adds_force b) (removes_force b) h /\ NoDup (forces_of s b).
Proof.
  intros i n h s b H T. pose proof (good_run i n h s H T) as G. split; [apply G|].
  apply nodup_filter_map, G.
Qed.
(** ... and its force is logged exactly as long. *)
Theorem C23_forces_logged : forall i n h s f, sys_run (new_system i n) h = Ok s -> List.Forall typed h -> kind_of f = KForce ->
  (In f (s_log s) <-> exists b, In f (forces_of s b)).
Proof.
  intros i n h s f H T K. pose proof (good_run i n h s H T) as G. rewrite (g_log _ _ _ G f). unfold forces_of.
  split.
  - intros [E|[[E _]|[E|E]]].
    + subst; discriminate.
    + apply (all_kind _ _ _ _ G) in E. unfold added in E. rewrite K in E. discriminate.
    + apply pair_In in E. destruct E as [b E]. exists b. apply of_In; auto.
    + apply pair_In in E. destruct E as [b E]. apply (g_nin _ _ _ G) in E. destruct E as (_ & E & _). congruence.
  - intros [b E]. apply of_In in E. right; right; left. apply pair_In. eauto.
Qed.
(** Removing a force that the body does not carry is undefined behaviour (erase of the end iterator). *)
Theorem C23_remove_absent : forall s b f, ~ In f (forces_of s b) <-> RemoveExternalForce s b f = Undef.
Proof.
  intros s b f. unfold forces_of. rewrite of_In. unfold RemoveExternalForce. split.
  - intros N. destruct erase_pair eqn:E; auto. apply erase_pair_eq in E. destruct E as (l1 & l2 & E & _). elim N. rewrite E. apply in_elt.
  - destruct erase_pair eqn:E; [discriminate|]. intros _ I. revert E. unfold erase_pair.
    induction (s_forces s) as [|[b' f'] l IH]; [contradiction|]. cbn [erase fst snd].
    destruct (obj_eqb b b' && obj_eqb f f') eqn:E; [discriminate|]. destruct I as [I|I].
    + injection I as -> ->. rewrite !eqb_r in E. discriminate.
    + destruct erase; [discriminate|auto].
Qed.
(** Refuted: a force that was removed can never be added again, to any body, in any history;
    moreover the failing call leaves it in the force list, without log entry. *)
Theorem C103_readd_removed_refuted : forall i n h s b b' f, sys_run (new_system i n) h = Ok s -> List.Forall typed h ->
  In (SAddForce b f) h -> exists s', AddExternalForce s b' f = Throw s' /\ forces_of s' b' = forces_of s b' ++ [f] /\ s_log s' = s_log s.
Proof.
  intros i n h s b b' f H T I. pose proof (good_run i n h s H T) as G. eexists. split; [|split].
  - apply AddForce_throw. split; [|reflexivity]. eapply g_fadded; eauto.
  - unfold forces_of; cbn [with_forces s_forces]. rewrite of_app. cbn [filter fst]. rewrite eqb_r. reflexivity.
  - reflexivity.
Qed.
(** Nodes behave likewise. *)
Theorem C23_nodes_added_not_removed : forall i n h s b, sys_run (new_system i n) h = Ok s -> List.Forall typed h ->
  nodes_of s b = survivors (adds_node b) (removes_node b) h /\ NoDup (nodes_of s b).
Proof.
  intros i n h s b H T. pose proof (good_run i n h s H T) as G. split; [apply G|].
  apply nodup_filter_map, G.
Qed.
Example C23_example : exists s, let h := [SAdd bodyA; SAddForce bodyA forceA; SNewNode bodyA nodeA; SRemoveForce bodyA forceA] in
  sys_run (new_system 0 "sys") h = Ok s /\ List.Forall typed h /\ forces_of s bodyA = nil /\ nodes_of s bodyA = [nodeA].
Proof. eexists. split; [vm_compute; reflexivity|]. split; [repeat constructor|]. split; vm_compute; reflexivity. Qed.

(** ** C25: RemoveAll... *)

(** Refuted for every registry and every history that leaves it non-empty: the loop over the vector
    that Remove shortens is undefined behaviour. *)
Theorem C148_remove_all_refuted : forall i n h s r, sys_run (new_system i n) h = Ok s -> List.Forall typed h ->
  content r s <> nil -> remove_all r s = Undef.
Proof.
  intros i n h s r H T N. pose proof (good_run i n h s H T) as G.
  assert (E : forall l, content r s = l -> l <> nil -> range_for_remove s l = Undef).
  { intros [|o l] E N'; [congruence|]. cbn [range_for_remove].
    destruct (remove_ok_if _ _ _ o G (content_In r s o ltac:(rewrite E; left; auto))) as [s' ->]. reflexivity. }
  destruct r; apply (E _ eq_refl N).
Qed.
(** It does nothing on an empty registry; removing a copy of the list one by one does empty it. *)
Theorem C25_empty : forall s r, content r s = nil -> remove_all r s = Ok s.
Proof. intros s [] E; cbn in *; unfold RemoveAllBodies, RemoveAllLinks, RemoveAllConstraints, RemoveAllActuators; rewrite E; reflexivity. Qed.
Theorem C25_remove_each : forall i n h s r, sys_run (new_system i n) h = Ok s -> List.Forall typed h ->
  exists s', remove_each s (content r s) = Ok s' /\ content r s' = nil.
Proof.
  intros i n h s r H T. pose proof (good_run i n h s H T) as G.
  destruct (remove_each_ok (Root i KSystem n) r (content r s) h s eq_refl G eq_refl) as (s' & A & B & _). eauto.
Qed.

(** ** C26: failed Add *)

(** Refuted: whenever Add throws, in any state, the object is in the system afterwards. *)
Theorem C147_failed_add_refuted : forall s o s', Add s o = Throw s' -> In o (all_objects s').
Proof. intros s o s' H. apply Add_throw in H. tauto. Qed.
(** What is left unchanged: log, paths, forces and nodes; it throws only for a path in use. *)
Theorem C26_failed_add : forall s o s', Add s o = Throw s' ->
  s_log s' = s_log s /\ s_paths s' = s_paths s /\ (forall x, GetTreePath s' x = GetTreePath s x) /\
  (forall b, forces_of s' b = forces_of s b) /\ (forall b, nodes_of s' b = nodes_of s b) /\ In (path_spec o) (s_paths s).
Proof.
  intros s o s' H. apply Add_throw in H. rewrite <- GetPath_spec. destruct H as (A & B & C & D & E & F & G & I).
  unfold GetTreePath, forces_of, nodes_of. rewrite F, G, I. repeat split; auto.
Qed.
(** Objects of other classes are silently ignored. *)
Theorem C26_unknown_class : forall s o, added o = false -> Add s o = Ok s.
Proof. intros s o. unfold added, Add. destruct (kind_of o) eqn:E; try discriminate; cbn [bind]; unfold added; rewrite E; reflexivity. Qed.
Example C26_example : exists s s', sys_run (new_system 0 "sys") [SAdd bodyA; SRemove bodyA] = Ok s /\ s_bodies s = nil /\
  Add s bodyA = Throw s' /\ s_bodies s' = [bodyA].
Proof. eexists. eexists. split; [vm_compute; reflexivity|]. split; [reflexivity|]. split; [vm_compute; reflexivity|]. reflexivity. Qed.

(** ** C27: registries *)

(** After every history without error each registry holds the objects of its class added and not removed
    since, in the order of addition, each once; the Chrono back-end holds the same. *)
Theorem C27_registries : forall i n h s, sys_run (new_system i n) h = Ok s -> List.Forall typed h ->
  s_bodies s = survivors (adds is_body) removes h /\ s_links s = survivors (adds is_link) removes h /\
  s_constraints s = survivors (adds is_constraint) removes h /\ s_actuators s = survivors (adds is_actuator) removes h /\
  ch_bodies s = s_bodies s /\ ch_links s = survivors (adds is_joint) removes h /\ ch_items s = s_physics s /\ ch_meshes s = s_fea s /\
  NoDup (s_bodies s) /\ NoDup (s_links s) /\ NoDup (s_constraints s) /\ NoDup (s_actuators s) /\ NoDup (ch_links s).
Proof.
  intros i n h s H T. pose proof (good_run i n h s H T) as G.
  assert (NDP : forall K, K_path K -> NoDup (survivors (adds K) removes h)) by (intros K HK; eapply surv_nodup; eauto; apply G).
  repeat split; try apply G.
  - rewrite (g_bodies _ _ _ G). apply NDP, K_body.
  - rewrite (g_links _ _ _ G). apply NDP, K_link.
  - rewrite (g_constraints _ _ _ G). apply NDP, K_constraint.
  - rewrite (g_actuators _ _ _ G). apply NDP, K_actuator.
  - rewrite (g_chl _ _ _ G). apply NDP, K_joint.
Qed.
(** Physics items and FEA meshes are held as many times as they were added minus the times they were
    removed; classes with a path at most once. *)
Theorem C27_items : forall i n h s o, sys_run (new_system i n) h = Ok s -> List.Forall typed h ->
  (is_physics (kind_of o) = true -> count_occ obj_eq_dec (s_physics s) o + times_removed o h = times_added o h) /\
  (is_fea (kind_of o) = true -> count_occ obj_eq_dec (s_fea s) o + times_removed o h = times_added o h) /\
  (has_path (kind_of o) = true -> times_added o h <= 1).
Proof. intros i n h s o H T. pose proof (good_run i n h s H T) as G. repeat split; intros; apply G; auto. Qed.
(** The log holds the system and exactly the loggable objects in the registries and on the bodies, once. *)
Theorem C27_log : forall i n h s o, sys_run (new_system i n) h = Ok s -> List.Forall typed h ->
  (In o (s_log s) <-> o = Root i KSystem n \/ (In o (all_objects s) /\ loggable o = true) \/
                      (exists b, In o (forces_of s b)) \/ (exists b, In o (nodes_of s b))) /\ NoDup (s_log s).
Proof.
  intros i n h s o H T. pose proof (good_run i n h s H T) as G. split; [|apply G]. rewrite (g_log _ _ _ G o), !pair_In.
  unfold forces_of, nodes_of. assert (F : forall l, (exists b, In (b, o) l) <-> exists b, In o (map snd (filter (fun p => obj_eqb b (fst p)) l))).
  { intros l. split; intros [b E]; exists b; apply of_In; auto. }
  rewrite !F. tauto.
Qed.
(** Removing an object that is not in the system never succeeds (undefined, or exit for unknown
    classes); physics items are held by Chrono and the system together. *)
Theorem C27_remove_absent : forall i n h s o, sys_run (new_system i n) h = Ok s -> List.Forall typed h ->
  ~ In o (all_objects s) -> forall s', Remove s o <> Ok s'.
Proof.
  intros i n h s o H T N s'. pose proof (good_run i n h s H T) as G. destruct (remove_absent s o N s') as [|P]; auto.
  intros R. apply Remove_ok in R. destruct R as (_ & _ & _ & _ & _ & _ & _ & _ & _ & _ & E & _). rewrite P in E. cbn [erased] in E.
  rewrite (g_chp _ _ _ G) in E. assert (M : erase_obj o (s_physics s) = None); [|congruence]. apply erase_none. intros I. apply N. apply all_In. tauto.
Qed.
(** Refuted: an object with a path can be added only once: adding it again after removing it throws. *)
Theorem C105_readd_refuted : forall i n h s o, sys_run (new_system i n) h = Ok s -> List.Forall typed h ->
  has_path (kind_of o) = true -> In (SAdd o) h -> exists s', Add s o = Throw s'.
Proof. intros i n h s o H T Hp I. pose proof (good_run i n h s H T) as G. apply Add_used; auto. apply (g_added _ _ _ G); auto. Qed.
(** Refuted: Clear forgets the log and the paths: the log still holds every object, and none with a
    path can be added again. *)
Theorem C105_clear_refuted : forall i n h s o, sys_run (new_system i n) h = Ok s -> List.Forall typed h ->
  In o (all_objects s) -> has_path (kind_of o) = true ->
  all_objects (Clear s) = nil /\ In o (s_log (Clear s)) /\ exists s', Add (Clear s) o = Throw s'.
Proof.
  intros i n h s o H T I Hp. pose proof (good_run i n h s H T) as G. repeat split.
  - cbn [Clear s_log]. apply (g_log _ _ _ G). right; left. split; auto. unfold loggable; destruct (kind_of o); cbn in *; congruence.
  - apply Add_used; auto. cbn [Clear s_paths]. apply (g_added _ _ _ G); auto.
    apply all_In in I. rewrite (g_bodies _ _ _ G), (g_links _ _ _ G), (g_constraints _ _ _ G), (g_actuators _ _ _ G) in I.
    destruct (in_dec obj_eq_dec o (s_physics s)) as [J|J].
    { pose proof (g_phys _ _ _ G o (g_pk _ _ _ G o J)) as C. apply (count_occ_In obj_eq_dec) in J.
      assert (Q : times_added o h <> 0) by lia. unfold times_added in Q.
      assert (Q' : In o (flat_map (adds (fun _ => true)) h)) by (apply (count_occ_In obj_eq_dec); lia).
      apply in_flat_map in Q'. destruct Q' as (op & Q1 & Q2). apply adds_In in Q2. destruct Q2 as [-> _]. auto. }
    destruct (in_dec obj_eq_dec o (s_fea s)) as [J'|J'].
    { pose proof (g_fea _ _ _ G o (g_fk _ _ _ G o J')) as C. apply (count_occ_In obj_eq_dec) in J'.
      assert (Q' : In o (flat_map (adds (fun _ => true)) h)) by (apply (count_occ_In obj_eq_dec); unfold times_added in C; lia).
      apply in_flat_map in Q'. destruct Q' as (op & Q1 & Q2). apply adds_In in Q2. destruct Q2 as [-> _]. auto. }
    destruct I as [I|[I|[I|[I|[I|I]]]]]; try contradiction; apply surv_kind in I; tauto.
Qed.
(** Refuted: the hinges of a dynamic cable stay in the back-end when the cable is removed. *)
Theorem C105_cable_hinges_refuted : forall s o s1 s2, kind_of o = KDynCable -> Add s o = Ok s1 -> Remove s1 o = Ok s2 ->
  ch_hinges s2 = ch_hinges s ++ [(o, false); (o, true)].
Proof.
  intros s o s1 s2 K A R. unfold Add, Remove in *. rewrite K in *. unfold RemoveFEAMesh in R.
  destruct RegisterTreeNode eqn:E; try discriminate. apply register_ok in E. destruct E as [_ ->]. cbn [bind] in A.
  unfold added in A. rewrite K, LogAddIf_w in A. injection A as <-.
  destruct erase_obj; [|discriminate]. destruct erase_obj; [|discriminate]. cbn [bind] in R. rewrite LogRemoveIf_w in R. injection R as <-. reflexivity.
Qed.
Definition bodyB := Child 5 KBody "barge" sysA.
Definition cableA := Child 6 KDynCable "line" sysA.
Example C27_example : exists s, let h := [SAdd bodyA; SAdd bodyB; SAdd linkA; SAdd cableA; SAddForce bodyA forceA; SRemove bodyA; SRemove cableA] in
  sys_run (new_system 0 "sys") h = Ok s /\ List.Forall typed h /\ s_bodies s = [bodyB] /\ content RLinks s <> nil /\
  s_log s = [sysA; bodyB; linkA] /\ ch_hinges s = [(cableA, false); (cableA, true)].
Proof. eexists. split; [vm_compute; reflexivity|]. split; [repeat constructor|]. cbn. repeat split. discriminate. Qed.
