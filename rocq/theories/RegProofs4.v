From Coq Require Import List String Ascii Bool Arith Lia Permutation.
From Verif Require Import RegModel RegSpec RegProofs RegProofs2 RegProofs3.
Import ListNotations.
Open Scope string_scope.
Open Scope list_scope.

(** Calls on a body *)
Lemma step_addforce sy h s b f s' : kind_of sy = KSystem -> good sy h s -> typed (SAddForce b f) ->
  AddExternalForce s b f = Ok s' -> good sy (h ++ [SAddForce b f]) s'.
Proof.
  intros Hsy G [Tb Tf] H. pose proof (step_paths s (SAddForce b f) s' (or_introl H) (g_paths _ _ _ G)) as P.
  unfold AddExternalForce in H. destruct RegisterTreeNode as [s1| | |] eqn:R; try discriminate. cbn [bind] in H.
  apply register_ok in R. destruct R as [N ->]. cbn in N. rewrite LogAdd_w in H. injection H as <-.
  assert (ND : ~ In f (map snd (s_forces s))).
  { intros I. apply pair_In in I. destruct I as (b' & I). apply (g_fin _ _ _ G) in I. tauto. }
  assert (Efof : forall b', map snd (filter (fun p => obj_eqb b' (fst p)) (s_forces s ++ [(b, f)])) = forces_of s b' ++ adds_force b' (SAddForce b f)).
  { intros. rewrite of_app. cbn [filter fst adds_force]. destruct (obj_eqb b' b); auto. }
  constructor; auto; cbn -[all_objects GetPath In forces_of nodes_of ladd times_added times_removed]; try (apply G; fail).
  - right. apply G.
  - intros o' Hp I. apply in_app_or in I. destruct I as [I|[I|[]]]; [|discriminate]. right. apply G; auto.
  - intros b' f' I. apply in_app_or in I. destruct I as [I|[I|[]]]; [|injection I as <- <-; left; auto]. right. eapply g_fadded; eauto.
  - intros b' f' I. apply in_app_or in I. destruct I as [I|[I|[]]]; [|discriminate]. right. eapply g_nadded; eauto.
  - rewrite registry_other by auto. apply G.
  - rewrite registry_other by auto. apply G.
  - rewrite registry_other by auto. apply G.
  - rewrite registry_other by auto. apply G.
  - rewrite registry_other by auto. apply G.
  - intros o E. rewrite times_added_snoc, times_removed_snoc. cbn [removes adds count_occ]. pose proof (g_phys _ _ _ G o E). lia.
  - intros o E. rewrite times_added_snoc, times_removed_snoc. cbn [removes adds count_occ]. pose proof (g_fea _ _ _ G o E). lia.
  - intros o E. rewrite times_added_snoc. cbn [adds count_occ]. rewrite Nat.add_0_r. apply G; auto.
  - intros b'. unfold forces_of; cbn [with_log with_paths with_forces s_forces]. rewrite Efof, survivors_snoc, <- (g_forces _ _ _ G).
    cbn [removes_force]. rewrite filter_true; auto.
  - intros b'. rewrite registry_other by auto. apply G.
  - rewrite map_app. cbn [map snd]. apply (Permutation_NoDup (l := f :: map snd (s_forces s))); [apply Permutation_cons_append|].
    constructor; auto. apply G.
  - intros b' f' I. apply in_app_or in I. destruct I as [I|[I|[]]].
    + destruct (g_fin _ _ _ G _ _ I) as (A & B & C). repeat split; auto. right; auto.
    + injection I as <- <-. repeat split; auto. left; auto.
  - intros b' f' I. destruct (g_nin _ _ _ G _ _ I) as (A & B & C). repeat split; auto. right; auto.
  - apply ladd_spec, G.
  - intros x. rewrite (proj2 (ladd_spec f (s_log s) (g_ldup _ _ _ G))), (g_log _ _ _ G x), map_app, in_app_iff. cbn [map snd In].
    unfold all_objects; cbn [with_log with_paths with_forces s_bodies s_links s_constraints s_actuators s_physics s_fea]. assert (Z : x = f <-> f = x) by (split; congruence). clear -Z. tauto.
Qed.
Lemma step_newnode sy h s b f s' : kind_of sy = KSystem -> good sy h s -> typed (SNewNode b f) ->
  NewNode s b f = Ok s' -> good sy (h ++ [SNewNode b f]) s'.
Proof.
  intros Hsy G [Tb Tf] H. pose proof (step_paths s (SNewNode b f) s' (or_introl H) (g_paths _ _ _ G)) as P.
  unfold NewNode in H. destruct RegisterTreeNode as [s1| | |] eqn:R; try discriminate. cbn [bind] in H.
  apply register_ok in R. destruct R as [N ->]. cbn in N. rewrite LogAdd_w in H. injection H as <-.
  assert (ND : ~ In f (map snd (s_nodes s))).
  { intros I. apply pair_In in I. destruct I as (b' & I). apply (g_nin _ _ _ G) in I. tauto. }
  assert (Efof : forall b', map snd (filter (fun p => obj_eqb b' (fst p)) (s_nodes s ++ [(b, f)])) = nodes_of s b' ++ adds_node b' (SNewNode b f)).
  { intros. rewrite of_app. cbn [filter fst adds_node]. destruct (obj_eqb b' b); auto. }
  constructor; auto; cbn -[all_objects GetPath In forces_of nodes_of ladd times_added times_removed]; try (apply G; fail).
  - right. apply G.
  - intros o' Hp I. apply in_app_or in I. destruct I as [I|[I|[]]]; [|discriminate]. right. apply G; auto.
  - intros b' f' I. apply in_app_or in I. destruct I as [I|[I|[]]]; [|discriminate]. right. eapply g_fadded; eauto.
  - intros b' f' I. apply in_app_or in I. destruct I as [I|[I|[]]]; [|injection I as <- <-; left; auto]. right. eapply g_nadded; eauto.
  - rewrite registry_other by auto. apply G.
  - rewrite registry_other by auto. apply G.
  - rewrite registry_other by auto. apply G.
  - rewrite registry_other by auto. apply G.
  - rewrite registry_other by auto. apply G.
  - intros o E. rewrite times_added_snoc, times_removed_snoc. cbn [removes adds count_occ]. pose proof (g_phys _ _ _ G o E). lia.
  - intros o E. rewrite times_added_snoc, times_removed_snoc. cbn [removes adds count_occ]. pose proof (g_fea _ _ _ G o E). lia.
  - intros o E. rewrite times_added_snoc. cbn [adds count_occ]. rewrite Nat.add_0_r. apply G; auto.
  - intros b'. rewrite registry_other by auto. apply G.
  - intros b'. unfold nodes_of; cbn [with_log with_paths with_nodes s_nodes]. rewrite Efof, survivors_snoc, <- (g_nodes _ _ _ G).
    cbn [removes_node]. rewrite filter_true; auto.
  - rewrite map_app. cbn [map snd]. apply (Permutation_NoDup (l := f :: map snd (s_nodes s))); [apply Permutation_cons_append|].
    constructor; auto. apply G.
  - intros b' f' I. destruct (g_fin _ _ _ G _ _ I) as (A & B & C). repeat split; auto. right; auto.
  - intros b' f' I. apply in_app_or in I. destruct I as [I|[I|[]]].
    + destruct (g_nin _ _ _ G _ _ I) as (A & B & C). repeat split; auto. right; auto.
    + injection I as <- <-. repeat split; auto. left; auto.
  - apply ladd_spec, G.
  - intros x. rewrite (proj2 (ladd_spec f (s_log s) (g_ldup _ _ _ G))), (g_log _ _ _ G x), map_app, in_app_iff. cbn [map snd In].
    unfold all_objects; cbn [with_log with_paths with_nodes s_bodies s_links s_constraints s_actuators s_physics s_fea]. assert (Z : x = f <-> f = x) by (split; congruence). clear -Z. tauto.
Qed.
(** Calls that only take forces and nodes (and their log entries) away *)
Lemma step_less sy h s op s' : kind_of sy = KSystem -> good sy h s ->
  adds (fun _ => true) op = nil -> (forall K, adds K op = nil) -> (forall x, removes op x = false) ->
  (forall b f, op <> SAddForce b f) -> (forall b f, op <> SNewNode b f) -> (forall o, op <> SAdd o) ->
  s_paths s' = s_paths s -> paths_ok s' ->
  all_objects s' = all_objects s -> s_bodies s' = s_bodies s -> s_links s' = s_links s -> s_constraints s' = s_constraints s ->
  s_actuators s' = s_actuators s -> s_physics s' = s_physics s -> s_fea s' = s_fea s ->
  ch_bodies s' = ch_bodies s -> ch_links s' = ch_links s -> ch_items s' = ch_items s -> ch_meshes s' = ch_meshes s ->
  (forall b, forces_of s' b = survivors (adds_force b) (removes_force b) (h ++ [op])) ->
  (forall b, nodes_of s' b = survivors (adds_node b) (removes_node b) (h ++ [op])) ->
  NoDup (map snd (s_forces s')) -> NoDup (map snd (s_nodes s')) ->
  (forall p, In p (s_forces s') -> In p (s_forces s)) -> (forall p, In p (s_nodes s') -> In p (s_nodes s)) ->
  NoDup (s_log s') ->
  (forall x, In x (s_log s') <-> In x (s_log s) /\ ~ (In x (map snd (s_forces s)) /\ ~ In x (map snd (s_forces s'))) /\
     ~ (In x (map snd (s_nodes s)) /\ ~ In x (map snd (s_nodes s')))) ->
  good sy (h ++ [op]) s'.
Proof.
  intros Hsy G Ad AdK Re N1 N2 N3 Ep P Eall Eb El Ec Ea Eph Ef Ecb Ecl Eci Ecm Fo No Df Dn If In_ Ld Lo.
  constructor; auto; rewrite ?Ep, ?Eb, ?El, ?Ec, ?Ea, ?Eph, ?Ef, ?Ecb, ?Ecl, ?Eci, ?Ecm, ?Eall; try (apply G; fail).
  - intros o' Hp I. apply in_app_or in I. destruct I as [I|[I|[]]]; [apply G; auto|]. elim (N3 _ I).
  - intros b f I. apply in_app_or in I. destruct I as [I|[I|[]]]; [|elim (N1 _ _ I)]. eapply g_fadded; eauto.
  - intros b f I. apply in_app_or in I. destruct I as [I|[I|[]]]; [|elim (N2 _ _ I)]. eapply g_nadded; eauto.
  - rewrite registry_other by auto. apply G.
  - rewrite registry_other by auto. apply G.
  - rewrite registry_other by auto. apply G.
  - rewrite registry_other by auto. apply G.
  - rewrite registry_other by auto. apply G.
  - intros x Hx. rewrite times_added_snoc, times_removed_snoc, Ad, Re. cbn [count_occ]. pose proof (g_phys _ _ _ G x Hx). lia.
  - intros x Hx. rewrite times_added_snoc, times_removed_snoc, Ad, Re. cbn [count_occ]. pose proof (g_fea _ _ _ G x Hx). lia.
  - intros x Hx. rewrite times_added_snoc, Ad. cbn [count_occ]. rewrite Nat.add_0_r. apply G; auto.
  - intros b f I. apply If in I. apply (g_fin _ _ _ G) in I. auto.
  - intros b f I. apply In_ in I. apply (g_nin _ _ _ G) in I. auto.
  - intros x. rewrite Lo, (g_log _ _ _ G x).
    assert (If' : In x (map snd (s_forces s')) -> In x (map snd (s_forces s))) by (rewrite !pair_In; intros (b & I); eauto).
    assert (In' : In x (map snd (s_nodes s')) -> In x (map snd (s_nodes s))) by (rewrite !pair_In; intros (b & I); eauto).
    assert (D1 : In x (map snd (s_forces s)) -> kind_of x = KForce).
    { intros I. apply pair_In in I. destruct I as (b & I). apply (g_fin _ _ _ G) in I. tauto. }
    assert (D2 : In x (map snd (s_nodes s)) -> kind_of x = KNode).
    { intros I. apply pair_In in I. destruct I as (b & I). apply (g_nin _ _ _ G) in I. tauto. }
    assert (D3 : In x (all_objects s) -> kind_of x <> KForce /\ kind_of x <> KNode).
    { intros J. apply (all_kind _ _ _ _ G) in J. unfold added in J. destruct (kind_of x); split; congruence. }
    assert (D4 : x = sy -> kind_of x = KSystem) by congruence.
    assert (F1 : In x (map snd (s_forces s')) \/ ~ In x (map snd (s_forces s'))) by (destruct (in_dec obj_eq_dec x (map snd (s_forces s'))); auto).
    assert (F2 : In x (map snd (s_nodes s')) \/ ~ In x (map snd (s_nodes s'))) by (destruct (in_dec obj_eq_dec x (map snd (s_nodes s'))); auto).
    assert (C : (x = sy -> ~ In x (map snd (s_forces s)) /\ ~ In x (map snd (s_nodes s))) /\
                (In x (all_objects s) -> ~ In x (map snd (s_forces s)) /\ ~ In x (map snd (s_nodes s))) /\
                (In x (map snd (s_forces s)) -> ~ In x (map snd (s_nodes s)))).
    { repeat split; intros; intro; intuition congruence. }
    clear -C If' In' F1 F2. tauto.
Qed.

Lemma step_remforce sy h s b f s' : kind_of sy = KSystem -> good sy h s -> typed (SRemoveForce b f) ->
  RemoveExternalForce s b f = Ok s' -> good sy (h ++ [SRemoveForce b f]) s'.
Proof.
  intros Hsy G [Tb Tf] H. pose proof (step_paths s (SRemoveForce b f) s' (or_introl H) (g_paths _ _ _ G)) as P.
  unfold RemoveExternalForce in H. destruct erase_pair as [l|] eqn:E; [|discriminate]. rewrite LogRemoveIf_w in H.
  replace (loggable f) with true in H by (unfold loggable; rewrite Tf; auto). injection H as <-. cbn [with_forces s_log] in *.
  apply erase_pair_eq in E. destruct E as (l1 & l2 & E & ->).
  pose proof (g_fdup _ _ _ G) as D. rewrite E, map_app in D. cbn [map snd] in D. apply nodup_mid in D. destruct D as [D Nf]. rewrite <- map_app in D, Nf.
  apply (step_less sy h s (SRemoveForce b f)); auto; try reflexivity; try discriminate; cbn [with_log with_forces s_forces s_nodes s_log].
  - intros b'. rewrite survivors_snoc, <- (g_forces _ _ _ G). unfold forces_of. cbn [with_log with_forces s_forces]. rewrite E.
    rewrite !of_app. cbn [removes_force adds_force]. rewrite app_nil_r, filter_app. cbn [filter fst].
    assert (Z : forall l, ~ In f (map snd l) -> filter (fun x => negb (obj_eqb b' b && obj_eqb f x)) (map snd (filter (fun p => obj_eqb b' (fst p)) l)) = map snd (filter (fun p => obj_eqb b' (fst p)) l)).
    { intros l Hl. apply filter_true. intros x I. apply of_In in I. apply negb_true_iff, andb_false_iff. right. apply eqb_f. intros ->.
      apply Hl, pair_In. eauto. }
    rewrite map_app in Nf. assert (N1 : ~ In f (map snd l1)) by (intros I; apply Nf; apply in_or_app; auto).
    assert (N2 : ~ In f (map snd l2)) by (intros I; apply Nf; apply in_or_app; auto).
    rewrite (Z l1 N1). destruct (obj_eqb b' b) eqn:F; cbn [map filter snd].
    + rewrite eqb_r. cbn [andb negb]. f_equal. symmetry. apply (Z l2 N2).
    + f_equal. symmetry. apply (Z l2 N2).
  - intros b'. rewrite registry_other by auto. apply G.
  - apply G.
  - intros p I. rewrite E. apply in_app_or in I. apply in_or_app. destruct I; [left|right; right]; auto.
  - apply lrem_spec, G.
  - intros x. rewrite (proj2 (lrem_spec f (s_log s) (g_ldup _ _ _ G))). rewrite E at 1. rewrite map_app. cbn [map snd]. rewrite (map_app snd l1 l2) in *.
    rewrite !in_app_iff in *. cbn [In]. split.
    + intros [A B]. repeat split; auto; intros [C1 C2]; [|tauto]. destruct C1 as [C1|[C1|C1]]; try tauto. congruence.
    + intros (A & B & _). split; auto. intros ->. apply B. split; auto.
Qed.
Lemma step_remallforces sy h s b : kind_of sy = KSystem -> good sy h s -> kind_of b = KBody -> good sy (h ++ [SRemoveAllForces b]) (RemoveAllForces s b).
Proof.
  intros Hsy G Tb. pose proof (step_paths s (SRemoveAllForces b) _ (or_introl eq_refl) (g_paths _ _ _ G)) as P.
  pose proof (lrems_spec (forces_of s b) (s_log s) (g_ldup _ _ _ G)) as [A B].
  revert P. rewrite RemoveAllForces_w. intros P.
  apply (step_less sy h s (SRemoveAllForces b)); auto; try reflexivity; try discriminate; cbn [with_log with_forces s_forces s_nodes s_log].
  - intros b'. rewrite survivors_snoc, <- (g_forces _ _ _ G). unfold forces_of. cbn [with_log with_forces s_forces]. rewrite of_filter.
    cbn [removes_force adds_force]. rewrite app_nil_r. destruct (obj_eqb b' b).
    + symmetry. apply filter_false; auto.
    + symmetry. apply filter_true; auto.
  - intros b'. rewrite registry_other by auto. apply G.
  - apply nodup_filter_map, G.
  - apply G.
  - intros p I. apply filter_In in I; tauto.
  - intros x. rewrite B. unfold forces_of. rewrite of_In, !pair_In. split.
    + intros [C D]. repeat split; auto; intros [(b' & I) J]; [|apply J; eauto]. apply J. exists b'. apply filter_In. split; auto.
      cbn [fst]. apply negb_true_iff, eqb_f. intros <-. contradiction.
    + intros (C & D & _). split; auto. intros I. apply D. split; eauto. intros (b' & J). apply filter_In in J. cbn [fst] in J.
      destruct J as [J K]. rewrite (pair_fun _ _ _ _ (g_fdup _ _ _ G) J I), eqb_r in K. discriminate.
Qed.
Lemma step_remallnodes sy h s b : kind_of sy = KSystem -> good sy h s -> kind_of b = KBody -> good sy (h ++ [SRemoveAllNodes b]) (RemoveAllNodes s b).
Proof.
  intros Hsy G Tb. pose proof (step_paths s (SRemoveAllNodes b) _ (or_introl eq_refl) (g_paths _ _ _ G)) as P.
  pose proof (lrems_spec (nodes_of s b) (s_log s) (g_ldup _ _ _ G)) as [A B].
  revert P. rewrite RemoveAllNodes_w. intros P.
  apply (step_less sy h s (SRemoveAllNodes b)); auto; try reflexivity; try discriminate; cbn [with_log with_nodes s_forces s_nodes s_log].
  - intros b'. rewrite registry_other by auto. apply G.
  - intros b'. rewrite survivors_snoc, <- (g_nodes _ _ _ G). unfold nodes_of. cbn [with_log with_nodes s_nodes]. rewrite of_filter.
    cbn [removes_node adds_node]. rewrite app_nil_r. destruct (obj_eqb b' b).
    + symmetry. apply filter_false; auto.
    + symmetry. apply filter_true; auto.
  - apply G.
  - apply nodup_filter_map, G.
  - intros p I. apply filter_In in I; tauto.
  - intros x. rewrite B. unfold nodes_of. rewrite of_In, !pair_In. split.
    + intros [C D]. repeat split; auto; intros [(b' & I) J]; [apply J; eauto|]. apply J. exists b'. apply filter_In. split; auto.
      cbn [fst]. apply negb_true_iff, eqb_f. intros <-. contradiction.
    + intros (C & _ & D). split; auto. intros I. apply D. split; eauto. intros (b' & J). apply filter_In in J. cbn [fst] in J.
      destruct J as [J K]. rewrite (pair_fun _ _ _ _ (g_ndup _ _ _ G) J I), eqb_r in K. discriminate.
Qed.

Lemma good_new i n : good (Root i KSystem n) nil (new_system i n).
Proof.
  rewrite new_system_eq. constructor; try (cbn -[GetPath]; intros; auto; try contradiction; fail).
  - apply new_paths.
  - left; auto.
  - apply NoDup_nil.
  - apply NoDup_cons; [intros []|apply NoDup_nil].
  - intros o. cbn. intuition congruence.
Qed.
Lemma good_run i n h s : sys_run (new_system i n) h = Ok s -> List.Forall typed h -> good (Root i KSystem n) h s.
Proof.
  revert s. induction h as [|op h IH] using rev_ind; intros s H T.
  - cbn [sys_run] in H. injection H as <-. apply good_new.
  - rewrite run_snoc in H. apply Forall_app in T. destruct T as [T To]. inversion To; subst. clear To.
    destruct (sys_run (new_system i n) h) as [s0| | |] eqn:E; try discriminate. cbn [bind] in H.
    specialize (IH s0 eq_refl T). assert (Hsy : kind_of (Root i KSystem n) = KSystem) by reflexivity.
    destruct op; cbn [sys_step] in H.
    + eapply step_add; eauto.
    + eapply step_remove; eauto.
    + eapply step_addforce; eauto.
    + eapply step_remforce; eauto.
    + injection H as <-. apply step_remallforces; auto.
    + eapply step_newnode; eauto.
    + injection H as <-. apply step_remallnodes; auto.
Qed.
