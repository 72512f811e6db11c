From Coq Require Import List String Ascii Bool Arith Lia Permutation.
From Verif Require Import RegModel RegSpec RegProofs RegProofs2.
Import ListNotations.
Open Scope string_scope.
Open Scope list_scope.

Lemma K_body : K_path is_body. Proof. intros []; cbn; auto. Qed.
Lemma K_link : K_path is_link. Proof. intros []; cbn; auto. Qed.
Lemma K_constraint : K_path is_constraint. Proof. intros []; cbn; auto. Qed.
Lemma K_actuator : K_path is_actuator. Proof. intros []; cbn; auto. Qed.
Lemma K_joint : K_path is_joint. Proof. intros []; cbn; auto. Qed.

Lemma all_In s o : In o (all_objects s) <->
  In o (s_bodies s) \/ In o (s_links s) \/ In o (s_constraints s) \/ In o (s_actuators s) \/ In o (s_physics s) \/ In o (s_fea s).
Proof. unfold all_objects. rewrite !in_app_iff. tauto. Qed.
(** Class of the objects of the registries *)
Lemma all_kind sy h s o : good sy h s -> In o (all_objects s) -> added o = true.
Proof.
  intros G I. apply all_In in I. unfold added.
  rewrite (g_bodies _ _ _ G), (g_links _ _ _ G), (g_constraints _ _ _ G), (g_actuators _ _ _ G) in I.
  destruct I as [I|[I|[I|[I|[I|I]]]]]; try (apply surv_kind in I; destruct I as [I _]).
  5: apply (g_pk _ _ _ G) in I. 6: apply (g_fk _ _ _ G) in I.
  all: destruct (kind_of o); cbn in I; congruence.
Qed.
Ltac inc := rewrite ?in_app_iff; cbn [In]; intuition (try congruence).

Lemma mem_if (b : bool) (o x : obj) : In x (if b then [o] else nil) <-> b = true /\ x = o.
Proof. destruct b; cbn; intuition congruence. Qed.

Lemma step_add sy h s o s' : kind_of sy = KSystem -> good sy h s -> Add s o = Ok s' -> good sy (h ++ [SAdd o]) s'.
Proof.
  intros Hsy G H. pose proof (step_paths s (SAdd o) s' (or_introl H) (g_paths _ _ _ G)) as P.
  destruct (Add_ok _ _ _ H) as (N & Ep & Eb & El & Ec & Ea & Eph & Ef & Ecb & Ecl & Eci & Ecm & Efo & Eno & Elog).
  assert (Pin : forall p, In p (s_paths s) -> In p (s_paths s')) by (intros; rewrite Ep; apply in_or_app; auto).
  assert (ND : has_path (kind_of o) = true -> ~ In (SAdd o) h) by (intros A B; apply N; auto; apply (g_added _ _ _ G); auto).
  assert (Efof : forall b, forces_of s' b = forces_of s b) by (intros; unfold forces_of; rewrite Efo; auto).
  assert (Enof : forall b, nodes_of s' b = nodes_of s b) by (intros; unfold nodes_of; rewrite Eno; auto).
  constructor; auto.
  - apply Pin, G.
  - intros o' Hp I. apply in_app_or in I. destruct I as [I|[I|[]]]; [apply Pin; apply G; auto|]. injection I as <-. rewrite Ep, Hp. left; auto.
  - intros b f I. apply in_app_or in I. destruct I as [I|[I|[]]]; [|discriminate]. apply Pin. eapply g_fadded; eauto.
  - intros b f I. apply in_app_or in I. destruct I as [I|[I|[]]]; [|discriminate]. apply Pin. eapply g_nadded; eauto.
  - rewrite Eb. apply registry_add, G.
  - rewrite El. apply registry_add, G.
  - rewrite Ec. apply registry_add, G.
  - rewrite Ea. apply registry_add, G.
  - rewrite Ecb, Eb. f_equal. apply G.
  - rewrite Ecl. apply registry_add, G.
  - rewrite Eci, Eph. f_equal; apply G.
  - rewrite Ecm, Ef. f_equal; apply G.
  - intros x Hx. rewrite times_added_snoc, times_removed_snoc, Eph, count_occ_app. cbn [removes adds].
    pose proof (g_phys _ _ _ G x Hx). destruct (is_physics (kind_of o)) eqn:E; cbn [count_occ].
    + destruct (obj_eq_dec o x); lia.
    + destruct (obj_eq_dec o x); [congruence|lia].
  - intros x Hx. rewrite times_added_snoc, times_removed_snoc, Ef, count_occ_app. cbn [removes adds].
    pose proof (g_fea _ _ _ G x Hx). destruct (is_fea (kind_of o)) eqn:E; cbn [count_occ].
    + destruct (obj_eq_dec o x); lia.
    + destruct (obj_eq_dec o x); [congruence|lia].
  - intros x. rewrite Eph, in_app_iff, mem_if. intros [I|[I ->]]; auto. apply (g_pk _ _ _ G); auto.
  - intros x. rewrite Ef, in_app_iff, mem_if. intros [I|[I ->]]; auto. apply (g_fk _ _ _ G); auto.
  - intros x Hx. rewrite times_added_snoc. cbn [adds count_occ]. destruct (obj_eq_dec o x).
    + subst x. rewrite times_added_zero by auto. auto.
    + rewrite Nat.add_0_r. apply G; auto.
  - intros b. rewrite registry_other by auto. rewrite Efof. apply G.
  - intros b. rewrite registry_other by auto. rewrite Enof. apply G.
  - rewrite Efo. apply G.
  - rewrite Eno. apply G.
  - intros b f. rewrite Efo. intros I. destruct (g_fin _ _ _ G b f I) as (A & B & C). auto.
  - intros b f. rewrite Eno. intros I. destruct (g_nin _ _ _ G b f I) as (A & B & C). auto.
  - rewrite Elog. destruct (added o && loggable o); [apply ladd_spec|]; apply G.
  - intros x. rewrite Efo, Eno.
    assert (A : In x (all_objects s') <-> In x (all_objects s) \/ (added o = true /\ x = o)).
    { rewrite !all_In, Eb, El, Ec, Ea, Eph, Ef, !in_app_iff, !mem_if. unfold added. destruct (kind_of o); cbn; intuition congruence. }
    rewrite A, Elog. destruct (added o) eqn:F, (loggable o) eqn:L; cbn [andb]; try (rewrite (proj2 (ladd_spec o (s_log s) (g_ldup _ _ _ G))));
      rewrite (g_log _ _ _ G x); intuition (subst; congruence).
Qed.

Lemma erased_In K o l l' x : NoDup l -> (In o l -> K = true) -> erased K o l l' -> (In x l' <-> In x l /\ x <> o).
Proof.
  intros Hn HK H. destruct K; cbn [erased] in H.
  - apply erase_filter in H; auto. subst. rewrite filter_In, negb_true_iff, eqb_f. intuition congruence.
  - subst. split; [|tauto]. intros I; split; auto. intros ->. apply HK in I. discriminate.
Qed.
Lemma count_In_erased K o l l' x : (count_occ obj_eq_dec l o <= 1)%nat -> (In o l -> K = true) -> erased K o l l' -> (In x l' <-> In x l /\ x <> o).
Proof.
  intros Hn HK H. destruct K; cbn [erased] in H.
  - pose proof (erase_count o l l' x H) as C. pose proof (erase_count o l l' o H) as C'. destruct (obj_eq_dec o o); [|congruence].
    rewrite !(count_occ_In obj_eq_dec). destruct (obj_eq_dec o x) as [->|E].
    + split; [lia|]. intros [_ F]. congruence.
    + split; [split; [lia|congruence]|]. intros [? _]. lia.
  - subst. split; [|tauto]. intros I; split; auto. intros ->. apply HK in I. discriminate.
Qed.
Lemma not_In_sub (o : obj) l l' : erase_obj o l = Some l' -> forall x, In x l' -> In x l.
Proof.
  intros H x I. apply (count_occ_In obj_eq_dec) in I. apply (count_occ_In obj_eq_dec). pose proof (erase_count o l l' x H). lia.
Qed.

Lemma step_remove sy h s o s' : kind_of sy = KSystem -> good sy h s -> Remove s o = Ok s' -> good sy (h ++ [SRemove o]) s'.
Proof.
  intros Hsy G H. pose proof (step_paths s (SRemove o) s' (or_introl H) (g_paths _ _ _ G)) as P.
  destruct (Remove_ok _ _ _ H) as (Had & Ep & Eb & El & Ec & Ea & Eph & Ef & Ecb & Ecl & Eci & Ecm & Efo & Eno & Elog).
  specialize (Eph (g_chp _ _ _ G)).
  assert (NDP : forall K, K_path K -> NoDup (survivors (adds K) removes h)) by (intros K HK; eapply surv_nodup; eauto; apply G).
  assert (NB : NoDup (s_bodies s)) by (rewrite (g_bodies _ _ _ G); apply NDP, K_body).
  assert (NL : NoDup (s_links s)) by (rewrite (g_links _ _ _ G); apply NDP, K_link).
  assert (NC : NoDup (s_constraints s)) by (rewrite (g_constraints _ _ _ G); apply NDP, K_constraint).
  assert (NA : NoDup (s_actuators s)) by (rewrite (g_actuators _ _ _ G); apply NDP, K_actuator).
  assert (NJ : NoDup (ch_links s)) by (rewrite (g_chl _ _ _ G); apply NDP, K_joint).
  assert (Efof : forall b, forces_of s' b = if is_body (kind_of o) && obj_eqb b o then nil else forces_of s b).
  { intros; unfold forces_of; rewrite Efo. destruct (is_body (kind_of o)); cbn [andb]; auto. apply of_filter. }
  assert (Enof : forall b, nodes_of s' b = if is_body (kind_of o) && obj_eqb b o then nil else nodes_of s b).
  { intros; unfold nodes_of; rewrite Eno. destruct (is_body (kind_of o)); cbn [andb]; auto. apply of_filter. }
  constructor; auto; try rewrite Ep; try apply G.
  - intros o' Hp I. apply in_app_or in I. destruct I as [I|[I|[]]]; [apply G; auto|discriminate].
  - intros b f I. apply in_app_or in I. destruct I as [I|[I|[]]]; [|discriminate]. eapply g_fadded; eauto.
  - intros b f I. apply in_app_or in I. destruct I as [I|[I|[]]]; [|discriminate]. eapply g_nadded; eauto.
  - eapply registry_remove; [|exact NB|exact Eb]. apply G.
  - eapply registry_remove; [|exact NL|exact El]. apply G.
  - eapply registry_remove; [|exact NC|exact Ec]. apply G.
  - eapply registry_remove; [|exact NA|exact Ea]. apply G.
  - rewrite (g_chb _ _ _ G) in Ecb. destruct (is_body (kind_of o)); cbn [erased] in *; congruence.
  - eapply registry_remove; [|exact NJ|exact Ecl]. apply G.
  - rewrite (g_chp _ _ _ G) in Eci. destruct (is_physics (kind_of o)); cbn [erased] in *; congruence.
  - rewrite (g_chm _ _ _ G) in Ecm. destruct (is_fea (kind_of o)); cbn [erased] in *; congruence.
  - intros x Hx. rewrite times_added_snoc, times_removed_snoc. cbn [removes adds count_occ].
    pose proof (g_phys _ _ _ G x Hx). destruct (is_physics (kind_of o)) eqn:E; cbn [erased] in Eph.
    + pose proof (erase_count _ _ _ x Eph). unfold obj_eqb. destruct (obj_eq_dec o x); lia.
    + rewrite Eph. destruct (obj_eqb o x) eqn:F; [apply eqb_t in F; congruence|lia].
  - intros x Hx. rewrite times_added_snoc, times_removed_snoc. cbn [removes adds count_occ].
    pose proof (g_fea _ _ _ G x Hx). destruct (is_fea (kind_of o)) eqn:E; cbn [erased] in Ef.
    + pose proof (erase_count _ _ _ x Ef). unfold obj_eqb. destruct (obj_eq_dec o x); lia.
    + rewrite Ef. destruct (obj_eqb o x) eqn:F; [apply eqb_t in F; congruence|lia].
  - intros x I. apply (g_pk _ _ _ G). destruct (is_physics (kind_of o)); cbn [erased] in Eph; [|congruence]. eapply not_In_sub; eauto.
  - intros x I. apply (g_fk _ _ _ G). destruct (is_fea (kind_of o)); cbn [erased] in Ef; [|congruence]. eapply not_In_sub; eauto.
  - intros x Hx. rewrite times_added_snoc. cbn [adds count_occ]. rewrite Nat.add_0_r. apply G; auto.
  - intros b. rewrite survivors_snoc. cbn [adds_force removes_force]. rewrite app_nil_r, Efof, <- (g_forces _ _ _ G).
    destruct (obj_eqb b o) eqn:F; rewrite ?andb_true_r, ?andb_false_r; cbn [negb].
    + apply eqb_t in F; subst b. rewrite filter_false by auto. destruct (is_body (kind_of o)) eqn:E; auto.
      destruct (forces_of s o) as [|f l] eqn:F; auto. exfalso.
      assert (I : In (o, f) (s_forces s)) by (apply of_In; fold (forces_of s o); rewrite F; left; auto).
      apply (g_fin _ _ _ G) in I. destruct I as [I _]. rewrite I in E. discriminate.
    + rewrite filter_true; auto.
  - intros b. rewrite survivors_snoc. cbn [adds_node removes_node]. rewrite app_nil_r, Enof, <- (g_nodes _ _ _ G).
    destruct (obj_eqb b o) eqn:F; rewrite ?andb_true_r, ?andb_false_r; cbn [negb].
    + apply eqb_t in F; subst b. rewrite filter_false by auto. destruct (is_body (kind_of o)) eqn:E; auto.
      destruct (nodes_of s o) as [|f l] eqn:F; auto. exfalso.
      assert (I : In (o, f) (s_nodes s)) by (apply of_In; fold (nodes_of s o); rewrite F; left; auto).
      apply (g_nin _ _ _ G) in I. destruct I as [I _]. rewrite I in E. discriminate.
    + rewrite filter_true; auto.
  - rewrite Efo. destruct (is_body (kind_of o)); [apply nodup_filter_map|]; apply G.
  - rewrite Eno. destruct (is_body (kind_of o)); [apply nodup_filter_map|]; apply G.
  - intros b f I. apply (g_fin _ _ _ G). rewrite Efo in I. destruct (is_body (kind_of o)); auto. apply filter_In in I; tauto.
  - intros b f I. apply (g_nin _ _ _ G). rewrite Eno in I. destruct (is_body (kind_of o)); auto. apply filter_In in I; tauto.
  - rewrite Elog. destruct (is_body (kind_of o)), (loggable o); cbv zeta; repeat (apply lrem_spec || apply lrems_spec); apply G.
  - intros x.
    assert (Lin : In x (s_log s') <-> In x (s_log s) /\ (loggable o = true -> x <> o) /\ (is_body (kind_of o) = true -> ~ In (o, x) (s_forces s) /\ ~ In (o, x) (s_nodes s))).
    { rewrite Elog. destruct (is_body (kind_of o)); cbv zeta.
      - pose proof (lrems_spec (forces_of s o ++ nodes_of s o) (s_log s) (g_ldup _ _ _ G)) as [A B].
        assert (R : ~ In x (forces_of s o ++ nodes_of s o) <-> ~ In (o, x) (s_forces s) /\ ~ In (o, x) (s_nodes s)).
        { rewrite in_app_iff. unfold forces_of, nodes_of. rewrite !of_In. tauto. }
        destruct (loggable o).
        + rewrite (proj2 (lrem_spec o _ A)), B, R. intuition congruence.
        + rewrite B, R. intuition congruence.
      - destruct (loggable o); [rewrite (proj2 (lrem_spec o _ (g_ldup _ _ _ G)))|]; intuition congruence. }
    rewrite Lin. rewrite (g_log _ _ _ G x). clear Lin Elog.
    assert (Fin : In x (map snd (s_forces s')) <-> In x (map snd (s_forces s)) /\ (is_body (kind_of o) = true -> ~ In (o, x) (s_forces s))).
    { rewrite !pair_In, Efo. destruct (is_body (kind_of o)) eqn:E.
      - split.
        + intros (b & I). apply filter_In in I. cbn [fst] in I. destruct I as [I J]. split; eauto. intros _ I2.
          rewrite (pair_fun _ _ _ _ (g_fdup _ _ _ G) I I2), eqb_r in J. discriminate.
        + intros ((b & I) & J). exists b. apply filter_In. split; auto. cbn [fst]. apply negb_true_iff, eqb_f. intros <-. apply J; auto.
      - split; [intros I; split; auto; discriminate|tauto]. }
    assert (Nin : In x (map snd (s_nodes s')) <-> In x (map snd (s_nodes s)) /\ (is_body (kind_of o) = true -> ~ In (o, x) (s_nodes s))).
    { rewrite !pair_In, Eno. destruct (is_body (kind_of o)) eqn:E.
      - split.
        + intros (b & I). apply filter_In in I. cbn [fst] in I. destruct I as [I J]. split; eauto. intros _ I2.
          rewrite (pair_fun _ _ _ _ (g_ndup _ _ _ G) I I2), eqb_r in J. discriminate.
        + intros ((b & I) & J). exists b. apply filter_In. split; auto. cbn [fst]. apply negb_true_iff, eqb_f. intros <-. apply J; auto.
      - split; [intros I; split; auto; discriminate|tauto]. }
    rewrite Fin, Nin.
    assert (Oin : loggable x = true -> (In x (all_objects s') <-> In x (all_objects s) /\ x <> o)).
    { intros Lx. rewrite !all_In.
      assert (SK : forall K l, l = survivors (adds K) removes h -> In o l -> K (kind_of o) = true) by (intros K l -> I; apply surv_kind in I; tauto).
      rewrite (erased_In _ o (s_bodies s) (s_bodies s') x NB (SK _ _ (g_bodies _ _ _ G)) Eb).
      rewrite (erased_In _ o (s_links s) (s_links s') x NL (SK _ _ (g_links _ _ _ G)) El).
      rewrite (erased_In _ o (s_constraints s) (s_constraints s') x NC (SK _ _ (g_constraints _ _ _ G)) Ec).
      rewrite (erased_In _ o (s_actuators s) (s_actuators s') x NA (SK _ _ (g_actuators _ _ _ G)) Ea).
      assert (Pin : In x (s_physics s') <-> In x (s_physics s) /\ x <> o).
      { destruct (obj_eq_dec x o) as [->|Ne].
        - destruct (is_physics (kind_of o)) eqn:E.
          + assert (Hp : has_path (kind_of o) = true) by (unfold loggable in Lx; destruct (kind_of o); cbn in *; congruence).
            apply (count_In_erased true); auto. pose proof (g_phys _ _ _ G o E). pose proof (g_once _ _ _ G o Hp). lia.
          + cbn [erased] in Eph. rewrite Eph. split; [|tauto]. intros I. apply (g_pk _ _ _ G) in I. congruence.
        - split; [intros I; split; auto|].
          + destruct (is_physics (kind_of o)); cbn [erased] in Eph; [eapply not_In_sub; eauto|congruence].
          + intros [I _]. destruct (is_physics (kind_of o)); cbn [erased] in Eph; [|congruence].
            apply (count_occ_In obj_eq_dec) in I. apply (count_occ_In obj_eq_dec).
            pose proof (erase_count _ _ _ x Eph). destruct (obj_eq_dec o x); [congruence|lia]. }
      assert (Fein : In x (s_fea s') <-> In x (s_fea s) /\ x <> o).
      { destruct (obj_eq_dec x o) as [->|Ne].
        - destruct (is_fea (kind_of o)) eqn:E.
          + assert (Hp : has_path (kind_of o) = true) by (unfold loggable in Lx; destruct (kind_of o); cbn in *; congruence).
            apply (count_In_erased true); auto. pose proof (g_fea _ _ _ G o E). pose proof (g_once _ _ _ G o Hp). lia.
          + cbn [erased] in Ef. rewrite Ef. split; [|tauto]. intros I. apply (g_fk _ _ _ G) in I. congruence.
        - split; [intros I; split; auto|].
          + destruct (is_fea (kind_of o)); cbn [erased] in Ef; [eapply not_In_sub; eauto|congruence].
          + intros [I _]. destruct (is_fea (kind_of o)); cbn [erased] in Ef; [|congruence].
            apply (count_occ_In obj_eq_dec) in I. apply (count_occ_In obj_eq_dec).
            pose proof (erase_count _ _ _ x Ef). destruct (obj_eq_dec o x); [congruence|lia]. }
      rewrite Pin, Fein. tauto. }
    (* classes keep the different parts of the log apart *)
    assert (D1 : x = sy -> x <> o) by (intros -> F; rewrite <- F in Had; unfold added in Had; rewrite Hsy in Had; discriminate).
    assert (D2 : In x (map snd (s_forces s)) -> x <> o /\ ~ In x (map snd (s_nodes s)) /\ ~ In x (all_objects s)).
    { intros I. apply pair_In in I. destruct I as (b & I). apply (g_fin _ _ _ G) in I. destruct I as (_ & I & _). repeat split.
      - intros ->. unfold added in Had. rewrite I in Had. discriminate.
      - intros J. apply pair_In in J. destruct J as (b' & J). apply (g_nin _ _ _ G) in J. destruct J as (_ & J & _). congruence.
      - intros J. apply (all_kind _ _ _ _ G) in J. unfold added in J. rewrite I in J. discriminate. }
    assert (D3 : In x (map snd (s_nodes s)) -> x <> o /\ ~ In x (all_objects s)).
    { intros J. apply pair_In in J. destruct J as (b' & J). apply (g_nin _ _ _ G) in J. destruct J as (_ & I & _). split.
      - intros ->. unfold added in Had. rewrite I in Had. discriminate.
      - intros J. apply (all_kind _ _ _ _ G) in J. unfold added in J. rewrite I in J. discriminate. }
    assert (D4 : forall b, In (b, x) (s_forces s) -> In x (map snd (s_forces s))) by (intros; apply pair_In; eauto).
    assert (D5 : forall b, In (b, x) (s_nodes s) -> In x (map snd (s_nodes s))) by (intros; apply pair_In; eauto).
    assert (D6 : x = sy -> ~ In x (map snd (s_forces s)) /\ ~ In x (map snd (s_nodes s))).
    { intros ->. split; intros I; apply pair_In in I; destruct I as (b & I); [apply (g_fin _ _ _ G) in I|apply (g_nin _ _ _ G) in I]; destruct I as (_ & I & _); congruence. }
    pose proof (D4 o) as D4o. pose proof (D5 o) as D5o. assert (Z : ~ false = true) by discriminate.
    clear -D1 D2 D3 D4o D5o D6 Z Oin Fin Nin.
    destruct (loggable x) eqn:Lx; [specialize (Oin eq_refl)|clear Oin]; destruct (obj_eq_dec x o) as [->|Ne]; rewrite ?Lx in *; try tauto.
Qed.

