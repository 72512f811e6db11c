From Coq Require Import List String Ascii Bool Arith Lia Permutation.
From Verif Require Import RegModel RegSpec RegProofs RegProofs2 RegProofs3 RegProofs4.
Import ListNotations.
Open Scope string_scope.
Open Scope list_scope.

(** ** Paths of plain objects determine classes and names *)
Definition L := list_ascii_of_string.
Lemma L_app a b : L (a ++ b)%string = L a ++ L b.
Proof. induction a; cbn; congruence. Qed.
Lemma L_inj a b : L a = L b -> a = b.
Proof. intros H. rewrite <- (string_of_list_ascii_of_string a), <- (string_of_list_ascii_of_string b). unfold L in H. congruence. Qed.
Definition dir (k : kind) : string :=
  match k with KBody => "BODIES" | KForce => "FORCES" | KNode => "NODES" | KLink => "LINKS" | KConstraint => "CONSTRAINTS"
  | KActuator => "ACTUATORS" | KDynCable | KCatenary => "CABLES" | _ => "" end.
Definition tag (k : kind) : string :=
  match k with KBody => "BODY_" | KForce => "FORCE_" | KNode => "NODE_" | KLink => "LINK_" | KConstraint => "CONSTRAINT_"
  | KActuator => "ACTUATOR_" | KDynCable => "CAT_CABLE_" | KCatenary => "DYN_CABLE_" | KSystem => "FRYDOM_" | _ => "" end.
Definition is_eqf (k : kind) := match k with KEqFrame => true | _ => false end.
Fixpoint segs (o : obj) : list string :=
  match o with
  | Root _ k n => [(tag k ++ n)%string]
  | Child _ k n p => segs p ++ if is_eqf k then [n] else [dir k; (tag k ++ n)%string]
  end.
Definition flat (l : list string) : list ascii := flat_map (fun s => L s ++ ["/"%char]) l.
Lemma flat_app a b : flat (a ++ b) = flat a ++ flat b. Proof. apply flat_map_app. Qed.
Lemma path_flat o : plain o -> L (GetPath o) = flat (segs o).
Proof.
  induction o; cbn [plain GetPath segs].
  - intros [-> _]. cbn [tag prefix_of flat flat_map]. rewrite !L_app, app_nil_r, <- !app_assoc. reflexivity.
  - intros (Hl & Hk & Hp & Hn & P). rewrite flat_app, L_app, (IHo P). f_equal.
    unfold loggable in Hl; cbn [kind_of] in Hl.
    destruct k; try discriminate; try congruence; cbn [is_eqf flat flat_map prefix_of dir tag]; rewrite ?L_app, ?app_nil_r, <- ?app_assoc; reflexivity.
Qed.
Lemma slash_first a b x y : ~ In "/"%char a -> ~ In "/"%char b -> a ++ "/"%char :: x = b ++ "/"%char :: y -> a = b /\ x = y.
Proof.
  revert b. induction a as [|c a IH]; intros [|d b] Ha Hb; cbn; intros H.
  - injection H as ->. auto.
  - injection H as <- _. elim Hb; left; auto.
  - injection H as -> _. elim Ha; left; auto.
  - injection H as -> H. destruct (IH b) with (3 := H) as [-> ->]; auto; intros I; [apply Ha|apply Hb]; right; auto.
Qed.
Lemma flat_inj a : forall b, (forall s, In s a -> no_slash s) -> (forall s, In s b -> no_slash s) -> flat a = flat b -> a = b.
Proof.
  induction a as [|x a IH]; intros [|y b] Ha Hb; cbn [flat flat_map]; intros H; auto.
  - destruct (L y); discriminate.
  - destruct (L x); discriminate.
  - rewrite <- !app_assoc in H. cbn [app] in H. apply slash_first in H; [|apply (Ha x); left; auto|apply (Hb y); left; auto].
    destruct H as [E H]. apply L_inj in E. subst. f_equal. apply IH; auto; intros; [apply Ha|apply Hb]; right; auto.
Qed.
Lemma no_slash_app a b : no_slash a -> no_slash b -> no_slash (a ++ b)%string.
Proof. unfold no_slash. intros A B I. change (In "/"%char (L (a ++ b)%string)) in I. rewrite L_app in I. apply in_app_or in I. tauto. Qed.
Lemma segs_slash o : plain o -> forall s, In s (segs o) -> no_slash s.
Proof.
  induction o; cbn [plain segs].
  - intros [-> H] s [<-|[]]. apply no_slash_app; auto. unfold no_slash; cbn. intuition discriminate.
  - intros (Hl & Hk & Hp & Hn & P) s I. apply in_app_or in I. destruct I as [I|I]; [apply IHo; auto|].
    unfold loggable in Hl; cbn [kind_of] in Hl.
    destruct k; try discriminate; try congruence; cbn [is_eqf dir tag] in I; destruct I as [<-|I]; auto;
      try (unfold no_slash; cbn; intuition discriminate); try (destruct I as [<-|[]]; apply no_slash_app; auto; unfold no_slash; cbn; intuition discriminate).
Qed.
Lemma segs_odd o : plain o -> kind_of o <> KEqFrame -> Nat.odd (List.length (segs o)) = true.
Proof.
  induction o; cbn [plain segs kind_of]; [reflexivity|]. intros (Hl & Hk & Hp & Hn & P) Hq. specialize (IHo P Hp).
  rewrite app_length, Nat.odd_add, IHo. replace (is_eqf k) with false by (destruct k; cbn; congruence). reflexivity.
Qed.
Lemma segs_even i k n p : plain (Child i k n p) -> k = KEqFrame -> Nat.odd (List.length (segs (Child i k n p))) = false.
Proof.
  cbn [plain segs]. intros (Hl & Hk & Hp & Hn & P) ->. rewrite app_length, Nat.odd_add, (segs_odd p P Hp). reflexivity.
Qed.
Lemma segs_inj o1 : forall o2, plain o1 -> plain o2 -> segs o1 = segs o2 -> lineage o1 = lineage o2.
Proof.
  assert (APP : forall t a b : string, (t ++ a)%string = (t ++ b)%string -> a = b) by (induction t; cbn; intros a0 b H; [auto|injection H; auto]).
  assert (NE : forall o, plain o -> segs o <> nil) by (intros [i k n|i k n p] ?; cbn; [discriminate|destruct (segs p); [destruct k; cbn; discriminate|discriminate]]).
  induction o1 as [i k n|i k n p IH]; intros [i2 k2 n2|i2 k2 n2 p2] P1 P2 E.
  - cbn [plain segs] in *. destruct P1 as [-> _], P2 as [-> _]. injection E as E. cbn. congruence.
  - exfalso. cbn [plain] in P1. destruct P1 as [-> _]. pose proof P2 as (Hl & Hk & Hp & Hn & P). cbn [segs] in E.
    pose proof (NE _ P). apply (f_equal (@List.length _)) in E. rewrite app_length in E. cbn in E. destruct (segs p2); [congruence|]. destruct (is_eqf k2); cbn in E; lia.
  - exfalso. cbn [plain] in P2. destruct P2 as [-> _]. pose proof P1 as (Hl & Hk & Hp & Hn & P). cbn [segs] in E.
    pose proof (NE _ P). apply (f_equal (@List.length _)) in E. rewrite app_length in E. cbn in E. destruct (segs p); [congruence|]. destruct (is_eqf k); cbn in E; lia.
  - pose proof P1 as (Hl & Hk & Hp & Hn & P). pose proof P2 as (Hl2 & Hk2 & Hp2 & Hn2 & P'). 
    unfold lineage. cbn [ancestry]. rewrite !map_app. cbn [map kind_of name_of].
    assert (Q : k = KEqFrame <-> k2 = KEqFrame).
    { split; intros Q.
      - pose proof (segs_even _ _ _ _ P1 Q) as A. rewrite E in A. destruct (kind_eq_dec k2 KEqFrame); auto. rewrite (segs_odd _ P2) in A; auto. discriminate.
      - pose proof (segs_even _ _ _ _ P2 Q) as A. rewrite <- E in A. destruct (kind_eq_dec k KEqFrame); auto. rewrite (segs_odd _ P1) in A; auto. discriminate. }
    cbn [segs] in E. destruct (kind_eq_dec k KEqFrame) as [F|F].
    + rewrite (proj1 Q F), F in *. cbn [is_eqf] in E. apply app_inj_tail in E. destruct E as [E ->]. f_equal. apply IH; auto.
    + assert (F2 : k2 <> KEqFrame) by tauto. replace (is_eqf k) with false in E by (destruct k; cbn; congruence).
      replace (is_eqf k2) with false in E by (destruct k2; cbn; congruence).
      change [dir k; (tag k ++ n)%string] with ([dir k] ++ [(tag k ++ n)%string]) in E.
      change [dir k2; (tag k2 ++ n2)%string] with ([dir k2] ++ [(tag k2 ++ n2)%string]) in E. rewrite !app_assoc in E.
      apply app_inj_tail in E. destruct E as [E En]. apply app_inj_tail in E. destruct E as [E Ed].
      assert (Ek : k = k2).
      { unfold loggable in Hl, Hl2; cbn [kind_of] in Hl, Hl2.
        destruct k, k2; try discriminate; try congruence; reflexivity. }
      subst k2. apply APP in En. subst. f_equal. apply IH; auto.
Qed.
Lemma plain_inj o1 o2 : plain o1 -> plain o2 -> GetPath o1 = GetPath o2 -> lineage o1 = lineage o2.
Proof.
  intros P1 P2 E. apply segs_inj; auto. apply flat_inj; [apply segs_slash; auto|apply segs_slash; auto|].
  rewrite <- !path_flat by auto. congruence.
Qed.

(** ** Throwing *)
Lemma Add_throw s o s' : Add s o = Throw s' -> In (GetPath o) (s_paths s) /\ has_path (kind_of o) = true /\
  In o (all_objects s') /\ s_log s' = s_log s /\ s_paths s' = s_paths s /\ s_tree s' = s_tree s /\ s_forces s' = s_forces s /\ s_nodes s' = s_nodes s.
Proof.
  unfold Add. destruct (kind_of o) eqn:EK; cbn [bind]; try (destruct (added o); discriminate);
  match goal with |- bind (RegisterTreeNode ?s1 o) _ = _ -> _ =>
    destruct (RegisterTreeNode s1 o) eqn:R; cbn [bind]; try (destruct (added o); discriminate); intros H; try discriminate;
    injection H as <-; apply register_throw in R; destruct R as [R ->] end;
  cbn in R; (split; [exact R|]); repeat split; auto; unfold all_objects; cbn; rewrite !in_app_iff; cbn; tauto.
Qed.
Lemma Add_used s o : has_path (kind_of o) = true -> In (GetPath o) (s_paths s) -> exists s', Add s o = Throw s'.
Proof.
  intros Hp I. unfold Add. destruct (kind_of o) eqn:EK; try discriminate;
  match goal with |- exists _, bind (RegisterTreeNode ?s1 o) _ = _ => exists s1; rewrite (proj2 (register_throw s1 o s1)); auto end.
Qed.
Lemma Add_unused s o : ~ In (GetPath o) (s_paths s) -> exists s', Add s o = Ok s'.
Proof.
  intros I. unfold Add. 
  assert (R : forall s1, s_paths s1 = s_paths s -> exists s2, RegisterTreeNode s1 o = Ok s2).
  { intros s1 E. destruct (register_cases s1 o) as [F|F]; auto. apply register_throw in F. rewrite E in F. tauto. }
  destruct (kind_of o) eqn:EK; cbn [bind]; try (destruct (added o); eauto; fail);
  match goal with |- exists _, bind (RegisterTreeNode ?s1 o) _ = _ => destruct (R s1 eq_refl) as [s2 ->] end; cbn [bind]; destruct (added o); eauto.
Qed.
Lemma AddForce_throw s b f s' : AddExternalForce s b f = Throw s' <-> In (GetPath f) (s_paths s) /\ s' = with_forces s (s_forces s ++ [(b, f)]).
Proof.
  unfold AddExternalForce. destruct RegisterTreeNode eqn:R; cbn [bind].
  - split; [discriminate|]. intros [I _]. apply register_ok in R. cbn in R. tauto.
  - apply register_throw in R. destruct R as [R ->]. cbn in R. split; [intros H; injection H as <-; auto|intros [_ ->]; auto].
  - exfalso. destruct (register_cases (with_forces s (s_forces s ++ [(b, f)])) f) as [F|[? F]]; congruence.
  - exfalso. destruct (register_cases (with_forces s (s_forces s ++ [(b, f)])) f) as [F|[? F]]; congruence.
Qed.
Lemma path_used s o : paths_ok s -> (In (GetPath o) (s_paths s) <-> exists o', GetTreePath s o' = GetPath o).
Proof.
  intros P. pose proof P as (A & B & C). split.
  - rewrite <- B. rewrite in_map_iff. intros ([o' p] & E & I). cbn [snd] in E. exists o'. rewrite (tree_find s o' p P I), <- E. symmetry. eauto.
  - intros (o' & E). assert (N : GetTreePath s o' <> "") by (rewrite E; apply GetPath_ne).
    destruct (find_tree _ _ P N) as [I E']. rewrite <- B. rewrite <- E, E'. apply (in_map snd) in I. exact I.
Qed.

(** ** Removing one by one *)
Fixpoint remove_each (s : sys) (l : list obj) : outcome :=
  match l with nil => Ok s | o :: t => bind (Remove s o) (fun s => remove_each s t) end.
Lemma remove_ok_if sy h s o : good sy h s ->
  In o (s_bodies s) \/ In o (s_links s) \/ In o (s_constraints s) \/ In o (s_actuators s) -> exists s', Remove s o = Ok s'.
Proof.
  intros G I. unfold Remove.
  assert (J : is_joint (kind_of o) = true -> In o (survivors (adds is_link) removes h) \/ In o (survivors (adds is_constraint) removes h) \/ In o (survivors (adds is_actuator) removes h) -> In o (ch_links s)).
  { intros J H. rewrite (g_chl _ _ _ G).
    assert (M : forall K, (forall k, K k = true -> is_joint k = true) -> In o (survivors (adds K) removes h) -> In o (survivors (adds is_joint) removes h)).
    { intros K HK. clear -HK. induction h as [|a h IH]; cbn [survivors]; auto. intros I. apply in_app_or in I. apply in_or_app. destruct I as [I|I]; auto.
      left. apply filter_In in I. destruct I as [I N]. apply filter_In. split; auto. apply adds_In in I. apply adds_In. destruct I; auto. }
    destruct H as [H|[H|H]]; (eapply M; [|exact H]); intros []; cbn; auto. }
  rewrite <- (g_links _ _ _ G), <- (g_constraints _ _ _ G), <- (g_actuators _ _ _ G) in J.
  destruct I as [I|[I|[I|I]]]; pose proof I as I0;
    [rewrite (g_bodies _ _ _ G) in I0|rewrite (g_links _ _ _ G) in I0|rewrite (g_constraints _ _ _ G) in I0|rewrite (g_actuators _ _ _ G) in I0];
    apply surv_kind in I0; destruct I0 as [K _]; destruct (kind_of o); try discriminate.
  - unfold RemoveBody. rewrite (g_chb _ _ _ G). destruct (erase_some _ _ I) as [l ->]. cbn [bind]. eauto.
  - unfold RemoveLink. destruct (erase_some _ _ (J eq_refl ltac:(auto))) as [l ->], (erase_some _ _ I) as [l' ->]. cbn [bind]. eauto.
  - unfold RemoveConstraint. destruct (erase_some _ _ (J eq_refl ltac:(auto))) as [l ->], (erase_some _ _ I) as [l' ->]. cbn [bind]. eauto.
  - unfold RemoveActuator. destruct (erase_some _ _ (J eq_refl ltac:(auto))) as [l ->], (erase_some _ _ I) as [l' ->]. cbn [bind]. eauto.
Qed.
(** Emptying one of the four registries *)
Inductive registry := RBodies | RLinks | RConstraints | RActuators.
Definition content (r : registry) (s : sys) : list obj :=
  match r with RBodies => s_bodies s | RLinks => s_links s | RConstraints => s_constraints s | RActuators => s_actuators s end.
Definition remove_all (r : registry) (s : sys) : outcome :=
  match r with RBodies => RemoveAllBodies s | RLinks => RemoveAllLinks s | RConstraints => RemoveAllConstraints s | RActuators => RemoveAllActuators s end.
Definition K_of (r : registry) : kind -> bool := match r with RBodies => is_body | RLinks => is_link | RConstraints => is_constraint | RActuators => is_actuator end.
Lemma content_surv sy h s r : good sy h s -> content r s = survivors (adds (K_of r)) removes h.
Proof. intros G. destruct r; apply G. Qed.
Lemma K_of_path r : K_path (K_of r). Proof. destruct r; [apply K_body|apply K_link|apply K_constraint|apply K_actuator]. Qed.
Lemma content_In r s o : In o (content r s) -> In o (s_bodies s) \/ In o (s_links s) \/ In o (s_constraints s) \/ In o (s_actuators s).
Proof. destruct r; cbn; auto. Qed.
Lemma remove_each_ok sy r l : forall h s, kind_of sy = KSystem -> good sy h s -> content r s = l ->
  exists s', remove_each s l = Ok s' /\ content r s' = nil /\ exists h', good sy h' s'.
Proof.
  induction l as [|o l IH]; intros h s Hsy G E; cbn [remove_each].
  - exists s. repeat split; eauto.
  - assert (I : In o (content r s)) by (rewrite E; left; auto).
    destruct (remove_ok_if sy h s o G (content_In _ _ _ I)) as [s1 H1]. rewrite H1. cbn [bind].
    pose proof (step_remove _ _ _ _ _ Hsy G H1) as G1. apply (IH (h ++ [SRemove o]) s1 Hsy G1).
    rewrite (content_surv _ _ _ r G1), survivors_snoc, <- (content_surv _ _ _ r G), E. cbn [adds removes filter]. rewrite eqb_r. cbn [negb]. rewrite app_nil_r.
    apply filter_true. intros x Ix. apply negb_true_iff, eqb_f. intros <-.
    assert (N : NoDup (content r s)) by (rewrite (content_surv _ _ _ r G); eapply surv_nodup; [apply K_of_path|apply G|apply G]).
    rewrite E in N. inversion N; subst. contradiction.
Qed.
Lemma remove_absent s o : ~ In o (all_objects s) -> forall s', Remove s o <> Ok s' \/ is_physics (kind_of o) = true.
Proof.
  intros N s'. unfold Remove. assert (E : forall l, (forall x, In x l -> In x (all_objects s)) -> erase_obj o l = None).
  { intros l Hl. apply erase_none. intros I. apply N, Hl; auto. }
  assert (A : forall x, In x (s_bodies s) -> In x (all_objects s)) by (intros x I; apply all_In; auto).
  assert (B : forall x, In x (s_links s) -> In x (all_objects s)) by (intros x I; apply all_In; auto).
  assert (C : forall x, In x (s_constraints s) -> In x (all_objects s)) by (intros x I; apply all_In; auto).
  assert (D : forall x, In x (s_actuators s) -> In x (all_objects s)) by (intros x I; apply all_In; auto 6).
  assert (F : forall x, In x (s_fea s) -> In x (all_objects s)) by (intros x I; apply all_In; tauto).
  unfold RemoveBody, RemoveLink, RemoveConstraint, RemoveActuator, RemoveFEAMesh.
  rewrite (E _ A), (E _ B), (E _ C), (E _ D), (E _ F).
  destruct (kind_of o); auto; left; repeat match goal with |- context [match ?x with _ => _ end] => destruct x end; cbn [bind]; discriminate.
Qed.
