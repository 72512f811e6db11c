From Coq Require Import List String Ascii Bool Arith Lia Permutation.
From Verif Require Import RegModel RegSpec RegProofs.
Import ListNotations.
Open Scope string_scope.
Open Scope list_scope.

(** ** Paths along a history, exceptions caught *)
Lemma RemoveAllForces_w s b : RemoveAllForces s b =
  with_forces (with_log s (fold_left (fun a o => lrem o a) (forces_of s b) (s_log s))) (filter (fun p => negb (obj_eqb b (fst p))) (s_forces s)).
Proof. unfold RemoveAllForces. rewrite LogRemoves_w. destruct s; reflexivity. Qed.
Lemma RemoveAllNodes_w s b : RemoveAllNodes s b =
  with_nodes (with_log s (fold_left (fun a o => lrem o a) (nodes_of s b) (s_log s))) (filter (fun p => negb (obj_eqb b (fst p))) (s_nodes s)).
Proof. unfold RemoveAllNodes. rewrite LogRemoves_w. destruct s; reflexivity. Qed.

Definition keeps (s s' : sys) : Prop := s_paths s' = s_paths s /\ s_tree s' = s_tree s.
Lemma keeps_ok s s' : keeps s s' -> paths_ok s -> paths_ok s'.
Proof. intros [A B]. unfold paths_ok. rewrite A, B. auto. Qed.
(** The states a call may leave *)
Definition leaves (r : outcome) (s : sys) : Prop := r = Ok s \/ r = Throw s.
Lemma register_leaves s o s' : leaves (RegisterTreeNode s o) s' -> paths_ok s -> paths_ok s'.
Proof.
  intros [H|H] P.
  - apply register_ok in H. destruct H as [H ->]. apply with_paths_ok; auto.
  - apply register_throw in H. destruct H as [_ ->]. auto.
Qed.
Lemma bind_leaves r k s : leaves (bind r k) s -> (exists s1, r = Ok s1 /\ leaves (k s1) s) \/ (r = Throw s).
Proof. destruct r; cbn [bind]; intros H; [left; eauto|right|destruct H; discriminate|destruct H; discriminate]. destruct H as [H|H]; [discriminate|auto]. Qed.
Lemma leaves_ok s s' : leaves (Ok s) s' -> s' = s. Proof. intros [H|H]; [injection H; auto|discriminate]. Qed.

Lemma step_paths s o s' : leaves (sys_step s o) s' -> paths_ok s -> paths_ok s'.
Proof.
  intros H P. destruct o; cbn [sys_step] in H.
  - unfold Add in H. apply bind_leaves in H.
    assert (K : forall s1 s2, keeps s s1 -> leaves (RegisterTreeNode s1 o) s2 -> paths_ok s2)
      by (intros s1 s2 A B; apply (register_leaves s1 o s2 B); apply (keeps_ok s); auto).
    destruct H as [(s1 & H & L)|H].
    + assert (P1 : paths_ok s1).
      { destruct (kind_of o); try (injection H as <-; try apply (keeps_ok s); auto; split; reflexivity);
          (eapply K; [|left; exact H]); split; reflexivity. }
      destruct (added o).
      * apply leaves_ok in L. rewrite L, LogAddIf_w. apply paths_log; auto.
      * apply leaves_ok in L; subst; auto.
    + destruct (kind_of o); try discriminate; (eapply K; [|right; exact H]); split; reflexivity.
  - unfold Remove in H. apply bind_leaves in H.
    destruct H as [(s1 & H & L)|H].
    + apply leaves_ok in L. rewrite L, LogRemoveIf_w. apply paths_log. apply (keeps_ok s); auto.
      destruct (kind_of o); try discriminate; unfold RemoveBody, RemoveLink, RemoveConstraint, RemoveActuator, RemovePhysicsItem, RemoveFEAMesh in H;
        repeat (match type of H with context [match ?x with _ => _ end] => destruct x; try discriminate H end); injection H as <-; try (split; reflexivity).
      all: rewrite RemoveAllNodes_w, RemoveAllForces_w; split; reflexivity.
    + exfalso. destruct (kind_of o); try discriminate; unfold RemoveBody, RemoveLink, RemoveConstraint, RemoveActuator, RemovePhysicsItem, RemoveFEAMesh in H;
        repeat (match type of H with context [match ?x with _ => _ end] => destruct x; try discriminate H end).
  - unfold AddExternalForce in H. apply bind_leaves in H. destruct H as [(s1 & H & L)|H].
    + apply leaves_ok in L. rewrite L, LogAdd_w. apply paths_log. eapply register_leaves; [left; exact H|]. apply (keeps_ok s); auto. split; reflexivity.
    + eapply register_leaves; [right; exact H|]. apply (keeps_ok s); auto. split; reflexivity.
  - unfold RemoveExternalForce in H. destruct erase_pair; [|destruct H; discriminate].
    apply leaves_ok in H. rewrite H, LogRemoveIf_w. apply paths_log. apply (keeps_ok s); auto. split; reflexivity.
  - apply leaves_ok in H. rewrite H, RemoveAllForces_w. apply (keeps_ok s); auto. split; reflexivity.
  - unfold NewNode in H. apply bind_leaves in H. destruct H as [(s1 & H & L)|H].
    + apply leaves_ok in L. rewrite L, LogAdd_w. apply paths_log. eapply register_leaves; [left; exact H|]. apply (keeps_ok s); auto. split; reflexivity.
    + eapply register_leaves; [right; exact H|]. apply (keeps_ok s); auto. split; reflexivity.
  - apply leaves_ok in H. rewrite H, RemoveAllNodes_w. apply (keeps_ok s); auto. split; reflexivity.
Qed.
Lemma new_system_eq i n : new_system i n = with_paths (with_log empty_sys [Root i KSystem n]) [GetPath (Root i KSystem n)] [(Root i KSystem n, GetPath (Root i KSystem n))].
Proof. reflexivity. Qed.
Lemma new_paths i n : paths_ok (new_system i n).
Proof.
  rewrite new_system_eq. repeat split; cbn -[GetPath].
  - intros o p [H|[]]. injection H as <- <-; auto.
  - constructor; [intros []|constructor].
Qed.
Lemma catch_paths h : forall s s', paths_ok s -> leaves (sys_run_catch s h) s' -> paths_ok s'.
Proof.
  induction h as [|o h IH]; intros s s' P H; cbn [sys_run_catch] in H.
  - apply leaves_ok in H; subst; auto.
  - destruct (sys_step s o) eqn:E; try (destruct H; discriminate); (eapply IH; [|exact H]); apply (step_paths s o); auto; [left|right]; auto.
Qed.

(** ** Error-free histories *)
Lemma run_snoc h : forall s o, sys_run s (h ++ [o]) = bind (sys_run s h) (fun s => sys_step s o).
Proof.
  induction h as [|a h IH]; intros s o; cbn [sys_run app bind].
  - destruct (sys_step s o); reflexivity.
  - destruct (sys_step s a); cbn [bind]; auto.
Qed.
Lemma run_catch h : forall s s', sys_run s h = Ok s' -> sys_run_catch s h = Ok s'.
Proof.
  induction h as [|o h IH]; intros s s'; cbn [sys_run sys_run_catch]; auto.
  destruct (sys_step s o); cbn [bind]; auto; discriminate.
Qed.

(** What an error-free call does *)
Lemma Add_ok s o s' : Add s o = Ok s' ->
  (has_path (kind_of o) = true -> ~ In (GetPath o) (s_paths s)) /\
  s_paths s' = (if has_path (kind_of o) then [GetPath o] else nil) ++ s_paths s /\
  s_bodies s' = s_bodies s ++ (if is_body (kind_of o) then [o] else nil) /\
  s_links s' = s_links s ++ (if is_link (kind_of o) then [o] else nil) /\
  s_constraints s' = s_constraints s ++ (if is_constraint (kind_of o) then [o] else nil) /\
  s_actuators s' = s_actuators s ++ (if is_actuator (kind_of o) then [o] else nil) /\
  s_physics s' = s_physics s ++ (if is_physics (kind_of o) then [o] else nil) /\
  s_fea s' = s_fea s ++ (if is_fea (kind_of o) then [o] else nil) /\
  ch_bodies s' = ch_bodies s ++ (if is_body (kind_of o) then [o] else nil) /\
  ch_links s' = ch_links s ++ (if is_joint (kind_of o) then [o] else nil) /\
  ch_items s' = ch_items s ++ (if is_physics (kind_of o) then [o] else nil) /\
  ch_meshes s' = ch_meshes s ++ (if is_fea (kind_of o) then [o] else nil) /\
  s_forces s' = s_forces s /\ s_nodes s' = s_nodes s /\
  s_log s' = (if added o && loggable o then ladd o (s_log s) else s_log s).
Proof.
  unfold Add. intros H.
  assert (L : forall s1 s2, RegisterTreeNode s1 o = Ok s2 -> bind (RegisterTreeNode s1 o) (fun s => Ok (LogAddIf s o)) = Ok s' ->
     ~ In (GetPath o) (s_paths s1) /\ s' = with_log (with_paths s1 (GetPath o :: s_paths s1) ((o, GetPath o) :: s_tree s1)) (if loggable o then ladd o (s_log s1) else s_log s1)).
  { intros s1 s2 A B. rewrite A in B. cbn [bind] in B. rewrite LogAddIf_w in B. injection B as <-. apply register_ok in A. destruct A as [A ->]. split; auto. }
  unfold added, loggable in *. destruct (kind_of o) eqn:EK;
  try (match type of H with bind (RegisterTreeNode ?s1 o) _ = _ => destruct (register_cases s1 o) as [F|[s2 F]];
         [rewrite F in H; discriminate|destruct (L s1 s2 F H) as [G ->]] end;
       cbn in G; cbn -[GetPath]; repeat split; rewrite ?app_nil_r; auto; fail);
  cbn [bind] in H; rewrite ?LogAddIf_w in H; injection H as <-; cbn -[GetPath]; rewrite ?app_nil_r; repeat split; auto; intros; try discriminate;
  unfold loggable; rewrite EK; reflexivity.
Qed.

Definition erased (b : bool) (o : obj) (l l' : list obj) : Prop := if b then erase_obj o l = Some l' else l' = l.
Lemma Remove_ok s o s' : Remove s o = Ok s' ->
  added o = true /\
  s_paths s' = s_paths s /\
  erased (is_body (kind_of o)) o (s_bodies s) (s_bodies s') /\
  erased (is_link (kind_of o)) o (s_links s) (s_links s') /\
  erased (is_constraint (kind_of o)) o (s_constraints s) (s_constraints s') /\
  erased (is_actuator (kind_of o)) o (s_actuators s) (s_actuators s') /\
  (ch_items s = s_physics s -> erased (is_physics (kind_of o)) o (s_physics s) (s_physics s')) /\
  erased (is_fea (kind_of o)) o (s_fea s) (s_fea s') /\
  erased (is_body (kind_of o)) o (ch_bodies s) (ch_bodies s') /\
  erased (is_joint (kind_of o)) o (ch_links s) (ch_links s') /\
  erased (is_physics (kind_of o)) o (ch_items s) (ch_items s') /\
  erased (is_fea (kind_of o)) o (ch_meshes s) (ch_meshes s') /\
  s_forces s' = (if is_body (kind_of o) then filter (fun p => negb (obj_eqb o (fst p))) (s_forces s) else s_forces s) /\
  s_nodes s' = (if is_body (kind_of o) then filter (fun p => negb (obj_eqb o (fst p))) (s_nodes s) else s_nodes s) /\
  s_log s' = (let l := if is_body (kind_of o) then fold_left (fun a x => lrem x a) (forces_of s o ++ nodes_of s o) (s_log s) else s_log s in
              if loggable o then lrem o l else l).
Proof.
  unfold Remove, added. destruct (kind_of o) eqn:EK; try discriminate;
  unfold RemoveBody, RemoveLink, RemoveConstraint, RemoveActuator, RemovePhysicsItem, RemoveFEAMesh; intros H;
  repeat match type of H with context [match erase_obj o ?x with _ => _ end] => destruct (erase_obj o x) eqn:?; try discriminate H end;
  cbn [bind] in H; rewrite ?RemoveAllForces_w, ?RemoveAllNodes_w, LogRemoveIf_w in H; injection H as <-;
  cbn -[GetPath fold_left]; repeat split; auto.
  - rewrite fold_left_app. reflexivity.
  - intros E. rewrite E in *. congruence.
  - intros E. rewrite E in *. congruence.
  - intros E. rewrite E in *. congruence.
Qed.

(** ** The invariant of error-free histories *)
Definition NoDupOn (P : obj -> Prop) (l : list obj) : Prop := forall o, P o -> (count_occ obj_eq_dec l o <= 1)%nat.
Definition all_objects (s : sys) : list obj :=
  s_bodies s ++ s_links s ++ s_constraints s ++ s_actuators s ++ s_physics s ++ s_fea s.
Record good (sy : obj) (h : list sop) (s : sys) : Prop := Good {
  g_paths : paths_ok s;
  g_sys : In (GetPath sy) (s_paths s);
  g_added : forall o, has_path (kind_of o) = true -> In (SAdd o) h -> In (GetPath o) (s_paths s);
  g_fadded : forall b f, In (SAddForce b f) h -> In (GetPath f) (s_paths s);
  g_nadded : forall b n, In (SNewNode b n) h -> In (GetPath n) (s_paths s);
  g_bodies : s_bodies s = survivors (adds is_body) removes h;
  g_links : s_links s = survivors (adds is_link) removes h;
  g_constraints : s_constraints s = survivors (adds is_constraint) removes h;
  g_actuators : s_actuators s = survivors (adds is_actuator) removes h;
  g_chb : ch_bodies s = s_bodies s;
  g_chl : ch_links s = survivors (adds is_joint) removes h;
  g_chp : ch_items s = s_physics s;
  g_chm : ch_meshes s = s_fea s;
  g_phys : forall o, is_physics (kind_of o) = true -> count_occ obj_eq_dec (s_physics s) o + times_removed o h = times_added o h;
  g_fea : forall o, is_fea (kind_of o) = true -> count_occ obj_eq_dec (s_fea s) o + times_removed o h = times_added o h;
  g_pk : forall o, In o (s_physics s) -> is_physics (kind_of o) = true;
  g_fk : forall o, In o (s_fea s) -> is_fea (kind_of o) = true;
  g_once : forall o, has_path (kind_of o) = true -> times_added o h <= 1;
  g_forces : forall b, forces_of s b = survivors (adds_force b) (removes_force b) h;
  g_nodes : forall b, nodes_of s b = survivors (adds_node b) (removes_node b) h;
  g_fdup : NoDup (map snd (s_forces s));
  g_ndup : NoDup (map snd (s_nodes s));
  g_fin : forall b f, In (b, f) (s_forces s) -> kind_of b = KBody /\ kind_of f = KForce /\ In (GetPath f) (s_paths s);
  g_nin : forall b n, In (b, n) (s_nodes s) -> kind_of b = KBody /\ kind_of n = KNode /\ In (GetPath n) (s_paths s);
  g_ldup : NoDup (s_log s);
  g_log : forall o, In o (s_log s) <-> o = sy \/ (In o (all_objects s) /\ loggable o = true) \/ In o (map snd (s_forces s)) \/ In o (map snd (s_nodes s))
}.

Lemma erase_pair_eq b f l l' : erase_pair (b, f) l = Some l' ->
  exists l1 l2, l = l1 ++ (b, f) :: l2 /\ l' = l1 ++ l2.
Proof.
  revert l'. unfold erase_pair. induction l as [|[b' f'] l IH]; cbn [erase fst snd]; [discriminate|]. intros l'.
  destruct (obj_eqb b b' && obj_eqb f f') eqn:E.
  - apply andb_prop in E. destruct E as [E F]. apply eqb_t in E, F. subst. intros H; injection H as <-. exists nil, l; auto.
  - destruct erase as [t|] eqn:F; [|discriminate]. intros H; injection H as <-. destruct (IH t eq_refl) as (l1 & l2 & -> & ->).
    exists ((b', f') :: l1), l2; auto.
Qed.
Lemma filter_true {A} (p : A -> bool) l : (forall x, In x l -> p x = true) -> filter p l = l.
Proof. induction l as [|a l IH]; intros H; cbn [filter]; auto. rewrite H by (left; auto). f_equal. apply IH. intros; apply H; right; auto. Qed.
Lemma filter_false {A} (p : A -> bool) l : (forall x, In x l -> p x = false) -> filter p l = nil.
Proof. induction l as [|a l IH]; intros H; cbn [filter]; auto. rewrite H by (left; auto). apply IH. intros; apply H; right; auto. Qed.

(** Registries with unique objects: one step *)
Definition K_path (K : kind -> bool) : Prop := forall k, K k = true -> has_path k = true.
Lemma surv_kind K h o : In o (survivors (adds K) removes h) -> K (kind_of o) = true /\ In (SAdd o) h.
Proof. intros H. apply survivors_In in H. destruct H as (op & I & A). apply adds_In in A. destruct A as [-> A]. auto. Qed.
Lemma registry_add K h o l : l = survivors (adds K) removes h ->
  l ++ (if K (kind_of o) then [o] else nil) = survivors (adds K) removes (h ++ [SAdd o]).
Proof. intros ->. rewrite survivors_snoc. cbn [removes adds]. rewrite filter_true; auto. Qed.
Lemma registry_remove K h o l l' : l = survivors (adds K) removes h -> NoDup l ->
  erased (K (kind_of o)) o l l' -> l' = survivors (adds K) removes (h ++ [SRemove o]).
Proof.
  intros -> Hn H. rewrite survivors_snoc. cbn [removes adds]. rewrite app_nil_r. destruct (K (kind_of o)) eqn:E; cbn [erased] in H.
  - apply erase_filter in H; auto.
  - subst l'. symmetry. apply filter_true. intros x Hx. apply surv_kind in Hx. destruct Hx as [Hx _].
    apply negb_true_iff, eqb_f. intros ->. congruence.
Qed.
Lemma registry_other {A} (add : sop -> list A) kill h op : add op = nil -> (forall x, kill op x = false) ->
  survivors add kill (h ++ [op]) = survivors add kill h.
Proof. intros E F. rewrite survivors_snoc, E, app_nil_r. apply filter_true. intros. rewrite F. auto. Qed.
(** They stay free of duplicates *)
Lemma surv_nodup K h s : K_path K -> paths_ok s ->
  (forall o, has_path (kind_of o) = true -> times_added o h <= 1) -> NoDup (survivors (adds K) removes h).
Proof.
  intros HK _ H.
  assert (G : forall o, count_occ obj_eq_dec (survivors (adds K) removes h) o <= times_added o h).
  { intros o. unfold times_added. clear H. induction h as [|a h IH]; [apply Nat.le_refl|]. cbn [survivors flat_map]. rewrite !count_occ_app.
    apply Nat.add_le_mono; auto. clear IH.
    destruct a; cbn [adds]; try apply Nat.le_0_l. destruct (K (kind_of o0)); [|apply Nat.le_0_l]. cbn [filter].
    destruct (negb _); [apply Nat.le_refl|apply Nat.le_0_l]. }
  apply (NoDup_count_occ obj_eq_dec). intros o. destruct (in_dec obj_eq_dec o (survivors (adds K) removes h)) as [I|I].
  - apply surv_kind in I. eapply Nat.le_trans; [apply G|]. apply H, HK; tauto.
  - apply (count_occ_not_In obj_eq_dec) in I. rewrite I. auto.
Qed.
Lemma times_added_snoc o h op : times_added o (h ++ [op]) = times_added o h + count_occ obj_eq_dec (adds (fun _ => true) op) o.
Proof. unfold times_added. rewrite flat_map_app, count_occ_app. cbn [flat_map]. rewrite app_nil_r. reflexivity. Qed.
Lemma times_removed_snoc o h op : times_removed o (h ++ [op]) = times_removed o h + (if removes op o then 1 else 0).
Proof. unfold times_removed. rewrite filter_app, app_length. cbn [filter]. destruct (removes op o); reflexivity. Qed.
Lemma times_added_zero o h : ~ In (SAdd o) h -> times_added o h = 0.
Proof.
  intros H. unfold times_added. apply (count_occ_not_In obj_eq_dec). intros I. apply in_flat_map in I. destruct I as (op & I & A).
  apply adds_In in A. destruct A as [-> _]. contradiction.
Qed.
Lemma times_added_pos o h : In (SAdd o) h -> 1 <= times_added o h.
Proof.
  intros H. unfold times_added. apply (count_occ_In obj_eq_dec). apply in_flat_map. exists (SAdd o). split; auto. left; auto.
Qed.

(** Forces and nodes of one body *)
Lemma of_app (l1 l2 : list (obj * obj)) b :
  map snd (filter (fun p => obj_eqb b (fst p)) (l1 ++ l2)) =
  map snd (filter (fun p => obj_eqb b (fst p)) l1) ++ map snd (filter (fun p => obj_eqb b (fst p)) l2).
Proof. rewrite filter_app, map_app. auto. Qed.
Lemma of_filter (l : list (obj * obj)) b b' :
  map snd (filter (fun p => obj_eqb b (fst p)) (filter (fun p => negb (obj_eqb b' (fst p))) l)) =
  if obj_eqb b b' then nil else map snd (filter (fun p => obj_eqb b (fst p)) l).
Proof.
  induction l as [|[x y] l IH]; cbn [filter fst map]; [destruct obj_eqb; auto|].
  destruct (obj_eqb b' x) eqn:E; cbn [negb].
  - apply eqb_t in E; subst. rewrite IH. destruct (obj_eqb b x); auto.
  - cbn [filter fst]. destruct (obj_eqb b x) eqn:F; cbn [map snd]; rewrite IH; auto.
    apply eqb_t in F; subst. rewrite eqb_sym, E. auto.
Qed.
Lemma of_In (l : list (obj * obj)) b f : In f (map snd (filter (fun p => obj_eqb b (fst p)) l)) <-> In (b, f) l.
Proof.
  rewrite in_map_iff. split.
  - intros ([b' f'] & E & H). cbn [snd] in E; subst f'. apply filter_In in H. destruct H as [H F]. cbn [fst] in F. apply eqb_t in F; subst. auto.
  - intros H. exists (b, f). split; auto. apply filter_In. cbn [fst]. rewrite eqb_r; auto.
Qed.
Lemma pair_In (l : list (obj * obj)) f : In f (map snd l) <-> exists b, In (b, f) l.
Proof.
  rewrite in_map_iff. split; [intros ([b f'] & <- & H); eauto|intros (b & H); exists (b, f); auto].
Qed.
Lemma pair_fun (l : list (obj * obj)) b b' f : NoDup (map snd l) -> In (b, f) l -> In (b', f) l -> b = b'.
Proof.
  induction l as [|[x y] l IH]; [intros _ []|]. cbn [map snd]. intros H. inversion H; subst. intros [E|E] [F|F]; auto.
  - congruence.
  - injection E as -> ->. exfalso; apply H2, pair_In; eauto.
  - injection F as -> ->. exfalso; apply H2, pair_In; eauto.
Qed.
Lemma nodup_mid {A} (l1 l2 : list A) x : NoDup (l1 ++ x :: l2) -> NoDup (l1 ++ l2) /\ ~ In x (l1 ++ l2).
Proof. intros H. split; [eapply NoDup_remove_1; eauto|eapply NoDup_remove_2; eauto]. Qed.
Lemma nodup_filter_map {A B} (f : A -> B) p l : NoDup (map f l) -> NoDup (map f (filter p l)).
Proof.
  induction l as [|a l IH]; cbn [map filter]; auto. intros H; inversion H; subst. destruct (p a); auto. cbn [map]. constructor; auto.
  intros I. apply H2. apply in_map_iff in I. destruct I as (x & E & I). apply filter_In in I. rewrite <- E. apply in_map. tauto.
Qed.
