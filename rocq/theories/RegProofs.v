From Coq Require Import List String Ascii Bool Arith Lia Permutation.
From Verif Require Import RegModel RegSpec.
Import ListNotations.
Open Scope string_scope.
Open Scope list_scope.

(** ** Basics *)
Lemma eqb_t a b : obj_eqb a b = true <-> a = b.
Proof. unfold obj_eqb; destruct obj_eq_dec; split; intros; auto; discriminate. Qed.
Lemma eqb_r a : obj_eqb a a = true. Proof. apply eqb_t; auto. Qed.
Lemma eqb_f a b : obj_eqb a b = false <-> a <> b.
Proof. unfold obj_eqb; destruct obj_eq_dec; split; intros; auto; try discriminate; contradiction. Qed.
Lemma eqb_sym a b : obj_eqb a b = obj_eqb b a.
Proof. unfold obj_eqb; do 2 destruct obj_eq_dec; congruence. Qed.
Lemma mem_In o l : mem o l = true <-> In o l.
Proof.
  unfold mem. rewrite existsb_exists. split; [intros (x & H & E); apply eqb_t in E; subst; auto|].
  intros; exists o; rewrite eqb_r; auto.
Qed.
Lemma mem_nIn o l : mem o l = false <-> ~ In o l.
Proof. rewrite <- mem_In. destruct (mem o l); split; intros; auto; try discriminate; contradiction. Qed.

Lemma erase_filter o l l' : NoDup l -> erase_obj o l = Some l' -> l' = filter (fun x => negb (obj_eqb o x)) l.
Proof.
  revert l'. induction l as [|y l IH]; unfold erase_obj; cbn [erase]; [discriminate|]. intros l' Hn H.
  inversion Hn as [|? ? Hy Hl]; subst. cbn [filter]. destruct (obj_eqb o y) eqn:E.
  - injection H as <-. apply eqb_t in E; subst y. cbn [negb]. clear -Hy. induction l; cbn [filter]; auto.
    destruct (obj_eqb o a) eqn:E; cbn [negb].
    + apply eqb_t in E; subst. elim Hy; left; auto.
    + rewrite <- IHl; auto. intros F; apply Hy; right; auto.
  - destruct (erase obj_eqb o l) eqn:F; [|discriminate]. injection H as <-. cbn [negb]. f_equal. apply IH; auto.
Qed.
Lemma erase_count o l l' x : erase_obj o l = Some l' ->
  count_occ obj_eq_dec l x = (count_occ obj_eq_dec l' x + if obj_eq_dec o x then 1 else 0)%nat.
Proof.
  revert l'. induction l as [|y l IH]; unfold erase_obj; cbn [erase]; [discriminate|]. intros l' H.
  destruct (obj_eqb o y) eqn:E.
  - injection H as <-. apply eqb_t in E; subst y. cbn [count_occ]. destruct (obj_eq_dec o x); lia.
  - destruct (erase obj_eqb o l) eqn:F; [|discriminate]. injection H as <-. cbn [count_occ].
    rewrite (IH l0 F). destruct (obj_eq_dec y x), (obj_eq_dec o x); lia.
Qed.
Lemma erase_none o l : erase_obj o l = None <-> ~ In o l.
Proof.
  induction l as [|y l IH]; unfold erase_obj; cbn [erase]; [cbn; tauto|]. destruct (obj_eqb o y) eqn:E.
  - apply eqb_t in E; subst. split; [discriminate|]. intros H; elim H; left; auto.
  - apply eqb_f in E. fold (erase_obj o l). destruct (erase_obj o l) eqn:F.
    + split; [discriminate|]. intros H. exfalso. assert (Some l0 = None) by (apply IH; intros G; apply H; right; auto). discriminate.
    + split; auto. intros _ [H|H]; [congruence|]. apply IH; auto.
Qed.
Lemma erase_some o l : In o l -> exists l', erase_obj o l = Some l'.
Proof. intros H. destruct (erase_obj o l) eqn:E; eauto. apply erase_none in E. contradiction. Qed.

(** ** Log list *)
Definition ladd o l := if mem o l then l else l ++ [o].
Definition lrem o l := match erase_obj o l with Some l' => l' | None => l end.
Lemma with_log_id s : with_log s (s_log s) = s. Proof. destruct s; reflexivity. Qed.
Lemma LogAdd_w s o : LogAdd s o = with_log s (ladd o (s_log s)).
Proof. unfold LogAdd, LogHas, ladd. destruct mem; auto. symmetry; apply with_log_id. Qed.
Lemma LogRemove_w s o : LogRemove s o = with_log s (lrem o (s_log s)).
Proof. unfold LogRemove, lrem. destruct erase_obj; auto. symmetry; apply with_log_id. Qed.
Lemma LogRemoves_w l : forall s, fold_left LogRemove l s = with_log s (fold_left (fun a o => lrem o a) l (s_log s)).
Proof.
  induction l; intros; cbn [fold_left]; [symmetry; apply with_log_id|]. rewrite IHl, LogRemove_w. destruct s; reflexivity.
Qed.
Lemma lrem_spec o l : NoDup l -> NoDup (lrem o l) /\ forall x, In x (lrem o l) <-> In x l /\ x <> o.
Proof.
  intros H. unfold lrem. destruct (erase_obj o l) eqn:E.
  - apply erase_filter in E; auto; subst. split; [apply NoDup_filter; auto|]. intros x. rewrite filter_In, negb_true_iff, eqb_f.
    split; intros []; split; auto.
  - apply erase_none in E. split; auto. intros x. split; [|tauto]. intros; split; auto. intros ->; contradiction.
Qed.
Lemma lrems_spec r : forall l, NoDup l -> NoDup (fold_left (fun a o => lrem o a) r l) /\
  forall x, In x (fold_left (fun a o => lrem o a) r l) <-> In x l /\ ~ In x r.
Proof.
  induction r as [|o r IH]; intros l H; cbn [fold_left]; [cbn; split; [auto|tauto]|].
  destruct (lrem_spec o l H) as [A B]. destruct (IH _ A) as [C D]. split; auto. intros x. rewrite D, B. cbn [In].
  split; intros; intuition congruence.
Qed.
Lemma ladd_spec o l : NoDup l -> NoDup (ladd o l) /\ forall x, In x (ladd o l) <-> In x l \/ x = o.
Proof.
  intros H. unfold ladd. destruct (mem o l) eqn:E.
  - apply mem_In in E. split; auto. intros; split; [tauto|]. intros [?| ->]; auto.
  - apply mem_nIn in E. split.
    + apply (Permutation_NoDup (l := o :: l)); [|constructor; auto].
      apply Permutation_cons_append.
    + intros x. rewrite in_app_iff. cbn. intuition.
Qed.

(** ** Survivors *)
Lemma survivors_snoc {A} (add : sop -> list A) kill op h :
  survivors add kill (h ++ [op]) = filter (fun x => negb (kill op x)) (survivors add kill h) ++ add op.
Proof.
  induction h as [|a h IH]; cbn [survivors app].
  - cbn [existsb negb filter]. rewrite app_nil_r. induction (add op); cbn [filter]; auto. rewrite IHl; auto.
  - rewrite IH, filter_app, app_assoc. f_equal. f_equal.
    induction (add a) as [|x l IHl]; cbn [filter]; auto. rewrite existsb_app. cbn [existsb]. rewrite orb_false_r.
    destruct (existsb (fun o => kill o x) h); cbn [orb negb]; [auto|]. cbn [filter]. destruct (kill op x); cbn [negb]; auto. f_equal; auto.
Qed.
Lemma survivors_In {A} (add : sop -> list A) kill h x : In x (survivors add kill h) ->
  exists op, In op h /\ In x (add op).
Proof.
  induction h as [|a h IH]; cbn [survivors]; [intros []|]. intros H. apply in_app_or in H. destruct H as [H|H].
  - apply filter_In in H. exists a; cbn; tauto.
  - destruct (IH H) as (op & ? & ?). exists op; cbn; auto.
Qed.
Lemma adds_In K op x : In x (adds K op) <-> op = SAdd x /\ K (kind_of x) = true.
Proof.
  destruct op; cbn [adds]; try (split; [intros []|intros [? ?]; discriminate]).
  destruct (K (kind_of o)) eqn:E; cbn [In]; split.
  - intros [<-|[]]; auto.
  - intros [H ?]; injection H as ->; auto.
  - intros [].
  - intros [H ?]; injection H as ->; congruence.
Qed.

(** ** Paths *)
Definition paths_ok (s : sys) : Prop :=
  (forall o p, In (o, p) (s_tree s) -> p = GetPath o) /\ map snd (s_tree s) = s_paths s /\ NoDup (s_paths s).
Lemma HasPath_In s p : HasPath s p = true <-> In p (s_paths s).
Proof.
  unfold HasPath. rewrite existsb_exists. split; [intros (x & H & E); apply String.eqb_eq in E; subst; auto|].
  intros; exists p. rewrite String.eqb_refl; auto.
Qed.
Lemma register_ok s o s' : RegisterTreeNode s o = Ok s' ->
  ~ In (GetPath o) (s_paths s) /\ s' = with_paths s (GetPath o :: s_paths s) ((o, GetPath o) :: s_tree s).
Proof.
  unfold RegisterTreeNode. destruct (HasPath s (GetPath o)) eqn:E; [discriminate|]. intros H; injection H as <-. split; auto.
  rewrite <- HasPath_In, E. discriminate.
Qed.
Lemma register_throw s o s' : RegisterTreeNode s o = Throw s' <-> In (GetPath o) (s_paths s) /\ s' = s.
Proof.
  unfold RegisterTreeNode. rewrite <- HasPath_In. destruct (HasPath s (GetPath o)); split.
  - intros H; injection H as <-; auto.
  - intros [_ ->]; auto.
  - discriminate.
  - intros [? ?]; discriminate.
Qed.
Lemma register_cases s o : RegisterTreeNode s o = Throw s \/ exists s', RegisterTreeNode s o = Ok s'.
Proof. unfold RegisterTreeNode. destruct HasPath; eauto. Qed.
Lemma with_paths_ok s o : paths_ok s -> ~ In (GetPath o) (s_paths s) ->
  paths_ok (with_paths s (GetPath o :: s_paths s) ((o, GetPath o) :: s_tree s)).
Proof.
  intros (A & B & C) H. repeat split; cbn.
  - intros o' p [E|E]; [injection E as <- <-; auto|eauto].
  - f_equal; auto.
  - constructor; auto.
Qed.
Lemma GetPath_spec o : GetPath o = path_spec o.
Proof.
  unfold path_spec. induction o; cbn [GetPath ancestry map fold_right label].
  - unfold label; cbn [kind_of name_of]. assert (H : forall a : string, a = (a ++ "")%string) by (induction a; cbn; congruence). apply H.
  - rewrite map_app, fold_right_app. cbn [map fold_right]. change (label (Child id k name o)) with (prefix_of k ++ name ++ "/")%string. rewrite IHo.
    assert (Happ : forall a b c : string, ((a ++ b) ++ c = a ++ (b ++ c))%string) by (induction a; cbn; congruence).
    assert (H : forall a : string, (a ++ "")%string = a) by (induction a; cbn; congruence).
    rewrite H. generalize (prefix_of k ++ name ++ "/")%string. intros t. generalize (map label (ancestry o)). induction l as [|x l IHl]; cbn [fold_right].
    + reflexivity.
    + rewrite Happ, IHl; auto.
Qed.
Lemma GetPath_ne o : GetPath o <> "".
Proof.
  assert (H : forall a b : string, b <> "" -> (a ++ b)%string <> "") by (intros [] b; cbn; [auto|discriminate]).
  destruct o; cbn [GetPath]; repeat apply H; discriminate.
Qed.
Lemma find_tree s o : paths_ok s -> GetTreePath s o <> "" -> In (o, GetPath o) (s_tree s) /\ GetTreePath s o = GetPath o.
Proof.
  intros (A & _ & _). unfold GetTreePath. destruct find as [[o' p]|] eqn:E; [|congruence].
  apply find_some in E. destruct E as [E F]. cbn [fst] in F. apply eqb_t in F; subst o'. cbn [snd].
  pose proof (A _ _ E); subst p; auto.
Qed.
Lemma tree_find s o p : paths_ok s -> In (o, p) (s_tree s) -> GetTreePath s o = GetPath o.
Proof.
  intros (A & _ & _) H. unfold GetTreePath. destruct find as [[o' p']|] eqn:E.
  - apply find_some in E. destruct E as [E F]. cbn [fst] in F. apply eqb_t in F; subst o'. cbn [snd]. eauto.
  - exfalso. apply (find_none _ _ E) in H. cbn [fst] in H. rewrite eqb_r in H. discriminate.
Qed.
Lemma paths_inj s o1 o2 : paths_ok s -> GetTreePath s o1 <> "" -> GetTreePath s o1 = GetTreePath s o2 -> o1 = o2.
Proof.
  intros P H1 E. pose proof P as (A & B & C). assert (H2 : GetTreePath s o2 <> "") by congruence.
  destruct (find_tree _ _ P H1) as [I1 E1], (find_tree _ _ P H2) as [I2 E2].
  rewrite <- B in C. clear -C I1 I2 E E1 E2. rewrite E1, E2 in E. rewrite E in I1. clear E E1 E2. generalize dependent (GetPath o2). intros p I1 I2.
  induction (s_tree s) as [|e l IH]; [contradiction|]. cbn [map] in C. inversion C; subst.
  destruct I1 as [->|I1], I2 as [F|I2]; auto.
  - congruence.
  - exfalso; apply H1. apply (in_map snd) in I2; auto.
  - exfalso; apply H1. subst e. apply (in_map snd) in I1; auto.
Qed.

(** ** Effect of the log updates on paths *)
Lemma paths_log s l : paths_ok (with_log s l) <-> paths_ok s. Proof. destruct s; reflexivity. Qed.
Lemma LogAddIf_w s o : LogAddIf s o = with_log s (if loggable o then ladd o (s_log s) else s_log s).
Proof. unfold LogAddIf. destruct loggable; [apply LogAdd_w|symmetry; apply with_log_id]. Qed.
Lemma LogRemoveIf_w s o : LogRemoveIf s o = with_log s (if loggable o then lrem o (s_log s) else s_log s).
Proof. unfold LogRemoveIf. destruct loggable; [apply LogRemove_w|symmetry; apply with_log_id]. Qed.
