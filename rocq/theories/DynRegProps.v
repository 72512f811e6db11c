(** Property C255: the catenary line used to initialise a dynamic cable, in the registries of the system. *)
From Coq Require Import List String Bool Arith Lia.
From Verif Require Import RegModel RegProofs DynRegModel.
Import ListNotations.
Open Scope string_scope.

(** The object is in none of the lists of the system *)
Definition unknown (s : sys) (o : obj) : Prop :=
  ~ In o (s_physics s) /\ ~ In o (ch_items s) /\ ~ In o (s_log s) /\ ~ In o (map snd (s_forces s)).
Definition unused (s : sys) (o : obj) : Prop := ~ In (GetPath o) (s_paths s).
(** The same lists, whatever the paths already given *)
Definition same_lists (a b : sys) : Prop :=
  s_bodies a = s_bodies b /\ s_links a = s_links b /\ s_constraints a = s_constraints b /\ s_actuators a = s_actuators b /\ s_physics a = s_physics b /\ s_fea a = s_fea b /\
  ch_bodies a = ch_bodies b /\ ch_links a = ch_links b /\ ch_items a = ch_items b /\ ch_meshes a = ch_meshes b /\ ch_hinges a = ch_hinges b /\
  s_forces a = s_forces b /\ s_nodes a = s_nodes b /\ s_log a = s_log b.

Lemma erase_last : forall (A : Type) (eqb : A -> A -> bool) x l r, (forall y, eqb x y = true <-> x = y) -> ~ In x l -> erase eqb x (l ++ x :: r)%list = Some (l ++ r)%list.
Proof.
  intros A eqb x l r E. induction l as [|y l IH]; intros N; cbn.
  - assert (T : eqb x x = true) by (apply E; reflexivity). rewrite T. reflexivity.
  - destruct (eqb x y) eqn:T; [apply E in T; subst; destruct N; left; reflexivity|]. rewrite IH; [reflexivity|]. intros I. apply N. right. exact I.
Qed.
Lemma eqb_obj : forall x y, obj_eqb x y = true <-> x = y.
Proof. intros x y. unfold obj_eqb. destruct (obj_eq_dec x y); split; intros; try assumption; try reflexivity; try discriminate; contradiction. Qed.
Lemma eqb_pair : forall (x y : obj * obj), obj_eqb (fst x) (fst y) && obj_eqb (snd x) (snd y) = true <-> x = y.
Proof.
  intros [a b] [a' b']. cbn. rewrite andb_true_iff, !eqb_obj. split; [intros [-> ->]; reflexivity|]. intros E. injection E as -> ->. split; reflexivity.
Qed.
Lemma mem_no : forall o l, ~ In o l -> mem o l = false.
Proof. intros o l N. unfold mem. destruct (existsb (obj_eqb o) l) eqn:E; [|reflexivity]. apply existsb_exists in E. destruct E as (y & I & T). apply eqb_obj in T. subst. contradiction. Qed.
Lemma path_no : forall s p, ~ In p (s_paths s) -> HasPath s p = false.
Proof. intros s p N. unfold HasPath. destruct (existsb (String.eqb p) (s_paths s)) eqn:E; [|reflexivity]. apply existsb_exists in E. destruct E as (y & I & T). apply String.eqb_eq in T. subst. contradiction. Qed.
Lemma path_yes : forall s p, In p (s_paths s) -> HasPath s p = true.
Proof. intros s p I. unfold HasPath. apply existsb_exists. exists p. split; [exact I|]. apply String.eqb_refl. Qed.

(** C255: the first initialisation leaves all the lists of the system and of the bodies as they were ... *)
Theorem C255_lists : forall s system a b id,
  let line := init_line system id in let sf := init_start_force a (S id) in let ef := init_end_force b (S (S id)) in
  unknown s line -> unknown s sf -> unknown s ef -> unused s line -> unused s sf -> unused s ef ->
  GetPath line <> GetPath sf -> GetPath line <> GetPath ef -> GetPath sf <> GetPath ef ->
  exists s', SlackInitialize s system a b id = Ok s' /\ same_lists s' s /\ s_paths s' = GetPath ef :: GetPath sf :: GetPath line :: s_paths s.
Proof.
  intros s system a b id line sf ef (L1 & L2 & L3 & L4) (S1 & S2 & S3 & S4) (E1 & E2 & E3 & E4) UL US UE D1 D2 D3.
  assert (NLS : line <> sf) by discriminate. assert (NLE : line <> ef) by discriminate. assert (NSE : sf <> ef). { unfold sf, ef, init_start_force, init_end_force. intros E. injection E. intros. lia. }
  unfold SlackInitialize. fold line sf ef. unfold Add at 1. change (kind_of line) with KCatenary. cbv iota. unfold RegisterTreeNode at 1.
  rewrite (path_no (AddPhysicsItem s line) (GetPath line)) by exact UL. cbn [bind]. change (added line) with true. cbv iota. unfold LogAddIf. change (loggable line) with true. cbv iota. unfold LogAdd at 1, LogHas.
  rewrite (mem_no line) by exact L3. cbn [bind]. unfold AddExternalForce at 1. unfold RegisterTreeNode at 1. cbv zeta. rewrite path_no by (cbn; intros [X|X]; [apply D1; exact X|apply US; exact X]). cbn [bind].
  unfold LogAdd at 1, LogHas. rewrite (mem_no sf) by (cbn; intros X; apply in_app_or in X; destruct X as [X|[X|[]]]; [apply S3; exact X|apply NLS; exact X]).
  cbn [bind]. unfold AddExternalForce at 1. unfold RegisterTreeNode at 1. cbv zeta. rewrite path_no by (cbn; intros [X|[X|X]]; [apply D3; exact X|apply D2; exact X|apply UE; exact X]). cbn [bind].
  unfold LogAdd at 1, LogHas. rewrite (mem_no ef) by (cbn; intros X; rewrite <- app_assoc in X; apply in_app_or in X; destruct X as [X|[X|[X|[]]]]; [apply E3; exact X|apply NLE; exact X|apply NSE; exact X]).
  cbn [bind]. unfold Remove. change (kind_of line) with KCatenary. cbv iota. unfold RemovePhysicsItem. cbn [ch_items s_physics with_log with_paths with_forces with_physics AddPhysicsItem].
  unfold erase_obj. rewrite (erase_last _ obj_eqb line (ch_items s) nil (eqb_obj line)) by exact L2. rewrite (erase_last _ obj_eqb line (s_physics s) nil (eqb_obj line)) by exact L1. cbn [bind]. rewrite !app_nil_r.
  unfold LogRemoveIf. change (loggable line) with true. cbv iota. unfold LogRemove at 1. cbn [s_log with_log with_paths with_forces with_physics AddPhysicsItem]. rewrite <- !app_assoc. cbn [app].
  unfold erase_obj. rewrite (erase_last _ obj_eqb line (s_log s) [sf; ef] (eqb_obj line)) by exact L3.
  unfold RemoveExternalForce at 1. cbn [s_forces with_log with_paths with_forces with_physics AddPhysicsItem]. rewrite <- !app_assoc. cbn [app].
  unfold erase_pair. rewrite (erase_last _ _ (a, sf) (s_forces s) [(b, ef)] (eqb_pair (a, sf))) by (intros X; apply S4; apply in_map_iff; exists (a, sf); split; [reflexivity|exact X]).
  cbn [bind]. unfold LogRemoveIf. change (loggable sf) with true. cbv iota. unfold LogRemove at 1. cbn [s_log with_log with_paths with_forces with_physics AddPhysicsItem].
  unfold erase_obj. rewrite (erase_last _ obj_eqb sf (s_log s) [ef] (eqb_obj sf)) by exact S3.
  unfold RemoveExternalForce. cbn [s_forces with_log with_paths with_forces with_physics AddPhysicsItem].
  unfold erase_pair. rewrite (erase_last _ _ (b, ef) (s_forces s) nil (eqb_pair (b, ef))) by (intros X; apply E4; apply in_map_iff; exists (b, ef); split; [reflexivity|exact X]).
  unfold LogRemoveIf. change (loggable ef) with true. cbv iota. unfold LogRemove. cbn [s_log with_log with_paths with_forces with_physics AddPhysicsItem].
  unfold erase_obj. rewrite (erase_last _ obj_eqb ef (s_log s) nil (eqb_obj ef)) by exact E3. rewrite !app_nil_r.
  eexists. split; [reflexivity|]. split; [|reflexivity]. unfold same_lists. repeat split.
Qed.
Example C255_inhabited : let system := Root 0 KSystem "s" in let a := Child 1 KBody "a" system in let b := Child 2 KBody "b" system in
  let s := match Add (new_system 0 "s") a with Ok s => match Add s b with Ok s => s | _ => s end | _ => empty_sys end in
  exists s', SlackInitialize s system a b 3 = Ok s' /\ s_bodies s' = [a; b] /\ s_physics s' = nil /\ s_forces s' = nil.
Proof. cbv zeta. eexists. split; [vm_compute; reflexivity|]. repeat split; reflexivity. Qed.

(** ... but the name of the line stays taken: a second cable initialised in the same way in the same system throws *)
Theorem C255_second_cable : forall s system a b id s' a' b' id',
  let line := init_line system id in let sf := init_start_force a (S id) in let ef := init_end_force b (S (S id)) in
  unknown s line -> unknown s sf -> unknown s ef -> unused s line -> unused s sf -> unused s ef ->
  GetPath line <> GetPath sf -> GetPath line <> GetPath ef -> GetPath sf <> GetPath ef ->
  SlackInitialize s system a b id = Ok s' -> exists s'', SlackInitialize s' system a' b' id' = Throw s''.
Proof.
  intros s system a b id s' a' b' id' line sf ef K1 K2 K3 U1 U2 U3 D1 D2 D3 R.
  destruct (C255_lists s system a b id K1 K2 K3 U1 U2 U3 D1 D2 D3) as (t & T & _ & P). rewrite R in T. injection T as <-. clear R.
  assert (I : HasPath (AddPhysicsItem s' (init_line system id')) (GetPath (init_line system id')) = true). { apply path_yes. cbn [s_paths AddPhysicsItem with_physics]. rewrite P. right. right. left. reflexivity. }
  exists (AddPhysicsItem s' (init_line system id')). unfold SlackInitialize at 1. unfold Add. change (kind_of (init_line system id')) with KCatenary. cbv iota zeta. unfold RegisterTreeNode. cbv zeta. rewrite I. reflexivity.
Qed.
Theorem C255_several_refuted : ~ (forall i n bodies s system a b c d id id' s', kind_of system = KSystem -> sys_run (new_system i n) (map SAdd bodies) = Ok s -> system = Root i KSystem n ->
  (forall x, In x bodies -> kind_of x = KBody) -> In a bodies -> In b bodies -> In c bodies -> In d bodies -> NoDup bodies ->
  SlackInitialize s system a b id = Ok s' -> exists s'', SlackInitialize s' system c d id' = Ok s'').
Proof.
  intros H. set (system := Root 0 KSystem "s"). set (a := Child 1 KBody "a" system). set (b := Child 2 KBody "b" system). set (c := Child 3 KBody "c" system). set (d := Child 4 KBody "d" system).
  destruct (sys_run (new_system 0 "s") (map SAdd [a; b; c; d])) as [s| | |] eqn:E; [|vm_compute in E; discriminate ..].
  destruct (SlackInitialize s system a b 5) as [s'| | |] eqn:F; [|vm_compute in E; injection E as <-; vm_compute in F; discriminate ..].
  assert (K : forall x, In x [a; b; c; d] -> kind_of x = KBody) by (intros x X; cbn in X; decompose [or] X; subst; try reflexivity; contradiction).
  assert (N : NoDup [a; b; c; d]) by (repeat (constructor; [cbn; intros X; decompose [or] X; try discriminate; contradiction|]); constructor).
  assert (Ia : In a [a; b; c; d]) by (left; reflexivity). assert (Ib : In b [a; b; c; d]) by (right; left; reflexivity).
  assert (Ic : In c [a; b; c; d]) by (right; right; left; reflexivity). assert (Id : In d [a; b; c; d]) by (right; right; right; left; reflexivity).
  destruct (H 0 "s" [a; b; c; d] s system a b c d 5 8 s' eq_refl E eq_refl K Ia Ib Ic Id N F) as (t & T). clear H K N Ia Ib Ic Id.
  vm_compute in E. injection E as <-. vm_compute in F. injection F as <-. vm_compute in T. discriminate.
Qed.
