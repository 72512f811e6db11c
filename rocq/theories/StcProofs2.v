(** The state after a static analysis. *)
From Coq Require Import Reals List ZArith Bool Lra Lia.
From Verif Require Import GeoModel GeoSpec BodyModel BodySpec BodyProofs BodyProofs2 BodyProofs3 GeoProofs InertiaModel SeaModel StcModel StcSpec StcProofs.
Import ListNotations.
Open Scope R_scope.

Section P.
Context {F : Type}.
Variables (mr : F -> F) (mres : F -> R).
Implicit Types s : sys F.
Definition sh (e : nat * sbody) := (fst e, (sb_sleeping (snd e), sb_fixed (snd e), sb_forces (snd e))).
(** The flags after the analysis, from those before it and the record *)
Lemma after : forall dyn fuel a s r a' s', SolveStatic mr mres dyn fuel a s = Ok (r, a', s') -> let m := st_map a' in
  map sh (y_bodies s') = map (fun e => (fst e, (negb (rec_of m (fst e)), sb_fixed (snd e), map (fun f => (fst f, ISetActive (snd f) (rec_of m (fst f)))) (sb_forces (snd e))))) (y_bodies s) /\
  y_links s' = map (fun e => (fst e, LSetDisabled (LSetDisabled (snd e) false) (negb (rec_of m (fst e))))) (y_links s) /\
  y_items s' = map (fun e => (fst e, ISetActive (snd e) (rec_of m (fst e)))) (y_items s) /\
  y_time s' = y_time s /\ y_ramp s' = y_ramp s /\ y_step s' = y_step s /\ st_map a' = fold_left emplace (saved s) (st_map a).
Proof.
  intros dyn fuel a s r a' s' H m. destruct (solve_inv mr mres _ _ _ _ _ _ _ H) as (Ea & sm & _ & Sh & ->). fold m. unfold shell in Sh. inversion Sh as [[S1 S2 S3 S4 S5]]. clear Sh.
  cbn [y_bodies y_links y_items y_time y_ramp y_step set_flags Relax]. split; [|split; [|split; [|split; [|split; [|split]]]]].
  - rewrite !map_map. change (fun e => (fst e, (sb_sleeping (snd e), sb_fixed (snd e), sb_forces (snd e)))) with sh in S1.
    transitivity (map (fun q : nat * (bool * bool * list (nat * item)) => (fst q, (negb (rec_of m (fst q)), snd (fst (snd q)), map (fun f => (fst f, ISetActive (snd f) (rec_of m (fst f)))) (snd (snd q))))) (map sh (y_bodies sm))); [rewrite map_map; reflexivity|].
    rewrite S1. unfold st_initialize. cbn [snd y_bodies]. rewrite !map_map. apply map_ext. intro e. cbn. rewrite map_map. reflexivity.
  - rewrite S2. unfold st_initialize. cbn [snd y_links]. rewrite map_map. reflexivity.
  - rewrite S3. unfold st_initialize. cbn [snd y_items]. rewrite map_map. reflexivity.
  - rewrite Ea. reflexivity.
  - rewrite Ea. reflexivity.
  - first [reflexivity|exact S4].
  - unfold m. rewrite Ea. reflexivity.
Qed.
Lemma recorded : forall m s k v, m = fold_left emplace (saved s) [] -> NoDup (addresses s) -> In (k, v) (saved s) -> rec_of m k = v.
Proof. intros m s k v -> N I. unfold rec_of. rewrite find_fold. cbn [find]. rewrite (find_in _ _ _ (eq_ind_r (@NoDup nat) N (saved_keys s)) I). reflexivity. Qed.
Lemma link_twice : forall l, LIsActive (LSetDisabled (LSetDisabled l false) (negb (LIsActive l))) = LIsActive l.
Proof. intros [d b k o]. unfold LIsActive, LSetDisabled. cbn. destruct d, b; reflexivity. Qed.
Lemma activity_after : forall dyn fuel a s r a' s', st_map a = [] -> NoDup (addresses s) -> SolveStatic mr mres dyn fuel a s = Ok (r, a', s') ->
  body_activity s' = body_activity s /\ force_activity s' = force_activity s /\ link_activity s' = link_activity s /\ item_activity s' = item_activity s.
Proof.
  intros dyn fuel a s r a' s' E0 N H. destruct (after _ _ _ _ _ _ _ H) as (A & B & C & _ & _ & _ & M). rewrite E0 in M.
  pose proof (fun k v => recorded (st_map a') s k v M N) as K. split; [|split; [|split]].
  - unfold body_activity. transitivity (map (fun q : nat * (bool * bool * list (nat * item)) => (fst q, negb (fst (fst (snd q))) && negb (snd (fst (snd q))))) (map sh (y_bodies s'))); [rewrite map_map; reflexivity|].
    rewrite A, map_map. apply map_ext_in. intros e He. cbn. rewrite (K _ _ (saved_body s e He)). unfold BIsActive. destruct (sb_sleeping (snd e)), (sb_fixed (snd e)); reflexivity.
  - unfold force_activity. transitivity (map (fun q : nat * (bool * bool * list (nat * item)) => (fst q, map (fun f => (fst f, it_active (snd f))) (snd (snd q)))) (map sh (y_bodies s'))); [rewrite map_map; reflexivity|].
    rewrite A, map_map. apply map_ext_in. intros e He. cbn [fst snd]. f_equal. rewrite map_map. apply map_ext_in. intros f Hf. cbn. rewrite (K _ _ (saved_force s e f He Hf)). reflexivity.
  - unfold link_activity. rewrite B, map_map. apply map_ext_in. intros e He. cbn [fst snd]. rewrite (K _ _ (saved_link s e He)), link_twice. reflexivity.
  - unfold item_activity. rewrite C, map_map. apply map_ext_in. intros e He. cbn. rewrite (K _ _ (saved_item s e He)). reflexivity.
Qed.
(** A record that is already there stays *)
Lemma stale : forall dyn fuel a1 s2 r2 a2 s3 s, (forall k v, In (k, v) (saved s) -> find (st_map a1) k = Some v) -> layout s2 = layout s -> NoDup (addresses s) ->
  SolveStatic mr mres dyn fuel a1 s2 = Ok (r2, a2, s3) -> force_activity s3 = force_activity s /\ item_activity s3 = item_activity s.
Proof.
  intros dyn fuel a1 s2 r2 a2 s3 s K L N H. destruct (after _ _ _ _ _ _ _ H) as (A & B & C & _ & _ & _ & M).
  assert (forall k v, In (k, v) (saved s) -> rec_of (st_map a2) k = v) as K2 by (intros k v I; unfold rec_of; rewrite M, find_fold, (K k v I); reflexivity).
  unfold layout in L. inversion L as [[L1 L2 L3]]. clear L. split.
  - unfold force_activity. transitivity (map (fun q : nat * (bool * bool * list (nat * item)) => (fst q, map (fun f => (fst f, it_active (snd f))) (snd (snd q)))) (map sh (y_bodies s3))); [rewrite map_map; reflexivity|].
    rewrite A, map_map. cbn [fst snd]. transitivity (map (fun q : nat * list nat => (fst q, map (fun k => (k, rec_of (st_map a2) k)) (snd q))) (map (fun e => (fst e, map fst (sb_forces (snd e)))) (y_bodies s2))).
    { rewrite map_map. apply map_ext. intro e. cbn [fst snd]. rewrite !map_map. reflexivity. }
    rewrite L1, map_map. apply map_ext_in. intros e He. cbn [fst snd]. f_equal. rewrite map_map. apply map_ext_in. intros f Hf. rewrite (K2 _ _ (saved_force s e f He Hf)). reflexivity.
  - unfold item_activity. rewrite C, map_map. cbn [fst snd]. transitivity (map (fun k => (k, rec_of (st_map a2) k)) (map fst (y_items s2))); [rewrite map_map; reflexivity|].
    rewrite L3, map_map. apply map_ext_in. intros e He. cbn. rewrite (K2 _ _ (saved_item s e He)). reflexivity.
Qed.
Lemma record_after : forall dyn fuel a s r a' s' k v, st_map a = [] -> NoDup (addresses s) -> SolveStatic mr mres dyn fuel a s = Ok (r, a', s') ->
  In (k, v) (saved s) -> find (st_map a') k = Some v.
Proof.
  intros dyn fuel a s r a' s' k v E0 N H I. destruct (after _ _ _ _ _ _ _ H) as (_ & _ & _ & _ & _ & _ & M). rewrite M, E0, find_fold. cbn [find].
  apply find_in; [rewrite saved_keys; exact N|exact I].
Qed.

(** The verdict *)
Lemma fold_res : forall {A} (f : A -> R) l z, fold_left (fun r e => r + f e) l z = z + fold_right (fun e r => f e + r) 0 l.
Proof. intros A f l. induction l as [|a t IH]; intro z; cbn [fold_left fold_right]; [ring|rewrite IH; ring]. Qed.
Lemma fold_bound : forall {A} (f : A -> R) l e, (forall a, 0 <= f a) -> In e l -> f e <= fold_right (fun e r => f e + r) 0 l.
Proof.
  intros A f l e P. assert (forall t, 0 <= fold_right (fun e r => f e + r) 0 t) as Q by (induction t as [|b t IH]; cbn; [lra|pose proof (P b); lra]).
  induction l as [|a t IH]; intros I; [destruct I|]. cbn [fold_right]. destruct I as [->|I]; [pose proof (Q t); lra|pose proof (IH I); pose proof (P a); lra].
Qed.
Lemma vnorm_nneg : forall v, 0 <= vnorm v. Proof. intro v. apply sqrt_pos. Qed.
Lemma residual_bound : forall s e, (forall f, 0 <= mres f) -> In e (y_bodies s) ->
  vnorm (GetLinearVelocityInWorld (sb_body (snd e)) NWU) <= residual mres s /\ vnorm (BGetAngularVelocityInWorld (sb_body (snd e)) NWU) <= residual mres s.
Proof.
  intros s e P I. unfold residual. rewrite (fold_res (fun e => vnorm (GetLinearVelocityInWorld (sb_body (snd e)) NWU) + vnorm (BGetAngularVelocityInWorld (sb_body (snd e)) NWU))).
  pose proof (P (y_mesh s)). pose proof (fold_bound (fun e : nat * sbody => vnorm (GetLinearVelocityInWorld (sb_body (snd e)) NWU) + vnorm (BGetAngularVelocityInWorld (sb_body (snd e)) NWU)) _ e
    (fun a => Rplus_le_le_0_compat _ _ (vnorm_nneg _) (vnorm_nneg _)) I) as B. cbn beta in B.
  pose proof (vnorm_nneg (GetLinearVelocityInWorld (sb_body (snd e)) NWU)). pose proof (vnorm_nneg (BGetAngularVelocityInWorld (sb_body (snd e)) NWU)). lra.
Qed.
Lemma time_advance : forall dyn s t, y_time (AdvanceTo dyn s t) = Rmax (y_time s) t.
Proof. intros dyn s t. unfold AdvanceTo, Rmax. destruct (Rlt_dec (y_time s) t), (Rle_dec (y_time s) t); cbn; lra. Qed.
Lemma step_shell : forall s s' : sys F, shell s = shell s' -> y_step s = y_step s'.
Proof. intros s s' E. unfold shell in E. inversion E. reflexivity. Qed.
Lemma loop_verdict : forall dyn fuel a s i s', 0 <= y_step s * IZR (st_nsteps a) -> (0 <= i)%Z ->
  y_time s <= st_undo a + IZR (Z.max 0 (i - 1)) * y_step s * IZR (st_nsteps a) ->
  st_loop mr mres dyn fuel a s i = Ok (true, s') ->
  residual mres s' < st_tol a /\ st_undo a + y_step s * IZR (st_nsteps a) < y_time s' /\ exists k, (i <= k)%Z /\ (2 <= k)%Z /\ ((0 <= st_iter a - i)%Z -> (k < st_iter a)%Z) /\ y_time s' <= st_undo a + IZR k * y_step s * IZR (st_nsteps a).
Proof.
  induction fuel as [|n IH]; intros a s i s' P I T H; cbn [st_loop] in H; (destruct (Z.eqb i (st_iter a)) eqn:E; [discriminate|apply Z.eqb_neq in E]); [discriminate|]. revert H.
  set (s1 := AdvanceTo dyn _ _). assert (y_step s1 = y_step s) as Q by (apply step_shell; unfold s1; rewrite shell_advance; apply shell_relax).
  assert (y_time s1 <= st_undo a + IZR i * y_step s * IZR (st_nsteps a)) as T1.
  { unfold s1. rewrite time_advance. change (y_time (Relax mr s (st_relax a))) with (y_time s). change (y_step (Relax mr s (st_relax a))) with (y_step s). apply Rmax_lub; [|lra].
    eapply Rle_trans; [exact T|]. assert (IZR (Z.max 0 (i - 1)) <= IZR i) by (apply IZR_le; lia). rewrite !Rmult_assoc. nra. }
  assert ((0 <= i + 1)%Z) as I1 by lia.
  assert (y_time s1 <= st_undo a + IZR (Z.max 0 (i + 1 - 1)) * y_step s1 * IZR (st_nsteps a)) as T2 by (rewrite Q; replace (Z.max 0 (i + 1 - 1)) with i by lia; exact T1).
  assert (forall s'', st_loop mr mres dyn n a s1 (i + 1) = Ok (true, s'') -> residual mres s'' < st_tol a /\ st_undo a + y_step s * IZR (st_nsteps a) < y_time s'' /\ exists k, (i <= k)%Z /\ (2 <= k)%Z /\ ((0 <= st_iter a - i)%Z -> (k < st_iter a)%Z) /\ y_time s'' <= st_undo a + IZR k * y_step s * IZR (st_nsteps a)) as W.
  { intros s'' H. assert (0 <= y_step s1 * IZR (st_nsteps a)) as P1 by (rewrite Q; exact P). destruct (IH a s1 (i + 1)%Z s'' P1 I1 T2 H) as (W1 & W2 & k & W3 & W4 & W5 & W6). rewrite Q in *. split; [exact W1|]. split; [exact W2|]. exists k. split; [lia|]. split; [exact W4|]. split; [intro; apply W5; lia|exact W6]. }
  destruct (Rlt_dec _ _) as [L1|L1]; [destruct (Rlt_dec _ _) as [L2|L2]|]; intro H; [|apply W; exact H|apply W; exact H]. inversion H; subst s'. split; [exact L1|]. rewrite Q in L2. split; [exact L2|]. exists i. split; [lia|]. split; [|split; [lia|exact T1]].
  destruct (Z_lt_le_dec i 2); [exfalso|lia]. assert (IZR i <= 1) by (apply (IZR_le i 1); lia). rewrite Rmult_assoc in T1. nra.
Qed.
Lemma never : forall dyn fuel a s i, (st_iter a < 0)%Z -> (0 <= i)%Z -> (forall s, st_tol a <= residual mres s) -> st_loop mr mres dyn fuel a s i = Running.
Proof.
  induction fuel as [|n IH]; intros a s i N I T; cbn [st_loop]; (destruct (Z.eqb i (st_iter a)) eqn:E; [apply Z.eqb_eq in E; lia|]); [reflexivity|].
  destruct (Rlt_dec _ _) as [L|L]; [exfalso; pose proof (T (AdvanceTo dyn (Relax mr s (st_relax a)) (st_undo a + IZR i * y_step (Relax mr s (st_relax a)) * IZR (st_nsteps a)))); lra|]. apply IH; [exact N|lia|exact T].
Qed.

Lemma residual_nneg : forall s, (forall f, 0 <= mres f) -> 0 <= residual mres s.
Proof.
  intros s P. unfold residual. rewrite (fold_res (fun e => vnorm (GetLinearVelocityInWorld (sb_body (snd e)) NWU) + vnorm (BGetAngularVelocityInWorld (sb_body (snd e)) NWU))).
  pose proof (P (y_mesh s)). enough (0 <= fold_right (fun e r => vnorm (GetLinearVelocityInWorld (sb_body (snd e)) NWU) + vnorm (BGetAngularVelocityInWorld (sb_body (snd e)) NWU) + r) 0 (y_bodies s)) by lra.
  induction (y_bodies s) as [|e t IH]; cbn [fold_right]; [lra|]. pose proof (vnorm_nneg (GetLinearVelocityInWorld (sb_body (snd e)) NWU)). pose proof (vnorm_nneg (BGetAngularVelocityInWorld (sb_body (snd e)) NWU)). lra.
Qed.
(** The bodies *)
Lemma UAM_self : forall G v d c Ns, UpdateAfterMove (canon G v d c Ns) = canon G v d c Ns.
Proof. intros. exact (UAM_canon G v d c Ns _ G v d). Qed.
Lemma relax_map : forall r b x, reachable b -> body_map (relax_body r b) x = body_map b x.
Proof.
  intros r b x H. destruct (reach_can b H) as (G & v & d & c & Ns & -> & U & _). destruct r; cbn [relax_body]; [reflexivity| | |];
    rewrite ?setvel_can, ?UAM_self, !bmap_can; reflexivity.
Qed.
Lemma spin_0 : forall G, spin G vzero = qzero.
Proof. intros [p [a b c d]]. unfold spin, qscale, qmul, qpure, vzero, qzero. cbn [q0 q1 q2 q3 vx vy vz frot]. f_equal; ring. Qed.
Lemma relax_rest : forall r b, reachable b -> r = VELOCITY \/ r = VELOCITYANDACCELERATION -> at_rest (relax_body r b).
Proof.
  intros r b H Hr. destruct (reach_can b H) as (G & v & d & c & Ns & -> & U & N).
  assert (relax_body r (canon G v d c Ns) = canon G vzero (spin G vzero) c Ns) as ->.
  { rewrite spin_0. destruct Hr as [-> | ->]; cbn [relax_body]; rewrite ?setvel_can, ?UAM_self; reflexivity. }
  exists origin. apply spinning_everywhere; [exact U|exact N|]. unfold rigid_velocity. destruct G as [[] []]; geo; veq; ring.
Qed.
Lemma reachable_relax : forall r b, reachable b -> reachable (relax_body r b).
Proof.
  intros r b H. assert (forall b, reachable b -> reachable (SetVelocityInWorldNoRotation b vzero NWU)) as V.
  { intros b0 (l & A & ->). exists (l ++ [BOSetVelocityInWorldNoRotation vzero NWU]). split; [apply Forall_app; split; [exact A|constructor; [exact I|constructor]]|].
    assert (forall l b o, body_run (l ++ [o]) b = body_step o (body_run l b)) as Q by (induction l0; intros; cbn; auto). rewrite Q. reflexivity. }
  assert (forall b, reachable b -> UpdateAfterMove b = b) as U.
  { intros b0 H0. destruct (reach_can b0 H0) as (G & v & d & c & Ns & -> & _ & _). apply UAM_self. }
  destruct r; cbn [relax_body]; [exact H|apply V; exact H|rewrite U; exact H|rewrite U; apply V; exact H].
Qed.
Lemma reachable_loop : forall dyn fuel a s i r s', (forall s t k, reachable (fst (dyn s t) k)) -> all_bodies s reachable ->
  st_loop mr mres dyn fuel a s i = Ok (r, s') -> all_bodies s' reachable.
Proof.
  intros dyn. induction fuel as [|n IH]; intros a s i r s' D B H; cbn [st_loop] in H; (destruct (Z.eqb i (st_iter a)); [inversion H; subst; exact B|]); [discriminate|]. revert H.
  set (s1 := AdvanceTo dyn _ _). assert (all_bodies s1 reachable) as B1.
  { intros e He. unfold s1, AdvanceTo in He. destruct (Rlt_dec _ _); cbn [y_bodies Relax] in He.
    - apply in_map_iff in He. destruct He as [e0 [<- He]]. cbn. apply D.
    - apply in_map_iff in He. destruct He as [e0 [<- He]]. cbn. apply reachable_relax. exact (B e0 He). }
  destruct (Rlt_dec _ _); [destruct (Rlt_dec _ _)|]; intro H; [inversion H; subst; exact B1| |]; eapply IH; eassumption.
Qed.
End P.
