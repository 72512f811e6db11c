(** Proofs about the static analysis. *)
From Coq Require Import Reals List ZArith Bool Lra Lia.
From Verif Require Import GeoModel GeoSpec BodyModel BodySpec BodyProofs BodyProofs2 BodyProofs3 InertiaModel SeaModel StcModel StcSpec.
Import ListNotations.
Open Scope R_scope.

Lemma find_emplace : forall m kv k, find (emplace m kv) k = match find m k with Some v => Some v | None => if Nat.eqb k (fst kv) then Some (snd kv) else None end.
Proof.
  intros m [k' v] k. unfold emplace. cbn [fst snd]. destruct (find m k') eqn:E.
  - destruct (Nat.eqb k k') eqn:Q; [apply Nat.eqb_eq in Q; subst; rewrite E; reflexivity|]. destruct (find m k); reflexivity.
  - cbn [find]. destruct (Nat.eqb k k') eqn:Q; [apply Nat.eqb_eq in Q; subst; rewrite E; reflexivity|]. destruct (find m k); reflexivity.
Qed.
Lemma find_fold : forall l m k, find (fold_left emplace l m) k = match find m k with Some v => Some v | None => find l k end.
Proof.
  induction l as [|[k' v] l IH]; intros m k; cbn [fold_left find]; [destruct (find m k); reflexivity|].
  rewrite IH, find_emplace. cbn [fst snd]. destruct (find m k); [reflexivity|]. destruct (Nat.eqb k k'); reflexivity.
Qed.
Lemma find_in : forall l k v, NoDup (map fst l) -> In (k, v) l -> find l k = Some v.
Proof.
  induction l as [|[k' v'] l IH]; intros k v N H; [destruct H|]. cbn [map fst] in N. inversion N; subst. cbn [find].
  destruct H as [H|H]; [inversion H; subst; rewrite Nat.eqb_refl; reflexivity|].
  destruct (Nat.eqb k k') eqn:Q; [|apply IH; assumption]. apply Nat.eqb_eq in Q. subst. exfalso. apply H2. apply (in_map fst) in H. exact H.
Qed.

Section P.
Context {F : Type}.
Variables (mr : F -> F) (mres : F -> R).
Implicit Types s : sys F.

Lemma saved_keys : forall s, map fst (saved s) = addresses s.
Proof.
  intro s. unfold saved, addresses. rewrite !map_app. f_equal; [|f_equal; rewrite map_map; apply map_ext; intro; reflexivity].
  induction (y_bodies s) as [|e t IH]; [reflexivity|]. cbn [flat_map]. rewrite map_app, IH. f_equal. cbn [map fst]. f_equal. rewrite map_map. apply map_ext. intro; reflexivity.
Qed.
Lemma saved_body : forall s e, In e (y_bodies s) -> In (fst e, BIsActive (snd e)) (saved s).
Proof. intros s e H. unfold saved. apply in_or_app. left. apply in_flat_map. exists e. split; [exact H|left; reflexivity]. Qed.
Lemma saved_force : forall s e f, In e (y_bodies s) -> In f (sb_forces (snd e)) -> In (fst f, it_active (snd f)) (saved s).
Proof. intros s e f H H'. unfold saved. apply in_or_app. left. apply in_flat_map. exists e. split; [exact H|right; apply (in_map (fun f => (fst f, it_active (snd f)))) in H'; exact H']. Qed.
Lemma saved_link : forall s e, In e (y_links s) -> In (fst e, LIsActive (snd e)) (saved s).
Proof. intros s e H. unfold saved. apply in_or_app. right. apply in_or_app. left. apply (in_map (fun e => (fst e, LIsActive (snd e)))) in H. exact H. Qed.
Lemma saved_item : forall s e, In e (y_items s) -> In (fst e, it_active (snd e)) (saved s).
Proof. intros s e H. unfold saved. apply in_or_app. right. apply in_or_app. right. apply (in_map (fun e => (fst e, it_active (snd e)))) in H. exact H. Qed.

(** What the dynamics and the relaxation leave *)
Definition shell s := (map (fun e => (fst e, (sb_sleeping (snd e), sb_fixed (snd e), sb_forces (snd e)))) (y_bodies s), y_links s, y_items s, y_step s, y_ramp s).
Lemma shell_relax : forall s r, shell (Relax mr s r) = shell s.
Proof. intros s r. unfold shell, Relax. cbn. rewrite map_map. cbn. reflexivity. Qed.
Lemma shell_advance : forall dyn s t, shell (AdvanceTo dyn s t) = shell s.
Proof. intros dyn s t. unfold AdvanceTo. destruct (Rlt_dec (y_time s) t); [|reflexivity]. unfold shell. cbn. rewrite map_map. cbn. reflexivity. Qed.
Lemma shell_loop : forall dyn fuel a s i r s', st_loop mr mres dyn fuel a s i = Ok (r, s') -> shell s' = shell s.
Proof.
  induction fuel as [|n IH]; intros a s i r s' H; cbn [st_loop] in H.
  - destruct (Z.eqb i (st_iter a)); inversion H; reflexivity.
  - destruct (Z.eqb i (st_iter a)); [inversion H; reflexivity|]. revert H.
    set (s1 := AdvanceTo dyn _ _). assert (shell s1 = shell s) as E by (unfold s1; rewrite shell_advance; apply shell_relax).
    destruct (Rlt_dec _ _); [destruct (Rlt_dec _ _)|]; intro H; [inversion H; subst; exact E| |]; apply IH in H; congruence.
Qed.
Lemma static_shell : forall s s', shell s = shell s' -> static_configuration s -> static_configuration s'.
Proof.
  intros s s' E (A & B & C & D). unfold shell in E. inversion E as [[E1 E2 E3 E4 E5]]. unfold static_configuration. rewrite <- E2, <- E3, <- E5.
  split; [|split; [|split]]; try assumption. intros e He.
  apply (in_map (fun e => (fst e, (sb_sleeping (snd e), sb_fixed (snd e), sb_forces (snd e))))) in He. rewrite <- E1 in He. apply in_map_iff in He.
  destruct He as [e0 [Q He]]. pose proof (f_equal (fun x => fst (fst (snd x))) Q) as Q2. pose proof (f_equal (fun x => snd (snd x)) Q) as Q4. cbn [fst snd] in Q2, Q4. destruct (A e0 He) as [A1 A2]. rewrite <- Q2, <- Q4. split; assumption.
Qed.
Lemma init_static : forall a s, static_configuration (snd (st_initialize a s)).
Proof.
  intros a s. unfold static_configuration, st_initialize. cbn [snd y_bodies y_links y_items y_ramp]. split; [|split; [|split]].
  - intros e He. apply in_map_iff in He. destruct He as [e0 [<- He]]. cbn. split; [reflexivity|]. intros f Hf. apply in_map_iff in Hf. destruct Hf as [f0 [<- _]]. reflexivity.
  - intros e He. apply in_map_iff in He. destruct He as [e0 [<- He]]. reflexivity.
  - intros e He. apply in_map_iff in He. destruct He as [e0 [<- He]]. reflexivity.
  - reflexivity.
Qed.
Lemma loop_dyn : forall dyn dyn', (forall s t, static_configuration s -> dyn s t = dyn' s t) ->
  forall fuel a s i, static_configuration s -> st_loop mr mres dyn fuel a s i = st_loop mr mres dyn' fuel a s i.
Proof.
  intros dyn dyn' Q. induction fuel as [|n IH]; intros a s i H; [reflexivity|]. cbn [st_loop]. destruct (Z.eqb i (st_iter a)); [reflexivity|].
  assert (static_configuration (Relax mr s (st_relax a))) as H1 by (eapply static_shell; [symmetry; apply shell_relax|exact H]).
  assert (forall t, AdvanceTo dyn (Relax mr s (st_relax a)) t = AdvanceTo dyn' (Relax mr s (st_relax a)) t) as E by (intro t; unfold AdvanceTo; destruct (Rlt_dec _ t); [rewrite Q by exact H1|]; reflexivity).
  rewrite E. set (s1 := AdvanceTo dyn' _ _). assert (static_configuration s1) as H2 by (eapply static_shell; [symmetry; apply shell_advance|exact H1]).
  destruct (Rlt_dec _ _); [destruct (Rlt_dec _ _); [reflexivity|]|]; apply IH; exact H2.
Qed.

(** Restoring *)
Lemma each_ok : forall {A B} (f : A -> res B) (g : A -> B) l, (forall x, In x l -> f x = Ok (g x)) -> each (map f l) = Ok (map g l).
Proof.
  intros A B f g l. induction l as [|x t IH]; intro H; [reflexivity|]. cbn [map each]. rewrite (H x) by (left; reflexivity). cbn [rbind]. rewrite IH by (intros y Hy; apply H; right; exact Hy). reflexivity.
Qed.
(** The activity recorded for an address *)
Definition rec_of (m : list (nat * bool)) (k : nat) : bool := match find m k with Some v => v | None => false end.
Definition known (m : list (nat * bool)) (k : nat) : Prop := find m k <> None.
Lemma restored_ok : forall {A B} m (g : bool -> A -> B) e, known m (fst e) -> restored m g e = Ok (fst e, g (rec_of m (fst e)) (snd e)).
Proof. intros A B m g e H. unfold restored, rec_of, known in *. destruct (find m (fst e)); [reflexivity|contradiction]. Qed.
Definition back m (e : nat * sbody) := (fst e, SB (sb_body (snd e)) (negb (rec_of m (fst e))) (sb_fixed (snd e)) (map (fun f => (fst f, ISetActive (snd f) (rec_of m (fst f)))) (sb_forces (snd e)))).
Lemma finalize_ok : forall a s, (forall k, In k (addresses s) -> known (st_map a) k) ->
  st_finalize mr a s = Ok (let m := st_map a in
    let t := Relax mr (set_flags s (map (back m) (y_bodies s)) (map (fun e => (fst e, LSetDisabled (snd e) (negb (rec_of m (fst e))))) (y_links s))
                                 (map (fun e => (fst e, ISetActive (snd e) (rec_of m (fst e)))) (y_items s))) (st_relax a) in
    Sys (y_bodies t) (y_links t) (y_items t) (y_mesh t) (st_undo a) (y_step t) (st_ramp a)).
Proof.
  intros a s K. unfold st_finalize.
  rewrite (each_ok (restore_body (st_map a)) (back (st_map a))).
  2:{ intros e He. assert (In (fst e) (addresses s)) as I by (unfold addresses; apply in_or_app; left; apply in_flat_map; exists e; split; [exact He|left; reflexivity]).
      unfold restore_body. rewrite restored_ok by (apply K; exact I). cbn [rbind snd sb_forces BSetSleeping].
      rewrite (each_ok _ (fun f => (fst f, ISetActive (snd f) (rec_of (st_map a) (fst f))))); [reflexivity|].
      intros f Hf. rewrite restored_ok; [reflexivity|]. apply K. unfold addresses. apply in_or_app. left. apply in_flat_map. exists e. split; [exact He|right; apply in_map; exact Hf]. }
  cbn [rbind]. rewrite (each_ok _ (fun e => (fst e, LSetDisabled (snd e) (negb (rec_of (st_map a) (fst e)))))).
  2:{ intros e He. rewrite restored_ok; [reflexivity|]. apply K. unfold addresses. apply in_or_app. right. apply in_or_app. left. apply in_map. exact He. }
  cbn [rbind]. rewrite (each_ok _ (fun e => (fst e, ISetActive (snd e) (rec_of (st_map a) (fst e))))).
  2:{ intros e He. rewrite restored_ok; [reflexivity|]. apply K. unfold addresses. apply in_or_app. right. apply in_or_app. right. apply in_map. exact He. }
  reflexivity.
Qed.
Lemma addresses_shell : forall s s', shell s = shell s' -> addresses s = addresses s'.
Proof.
  intros s s' E. unfold shell in E. inversion E as [[E1 E2 E3 E4 E5]]. unfold addresses. rewrite E2, E3. f_equal. clear - E1.
  revert E1. generalize (y_bodies s'). induction (y_bodies s) as [|e t IH]; intros [|e' t'] E; cbn [map] in E; inversion E as [[E0 E1 E2 E3 E4]]; [reflexivity|].
  cbn [flat_map]. rewrite (IH t' E4), E0, E3. reflexivity.
Qed.
Lemma addresses_init : forall a s, addresses (snd (st_initialize a s)) = addresses s.
Proof.
  intros a s. unfold addresses, st_initialize. cbn [snd y_bodies y_links y_items]. f_equal; [|rewrite !map_map; reflexivity].
  induction (y_bodies s) as [|e t IH]; [reflexivity|]. cbn [map flat_map]. rewrite IH. cbn [fst snd sb_forces]. rewrite map_map. reflexivity.
Qed.
Lemma known_init : forall a s k, In k (addresses s) -> known (st_map (fst (st_initialize a s))) k.
Proof.
  intros a s k H. unfold known, st_initialize. cbn [fst st_map]. rewrite find_fold. destruct (find (st_map a) k); [discriminate|].
  rewrite <- saved_keys in H. clear - H. induction (saved s) as [|[k' v] l IH]; [destruct H|]. cbn [find]. destruct (Nat.eqb k k') eqn:Q; [discriminate|].
  destruct H as [H|H]; [cbn in H; subst; rewrite Nat.eqb_refl in Q; discriminate|]. apply IH; exact H.
Qed.
(** The whole analysis *)
Lemma solve_inv : forall dyn fuel a s r a' s', SolveStatic mr mres dyn fuel a s = Ok (r, a', s') ->
  let i := st_initialize a s in let m := st_map a' in a' = fst i /\
  exists sm, st_loop mr mres dyn fuel a' (snd i) 0 = Ok (r, sm) /\ shell sm = shell (snd i) /\
  s' = (let t := Relax mr (set_flags sm (map (back m) (y_bodies sm)) (map (fun e => (fst e, LSetDisabled (snd e) (negb (rec_of m (fst e))))) (y_links sm))
                                 (map (fun e => (fst e, ISetActive (snd e) (rec_of m (fst e)))) (y_items sm))) (st_relax a') in
    Sys (y_bodies t) (y_links t) (y_items t) (y_mesh t) (st_undo a') (y_step t) (st_ramp a')).
Proof.
  intros dyn fuel a s r a' s' H i m. unfold SolveStatic in H. fold i in H. destruct i as [a1 s1] eqn:Ei. cbn [fst snd].
  destruct (st_loop mr mres dyn fuel a1 s1 0) as [[r1 sm]| | | |] eqn:L; try discriminate. cbn [rbind fst snd] in H.
  pose proof (shell_loop _ _ _ _ _ _ _ L) as Sh.
  rewrite finalize_ok in H. 2:{ intros k Hk. rewrite (addresses_shell _ _ Sh) in Hk. change a1 with (fst (a1, s1)). rewrite <- Ei. unfold i. apply known_init. rewrite <- (addresses_init a s). fold i. rewrite Ei. exact Hk. }
  cbn [rbind] in H. inversion H; subst. split; [reflexivity|]. exists sm. split; [exact L|]. split; [exact Sh|]. reflexivity.
Qed.
Lemma loop_ends : forall dyn fuel a s i, (0 <= st_iter a - i)%Z -> (Z.to_nat (st_iter a - i) <= fuel)%nat -> exists r s', st_loop mr mres dyn fuel a s i = Ok (r, s').
Proof.
  induction fuel as [|n IH]; intros a s i H L; cbn [st_loop]; (destruct (Z.eqb i (st_iter a)) eqn:E; [eauto|apply Z.eqb_neq in E]); [lia|].
  destruct (Rlt_dec _ _); [destruct (Rlt_dec _ _); [eauto|]|]; apply IH; lia.
Qed.
Lemma solve_ends : forall dyn fuel a s, (0 <= st_iter a)%Z -> (Z.to_nat (st_iter a) <= fuel)%nat -> exists r a' s', SolveStatic mr mres dyn fuel a s = Ok (r, a', s').
Proof.
  intros dyn fuel a s H L. unfold SolveStatic. destruct (st_initialize a s) as [a1 s1] eqn:Ei.
  assert (st_iter a1 = st_iter a) as Q by (unfold st_initialize in Ei; inversion Ei; reflexivity).
  destruct (loop_ends dyn fuel a1 s1 0) as [r [sm E]]; [rewrite Q; lia|rewrite Q; replace (st_iter a - 0)%Z with (st_iter a) by lia; exact L|]. rewrite E. cbn [rbind fst snd].
  rewrite finalize_ok; [cbn [rbind]; eauto|]. intros k Hk. rewrite (addresses_shell _ _ (shell_loop _ _ _ _ _ _ _ E)) in Hk. change a1 with (fst (a1, s1)). rewrite <- Ei. apply known_init. rewrite <- (addresses_init a s), Ei. exact Hk.
Qed.
End P.
