(** Proofs for the catenary line, 3: histories, solver. *)
From Coq Require Import Reals List Lra Psatz Lia.
From Coquelicot Require Import Coquelicot.
From Verif Require Import GeoModel GeoSpec GeoProofs HydSpec BodyModel SeaModel CabModel CabSpec CabProofs CabProofs2.
Import ListNotations.
Open Scope R_scope.

(** ** Histories *)
Definition same (l l' : line) : Prop := l' = set_relax (set_t0 l (l_t0 l')) (l_relax l').
Lemma same_refl l : same l l. Proof. unfold same. destruct l. reflexivity. Qed.
Lemma same_trans l l1 l2 : same l l1 -> same l1 l2 -> same l l2.
Proof. unfold same. intros A B. rewrite B. rewrite A. reflexivity. Qed.
Lemma rbind_ok {A B} (r : res A) (f : A -> res B) b : rbind r f = Ok b -> exists a, r = Ok a /\ f a = Ok b.
Proof. destruct r; cbn; intros H; try discriminate. eauto. Qed.
Tactic Notation "rb" hyp(H) ident(a) ident(E) := apply rbind_ok in H; destruct H as [a [E H]].
Lemma loop_same n fuel p0 pL : forall l d e l', newton_loop n fuel p0 pL l d e = Ok l' -> same l l'.
Proof.
  induction n as [|n IH]; intros l d e l' H; cbn [newton_loop] in H. { injection H as <-. apply same_refl. }
  destruct (Rlt_dec (l_tol l) e); [|injection H as <-; apply same_refl]. rb H t T. rb H k K. cbv zeta in H. rb H r0 RR. apply IH in H. eapply same_trans; [|exact H]. unfold same. reflexivity.
Qed.
Lemma solve_same fuel p0 pL l l' : solve fuel p0 pL l = Ok l' -> same l l'.
Proof. unfold solve. intros H. rb H d D. cbv zeta in H. rb H r0 RR. apply loop_same in H. eapply same_trans; [|exact H]. unfold same. reflexivity. Qed.
Lemma same_wf l l' : same l l' -> wf l -> wf l'.
Proof. unfold same. intros -> [A B]. split; assumption. Qed.
Lemma guess_inv p0 pL l l' : guess_tension p0 pL l = Ok l' -> l' = set_t0 l (l_t0 l').
Proof. unfold guess_tension. cbv zeta. destruct (Req_EM_T _ _); [discriminate|]. intros H. injection H as <-. reflexivity. Qed.
Lemma init_inv fuel p0 pL g rhof l l' : CInitialize fuel p0 pL g rhof l = Ok l' ->
  wf l' /\ l_q l' = (GetLinearDensity (l_props l) - GetSectionArea (l_props l) * rhof) * g /\ l_props l' = l_props l /\ l_len l' = l_len l /\ l_speed l' = l_speed l /\ l_time l' = l_time l /\ l_elastic l' = l_elastic l /\
  l_ns l' = (if Nat.eqb (l_ns l) 0 then 1 else l_ns l)%nat /\ l_ne l' = (if Nat.eqb (l_ne l) 0 then 1 else l_ne l)%nat.
Proof.
  unfold CInitialize. cbv zeta. intros H. rb H l1 G. rb H l2 SV. injection H as <-. apply guess_inv in G. apply solve_same in SV. rewrite SV. rewrite G. unfold wf. cbn. repeat split; try reflexivity. f_equal; ring.
Qed.
Lemma run_app fuel l a b : line_run fuel l (a ++ b) = rbind (line_run fuel l a) (fun l1 => line_run fuel l1 b).
Proof. revert l. induction a as [|o a IH]; intros l; cbn; [reflexivity|]. destruct (line_step fuel o l); cbn; auto. Qed.
Lemma cable_same l : exists x, CableUpdateState l = set_len l x.
Proof. unfold CableUpdateState. destruct (Rlt_dec _ _); [destruct (Rlt_dec _ _)|]; [eexists; reflexivity| |]; exists (l_len l); destruct l; reflexivity. Qed.
Lemma step_wf fuel o l l' : line_step fuel o l = Ok l' -> wf l \/ is_init o = true -> wf l'.
Proof.
  destruct o; cbn [line_step is_init]; intros H [W|W]; try discriminate W; try (injection H as <-; destruct W; split; assumption).
  - apply (init_inv _ _ _ _ _ _ _ H).
  - apply (init_inv _ _ _ _ _ _ _ H).
  - unfold CCompute in H. apply solve_same in H. eapply same_wf; [exact H|]. destruct (cable_same (UpdateTime l time)) as [x ->]. destruct W; split; assumption.
Qed.
Lemma run_wf fuel ops : forall l l', line_run fuel l ops = Ok l' -> wf l \/ existsb is_init ops = true -> wf l'.
Proof.
  induction ops as [|o ops IH]; intros l l' H C; cbn in *. { injection H as <-. destruct C as [C|C]; [exact C|discriminate]. }
  rb H l1 E. apply (IH l1 l' H). destruct C as [C|C]; [left; eapply step_wf; eauto|]. apply Bool.orb_true_iff in C. destruct C as [C|C]; [left; eapply step_wf; eauto|right; exact C].
Qed.
Lemma initialised_wf fuel l : initialised fuel l -> wf l.
Proof. intros [p [e [len [j1 [j2 [j3 [ops [I H]]]]]]]]. eapply run_wf; eauto. Qed.
(** The load per unit length is the one of the last Initialize *)
Lemma step_q fuel o l l' : is_init o = false -> line_step fuel o l = Ok l' -> l_q l' = l_q l.
Proof.
  destruct o; cbn [line_step is_init]; intros I H; try discriminate; try (injection H as <-; reflexivity).
  unfold CCompute in H. apply solve_same in H. destruct (cable_same (UpdateTime l time)) as [x E]. rewrite H, E. reflexivity.
Qed.
Lemma run_q fuel ops : forall l l', existsb is_init ops = false -> line_run fuel l ops = Ok l' -> l_q l' = l_q l.
Proof.
  induction ops as [|o ops IH]; intros l l' I H; cbn in *. { injection H as <-. reflexivity. }
  apply Bool.orb_false_iff in I. rb H l1 E. rewrite (IH l1 l' (proj2 I) H). eapply step_q; [apply I|exact E].
Qed.
(** Length paid out *)
Lemma step_len fuel o l l' : line_step fuel o l = Ok l' -> forall r, paid_out (l_len l) (l_speed l) (l_time l) (o :: r) = paid_out (l_len l') (l_speed l') (l_time l') r.
Proof.
  destruct o; cbn [line_step]; intros H r; try (injection H as <-; reflexivity).
  - apply init_inv in H. destruct H as [_ [_ [_ [A [B [C _]]]]]]. rewrite A, B, C. reflexivity.
  - unfold CCompute in H. apply solve_same in H. rewrite H. cbn [paid_out]. unfold CableUpdateState, counts. cbn [UpdateTime l_speed l_step].
    destruct (Rlt_dec DBL_EPSILON (Rabs (l_speed l))); [destruct (Rlt_dec DBL_EPSILON (Rabs (time - l_time l)))|]; cbn; f_equal; ring.
Qed.
Lemma run_len fuel ops : forall l l', line_run fuel l ops = Ok l' -> l_len l' = paid_out (l_len l) (l_speed l) (l_time l) ops.
Proof.
  induction ops as [|o ops IH]; intros l l' H; cbn [line_run] in H. { injection H as <-. reflexivity. }
  rb H l1 E. rewrite (step_len _ _ _ _ E). apply IH. exact H.
Qed.
(** Forces given to the bodies *)
Definition one_each (l : line) : Prop := l_ns l = 1%nat /\ l_ne l = 1%nat.
Definition none_yet (l : line) : Prop := l_ns l = 0%nat /\ l_ne l = 0%nat.
Lemma step_forces fuel o l l' : line_step fuel o l = Ok l' -> (one_each l -> one_each l') /\ (none_yet l -> if is_init o then one_each l' else none_yet l').
Proof.
  unfold one_each, none_yet. destruct o; cbn [line_step is_init]; intros H; try (injection H as <-; cbn; tauto).
  - apply init_inv in H. destruct H as [_ [_ [_ [_ [_ [_ [_ [A B]]]]]]]]. rewrite A, B. split; intros [-> ->]; cbn; auto.
  - unfold CCompute in H. apply solve_same in H. destruct (cable_same (UpdateTime l time)) as [x E]. rewrite E in H. rewrite H. cbn. tauto.
Qed.
Lemma run_forces fuel ops : forall l l', line_run fuel l ops = Ok l' -> (one_each l -> one_each l') /\ (none_yet l -> if existsb is_init ops then one_each l' else none_yet l').
Proof.
  induction ops as [|o ops IH]; intros l l' H; cbn in *. { injection H as <-. tauto. }
  rb H l1 E. destruct (step_forces _ _ _ _ E) as [A B]. destruct (IH _ _ H) as [C D]. split; [auto|]. intros N. specialize (B N). destruct (is_init o); cbn; [apply C; exact B|apply D; exact B].
Qed.

(** ** Solver *)
Lemma damp_ok fuel : forall d t r r', damp fuel d t r = Ok r' -> 0 < r <= 1 -> 0 < r' <= 1 /\ r' * t <= d.
Proof.
  induction fuel as [|f IH]; intros d t r r' H P; cbn in H; [discriminate|]. destruct (Rlt_dec d (r * t)) as [L|L].
  - apply IH in H; [exact H|lra].
  - injection H as <-. lra.
Qed.
Lemma damp_ends d t : 0 < d -> forall n r, 0 < r -> r * t <= d * 2 ^ n -> exists r', damp (S n) d t r = Ok r'.
Proof.
  intros D. induction n as [|n IH]; intros r P H; cbn [damp].
  - destruct (Rlt_dec d (r * t)); [cbn in H; lra|eauto].
  - destruct (Rlt_dec d (r * t)); [|eauto]. apply IH; [lra|]. cbn [pow] in H. lra.
Qed.
Lemma delta_ok p0 pL l d : newton_delta p0 pL l = Ok d -> exists r J, get_residual p0 pL l NWU = Ok r /\ analytical_jacobian l = Ok J /\ mv J d = scal3 (-1) r.
Proof.
  unfold newton_delta. intros H. rb H r0 RR. rb H J JJ. rb H i II. injection H as <-. exists r0, J. split; [auto|]. split; [auto|].
  assert (D : det3 J <> 0). { unfold Inverse in II. cbv zeta in II. destruct (Req_EM_T (det3 J) 0); [discriminate|auto]. }
  destruct (inverse_ok J D) as [i' [E1 E2]]. rewrite II in E1. injection E1 as <-. rewrite E2. apply vec_eq; unfold vneg, scal3; cbn [vx vy vz]; ring.
Qed.
Lemma infNorm_within v e : infNorm v <= e <-> within e v.
Proof. unfold infNorm, within. split; [intros H; repeat split; (eapply Rle_trans; [|exact H]); [apply Rmax_l|eapply Rle_trans; [apply Rmax_l|apply Rmax_r]|eapply Rle_trans; [apply Rmax_r|apply Rmax_r]]|intros [A [B C]]; repeat apply Rmax_lub; assumption]. Qed.
Lemma loop_cor fuel p0 pL : forall n l d r l', 0 < l_relax l <= 1 -> get_residual p0 pL l NWU = Ok r -> newton_loop n fuel p0 pL l d (infNorm r) = Ok l' ->
  (l' = l /\ (within (l_tol l) r \/ n = O)) \/ exists m r', (1 <= m <= n)%nat /\ corrections p0 pL m l l' /\ get_residual p0 pL l' NWU = Ok r' /\ (within (l_tol l) r' \/ m = n).
Proof.
  induction n as [|n IH]; intros l d r l' P RR H; cbn [newton_loop] in H. { injection H as <-. left. auto. }
  destruct (Rlt_dec (l_tol l) (infNorm r)) as [C|C]; [|injection H as <-; left; split; [auto|]; left; apply infNorm_within; lra].
  right. rb H t T. rb H k K. cbv zeta in H. rb H r1 R1. destruct (damp_ok _ _ _ _ _ K P) as [KP _].
  assert (CO : correction p0 pL l (set_relax (set_t0 l (vadd (l_t0 l) (vscale k t))) (Rmin 1 (k * 2)))). { destruct (delta_ok _ _ _ _ T) as [r0 [J [A [B C0]]]]. exists r0, J, t, k. repeat split; try assumption; try tauto. }
  assert (P1 : 0 < l_relax (set_relax (set_t0 l (vadd (l_t0 l) (vscale k t))) (Rmin 1 (k * 2))) <= 1) by (cbn; split; [apply Rmin_glb_lt; lra|apply Rmin_l]).
  destruct (IH _ _ _ _ P1 R1 H) as [[-> E]|[m [r' [M [CS [R' E]]]]]].
  - exists 1%nat, r1. split; [lia|]. split; [apply cor_one; exact CO|]. split; [exact R1|]. destruct E as [E| ->]; auto.
  - exists (S m), r'. split; [lia|]. split; [eapply cor_more; eauto|]. split; [exact R'|]. destruct E as [E| ->]; auto.
Qed.
Lemma solve_cor fuel p0 pL l l' : 0 < l_relax l <= 1 -> solve fuel p0 pL l = Ok l' ->
  exists n r, (1 <= n <= Nat.max 1 (l_itermax l))%nat /\ corrections p0 pL n l l' /\ get_residual p0 pL l' NWU = Ok r /\ (within (l_tol l) r \/ n = Nat.max 1 (l_itermax l)).
Proof.
  intros P H. unfold solve in H. rb H d D. cbv zeta in H. rb H r RR. set (l1 := set_t0 l (vadd (l_t0 l) (vscale (l_relax l) d))) in *.
  assert (CO : correction p0 pL l l1). { destruct (delta_ok _ _ _ _ D) as [r0 [J [A [B C0]]]]. exists r0, J, d, (l_relax l). repeat split; try assumption; try tauto. }
  destruct (loop_cor fuel p0 pL _ _ _ _ _ (P : 0 < l_relax l1 <= 1) RR H) as [[-> E]|[m [r' [M [CS [R' E]]]]]]; change (l_itermax l1) with (l_itermax l) in *; change (l_tol l1) with (l_tol l) in *.
  - exists 1%nat, r. split; [lia|]. split; [apply cor_one; exact CO|]. split; [exact RR|]. destruct E as [E|E]; [auto|right; lia].
  - exists (S m), r'. split; [lia|]. split; [eapply cor_more; eauto|]. split; [exact R'|]. destruct E as [E|E]; [auto|right; lia].
Qed.
Lemma delta_def p0 pL l : wf l -> loaded l -> slanted (l_t0 l) -> 0 < l_len l -> exists d, newton_delta p0 pL l = Ok d.
Proof.
  intros W LD S LP. unfold newton_delta. rewrite residual_val by auto. cbn [rbind]. pose proof (jac_val l W LD S) as E. destruct (jac_pd l _ W LD S LP E) as [SY PD]. rewrite E. cbn [rbind].
  destruct (inverse_ok _ (Rgt_not_eq _ _ (pd_det _ SY PD))) as [i [II _]]. rewrite II. cbn. eauto.
Qed.

