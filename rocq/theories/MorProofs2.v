(** Proofs for C159 - C161: force of a tube, sums, power. *)
From Coq Require Import Reals List Bool Lra Psatz Lia.
From Verif Require Import SeaModel GeoModel GeoSpec GeoProofs GeoProofs2 GeoProofs3 GeoProofs4 BodyModel BodySpec BodyProofs BodyProofs2 BodyProofs3 BodyProofs4 BodyProps MorModel MorSpec MorProofs.
Import ListNotations.
Open Scope R_scope.
Local Notation turn := BodySpec.turn.

Lemma dot_conj q u e : unitq q -> dot3 (qrotate (qconj q) u) e = dot3 u (qrotate q e).
Proof. intros U. rewrite <- (qrotate_dot q) by exact U. rewrite qrotate_conj_r by exact U. reflexivity. Qed.
Definition ex : vec := V 1 0 0. Definition ey : vec := V 0 1 0. Definition ez : vec := V 0 0 1.
Lemma comp_x v : vx v = dot3 v ex. Proof. unfold dot3, ex; cbn [vx vy vz]; ring. Qed.
Lemma comp_y v : vy v = dot3 v ey. Proof. unfold dot3, ey; cbn [vx vy vz]; ring. Qed.
Lemma comp_z v : vz v = dot3 v ez. Proof. unfold dot3, ez; cbn [vx vy vz]; ring. Qed.
(** the image of the axes of the node by the two projections *)
Definition seen (F N : frame) (e : vec) : vec := qrotate (frot F) (qrotate (frot F) (qrotate (frot N) e)).
Lemma unit_mul F N : unitf F -> unitf N -> unitq (qmul (frot F) (frot N)).
Proof. intros A B. unfold unitf in *. destruct F as [p q], N as [p' q']. cbn [frot] in *. destruct q as [q00 q01 q02 q03], q' as [r00 r01 r02 r03]. unfold unitq, qmul in *; cbn [q0 q1 q2 q3] in *. transitivity ((q00 * q00 + q01 * q01 + q02 * q02 + q03 * q03) * (r00 * r00 + r01 * r01 + r02 * r02 + r03 * r03)); [ring|]. rewrite A, B. ring. Qed.
Section Tube.
Variables (F : frame) (v : vec) (d : quat) (c : vec) (Ns : list frame) (N : frame).
Hypothesis UF : unitf F. Hypothesis UN : unitf N.
Let b := canon F v d c Ns.
Let m := mkn F v d c N.
Lemma getframe_can : frot (GetFrame b) = frot F.
Proof. reflexivity. Qed.
Lemma local_dot u e : dot3 (to_local b m u) e = dot3 u (seen F N e).
Proof.
  unfold to_local, ProjectVectorParentInFrame, UQ_Rotate, UQ_Inverse. cbn [swap_if IsNED]. unfold m. rewrite ngfw_can, getframe_can. cbn [chmul frot].
  rewrite dot_conj by (apply unit_mul; assumption). rewrite dot_conj by exact UF. rewrite qrotate_mul by assumption. reflexivity.
Qed.
Lemma linear q x y z : qrotate q (V x y z) = plus3 (plus3 (scal3 x (qrotate q ex)) (scal3 y (qrotate q ey))) (scal3 z (qrotate q ez)).
Proof. destruct q as [a b0 c0 d0]. apply vec_eq; unfold qrotate, ex, ey, ez, plus3, scal3; cbn [q0 q1 q2 q3 vx vy vz]; ring. Qed.
Lemma linear3 x y z : seen F N (V x y z) = plus3 (plus3 (scal3 x (seen F N ex)) (scal3 y (seen F N ey))) (scal3 z (seen F N ez)).
Proof.
  unfold seen. rewrite linear. assert (L : forall q a e b0 f g h, qrotate q (plus3 (plus3 (scal3 a e) (scal3 b0 f)) (scal3 g h)) = plus3 (plus3 (scal3 a (qrotate q e)) (scal3 b0 (qrotate q f))) (scal3 g (qrotate q h))).
  { intros [r0 r1 r2 r3] a e b0 f g h. apply vec_eq; unfold qrotate, plus3, scal3; cbn [q0 q1 q2 q3 vx vy vz]; ring. }
  rewrite !L. reflexivity.
Qed.
Definition water (s : sea) (h : header) : vec :=
  let P := fpos (chmul F N) in plus3 (sea_wave s P) (if h_current h then sea_current s P else origin).
Lemma flow_local s h e : dot3 (GetFlowVelocity s b h m) e = dot3 (minus3 (water s h) (NGetVelocityInWorld m NWU)) (seen F N e).
Proof.
  unfold GetFlowVelocity. cbv zeta. rewrite local_dot. f_equal. unfold water. cbv zeta. change (NGetPositionInWorld m NWU) with (fpos (NGetFrameInWorld m)). unfold m at 1 3 4. rewrite ngfw_can.
  destruct (h_current h); apply vec_eq; unfold vadd, vsub, plus3, minus3, origin; cbn [vx vy vz]; ring.
Qed.
Definition tube_force (s : sea) (acc : vec) (h : header) (p : property) : vec :=
  let u := minus3 (water s h) (NGetVelocityInWorld m NWU) in
  let dr := drag_on (sea_rho s) (p_cd p) (p_cf p) (p_diameter p) (p_length p) (seen F N ex) (seen F N ey) (seen F N ez) u in
  if h_extended h then plus3 dr (inertia_on (sea_rho s) (p_ca p) (p_volume p) (seen F N ex) (seen F N ey) (minus3 (sea_wave_acc s (fpos (chmul F N))) acc)) else dr.
Lemma local_force_seen s acc h p : seen F N (local_force s acc b h p m) = tube_force s acc h p.
Proof.
  unfold local_force, tube_force. cbv zeta. rewrite !(comp_x (GetFlowVelocity _ _ _ _)), !(comp_y (GetFlowVelocity _ _ _ _)), !(comp_z (GetFlowVelocity _ _ _ _)), !flow_local.
  set (u := minus3 (water s h) _). destruct (h_extended h).
  - unfold GetFlowAcceleration. cbv zeta. rewrite (comp_x (to_local _ _ _)), (comp_y (to_local _ _ _)), !local_dot. change (NGetPositionInWorld m NWU) with (fpos (NGetFrameInWorld m)). unfold m. rewrite ngfw_can. rewrite linear3.
    change (vsub (sea_wave_acc s (fpos (chmul F N))) acc) with (minus3 (sea_wave_acc s (fpos (chmul F N))) acc). set (a := minus3 (sea_wave_acc s (fpos (chmul F N))) acc). clearbody u a. generalize (seen F N ex) (seen F N ey) (seen F N ez). intros a1 a2 a3.
    unfold drag_on, inertia_on, quad_along. generalize (dot3 u a1) (dot3 u a2) (dot3 u a3) (dot3 a a1) (dot3 a a2). intros. apply vec_eq; unfold plus3, scal3; cbn [vx vy vz]; field.
  - rewrite linear3. clearbody u. generalize (seen F N ex) (seen F N ey) (seen F N ez). intros a1 a2 a3.
    unfold drag_on, quad_along. generalize (dot3 u a1) (dot3 u a2) (dot3 u a3). intros. apply vec_eq; unfold plus3, scal3; cbn [vx vy vz]; field.
Qed.
Lemma update_tube s acc h p : nth_error Ns (h_node h) = Some N -> exists t,
  MUpdate s acc b (Tube h p) = Ok (Tube (Header (h_node h) (h_current h) (h_extended h) (tube_force s (acc (h_node h)) h p) t) p) /\
  qrotate (frot F) t = cross3 (minus3 (fpos (chmul F N)) (GetCOGPositionInWorld b NWU)) (tube_force s (acc (h_node h)) h p).
Proof.
  intros E. cbn [MUpdate]. unfold vat. unfold b at 1. rewrite marks_can, (map_nth_error _ _ _ E). cbn [of_option rbind]. fold m. cbv zeta.
  unfold ProjectVectorFrameInParent, UQ_Rotate. cbn [swap_if IsNED]. rewrite getframe_can. unfold m at 1. rewrite ngfw_can. cbn [chmul frot]. rewrite qrotate_mul by assumption.
  set (lf := local_force s (acc (h_node h)) b h p m). eexists. split; [f_equal; f_equal; f_equal; exact (local_force_seen s (acc (h_node h)) h p)|].
  unfold m at 2. rewrite ngfw_can. cbn [chmul frot]. rewrite qrotate_mul by assumption. change (vcross ?x ?y) with (cross3 x y). rewrite <- qrotate_cross by exact UF. fold lf.
  change (qrotate (frot F) (qrotate (frot F) (qrotate (frot N) lf))) with (seen F N lf). unfold lf. rewrite local_force_seen. f_equal.
  unfold NGetPositionInBody, m, b. rewrite ngfb_can. rewrite cogpos_can, cogworld_can. cbn [convert]. unfold GetPosition. cbn [swap_if IsNED]. rewrite qrotate_vsub. cbn [chmul fpos].
  apply vec_eq; unfold minus3, plus3, vsub, vadd; cbn [vx vy vz]; ring.
Qed.
End Tube.

(** ** The wrench of an element *)
Lemma compute_reads b e s acc f f' e' : reachable b -> morison_compute s acc b e f = Ok (f', e') ->
  MUpdate s acc b e = Ok e' /\ reads_as b f' (W (MGetForceInWorld e' NWU) (turn (body_map b) (MGetTorqueInBody e')) (GetCOGPositionInWorld b NWU)).
Proof.
  intros RB E. unfold morison_compute in E. destruct (MUpdate s acc b e) as [e1| | | |]; cbn [rbind] in E; try discriminate. injection E as <- <-. split; [reflexivity|].
  destruct (force_some b f RB) as [w Hw]. exact (force_sequence b [FOForceWorldCOG (MGetForceInWorld e1 NWU) NWU; FOTorqueBodyCOG (MGetTorqueInBody e1) NWU] f w RB Hw).
Qed.
Lemma reads_weq_ext b s a c : reachable b -> weq a c -> reads_as b s a -> reads_as b s c.
Proof. intros RB H K. destruct (reach_can b RB) as (F & v & d & co & Ns & -> & HF & HN). exact (reads_ext F v d co Ns s a c H K). Qed.
Lemma reads_same b s a c : reachable b -> reads_as b s a -> reads_as b s c -> weq a c.
Proof.
  intros RB H K. destruct (reach_can b RB) as (F & v & d & co & Ns & -> & HF & HN). pose proof (reads_weq F v d co Ns HF s a H) as [A1 A2]. pose proof (reads_weq F v d co Ns HF s c K) as [B1 B2].
  split; [congruence|]. intros X. rewrite <- A2. apply B2.
Qed.

(** ** Trees of elements *)
Section Ind.
Variable P : element -> Prop.
Hypothesis HT : forall h p, P (Tube h p).
Hypothesis HG : forall h p l, Forall P l -> P (Group h p l).
Fixpoint element_ind2 (e : element) : P e :=
  match e with
  | Tube h p => HT h p
  | Group h p l => HG h p l ((fix go (l : list element) : Forall P l := match l with [] => Forall_nil _ | x :: r => Forall_cons _ (element_ind2 x) (go r) end) l)
  end.
End Ind.
Fixpoint update_list (s : sea) (acc : nat -> vec) (b : body) (l : list element) : res (list element) :=
  match l with [] => Ok [] | x :: r => x' <<- MUpdate s acc b x; r' <<- update_list s acc b r; Ok (x' :: r') end.
Lemma update_group s acc b h p l : MUpdate s acc b (Group h p l) = (l' <<- update_list s acc b l;
      Ok (Group (Header (h_node h) (h_current h) (h_extended h)
                   (fold_left (fun a x => vadd a (MGetForceInWorld x NWU)) l' vzero)
                   (fold_left (fun a x => vadd a (MGetTorqueInBody x)) l' vzero)) p l')).
Proof. cbn [MUpdate]. f_equal. induction l as [|x r IH]; [reflexivity|]. cbn [update_list]. rewrite <- IH. reflexivity. Qed.
Lemma p3_assoc a b c : plus3 a (plus3 b c) = plus3 (plus3 a b) c.
Proof. apply vec_eq; unfold plus3; cbn [vx vy vz]; ring. Qed.
Lemma p3_0l a : plus3 origin a = a.
Proof. apply vec_eq; unfold plus3, origin; cbn [vx vy vz]; ring. Qed.
Lemma p3_0r a : plus3 a origin = a.
Proof. apply vec_eq; unfold plus3, origin; cbn [vx vy vz]; ring. Qed.
Lemma fold_sum3 {A} (k : A -> vec) l : forall a, fold_left (fun a x => vadd a (k x)) l a = plus3 a (sum3 (map k l)).
Proof. induction l as [|x r IH]; intros a; cbn [fold_left map sum3 fold_right]; [symmetry; apply p3_0r|]. rewrite IH. change (vadd a (k x)) with (plus3 a (k x)). unfold sum3. rewrite p3_assoc. reflexivity. Qed.
Lemma sum3_app l1 l2 : sum3 (l1 ++ l2) = plus3 (sum3 l1) (sum3 l2).
Proof. induction l1 as [|a r IH]; cbn [app sum3 fold_right]; [symmetry; apply p3_0l|]. unfold sum3 in IH. rewrite IH. apply p3_assoc. Qed.
Definition pulls (s : sea) (acc : nat -> vec) (b : body) (t : header * property) (w : vec * vec) : Prop :=
  exists t', MUpdate s acc b (Tube (fst t) (snd t)) = Ok t' /\ w = (MGetForceInWorld t' NWU, MGetTorqueInBody t').
Lemma F2_app_split {A B} (P : A -> B -> Prop) l1 l2 m1 m2 : Forall2 P l1 m1 -> Forall2 P l2 m2 -> Forall2 P (l1 ++ l2) (m1 ++ m2).
Proof. intros. apply Forall2_app; auto. Qed.
Lemma update_tubes s acc b e : forall e', MUpdate s acc b e = Ok e' -> exists ws, Forall2 (pulls s acc b) (tubes e) ws /\
  MGetForceInWorld e' NWU = sum3 (map fst ws) /\ MGetTorqueInBody e' = sum3 (map snd ws).
Proof.
  induction e as [h p|h p l IH] using element_ind2; intros e' E.
  - exists [(MGetForceInWorld e' NWU, MGetTorqueInBody e')]. split; [constructor; [|constructor]; exists e'; auto|]. cbn [map fst snd sum3 fold_right]. rewrite !p3_0r. auto.
  - rewrite update_group in E. destruct (update_list s acc b l) as [l'| | | |] eqn:EL; cbn [rbind] in E; try discriminate. injection E as <-.
    assert (L : exists ws, Forall2 (pulls s acc b) (flat_map tubes l) ws /\ sum3 (map (fun x => MGetForceInWorld x NWU) l') = sum3 (map fst ws) /\ sum3 (map MGetTorqueInBody l') = sum3 (map snd ws)).
    { clear p h. revert l' EL. induction IH as [|x r Hx _ IHr]; intros l' EL; cbn [update_list] in EL.
      - injection EL as <-. exists []. split; [constructor|auto].
      - destruct (MUpdate s acc b x) as [x'| | | |]; cbn [rbind] in EL; try discriminate. destruct (update_list s acc b r) as [r'| | | |]; cbn [rbind] in EL; try discriminate. injection EL as <-.
        destruct (Hx x' eq_refl) as (w1 & A1 & A2 & A3). destruct (IHr r' eq_refl) as (w2 & B1 & B2 & B3). exists (w1 ++ w2). split; [cbn [flat_map]; apply Forall2_app; auto|].
        rewrite !map_app, !sum3_app. cbn [map]. change (sum3 (?a :: ?r0)) with (plus3 a (sum3 r0)). rewrite A2, A3, B2, B3. auto. }
    destruct L as (ws & L1 & L2 & L3). exists ws. split; [exact L1|]. unfold MGetForceInWorld at 1, MGetTorqueInBody at 1. cbn [header_of h_force h_torque swap_if IsNED].
    rewrite (fold_sum3 (fun x => MGetForceInWorld x NWU)), (fold_sum3 MGetTorqueInBody). change vzero with origin. rewrite !p3_0l. auto.
Qed.
Lemma update_all s acc b e : (forall t, In t (tubes e) -> exists t', MUpdate s acc b (Tube (fst t) (snd t)) = Ok t') -> exists e', MUpdate s acc b e = Ok e'.
Proof.
  induction e as [h p|h p l IH] using element_ind2; intros H.
  - exact (H (h, p) (or_introl eq_refl)).
  - rewrite update_group. assert (L : exists l', update_list s acc b l = Ok l').
    { cbn [tubes] in H. clear h p. induction IH as [|x r Hx _ IHr]; [exists []; reflexivity|]. cbn [update_list flat_map] in *.
      destruct Hx as [x' ->]. { intros t T. apply H. apply in_or_app. auto. } destruct IHr as [r' ->]. { intros t T. apply H. apply in_or_app. auto. } cbn [rbind]. eauto. }
    destruct L as [l' ->]. cbn [rbind]. eauto.
Qed.
