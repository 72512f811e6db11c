(** Proofs for C158 and C163 - C169: constructor from nodes, settings, counterexamples. *)
From Coq Require Import Reals List Bool Lra Psatz Lia.
From Verif Require Import SeaModel GeoModel GeoSpec GeoProofs GeoProofs2 GeoProofs3 GeoProofs4 BodyModel BodySpec BodyProofs BodyProofs2 BodyProofs3 BodyProofs4 BodyProps MorModel MorSpec MorProofs MorProofs2 MorProofs3 MorProofs4 MorProofs5.
Import ListNotations.
Open Scope R_scope.
Local Notation turn := BodySpec.turn.

Lemma nodes_eq tol junk b i j d ca cd cf r a c : reachable b -> nth_error (b_marks b) i = Some a -> nth_error (b_marks b) j = Some c ->
  tube_nodes tol junk b i j d ca cd cf r = tube_AB tol junk b (NGetPositionInBody b a NWU) (NGetPositionInBody b c NWU) d ca cd cf r.
Proof.
  intros RB EA EC. unfold tube_nodes, tube_AB, vat. rewrite EA, EC. cbn [of_option rbind]. destruct (check_props ca cd cf d); [|reflexivity]. f_equal.
  replace (vnorm (vsub (NGetPositionInWorld c NWU) (NGetPositionInWorld a NWU))) with (vnorm (vsub (NGetPositionInBody b c NWU) (NGetPositionInBody b a NWU))); [reflexivity|].
  destruct (reach_can b RB) as (F & v & dd & cc & Ns & -> & HF & HN). destruct (canon_nth _ _ _ _ _ _ _ EA) as (Na & _ & ->). destruct (canon_nth _ _ _ _ _ _ _ EC) as (Nc & _ & ->).
  unfold NGetPositionInBody, NGetPositionInWorld. rewrite !ngfb_can, !ngfw_can. unfold GetPosition. cbn [swap_if IsNED chmul fpos]. unfold vnorm. f_equal. rewrite !vn_dot.
  replace (vsub (vadd (fpos F) (qrotate (frot F) (fpos Nc))) (vadd (fpos F) (qrotate (frot F) (fpos Na)))) with (qrotate (frot F) (vsub (fpos Nc) (fpos Na))); [symmetry; apply qrotate_dot; exact HF|].
  rewrite qrotate_vsub. apply vec_eq; unfold vsub, vadd; cbn [vx vy vz]; ring.
Qed.
(** settings *)
Lemma split_qual tol junk A dV d ca cd cf perp : forall k i b b' l, split_from tol junk b A dV d ca cd cf perp i k = Ok (b', l) ->
  map (fun x => quality_of (group_props x)) l = repeat (cd, ca, cf, d) k.
Proof.
  induction k as [|k IH]; intros i b b' l E; cbn [split_from] in E; [injection E as <- <-; reflexivity|]. cbv zeta in E.
  destruct (tube_AB _ _ _ _ _ _ _ _ _ _) as [[b1 e1]| | | |] eqn:E1; cbn [rbind fst snd] in E; try discriminate. destruct (split_from _ _ _ _ _ _ _ _ _ _ _ _) as [[b2 l2]| | | |] eqn:E2; cbn [rbind fst snd] in E; try discriminate.
  injection E as <- <-. cbn [map repeat]. rewrite (IH _ _ _ _ E2). f_equal. unfold tube_AB in E1. destruct (check_props _ _ _ _); [|discriminate]. destruct (SetFrameAB _ _ _ _ _) as [r0| | | |]; cbn [rbind] in E1; try discriminate. injection E1 as _ <-. reflexivity.
Qed.
Lemma settings tol ops : forall b h p l0 b' e', group_run tol ops (b, Group h p l0) = Ok (b', e') ->
  exists h' p' l, e' = Group h' p' (l0 ++ l) /\ map (fun x => quality_of (group_props x)) l = qualities ops (quality_of p).
Proof.
  induction ops as [|o r IH]; intros b h p l0 b' e' E; cbn [group_run] in E.
  - injection E as <- <-. exists h, p, []. rewrite app_nil_r. split; reflexivity.
  - assert (KEY : forall b1 h1 p1 l1, group_step tol o (b, Group h p l0) = Ok (b1, Group h1 p1 (l0 ++ l1)) -> qualities (o :: r) (quality_of p) = map (fun x => quality_of (group_props x)) l1 ++ qualities r (quality_of p1) ->
       exists h' p' l, e' = Group h' p' (l0 ++ l) /\ map (fun x => quality_of (group_props x)) l = qualities (o :: r) (quality_of p)).
    { intros b1 h1 p1 l1 E1 Q1. rewrite E1 in E. cbn [rbind] in E. destruct (IH _ _ _ _ _ _ E) as (h' & p' & l & -> & Q2). exists h', p', (l1 ++ l). rewrite <- app_assoc. split; [reflexivity|]. rewrite map_app, Q2, Q1. reflexivity. }
    assert (KEY0 : forall b1 h1 p1, group_step tol o (b, Group h p l0) = Ok (b1, Group h1 p1 l0) -> qualities (o :: r) (quality_of p) = qualities r (quality_of p1) ->
       exists h' p' l, e' = Group h' p' (l0 ++ l) /\ map (fun x => quality_of (group_props x)) l = qualities (o :: r) (quality_of p)).
    { intros b1 h1 p1 E1 Q1. apply (KEY b1 h1 p1 []); [rewrite app_nil_r; exact E1|exact Q1]. }
    assert (TN : forall junk i j d ca cd cf perp rr, tube_nodes tol junk b i j d ca cd cf perp = Ok rr -> quality_of (group_props (snd rr)) = (cd, ca, cf, d)).
    { intros junk i j d ca cd cf perp rr X. unfold tube_nodes in X. destruct (check_props _ _ _ _); [|discriminate]. destruct (vat _ i) as [a| | | |]; cbn [rbind] in X; try discriminate. destruct (vat _ j) as [c| | | |]; cbn [rbind] in X; try discriminate. destruct (SetFrameAB _ _ _ _ _) as [r0| | | |]; cbn [rbind] in X; try discriminate. injection X as <-. reflexivity. }
    assert (TF : forall junk f len d ca cd cf rr, tube_frame junk b f d len ca cd cf = Ok rr -> quality_of (group_props (snd rr)) = (cd, ca, cf, d)).
    { intros junk f len d ca cd cf rr X. unfold tube_frame in X. destruct (check_props _ _ _ _); [|discriminate]. injection X as <-. reflexivity. }
    assert (BAD : forall x, group_step tol o (b, Group h p l0) = x -> match x with Ok _ => False | _ => True end -> exists h' p' l, e' = Group h' p' (l0 ++ l) /\ map (fun x => quality_of (group_props x)) l = qualities (o :: r) (quality_of p)).
    { intros x X Y. rewrite X in E. destruct x; cbn [rbind] in E; [destruct Y|discriminate..]. }
    destruct o; cbn [group_step fst snd group_props] in *.
    + eapply (KEY _ _ _ [e]); [reflexivity|]. unfold quality_of at 1. cbn [qualities map app]. destruct e; reflexivity.
    + destruct (tube_nodes tol junk b i j d ca cd cf perp) as [rr| | | |] eqn:T; try (eapply BAD; [reflexivity|exact I]). eapply (KEY _ _ _ [snd rr]); [reflexivity|]. cbn [map app]. rewrite (TN _ _ _ _ _ _ _ _ _ T). reflexivity.
    + destruct (tube_nodes _ _ _ _ _ _ _ _ _ _) as [rr| | | |] eqn:T; try (eapply BAD; [reflexivity|exact I]). eapply (KEY _ _ _ [snd rr]); [reflexivity|]. cbn [map app]. rewrite (TN _ _ _ _ _ _ _ _ _ T). reflexivity.
    + unfold split_tube in *. destruct (split_from _ _ _ _ _ _ _ _ _ _ _ _) as [[b2 l2]| | | |] eqn:T; try (eapply BAD; [reflexivity|exact I]). eapply (KEY _ _ _ l2); [reflexivity|]. rewrite (split_qual _ _ _ _ _ _ _ _ _ _ _ _ _ _ T). reflexivity.
    + unfold split_tube in *. destruct (split_from _ _ _ _ _ _ _ _ _ _ _ _) as [[b2 l2]| | | |] eqn:T; try (eapply BAD; [reflexivity|exact I]). eapply (KEY _ _ _ l2); [reflexivity|]. rewrite (split_qual _ _ _ _ _ _ _ _ _ _ _ _ _ _ T). reflexivity.
    + destruct (tube_frame _ _ _ _ _ _ _ _) as [rr| | | |] eqn:T; try (eapply BAD; [reflexivity|exact I]). eapply (KEY _ _ _ [snd rr]); [reflexivity|]. cbn [map app]. rewrite (TF _ _ _ _ _ _ _ _ T). reflexivity.
    + destruct (tube_frame _ _ _ _ _ _ _ _) as [rr| | | |] eqn:T; try (eapply BAD; [reflexivity|exact I]). eapply (KEY _ _ _ [snd rr]); [reflexivity|]. cbn [map app]. rewrite (TF _ _ _ _ _ _ _ _ T). reflexivity.
    + eapply KEY0; reflexivity.
    + eapply KEY0; reflexivity.
    + eapply KEY0; reflexivity.
    + eapply KEY0; reflexivity.
    + eapply KEY0; reflexivity.
    + eapply KEY0; reflexivity.
Qed.
(** the flag of the composite on its elements *)
Lemma init_flags x l : forall l', init_list x l = Ok l' -> Forall (fun e => h_extended (header_of e) = x) l'.
Proof.
  induction l as [|e r IH]; intros l' E; cbn [init_list] in E; [injection E as <-; constructor|]. destruct (Initialize e) as [e1| | | |]; cbn [rbind] in E; try discriminate. destruct (init_list x r) as [r1| | | |]; cbn [rbind] in E; try discriminate.
  injection E as <-. constructor; [|apply IH; reflexivity]. unfold SetExtendedModel. destruct e1; reflexivity.
Qed.
(** a tube on a body of orientation q at the origin, the body then moving with the velocity v and the angular velocity w (in the body) *)
Lemma sample q A B d ca cd cf r v w junk : unitq q -> A <> B -> good_reference A B r -> no_coeff_negative ca cd cf d ->
  exists b, tube_AB (1 / 10) junk (body_run [BOSetRotation q] newbody) A B d ca cd cf r = Ok (b, new_tube junk 0 ca cd cf d (size3 (minus3 B A))) /\
  let b2 := body_run [BOSetGenVelInBodyAtPointInBody origin v w NWU] b in reachable b2 /\ (forall x, body_map b2 x = qrotate q x) /\ (forall x, turn (body_map b2) x = qrotate q x) /\
  velocity_reads_everywhere b2 origin (qrotate q v) (qrotate q w) /\ tube_axes A B r (axis1 A B r) (axis2 A B r) (axis3 A B r) /\ node_stands b2 0 A B (axis1 A B r) (axis2 A B r) (axis3 A B r).
Proof.
  intros U NE G NC. assert (E0 : body_run [BOSetRotation q] newbody = canon (Fr origin q) vzero qzero origin []).
  { cbn [body_run body_step]. rewrite newbody_can, setrot_can. reflexivity. }
  rewrite E0, tube_can by (try assumption; lra). eexists. split; [reflexivity|]. cbn [app length]. set (b := canon (Fr origin q) vzero qzero origin [Fr (middle A B) (qaxes A B r)]).
  assert (RB : reachable b). { unfold b. pose proof (reach_node (canon (Fr origin q) vzero qzero origin []) (Fr (middle A B) (qaxes A B r))) as X. rewrite nwf_can in X. apply X; [rewrite <- E0; eexists; split; [|reflexivity]; repeat constructor; exact U|exact (qaxes_unitf A B r NE G)]. }
  cbv zeta. assert (R2 : reachable (body_run [BOSetGenVelInBodyAtPointInBody origin v w NWU] b)) by (apply reach_run; [exact RB|repeat constructor]).
  assert (BM : forall x, body_map b x = qrotate q x). { intros x. unfold b. rewrite bmap_can. cbn [fpos frot]. apply p3_0l. }
  assert (TN : forall x, turn (body_map b) x = qrotate q x) by (intros x; unfold b; rewrite turn_can; reflexivity).
  pose proof (C21_set_then_read b (VOBodyPtBody origin v w NWU) [] RB (Forall_nil _) (Forall_nil _)) as H. cbv zeta in H. cbn [vel_prescribed] in H. rewrite !TN, !BM in H. cbn [convert] in H. destruct H as [H1 [H2 _]]. rewrite qr_0 in H2.
  change (vel_run b (VOBodyPtBody origin v w NWU)) with (body_run [BOSetGenVelInBodyAtPointInBody origin v w NWU] b) in *.
  assert (BM2 : forall x, body_map (body_run [BOSetGenVelInBodyAtPointInBody origin v w NWU] b) x = qrotate q x) by (intros x; rewrite H1, BM; reflexivity).
  split; [exact R2|]. split; [exact BM2|]. split; [intros x; unfold BodySpec.turn; rewrite !BM2, qr_0; apply vec_eq; unfold minus3, origin; cbn [vx vy vz]; ring|]. split; [exact H2|]. split; [apply axes3; assumption|].
  apply stands_run; [exact RB|repeat constructor|repeat constructor|]. apply (node_can (Fr origin q) vzero qzero origin _ 0%nat (Fr (middle A B) (qaxes A B r))); auto.
Qed.
