(** Proofs for C162: a tube divided into n parts. *)
From Coq Require Import Reals List Bool Lra Psatz Lia.
From Verif Require Import SeaModel GeoModel GeoSpec GeoProofs GeoProofs2 GeoProofs3 GeoProofs4 BodyModel BodySpec BodyProofs BodyProofs2 BodyProofs3 BodyProofs4 BodyProps MorModel MorSpec MorProofs MorProofs2 MorProofs3 MorProofs4.
Import ListNotations.
Open Scope R_scope.
Local Notation turn := BodySpec.turn.

Lemma sum_const k (u : vec) m : sum3 (map (fun _ => scal3 k u) (seq 0 m)) = scal3 (INR m * k) u.
Proof.
  generalize 0%nat as i. induction m as [|m IH]; intros i; [apply vec_eq; unfold sum3, scal3, origin; cbn [seq map fold_right vx vy vz INR]; ring|].
  cbn [seq map]. change (sum3 (?a :: ?r)) with (plus3 a (sum3 r)). rewrite IH, S_INR. apply vec_eq; unfold plus3, scal3; cbn [vx vy vz]; ring.
Qed.
Lemma sum_odd (c0 c1 : R) (u : vec) m : sum3 (map (fun k => scal3 (c1 * (2 * INR k + 1) - c0) u) (seq 0 m)) = scal3 (c1 * (INR m * INR m) - INR m * c0) u.
Proof.
  induction m as [|m IH]; [apply vec_eq; unfold sum3, scal3, origin; cbn [seq map fold_right vx vy vz INR]; ring|].
  rewrite seq_S, map_app, sum3_app, IH, S_INR. cbn [map plus Nat.add]. change (sum3 [?a]) with (plus3 a origin). rewrite p3_0r. apply vec_eq; unfold plus3, scal3; cbn [vx vy vz]; ring.
Qed.
Lemma force_part s acc cur x cd ca cf d L n a1 a2 a3 P Q vel : uniform_sea s -> 0 < n ->
  morison_force s acc cur x (SetVolume (Props cd ca cf d (L / n) 0)) a1 a2 a3 P vel = scal3 (/ n) (morison_force s acc cur x (Props cd ca cf d L (tube_volume d L)) a1 a2 a3 Q vel).
Proof.
  intros U Hn. destruct (U P Q) as (U1 & U2 & U3). unfold morison_force. cbv zeta. rewrite U1, U2, U3. unfold SetVolume, tube_volume. cbn [p_cd p_ca p_cf p_diameter p_length p_volume].
  set (u := minus3 _ vel). set (a := minus3 _ acc). clearbody u a. unfold drag_on, inertia_on, quad_along. generalize (dot3 u a1 * Rabs (dot3 u a1)) (dot3 u a2 * Rabs (dot3 u a2)) (dot3 u a3 * Rabs (dot3 u a3)) (dot3 a a1) (dot3 a a2). intros r1 r2 r3 r4 r5.
  destruct x; apply vec_eq; unfold plus3, scal3; cbn [vx vy vz]; field; lra.
Qed.
Lemma middle_cut A B n k : 0 < INR n -> minus3 (middle (cut A B n k) (cut A B n (S k))) (middle A B) = scal3 (/ (2 * INR n) * (2 * INR k + 1) - 1 / 2) (minus3 B A).
Proof. intros H. apply vec_eq; unfold middle, cut, minus3, plus3, scal3; cbn [vx vy vz]; rewrite S_INR; field; lra. Qed.
Fixpoint init_list (x : bool) (l : list element) : res (list element) :=
  match l with [] => Ok [] | e :: r => e' <<- Initialize e; r' <<- init_list x r; Ok (SetExtendedModel e' x :: r') end.
Lemma init_group h p l : Initialize (Group h p l) = (l' <<- init_list (h_extended h) l; Ok (Group h p l')).
Proof. cbn [Initialize]. f_equal. induction l as [|x r IH]; [reflexivity|]. cbn [init_list]. rewrite <- IH. reflexivity. Qed.
Lemma init_tubes x junk N0 ca cd cf d L ks : FLT_EPS < L -> FLT_EPS < d ->
  init_list x (map (fun j => new_tube (junk j) (N0 + (j - 0)) ca cd cf d L) ks) = Ok (map (fun j => Tube (Header (N0 + j) (junk j) x vzero vzero) (SetVolume (Props cd ca cf d L 0))) ks).
Proof.
  intros HL HD. induction ks as [|j r IH]; [reflexivity|]. cbn [map init_list]. rewrite IH.
  assert (E : Initialize (new_tube (junk j) (N0 + (j - 0)) ca cd cf d L) = Ok (new_tube (junk j) (N0 + j) ca cd cf d L)).
  { rewrite Nat.sub_0_r. unfold new_tube. cbn [Initialize]. change (p_length (SetVolume (Props cd ca cf d L 0))) with L. change (p_diameter (SetVolume (Props cd ca cf d L 0))) with d.
    destruct (Rlt_dec FLT_EPS L) as [_|N]; [|contradiction]. destruct (Rlt_dec FLT_EPS d) as [_|N]; [|contradiction]. reflexivity. }
  rewrite E. reflexivity.
Qed.
Lemma flat_tubes ks (hd : nat -> header) p : flat_map tubes (map (fun j => Tube (hd j) p) ks) = map (fun j => (hd j, p)) ks.
Proof. induction ks as [|j r IH]; [reflexivity|]. cbn [map flat_map tubes app]. rewrite IH. reflexivity. Qed.
Lemma forall2_map {A B C} (P : A -> B -> Prop) (f : C -> A) (g : C -> B) l : (forall c, In c l -> P (f c) (g c)) -> Forall2 P (map f l) (map g l).
Proof. induction l as [|c r IH]; intros H; cbn [map]; constructor; [apply H; left; reflexivity|apply IH; intros; apply H; right; assumption]. Qed.
Lemma split_wrench tol jk cur b A B d ca cd cf n v y x : reachable b -> 0 <= tol -> (0 < n)%nat -> A <> B -> good_reference A B v -> no_coeff_negative ca cd cf d ->
  FLT_EPS < size3 (minus3 B A) / INR n -> FLT_EPS < d ->
  exists bn en en' e1 e2 e3, group_run tol [GSetIncludeCurrent y; GAddTube (fun _ => cur) A B d ca cd cf n v; GSetExtendedModel x] (new_group jk b) = Ok (bn, en) /\ Initialize en = Ok en' /\ length (tubes en') = n /\ tube_axes A B v e1 e2 e3 /\
  forall l s a acc P0 v0 f, Forall body_ok l -> Forall no_node_op l -> let b2 := body_run l bn in let g := body_map b2 in uniform_sea s -> (forall i, acc i = a) -> velocity_reads_everywhere b2 P0 v0 origin ->
  exists f' e', morison_compute s acc b2 en' f = Ok (f', e') /\
    reads_as b2 f' (W (morison_force s a cur x (Props cd ca cf d (size3 (minus3 B A)) (tube_volume d (size3 (minus3 B A)))) (turn g (turn g e1)) (turn g (turn g e2)) (turn g (turn g e3)) (g (middle A B)) v0) origin (g (middle A B))).
Proof.
  intros RB T PN NE G NC HL HD. pose proof RB as RB'. destruct (reach_can b RB') as (F & v' & d' & c & Ns & -> & HF & HN). assert (IN : 0 < INR n) by (apply lt_0_INR; exact PN).
  unfold new_group. rewrite newnode_can. set (Ns1 := Ns ++ [Fr c qone]). set (N0 := length Ns1).
  set (bn := canon F v' d' c (Ns1 ++ map (part_frame A B v n) (seq 0 n))).
  set (kids := map (fun j => Tube (Header (N0 + j) cur x vzero vzero) (SetVolume (Props cd ca cf d (size3 (minus3 B A) / INR n) 0))) (seq 0 n)).
  set (h0 := Header (length (b_marks (canon F v' d' c Ns))) y x vzero vzero).
  exists bn. eexists. exists (Group h0 new_property kids), (axis1 A B v), (axis2 A B v), (axis3 A B v).
  split. { cbn [group_run group_step fst snd rbind]. unfold SetIncludeCurrent. cbn [header_of set_header h_node h_current h_extended h_force h_torque new_header fst snd]. unfold split_tube. rewrite (split_can tol (fun _ => cur) F v' d' c d ca cd cf v A B n PN T NE G NC n 0%nat Ns1). cbn [rbind fst snd push group_step]. unfold SetExtendedModel. cbn [header_of set_header h_node h_current h_force h_torque new_header app]. reflexivity. }
  split. { rewrite init_group. cbn [h_extended]. rewrite init_tubes by assumption. reflexivity. }
  split. { cbn [tubes]. unfold kids. rewrite (flat_tubes (seq 0 n) (fun j => Header (N0 + j) cur x vzero vzero)), map_length, seq_length. reflexivity. }
  split; [apply axes3; assumption|]. assert (UN1 : Forall unitf (Ns1 ++ map (part_frame A B v n) (seq 0 n))).
  { apply Forall_app. split; [apply Forall_app; split; [exact HN|repeat constructor; exact unitq_one]|]. apply Forall_forall. intros N IN0. apply in_map_iff in IN0. destruct IN0 as (k & <- & _). exact (proj1 (qaxes_ok A B v NE G)). }
  assert (RN : reachable bn).
  { unfold bn. assert (GEN : forall fs Ms, Forall unitf fs -> reachable (canon F v' d' c Ms) -> reachable (canon F v' d' c (Ms ++ fs))).
    { induction fs as [|f0 fs IH]; intros Ms UF RM; [rewrite app_nil_r; exact RM|]. inversion UF; subst. replace (Ms ++ f0 :: fs) with ((Ms ++ [f0]) ++ fs) by (rewrite <- app_assoc; reflexivity). apply IH; [assumption|]. pose proof (reach_node _ f0 RM H1) as X. rewrite nwf_can in X. exact X. }
    apply GEN; [apply Forall_app in UN1; exact (proj2 UN1)|]. unfold Ns1. apply GEN; [repeat constructor; exact unitq_one|exact RB]. }
  assert (ST : forall k, (k < n)%nat -> node_stands bn (N0 + k) (cut A B n k) (cut A B n (S k)) (axis1 A B v) (axis2 A B v) (axis3 A B v)).
  { intros k K. assert (PI0 : 0 < / INR n) by (apply Rinv_0_lt_compat; exact IN). pose proof (cut_len A B n k PN) as CL. pose proof (frame_scal A B _ _ v _ PI0 CL) as FS.
    pose proof (node_can F v' d' c (Ns1 ++ map (part_frame A B v n) (seq 0 n)) (N0 + k) (part_frame A B v n k) (cut A B n k) (cut A B n (S k)) v) as X.
    unfold axis1, axis2, axis3 in X |- *. rewrite FS in X. apply X.
    - unfold N0. rewrite nth_error_app2 by lia. replace (length Ns1 + k - length Ns1)%nat with k by lia. rewrite nth_error_map. rewrite (nth_error_nth' (seq 0 n) 0%nat) by (rewrite seq_length; exact K). rewrite seq_nth by exact K. reflexivity.
    - unfold part_frame. rewrite (qaxes_scal A B _ _ v _ PI0 CL). reflexivity.
    - exact (ne_scal A B _ _ _ PI0 CL NE).
    - exact (good_scal A B _ _ _ _ PI0 CL G). }
  intros l s a acc P0 v0 f OK NN US AC VR. set (b2 := body_run l bn) in *. set (g := body_map b2) in *. assert (R2 : reachable b2) by (apply reach_run; assumption).
  assert (ST2 : forall k, (k < n)%nat -> node_stands b2 (N0 + k) (cut A B n k) (cut A B n (S k)) (axis1 A B v) (axis2 A B v) (axis3 A B v)) by (intros k K; apply stands_run; auto).
  clearbody b2. set (fw := morison_force s a cur x (Props cd ca cf d (size3 (minus3 B A)) (tube_volume d (size3 (minus3 B A)))) (turn g (turn g (axis1 A B v))) (turn g (turn g (axis2 A B v))) (turn g (turn g (axis3 A B v))) (g (middle A B)) v0).
  set (ws := map (fun k => W (scal3 (/ INR n) fw) origin (g (middle (cut A B n k) (cut A B n (S k))))) (seq 0 n)).
  assert (FW : Forall2 (fun t w => forall f1, exists f2 e2, morison_compute s acc b2 (Tube (fst t) (snd t)) f1 = Ok (f2, e2) /\ reads_as b2 f2 w) (tubes (Group h0 new_property kids)) ws).
  { cbn [tubes]. unfold kids. rewrite (flat_tubes (seq 0 n) (fun j => Header (N0 + j) cur x vzero vzero)). unfold ws. apply forall2_map. intros k K f1. apply in_seq in K. cbn [fst snd].
    destruct (tube_law b2 (N0 + k) (cut A B n k) (cut A B n (S k)) (axis1 A B v) (axis2 A B v) (axis3 A B v) s acc (Header (N0 + k) cur x vzero vzero) (SetVolume (Props cd ca cf d (size3 (minus3 B A) / INR n) 0)) P0 v0 origin f1 R2 (ST2 k (proj2 K)) eq_refl VR) as (f2 & e2 & X1 & X2).
    exists f2, e2. split; [exact X1|]. cbv zeta in X2. cbn [h_current h_extended] in X2. fold g in X2. rewrite AC in X2.
    assert (RV : forall X, rigid_velocity P0 v0 origin X = v0) by (intros X; apply vec_eq; unfold rigid_velocity, plus3, cross3, minus3, origin; cbn [vx vy vz]; ring). rewrite RV in X2.
    rewrite (force_part s a cur x cd ca cf d (size3 (minus3 B A)) (INR n) _ _ _ _ (g (middle A B)) v0 US IN) in X2. exact X2. }
  destruct (update_all s acc b2 (Group h0 new_property kids)) as [e' EU].
  { intros t IT. clear - FW IT R2. set (ts := tubes _) in *. clearbody ts ws. induction FW as [|t0 w ts ws H _ IH]; [destruct IT|]. destruct IT as [->|IT]; [|apply IH; exact IT]. destruct (H (Force vzero vzero)) as (f2 & e2 & X1 & _). destruct (compute_reads _ _ _ _ _ _ _ R2 X1) as [X2 _]. eauto. }
  assert (EC : exists f', morison_compute s acc b2 (Group h0 new_property kids) f = Ok (f', e')) by (unfold morison_compute; rewrite EU; cbn [rbind]; eauto). destruct EC as [f' EC]. exists f', e'. split; [exact EC|].
  pose proof (group_wrench b2 _ s acc f f' e' ws (g (middle A B)) R2 EC FW) as RD. apply (reads_weq_ext _ _ _ _ R2) with (2 := RD).
  assert (TL : forall X Y, minus3 (g X) (g Y) = turn g (minus3 X Y)).
  { intros X Y. unfold g. destruct (reach_can b2 R2) as (F2 & v2 & d2 & c2 & Ns2 & -> & _ & _). rewrite !bmap_can, turn_can, qrotate_minus. apply vec_eq; unfold minus3, plus3; cbn [vx vy vz]; ring. }
  assert (TS : forall k X, turn g (scal3 k X) = scal3 k (turn g X)).
  { intros k X. unfold g. destruct (reach_can b2 R2) as (F2 & v2 & d2 & c2 & Ns2 & -> & _ & _). rewrite !turn_can. destruct (frot F2) as [r0 r1 r2 r3]. apply vec_eq; unfold qrotate, scal3; cbn [q0 q1 q2 q3 vx vy vz]; ring. }
  assert (S1 : sum3 (map w_force ws) = fw). { unfold ws. rewrite map_map. cbn [w_force]. rewrite sum_const. apply vec_eq; unfold scal3; cbn [vx vy vz]; field; lra. }
  assert (S2 : sum3 (map (fun w => moment_of w (g (middle A B))) ws) = origin).
  { unfold ws. rewrite map_map. rewrite (map_ext _ (fun k => scal3 (/ (2 * INR n) * (2 * INR k + 1) - 1 / 2) (cross3 (turn g (minus3 B A)) (scal3 (/ INR n) fw)))).
    - rewrite sum_odd. apply vec_eq; unfold scal3, origin; cbn [vx vy vz]; field; lra.
    - intros k. unfold moment_of. cbn [w_force w_moment w_point]. rewrite TL, middle_cut, TS by exact IN. generalize (turn g (minus3 B A)). intros y0. apply vec_eq; unfold plus3, cross3, scal3, origin; cbn [vx vy vz]; ring. }
  split; [cbn [total_wrench w_force]; exact S1|]. intros X. unfold total_wrench, moment_of at 1. cbn [w_force w_moment w_point]. rewrite S1, S2. reflexivity.
Qed.
