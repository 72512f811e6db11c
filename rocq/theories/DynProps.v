(** Properties C246-C254, C256: the dynamic cable (the registration of the catenary line of its initialisation, C255, is in DynRegProps). *)
From Coq Require Import Reals List ZArith Bool Lra Lia Psatz.
From Verif Require Import GeoModel GeoSpec GeoProofs SeaModel DynModel DynSpec DynProofs.
Import ListNotations.
Open Scope R_scope.

(** C246: a cable longer than the distance between its ends is meshed as a chain whose nodes are, at equal steps of arc length, on the catenary line that joins
    the ends ... *)
Theorem C246_slack_mesh : forall A B axes make c, fresh c -> dist3 B A < d_length c ->
  let c' := dc_Initialize A B axes make c in let line := make (d_length c) in
  chain c' /\ (exists nd, node_at c' 0 = Some nd /\ fn_pos nd = A) /\
  (forall i, (1 <= i <= d_elements c)%nat -> exists nd, node_at c' i = Some nd /\ fn_pos nd = ct_pos line (INR i / INR (d_elements c) * d_length c)) /\
  (forall i s, (1 <= i <= d_elements c)%nat -> s = INR i / INR (d_elements c) * d_length c -> ct_pos line s = B -> s = d_length c ->
     exists nd, node_at c' (d_elements c') = Some nd /\ fn_pos nd = B).
Proof.
  intros A B axes make c F D c' line. destruct (init_slack A B axes make c F D) as [Z S]. split; [exact (init_chain A B axes make c F)|]. split; [eexists; split; [exact Z|reflexivity]|]. split.
  - intros i H. eexists. split; [exact (S i H)|]. reflexivity.
  - intros i s H E P L. destruct (init_keep A B axes make c F) as (_ & K & _). subst c'. rewrite K. eexists. split; [apply S; destruct F as (_ & _ & _ & G); lia|]. cbn [fn_pos].
    rewrite <- P. fold line. f_equal. unfold abscissa. rewrite L. destruct F as (_ & _ & _ & G). assert (0 < INR (d_elements c)) by (apply lt_0_INR; lia). field. lra.
Qed.
(** ... with right handed axes, the first one along the tension of the line and the third one normal to the plane of the line, when the line stays in the plane of
    its first tension and of its two ends *)
Theorem C246_slack_axes : forall A B axes make c, fresh c -> dist3 B A < d_length c ->
  let line := make (d_length c) in let normal := cross3 (ct_tension line 0) (minus3 B A) in normal <> origin ->
  (forall s, 0 <= s <= d_length c -> ct_tension line s <> origin /\ dot3 (ct_tension line s) normal = 0) ->
  forall i, (i <= d_elements c)%nat -> exists nd, node_at (dc_Initialize A B axes make c) i = Some nd /\ right_handed (fn_axes nd) /\
    along (first_axis (fn_axes nd)) (ct_tension line (INR i / INR (d_elements c) * d_length c)) /\ along (third_axis (fn_axes nd)) normal.
Proof. intros A B axes make c F D line normal N T i H. exact (slack_axes A B axes make c F D N T i H). Qed.
Definition demo_line (len : R) : catenary := Cat (fun s => V s 0 0) (fun s => V 1 0 (s - 5)) 6.
Example C246_inhabited : let c := new_dcable 10 1000 4 in fresh c /\ dist3 (V 8 0 0) (V 0 0 0) < d_length c /\
  let line := demo_line (d_length c) in let normal := cross3 (ct_tension line 0) (minus3 (V 8 0 0) (V 0 0 0)) in normal <> origin /\
  (forall s, 0 <= s <= d_length c -> ct_tension line s <> origin /\ dot3 (ct_tension line s) normal = 0).
Proof.
  cbv zeta. split; [unfold fresh; cbn; repeat split; try lra; try lia; try reflexivity|]. split.
  - unfold dist3, dot3, minus3. cbn. replace ((8 - 0) * (8 - 0) + (0 - 0) * (0 - 0) + (0 - 0) * (0 - 0)) with (8 * 8) by ring. rewrite sqrt_square; lra.
  - split; [intros E; apply (f_equal GeoModel.vy) in E; cbn in E; lra|]. intros s _. split; [intros E; apply (f_equal GeoModel.vx) in E; cbn in E; lra|]. unfold dot3, cross3, minus3. cbn. ring.
Qed.

(** C247: a cable whose ends are further apart than its length is meshed as a chain, straight from the start towards the end, with the axes of the starting node ... *)
Theorem C247_taut_mesh : forall A B axes make c, fresh c -> d_length c <= dist3 B A ->
  let c' := dc_Initialize A B axes make c in
  chain c' /\ exists u, along u (minus3 B A) /\ forall i, (i <= d_elements c)%nat ->
    node_at c' i = Some (FNode (plus3 A (scal3 (INR i / INR (d_elements c) * d_length c) u)) axes).
Proof.
  intros A B axes make c F D c'. split; [exact (init_chain A B axes make c F)|]. exists (cnormalize (vsub B A)). split.
  - apply (cn_along (vsub B A)). intros E. rewrite <- dist_norm, E in D. destruct F as (_ & _ & L & _). unfold vnorm, vdot, vzero in D. cbn in D. replace (0 * 0 + 0 * 0 + 0 * 0) with 0 in D by ring. rewrite sqrt_0 in D. lra.
  - intros i H. exact (init_taut A B axes make c F D i H).
Qed.
(** ... but not up to the end: the last node, which the hinge ties to the ending node, is short of it by the whole elongation *)
Theorem C247_gap : forall A B axes make c, fresh c -> d_length c <= dist3 B A ->
  exists nd, node_at (dc_Initialize A B axes make c) (d_elements c) = Some nd /\ dist3 B (fn_pos nd) = dist3 B A - d_length c.
Proof.
  intros A B axes make c F D. destruct (C247_taut_mesh A B axes make c F D) as (_ & u & (U & k & K & E) & N). eexists. split; [apply N; lia|]. cbn [fn_pos].
  destruct F as (_ & _ & L & P). assert (J : 0 < INR (d_elements c)) by (apply lt_0_INR; lia). replace (INR (d_elements c) / INR (d_elements c) * d_length c) with (d_length c) by (field; lra).
  assert (X : forall x, 0 <= x -> sqrt (dot3 (scal3 x u) (scal3 x u)) = x). { intros x Hx. replace (dot3 (scal3 x u) (scal3 x u)) with (x * x * dot3 u u) by (destruct u; unfold dot3, scal3; cbn; ring). rewrite U, Rmult_1_r. apply sqrt_square. exact Hx. }
  assert (Dk : dist3 B A = k) by (unfold dist3; rewrite E; apply X; lra). rewrite Dk in D |- *. unfold dist3.
  replace (minus3 B (plus3 A (scal3 (d_length c) u))) with (scal3 (k - d_length c) u); [apply X; lra|].
  assert (G : minus3 B (plus3 A (scal3 (d_length c) u)) = minus3 (minus3 B A) (scal3 (d_length c) u)) by (destruct A, B, u; unfold minus3, plus3, scal3; apply vec_eq; cbn; ring).
  rewrite G, E. destruct u; unfold minus3, scal3; apply vec_eq; cbn; ring.
Qed.
Theorem C247_end_refuted : ~ (forall A B axes make c, fresh c -> d_length c <= dist3 B A ->
  exists nd, node_at (dc_Initialize A B axes make c) (d_elements c) = Some nd /\ fn_pos nd = B).
Proof.
  intros H. set (A := V 0 0 0). set (B := V 12 0 0). assert (D : dist3 B A = 12).
  { unfold dist3, dot3, minus3, A, B. cbn. replace ((12 - 0) * (12 - 0) + (0 - 0) * (0 - 0) + (0 - 0) * (0 - 0)) with (12 * 12) by ring. apply sqrt_square. lra. }
  set (c := new_dcable 10 1000 4). assert (F : fresh c) by (unfold fresh, c; cbn; repeat split; try lra; try lia; try reflexivity).
  set (x := (V 1 0 0, V 0 1 0, V 0 0 1)). destruct (H A B x demo_line c F) as (nd & N & P); [rewrite D; cbn; lra|].
  destruct (C247_gap A B x demo_line c F) as (nd' & N' & G); [rewrite D; cbn; lra|]. rewrite N in N'. injection N' as <-. rewrite P in G. rewrite D in G. cbn [d_length c new_dcable] in G.
  replace (dist3 B B) with 0 in G; [lra|]. unfold dist3, dot3, minus3, B. cbn. replace ((12 - 12) * (12 - 12) + (0 - 0) * (0 - 0) + (0 - 0) * (0 - 0)) with 0 by ring. symmetry. apply sqrt_0.
Qed.
Example C247_inhabited : fresh (new_dcable 10 1000 4) /\ d_length (new_dcable 10 1000 4) <= dist3 (V 12 0 0) (V 0 0 0).
Proof.
  split; [unfold fresh; cbn; repeat split; try lra; try lia; try reflexivity|]. unfold dist3, dot3, minus3. cbn.
  replace ((12 - 0) * (12 - 0) + (0 - 0) * (0 - 0) + (0 - 0) * (0 - 0)) with (12 * 12) by ring. rewrite sqrt_square; lra.
Qed.

(** C248: the tension and the position read at the abscissa s of the cable are those of the element that holds s, at its place in the element; the tension acts along
    the chord of the element; nothing is read outside of the mesh *)
Theorem C248_reading : forall A B axes make c pos section axial s fc, fresh c -> 0 <= s <= d_length c ->
  let c' := dc_Initialize A B axes make c in let n := d_elements c in
  exists i eta, (i < n)%nat /\ -1 <= eta <= 1 /\ s = (INR i + (eta + 1) / 2) * (d_length c / INR n) /\
    dc_GetNodePositionInWorld c' section s fc = Ok (convert fc (section (i, S i) eta)) /\
    (pos (S i) <> pos i -> exists u, along u (minus3 (pos (S i)) (pos i)) /\ dc_GetTension c' pos axial s fc = Ok (convert fc (scal3 (axial (i, S i) eta) u))).
Proof.
  intros A B axes make c pos section axial s fc F Hs c' n. destruct (init_keep A B axes make c F) as (KL & KN & _). pose proof (init_chain A B axes make c F) as C. fold c' in KL, KN, C.
  destruct F as (_ & _ & L & P). assert (L' : 0 < d_length c') by (rewrite KL; exact L). assert (P' : (1 <= d_elements c')%nat) by (rewrite KN; exact P).
  assert (X : exists i eta, (i < n)%nat /\ -1 <= eta <= 1 /\ s = (INR i + (eta + 1) / 2) * (d_length c / INR n) /\ element c' s = Ok ((i, S i), eta)).
  { destruct (Req_dec s (d_length c)) as [->|N].
    - exists (n - 1)%nat, 1. assert (J : 0 < INR n) by (apply lt_0_INR; subst n; lia). split; [subst n; lia|]. split; [lra|]. split; [rewrite minus_INR by (subst n; lia); cbn [INR]; field; lra|].
      rewrite <- KL. rewrite (element_end c' P' C). rewrite KN. fold n. replace (S (n - 1)) with n by (subst n; lia). reflexivity.
    - destruct (element_inside c' L' P' C s) as (i & eta & I & T & E & R); [rewrite KL; lra|]. rewrite KN, KL in *. exists i, eta. repeat split; try assumption; lra. }
  destruct X as (i & eta & I & T & E & R). exists i, eta. split; [exact I|]. split; [exact T|]. split; [exact E|]. split.
  - unfold dc_GetNodePositionInWorld. rewrite R. cbn [rbind]. rewrite swap_convert. reflexivity.
  - intros D. exists (cnormalize (vsub (pos (S i)) (pos i))). split.
    + apply (cn_along (vsub (pos (S i)) (pos i))). intros Z. apply D. destruct (pos (S i)) as [a b d], (pos i) as [a' b' d']. unfold vsub, vzero in Z. cbn in Z. injection Z as Z1 Z2 Z3. f_equal; lra.
    + unfold dc_GetTension. rewrite KL. destruct (Rlt_dec (d_length c) s); [lra|]. rewrite R. cbn [rbind fst snd]. rewrite swap_convert. reflexivity.
Qed.
(** At the abscissa of a node the position read is that of the node *)
Theorem C248_nodes : forall A B axes make c pos section fc, fresh c ->
  let c' := dc_Initialize A B axes make c in let n := d_elements c in
  (forall i, (i < n)%nat -> section (i, S i) (-1) = pos i /\ section (i, S i) 1 = pos (S i)) ->
  forall k, (k <= n)%nat -> dc_GetNodePositionInWorld c' section (INR k / INR n * d_length c) fc = Ok (convert fc (pos k)).
Proof.
  intros A B axes make c pos section fc F c' n S k K. destruct (init_keep A B axes make c F) as (KL & KN & _). pose proof (init_chain A B axes make c F) as C. fold c' in KL, KN, C.
  destruct F as (_ & _ & L & P). assert (L' : 0 < d_length c') by (rewrite KL; exact L). assert (P' : (1 <= d_elements c')%nat) by (rewrite KN; exact P). assert (J : 0 < INR n) by (apply lt_0_INR; subst n; lia).
  unfold dc_GetNodePositionInWorld. destruct (Nat.eq_dec k n) as [->|N].
  - replace (INR n / INR n * d_length c) with (d_length c') by (rewrite KL; field; lra). rewrite (element_end c' P' C). cbn [rbind]. rewrite KN. fold n.
    destruct (S (n - 1)%nat) as [_ E]; [subst n; lia|]. replace (Datatypes.S (n - 1)) with n in E by (subst n; lia). rewrite E, swap_convert. reflexivity.
  - pose proof (element_node c' L' P' C k) as E. unfold abscissa in E. rewrite KL, KN in E. fold n in E. rewrite E by lia. cbn [rbind]. destruct (S k) as [G _]; [lia|]. rewrite G, swap_convert. reflexivity.
Qed.
Example C248_inhabited : fresh (new_dcable 10 1000 4) /\ 0 <= 3 <= d_length (new_dcable 10 1000 4) /\
  (fun (e : nat * nat) (eta : R) => V (INR (fst e) + (eta + 1) / 2) 0 0) (1%nat, 2%nat) (-1) = (fun i : nat => V (INR i) 0 0) 1%nat.
Proof. split; [unfold fresh; cbn; repeat split; try lra; try lia; try reflexivity|]. cbn. split; [lra|]. f_equal. lra. Qed.

(** C249: beyond its end the cable has the tension of its end, but the position there is read outside of the mesh (with the assertions on, both calls stop) *)
Theorem C249_tension_beyond : forall A B axes make c pos axial s fc, fresh c -> d_length c <= s ->
  let c' := dc_Initialize A B axes make c in dc_GetTension c' pos axial s fc = dc_GetTension c' pos axial (d_length c) fc.
Proof.
  intros A B axes make c pos axial s fc F H c'. destruct (init_keep A B axes make c F) as (KL & _). fold c' in KL. unfold dc_GetTension. rewrite KL.
  destruct (Rlt_dec (d_length c) s); destruct (Rlt_dec (d_length c) (d_length c)); try lra; try reflexivity. replace s with (d_length c) by lra. reflexivity.
Qed.
Theorem C249_position_outside : forall A B axes make c section s fc, fresh c -> s < 0 \/ d_length c < s -> dc_GetNodePositionInWorld (dc_Initialize A B axes make c) section s fc = Undef.
Proof.
  intros A B axes make c section s fc F H. destruct (init_keep A B axes make c F) as (KL & KN & _). pose proof (init_chain A B axes make c F) as C. set (c' := dc_Initialize A B axes make c) in *.
  destruct F as (_ & _ & L & P). assert (L' : 0 < d_length c') by (rewrite KL; exact L). assert (P' : (1 <= d_elements c')%nat) by (rewrite KN; exact P).
  unfold dc_GetNodePositionInWorld. destruct H as [H|H]; [rewrite (element_before c' L' P' s H)|rewrite (element_beyond c' L' P' C s) by (rewrite KL; exact H)]; reflexivity.
Qed.
Theorem C249_position_beyond_refuted : ~ (forall A B axes make c section s fc, fresh c -> d_length c <= s ->
  let c' := dc_Initialize A B axes make c in dc_GetNodePositionInWorld c' section s fc = dc_GetNodePositionInWorld c' section (d_length c) fc).
Proof.
  intros H. set (c := new_dcable 10 1000 4). assert (F : fresh c) by (unfold fresh, c; cbn; repeat split; try lra; try lia; try reflexivity).
  specialize (H (V 0 0 0) (V 8 0 0) (V 1 0 0, V 0 1 0, V 0 0 1) demo_line c (fun _ _ => V 0 0 0) 11 NWU F ltac:(cbn; lra)). cbv zeta in H. rewrite C249_position_outside in H by (assumption || (right; cbn; lra)).
  pose proof (C248_nodes (V 0 0 0) (V 8 0 0) (V 1 0 0, V 0 1 0, V 0 0 1) demo_line c (fun _ => V 0 0 0) (fun _ _ => V 0 0 0) NWU F) as N. cbv zeta in N. specialize (N ltac:(intros; split; reflexivity) 4%nat ltac:(cbn; lia)).
  replace (INR 4 / INR (d_elements c) * d_length c) with (d_length c) in N by (cbn; field). rewrite N in H. discriminate H.
Qed.

(** C250: a target length for the elements, not longer than the cable, gives the largest number of elements that are at least that long ... *)
Theorem C250_elements : forall c len, 0 < len <= d_length c -> exists n, (1 <= n)%nat /\
  SetTargetElementLength c len = Ok (SetNumberOfElements c n) /\ d_elements (SetNumberOfElements c n) = n /\ d_length c / INR (S n) < len <= d_length c / INR n.
Proof.
  intros c len H. assert (Q : 1 <= d_length c / len). { apply (Rmult_le_reg_r len); [lra|]. unfold Rdiv. rewrite Rmult_assoc, Rinv_l by lra. lra. }
  unfold SetTargetElementLength. destruct (Req_EM_T len 0); [lra|]. destruct (Int_spec (d_length c / len)) as [B1 B2]. set (z := Int_part (d_length c / len)) in *.
  assert (Z1 : (1 <= z)%Z). { assert (0 < IZR z) by lra. apply lt_IZR in H0. lia. } destruct (Z.ltb_spec z 0); [lia|]. exists (Z.to_nat z). split; [lia|]. split; [reflexivity|]. split; [reflexivity|].
  assert (K : INR (Z.to_nat z) = IZR z) by (rewrite INR_IZR_INZ, Z2Nat.id by lia; reflexivity). rewrite S_INR, K. assert (E : d_length c = d_length c / len * len) by (field; lra). apply IZR_le in Z1. set (q := d_length c / len) in *. rewrite E. split.
  - apply (Rmult_lt_reg_r (IZR z + 1)); [lra|]. unfold Rdiv. rewrite Rmult_assoc, Rinv_l by lra. nra.
  - apply (Rmult_le_reg_r (IZR z)); [lra|]. unfold Rdiv. rewrite (Rmult_assoc (q * len)), Rinv_l by lra. nra.
Qed.
Example C250_inhabited : 0 < 3 <= d_length (new_dcable 10 1000 4).
Proof. cbn. split; lra. Qed.
(** ... so the elements are longer than the target unless it divides the length, and a target longer than the cable leaves a cable without element *)
Theorem C250_target_refuted : ~ (forall c len c', 0 < len -> SetTargetElementLength c len = Ok c' -> d_length c' / INR (d_elements c') <= len).
Proof.
  intros H. destruct (C250_elements (new_dcable 10 1000 4) 3) as (n & N & E & _ & B); [cbn; split; lra|]. specialize (H (new_dcable 10 1000 4) 3 _ ltac:(lra) E). cbn [d_length SetNumberOfElements d_elements] in H. cbn [d_length new_dcable] in B, H.
  apply le_INR in N. cbn [INR] in N. assert (X : 10 / INR n = 3) by lra. assert (Y : 10 = 3 * INR n) by (rewrite <- X; field; lra). rewrite INR_IZR_INZ, <- mult_IZR in Y. apply eq_IZR in Y. lia.
Qed.
Theorem C250_empty_refuted : ~ (forall c len c', 0 < d_length c -> 0 < len -> SetTargetElementLength c len = Ok c' -> (1 <= d_elements c')%nat).
Proof.
  intros H. assert (E : SetTargetElementLength (new_dcable 1 1000 4) 2 = Ok (SetNumberOfElements (new_dcable 1 1000 4) 0)).
  { unfold SetTargetElementLength. destruct (Req_EM_T 2 0); [lra|]. cbn [d_length new_dcable]. rewrite (Int_nat (1 / 2) 0) by (cbn [INR]; lra). reflexivity. }
  specialize (H (new_dcable 1 1000 4) 2 _ ltac:(cbn; lra) ltac:(lra) E). cbn in H. lia.
Qed.

(** C251: the end of a cable is held in position by its hinge unless the type is NONE, and in rotation only by CONSTRAINED; a cable comes with spherical hinges *)
Theorem C251_hinges : forall A B axes make c a b, fresh c ->
  let c' := dc_Initialize A B axes make (SetHinges c a b) in
  holds_position (d_start_locks c') (match a with NONE => false | _ => true end) /\ holds_rotation (d_start_locks c') (match a with CONSTRAINED => true | _ => false end) /\
  holds_position (d_end_locks c') (match b with NONE => false | _ => true end) /\ holds_rotation (d_end_locks c') (match b with CONSTRAINED => true | _ => false end).
Proof.
  intros A B axes make c a b F c'. destruct (init_keep A B axes make (SetHinges c a b)) as (_ & _ & _ & _ & S & E); [exact F|]. subst c'. rewrite S, E. cbn [d_start_hinge d_end_hinge SetHinges].
  unfold holds_position, holds_rotation. split; [|split; [|split]]; [destruct a|destruct a|destruct b|destruct b]; first [exists [true; true; true]; split; reflexivity|exists [false; false; false]; split; reflexivity].
Qed.
Theorem C251_default : forall A B axes make len EA n, 0 < len -> (1 <= n)%nat -> let c' := dc_Initialize A B axes make (new_dcable len EA n) in
  holds_position (d_start_locks c') true /\ holds_rotation (d_start_locks c') false /\ holds_position (d_end_locks c') true /\ holds_rotation (d_end_locks c') false.
Proof. intros A B axes make len EA n L P. apply (C251_hinges A B axes make (new_dcable len EA n) SPHERICAL SPHERICAL). unfold fresh. cbn. repeat split; try reflexivity; assumption. Qed.
Example C251_inhabited : fresh (new_dcable 10 1000 4).
Proof. unfold fresh; cbn; repeat split; try lra; try lia; try reflexivity. Qed.

(** C252: a breaking tension given by the user is kept; without it the initialisation takes 1.2 times the largest tension: that of the line of a slack cable, EA times
    the strain of a taut one; a second initialisation changes nothing *)
Theorem C252_breaking : forall A B axes make c t, fresh c -> let c' t := dc_Initialize A B axes make (SetBreakingTension c t) in
  (t <> 0 -> d_max (c' t) = t) /\
  (dist3 B A < d_length c -> d_max (c' 0) = 1.2 * ct_max (make (d_length c))) /\
  (d_length c <= dist3 B A -> d_max (c' 0) = 1.2 * (d_EA c * ((dist3 B A - d_length c) / d_length c))) /\
  dc_Initialize A B axes make (c' t) = c' t.
Proof.
  intros A B axes make c t (E & _ & L & P) c'. subst c'. cbv beta. unfold dc_Initialize at 1 2 3 5. cbn [d_nodes SetBreakingTension]. rewrite E. cbn [d_max SetBreakingTension d_length d_EA]. rewrite dist_norm. split; [|split; [|split]].
  - intros N. destruct (Req_EM_T t 0); [contradiction|reflexivity].
  - intros D. destruct (Req_EM_T 0 0); [|contradiction]. destruct (Rle_dec (d_length c) (dist3 B A)); [lra|reflexivity].
  - intros D. destruct (Req_EM_T 0 0); [|contradiction]. destruct (Rle_dec (d_length c) (dist3 B A)); [|lra]. field. lra.
  - unfold dc_Initialize. cbn [d_nodes SetBreakingTension]. rewrite E. cbn [d_nodes]. reflexivity.
Qed.
(** A cable exactly as long as the distance of its ends gets a null breaking tension, which is the scale of its colours *)
Theorem C252_scale_refuted : ~ (forall A B axes make len EA n, 0 < len -> 0 < EA -> (1 <= n)%nat -> 0 < ct_max (make len) -> 0 < d_max (dc_Initialize A B axes make (new_dcable len EA n))).
Proof.
  intros H. assert (D : dist3 (V 10 0 0) (V 0 0 0) = 10). { unfold dist3, dot3, minus3. cbn. replace ((10 - 0) * (10 - 0) + (0 - 0) * (0 - 0) + (0 - 0) * (0 - 0)) with (10 * 10) by ring. apply sqrt_square. lra. }
  specialize (H (V 0 0 0) (V 10 0 0) (V 1 0 0, V 0 1 0, V 0 0 1) demo_line 10 1000 4%nat ltac:(lra) ltac:(lra) ltac:(lia) ltac:(cbn; lra)).
  destruct (C252_breaking (V 0 0 0) (V 10 0 0) (V 1 0 0, V 0 1 0, V 0 0 1) demo_line (new_dcable 10 1000 4) 0) as (_ & _ & X & _); [exact C251_inhabited|]. cbv beta in X. rewrite D in X. cbn [d_length new_dcable d_EA] in X.
  change (SetBreakingTension (new_dcable 10 1000 4) 0) with (new_dcable 10 1000 4) in X. rewrite X in H by lra. lra.
Qed.
Example C252_inhabited : fresh (new_dcable 10 1000 4).
Proof. exact C251_inhabited. Qed.

(** C253: the radius given for drawing the elements is read back, but the size given for the nodes is not *)
Theorem C253_radius : forall c r, GetDrawElementRadius (SetDrawElementRadius c r) = r /\ (forall s, GetDrawElementRadius (SetDrawNodeSize c s) = GetDrawElementRadius c).
Proof. intros c r. split; [reflexivity|]. intros s. reflexivity. Qed.
Theorem C253_node_size_refuted : ~ (forall c s, 0 < s -> GetDrawNodeSize (SetDrawNodeSize c s) = s).
Proof. intros H. specialize (H (new_dcable 10 1000 4) 1 ltac:(lra)). cbn in H. lra. Qed.

(** C254: the static residual is null exactly when all the nodes are at rest, and Relax puts them at rest *)
Theorem C254_residual : forall speeds, 0 <= dc_GetStaticResidual speeds /\ (dc_GetStaticResidual speeds = 0 <-> Forall (fun v => v = origin) speeds).
Proof. intros speeds. split; [apply residual_pos|apply residual_zero]. Qed.
Theorem C254_relax : forall speeds, dc_GetStaticResidual (dc_Relax speeds) = 0 /\ List.length (dc_Relax speeds) = List.length speeds.
Proof. intros speeds. split; [apply residual_zero; apply Forall_forall; intros v H; apply in_map_iff in H; destruct H as (w & <- & _); reflexivity|apply map_length]. Qed.
Example C254_inhabited : dc_GetStaticResidual [V 3 4 0; V 0 0 0] <> 0.
Proof. intros H. apply residual_zero in H. inversion H as [|? ? E _]; subst. apply (f_equal GeoModel.vx) in E. cbn in E. lra. Qed.

(** C256: an unrolling speed does not unroll a dynamic cable: its length and mesh never change *)
Theorem C256_unrolling_refuted : ~ (forall c v times, v <> 0 -> 0 < fold_left (fun t dt => t + dt) times 0 -> (forall dt, In dt times -> 0 < dt) ->
  d_length (snd (fold_left (fun '(t, c) dt => (t + dt, dc_Update c (t + dt))) times (0, SetUnrollingSpeed c v))) = d_length c + v * fold_left (fun t dt => t + dt) times 0).
Proof. intros H. specialize (H (new_dcable 10 1000 4) 1 [1] ltac:(lra) ltac:(cbn; lra) ltac:(intros dt [<-|[]]; lra)). cbn in H. lra. Qed.
