(** Proofs for C57: the loops of the equilibrium solver. *)
From Coq Require Import Reals List Lra Lia Arith Bool.
From Verif Require Import GeoModel GeoSpec GeoProofs GeoProofs2 GeoProofs3 GeoProofs4 BodyModel BodySpec BodyProofs BodyProofs2 BodyProofs3 MeshModel MeshSpec MeshProofs MeshProofs2 MeshProofs3 MeshProofs4 MeshProofs5 MeshProofs6 MeshProofs7 MeshProofs8 MeshProofs10 MeshProofs11 HydModel HydSpec HydProofs HydProofs3.
Import ListNotations.
Open Scope R_scope.

(** ** What ComputeProperties reads from the mesh *)
Lemma compute_reads u h h' : coherent u (h_mesh h) -> ComputeProperties u h = Some h' ->
  option_map fst (GetVolume u (h_mesh h)) = Some (h_volume h') /\ option_map fst (MeshModel.GetCOG u (h_mesh h)) = Some (h_buoyancy h') /\
  h_breadth h' = ymax (GetBoundingBox (h_mesh h)) - ymin (GetBoundingBox (h_mesh h)) /\ h_length h' = xmax (GetBoundingBox (h_mesh h)) - xmin (GetBoundingBox (h_mesh h)) /\
  h_gmt h' = h_rt h' + (vz (h_buoyancy h') - vz (h_cog h)) /\ h_gml h' = h_rl h' + (vz (h_buoyancy h') - vz (h_cog h)).
Proof.
  intros C. unfold ComputeProperties, CalcGeometricProperties. rewrite get_polys by exact C.
  destruct (CalcBoundaryPolygonSet u (h_mesh h)) as [[|p0 ps]|] eqn:E; try discriminate.
  unfold CalcHydrostaticProperties. cbn [h_mesh h_rho h_g h_volume h_wparea h_red h_cog h_rt h_rl h_draught h_length h_breadth h_lwl h_K].
  set (m1 := filled (h_mesh h) (p0 :: ps)). assert (C1 : coherent u m1) by (apply filled_coherent; [apply C|exact E]). assert (E1 : CalcBoundaryPolygonSet u m1 = Some (p0 :: ps)) by exact E.
  rewrite (volume_value u m1 C1), E1. cbv zeta.
  assert (V1 : option_map fst (GetVolume u (h_mesh h)) = Some (GetMeshedSurfaceIntegralN m1 2 POLY_Z + sum (map polygon_volume (p0 :: ps)))) by (rewrite (volume_value u _ C), E; reflexivity).
  set (v := GetMeshedSurfaceIntegralN m1 2 POLY_Z + sum (map polygon_volume (p0 :: ps))) in *.
  assert (F1 : filled m1 (p0 :: ps) = m1) by reflexivity. rewrite F1.
  assert (G1 : option_map fst (MeshModel.GetCOG u (h_mesh h)) = option_map fst (MeshModel.GetCOG u m1)) by (rewrite !cog_value by assumption; rewrite E1, E; reflexivity).
  destruct (MeshModel.GetCOG u m1) as [[B m2]|] eqn:EC; [|discriminate]. destruct (GetArea u m2) as [[ar m3]|]; [|discriminate]. destruct (GetBoundaryPolygonSet u m3) as [[qs m4]|]; [|discriminate].
  intros H. injection H as <-. cbn [h_volume h_buoyancy h_breadth h_length h_gmt h_gml h_rt h_rl]. rewrite V1, G1. cbn [option_map fst]. auto 10.
Qed.

(** ** Bodies *)
Definition canonical (b : body) : Prop := exists F v d c Ns, b = canon F v d c Ns.
Lemma reach_canonical b : reachable b -> canonical b.
Proof. intros R. destruct (reach_can b R) as (F & v & d & c & Ns & E & _). exists F, v, d, c, Ns. exact E. Qed.
Lemma canonical_translate b t : canonical b -> canonical (BTranslateInWorld b t NWU) /\ GetFrame (BTranslateInWorld b t NWU) = Fr (plus3 (fpos (GetFrame b)) t) (frot (GetFrame b)).
Proof.
  intros (F & v & d & c & Ns & ->). rewrite transw_can, !frame_can. cbn [convert]. split; [eexists _, _, _, _, _; reflexivity|reflexivity].
Qed.
Lemma canonical_rotate b q : canonical b -> canonical (BRotate b q) /\ GetFrame (BRotate b q) = Fr (fpos (GetFrame b)) (qmul (frot (GetFrame b)) q).
Proof.
  intros (F & v & d & c & Ns & ->). unfold BRotate. rewrite setrot_can, !frame_can, quat_can. split; [eexists _, _, _, _, _; reflexivity|reflexivity].
Qed.
Lemma clamp_bound r x : 0 <= r -> Rabs (clamp r x) <= r.
Proof.
  intros H. unfold clamp, copysign. destruct (Rlt_dec r (Rabs x)); [|lra]. destruct (Rlt_dec x 0); rewrite ?Rabs_Ropp, Rabs_Rabsolu, Rabs_pos_eq; lra.
Qed.
Lemma copysign_bound r x : 0 <= r -> Rabs (copysign r x) <= r.
Proof. intros H. unfold copysign. destruct (Rlt_dec x 0); rewrite ?Rabs_Ropp, Rabs_Rabsolu, Rabs_pos_eq; lra. Qed.

(** ** The loops *)
Definition settings (e e' : equil) : Prop := e_mass e' = e_mass e /\ e_cog e' = e_cog e /\ e_relax e' = e_relax e /\ e_max e' = e_max e /\ e_tol e' = e_tol e.
Lemma settings_trans a b c : settings a b -> settings b c -> settings a c.
Proof. unfold settings. intuition congruence. Qed.
Section Loops.
Variables (rho g : R) (u : list vec -> junk) (clip : frame -> mesh) (lu : mat -> vec -> vec).
(** One turn of each loop: what the state looks like at the tests *)
Lemma disp_unfold fuel sol e : disp_loop (S fuel) rho g u clip sol e =
  let e1 := with_body e (BTranslateInWorld (e_body e) (V 0 0 sol) NWU) in
  match GetVolume u (clip (GetFrame (e_body e1))) with
  | None => Stuck
  | Some (volume, m1) =>
    if Rle_dec volume (1 / 10 ^ 6) then Ret false e1
    else if Nat.ltb (e_max e) (e_iter e) then Ret false e1
    else if Rlt_dec (Rabs ((rho * g * volume - e_mass e * g) / (e_mass e * g))) (e_tol e) then Ret true e1
    else match GetBoundaryPolygonSet u m1 with
      | None => Stuck
      | Some (ps, _) =>
        let K33 := fold_left (fun a p => a + rho * g * j1 (pg_ints p)) ps 0 in
        let residual := rho * g * volume - e_mass e * g in
        disp_loop fuel rho g u clip (if Req_EM_T K33 0 then copysign (vx (e_relax e)) residual else clamp (vx (e_relax e)) (residual / K33)) (next_iter e1)
      end
  end.
Proof. reflexivity. Qed.
Lemma disp_settings fuel : forall sol e b e', disp_loop fuel rho g u clip sol e = Ret b e' -> settings e e' /\ (e_iter e <= e_iter e')%nat.
Proof.
  induction fuel as [|fuel IH]; [discriminate|]. intros sol e b e'. rewrite disp_unfold. cbv zeta. destruct (GetVolume _ _) as [[v m1]|]; [|discriminate].
  destruct (Rle_dec v _). { intros H; injection H as <- <-. repeat split; auto. }
  destruct (Nat.ltb _ _). { intros H; injection H as <- <-. repeat split; auto. }
  destruct (Rlt_dec _ _). { intros H; injection H as <- <-. repeat split; auto. }
  destruct (GetBoundaryPolygonSet u m1) as [[ps m2]|]; [|discriminate]. intros H. apply IH in H. destruct H as [A B]. split; [exact A|]. cbn in B. lia.
Qed.
Lemma disp_true fuel : forall sol e e', disp_loop fuel rho g u clip sol e = Ret true e' ->
  exists v m1, GetVolume u (clip (GetFrame (e_body e'))) = Some (v, m1) /\ 1 / 10 ^ 6 < v /\ Rabs ((rho * g * v - e_mass e * g) / (e_mass e * g)) < e_tol e.
Proof.
  induction fuel as [|fuel IH]; [discriminate|]. intros sol e e'. rewrite disp_unfold. cbv zeta. destruct (GetVolume _ _) as [[v m1]|] eqn:EV; [|discriminate].
  destruct (Rle_dec v _) as [|L]; [discriminate|]. destruct (Nat.ltb _ _); [discriminate|].
  destruct (Rlt_dec _ _) as [T|]. { intros H; injection H as <-. exists v, m1. split; [exact EV|]. split; [lra|exact T]. }
  destruct (GetBoundaryPolygonSet u m1) as [[ps m2]|]; [|discriminate]. intros H. apply IH in H. exact H.
Qed.
Lemma disp_fuel fuel : forall sol e, (e_max e + 2 <= fuel + e_iter e)%nat -> (0 < fuel)%nat -> disp_loop fuel rho g u clip sol e <> OutOfFuel.
Proof.
  induction fuel as [|fuel IH]; [lia|]. intros sol e H _. rewrite disp_unfold. cbv zeta. destruct (GetVolume _ _) as [[v m1]|]; [|discriminate].
  destruct (Rle_dec v _); [discriminate|]. destruct (Nat.ltb_spec (e_max e) (e_iter e)); [discriminate|]. destruct (Rlt_dec _ _); [discriminate|].
  destruct (GetBoundaryPolygonSet u m1) as [[ps m2]|]; [|discriminate]. apply IH; cbn; lia.
Qed.
(** Position: only the height changes, by at most the relaxation per iteration after the first move *)
Lemma disp_moves fuel : forall sol e b e', 0 <= vx (e_relax e) -> canonical (e_body e) -> disp_loop fuel rho g u clip sol e = Ret b e' ->
  canonical (e_body e') /\ exists dz, GetFrame (e_body e') = Fr (plus3 (fpos (GetFrame (e_body e))) (V 0 0 dz)) (frot (GetFrame (e_body e))) /\
    Rabs (dz - sol) <= INR (e_iter e' - e_iter e) * vx (e_relax e).
Proof.
  induction fuel as [|fuel IH]; [discriminate|]. intros sol e b e' R0 C. rewrite disp_unfold. cbv zeta.
  destruct (canonical_translate (e_body e) (V 0 0 sol) C) as [C1 F1].
  assert (Done : forall b', Ret b' (with_body e (BTranslateInWorld (e_body e) (V 0 0 sol) NWU)) = Ret b e' -> canonical (e_body e') /\ exists dz, GetFrame (e_body e') = Fr (plus3 (fpos (GetFrame (e_body e))) (V 0 0 dz)) (frot (GetFrame (e_body e))) /\
    Rabs (dz - sol) <= INR (e_iter e' - e_iter e) * vx (e_relax e)).
  { intros b' H. injection H as _ <-. cbn [with_body e_body e_iter]. split; [exact C1|]. exists sol. split; [exact F1|]. rewrite Nat.sub_diag. cbn [INR]. replace (sol - sol) with 0 by ring. rewrite Rabs_R0. lra. }
  destruct (GetVolume _ _) as [[v m1]|]; [|discriminate].
  destruct (Rle_dec v _). { apply Done. }
  destruct (Nat.ltb _ _). { apply Done. }
  destruct (Rlt_dec (Rabs _) _). { apply Done. }
  destruct (GetBoundaryPolygonSet u m1) as [[ps m2]|]; [|discriminate]. set (K33 := fold_left _ ps 0). set (sol2 := if Req_EM_T K33 0 then _ else _). intros H.
  assert (B2 : Rabs sol2 <= vx (e_relax e)) by (unfold sol2; destruct (Req_EM_T K33 0); [apply copysign_bound|apply clamp_bound]; exact R0).
  pose proof (proj2 (disp_settings _ _ _ _ _ H)) as IT. cbn [next_iter with_body e_iter] in IT.
  apply IH in H; [|exact R0|exact C1]. destruct H as (C2 & dz & F2 & B). split; [exact C2|]. exists (sol + dz).
  cbn [next_iter with_body e_body e_relax e_iter] in *. rewrite F1 in F2. cbn [fpos frot] in F2. split.
  - rewrite F2. f_equal. generalize (fpos (GetFrame (e_body e))); intros []; apply vec_eq; cbn; ring.
  - replace (e_iter e' - e_iter e)%nat with (S (e_iter e' - S (e_iter e))) by lia. rewrite S_INR.
    replace (sol + dz - sol) with ((dz - sol2) + sol2) by ring. eapply Rle_trans; [apply Rabs_triang|]. lra.
Qed.

Definition eq_body (sol : vec) (e : equil) : equil :=
  with_body e (BRotate (BTranslateInWorld (e_body e) (V 0 0 (vx sol)) NWU) (Rot_SetCardan_RADIANS (vy sol) (vz sol) 0 NWU)).
Definition balance (e : equil) (hsp : hprops) (volume : R) : Prop :=
  let mg := e_mass e * g in let G := GetPointPositionInWorld (e_body e) (e_cog e) NWU in let B := h_buoyancy hsp in
  Rabs ((rho * g * volume - mg) / mg) < e_tol e /\ Rabs ((rho * g * volume * vy B - mg * vy G) / (mg * h_breadth hsp)) < e_tol e /\
  Rabs ((- (rho * g * volume) * vx B + mg * vx G) / (mg * h_length hsp)) < e_tol e.
Lemma equil_cases fuel sol e r : equil_loop (S fuel) rho g u clip lu sol e = r ->
  let e1 := eq_body sol e in
  match GetVolume u (clip (GetFrame (e_body e1))) with
  | None => r = Stuck
  | Some (volume, m1) =>
    if Rle_dec volume (1 / 10 ^ 6) then r = Ret false e1
    else match ComputeProperties u (HP_make (M 0 0 0 0 0 0 0 0 0) rho g m1 (GetPointPositionInWorld (e_body e1) (e_cog e) NWU) NWU) with
      | None => r = Stuck
      | Some hsp =>
        ((e_max e < e_iter e)%nat /\ r = Ret false e1) \/
        ((e_iter e <= e_max e)%nat /\ balance e1 hsp volume /\ r = Ret true e1) \/
        ((e_iter e <= e_max e)%nat /\ ~ balance e1 hsp volume /\ exists sol2, r = equil_loop fuel rho g u clip lu sol2 (next_iter e1) /\
           (0 <= vx (e_relax e) -> Rabs (vx sol2) <= vx (e_relax e)) /\ (0 <= vy (e_relax e) -> Rabs (vy sol2) <= vy (e_relax e)) /\ (0 <= vz (e_relax e) -> Rabs (vz sol2) <= vz (e_relax e)))
      end
  end.
Proof.
  intros <-. cbv zeta. unfold eq_body. cbn [equil_loop]. set (e1 := with_body e _). cbn [with_body e_body].
  change (BRotate _ _) with (e_body e1). destruct (GetVolume u _) as [[v m1]|]; [|reflexivity].
  destruct (Rle_dec v _); [reflexivity|]. change (e_cog e1) with (e_cog e). destruct (ComputeProperties u _) as [hsp|]; [|reflexivity].
  change (e_max e1) with (e_max e). change (e_iter e1) with (e_iter e). change (e_mass e1) with (e_mass e).
  destruct (Nat.ltb_spec (e_max e) (e_iter e)) as [L|L]; [left; split; [exact L|reflexivity]|right].
  assert (BD : forall a b c, let sol2 := V (clamp (vx (e_relax e)) a) (clamp (vy (e_relax e)) b) (clamp (vz (e_relax e)) c) in
    (0 <= vx (e_relax e) -> Rabs (vx sol2) <= vx (e_relax e)) /\ (0 <= vy (e_relax e) -> Rabs (vy sol2) <= vy (e_relax e)) /\ (0 <= vz (e_relax e) -> Rabs (vz sol2) <= vz (e_relax e))).
  { intros a b c. cbv zeta. cbn [vx vy vz]. repeat split; apply clamp_bound. }
  assert (EX : forall a b c, exists sol2, equil_loop fuel rho g u clip lu (V (clamp (vx (e_relax e)) a) (clamp (vy (e_relax e)) b) (clamp (vz (e_relax e)) c)) (next_iter e1) = equil_loop fuel rho g u clip lu sol2 (next_iter e1) /\
    (0 <= vx (e_relax e) -> Rabs (vx sol2) <= vx (e_relax e)) /\ (0 <= vy (e_relax e) -> Rabs (vy sol2) <= vy (e_relax e)) /\ (0 <= vz (e_relax e) -> Rabs (vz sol2) <= vz (e_relax e))).
  { intros a b c. eexists. split; [reflexivity|apply BD]. }
  cbn [vx vy vz].
  set (r1 := Rabs ((rho * g * v - e_mass e * g) / _)). set (r2 := Rabs ((rho * g * v * _ - _) / _)). set (r3 := Rabs ((_ + _) / _)).
  assert (Bal : balance e1 hsp v <-> (r1 < e_tol e /\ r2 < e_tol e /\ r3 < e_tol e)).
  { unfold balance, r1, r2, r3. change (e_mass e1) with (e_mass e). change (e_tol e1) with (e_tol e). change (e_cog e1) with (e_cog e).
    replace (- rho * g * v) with (- (rho * g * v)) by ring. tauto. }
  change (e_tol e1) with (e_tol e). change (e_relax e1) with (e_relax e).
  destruct (Rlt_dec r1 (e_tol e)) as [T1|T1]; [destruct (Rlt_dec r2 (e_tol e)) as [T2|T2]; [destruct (Rlt_dec r3 (e_tol e)) as [T3|T3]|]|].
  - left. split; [exact L|]. split; [apply Bal; auto|reflexivity].
  - right. split; [exact L|]. split; [intros K; apply Bal in K; tauto|apply EX].
  - right. split; [exact L|]. split; [intros K; apply Bal in K; tauto|apply EX].
  - right. split; [exact L|]. split; [intros K; apply Bal in K; tauto|apply EX].
Qed.
Lemma eq_settings sol e : settings e (eq_body sol e) /\ e_iter (eq_body sol e) = e_iter e. Proof. repeat split. Qed.
Lemma equil_true fuel : forall sol e e', equil_loop fuel rho g u clip lu sol e = Ret true e' -> settings e e' /\
  exists v m1 hsp, GetVolume u (clip (GetFrame (e_body e'))) = Some (v, m1) /\ 1 / 10 ^ 6 < v /\
    ComputeProperties u (HP_make (M 0 0 0 0 0 0 0 0 0) rho g m1 (GetPointPositionInWorld (e_body e') (e_cog e') NWU) NWU) = Some hsp /\ balance e' hsp v.
Proof.
  induction fuel as [|fuel IH]; [discriminate|]. intros sol e e' H. apply equil_cases in H. cbv zeta in H.
  destruct (GetVolume u _) as [[v m1]|] eqn:EV; [|discriminate]. destruct (Rle_dec v _); [discriminate|]. destruct (ComputeProperties u _) as [hsp|] eqn:EH; [|discriminate].
  destruct H as [(_ & H)|[(_ & B & H)|(_ & _ & sol2 & H & _)]]; [discriminate| |].
  - injection H as ->. split; [apply eq_settings|]. exists v, m1, hsp. split; [exact EV|]. split; [lra|]. split; [exact EH|exact B].
  - symmetry in H. apply IH in H. destruct H as [A B]. split; [|exact B]. eapply settings_trans; [|exact A]. repeat split.
Qed.
Lemma equil_fuel fuel : forall sol e, (e_max e + 2 <= fuel + e_iter e)%nat -> (0 < fuel)%nat -> equil_loop fuel rho g u clip lu sol e <> OutOfFuel.
Proof.
  induction fuel as [|fuel IH]; [lia|]. intros sol e L _ H. apply equil_cases in H. cbv zeta in H.
  destruct (GetVolume u _) as [[v m1]|]; [|discriminate]. destruct (Rle_dec v _); [discriminate|]. destruct (ComputeProperties u _) as [hsp|]; [|discriminate].
  destruct H as [(_ & H)|[(_ & B & H)|(L2 & _ & sol2 & H & _)]]; [discriminate|discriminate|].
  symmetry in H. revert H. apply IH; cbn; lia.
Qed.
(** The horizontal position of the body origin never changes *)
Lemma equil_position fuel : forall sol e b e', canonical (e_body e) -> 0 <= vx (e_relax e) -> equil_loop fuel rho g u clip lu sol e = Ret b e' ->
  canonical (e_body e') /\ (e_iter e <= e_iter e')%nat /\ exists dz, fpos (GetFrame (e_body e')) = plus3 (fpos (GetFrame (e_body e))) (V 0 0 dz) /\ Rabs (dz - vx sol) <= INR (e_iter e' - e_iter e) * vx (e_relax e).
Proof.
  induction fuel as [|fuel IH]; [discriminate|]. intros sol e b e' C R0 H. apply equil_cases in H. cbv zeta in H.
  destruct (canonical_translate (e_body e) (V 0 0 (vx sol)) C) as [C1 F1].
  destruct (canonical_rotate _ (Rot_SetCardan_RADIANS (vy sol) (vz sol) 0 NWU) C1) as [C2 F2]. rewrite F1 in F2. cbn [fpos frot] in F2.
  change (BRotate _ _) with (e_body (eq_body sol e)) in C2, F2. set (e1 := eq_body sol e) in *.
  assert (Done : forall b', Ret b e' = Ret b' e1 -> canonical (e_body e') /\ (e_iter e <= e_iter e')%nat /\ exists dz, fpos (GetFrame (e_body e')) = plus3 (fpos (GetFrame (e_body e))) (V 0 0 dz) /\ Rabs (dz - vx sol) <= INR (e_iter e' - e_iter e) * vx (e_relax e)).
  { intros b' K. injection K as _ ->. split; [exact C2|]. split; [cbn; lia|]. exists (vx sol). split; [rewrite F2; reflexivity|]. change (e_iter e1) with (e_iter e). rewrite Nat.sub_diag. cbn [INR]. replace (vx sol - vx sol) with 0 by ring. rewrite Rabs_R0. lra. }
  destruct (GetVolume u _) as [[v m1]|]; [|discriminate]. destruct (Rle_dec v _); [exact (Done _ H)|]. destruct (ComputeProperties u _) as [hsp|]; [|discriminate].
  destruct H as [(_ & H)|[(_ & B & H)|(L2 & _ & sol2 & H & Bd & _)]]; [exact (Done _ H)|exact (Done _ H)|].
  symmetry in H. apply IH in H; [|exact C2|exact R0]. destruct H as (C3 & IT & dz & F3 & B3). cbn [next_iter e_body e_iter] in *. change (e_iter e1) with (e_iter e) in *. change (e_relax e1) with (e_relax e) in *. change (e_relax (next_iter e1)) with (e_relax e) in *.
  split; [exact C3|]. split; [lia|]. exists (vx sol + dz). specialize (Bd R0). split.
  - rewrite F3, F2. cbn [fpos]. generalize (fpos (GetFrame (e_body e))); intros []; apply vec_eq; cbn; ring.
  - replace (e_iter e' - e_iter e)%nat with (S (e_iter e' - S (e_iter e))) by lia. rewrite S_INR. replace (vx sol + dz - vx sol) with ((dz - vx sol2) + vx sol2) by ring. eapply Rle_trans; [apply Rabs_triang|]. lra.
Qed.
End Loops.
Lemma volume_then u m v m1 : coherent u m -> GetVolume u m = Some (v, m1) -> coherent u m1 /\ verts m1 = verts m /\ faces m1 = faces m /\
  option_map fst (MeshModel.GetCOG u m1) = option_map fst (MeshModel.GetCOG u m) /\ option_map fst (GetVolume u m1) = Some v.
Proof.
  intros C H. rewrite (volume_value u m C) in H. destruct (CalcBoundaryPolygonSet u m) as [ps|] eqn:E; [|discriminate]. injection H as <- <-.
  assert (C1 : coherent u (filled m ps)) by (apply filled_coherent; [apply C|exact E]). split; [exact C1|]. split; [reflexivity|]. split; [reflexivity|].
  assert (E1 : CalcBoundaryPolygonSet u (filled m ps) = Some ps) by exact E. rewrite !cog_value, volume_value, E, E1 by assumption. split; reflexivity.
Qed.
Lemma same_bbox m m' : verts m' = verts m -> GetBoundingBox m' = GetBoundingBox m.
Proof. intros H. unfold GetBoundingBox. rewrite H. reflexivity. Qed.
Lemma scaled r k t : k <> 0 -> Rabs (r / k) < t -> Rabs r < t * Rabs k.
Proof.
  intros K H. assert (P : 0 < Rabs k) by (apply Rabs_pos_lt; exact K). replace r with (r / k * k) by (field; exact K). rewrite Rabs_mult. apply Rmult_lt_compat_r; assumption.
Qed.
Lemma cardan_zero : Rot_SetCardan_RADIANS 0 0 0 NWU = qone.
Proof.
  unfold Rot_SetCardan_RADIANS, IsNED, euler_to_quat. rewrite ?Rmult_0_l, ?Rmult_0_r. replace (0 / 2) with 0 by field. rewrite cos_0, sin_0. unfold qone. f_equal; ring.
Qed.
Lemma frame_still b : canonical b -> GetFrame (BRotate (BTranslateInWorld b (V 0 0 0) NWU) (Rot_SetCardan_RADIANS 0 0 0 NWU)) = GetFrame b.
Proof.
  intros C. destruct (canonical_translate b (V 0 0 0) C) as [C1 F1]. destruct (canonical_rotate _ (Rot_SetCardan_RADIANS 0 0 0 NWU) C1) as [_ F2]. rewrite F2, F1, cardan_zero. cbn [fpos frot].
  rewrite qmul_1r. destruct (GetFrame b) as [[x y z] q]. cbn. f_equal. apply vec_eq; cbn; ring.
Qed.
