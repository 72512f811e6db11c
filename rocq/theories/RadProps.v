(** Radiation: C75 (convolution force), C76 (forward speed), C77 (masks), C78 (default window), C79 (mapper),
    C80 (tables of kernels and added masses). *)
From Coq Require Import Reals List Bool ZArith Lra Lia Arith FunctionalExtensionality Permutation.
From Verif Require Import GeoModel GeoSpec GeoProofs BodyModel BodySpec BodyProofs4 BodyProps SigModel SigSpec SigProps EqfModel SeaModel FloModel FloSpec FloProofs FloProofs5
  RadModel RadSpec RadProofs RadProofs2 RadProofs3 RadProofs4 RadProofs5 RadProofs6 RadProofs7 RadProofs8.
Import ListNotations.
Open Scope R_scope.
Local Notation turn := BodySpec.turn.

(** ** C75: the convolution force *)
(** After any paced history of calls on bodies whose equilibrium frames do not advance, every body receives minus the
    sum over the bodies in motion and their degrees of freedom of the integral of kernel times past velocity, turned from the axes of
    its equilibrium frame to the world; [held] says which past velocities: those of the polyline through the history,
    at the ages of the memory *)
Theorem C75_convolution : forall h sysStep Te dt m0 calls,
  sized (h_order h) m0 Te dt -> paced sysStep (h_order h) dt calls ->
  (forall i, In i (h_order h) -> kernels_ready h (bm_K (h_bem h i)) (fun j => GetListDOF (h_bem h j)) Te) ->
  List.Forall (fun c => forall i, In i (h_order h) -> stationary c i) calls ->
  exists m a w, rc_run h sysStep calls m0 = Ok m /\ held (h_order h) calls Te dt a w /\
  forall i front c, calls = front ++ [c] -> In i (h_order h) -> let q := frot (ef_frame (fst (snd c i))) in unitq q ->
    let F := memory_force h (bm_K (h_bem h i)) (fun j => GetListDOF (h_bem h j)) a w in
    GetRadiationForce m i = Ok (scal3 (-1) (quat_action q (V (F 0%nat) (F 1%nat) (F 2%nat)))) /\
    GetRadiationTorque m i = Ok (scal3 (-1) (quat_action q (V (F 3%nat) (F 4%nat) (F 5%nat)))).
Proof.
  intros h st Te dt m0 calls SZ PC KR ST. destruct (still_run h st Te dt m0 calls SZ PC KR ST) as (m & E & P).
  exists m, (ages_of Te dt calls), (vals_of Te dt calls). split; [exact E|]. split; [exact (proj1 (held_all st (h_order h) m0 Te dt calls SZ PC))|].
  intros i front c Ec Hi q U F. destruct (P i Hi) as (c0 & c' & f & Ec' & Ef & Ff). rewrite Ec in Ec'. apply app_inj_tail in Ec'. destruct Ec' as [_ <-].
  exact (getters m i _ (fst (snd c i)) f Ef U Ff).
Qed.
(** Two calls on one body in heave satisfy the hypotheses *)
Example C75_case : let h := flat_hdb [0%nat] [2%nat] (fun _ _ => 0) (fun k => if Nat.eqb k 2 then 3 else 0) in
  let calls := [((0, 0), fun _ => (frame_at origin, node_at (V 0 0 2) origin)); ((0, 1 / 2), fun _ => (frame_at origin, node_at (V 0 0 4) origin))] in
  sized (h_order h) (sample_rad [0%nat]) (fun _ => 10) (fun _ => 1) /\ paced 1 (h_order h) (fun _ => 1) calls /\
  (forall i, In i (h_order h) -> kernels_ready h (bm_K (h_bem h i)) (fun j => GetListDOF (h_bem h j)) (fun _ => 10)) /\
  List.Forall (fun c => forall i, In i (h_order h) -> stationary c i) calls /\
  past calls 0 2 = [(0, 2); (1 / 2, 4)].
Proof.
  cbv zeta. pose proof eps_small as EP. assert (V0 : vdot origin origin <= FLT_EPSILON) by (unfold vdot, origin; cbn [vx vy vz]; lra).
  split; [apply sample_sized; repeat constructor; intros []|]. split.
  - split; [discriminate|]. split.
    + constructor; [left; cbn [fst snd]; lra|]. constructor; [right; cbn [fst snd]; rewrite Rabs_right; lra|constructor].
    + intros j _. unfold past. cbn [map steps_within fst]. split; [cbn [snd fst]; lra|exact I].
  - split; [intros i Hi; apply flat_ready; intros j d [<-|[]]; lia|]. split.
    + constructor; [|constructor; [|constructor]]; intros i _; unfold stationary; cbn [snd fst]; rewrite frame_speed; exact V0.
    + unfold past. cbn [map fst snd]. rewrite !node_gen. unfold gen, minus3, origin. cbn [vx vy vz]. repeat (f_equal; try lra).
Qed.
(** The forces of superposed motions superpose: for every coefficient, number of bodies and history (forward speed
    included, when the frames move alike) *)
Theorem C75_superposition : forall h sysStep c m0 Te dt l1 l2 l3 m1 m2, sized (h_order h) m0 Te dt -> dofs_ok h -> (forall i, rd_force m0 i = None) ->
  superposed_calls c l1 l2 l3 -> rc_run h sysStep l1 m0 = Ok m1 -> rc_run h sysStep l2 m0 = Ok m2 ->
  exists m3, rc_run h sysStep l3 m0 = Ok m3 /\ forall i f1 f2 t1 t2, In i (h_order h) ->
    GetRadiationForce m1 i = Ok f1 -> GetRadiationForce m2 i = Ok f2 -> GetRadiationTorque m1 i = Ok t1 -> GetRadiationTorque m2 i = Ok t2 ->
    GetRadiationForce m3 i = Ok (plus3 f1 (scal3 c f2)) /\ GetRadiationTorque m3 i = Ok (plus3 t1 (scal3 c t2)).
Proof.
  intros h st c m0 Te dt l1 l2 l3 m1 m2 SZ HD HF SP E1 E2. destruct (superposition h st c m0 Te dt l1 l2 l3 m1 m2 SZ HD HF SP E1 E2) as (m3 & E3 & L).
  exists m3. split; [exact E3|]. intros i f1 f2 t1 t2 Hi G1 G2 G3 G4. unfold GetRadiationForce, GetRadiationTorque, at_map in *.
  destruct (L i Hi) as [(N & _)|(g1 & g2 & g3 & Q1 & Q2 & Q3 & Q)]; [rewrite N in G1; discriminate|]. rewrite Q1 in G1, G3. rewrite Q2 in G2, G4. rewrite Q3. cbn [rbind] in *.
  inversion G1; inversion G2; inversion G3; inversion G4. unfold GForce, GTorque. rewrite !Q. split; reflexivity.
Qed.
(** Bodies that have always stayed at rest in their equilibrium frames receive no radiation force *)
Theorem C75_at_rest : forall h sysStep m0 Te dt calls m, sized (h_order h) m0 Te dt -> dofs_ok h -> (forall i, rd_force m0 i = None) ->
  List.Forall at_rest calls -> rc_run h sysStep calls m0 = Ok m ->
  forall i f t, In i (h_order h) -> GetRadiationForce m i = Ok f -> GetRadiationTorque m i = Ok t -> f = origin /\ t = origin.
Proof.
  intros h st m0 Te dt calls m SZ HD HF HR E i f t Hi G1 G2.
  destruct (C75_superposition h st 1 m0 Te dt calls calls calls m m SZ HD HF (superposed_rest 1 calls HR) E E) as (m3 & E3 & P).
  rewrite E in E3. inversion E3; subst m3. destruct (P i f f t t Hi G1 G1 G2 G2) as [A B]. rewrite G1 in A. rewrite G2 in B.
  assert (Z : forall v, Ok v = Ok (plus3 v (scal3 1 v)) -> v = origin).
  { intros [x y z] H. unfold plus3, scal3 in H. cbn [vx vy vz] in H. inversion H. apply vec_eq; cbn [vx vy vz origin]; lra. }
  split; apply Z; assumption.
Qed.
(** Asking again at the same time does not record twice *)
Theorem C75_same_time : forall h sysStep s env env' t m m', (forall j r, rd_rec m j = Some r -> forall k, (1 <= r_cap (r k))%nat) -> NoDup (h_order h) ->
  (forall i, In i (h_order h) -> env i = env' i) ->
  RC_Compute h s sysStep env t m = Ok m' -> exists m'', RC_Compute h s sysStep env' t m' = Ok m'' /\ (forall j, rd_rec m'' j = rd_rec m' j) /\
  forall i, In i (h_order h) -> rd_force m'' i = rd_force m' i.
Proof. exact same_time. Qed.
(** A call made at the time of the system (not at the start) changes nothing *)
Theorem C75_at_system_time : forall h sysTime sysStep env time m, Rabs (time - sysTime) < sysStep / 10 -> FLT_EPSILON < time ->
  RC_Compute h sysTime sysStep env time m = Ok m.
Proof.
  intros. unfold RC_Compute. destruct (Rlt_dec (Rabs (time - sysTime)) (/ 10 * sysStep)); [|lra]. destruct (Rlt_dec FLT_EPSILON time); [reflexivity|lra].
Qed.
(** The force is applied on the body at its centre of gravity *)
Theorem C75_applied : forall m i b s f t, reachable b -> GetRadiationForce m i = Ok f -> GetRadiationTorque m i = Ok t ->
  exists s', RF_Compute m i b s = Ok s' /\ reads_as b s' (W f t (GetCOGPositionInWorld b NWU)).
Proof.
  intros m i b s f t RB F T. unfold RF_Compute. rewrite F, T. cbn [rbind]. eexists. split; [reflexivity|].
  destruct (one_op b (FOBothWorldCOG f t NWU) s RB) as (w & _ & H). exact H.
Qed.

(** ** C76: forward speed *)
(** The force on a single body that advances: the convolution of the kernels K, plus the speed times the convolutions of
    the kernels Ku with pitch and yaw velocities and the infinite-frequency terms A(k,heave) q - A(k,sway) r *)
Theorem C76_one_body : forall h sysStep Te dt m0 calls i A, h_order h = [i] -> sized [i] m0 Te dt -> paced sysStep [i] dt calls ->
  kernels_ready h (bm_K (h_bem h i)) (fun j => GetListDOF (h_bem h j)) Te -> kernels_ready h (bm_Ku (h_bem h i)) (fun _ => [4%nat; 5%nat]) Te -> bm_Ainf (h_bem h i) i = Some A ->
  exists m a w, rc_run h sysStep calls m0 = Ok m /\ held [i] calls Te dt a w /\
  forall front c, calls = front ++ [c] -> let e := fst (snd c i) in let q := frot (ef_frame e) in unitq q ->
    let F := fun k => memory_force h (bm_K (h_bem h i)) (fun j => GetListDOF (h_bem h j)) a w k +
      forward_speed e * speed_terms (bm_Ku (h_bem h i)) A i (a i) (w i) (GetPerturbationAngularVelocityInFrame e (snd (snd c i)) NWU) k in
    GetRadiationForce m i = Ok (scal3 (-1) (quat_action q (V (F 0%nat) (F 1%nat) (F 2%nat)))) /\
    GetRadiationTorque m i = Ok (scal3 (-1) (quat_action q (V (F 3%nat) (F 4%nat) (F 5%nat)))).
Proof.
  intros h st Te dt m0 calls i A Ho SZ PC KR KU EA. destruct (one_run h st Te dt m0 calls i A Ho SZ PC KR KU EA) as (m & E & c0 & c' & f & Ec' & Ef & Ff).
  exists m, (ages_of Te dt calls), (vals_of Te dt calls). split; [exact E|]. split; [exact (proj1 (held_all st [i] m0 Te dt calls SZ PC))|].
  intros front c Ec e q U F. rewrite Ec in Ec'. apply app_inj_tail in Ec'. destruct Ec' as [_ <-]. fold e in Ff.
  replace F with (one_force h i A calls c (ages_of Te dt calls) (vals_of Te dt calls)); [exact (getters m i _ e f Ef U Ff)|].
  apply functional_extensionality. intros k. unfold F, one_force, speed_terms. cbv zeta. unfold memory_force at 2. rewrite Ho. cbn [map total].
  change (threshold_speed (fst (snd c i))) with (forward_speed e). fold e. ring.
Qed.
(** With several bodies the speed terms of all pairs of bodies are added to the force on each of them: what is true of
    the code *)
Theorem C139_fleet_partial : forall h sysStep Te dt m0 calls A, sized (h_order h) m0 Te dt -> paced sysStep (h_order h) dt calls ->
  (forall i, In i (h_order h) -> kernels_ready h (bm_K (h_bem h i)) (fun j => GetListDOF (h_bem h j)) Te) ->
  (forall i, In i (h_order h) -> kernels_ready h (bm_Ku (h_bem h i)) (fun _ => [4%nat; 5%nat]) Te /\ bm_Ainf (h_bem h i) i = Some (A i)) ->
  exists m a w, rc_run h sysStep calls m0 = Ok m /\ held (h_order h) calls Te dt a w /\
  forall i front c, calls = front ++ [c] -> In i (h_order h) -> let e := fst (snd c i) in let q := frot (ef_frame e) in unitq q ->
    let F := fun k => memory_force h (bm_K (h_bem h i)) (fun j => GetListDOF (h_bem h j)) a w k + forward_speed e *
      total (map (fun i' => total (map (fun j => speed_terms (bm_Ku (h_bem h i')) (A i') j (a j) (w j) (GetPerturbationAngularVelocityInFrame (fst (snd c j)) (snd (snd c j)) NWU) k) (h_order h))) (h_order h)) in
    GetRadiationForce m i = Ok (scal3 (-1) (quat_action q (V (F 0%nat) (F 1%nat) (F 2%nat)))) /\
    GetRadiationTorque m i = Ok (scal3 (-1) (quat_action q (V (F 3%nat) (F 4%nat) (F 5%nat)))).
Proof.
  intros h st Te dt m0 calls A SZ PC KR KU. destruct (fleet_run h st Te dt m0 calls A SZ PC KR KU) as (m & E & P).
  exists m, (ages_of Te dt calls), (vals_of Te dt calls). split; [exact E|]. split; [exact (proj1 (held_all st (h_order h) m0 Te dt calls SZ PC))|].
  intros i front c Ec Hi e q U F. destruct (P i Hi) as (c0 & c' & f & Ec' & Ef & Ff). rewrite Ec in Ec'. apply app_inj_tail in Ec'. destruct Ec' as [_ <-].
  exact (getters m i _ e f Ef U Ff).
Qed.
(** Two ships that have no kernel in common (all kernels are zero): the force on ship 0, which advances, changes with the
    pitching of ship 1 *)
Theorem C139_other_bodies_refuted : exists h m0 (c c' : call) m m' f f', h_order h = [0%nat; 1%nat] /\
  (forall i j k x, kernel (the_table (bm_K (h_bem h i)) j k) k x = 0 /\ kernel (the_table (bm_Ku (h_bem h i)) j k) k x = 0) /\
  snd c 0%nat = snd c' 0%nat /\ GetPerturbationGeneralizedVelocityInFrame (fst (snd c 1%nat)) (snd (snd c 1%nat)) 4%nat = 1 /\ at_rest c' /\
  rc_run h 1 [c] m0 = Ok m /\ rc_run h 1 [c'] m0 = Ok m' /\ GetRadiationForce m 0 = Ok f /\ GetRadiationForce m' 0 = Ok f' /\ f <> f'.
Proof.
  set (A := fun i j : nat => if (Nat.eqb i 2 && Nat.eqb j 2)%bool then 1 else 0 : R).
  set (env := fun w => fun i : nat => match i with 0%nat => (frame_at (V 1 0 0), node_at (V 1 0 0) origin) | _ => (frame_at origin, node_at origin w) end).
  set (h := flat_hdb [0%nat; 1%nat] [0; 1; 2; 3; 4; 5]%nat A zero6).
  assert (ND : NoDup [0%nat; 1%nat]) by (repeat constructor; cbn; intuition discriminate).
  assert (LD : forall d, In d [0; 1; 2; 3; 4; 5]%nat -> (d < 6)%nat) by (cbn; intros d H; intuition lia).
  destruct (first_run [0%nat; 1%nat] [0; 1; 2; 3; 4; 5]%nat A zero6 ((0, 0), env (V 0 1 0)) ND LD eq_refl) as (m & E & P).
  destruct (first_run [0%nat; 1%nat] [0; 1; 2; 3; 4; 5]%nat A zero6 ((0, 0), env origin) ND LD eq_refl) as (m' & E' & P').
  destruct (P 0%nat) as (g & G & V1); [left; reflexivity|]. destruct (P' 0%nat) as (g' & G' & V2); [left; reflexivity|].
  exists h, (sample_rad [0%nat; 1%nat]), ((0, 0), env (V 0 1 0)), ((0, 0), env origin), m, m'.
  destruct (getters m 0 g (frame_at (V 1 0 0)) _ G unitq_one eq_refl) as [F1 _]. destruct (getters m' 0 g' (frame_at (V 1 0 0)) _ G' unitq_one eq_refl) as [F2 _].
  eexists _, _. split; [reflexivity|]. split.
  { intros i j k x. cbn [h flat_hdb h_bem flat_bem bm_K bm_Ku]. unfold the_table. assert (Z : kernel (nth k (repeat (flat zero6) 6) (I6 [] [])) k x = 0); [|split; exact Z].
    do 6 (destruct k as [|k]; [cbn [repeat nth]; rewrite flat_value; destruct (Rle_dec x 10); reflexivity|]). destruct k; reflexivity. }
  split; [reflexivity|]. split; [unfold env; cbn [fst snd]; rewrite node_gen; reflexivity|]. split.
  { intros [|j] k Hk; unfold env; cbn [fst snd]; rewrite node_gen; unfold gen, minus3, origin; cbn [vx vy vz]; do 6 (destruct k as [|k]; [lra|]); lia. }
  split; [exact E|]. split; [exact E'|]. split; [exact F1|]. split; [exact F2|].
  intros X. apply (f_equal vz) in X. unfold scal3, quat_action in X. cbn [frame_at ef_frame fident frot qone q0 q1 q2 q3 vx vy vz] in X.
  rewrite !V1, !V2 in X. unfold env in X. cbn [fst snd map total] in X. rewrite !node_w in X. unfold A, threshold_speed, origin in X. rewrite frame_speed in X.
  pose proof eps_small as EP. unfold vnorm, vdot in X. cbn [vx vy vz Nat.eqb andb] in X. destruct (Rlt_dec FLT_EPSILON _) as [L|L]; [|lra].
  replace (1 * 1 + 0 * 0 + 0 * 0) with 1 in X by ring. rewrite sqrt_1 in X. cbn in X. lra.
Qed.
(** Going ahead or astern at the same speed gives the same corrections *)
Theorem C139_astern_refuted : exists h m0 (c c' : call) m m' f, h_order h = [0%nat] /\
  GetFrameVelocityInFrame (fst (snd c 0%nat)) NWU = V 1 0 0 /\ GetFrameVelocityInFrame (fst (snd c' 0%nat)) NWU = V (-1) 0 0 /\
  (forall k, GetPerturbationGeneralizedVelocityInFrame (fst (snd c 0%nat)) (snd (snd c 0%nat)) k = GetPerturbationGeneralizedVelocityInFrame (fst (snd c' 0%nat)) (snd (snd c' 0%nat)) k) /\
  rc_run h 1 [c] m0 = Ok m /\ rc_run h 1 [c'] m0 = Ok m' /\ GetRadiationForce m 0 = Ok f /\ GetRadiationForce m' 0 = Ok f /\ f = V 0 0 (-1).
Proof.
  set (A := fun i j : nat => if (Nat.eqb i 2 && Nat.eqb j 2)%bool then 1 else 0 : R).
  set (env := fun u => fun _ : nat => (frame_at u, node_at u (V 0 1 0))).
  assert (ND : NoDup [0%nat]) by (repeat constructor; cbn; intuition discriminate).
  assert (LD : forall d, In d [2%nat] -> (d < 6)%nat) by (cbn; intros d H; intuition lia).
  destruct (first_run [0%nat] [2%nat] A zero6 ((0, 0), env (V 1 0 0)) ND LD eq_refl) as (m & E & P).
  destruct (first_run [0%nat] [2%nat] A zero6 ((0, 0), env (V (-1) 0 0)) ND LD eq_refl) as (m' & E' & P').
  destruct (P 0%nat) as (g & G & V1); [left; reflexivity|]. destruct (P' 0%nat) as (g' & G' & V2); [left; reflexivity|].
  exists (flat_hdb [0%nat] [2%nat] A zero6), (sample_rad [0%nat]), ((0, 0), env (V 1 0 0)), ((0, 0), env (V (-1) 0 0)), m, m', (V 0 0 (-1)).
  destruct (getters m 0 g (frame_at (V 1 0 0)) _ G unitq_one eq_refl) as [F1 _]. destruct (getters m' 0 g' (frame_at (V (-1) 0 0)) _ G' unitq_one eq_refl) as [F2 _].
  pose proof eps_small as EP.
  assert (T : forall x, x * x = 1 -> threshold_speed (frame_at (V x 0 0)) = 1).
  { intros x Hx. unfold threshold_speed. rewrite frame_speed. unfold vnorm, vdot. cbn [vx vy vz]. replace (x * x + 0 * 0 + 0 * 0) with 1 by lra. destruct (Rlt_dec FLT_EPSILON 1); [apply sqrt_1|lra]. }
  split; [reflexivity|]. split; [apply frame_speed|]. split; [apply frame_speed|]. split.
  { intros k. unfold env; cbn [fst snd]; rewrite !node_gen; unfold gen, minus3; cbn [vx vy vz]. do 6 (destruct k as [|k]; [lra|]); lra. }
  split; [exact E|]. split; [exact E'|]. split; [rewrite F1|split; [rewrite F2|reflexivity]]; f_equal; unfold scal3, quat_action; cbn [frame_at ef_frame fident frot qone q0 q1 q2 q3 vx vy vz];
    rewrite ?V1, ?V2; unfold env; cbn [fst snd map total]; rewrite node_w, T by lra; unfold A; cbn [Nat.eqb andb vx vy vz]; apply vec_eq; cbn; ring.
Qed.

(** ** C77: masks *)
(** A mask given once: the number, the list and the flags of the active degrees of freedom agree, and expanding a reduced
    matrix puts its rows at the active degrees of freedom *)
Theorem C77_once : forall nb garbage mask, binary mask -> exists m, SetMask (new_mask nb garbage) mask = Ok m /\
  dm_list m = active mask /\ dm_nb m = length (active mask) /\ (forall i, (i < 6)%nat -> (dm_mask m i = true <-> In i (active mask))) /\
  forall data i f, (i < 6)%nat -> mask_mul m data i f = if Z.eqb (mask i) 1 then data (rank mask i) f else 0.
Proof.
  intros nb g mask B. destruct (setmask_spec (new_mask nb g) mask B) as (m & E & N & L & M & X). exists m. split; [exact E|]. split; [exact L|]. split; [exact N|]. split; [|exact X].
  intros i Hi. rewrite (M i Hi). unfold active. rewrite filter_In, in_seq. split; [intros H; split; [lia|exact H]|intros [_ H]; exact H].
Qed.
(** Any other mask is refused *)
Theorem C77_refused : forall m mask, ~ binary mask -> SetMask m mask = Fails.
Proof.
  intros m mask N. unfold SetMask. destruct (forallb _ _) eqn:E; [|reflexivity]. exfalso. apply N. intros i Hi. rewrite forallb_forall in E.
  specialize (E i). rewrite in_seq in E. specialize (E ltac:(lia)). apply orb_prop in E. destruct E as [E|E]; apply Z.eqb_eq in E; auto.
Qed.
Example C77_case : active (fun i => if Nat.eqb i 2 then 1%Z else if Nat.eqb i 4 then 1%Z else 0%Z) = [2%nat; 4%nat].
Proof. reflexivity. Qed.
(** A mask given again: the old degrees of freedom stay in the list.  Giving all six degrees of freedom twice doubles the radiation force *)
Theorem C140_again_refuted : exists b mask b1 b2, bm_mask b = new_mask 0 (fun _ => false) /\ binary mask /\ SetMotionMask b mask = Ok b1 /\ SetMotionMask b1 mask = Ok b2 /\
  dm_nb (bm_mask b2) = 6%nat /\ length (GetListDOF b2) = 12%nat /\
  forall a w k, memory_force (Hdb (fun _ => b2) [0%nat]) (bm_K b2) (fun _ => GetListDOF b2) a w k = 2 * memory_force (Hdb (fun _ => b1) [0%nat]) (bm_K b1) (fun _ => GetListDOF b1) a w k.
Proof.
  exists (Bem (new_mask 0 (fun _ => false)) (fun _ => None) (fun _ => []) (fun _ => [])), (fun _ => 1%Z).
  destruct (setmask_spec (new_mask 0 (fun _ => false)) (fun _ => 1%Z)) as (m1 & E1 & N1 & L1 & _); [right; reflexivity|].
  destruct (setmask_spec m1 (fun _ => 1%Z)) as (m2 & E2 & N2 & L2 & _); [right; reflexivity|].
  unfold SetMotionMask at 1. cbn [bm_mask bm_Ainf bm_K bm_Ku]. rewrite E1. cbn [rbind]. eexists _, _. split; [reflexivity|]. split; [right; reflexivity|]. split; [reflexivity|].
  unfold SetMotionMask. cbn [bm_mask bm_Ainf bm_K bm_Ku]. rewrite E2. cbn [rbind]. split; [reflexivity|]. cbn [bm_mask]. split; [exact N2|].
  unfold GetListDOF. cbn [bm_mask]. rewrite L2, L1. split; [reflexivity|]. intros a w k. unfold memory_force. cbn [h_order map total bm_K new_mask dm_list app active filter seq Z.eqb Pos.eqb]. ring.
Qed.

(** ** C78: the default memory *)
(** The default persistence is half the period of the frequency step, and the default step fills it with as many steps
    as time steps fit in it, less one *)
Theorem C78_window : forall timeStep freq, (2 <= d_n freq)%nat -> d_min freq < d_max freq -> 0 < timeStep ->
  let Te := PI * INR (d_n freq - 1) / (d_max freq - d_min freq) in
  2 * timeStep <= Te -> Te < 4294967296 * timeStep ->
  exists dt N, GetImpulseResponseSize timeStep freq = Ok (Te, dt, Z.of_nat N) /\ timeStep < dt /\ (2 <= N)%nat /\
    INR N * timeStep <= Te < (INR N + 1) * timeStep /\ dt * INR (N - 1) = Te /\ capacity Te dt = (N - 1)%nat.
Proof. exact window_spec. Qed.
(** A model that is initialised with the defaults is ready for the calls: C75_convolution applies *)
Theorem C78_ready : forall timeStep freq order m, NoDup order -> (2 <= d_n freq)%nat -> d_min freq < d_max freq -> 0 < timeStep ->
  let Te := PI * INR (d_n freq - 1) / (d_max freq - d_min freq) in 2 * timeStep <= Te -> Te < 4294967296 * timeStep ->
  (forall j, rd_rec m j = None) -> rd_Te m = -9 -> exists m' dt, RC_Initialize timeStep freq order m = Ok m' /\ timeStep < dt /\ sized order m' (fun _ => Te) (fun _ => dt).
Proof.
  intros ts freq order m ND Hn Hf Ht Te H2 H32 HN HT. destruct (window_spec ts freq Hn Hf Ht H2 H32) as (dt & N & E & Hd & HN2 & _ & HI & _).
  unfold RC_Initialize. assert (DB : 0 < DBL_EPSILON) by (unfold DBL_EPSILON; apply Rinv_0_lt_compat; lra). destruct (Rlt_dec (rd_Te m) DBL_EPSILON); [|lra].
  rewrite E. cbn [rbind fst snd rd_rec rd_force rd_Te rd_dt]. eexists _, dt. split; [reflexivity|]. split; [exact Hd|]. split; [exact ND|]. intros j Hj. cbn [rd_rec].
  assert (IN : 1 <= INR (N - 1)) by (apply (le_INR 1); lia).
  split; [|split; [lra|]].
  - apply init_recs; auto.
  - fold Te in HI. rewrite <- HI. rewrite <- (Rmult_1_r dt) at 1. apply Rmult_le_compat_l; lra.
Qed.
Example C78_case : exists timeStep freq, let Te := PI * INR (d_n freq - 1) / (d_max freq - d_min freq) in (2 <= d_n freq)%nat /\ d_min freq < d_max freq /\ 0 < timeStep /\ 2 * timeStep <= Te /\ Te < 4294967296 * timeStep.
Proof. exists (1 / 10), (Disc 1 2 3). cbv zeta. cbn [d_n d_min d_max Nat.sub INR]. pose proof PI_RGT_0. pose proof PI2_3_2. pose proof PI_4. split; [lia|]. repeat split; try lra; replace (2 - 1) with 1 by ring; unfold Rdiv; rewrite Rinv_1; lra. Qed.
(** One frequency, or a time step longer than half the persistence: division by zero *)
Theorem C141_window_refuted : GetImpulseResponseSize 1 (Disc 1 2 1) = Undef /\ exists timeStep freq, (2 <= d_n freq)%nat /\ d_min freq < d_max freq /\ 0 < timeStep /\ GetImpulseResponseSize timeStep freq = Undef.
Proof.
  split; [reflexivity|]. exists PI, (Disc 1 2 2). pose proof PI_RGT_0. cbn [d_n d_min d_max]. split; [lia|]. split; [lra|]. split; [lra|].
  unfold GetImpulseResponseSize, GetStep. cbn [d_n d_min d_max Nat.leb Nat.sub INR rbind]. destruct (Req_EM_T ((2 - 1) / 1) 0); [reflexivity|]. destruct (Req_EM_T PI 0); [reflexivity|].
  replace (/ 2 * (2 * PI) / ((2 - 1) / 1) / PI) with 1 by (field; lra). replace (Int_part 1) with 1%Z; [reflexivity|].
  destruct (base_Int_part 1) as [J1 J2]. apply le_IZR in J1. assert (0 < IZR (Int_part 1)) by lra. apply lt_IZR in H0. lia.
Qed.

(** ** C79: the mapper *)
Theorem C79_mapper : forall l, NoDup (map (fun e : nat * nat * nat => fst (fst e)) l) -> NoDup (map (fun e : nat * nat * nat => snd (fst e)) l) ->
  let m := map_run l new_mapper in (forall e, In e l -> maps_to m e) /\ GetNbMappings m = length l /\
  (forall b, ~ In b (map (fun e => fst (fst e)) l) -> MGetBody m b = Throws /\ MGetEquilibriumFrame m b = Throws) /\
  (forall o, ~ In o (map (fun e => snd (fst e)) l) -> MGetBEMBody m o = Throws /\ MGetEquilibriumFrameOf m o = Throws).
Proof.
  intros l N1 N2. destruct (map_all l new_mapper N1 N2) as (P1 & P2 & P3 & P4 & _); [intros e _ []|]. cbv zeta. split; [exact P1|]. split.
  - unfold GetNbMappings. rewrite P2. cbn [new_mapper mp_keys app]. apply map_length.
  - split; [intros b Hb; destruct (P3 b Hb) as [Q1 Q2]; unfold MGetBody, MGetEquilibriumFrame, at_map; rewrite Q1, Q2; auto|].
    intros o Ho. unfold MGetEquilibriumFrameOf, MGetBEMBody, at_map. rewrite (P4 o Ho). auto.
Qed.
(** Whatever is mapped, and however often, the number of mappings is the number of different database bodies *)
Theorem C79_count : forall l, GetNbMappings (map_run l new_mapper) = length (nodup Nat.eq_dec (map (fun e : nat * nat * nat => fst (fst e)) l)).
Proof.
  intros l. destruct (map_keys l new_mapper (NoDup_nil _)) as [N K]. apply Permutation.Permutation_length. apply Permutation.NoDup_Permutation; [exact N|apply NoDup_nodup|].
  intros b. rewrite nodup_In, K. cbn [new_mapper mp_keys In]. tauto.
Qed.
Example C79_case : maps_to (map_run [(0, 5, 7); (1, 4, 8)]%nat new_mapper) (0, 5, 7)%nat.
Proof. apply C79_mapper; [repeat constructor; cbn; intuition discriminate| |left; reflexivity]. repeat constructor; cbn; intuition discriminate. Qed.
(** A BEM body mapped again: the old body still answers that it has this BEM body *)
Theorem C142_remap_refuted : let m := map_run [(0, 1, 0); (0, 2, 0)]%nat new_mapper in MGetBody m 0 = Ok 2%nat /\ MGetBEMBody m 1 = Ok 0%nat /\ MGetBEMBody m 2 = Ok 0%nat.
Proof. repeat split; reflexivity. Qed.

(** ** C80: tables *)
(** Kernels given to a new body: the kernel used for motion d of body j is the given matrix number d, at the times of the
    discretisation, interpolated in between; it reaches the final time *)
Theorem C80_kernels : forall T n b j l, 0 < T -> (2 <= n)%nat -> bm_K b j = [] -> List.Forall (fun M : list vec6 => length M = n) l ->
  exists b', SetImpulseResponseFunctionK (SetTimeDiscretization T n) b j l = Ok b' /\ (forall j', j' <> j -> bm_K b' j' = bm_K b j') /\ bm_mask b' = bm_mask b /\
  forall d M, nth_error l d = Some M -> exists t, GetIRFInterpolatorK b' j d = Ok t /\ kernel_table t T /\
    forall i k, (i < n)%nat -> kernel t k (INR i * (T / INR (n - 1))) = nth i M zero6 k.
Proof.
  intros T n b j l HT Hn HK Hl. destruct (irfs_ok T n HT Hn l Hl) as (ts & E & L & P). unfold SetImpulseResponseFunctionK. rewrite E. cbn [rbind]. eexists. split; [reflexivity|]. cbn [bm_K bm_mask].
  split; [intros j' Hj; apply fupd_other; exact Hj|]. split; [reflexivity|]. intros d M HM. destruct (P d M HM) as (t & Et & Kt & Vt). exists t. split; [|auto].
  unfold GetIRFInterpolatorK. cbn [bm_K]. rewrite fupd_same, HK. cbn [app]. unfold vat. rewrite Et. reflexivity.
Qed.
Theorem C80_speed_kernels : forall T n b j l, 0 < T -> (2 <= n)%nat -> bm_Ku b j = [] -> List.Forall (fun M : list vec6 => length M = n) l ->
  exists b', SetImpulseResponseFunctionKu (SetTimeDiscretization T n) b j l = Ok b' /\ (forall j', j' <> j -> bm_Ku b' j' = bm_Ku b j') /\ bm_K b' = bm_K b /\
  forall d M, nth_error l d = Some M -> exists t, GetIRFInterpolatorKu b' j d = Ok t /\ kernel_table t T /\
    forall i k, (i < n)%nat -> kernel t k (INR i * (T / INR (n - 1))) = nth i M zero6 k.
Proof.
  intros T n b j l HT Hn HK Hl. destruct (irfs_ok T n HT Hn l Hl) as (ts & E & L & P). unfold SetImpulseResponseFunctionKu. rewrite E. cbn [rbind]. eexists. split; [reflexivity|]. cbn [bm_Ku bm_K].
  split; [intros j' Hj; apply fupd_other; exact Hj|]. split; [reflexivity|]. intros d M HM. destruct (P d M HM) as (t & Et & Kt & Vt). exists t. split; [|auto].
  unfold GetIRFInterpolatorKu. cbn [bm_Ku]. rewrite fupd_same, HK. cbn [app]. unfold vat. rewrite Et. reflexivity.
Qed.
(** A matrix with another number of columns is refused *)
Theorem C80_refused : forall T n b j M l, length M <> n -> SetImpulseResponseFunctionK (SetTimeDiscretization T n) b j (M :: l) = Fails.
Proof. intros. unfold SetImpulseResponseFunctionK, irfs, irf, SetTimeDiscretization. cbn [d_n]. rewrite (proj2 (Nat.eqb_neq _ _) H). reflexivity. Qed.
(** Added mass: the last one given is the one used *)
Theorem C80_added_mass : forall b j A j', bm_Ainf (SetInfiniteAddedMass b j A) j' = if Nat.eqb j' j then Some A else bm_Ainf b j'.
Proof. reflexivity. Qed.
(** Kernels given again are not used: the old ones stay *)
Theorem C143_again_refuted : forall d b j l b1 l' b2 i, SetImpulseResponseFunctionK d b j l = Ok b1 -> (i < length l)%nat -> SetImpulseResponseFunctionK d b1 j l' = Ok b2 ->
  GetIRFInterpolatorK b2 j i = GetIRFInterpolatorK b1 j i.
Proof.
  intros d b j l b1 l' b2 i E1 Hi E2. unfold SetImpulseResponseFunctionK in *. destruct (rb_ok _ _ _ E1) as (n1 & A1 & B1). destruct (rb_ok _ _ _ E2) as (n2 & A2 & B2). cbn beta in B1, B2. inversion B1; inversion B2; subst. cbn [bm_K].
  unfold GetIRFInterpolatorK, vat. cbn [bm_K]. rewrite !fupd_same. rewrite (nth_error_app1 (bm_K b j ++ n1)); [reflexivity|]. rewrite app_length, (irfs_length _ _ _ A1). lia.
Qed.
Example C80_again_case : exists d b1 b2, d = SetTimeDiscretization 1 2 /\ SetImpulseResponseFunctionK d (Bem zero_mask (fun _ => None) (fun _ => []) (fun _ => [])) 0 [[zero6; zero6]] = Ok b1 /\
  SetImpulseResponseFunctionK d b1 0 [[fun _ => 1; fun _ => 1]] = Ok b2 /\ exists t, GetIRFInterpolatorK b2 0 0 = Ok t /\ i6_y t = [zero6; zero6].
Proof. eexists _, _, _. split; [reflexivity|]. split; [reflexivity|]. split; [reflexivity|]. eexists. split; reflexivity. Qed.
