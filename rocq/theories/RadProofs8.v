(** Sample cases for C75-C80 *)
From Coq Require Import Reals List Bool ZArith Lra Lia Arith FunctionalExtensionality.
From Verif Require Import GeoModel GeoSpec GeoProofs BodyModel SigModel SigSpec SigProofs SigProofs2 SigProps EqfModel SeaModel SeaProofs6 FloModel RadModel RadSpec RadProofs RadProofs2 RadProofs3 RadProofs4 RadProofs6 RadProofs7.
Import ListNotations.
Open Scope R_scope.

(** An equilibrium frame that advances at u, and a node that moves at velocity v and turns at w *)
Definition frame_at (u : vec) : eqf := EF fident u 0 false 0.
Definition node_at (v w : vec) : marker := Mk fident (MF fident v (Q 0 (vx w / 2) (vy w / 2) (vz w / 2))).
Lemma ident_rot v : UQ_Rotate (frot fident) v NWU = v.
Proof. unfold UQ_Rotate, fident, qrotate, qmul, qconj, qim. cbn. destruct v as [x y z]. cbn. apply vec_eq; cbn [vx vy vz]; ring. Qed.
Lemma ident_inv_rot v : ProjectVectorParentInFrame fident v NWU = v.
Proof. unfold ProjectVectorParentInFrame, UQ_Rotate. cbn [swap_if IsNED fident frot UQ_Inverse]. destruct v as [x y z]. unfold UQ_Inverse, qconj, qone, qrotate. apply vec_eq; cbn; ring. Qed.
Lemma frame_speed u : GetFrameVelocityInFrame (frame_at u) NWU = u.
Proof. apply ident_inv_rot. Qed.
Lemma node_w u v w : GetPerturbationAngularVelocityInFrame (frame_at u) (node_at v w) NWU = w.
Proof.
  unfold GetPerturbationAngularVelocityInFrame. cbn [frame_at ef_frame]. rewrite ident_inv_rot.
  unfold GetPerturbationAngularVelocity, NGetAngularVelocityInWorld, GetFrameAngularVelocity, node_at, Wvel_par. destruct w as [x y z]. cbn [swap_if IsNED mk_abs mf_qdt mf_frame fident frot vx vy vz ef_w frame_at]. unfold qconj, qone, qmul, qim, vscale, vsub. apply vec_eq; cbn; field.
Qed.
Lemma node_v u v w : GetPerturbationVelocityInFrame (frame_at u) (node_at v w) NWU = minus3 v u.
Proof.
  unfold GetPerturbationVelocityInFrame. cbn [frame_at ef_frame]. rewrite ident_inv_rot.
  unfold GetPerturbationVelocityInWorld, NGetVelocityInWorld, GetFrameVelocityInWorld, node_at. cbn [swap_if IsNED mk_abs mf_vel frame_at ef_vel]. reflexivity.
Qed.
Lemma node_gen u v w k : GetPerturbationGeneralizedVelocityInFrame (frame_at u) (node_at v w) k = gen (minus3 v u) w k.
Proof. unfold GetPerturbationGeneralizedVelocityInFrame. rewrite node_v, node_w. reflexivity. Qed.

(** A kernel that is constant over [0, 10] *)
Definition flat (c : vec6) : interp6 := I6 [0; 10] [c; c].
Lemma flat_table c : kernel_table (flat c) 10.
Proof. split; [reflexivity|]. split; [cbn; lra|]. cbn. repeat split; lra || lia. Qed.
Lemma flat_value c k x : kernel (flat c) k x = if Rle_dec x 10 then c k else 0.
Proof. unfold kernel, flat. cbn [i6_x i6_y map interpolated]. destruct (Rle_dec x 10); [|reflexivity]. unfold affine. cbn [fst snd]. field. Qed.
Definition zero_mask : dofmask := DM 6 [] (fun _ => true) (fun _ _ => 0).
(** A body whose kernels are constant, the same for all pairs and motions, that moves in the degrees of freedom [l] *)
Definition flat_bem (l : list nat) (A : mat6) (c : vec6) : bem :=
  Bem (DM (length l) l (fun _ => true) (fun _ _ => 0)) (fun _ => Some A) (fun _ => repeat (flat c) 6) (fun _ => repeat (flat zero6) 6).
Definition flat_hdb (order : list nat) (l : list nat) (A : mat6) (c : vec6) : hdb := Hdb (fun _ => flat_bem l A c) order.
Lemma flat_ready order l A c dofs : (forall j d, In d (dofs j) -> (d < 6)%nat) ->
  kernels_ready (flat_hdb order l A c) (fun _ => repeat (flat c) 6) dofs (fun _ => 10).
Proof.
  intros H j d _ Hd. split; [exact (H j d Hd)|]. exists (flat c). split; [|apply flat_table]. specialize (H j d Hd).
  do 6 (destruct d as [|d]; [reflexivity|]). lia.
Qed.
Definition sample_rad (order : list nat) : rad := Rad (fun j => if existsb (Nat.eqb j) order then Some (newRec6 10 1) else None) (fun _ => None) 10 1.
Lemma sample_sized order : NoDup order -> sized order (sample_rad order) (fun _ => 10) (fun _ => 1).
Proof. intros N. split; [exact N|]. intros j Hj. unfold sample_rad. cbn [rd_rec]. replace (existsb (Nat.eqb j) order) with true by (symmetry; apply existsb_nat; exact Hj). split; [reflexivity|lra]. Qed.
Lemma first_paced order c : snd (fst c) = 0 -> paced 1 order (fun _ => 1) [c].
Proof. intros E. split; [discriminate|]. split; [constructor; [|constructor]; left; rewrite E; unfold FLT_EPSILON; apply Rlt_le, Rinv_0_lt_compat; lra|]. intros j _. exact I. Qed.
(** After one call the convolutions are zero *)
Lemma first_ages Te dt c j : 0 < dt <= Te -> ages_of (fun _ => Te) (fun _ => dt) [c] j = [0].
Proof.
  intros H. destruct (held_one Te dt [c] j H) as (_ & (delta & m & D & E & L & N0 & _) & _); [discriminate|exact I|].
  fold (ages_of (fun _ : nat => Te) (fun _ : nat => dt) [c] j) in *. unfold ages_of in *. set (a := GetTime6 (rec_after Te dt [c] j)) in *. clearbody a.
  unfold first_time, last_time, past in E. cbn [map last] in E.
  assert (m = 0%nat). { destruct m; [reflexivity|]. exfalso. rewrite S_INR in E. pose proof (pos_INR m). nra. }
  subst m. assert (Hc : (1 <= capacity Te dt)%nat) by (apply capacity_pos; lra). rewrite Nat.min_r in L by lia. destruct a as [|x [|y a]]; try (cbn in L; lia). cbn in N0. congruence.
Qed.
Lemma one_age_convolution K w : convolution K [0] w = 0.
Proof. unfold convolution. destruct w; reflexivity. Qed.
Lemma total_zero {A : Type} (f : A -> R) : (forall x, f x = 0) -> forall l, total (map f l) = 0.
Proof. intros H. induction l; cbn [map total]; [reflexivity|rewrite H, IHl; ring]. Qed.
Lemma first_memory h K dofs w k c : memory_force h K dofs (ages_of (fun _ => 10) (fun _ => 1) [c]) w k = 0.
Proof. unfold memory_force. apply total_zero. intros j. apply total_zero. intros d. rewrite first_ages by lra. apply one_age_convolution. Qed.
Lemma eps_small : 0 < FLT_EPSILON < 1.
Proof. unfold FLT_EPSILON. split; [apply Rinv_0_lt_compat; lra|]. apply (Rmult_lt_reg_l 8388608); [lra|]. rewrite Rinv_r; lra. Qed.
(** The force of the first call in a database of flat bodies *)
Lemma first_run order l A c (call0 : call) : NoDup order -> (forall d, In d l -> (d < 6)%nat) -> snd (fst call0) = 0 ->
  exists m, rc_run (flat_hdb order l A c) 1 [call0] (sample_rad order) = Ok m /\ forall i, In i order -> exists g, rd_force m i =
    Some (scale6 (-1) (gen (ProjectVectorFrameInParent (ef_frame (fst (snd call0 i))) (GForce g) NWU) (ProjectVectorFrameInParent (ef_frame (fst (snd call0 i))) (GTorque g) NWU))) /\
    forall k, g k = threshold_speed (fst (snd call0 i)) * total (map (fun i' : nat => total (map (fun j =>
     let pw := GetPerturbationAngularVelocityInFrame (fst (snd call0 j)) (snd (snd call0 j)) NWU in A k 2%nat * vy pw - A k 1%nat * vz pw) order)) order).
Proof.
  intros N L0 T0. destruct (fleet_run (flat_hdb order l A c) 1 (fun _ => 10) (fun _ => 1) (sample_rad order) [call0] (fun _ => A)) as (m & E & P).
  - apply sample_sized. exact N.
  - apply first_paced. exact T0.
  - intros i Hi. apply (flat_ready order l A c). intros j d Hd. apply L0. exact Hd.
  - intros i Hi. split; [|reflexivity]. cbn [flat_hdb h_bem flat_bem bm_Ku]. intros j d Hj [<-|[<-|[]]]; (split; [lia|]); exists (flat zero6); (split; [reflexivity|apply flat_table]).
  - exists m. split; [exact E|]. intros i Hi. destruct (P i Hi) as (c0 & c1 & f & Ec & Ef & Ff). exists (fleet_force (flat_hdb order l A c) (fun _ => A) call0 (ages_of (fun _ => 10) (fun _ => 1) [call0]) (vals_of (fun _ => 10) (fun _ => 1) [call0]) i).
    assert (c1 = call0) by (destruct c0 as [|x [|y c0]]; inversion Ec; auto). subst c1. split; [rewrite Ef, Ff; reflexivity|].
    intros k. unfold fleet_force. rewrite first_memory, Rplus_0_l. f_equal. cbn [flat_hdb h_order]. apply total_ext. intros i'. apply total_ext. intros j. cbv zeta.
    rewrite total_zero; [ring|]. intros d. rewrite first_ages by lra. apply one_age_convolution.
Qed.
