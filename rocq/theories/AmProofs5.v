(** Counterexamples. *)
From Coq Require Import Reals List Bool Arith Lia Lra Psatz FunctionalExtensionality.
From Verif Require Import GeoModel GeoSpec GeoProofs FloProofs2 BodyModel InertiaModel SeaModel FloModel RadModel RadSpec RadProofs7 RadProofs8 ExcProofs5 AmModel AmSpec AmProofs AmProofs2 AmProofs3 AmProofs4.
Import ListNotations.
Open Scope R_scope.

Lemma m0_block i j : (i < 2)%nat -> (j < 2)%nat -> m0 i j = Some (fun a b => P0 (6 * i + a)%nat (6 * j + b)%nat).
Proof. intros Hi Hj. do 2 (destruct i as [|i]; [do 2 (destruct j as [|j]; [reflexivity|]); lia|]). lia. Qed.
Lemma equals_no a b k : (k < 6)%nat -> a k <> b k -> Equals a b = false.
Proof. intros Hk N. destruct (Equals a b) eqn:E; [|reflexivity]. exfalso. apply N. exact (proj1 (eq6_true a b) E k Hk). Qed.

Ltac num := cbv -[Rplus Rmult Ropp Rinv Rdiv Rminus IZR]; cbn; lra.
(** Twice the force does not give twice the answer *)
Lemma not_linear : exists r r', Compute_invMb_v pair0 m0 0 (fl_fb pair0 0%nat) = Ok r /\ Compute_invMb_v pair0 m0 0 (scale6 2 (fl_fb pair0 0%nat)) = Ok r' /\ r 0%nat = 2 / 3 /\ r' 0%nat = 8 / 3.
Proof.
  unfold Compute_invMb_v, Compute_inc_invMb_v. rewrite eq6_refl, (equals_no (scale6 2 (fl_fb pair0 0%nat)) (fl_fb pair0 0%nat) 0) by (lia || (cbn; unfold scale6, e0; lra)).
  change (h_order (fl_db pair0)) with [0%nat; 1%nat]. cbn [inc_bodies pair0 fl_active]. unfold GetInverseGeneralizedMass. rewrite !m0_block by lia. cbn [rbind].
  eexists. eexists. split; [reflexivity|]. split; [reflexivity|]. split; num.
Qed.
(** A body that became heavier *)
Lemma stale : let f := set_tensor pair0 0 (unit_tensor 3) in has_added_mass f A0 /\ all_active f /\
  exists acc : nat -> vec6, (forall i, In i (bodies f) -> Compute_invMb_v f m0 i (fl_fb f i) = Ok (acc i)) /\ momentum f A0 acc 0 0 <> fl_fb f 0%nat 0%nat.
Proof.
  cbv zeta. split; [exact pair0_mass|]. split; [exact pair0_active|].
  exists (fun i => match Compute_invMb_v pair0 m0 i (fl_fb pair0 i) with Ok a => a | _ => zero6 end). split.
  - intros i Hi. change (Compute_invMb_v (set_tensor pair0 0 (unit_tensor 3)) m0 i (fl_fb (set_tensor pair0 0 (unit_tensor 3)) i)) with (Compute_invMb_v pair0 m0 i (fl_fb pair0 i)).
    unfold Compute_invMb_v, Compute_inc_invMb_v. rewrite eq6_refl. change (h_order (fl_db pair0)) with [0%nat; 1%nat]. cbn [inc_bodies pair0 fl_active]. unfold GetInverseGeneralizedMass.
    destruct Hi as [<-|[<-|[]]]; rewrite !m0_block by lia; reflexivity.
  - unfold momentum, bodies. change (h_order (fl_db (set_tensor pair0 0 (unit_tensor 3)))) with [0%nat; 1%nat]. unfold over. cbn [map total].
    unfold Compute_invMb_v, Compute_inc_invMb_v. rewrite !eq6_refl. change (h_order (fl_db pair0)) with [0%nat; 1%nat]. cbn [inc_bodies pair0 fl_active]. unfold GetInverseGeneralizedMass. rewrite !m0_block by lia. cbn [rbind].
    match goal with |- ?x <> _ => replace x with (7 / 3) end. { cbn. lra. }
    cbv -[Rplus Rmult Ropp Rinv Rdiv Rminus IZR]; cbn; lra.
Qed.
(** The second body does not move *)
Definition moored : fleet := Fleet (fl_db pair0) (fl_tensor pair0) (fun i => Nat.eqb i 0) (fl_offset pair0) (fl_frame pair0) (fl_fb pair0) (fl_qb pair0).
Lemma moored_acc : exists r, Compute_invMb_v moored m0 0 (fl_fb moored 0%nat) = Ok r /\ r 0%nat = 4 / 3.
Proof.
  unfold Compute_invMb_v, Compute_inc_invMb_v. rewrite eq6_refl. change (h_order (fl_db moored)) with [0%nat; 1%nat]. cbn [inc_bodies moored fl_active Nat.eqb]. unfold GetInverseGeneralizedMass. rewrite !m0_block by lia. cbn [rbind].
  eexists. split; [reflexivity|]. num.
Qed.
(** Products with an offset *)
Lemma multiply_value f A i offset result vect c : has_added_mass f A -> In i (bodies f) -> exists r, MultiplyAndAdd f i offset result vect c = Ok r /\
  (forall a, (a < 6)%nat -> r (offset + a)%nat = result (offset + a)%nat + c * sum6 (fun b => inertia_of_pair f A i i a b * vect b)) /\
  forall k, ~ (offset <= k < offset + 6)%nat -> r k = result k.
Proof.
  intros HA Ii. destruct (get_mass f A i i HA Ii Ii) as (G & E & HG). unfold MultiplyAndAdd. rewrite E. cbn [rbind]. eexists. split; [reflexivity|]. split.
  - intros a Ha. rewrite (proj2 (Nat.leb_le offset (offset + a))), (proj2 (Nat.ltb_lt (offset + a) (offset + 6))) by lia. cbn [andb]. f_equal. replace (offset + a - offset)%nat with a by lia.
    rewrite inc_mul_sum by exact Ha. unfold sum6, zero6. cbn [map total]. rewrite !HG. ring.
  - intros k Hk. destruct (Nat.leb_spec offset k), (Nat.ltb_spec k (offset + 6)); cbn [andb]; try reflexivity. exfalso. lia.
Qed.
Lemma diagonal_value f A i offset result c : has_added_mass f A -> In i (bodies f) -> exists r, DiagonalAdd f i offset result c = Ok r /\
  (forall a, (a < 6)%nat -> r (offset + a)%nat = result (offset + a)%nat + c * inertia_of_pair f A i i a a) /\ forall k, ~ (offset <= k < offset + 6)%nat -> r k = result k.
Proof.
  intros HA Ii. destruct (get_mass f A i i HA Ii Ii) as (G & E & HG). unfold DiagonalAdd. rewrite E. cbn [rbind]. eexists. split; [reflexivity|]. split.
  - intros a Ha. rewrite (proj2 (Nat.leb_le offset (offset + a))), (proj2 (Nat.ltb_lt (offset + a) (offset + 6))) by lia. cbn [andb]. replace (offset + a - offset)%nat with a by lia. rewrite HG. reflexivity.
  - intros k Hk. destruct (Nat.leb_spec offset k), (Nat.ltb_spec k (offset + 6)); cbn [andb]; try reflexivity. exfalso. lia.
Qed.
Lemma build_value f A i row col c S0 : has_added_mass f A -> In i (bodies f) -> exists S1, Build_M f i row col c S0 = Ok S1 /\
  (forall a b, (a < 6)%nat -> (b < 6)%nat -> S1 (row + a)%nat (col + b)%nat = c * inertia_of_pair f A i i a b) /\
  forall r k, ~ (row <= r < row + 6 /\ col <= k < col + 6)%nat -> S1 r k = S0 r k.
Proof.
  intros HA Ii. destruct (get_mass f A i i HA Ii Ii) as (G & E & HG). unfold Build_M. rewrite E. cbn [rbind]. eexists. split; [reflexivity|]. split.
  - intros a b Ha Hb. rewrite (proj2 (Nat.leb_le row (row + a))), (proj2 (Nat.ltb_lt (row + a) (row + 6))), (proj2 (Nat.leb_le col (col + b))), (proj2 (Nat.ltb_lt (col + b) (col + 6))) by lia. cbn [andb].
    replace (row + a - row)%nat with a by lia. replace (col + b - col)%nat with b by lia. rewrite HG. reflexivity.
  - intros r k Hk. destruct (Nat.leb_spec row r), (Nat.ltb_spec r (row + 6)), (Nat.leb_spec col k), (Nat.ltb_spec k (col + 6)); cbn [andb]; try reflexivity. exfalso. lia.
Qed.
(** A ship heading West with added mass in surge only *)
Definition west : fleet := Fleet (Hdb (fun i => Bem (new_mask 0 (fun _ => false)) (fun j => Some (surge 1)) (fun _ => []) (fun _ => [])) [0%nat]) (fun _ => unit_tensor 1) (fun _ => true) (fun _ => 0%nat)
  (fun _ => Frame_make (V 0 0 0) (UQ_SetAxisAngle (V 0 0 1) (PI / 2) NWU) NWU) (fun _ => e0) (fun _ => e0).
Lemma west_mass : has_added_mass west (fun _ _ => surge 1).
Proof. split; [repeat constructor; cbn; intuition discriminate|]. reflexivity. Qed.
Lemma west_axes v : qrotate (frot (fl_frame west 0%nat)) v = mv (Rz (PI / 2)) v.
Proof. apply rot_z. Qed.
Lemma west_load : exists R1, IntLoadResidual_Mv west e0 1 (fun _ => 0) = Ok R1 /\ R1 0%nat = 1 /\ R1 1%nat = 0 /\ R1 2%nat = 0.
Proof. eexists. split; [reflexivity|]. repeat split; num. Qed.
Lemma west_expected : in_heading (surge 1) (PI / 2) (V 1 0 0) = V 0 0 0.
Proof. unfold in_heading. cbv zeta. unfold Rz, mv, dot3. rewrite cos_neg, sin_neg, cos_PI2, sin_PI2. unfold surge. cbn [vx vy vz m00 m01 m02 m10 m11 m12 m20 m21 m22]. apply vec_eq; cbn [vx vy vz]; ring. Qed.
Lemma unit_massive : massive (unit_tensor 1).
Proof.
  intros x. assert (E : sum6 (fun a => x a * sum6 (fun b => GetMassMatrixAtCOG (unit_tensor 1) a b * x b)) = x 0%nat * x 0%nat + x 1%nat * x 1%nat + x 2%nat * x 2%nat + x 3%nat * x 3%nat + x 4%nat * x 4%nat + x 5%nat * x 5%nat).
  { unfold sum6. cbn [map total GetMassMatrixAtCOG unit_tensor i_mass i_mat m00 m01 m02 m10 m11 m12 m20 m21 m22]. ring. }
  rewrite E. assert (Q : forall y : R, 0 <= y * y) by (intros y; apply Rle_0_sqr). pose proof (Q (x 0%nat)). pose proof (Q (x 1%nat)). pose proof (Q (x 2%nat)). pose proof (Q (x 3%nat)). pose proof (Q (x 4%nat)). pose proof (Q (x 5%nat)).
  split; [lra|]. intros HZ a Ha. do 6 (destruct a as [|a]; [apply Rsqr_0_uniq; unfold Rsqr; lra|]). lia.
Qed.
