(** C151-C157: added mass in the equations of motion. *)
From Coq Require Import Reals List Bool Arith Lia Lra.
From Verif Require Import GeoModel GeoSpec BodyModel InertiaModel SeaModel FloModel RadModel RadSpec AmModel AmSpec AmProofs AmProofs2 AmProofs3 AmProofs4 AmProofs5.
Import ListNotations.
Open Scope R_scope.

(** ** C151: generalized mass and its inverse, by blocks *)
Theorem C151_mass : forall f A i j, has_added_mass f A -> In i (bodies f) -> In j (bodies f) ->
  exists G, GetGeneralizedMass f i j = Ok G /\ forall a b, G a b = A i j a b + if Nat.eqb i j then GetMassMatrixAtCOG (fl_tensor f i) a b else 0.
Proof. intros f A i j H Hi Hj. exact (get_mass f A i j H Hi Hj). Qed.
(** The blocks saved by SetupInitial are the inverse, on both sides, whatever the number of bodies *)
Theorem C151_inverse : forall inv f A m0 m, inverts inv -> has_added_mass f A -> BuildGeneralizedMass inv f m0 = Ok m -> exists N,
  (forall i j, In i (bodies f) -> In j (bodies f) -> GetInverseGeneralizedMass m i j = Ok (N i j)) /\
  forall i j a b, In i (bodies f) -> In j (bodies f) -> (a < 6)%nat -> (b < 6)%nat ->
    over (bodies f) (fun k => sum6 (fun c => inertia_of_pair f A i k a c * N k j c b)) = delta i j * delta a b /\
    over (bodies f) (fun k => sum6 (fun c => N i k a c * inertia_of_pair f A k j c b)) = delta i j * delta a b.
Proof. exact inverse_blocks. Qed.
Example C151_example : inverts inv0 /\ has_added_mass pair0 A0 /\ BuildGeneralizedMass inv0 pair0 no_blocks = Ok m0 /\ inertia_of_pair pair0 A0 0 1 0 0 = 1 / 2.
Proof. split; [apply pair0_built|]. split; [exact pair0_mass|]. split; [apply pair0_built|]. unfold inertia_of_pair, A0, surge. cbn. lra. Qed.

(** ** C152: with all bodies free, the accelerations given for the forces fb solve the coupled equations of motion *)
Theorem C152_equations : forall inv f A m0 m, inverts inv -> has_added_mass f A -> BuildGeneralizedMass inv f m0 = Ok m ->
  forall g, fl_db g = fl_db f -> all_active g -> exists acc : nat -> vec6,
  (forall i, In i (bodies f) -> Compute_invMb_v g m i (fl_fb g i) = Ok (acc i)) /\
  (forall i r0, In i (bodies f) -> exists r, Compute_inc_invMb_v g m i r0 (fl_fb g i) = Ok r /\ forall a, (a < 6)%nat -> r a = r0 a + acc i a) /\
  (forall i a, In i (bodies f) -> (a < 6)%nat -> momentum f A acc i a = fl_fb g i a) /\
  forall x : nat -> vec6, (forall i a, In i (bodies f) -> (a < 6)%nat -> momentum f A x i a = fl_fb g i a) -> forall i a, In i (bodies f) -> (a < 6)%nat -> x i a = acc i a.
Proof. exact solve_fb. Qed.
(** The momenta loaded into fb are those of the velocities, and solving gives the velocities back *)
Theorem C152_momenta : forall inv f A m0 m, inverts inv -> has_added_mass f A -> all_active f -> BuildGeneralizedMass inv f m0 = Ok m ->
  exists g, load_momenta (bodies f) f = Ok g /\ (forall i a, In i (bodies f) -> (a < 6)%nat -> fl_fb g i a = momentum f A (fl_qb f) i a) /\
  forall i, In i (bodies f) -> exists r, Compute_invMb_v g m i (fl_fb g i) = Ok r /\ forall a, (a < 6)%nat -> r a = fl_qb f i a.
Proof.
  intros inv f A m0 m Hi HA Hact E. destruct (momenta_loaded A (bodies f) f HA Hact (proj1 HA) (fun i H => H)) as (g & Eg & G1 & _ & G3 & _ & _ & G6). exists g. split; [exact Eg|]. split; [exact G6|].
  assert (Hag : all_active g). { intros i Ii. rewrite G3. apply Hact. unfold bodies in *. rewrite <- G1. exact Ii. }
  destruct (solve_fb inv f A m0 m Hi HA E g G1 Hag) as (acc & E1 & _ & _ & U). intros i Ii. exists (acc i). split; [auto|]. intros a Ha. symmetry.
  apply (U (fl_qb f)); auto. intros k b K B. symmetry. apply G6; auto.
Qed.
(** Pair by pair the inverse is available for every vector, and solves the equations too *)
Theorem C152_pairwise : forall inv f A m0 m, inverts inv -> has_added_mass f A -> BuildGeneralizedMass inv f m0 = Ok m -> forall v : nat -> vec6, exists x : nat -> vec6,
  (forall i, In i (bodies f) -> by_pairs m i v (bodies f) zero6 = Ok (x i)) /\ forall i a, In i (bodies f) -> (a < 6)%nat -> momentum f A x i a = v i a.
Proof.
  intros inv f A m0 m Hi HA E v. destruct (built_blocks inv f A m0 m Hi HA E) as (N & P & HP & Hb & Hm).
  set (g := Fleet (fl_db f) (fl_tensor f) (fun _ => true) (fl_offset f) (fl_frame f) v (fl_qb f)).
  destruct (solve_fb inv f A m0 m Hi HA E g eq_refl (fun _ _ => eq_refl)) as (acc & E1 & E2 & E3 & U).
  exists (fun i => match by_pairs m i v (bodies f) zero6 with Ok r => r | _ => zero6 end). split.
  - intros i Ii. destruct (by_pairs_sum m N i v (bodies f) zero6 (fun j J => Hm i j Ii J)) as (r & -> & _). reflexivity.
  - intros i a Ii Ha. change (v i a) with (fl_fb g i a). rewrite <- (E3 i a Ii Ha). unfold momentum. apply over_ext. intros j Ij. apply sum6_ext. intros b Hb'. f_equal.
    destruct (by_pairs_sum m N j v (bodies f) zero6 (fun k K => Hm j k Ij K)) as (r & -> & Hr). rewrite Hr by exact Hb'.
    destruct (inc_inv g m N j zero6 (fun k K => Hm j k Ij K) (fun _ _ => eq_refl)) as (r' & Er & Hr'). specialize (E1 j Ij). unfold Compute_invMb_v in E1.
    change (fl_fb g j) with (v j) in *. rewrite Er in E1. injection E1 as <-. rewrite Hr' by exact Hb'. reflexivity.
Qed.
(** With added masses that never take energy and bodies that have mass, forces do positive work on the accelerations they cause *)
Theorem C152_work : forall inv f A m0 m, inverts inv -> has_added_mass f A -> BuildGeneralizedMass inv f m0 = Ok m -> (forall x, 0 <= added_energy f A x) -> (forall i, In i (bodies f) -> massive (fl_tensor f i)) ->
  forall g acc, fl_db g = fl_db f -> all_active g -> (forall i, In i (bodies f) -> Compute_invMb_v g m i (fl_fb g i) = Ok (acc i)) ->
  let W := over (bodies f) (fun i => sum6 (fun a => acc i a * fl_fb g i a)) in 0 <= W /\ (W = 0 -> forall i a, In i (bodies f) -> (a < 6)%nat -> fl_fb g i a = 0).
Proof.
  intros inv f A m0 m Hi HA E Hp Hm g acc Eg Hact H. destruct (solve_fb inv f A m0 m Hi HA E g Eg Hact) as (acc' & E1 & _ & E3 & _).
  assert (E4 : forall i a, In i (bodies f) -> (a < 6)%nat -> momentum f A acc i a = fl_fb g i a).
  { intros i a Ii Ha. rewrite <- (E3 i a Ii Ha). unfold momentum. apply over_ext. intros j Ij. apply sum6_ext. intros b _. f_equal. specialize (E1 j Ij). rewrite (H j Ij) in E1. injection E1 as ->. reflexivity. }
  cbv zeta. rewrite (work f A g acc E4). destruct (energy_positive f A acc HA Hp Hm) as [P1 P2]. split; [exact P1|]. intros W0. apply (rest_force f A g acc E4). exact (P2 W0).
Qed.
Example C152_example : all_active pair0 /\ (exists r, Compute_invMb_v pair0 m0 0 (fl_fb pair0 0%nat) = Ok r /\ r 0%nat = 2 / 3) /\ massive (unit_tensor 1).
Proof. split; [exact pair0_active|]. split; [destruct not_linear as (r & r' & E & _ & E1 & _); eauto|exact unit_massive]. Qed.

(** ** C153: the residual of the integrator gains c times the added masses times the speeds of the free bodies *)
Theorem C153_residual : forall f A w c R0, has_added_mass f A -> apart f -> exists R1, IntLoadResidual_Mv f w c R0 = Ok R1 /\
  (forall i a, In i (bodies f) -> fl_active f i = true -> (a < 6)%nat ->
     R1 (fl_offset f i + a)%nat = R0 (fl_offset f i + a)%nat + c * over (filter (fl_active f) (bodies f)) (fun j => sum6 (fun b => A i j a b * w (fl_offset f j + b)%nat))) /\
  forall r, (forall i, In i (bodies f) -> fl_active f i = true -> ~ (fl_offset f i <= r < fl_offset f i + 6)%nat) -> R1 r = R0 r.
Proof. intros f A w c R0 HA Hap. destruct (residual_sum f A w c HA Hap (bodies f) R0 (proj1 HA) (fun j J => J)) as (R1 & E & Ho & Hi). exists R1. auto. Qed.
(** The diagonal of the mass and the matrix of one body *)
Theorem C153_diagonal : forall f A i offset result c, has_added_mass f A -> In i (bodies f) -> exists r, DiagonalAdd f i offset result c = Ok r /\
  (forall a, (a < 6)%nat -> r (offset + a)%nat = result (offset + a)%nat + c * inertia_of_pair f A i i a a) /\ forall k, ~ (offset <= k < offset + 6)%nat -> r k = result k.
Proof. exact diagonal_value. Qed.
Theorem C153_matrix : forall f A i row col c S0, has_added_mass f A -> In i (bodies f) -> exists S1, Build_M f i row col c S0 = Ok S1 /\
  (forall a b, (a < 6)%nat -> (b < 6)%nat -> S1 (row + a)%nat (col + b)%nat = c * inertia_of_pair f A i i a b) /\
  forall r k, ~ (row <= r < row + 6 /\ col <= k < col + 6)%nat -> S1 r k = S0 r k.
Proof. exact build_value. Qed.
Example C153_example : has_added_mass pair0 A0 /\ apart pair0 /\ exists R1, IntLoadResidual_Mv pair0 (fun _ => 1) 2 (fun _ => 0) = Ok R1 /\ R1 6%nat = 1 /\ R1 7%nat = 0.
Proof. split; [exact pair0_mass|]. split; [exact pair0_apart|]. eexists. split; [reflexivity|]. split; num. Qed.

(** ** C154: the variables do not represent one linear operator *)
Theorem C154_linear_refuted : ~ (forall inv f A m0 m i v c r r', inverts inv -> has_added_mass f A -> all_active f -> BuildGeneralizedMass inv f m0 = Ok m -> In i (bodies f) ->
  Compute_invMb_v f m i v = Ok r -> Compute_invMb_v f m i (scale6 c v) = Ok r' -> forall a, (a < 6)%nat -> r' a = c * r a).
Proof.
  intros H. destruct not_linear as (r & r' & E & E' & V1 & V2). destruct pair0_built as [B1 B2].
  pose proof (H inv0 pair0 A0 no_blocks m0 0%nat _ 2 r r' B1 pair0_mass pair0_active B2 (or_introl eq_refl) E E' 0%nat ltac:(lia)). lra.
Qed.
(** The product with an offset reads the vector at its beginning: right for the first body only *)
Theorem C154_product_partial : forall f A i result vect c, has_added_mass f A -> In i (bodies f) -> exists r, MultiplyAndAdd f i 0 result vect c = Ok r /\
  forall a, (a < 6)%nat -> r a = result a + c * sum6 (fun b => inertia_of_pair f A i i a b * vect b).
Proof. intros f A i result vect c HA Ii. destruct (multiply_value f A i 0 result vect c HA Ii) as (r & E & Hr & _). exists r. split; [exact E|]. intros a Ha. exact (Hr a Ha). Qed.
Theorem C154_product_refuted : ~ (forall f A i offset result vect c r, has_added_mass f A -> In i (bodies f) -> MultiplyAndAdd f i offset result vect c = Ok r ->
  forall a, (a < 6)%nat -> r (offset + a)%nat = result (offset + a)%nat + c * sum6 (fun b => inertia_of_pair f A i i a b * vect (offset + b)%nat)).
Proof.
  intros H. destruct (multiply_value pair0 A0 1 6 (fun _ => 0) e0 1 pair0_mass (or_intror (or_introl eq_refl))) as (r & E & Hr & _).
  pose proof (H pair0 A0 1%nat 6%nat (fun _ => 0) e0 1 r pair0_mass (or_intror (or_introl eq_refl)) E 0%nat ltac:(lia)) as F. rewrite (Hr 0%nat) in F by lia. revert F.
  unfold sum6, inertia_of_pair, A0, surge, e0. cbn [map total Nat.eqb Nat.add fl_tensor pair0 unit_tensor GetMassMatrixAtCOG i_mass]. lra.
Qed.
(** The assembled matrix has no coupling between the bodies *)
Theorem C154_assembly_refuted : ~ (forall f A c S0 S1 S2 i j, has_added_mass f A -> apart f -> bodies f = [i; j] ->
  Build_M f i (fl_offset f i) (fl_offset f i) c S0 = Ok S1 -> Build_M f j (fl_offset f j) (fl_offset f j) c S1 = Ok S2 -> (forall r k, S0 r k = 0) ->
  forall a b, (a < 6)%nat -> (b < 6)%nat -> S2 (fl_offset f i + a)%nat (fl_offset f j + b)%nat = c * inertia_of_pair f A i j a b).
Proof.
  intros H. destruct (build_value pair0 A0 0 0 0 1 (fun _ _ => 0) pair0_mass (or_introl eq_refl)) as (S1 & E1 & _ & O1).
  destruct (build_value pair0 A0 1 6 6 1 S1 pair0_mass (or_intror (or_introl eq_refl))) as (S2 & E2 & _ & O2).
  pose proof (H pair0 A0 1 (fun _ _ => 0) S1 S2 0%nat 1%nat pair0_mass pair0_apart eq_refl E1 E2 (fun _ _ => eq_refl) 0%nat 0%nat ltac:(lia) ltac:(lia)) as F.
  change (S2 0%nat 6%nat = 1 * inertia_of_pair pair0 A0 0 1 0 0) in F. rewrite O2, O1 in F by lia. revert F. unfold inertia_of_pair, A0, surge. cbn [Nat.eqb]. lra.
Qed.

(** ** C155: a change of the inertia of a body after the initialisation does not reach the inverse *)
Theorem C155_inertia_refuted : ~ (forall inv f A m0 m i t acc, inverts inv -> has_added_mass f A -> BuildGeneralizedMass inv f m0 = Ok m -> let g := set_tensor f i t in all_active g ->
  (forall k, In k (bodies g) -> Compute_invMb_v g m k (fl_fb g k) = Ok (acc k)) -> forall k a, In k (bodies g) -> (a < 6)%nat -> momentum g A acc k a = fl_fb g k a).
Proof.
  intros H. destruct stale as (_ & Ha & acc & E & N). destruct pair0_built as [B1 B2].
  apply N. exact (H inv0 pair0 A0 no_blocks m0 0%nat (unit_tensor 3) acc B1 pair0_mass B2 Ha E 0%nat 0%nat (or_introl eq_refl) ltac:(lia)).
Qed.

(** ** C156: next to a body that does not move, the accelerations of the others do not solve their equations *)
Theorem C156_fixed_refuted : ~ (forall inv f A m0 m acc, inverts inv -> has_added_mass f A -> BuildGeneralizedMass inv f m0 = Ok m ->
  (forall i, In i (bodies f) -> fl_active f i = true -> Compute_invMb_v f m i (fl_fb f i) = Ok (acc i)) ->
  forall i a, In i (bodies f) -> fl_active f i = true -> (a < 6)%nat -> over (filter (fl_active f) (bodies f)) (fun j => sum6 (fun b => inertia_of_pair f A i j a b * acc j b)) = fl_fb f i a).
Proof.
  intros H. destruct moored_acc as (r & E & V1). destruct pair0_built as [B1 B2].
  assert (F : over (filter (fl_active moored) (bodies moored)) (fun j => sum6 (fun b => inertia_of_pair moored A0 0 j 0 b * r b)) = 1).
  { apply (H inv0 moored A0 no_blocks m0 (fun _ => r) B1 pair0_mass B2); [|left; reflexivity|reflexivity|lia]. intros i [<-|[<-|[]]] Ha; [exact E|discriminate]. }
  revert F. unfold over, sum6, inertia_of_pair, A0, surge. cbn [filter bodies moored fl_active fl_db pair0 h_order Nat.eqb map total fl_tensor unit_tensor GetMassMatrixAtCOG i_mass]. lra.
Qed.

(** ** C157: the added mass is not turned with the ship *)
Theorem C157_heading_refuted : ~ (forall f A psi w R1 i, has_added_mass f A -> bodies f = [i] -> fl_active f i = true -> (forall v, qrotate (frot (fl_frame f i)) v = mv (Rz psi) v) ->
  IntLoadResidual_Mv f w 1 (fun _ => 0) = Ok R1 -> let o := fl_offset f i in (forall k, w (o + 3 + k)%nat = 0) ->
  V (R1 o) (R1 (o + 1)%nat) (R1 (o + 2)%nat) = in_heading (A i i) psi (V (w o) (w (o + 1)%nat) (w (o + 2)%nat))).
Proof.
  intros H. destruct west_load as (R1 & E & V0 & V1 & V2).
  pose proof (H west (fun _ _ => surge 1) (PI / 2) e0 R1 0%nat west_mass eq_refl eq_refl west_axes E (fun _ => eq_refl)) as F.
  change (V (R1 0%nat) (R1 1%nat) (R1 2%nat) = in_heading (surge 1) (PI / 2) (V 1 0 0)) in F. rewrite west_expected in F. apply (f_equal vx) in F. cbn [vx] in F. lra.
Qed.
Print Assumptions C152_equations.
Print Assumptions C157_heading_refuted.
