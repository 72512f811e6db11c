(** Proofs for the constraint between two bodies. *)
From Coq Require Import Reals List Bool Arith Lia Lra Psatz FunctionalExtensionality.
From Verif Require Import GeoModel GeoSpec GeoProofs FloProofs2 BodyModel InertiaModel SeaModel FloModel RadModel RadSpec RadProofs7 RadProofs8 ExcProofs5 AmModel AmSpec AmProofs AmProofs2 AmProofs3 AmProofs4 AmProofs5 ConModel.
Import ListNotations.
Open Scope R_scope.

Lemma row_col_sum c e : row_col c e = sum6 (fun k => c k * e k).
Proof. unfold row_col, sum6. cbn [map total]. ring. Qed.
Lemma over_two l (h : nat -> R) a b : NoDup l -> In a l -> In b l -> a <> b -> (forall j, In j l -> j <> a -> j <> b -> h j = 0) -> over l h = h a + h b.
Proof.
  intros Hn Ha Hb Hab H. rewrite <- (over_pick l h a Hn Ha), <- (over_pick l h b Hn Hb), <- over_plus. apply over_ext. intros j Hj.
  destruct (Nat.eqb_spec a j) as [A|A]; destruct (Nat.eqb_spec b j) as [B|B]; try (exfalso; congruence); try ring.
  rewrite (H j Hj) by (intro; subst; auto). ring.
Qed.
Lemma over_one l (h : nat -> R) a : NoDup l -> In a l -> (forall j, In j l -> j <> a -> h j = 0) -> over l h = h a.
Proof.
  intros Hn Ha H. rewrite <- (over_pick l h a Hn Ha). apply over_ext. intros j Hj. destruct (Nat.eqb_spec a j) as [<-|A]; [reflexivity|]. apply H; [exact Hj|intro; subst; auto].
Qed.
(** The accelerations are given by the blocks of the inverse *)
Lemma by_blocks inv f A m0 m : inverts inv -> has_added_mass f A -> BuildGeneralizedMass inv f m0 = Ok m -> exists N, 
  (forall i j, In i (bodies f) -> In j (bodies f) -> m i j = Some (N i j)) /\
  forall v x : nat -> vec6, (forall i c, In i (bodies f) -> (c < 6)%nat -> momentum f A x i c = v i c) ->
  forall i c, In i (bodies f) -> (c < 6)%nat -> x i c = over (bodies f) (fun j => sum6 (fun b => N i j c b * v j b)).
Proof.
  intros Hi HA E. destruct (built_blocks inv f A m0 m Hi HA E) as (N & P & HP & Hb & Hm). exists N. split; [exact Hm|].
  intros v x Hx. set (g := Fleet (fl_db f) (fl_tensor f) (fun _ => true) (fl_offset f) (fl_frame f) v (fl_qb f)).
  destruct (solve_fb inv f A m0 m Hi HA E g eq_refl (fun _ _ => eq_refl)) as (acc & E1 & _ & _ & U).
  intros i c Ii Hc. rewrite (U x Hx i c Ii Hc).
  destruct (inc_inv g m N i zero6 (fun k K => Hm i k Ii K) (fun _ _ => eq_refl)) as (r' & Er & Hr'). specialize (E1 i Ii). unfold Compute_invMb_v in E1.
  rewrite Er in E1. injection E1 as <-. rewrite Hr' by exact Hc. change (bodies g) with (bodies f). change (fl_fb g) with v.
  change (zero6 c) with 0. ring.
Qed.
Lemma own_block f m i N v : m i i = Some N -> (exists k, (k < 6)%nat /\ v k <> fl_fb f i k) -> Compute_invMb_v f m i v = Ok (inc_mul zero6 N v).
Proof.
  intros Hm (k & Hk & Hv). unfold Compute_invMb_v, Compute_inc_invMb_v. rewrite (equals_no v (fl_fb f i) k Hk Hv). unfold GetInverseGeneralizedMass. rewrite Hm. reflexivity.
Qed.
Lemma coupled inv f A m0 m a b Cq_a Cq_b cfm : inverts inv -> has_added_mass f A -> BuildGeneralizedMass inv f m0 = Ok m ->
  In a (bodies f) -> In b (bodies f) -> a <> b -> fl_active f a = true -> fl_active f b = true ->
  (exists k, (k < 6)%nat /\ Cq_a k <> fl_fb f a k) -> (exists k, (k < 6)%nat /\ Cq_b k <> fl_fb f b k) ->
  exists Eq_a Eq_b g, Update_auxiliary f m a (Some b) Cq_a Cq_b cfm = Ok (Eq_a, Eq_b, g) /\
  forall x : nat -> vec6, (forall i c, In i (bodies f) -> (c < 6)%nat -> momentum f A x i c = (if Nat.eqb i a then Cq_a c else if Nat.eqb i b then Cq_b c else 0)) ->
  (forall c, (c < 6)%nat -> Eq_a c = x a c /\ Eq_b c = x b c) /\ g = sum6 (fun c => Cq_a c * x a c) + sum6 (fun c => Cq_b c * x b c) + cfm.
Proof.
  intros Hi HA E Ia Ib Hab Aa Ab Na Nb. destruct (by_blocks inv f A m0 m Hi HA E) as (N & Hm & HN).
  unfold Update_auxiliary. rewrite Aa, Ab. cbn [is_active]. rewrite Ab. cbn [andb].
  rewrite (own_block f m a (N a a) Cq_a (Hm a a Ia Ia) Na), (own_block f m b (N b b) Cq_b (Hm b b Ib Ib) Nb). cbn [rbind].
  unfold Compute_inc_invMb_v_of, GetInverseGeneralizedMass. rewrite (Hm a b Ia Ib), (Hm b a Ib Ia). cbn [rbind].
  do 3 eexists. split; [reflexivity|]. intros x Hx.
  set (v := fun i c => if Nat.eqb i a then Cq_a c else if Nat.eqb i b then Cq_b c else 0) in *.
  assert (Va : v a = Cq_a) by (apply functional_extensionality; intro; unfold v; rewrite Nat.eqb_refl; reflexivity).
  assert (Vb : v b = Cq_b) by (apply functional_extensionality; intro; unfold v; rewrite (proj2 (Nat.eqb_neq b a)) by auto; rewrite Nat.eqb_refl; reflexivity).
  assert (X : forall i c, In i (bodies f) -> (c < 6)%nat -> x i c = sum6 (fun k => N i a c k * Cq_a k) + sum6 (fun k => N i b c k * Cq_b k)).
  { intros i c Ii Hc. rewrite (HN v x Hx i c Ii Hc). rewrite (over_two _ _ a b (proj1 HA) Ia Ib Hab); [rewrite Va, Vb; reflexivity|].
    intros j _ Ja Jb. unfold v. rewrite (proj2 (Nat.eqb_neq j a)) by auto. rewrite (proj2 (Nat.eqb_neq j b)) by auto. unfold sum6. cbn [map total]. ring. }
  assert (Ea : forall c, (c < 6)%nat -> inc_mul (inc_mul zero6 (N a a) Cq_a) (N a b) Cq_b c = x a c).
  { intros c Hc. rewrite !inc_mul_sum by exact Hc. rewrite (X a c Ia Hc). change (zero6 c) with 0. ring. }
  assert (Eb : forall c, (c < 6)%nat -> inc_mul (inc_mul zero6 (N b b) Cq_b) (N b a) Cq_a c = x b c).
  { intros c Hc. rewrite !inc_mul_sum by exact Hc. rewrite (X b c Ib Hc). change (zero6 c) with 0. ring. }
  split; [intros c Hc; split; auto|]. rewrite !row_col_sum. f_equal. f_equal; apply sum6_ext; intros k Hk; f_equal; auto.
Qed.
Lemma grounded inv f A m0 m a Cq_a Cq_b cfm : inverts inv -> has_added_mass f A -> BuildGeneralizedMass inv f m0 = Ok m ->
  In a (bodies f) -> fl_active f a = true -> (exists k, (k < 6)%nat /\ Cq_a k <> fl_fb f a k) ->
  exists Eq_a Eq_b g, Update_auxiliary f m a None Cq_a Cq_b cfm = Ok (Eq_a, Eq_b, g) /\
  forall x : nat -> vec6, (forall i c, In i (bodies f) -> (c < 6)%nat -> momentum f A x i c = (if Nat.eqb i a then Cq_a c else 0)) ->
  (forall c, (c < 6)%nat -> Eq_a c = x a c) /\ g = sum6 (fun c => Cq_a c * x a c) + cfm.
Proof.
  intros Hi HA E Ia Aa Na. destruct (by_blocks inv f A m0 m Hi HA E) as (N & Hm & HN).
  unfold Update_auxiliary. rewrite Aa. cbn [is_active].
  rewrite (own_block f m a (N a a) Cq_a (Hm a a Ia Ia) Na). cbn [rbind].
  do 3 eexists. split; [reflexivity|]. intros x Hx.
  set (v := fun i c => if Nat.eqb i a then Cq_a c else 0) in *.
  assert (Ea : forall c, (c < 6)%nat -> inc_mul zero6 (N a a) Cq_a c = x a c).
  { intros c Hc. rewrite inc_mul_sum by exact Hc. rewrite (HN v x Hx a c Ia Hc). rewrite (over_one _ _ a (proj1 HA) Ia).
    - change (zero6 c) with 0. unfold v. rewrite Nat.eqb_refl. ring.
    - intros j _ Ja. unfold v. rewrite (proj2 (Nat.eqb_neq j a)) by auto. unfold sum6. cbn [map total]. ring. }
  split; [exact Ea|]. rewrite row_col_sum. f_equal. apply sum6_ext; intros k Hk; f_equal; auto.
Qed.
(** Counterexamples on the pair of bodies of AmProofs4, whose forces fb are e0 *)
Lemma taut_pair : exists Eq_a Eq_b g, Update_auxiliary pair0 m0 0 (Some 1%nat) e0 (fun k => - e0 k) 0 = Ok (Eq_a, Eq_b, g) /\ Eq_a 0%nat = 4 / 3 /\ g = 10 / 3.
Proof.
  unfold Update_auxiliary, Compute_invMb_v, Compute_inc_invMb_v. cbn [pair0 fl_active andb is_active].
  change (fl_fb pair0 0%nat) with e0. change (fl_fb pair0 1%nat) with e0. rewrite eq6_refl, (equals_no (fun k => - e0 k) e0 0) by (lia || (cbn; lra)).
  change (h_order (fl_db pair0)) with [0%nat; 1%nat]. cbn [inc_bodies pair0 fl_active]. unfold Compute_inc_invMb_v_of, GetInverseGeneralizedMass. rewrite !m0_block by lia. cbn [rbind].
  do 3 eexists. split; [reflexivity|]. split; num.
Qed.
Lemma held : exists Eq_a Eq_b g, Update_auxiliary pair0 m0 0 None (fun k => 2 * e0 k) zero6 0 = Ok (Eq_a, Eq_b, g) /\
  momentum pair0 A0 (fl_qb (Increment_q pair0 0 None Eq_a Eq_b 3)) 1 0 <> momentum pair0 A0 (fl_qb pair0) 1 0.
Proof.
  unfold Update_auxiliary, Compute_invMb_v, Compute_inc_invMb_v. cbn [pair0 fl_active is_active].
  change (fl_fb pair0 0%nat) with e0. rewrite (equals_no (fun k => 2 * e0 k) e0 0) by (lia || (cbn; lra)).
  unfold GetInverseGeneralizedMass. rewrite !m0_block by lia. cbn [rbind].
  do 3 eexists. split; [reflexivity|].
  unfold momentum, bodies. change (h_order (fl_db pair0)) with [0%nat; 1%nat]. unfold over. cbn [map total].
  match goal with |- ?x <> ?y => replace x with (11 / 2); [replace y with (3 / 2); [lra|]|] end; num.
Qed.
Lemma taut_acc : forall i c, In i (bodies pair0) -> (c < 6)%nat -> momentum pair0 A0 (fun i c => (if Nat.eqb i 0 then 2 else -2) * e0 c) i c = (if Nat.eqb i 0 then e0 c else if Nat.eqb i 1 then - e0 c else 0).
Proof.
  intros i c Hi Hc. unfold momentum, bodies. change (h_order (fl_db pair0)) with [0%nat; 1%nat]. unfold over. cbn [map total].
  destruct Hi as [<-|[<-|[]]]; do 6 (destruct c as [|c]; [num|]); lia.
Qed.
Lemma demo_constraint : exists Eq_a Eq_b g, Update_auxiliary pair0 m0 0 (Some 1%nat) (fun k => 2 * e0 k) (fun k => - (2 * e0 k)) 0 = Ok (Eq_a, Eq_b, g) /\
  exists acc, forall i c, In i (bodies pair0) -> (c < 6)%nat -> momentum pair0 A0 acc i c = (if Nat.eqb i 0 then 2 * e0 c else if Nat.eqb i 1 then - (2 * e0 c) else 0).
Proof.
  destruct (coupled inv0 pair0 A0 no_blocks m0 0%nat 1%nat (fun k => 2 * e0 k) (fun k => - (2 * e0 k)) 0 (proj1 pair0_built) pair0_mass (proj2 pair0_built) (or_introl eq_refl) (or_intror (or_introl eq_refl)) ltac:(lia) eq_refl eq_refl)
    as (Ea & Eb & g & U & _); try (exists 0%nat; split; [lia|cbn; lra]).
  exists Ea, Eb, g. split; [exact U|]. exists (fun i c => (if Nat.eqb i 0 then 4 else -4) * e0 c).
  intros i c Hi Hc. unfold momentum, bodies. change (h_order (fl_db pair0)) with [0%nat; 1%nat]. unfold over. cbn [map total].
  destruct Hi as [<-|[<-|[]]]; do 6 (destruct c as [|c]; [num|]); lia.
Qed.
