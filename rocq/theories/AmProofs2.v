(** The inverse by blocks, the coupled equations, the residual. *)
From Coq Require Import Reals List Bool Arith Lia Lra Psatz FunctionalExtensionality.
From Verif Require Import GeoModel GeoSpec BodyModel InertiaModel SeaModel FloModel RadModel RadSpec RadProofs7 RadProofs8 ExcProofs5 AmModel AmSpec AmProofs.
Import ListNotations.
Open Scope R_scope.

Lemma split6 r n : (r < 6 * n)%nat -> (r / 6 < n /\ r mod 6 < 6 /\ 6 * (r / 6) + r mod 6 = r)%nat.
Proof. intros H. split; [apply Nat.div_lt_upper_bound; lia|]. split; [apply Nat.mod_upper_bound; lia|]. symmetry. apply Nat.div_mod_eq. Qed.
(** Flat index of component a of body i *)
Lemma flat_index l i a : In i l -> (a < 6)%nat -> exists r, (r < 6 * length l)%nat /\ nth (r / 6) l 0%nat = i /\ (r mod 6 = a)%nat.
Proof. intros H Ha. destruct (at_place l i H) as (p & Hp & E). exists (6 * p + a)%nat. destruct (div6 p a Ha) as [-> ->]. split; [lia|]. auto. Qed.

(** Blocks N whose flat matrix is P *)
Definition blocks_of (l : list nat) (N : nat -> nat -> mat6) (P : matrix) : Prop := forall r c, (r < 6 * length l)%nat -> (c < 6 * length l)%nat ->
  N (nth (r / 6) l 0%nat) (nth (c / 6) l 0%nat) (r mod 6)%nat (c mod 6)%nat = P r c.
Lemma built_blocks inv f A m0 m : inverts inv -> has_added_mass f A -> BuildGeneralizedMass inv f m0 = Ok m -> exists N P,
  is_inverse (6 * length (bodies f)) (flat f A) P /\ blocks_of (bodies f) N P /\ forall i j, In i (bodies f) -> In j (bodies f) -> m i j = Some (N i j).
Proof.
  intros Hi HA E. destruct (built inv f A m0 m Hi HA E) as (P & HP & Hb). exists (fun i j => match m i j with Some b => b | None => fun _ _ => 0 end), P. split; [exact HP|]. split.
  - intros r c Hr Hc. destruct (split6 r _ Hr) as (r1 & r2 & r3). destruct (split6 c _ Hc) as (c1 & c2 & c3). rewrite (Hb _ _ r1 c1), r3, c3. reflexivity.
  - intros i j Hi' Hj. destruct (at_place _ i Hi') as (p & Hp & <-). destruct (at_place _ j Hj) as (q & Hq & <-). rewrite (Hb p q Hp Hq). reflexivity.
Qed.
(** Product of rows of blocks with a vector *)
Lemma blocks_mul l N P (x : nat -> vec6) r : blocks_of l N P -> (r < 6 * length l)%nat ->
  over l (fun j => sum6 (fun b => N (nth (r / 6) l 0%nat) j (r mod 6)%nat b * x j b)) = total (map (fun c => P r c * x (nth (c / 6) l 0%nat) (c mod 6)%nat) (seq 0 (6 * length l))).
Proof.
  intros H Hr. rewrite (flat_over (fun j b => N (nth (r / 6) l 0%nat) j (r mod 6)%nat b * x j b)). apply tot_in. intros c Hc. apply in_seq in Hc. rewrite H by lia. reflexivity.
Qed.
Lemma blocks_blocks l N P N' P' r c : blocks_of l N P -> blocks_of l N' P' -> (r < 6 * length l)%nat -> (c < 6 * length l)%nat ->
  over l (fun j => sum6 (fun b => N (nth (r / 6) l 0%nat) j (r mod 6)%nat b * N' j (nth (c / 6) l 0%nat) b (c mod 6)%nat)) = total (map (fun k => P r k * P' k c) (seq 0 (6 * length l))).
Proof.
  intros H H' Hr Hc. rewrite (flat_over (fun j b => N (nth (r / 6) l 0%nat) j (r mod 6)%nat b * N' j (nth (c / 6) l 0%nat) b (c mod 6)%nat)).
  apply tot_in. intros k Hk. apply in_seq in Hk. rewrite H, H' by lia. reflexivity.
Qed.
Lemma flat_blocks f A : blocks_of (bodies f) (inertia_of_pair f A) (flat f A).
Proof. intros r c _ _. reflexivity. Qed.

Lemma inverse_blocks inv f A m0 m : inverts inv -> has_added_mass f A -> BuildGeneralizedMass inv f m0 = Ok m -> exists N,
  (forall i j, In i (bodies f) -> In j (bodies f) -> GetInverseGeneralizedMass m i j = Ok (N i j)) /\
  forall i j a b, In i (bodies f) -> In j (bodies f) -> (a < 6)%nat -> (b < 6)%nat ->
    over (bodies f) (fun k => sum6 (fun c => inertia_of_pair f A i k a c * N k j c b)) = delta i j * delta a b /\
    over (bodies f) (fun k => sum6 (fun c => N i k a c * inertia_of_pair f A k j c b)) = delta i j * delta a b.
Proof.
  intros Hi HA E. destruct (built_blocks inv f A m0 m Hi HA E) as (N & P & HP & Hb & Hm). exists N. split.
  - intros i j Ii Ij. unfold GetInverseGeneralizedMass. rewrite (Hm i j Ii Ij). reflexivity.
  - intros i j a b Ii Ij Ha Hb'. destruct (flat_index _ i a Ii Ha) as (r & Hr & <- & <-). destruct (flat_index _ j b Ij Hb') as (c & Hc & <- & <-).
    rewrite <- (delta_flat (bodies f) r c) by (auto; apply HA). destruct (HP r c Hr Hc) as [H1 H2].
    rewrite (blocks_blocks _ _ _ _ _ r c (flat_blocks f A) Hb Hr Hc), (blocks_blocks _ _ _ _ _ r c Hb (flat_blocks f A) Hr Hc). auto.
Qed.

(** ** The coupled equations *)
Lemma inc_inv f m N i r0 : (forall j, In j (bodies f) -> m i j = Some (N i j)) -> all_active f -> 
  exists a, Compute_inc_invMb_v f m i r0 (fl_fb f i) = Ok a /\ forall k, (k < 6)%nat -> a k = r0 k + over (bodies f) (fun j => sum6 (fun b => N i j k b * fl_fb f j b)).
Proof.
  intros Hm Ha. unfold Compute_inc_invMb_v. rewrite eq6_refl.
  destruct (inc_bodies_sum f (GetInverseGeneralizedMass m i) (N i) (fl_fb f) (bodies f) r0) as (r & E & Hr).
  { intros j Hj _. unfold GetInverseGeneralizedMass. rewrite (Hm j Hj). eauto. }
  exists r. split; [exact E|]. intros k Hk. rewrite Hr by auto. rewrite filter_all by exact Ha. reflexivity.
Qed.
Lemma solve_fb inv f A m0 m : inverts inv -> has_added_mass f A -> BuildGeneralizedMass inv f m0 = Ok m ->
  forall g, fl_db g = fl_db f -> all_active g -> exists acc : nat -> vec6,
  (forall i, In i (bodies f) -> Compute_invMb_v g m i (fl_fb g i) = Ok (acc i)) /\
  (forall i r0, In i (bodies f) -> exists r, Compute_inc_invMb_v g m i r0 (fl_fb g i) = Ok r /\ forall a, (a < 6)%nat -> r a = r0 a + acc i a) /\
  (forall i a, In i (bodies f) -> (a < 6)%nat -> momentum f A acc i a = fl_fb g i a) /\
  forall x : nat -> vec6, (forall i a, In i (bodies f) -> (a < 6)%nat -> momentum f A x i a = fl_fb g i a) -> forall i a, In i (bodies f) -> (a < 6)%nat -> x i a = acc i a.
Proof.
  intros Hi HA E g Eg Hact. destruct (built_blocks inv f A m0 m Hi HA E) as (N & P & HP & Hb & Hm).
  assert (Bg : bodies g = bodies f) by (unfold bodies; rewrite Eg; reflexivity).
  set (acc := fun i => match Compute_invMb_v g m i (fl_fb g i) with Ok a => a | _ => zero6 end).
  assert (Hinc : forall i r0, In i (bodies f) -> exists a, Compute_inc_invMb_v g m i r0 (fl_fb g i) = Ok a /\ forall k, (k < 6)%nat -> a k = r0 k + over (bodies f) (fun j => sum6 (fun b => N i j k b * fl_fb g j b))).
  { intros i r0 Ii. rewrite <- Bg. apply inc_inv; [|exact Hact]. rewrite Bg. intros j Ij. apply Hm; auto. }
  assert (Hacc : forall i, In i (bodies f) -> Compute_invMb_v g m i (fl_fb g i) = Ok (acc i) /\ forall k, (k < 6)%nat -> acc i k = over (bodies f) (fun j => sum6 (fun b => N i j k b * fl_fb g j b))).
  { intros i Ii. destruct (Hinc i zero6 Ii) as (a & Ea & Ha). unfold acc, Compute_invMb_v. rewrite Ea. split; [reflexivity|]. intros k Hk. rewrite Ha by auto. unfold zero6. ring. }
  exists acc. split; [intros i Ii; apply Hacc; auto|]. split.
  { intros i r0 Ii. destruct (Hinc i r0 Ii) as (a & Ea & Ha). exists a. split; [exact Ea|]. intros k Hk. rewrite Ha by auto. f_equal. symmetry. apply Hacc; auto. }
  set (FB := fun c => fl_fb g (nth (c / 6) (bodies f) 0%nat) (c mod 6)%nat).
  assert (Hflat : forall c, (c < 6 * length (bodies f))%nat -> acc (nth (c / 6) (bodies f) 0%nat) (c mod 6)%nat = total (map (fun d => P c d * FB d) (seq 0 (6 * length (bodies f))))).
  { intros c Hc. destruct (split6 c _ Hc) as (c1 & c2 & _). rewrite (proj2 (Hacc _ (nth_In _ 0%nat c1)) _ c2). apply (blocks_mul (bodies f) N P (fl_fb g) c Hb Hc). }
  split.
  - intros i a Ii Ha. destruct (flat_index _ i a Ii Ha) as (r & Hr & <- & <-). unfold momentum. rewrite (blocks_mul _ _ _ acc r (flat_blocks f A) Hr).
    rewrite (tot_in _ (fun c => flat f A r c * total (map (fun d => P c d * FB d) (seq 0 (6 * length (bodies f)))))). 2:{ intros c Hc. apply in_seq in Hc. rewrite Hflat by lia. reflexivity. }
    apply (undo _ (flat f A) P FB r Hr). intros r' c' R1 C1. apply (HP r' c' R1 C1).
  - intros x Hx i a Ii Ha. destruct (flat_index _ i a Ii Ha) as (r & Hr & <- & <-). rewrite Hflat by auto.
    rewrite (tot_in _ (fun d => P r d * total (map (fun c => flat f A d c * (fun c => x (nth (c / 6) (bodies f) 0%nat) (c mod 6)%nat) c) (seq 0 (6 * length (bodies f)))))).
    + symmetry. apply (undo _ P (flat f A) (fun c => x (nth (c / 6) (bodies f) 0%nat) (c mod 6)%nat) r Hr). intros r' c' R1 C1. apply (HP r' c' R1 C1).
    + intros d Hd. apply in_seq in Hd. f_equal. unfold FB. assert (D1 : (d < 6 * length (bodies f))%nat) by lia. destruct (split6 d _ D1) as (d1 & d2 & _).
      rewrite <- (Hx _ _ (nth_In _ 0%nat d1) d2). unfold momentum. apply (blocks_mul _ _ _ x d (flat_blocks f A) D1).
Qed.
(** Momenta: VariablesFbIncrementMq *)
Lemma inc_mass f A i r0 : has_added_mass f A -> In i (bodies f) -> all_active f -> exists r, Compute_inc_Mb_v f i r0 (fl_qb f i) = Ok r /\
  forall a, (a < 6)%nat -> r a = r0 a + momentum f A (fl_qb f) i a.
Proof.
  intros HA Ii Ha. unfold Compute_inc_Mb_v. rewrite eq6_refl.
  destruct (inc_bodies_sum f (GetGeneralizedMass f i) (inertia_of_pair f A i) (fl_qb f) (bodies f) r0) as (r & E & Hr).
  { intros j Hj _. apply (get_mass f A i j HA Ii Hj). }
  exists r. split; [exact E|]. intros k Hk. rewrite Hr by auto. rewrite filter_all by exact Ha. reflexivity.
Qed.

(** ** The residual *)
Lemma paste_at R0 off v r : (off <= r < off + 6)%nat -> paste_sum R0 off v r = R0 r + v (r - off)%nat.
Proof. intros H. unfold paste_sum. rewrite (proj2 (Nat.leb_le off r)), (proj2 (Nat.ltb_lt r (off + 6))) by lia. reflexivity. Qed.
Lemma paste_out R0 off v r : ~ (off <= r < off + 6)%nat -> paste_sum R0 off v r = R0 r.
Proof. intros H. unfold paste_sum. destruct (Nat.leb_spec off r), (Nat.ltb_spec r (off + 6)); cbn [andb]; try reflexivity. exfalso. lia. Qed.
Lemma residual_one f A i w c : has_added_mass f A -> In i (bodies f) -> forall l R0, (forall j, In j l -> In j (bodies f)) -> exists R1, residual_of f i l w c R0 = Ok R1 /\
  (forall r, ~ (fl_offset f i <= r < fl_offset f i + 6)%nat -> R1 r = R0 r) /\
  forall a, (a < 6)%nat -> R1 (fl_offset f i + a)%nat = R0 (fl_offset f i + a)%nat + c * over (filter (fl_active f) l) (fun j => sum6 (fun b => A i j a b * w (fl_offset f j + b)%nat)).
Proof.
  intros HA Ii. unfold over. induction l as [|j l IH]; intros R0 Hl; cbn [residual_of filter]. { exists R0. split; [reflexivity|]. split; [reflexivity|]. intros. cbn [map total]. ring. }
  destruct (fl_active f j) eqn:Ea; [|apply IH; intros k K; apply Hl; right; exact K].
  unfold GetInfiniteAddedMass. rewrite (proj2 HA i j Ii (Hl j (or_introl eq_refl))). cbn [rbind]. cbv zeta.
  set (V := inc_mul zero6 _ _). destruct (IH (paste_sum R0 (fl_offset f i) V) (fun k K => Hl k (or_intror K))) as (R1 & -> & Ho & Hi). exists R1. split; [reflexivity|]. split.
  - intros r Hr. rewrite Ho by auto. apply paste_out. exact Hr.
  - intros a Ha. rewrite Hi by auto. rewrite paste_at by lia. replace (fl_offset f i + a - fl_offset f i)%nat with a by lia. unfold V. rewrite inc_mul_sum by auto. cbn [map total].
    unfold zero6, sum6. cbn [map total]. ring.
Qed.
Lemma residual_sum f A w c : has_added_mass f A -> apart f -> forall l R0, NoDup l -> (forall j, In j l -> In j (bodies f)) -> exists R1, residual_all f l w c R0 = Ok R1 /\
  (forall r, (forall i, In i l -> fl_active f i = true -> ~ (fl_offset f i <= r < fl_offset f i + 6)%nat) -> R1 r = R0 r) /\
  forall i a, In i l -> fl_active f i = true -> (a < 6)%nat -> R1 (fl_offset f i + a)%nat = R0 (fl_offset f i + a)%nat + c * over (filter (fl_active f) (bodies f)) (fun j => sum6 (fun b => A i j a b * w (fl_offset f j + b)%nat)).
Proof.
  intros HA Hap. induction l as [|i l IH]; intros R0 Hn Hl; cbn [residual_all]. { exists R0. split; [reflexivity|]. split; [reflexivity|]. intros i a []. }
  inversion Hn as [|? ? Hni Hn']; subst. destruct (fl_active f i) eqn:Ea.
  - destruct (residual_one f A i w c HA (Hl i (or_introl eq_refl)) (bodies f) R0 (fun j J => J)) as (R1 & E1 & Ho & Hi). change (h_order (fl_db f)) with (bodies f). rewrite E1. cbn [rbind].
    destruct (IH R1 Hn' (fun k K => Hl k (or_intror K))) as (R2 & -> & Ho2 & Hi2). exists R2. split; [reflexivity|]. split.
    + intros r Hr. rewrite Ho2 by (intros k K; apply Hr; right; exact K). apply Ho. apply Hr; [left; reflexivity|exact Ea].
    + intros k a [<-|K] Ka Ha.
      * rewrite Ho2. { apply Hi. exact Ha. } intros j J Ja. assert (i <> j) by (intros ->; contradiction). pose proof (Hap i j (Hl i (or_introl eq_refl)) (Hl j (or_intror J)) H). lia.
      * rewrite Hi2 by auto. f_equal. apply Ho. assert (i <> k) by (intros ->; contradiction). pose proof (Hap i k (Hl i (or_introl eq_refl)) (Hl k (or_intror K)) H). lia.
  - destruct (IH R0 Hn' (fun k K => Hl k (or_intror K))) as (R2 & -> & Ho2 & Hi2). exists R2. split; [reflexivity|]. split.
    + intros r Hr. apply Ho2. intros k K. apply Hr. right. exact K.
    + intros k a [<-|K] Ka Ha; [congruence|]. apply Hi2; auto.
Qed.
