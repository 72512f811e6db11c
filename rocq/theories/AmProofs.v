(** Lemmas on the generalized mass: blocks against flat indices, inverse, products. *)
From Coq Require Import Reals List Bool Arith Lia Lra Psatz FunctionalExtensionality.
From Verif Require Import GeoModel GeoSpec BodyModel InertiaModel SeaModel FloModel RadModel RadSpec RadProofs7 RadProofs8 ExcProofs5 AmModel AmSpec.
Import ListNotations.
Open Scope R_scope.

Lemma tot_in {B : Type} (f g : B -> R) : forall l, (forall b, In b l -> f b = g b) -> total (map f l) = total (map g l).
Proof. induction l as [|b l IH]; intros H; cbn [map total]; [reflexivity|]. rewrite (H b), IH; [reflexivity|intros; apply H; right; auto|left; auto]. Qed.
Lemma tot_app l1 l2 : total (l1 ++ l2) = total l1 + total l2.
Proof. induction l1; cbn [app total]; [ring|rewrite IHl1; ring]. Qed.

Lemma flat_seq (h : nat -> R) : forall n s, total (map h (seq (6 * s) (6 * n))) = total (map (fun p => sum6 (fun b => h (6 * p + b)%nat)) (seq s n)).
Proof.
  induction n as [|n IH]; intros s. { rewrite Nat.mul_0_r. reflexivity. }
  replace (6 * S n)%nat with (6 + 6 * n)%nat by lia. rewrite seq_app, map_app, tot_app. cbn [seq map total].
  specialize (IH (S s)). replace (6 * S s)%nat with (6 * s + 6)%nat in IH by lia. rewrite IH. f_equal.
  unfold sum6. cbn [map total]. rewrite !(Nat.add_comm (6 * s)). cbn [Nat.add]. reflexivity.
Qed.
Lemma over_nth (g : nat -> R) : forall l, over l g = total (map (fun p => g (nth p l 0%nat)) (seq 0 (length l))).
Proof.
  unfold over. induction l as [|a l IH]; [reflexivity|]. cbn [length seq map total nth]. rewrite IH. f_equal.
  rewrite <- seq_shift, map_map. reflexivity.
Qed.
Lemma div6 p b : (b < 6)%nat -> ((6 * p + b) / 6 = p /\ (6 * p + b) mod 6 = b)%nat.
Proof. intros. split; [symmetry; apply (Nat.div_unique _ 6 p b); lia|symmetry; apply (Nat.mod_unique _ 6 p b); lia]. Qed.
Lemma flat_over (g : nat -> nat -> R) l : over l (fun j => sum6 (fun b => g j b)) = total (map (fun r => g (nth (r / 6) l 0%nat) (r mod 6)%nat) (seq 0 (6 * length l))).
Proof.
  rewrite over_nth. pose proof (flat_seq (fun r => g (nth (r / 6) l 0%nat) (r mod 6)%nat) (length l) 0) as E. rewrite Nat.mul_0_r in E. rewrite E. clear E. apply total_ext. intros p. unfold sum6. apply tot_in.
  intros b Hb. assert (b < 6)%nat by (cbn in Hb; lia). destruct (div6 p b H) as [-> ->]. reflexivity.
Qed.
Lemma delta_flat l r c : NoDup l -> (r < 6 * length l)%nat -> (c < 6 * length l)%nat ->
  delta r c = delta (nth (r / 6) l 0%nat) (nth (c / 6) l 0%nat) * delta (r mod 6)%nat (c mod 6)%nat.
Proof.
  intros Hn Hr Hc. unfold delta. assert (r / 6 < length l)%nat by (apply Nat.div_lt_upper_bound; lia). assert (c / 6 < length l)%nat by (apply Nat.div_lt_upper_bound; lia).
  destruct (Nat.eqb_spec r c) as [->|N]; [rewrite !Nat.eqb_refl; ring|].
  destruct (Nat.eqb_spec (nth (r / 6) l 0%nat) (nth (c / 6) l 0%nat)) as [E|]; [|ring].
  destruct (Nat.eqb_spec (r mod 6) (c mod 6)) as [E'|]; [|ring].
  exfalso. apply N. rewrite (Nat.div_mod_eq r 6), (Nat.div_mod_eq c 6), E'. f_equal. f_equal. apply (proj1 (NoDup_nth l 0%nat) Hn); auto.
Qed.
(** The Kronecker symbol picks one term *)
Lemma pick (x : nat -> R) r : forall l, NoDup l -> In r l -> total (map (fun k => delta r k * x k) l) = x r.
Proof.
  induction l as [|a l IH]; intros Hn Hi; [contradiction|]. cbn [map total]. inversion Hn; subst. unfold delta at 1.
  destruct (Nat.eqb_spec r a) as [->|N].
  - rewrite (tot_in _ (fun _ : nat => 0)); [rewrite total_zero by reflexivity; ring|]. intros b Hb. unfold delta. destruct (Nat.eqb_spec a b); [subst; contradiction|ring].
  - destruct Hi as [<-|Hi]; [contradiction|]. rewrite IH by auto. ring.
Qed.
(** Multiplying by one inverse and then by the other *)
Lemma undo n M P (x : nat -> R) r : (r < n)%nat -> (forall r c, (r < n)%nat -> (c < n)%nat -> total (map (fun k => M r k * P k c) (seq 0 n)) = delta r c) ->
  total (map (fun k => M r k * total (map (fun c => P k c * x c) (seq 0 n))) (seq 0 n)) = x r.
Proof.
  intros Hr H. rewrite (total_ext _ (fun k => total (map (fun c => (M r k * P k c) * x c) (seq 0 n)))).
  2:{ intros k. rewrite <- total_scale. apply total_ext. intros. ring. }
  rewrite (total_swap (fun k c => M r k * P k c * x c)).
  rewrite (tot_in _ (fun c => delta r c * x c)). { apply pick; [apply seq_NoDup|apply in_seq; lia]. }
  intros c Hc. apply in_seq in Hc. rewrite <- (H r c) by lia. rewrite (Rmult_comm (total _)), <- total_scale. apply total_ext. intros. ring.
Qed.

(** ** The matrix built *)
Lemma get_mass f A i j : has_added_mass f A -> In i (bodies f) -> In j (bodies f) -> exists G, GetGeneralizedMass f i j = Ok G /\ forall a b, G a b = inertia_of_pair f A i j a b.
Proof.
  intros [Hn HA] Hi Hj. unfold GetGeneralizedMass, GetInfiniteAddedMass. rewrite (HA i j Hi Hj). cbn [rbind]. eexists. split; [reflexivity|].
  intros a b. unfold inertia_of_pair. destruct (Nat.eqb i j); [reflexivity|ring].
Qed.
Definition blocks_are (f : fleet) A (i : nat) (ms : list mat6) (l : list nat) : Prop := Forall2 (fun m j => forall a b, m a b = inertia_of_pair f A i j a b) ms l.
Lemma row_ok f A i : has_added_mass f A -> In i (bodies f) -> forall l, (forall j, In j l -> In j (bodies f)) -> exists ms, block_row f i l = Ok ms /\ blocks_are f A i ms l.
Proof.
  intros H Hi. induction l as [|j l IH]; intros Hl; [exists []; split; constructor|].
  destruct (get_mass f A i j H Hi (Hl j (or_introl eq_refl))) as (G & E & EG). destruct (IH (fun k K => Hl k (or_intror K))) as (ms & Em & Hm).
  cbn [block_row]. rewrite E. cbn [rbind]. rewrite Em. cbn [rbind]. exists (G :: ms). split; [reflexivity|constructor; auto].
Qed.
Lemma rows_ok f A : has_added_mass f A -> forall l, (forall j, In j l -> In j (bodies f)) -> exists rs, block_rows f l = Ok rs /\ Forall2 (fun r i => blocks_are f A i r (bodies f)) rs l.
Proof.
  intros H. induction l as [|i l IH]; intros Hl; [exists []; split; constructor|].
  destruct (row_ok f A i H (Hl i (or_introl eq_refl)) (bodies f) (fun j J => J)) as (r & Er & Hr). destruct (IH (fun k K => Hl k (or_intror K))) as (ms & Em & Hm).
  cbn [block_rows]. unfold bodies in Er. rewrite Er. cbn [rbind]. rewrite Em. cbn [rbind]. exists (r :: ms). split; [reflexivity|constructor; auto].
Qed.
Lemma forall2_nth {X Y : Type} (Q : X -> Y -> Prop) dx dy : forall l m, Forall2 Q l m -> forall p, (p < length m)%nat -> Q (nth p l dx) (nth p m dy).
Proof. induction 1; intros p Hp; cbn in Hp; [lia|]. destruct p; cbn [nth]; [assumption|apply IHForall2; lia]. Qed.
(** Entry of the matrix at flat indices *)
Definition flat (f : fleet) A (r c : nat) : R := inertia_of_pair f A (nth (r / 6) (bodies f) 0%nat) (nth (c / 6) (bodies f) 0%nat) (r mod 6) (c mod 6).
Lemma mass_entry f A rs r c : Forall2 (fun r i => blocks_are f A i r (bodies f)) rs (bodies f) -> (r < 6 * length (bodies f))%nat -> (c < 6 * length (bodies f))%nat ->
  mass_matrix rs r c = flat f A r c.
Proof.
  intros H Hr Hc. unfold mass_matrix, flat. assert (Lr : (r / 6 < length (bodies f))%nat) by (apply Nat.div_lt_upper_bound; lia). assert (Lc : (c / 6 < length (bodies f))%nat) by (apply Nat.div_lt_upper_bound; lia).
  pose proof (forall2_nth _ [] 0%nat _ _ H _ Lr) as E. cbv beta in E. exact (forall2_nth _ (fun _ _ => 0) 0%nat _ _ E _ Lc _ _).
Qed.

(** ** The blocks saved *)
Lemma save_row_other P ib i : forall l jb m a c, ~ (a = i /\ In c l) -> save_row P ib i jb l m a c = m a c.
Proof.
  induction l as [|j l IH]; intros jb m a c H; cbn [save_row]; [reflexivity|]. rewrite IH by (intros [-> ?]; apply H; split; [reflexivity|right; auto]).
  unfold put_block. destruct (Nat.eqb_spec a i) as [->|]; [|reflexivity]. destruct (Nat.eqb_spec c j) as [->|]; [|reflexivity]. exfalso. apply H. split; [reflexivity|left; reflexivity].
Qed.
Lemma save_row_nth P ib i : forall l jb m q, NoDup l -> (q < length l)%nat ->
  save_row P ib i jb l m i (nth q l 0%nat) = Some (fun a b => P (6 * ib + a)%nat (6 * (jb + q) + b)%nat).
Proof.
  induction l as [|j l IH]; intros jb m q Hn Hq; cbn [length] in Hq; [lia|]. inversion Hn; subst. cbn [save_row]. destruct q as [|q]; cbn [nth].
  - rewrite save_row_other by (intros [_ ?]; contradiction). unfold put_block. rewrite !Nat.eqb_refl. cbn [andb]. rewrite Nat.add_0_r. reflexivity.
  - rewrite IH by (auto; lia). replace (S jb + q)%nat with (jb + S q)%nat by lia. reflexivity.
Qed.
Lemma save_rows_other P order : forall l ib m a c, ~ In a l -> save_rows P order ib l m a c = m a c.
Proof.
  induction l as [|i l IH]; intros ib m a c H; cbn [save_rows]; [reflexivity|]. rewrite IH by (intro; apply H; right; auto).
  apply save_row_other. intros [-> _]. apply H. left. reflexivity.
Qed.
Lemma save_rows_nth P order : NoDup order -> forall l ib m p q, NoDup l -> (p < length l)%nat -> (q < length order)%nat ->
  save_rows P order ib l m (nth p l 0%nat) (nth q order 0%nat) = Some (fun a b => P (6 * (ib + p) + a)%nat (6 * q + b)%nat).
Proof.
  intros Ho. induction l as [|i l IH]; intros ib m p q Hn Hp Hq; cbn [length] in Hp; [lia|]. inversion Hn; subst. cbn [save_rows]. destruct p as [|p]; cbn [nth].
  - rewrite save_rows_other by auto. rewrite save_row_nth by auto. rewrite Nat.add_0_r. reflexivity.
  - rewrite IH by (auto; lia). replace (S ib + p)%nat with (ib + S p)%nat by lia. reflexivity.
Qed.
(** Any pair of bodies, with its block given by flat indices *)
Lemma built inv f A m0 m : inverts inv -> has_added_mass f A -> BuildGeneralizedMass inv f m0 = Ok m -> exists P, is_inverse (6 * length (bodies f)) (flat f A) P /\
  forall p q, (p < length (bodies f))%nat -> (q < length (bodies f))%nat -> m (nth p (bodies f) 0%nat) (nth q (bodies f) 0%nat) = Some (fun a b => P (6 * p + a)%nat (6 * q + b)%nat).
Proof.
  intros Hinv HA E. destruct (rows_ok f A HA (bodies f) (fun j J => J)) as (rs & Er & Hr). unfold BuildGeneralizedMass in E. unfold bodies in Er. rewrite Er in E. cbn [rbind] in E.
  destruct (inv (6 * length (h_order (fl_db f)))%nat (mass_matrix rs)) as [P|] eqn:EP; [|discriminate]. cbn [of_option rbind] in E. injection E as <-. exists P. split.
  - specialize (Hinv _ _ _ EP). intros r c r1 c1. destruct (Hinv r c r1 c1) as [H1 H2]. split.
    + rewrite <- H1. apply tot_in. intros k K. apply in_seq in K. rewrite (mass_entry f A rs r k) by (auto; unfold bodies; lia). reflexivity.
    + rewrite <- H2. apply tot_in. intros k K. apply in_seq in K. rewrite (mass_entry f A rs k c) by (auto; unfold bodies; lia). reflexivity.
  - intros p q Hp Hq. destruct HA as [Hn _]. rewrite save_rows_nth by auto. reflexivity.
Qed.
Lemma at_place l i : In i l -> exists p, (p < length l)%nat /\ nth p l 0%nat = i.
Proof. intros H. destruct (In_nth l i 0%nat H) as (p & Hp & E). eauto. Qed.

(** ** Products *)
Lemma inc_mul_sum r m v i : (i < 6)%nat -> inc_mul r m v i = r i + sum6 (fun b => m i b * v b).
Proof. intros H. unfold inc_mul, sum6. rewrite (proj2 (Nat.ltb_lt i 6) H). cbn [map total]. ring. Qed.
Lemma eq6_true a b : Equals a b = true <-> forall k, (k < 6)%nat -> a k = b k.
Proof.
  unfold Equals. rewrite forallb_forall. split.
  - intros H k Hk. specialize (H k). destruct (Req_EM_T (a k) (b k)); [assumption|]. exfalso. assert (false = true) by (apply H; cbn; lia). discriminate.
  - intros H k Hk. destruct (Req_EM_T (a k) (b k)); [reflexivity|]. exfalso. apply n, H. cbn in Hk. lia.
Qed.
Lemma eq6_refl a : Equals a a = true.
Proof. apply eq6_true. reflexivity. Qed.
(** The loop over the bodies *)
Lemma inc_bodies_sum f block B x : forall l r0, (forall j, In j l -> fl_active f j = true -> exists b, block j = Ok b /\ forall a c, b a c = B j a c) ->
  exists r, inc_bodies f block x l r0 = Ok r /\ forall a, (a < 6)%nat -> r a = r0 a + over (filter (fl_active f) l) (fun j => sum6 (fun c => B j a c * x j c)).
Proof.
  unfold over. induction l as [|j l IH]; intros r0 H; cbn [inc_bodies filter]. { exists r0. split; [reflexivity|]. intros. cbn [map total]. ring. }
  destruct (fl_active f j) eqn:Ea.
  - destruct (H j (or_introl eq_refl) Ea) as (b & -> & Hb). cbn [rbind]. destruct (IH (inc_mul r0 b (x j)) (fun k K => H k (or_intror K))) as (r & -> & Hr).
    exists r. split; [reflexivity|]. intros a Ha. rewrite Hr, inc_mul_sum by auto. cbn [map total]. rewrite Rplus_assoc. f_equal. f_equal. unfold sum6. apply total_ext. intros c. rewrite Hb. reflexivity.
  - apply IH. intros k K. apply H. right. exact K.
Qed.
Lemma filter_all (f : nat -> bool) : forall l, (forall j, In j l -> f j = true) -> filter f l = l.
Proof. induction l as [|a l IH]; intros H; cbn [filter]; [reflexivity|]. rewrite (H a) by (left; auto). f_equal. apply IH. intros. apply H. right. auto. Qed.
