(** Tools for the linear wave loads *)
From Coq Require Import Reals List Bool ZArith Lra Lia Arith.
From Coquelicot Require Import Complex.
From Verif Require Import GeoModel GeoSpec GeoProofs BodyModel BodySpec MeshModel MeshSpec SigSpec EqfModel SeaModel SeaProofs6 WavModel FloModel RadModel RadSpec RadProofs RadProofs5 RadProofs7 ExcModel ExcSpec.
Import ListNotations.
Open Scope R_scope.

Lemma rcollect_ok {A : Type} (f : nat -> res A) (g : nat -> A) : forall n k, (forall i, (k <= i < k + n)%nat -> f i = Ok (g i)) -> rcollect f k n = Ok (map g (seq k n)).
Proof.
  induction n as [|n IH]; intros k H; [reflexivity|]. cbn [rcollect seq map]. rewrite (H k) by lia. cbn [rbind]. rewrite IH by (intros; apply H; lia). reflexivity.
Qed.
Lemma rcollect_inv {A : Type} (f : nat -> res A) : forall n k l, rcollect f k n = Ok l -> length l = n /\ forall i, (i < n)%nat -> exists a, f (k + i)%nat = Ok a /\ nth_error l i = Some a.
Proof.
  induction n as [|n IH]; intros k l E; cbn [rcollect] in E.
  - inversion E. split; [reflexivity|]. intros; lia.
  - destruct (rb_ok _ _ _ E) as (a & E1 & E2). cbn beta in E2. destruct (rb_ok _ _ _ E2) as (r & E3 & E4). inversion E4; subst. destruct (IH _ _ E3) as [L P].
    split; [cbn [length]; congruence|]. intros [|i] Hi; [exists a; rewrite Nat.add_0_r; split; [exact E1|reflexivity]|]. destruct (P i ltac:(lia)) as (b & F & N). exists b. split; [rewrite <- F; f_equal; lia|exact N].
Qed.
Lemma rtotal_ok {A : Type} (f : A -> res R) (g : A -> R) : forall l, (forall a, In a l -> f a = Ok (g a)) -> rtotal l f = Ok (total (map g l)).
Proof. induction l as [|a l IH]; intros H; [reflexivity|]. cbn [rtotal map total]. rewrite (H a) by (left; reflexivity). cbn [rbind]. rewrite IH by (intros; apply H; right; assumption). reflexivity. Qed.
Lemma rvsum_ok {A : Type} (f : A -> res vec) (g : A -> vec) : forall l, (forall a, In a l -> f a = Ok (g a)) -> rvsum l f = Ok (sum3 (map g l)).
Proof. induction l as [|a l IH]; intros H; [reflexivity|]. cbn [rvsum map sum3 fold_right]. rewrite (H a) by (left; reflexivity). cbn [rbind]. rewrite IH by (intros; apply H; right; assumption). reflexivity. Qed.
Lemma vat_ok {A : Type} (l : list A) i d : (i < length l)%nat -> vat l i = Ok (nth i l d).
Proof. intros H. unfold vat. rewrite (nth_error_nth' l d H). reflexivity. Qed.
Lemma vat_some {A : Type} (l : list A) i a : nth_error l i = Some a -> vat l i = Ok a.
Proof. intros H. unfold vat. rewrite H. reflexivity. Qed.
Lemma nth_map_seq {A : Type} (g : nat -> A) n i d : (i < n)%nat -> nth i (map g (seq 0 n)) d = g i.
Proof. intros H. rewrite (nth_indep _ d (g 0%nat)) by (rewrite map_length, seq_length; exact H). rewrite map_nth, seq_nth by exact H. reflexivity. Qed.
Lemma reduced_norm a : Normalize_0_2PI a = reduced a.
Proof. reflexivity. Qed.
Lemma angles_eq d : HGetWaveDirections d RAD NWU = angles d.
Proof. reflexivity. Qed.
Lemma freqs_eq d : GetFrequencies d = pulsations d.
Proof. reflexivity. Qed.
Lemma pulsations_length d : length (pulsations d) = d_n (x_freqs d).
Proof. apply linspace_length. Qed.
Lemma angles_length d : length (angles d) = d_n (x_dirs d).
Proof. unfold angles. rewrite map_length. apply linspace_length. Qed.
Lemma increasing_scale c : 0 < c -> forall l, increasing l -> increasing (map (fun a => a * c) l).
Proof.
  intros Hc. induction l as [|a l IH]; [trivial|]. destruct l as [|b l]; [trivial|]. intros [H1 H2]. cbn [map]. split; [nra|]. exact (IH H2).
Qed.
Lemma angles_inc d : good_db d -> increasing (angles d).
Proof. intros (A & B & _). apply increasing_scale; [pose proof PI_RGT_0; lra|]. apply inc_linspace; assumption. Qed.
Lemma pulsations_inc d : good_db d -> increasing (pulsations d).
Proof. intros (_ & _ & A & B). apply inc_linspace; assumption. Qed.

(** Complex interpolation is the interpolation of the parts *)
Definition cinterp (xs : list R) (ys : list C) (x : R) : C := (interpolated xs (map Re ys) x, interpolated xs (map Im ys) x).
Lemma EvalC_ok xs ys x : increasing xs -> (2 <= length xs)%nat -> length ys = length xs -> inside xs x -> EvalC (IC xs ys) x = Ok (cinterp xs ys x).
Proof.
  intros Hi Hl Hy Hx. unfold EvalC. cbn [ic_x ic_y]. destruct (locate_spec xs x Hi Hl Hx) as (j & s & E & Hj & P). rewrite E. cbn [rbind fst snd].
  rewrite (vat_ok ys j (RtoC 0)), (vat_ok ys (S j) (RtoC 0)) by lia. cbn [rbind]. f_equal. unfold cinterp. rewrite !P by (rewrite map_length; exact Hy).
  assert (GR : forall i, nth i (map Re ys) 0 = Re (nth i ys (RtoC 0))) by (intros i; exact (map_nth Re ys (RtoC 0) i)).
  assert (GI : forall i, nth i (map Im ys) 0 = Im (nth i ys (RtoC 0))) by (intros i; exact (map_nth Im ys (RtoC 0) i)).
  rewrite !GR, !GI.
  destruct (nth j ys (RtoC 0)) as [a b], (nth (S j) ys (RtoC 0)) as [c e]. unfold Cplus, Cmult, Cminus, Cplus, Copp, RtoC, Re, Im. cbn [fst snd]. f_equal; ring.
Qed.
Lemma inc_head_last : forall l a, increasing (a :: l) -> a <= last (a :: l) 0.
Proof. induction l as [|b l IH]; intros a H; [cbn; lra|]. destruct H as [H1 H2]. change (last (a :: b :: l) 0) with (last (b :: l) 0). specialize (IH b H2). lra. Qed.
Lemma locate_from_range x : forall l a i p, increasing (a :: l) -> locate_from i a l x = Ok p -> x <= last (a :: l) 0.
Proof.
  induction l as [|b l IH]; intros a i p H E; [discriminate|]. destruct H as [H1 H2]. cbn [locate_from] in E. change (last (a :: b :: l) 0) with (last (b :: l) 0).
  destruct (Rlt_dec b x); [exact (IH _ _ _ H2 E)|]. pose proof (inc_head_last l b H2). lra.
Qed.
Lemma locate_inside xs x p : increasing xs -> locate xs x = Ok p -> inside xs x.
Proof.
  intros Hi E. destruct xs as [|a l]; [discriminate|]. cbn [locate] in E. destruct (Rlt_dec x a); [discriminate|]. split; [cbn [nth]; lra|]. exact (locate_from_range x l a 0%nat p Hi E).
Qed.
Lemma locate_from_fails x : forall l a i, increasing (a :: l) -> last (a :: l) 0 < x -> locate_from i a l x = Fails.
Proof.
  induction l as [|b l IH]; intros a i H L; [reflexivity|]. destruct H as [H1 H2]. cbn [locate_from]. change (last (a :: b :: l) 0) with (last (b :: l) 0) in L.
  destruct (Rlt_dec b x); [apply IH; assumption|]. pose proof (inc_head_last l b H2). lra.
Qed.
Lemma locate_outside xs x : increasing xs -> ~ inside xs x -> locate xs x = Fails.
Proof.
  intros Hi N. destruct xs as [|a l]; [reflexivity|]. cbn [locate]. destruct (Rlt_dec x a); [reflexivity|]. apply locate_from_fails; [exact Hi|].
  destruct (Rlt_dec (last (a :: l) 0) x); [assumption|]. exfalso. apply N. split; [cbn [nth]; lra|lra].
Qed.
Lemma EvalC_outside xs ys x : increasing xs -> ~ inside xs x -> EvalC (IC xs ys) x = Fails.
Proof. intros Hi N. unfold EvalC. cbn [ic_x]. rewrite (locate_outside xs x Hi N). reflexivity. Qed.
