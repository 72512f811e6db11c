(** The wave drift force *)
From Coq Require Import Reals List Bool ZArith Lra Lia Arith.
From Coquelicot Require Import Complex.
From Verif Require Import GeoModel GeoSpec GeoProofs BodyModel BodySpec BodyProofs4 BodyProps MeshModel MeshSpec SigSpec EqfModel SeaModel SeaProofs6 WavModel FloModel FloProofs RadModel RadSpec RadProofs RadProofs7 RadProofs8 ExcModel ExcSpec ExcProofs ExcProofs2 ExcProofs4.
Import ListNotations.
Open Scope R_scope.
Local Notation turn := BodySpec.turn.

Lemma PEval_ok t i l x y : good_polar t -> pl_series t i = Some l -> inside (pl_x t) x -> inside (pl_y t) y -> PEval t i x y = Ok (drift_coefficient t i x y).
Proof.
  intros (X1 & X2 & Y1 & Y2 & L) E Ix Iy. unfold PEval, drift_coefficient. rewrite E. specialize (L i l E).
  destruct (locate_spec (pl_x t) x X1 X2 Ix) as (j & s & E1 & Hj & F1). destruct (locate_spec (pl_y t) y Y1 Y2 Iy) as (k & u & E2 & Hk & F2).
  rewrite E1, E2. cbn [rbind fst snd]. set (n := length (pl_y t)) in *. set (m := length (pl_x t)) in *.
  assert (In1 : forall a c, (a < m)%nat -> (c < n)%nat -> (a * n + c < length l)%nat) by (intros a c Ha Hc; rewrite L; nia).
  rewrite (vat_ok l (j * n + k) 0), (vat_ok l (j * n + S k) 0), (vat_ok l (S j * n + k) 0), (vat_ok l (S j * n + S k) 0) by (apply In1; lia).
  cbn [rbind]. f_equal. rewrite F1 by (rewrite map_length, seq_length; reflexivity). rewrite !nth_map_seq by lia.
  rewrite !F2 by (rewrite map_length, seq_length; reflexivity). rewrite !nth_map_seq by lia. ring.
Qed.
Lemma total_plus {A : Type} (f g : A -> R) : forall l, total (map (fun a => f a + g a) l) = total (map f l) + total (map g l).
Proof. induction l; cbn [map total]; [ring|rewrite IHl; ring]. Qed.
Lemma total_swap (f : nat -> nat -> R) l2 : forall l1, total (map (fun i => total (map (fun j => f i j) l2)) l1) = total (map (fun j => total (map (fun i => f i j) l1)) l2).
Proof.
  induction l1 as [|a l1 IH]; cbn [map total].
  - symmetry. apply total_zero. reflexivity.
  - rewrite IH, <- total_plus. apply total_ext. reflexivity.
Qed.
Lemma component_zero w f : (forall i j, f i j = 0) -> component_sum w f = 0.
Proof. intros H. unfold component_sum. apply total_zero. intros i. apply total_zero. intros j. apply H. Qed.
Definition enc (w : waves) (U : vec) (j i : nat) : R := encounter (om_of w i) (k_of w i) (dir_of w j) U.
Lemma encounters_ok w U : length (wv_ks w) = length (wv_freqs w) ->
  GetEncounterWaveFrequencies w U = Ok (map (fun j => map (enc w U j) (seq 0 (length (wv_freqs w)))) (seq 0 (length (wv_dirs w)))).
Proof.
  intros Hk. unfold GetEncounterWaveFrequencies. apply rcollect_ok. intros j Hj. rewrite (vat_ok (wv_dirs w) j 0) by lia. cbn [rbind]. cbv zeta.
  apply rcollect_ok. intros i Hi. rewrite (vat_ok (wv_freqs w) i 0), (vat_ok (wv_ks w) i 0) by lia. cbn [rbind]. unfold enc, encounter, om_of, k_of, dir_of, vdot. cbn [vx vy vz]. f_equal. ring.
Qed.
Definition psi_of (e : eqf) : R := a_psi (Rot_GetCardan_RADIANS (frot (ef_frame e)) NWU).
Lemma relative_nth w e j : (j < length (wv_dirs w))%nat -> vat (GetRelativeWaveDir w e) j = Ok (dir_of w j - psi_of e).
Proof.
  intros Hj. unfold GetRelativeWaveDir. rewrite (vat_ok _ j (0 - psi_of e)) by (rewrite map_length; exact Hj). f_equal.
  exact (map_nth (fun val => val - psi_of e) (wv_dirs w) 0 j).
Qed.
Lemma relative_length w e : length (GetRelativeWaveDir w e) = length (wv_dirs w).
Proof. apply map_length. Qed.
Lemma driftmode_ok t w e U m : good_polar t -> drift_sized w -> drift_in_range t w (psi_of e) U ->
  DriftMode t m (wv_amps w) (GetRelativeWaveDir w e) (map (fun j => map (enc w U j) (seq 0 (length (wv_freqs w)))) (seq 0 (length (wv_dirs w)))) (length (wv_freqs w)) = Ok (drift_load t w (psi_of e) U m).
Proof.
  intros G (S0 & S1 & S2 & S3) (I1 & I2). unfold DriftMode, HasSerie. destruct (pl_series t m) as [l|] eqn:E.
  - rewrite (rtotal_ok _ (fun j => total (map (fun i => amp_of w j i ^ 2 * drift_coefficient t m (dir_of w j - psi_of e) (enc w U j i)) (seq 0 (length (wv_freqs w)))))).
    + rewrite relative_length. f_equal. unfold drift_load, component_sum. rewrite total_swap. reflexivity.
    + rewrite relative_length. intros j Hj. apply in_seq in Hj. rewrite relative_nth by lia. cbn [rbind]. apply rtotal_ok. intros i Hi. apply in_seq in Hi.
      rewrite (vat_ok _ j []) by (rewrite map_length, seq_length; lia). rewrite nth_map_seq by lia. cbn [rbind].
      rewrite (vat_ok _ i 0) by (rewrite map_length, seq_length; lia). rewrite nth_map_seq by lia. cbn [rbind].
      rewrite (vat_ok (wv_amps w) j []) by lia. cbn [rbind]. rewrite (vat_ok _ i 0) by (rewrite S3; [lia|apply nth_In; lia]). cbn [rbind].
      change (enc w U j i) with (encounter (om_of w i) (k_of w i) (dir_of w j) U). rewrite (PEval_ok t m l _ _ G E (I1 j ltac:(lia)) (I2 i j ltac:(lia) ltac:(lia))). cbn [rbind]. reflexivity.
  - f_equal. symmetry. unfold drift_load. apply component_zero. intros i j. unfold drift_coefficient. rewrite E. ring.
Qed.
Lemma drift_compute t w e b s : good_polar t -> drift_sized w -> drift_in_range t w (psi_of e) (ef_vel e) ->
  let L := drift_load t w (psi_of e) (ef_vel e) in
  Drift_Compute t w e b s = Ok (SetForceTorqueInBodyAtCOG b s (V (L 0%nat) (L 1%nat) (L 2%nat)) (V (L 3%nat) (L 4%nat) (L 5%nat)) NWU).
Proof.
  intros G H I. cbv zeta. unfold Drift_Compute. change (GetFrameVelocityInWorld e NWU) with (ef_vel e). destruct H as (S0 & S1 & S23).
  rewrite encounters_ok by exact S1. cbn [rbind]. rewrite (vat_ok _ 0 []).
  2: { rewrite map_length, seq_length. destruct (wv_dirs w); [congruence|cbn; lia]. }
  rewrite nth_map_seq by (destruct (wv_dirs w); [congruence|cbn; lia]). cbn [rbind]. cbv zeta. rewrite map_length, seq_length.
  assert (Hs : drift_sized w) by (split; [exact S0|split; assumption]). rewrite !(driftmode_ok t w e (ef_vel e) _ G Hs I). cbn [rbind]. reflexivity.
Qed.
Lemma drift_reads t w e b s : good_polar t -> drift_sized w -> drift_in_range t w (psi_of e) (ef_vel e) -> reachable b ->
  let L := drift_load t w (psi_of e) (ef_vel e) in
  exists s', Drift_Compute t w e b s = Ok s' /\
    reads_as b s' (W (turn (body_map b) (V (L 0%nat) (L 1%nat) (L 2%nat))) (turn (body_map b) (V (L 3%nat) (L 4%nat) (L 5%nat))) (GetCOGPositionInWorld b NWU)).
Proof.
  intros G H I R0. cbv zeta. eexists. split; [apply drift_compute; assumption|]. apply set_body. exact R0.
Qed.
(** Outside of the table *)
Lemma rtotal_fails {A : Type} (f : A -> res R) : forall l, (forall a, In a l -> f a = Fails \/ exists x, f a = Ok x) -> (exists a, In a l /\ f a = Fails) -> rtotal l f = Fails.
Proof.
  induction l as [|a l IH]; intros H (b & Hb & Eb); [destruct Hb|]. cbn [rtotal]. destruct (H a (or_introl eq_refl)) as [E|(x & E)]; rewrite E; [reflexivity|]. cbn [rbind].
  destruct Hb as [<-|Hb]; [congruence|]. rewrite IH; [reflexivity|intros c Hc; apply H; right; exact Hc|exists b; split; assumption].
Qed.
Lemma PEval_outside t i l x y : good_polar t -> pl_series t i = Some l -> ~ (inside (pl_x t) x /\ inside (pl_y t) y) -> PEval t i x y = Fails.
Proof.
  intros (X1 & X2 & Y1 & Y2 & L) E N. unfold PEval. rewrite E. destruct (inside_dec (pl_x t) x) as [I|I].
  - destruct (locate_spec (pl_x t) x X1 X2 I) as (j & s & E1 & _). rewrite E1. cbn [rbind]. rewrite locate_outside; [reflexivity|exact Y1|]. intros J. apply N. split; assumption.
  - rewrite locate_outside; [reflexivity|exact X1|exact I].
Qed.
Lemma drift_fails t w e b s m l : good_polar t -> drift_sized w -> pl_series t m = Some l -> (m < 6)%nat ->
  ~ drift_in_range t w (psi_of e) (ef_vel e) -> wv_freqs w <> [] -> Drift_Compute t w e b s = Fails.
Proof.
  intros G Hs E Hm N Nf. unfold Drift_Compute. change (GetFrameVelocityInWorld e NWU) with (ef_vel e). pose proof Hs as (S0 & S1 & S2 & S3).
  rewrite encounters_ok by exact S1. cbn [rbind]. rewrite (vat_ok _ 0 []).
  2: { rewrite map_length, seq_length. destruct (wv_dirs w); [congruence|cbn; lia]. }
  rewrite nth_map_seq by (destruct (wv_dirs w); [congruence|cbn; lia]). cbn [rbind]. cbv zeta. rewrite map_length, seq_length.
  set (U := ef_vel e) in *.
  assert (Point : forall k lk j i, pl_series t k = Some lk -> (j < length (wv_dirs w))%nat -> (i < length (wv_freqs w))%nat ->
    let F := (row <<- vat (map (fun j => map (enc w U j) (seq 0 (length (wv_freqs w)))) (seq 0 (length (wv_dirs w)))) j; freq <<- vat row i; arow <<- vat (wv_amps w) j; a <<- vat arow i;
              c <<- PEval t k (dir_of w j - psi_of e) freq; Ok (a ^ 2 * c)) in
    (~ (inside (pl_x t) (dir_of w j - psi_of e) /\ inside (pl_y t) (enc w U j i)) -> F = Fails) /\ (inside (pl_x t) (dir_of w j - psi_of e) /\ inside (pl_y t) (enc w U j i) -> exists x, F = Ok x)).
  { intros k lk j i Ek Hj Hi. cbv zeta. rewrite (vat_ok _ j []) by (rewrite map_length, seq_length; lia). rewrite nth_map_seq by lia. cbn [rbind].
    rewrite (vat_ok _ i 0) by (rewrite map_length, seq_length; lia). rewrite nth_map_seq by lia. cbn [rbind].
    rewrite (vat_ok (wv_amps w) j []) by lia. cbn [rbind]. rewrite (vat_ok _ i 0) by (rewrite S3; [lia|apply nth_In; lia]). cbn [rbind]. split.
    - intros H. rewrite (PEval_outside t k lk) by assumption. reflexivity.
    - intros [H1 H2]. rewrite (PEval_ok t k lk) by assumption. cbn [rbind]. eexists. reflexivity. }
  assert (DM : forall k, (pl_series t k = None -> exists x, DriftMode t k (wv_amps w) (GetRelativeWaveDir w e) (map (fun j => map (enc w U j) (seq 0 (length (wv_freqs w)))) (seq 0 (length (wv_dirs w)))) (length (wv_freqs w)) = Ok x)
     /\ (forall lk, pl_series t k = Some lk -> DriftMode t k (wv_amps w) (GetRelativeWaveDir w e) (map (fun j => map (enc w U j) (seq 0 (length (wv_freqs w)))) (seq 0 (length (wv_dirs w)))) (length (wv_freqs w)) = Fails)).
  { intros k. unfold DriftMode, HasSerie. split; [intros ->; eexists; reflexivity|]. intros lk Ek. rewrite Ek. rewrite relative_length.
    assert (Bad : exists j i, (j < length (wv_dirs w))%nat /\ (i < length (wv_freqs w))%nat /\ ~ (inside (pl_x t) (dir_of w j - psi_of e) /\ inside (pl_y t) (enc w U j i))).
    { destruct (Classical_Prop.classic (exists j i, (j < length (wv_dirs w))%nat /\ (i < length (wv_freqs w))%nat /\ ~ (inside (pl_x t) (dir_of w j - psi_of e) /\ inside (pl_y t) (enc w U j i)))) as [B|B]; [exact B|].
      exfalso. apply N. split.
      - intros j Hj. destruct (inside_dec (pl_x t) (dir_of w j - psi_of e)) as [I|I]; [exact I|]. exfalso. apply B. exists j, 0%nat. split; [exact Hj|]. split; [destruct (wv_freqs w); [congruence|cbn; lia]|tauto].
      - intros i j Hi Hj. destruct (inside_dec (pl_y t) (enc w U j i)) as [I|I]; [exact I|]. exfalso. apply B. exists j, i. tauto. }
    apply rtotal_fails.
    - intros j Hj. apply in_seq in Hj. rewrite relative_nth by lia. cbn [rbind].
      destruct (Classical_Prop.classic (exists i, (i < length (wv_freqs w))%nat /\ ~ (inside (pl_x t) (dir_of w j - psi_of e) /\ inside (pl_y t) (enc w U j i)))) as [B|B].
      + left. apply rtotal_fails.
        * intros i Hi. apply in_seq in Hi. destruct (Point k lk j i Ek ltac:(lia) ltac:(lia)) as [P1 P2]. destruct (Classical_Prop.classic (inside (pl_x t) (dir_of w j - psi_of e) /\ inside (pl_y t) (enc w U j i))) as [Q|Q]; [right; exact (P2 Q)|left; exact (P1 Q)].
        * destruct B as (i & Hi & Q). exists i. split; [apply in_seq; lia|]. destruct (Point k lk j i Ek ltac:(lia) Hi) as [P1 _]. exact (P1 Q).
      + right. eexists. apply (rtotal_ok _ (fun i => amp_of w j i ^ 2 * drift_coefficient t k (dir_of w j - psi_of e) (enc w U j i))). intros i Hi. apply in_seq in Hi.
        assert (Q : inside (pl_x t) (dir_of w j - psi_of e) /\ inside (pl_y t) (enc w U j i)).
        { destruct (Classical_Prop.classic (inside (pl_x t) (dir_of w j - psi_of e) /\ inside (pl_y t) (enc w U j i))) as [Q|Q]; [exact Q|]. exfalso. apply B. exists i. split; [lia|exact Q]. }
        rewrite (vat_ok _ j []) by (rewrite map_length, seq_length; lia). rewrite nth_map_seq by lia. cbn [rbind].
        rewrite (vat_ok _ i 0) by (rewrite map_length, seq_length; lia). rewrite nth_map_seq by lia. cbn [rbind].
        rewrite (vat_ok (wv_amps w) j []) by lia. cbn [rbind]. rewrite (vat_ok _ i 0) by (rewrite S3; [lia|apply nth_In; lia]). cbn [rbind].
        destruct Q. rewrite (PEval_ok t k lk) by assumption. cbn [rbind]. reflexivity.
    - destruct Bad as (j & i & Hj & Hi & Q). exists j. split; [apply in_seq; lia|]. rewrite relative_nth by lia. cbn [rbind]. apply rtotal_fails.
      + intros i' Hi'. apply in_seq in Hi'. destruct (Point k lk j i' Ek ltac:(lia) ltac:(lia)) as [P1 P2]. destruct (Classical_Prop.classic (inside (pl_x t) (dir_of w j - psi_of e) /\ inside (pl_y t) (enc w U j i'))) as [Q'|Q']; [right; exact (P2 Q')|left; exact (P1 Q')].
      + exists i. split; [apply in_seq; lia|]. destruct (Point k lk j i Ek Hj Hi) as [P1 _]. exact (P1 Q). }
  assert (DM2 : forall k, (exists x, DriftMode t k (wv_amps w) (GetRelativeWaveDir w e) (map (fun j => map (enc w U j) (seq 0 (length (wv_freqs w)))) (seq 0 (length (wv_dirs w)))) (length (wv_freqs w)) = Ok x)
     \/ DriftMode t k (wv_amps w) (GetRelativeWaveDir w e) (map (fun j => map (enc w U j) (seq 0 (length (wv_freqs w)))) (seq 0 (length (wv_dirs w)))) (length (wv_freqs w)) = Fails).
  { intros k. destruct (DM k) as [P1 P2]. destruct (pl_series t k) as [lk|]; [right; apply (P2 lk); reflexivity|left; apply P1; reflexivity]. }
  pose proof (proj2 (DM m) l E) as Fm. cbv beta.
  do 6 (destruct m as [|m]; [repeat first [rewrite Fm; cbn [rbind]; reflexivity | match goal with |- rbind (DriftMode _ ?k _ _ _ _) _ = _ => destruct (DM2 k) as [(? & Ex)|Ex]; rewrite Ex; clear Ex; cbn [rbind]; [|reflexivity] end]|]).
  lia.
Qed.
