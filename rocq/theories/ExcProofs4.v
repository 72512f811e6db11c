(** The force on the body; initialisation *)
From Coq Require Import Reals List Bool ZArith Lra Lia Arith FunctionalExtensionality.
From Coquelicot Require Import Complex.
From Verif Require Import GeoModel GeoSpec GeoProofs BodyModel BodySpec BodyProofs4 BodyProps MeshModel MeshSpec SigSpec EqfModel SeaModel SeaProofs6 DispModel WavModel WavSpec WavProofs WavProofs2 FloModel FloProofs RadModel RadSpec RadProofs RadProofs5 RadProofs7 ExcModel ExcSpec ExcProofs ExcProofs2 ExcProofs3.
Import ListNotations.
Open Scope R_scope.
Local Notation turn := BodySpec.turn.

Lemma coefficient_ext d T U k dir om : (forall a f, T a k f = U a k f) -> coefficient d T k dir om = coefficient d U k dir om.
Proof.
  intros H. unfold coefficient, part_at. f_equal; f_equal; apply map_ext; intros f; f_equal; apply map_ext; intros a; rewrite H; reflexivity.
Qed.
Lemma component_ext w f g : (forall i j, (i < length (wv_freqs w))%nat -> (j < length (wv_dirs w))%nat -> f i j = g i j) -> component_sum w f = component_sum w g.
Proof.
  intros H. unfold component_sum. f_equal. apply map_ext_in. intros i Hi. apply in_seq in Hi. f_equal. apply map_ext_in. intros j Hj. apply in_seq in Hj. apply H; lia.
Qed.
Lemma load_ext d T U w eta k : (forall a f, T a k f = U a k f) -> wave_load d T w eta k = wave_load d U w eta k.
Proof. intros H. apply component_ext. intros i j _ _. rewrite (coefficient_ext d T U k _ _ H). reflexivity. Qed.
Lemma mode_sum_ext modes k L M n : (forall i, (i < n)%nat -> L i = M i) -> mode_sum modes k L n = mode_sum modes k M n.
Proof. intros H. unfold mode_sum. f_equal. apply map_ext_in. intros i Hi. apply in_seq in Hi. rewrite H by lia. reflexivity. Qed.
Lemma rigid_force L : mode_sum rigid_modes LINEAR L 6 = V (L 0%nat) (L 1%nat) (L 2%nat).
Proof. unfold mode_sum, rigid_modes, sum3, plus3, scal3, origin. cbn. apply vec_eq; cbn [vx vy vz]; ring. Qed.
Lemma rigid_moment L : mode_sum rigid_modes ANGULAR L 6 = V (L 3%nat) (L 4%nat) (L 5%nat).
Proof. unfold mode_sum, rigid_modes, sum3, plus3, scal3, origin. cbn. apply vec_eq; cbn [vx vy vz]; ring. Qed.

Lemma set_world b s e F M : reachable b -> unitq (frot (ef_frame e)) ->
  reads_as b (SetForceTorqueInWorldAtCOG b s (ProjectVectorFrameInParent (ef_frame e) F NWU) (ProjectVectorFrameInParent (ef_frame e) M NWU) NWU) (wrench_in e (GetCOGPositionInWorld b NWU) F M).
Proof.
  intros R U. unfold ProjectVectorFrameInParent, UQ_Rotate. cbn [swap_if IsNED]. rewrite !qrotate_action by exact U.
  destruct (one_op b (FOBothWorldCOG (quat_action (frot (ef_frame e)) F) (quat_action (frot (ef_frame e)) M) NWU) s R) as (w & _ & H). exact H.
Qed.
Lemma set_body b s F M : reachable b ->
  reads_as b (SetForceTorqueInBodyAtCOG b s F M NWU) (W (turn (body_map b) F) (turn (body_map b) M) (GetCOGPositionInWorld b NWU)).
Proof. intros R. destruct (one_op b (FOBothBodyCOG F M NWU) s R) as (w & _ & H). exact H. Qed.
Lemma at_frame_eq w e : wv_eta w (GeoModel.GetX (ef_frame e) NWU) (GeoModel.GetY (ef_frame e) NWU) = at_frame w e.
Proof. reflexivity. Qed.
Lemma compute_ok d T xb w f e b s nb it eta : GetNbForceMode xb = nb -> (nb <= 6)%nat -> (nb <= length (xb_modes xb))%nat ->
  f = HF it (wave_mats d T nb w) -> at_frame w e = Ok eta -> eta_sized w eta ->
  Compute_F_HDB xb w f e b s = Ok (SetForceTorqueInWorldAtCOG b s (ProjectVectorFrameInParent (ef_frame e) (mode_sum (xb_modes xb) LINEAR (wave_load d T w eta) nb) NWU)
      (ProjectVectorFrameInParent (ef_frame e) (mode_sum (xb_modes xb) ANGULAR (wave_load d T w eta) nb) NWU) NWU).
Proof.
  intros E H6 Hm -> He Hs. unfold Compute_F_HDB. rewrite at_frame_eq, He. cbn [rbind hf_F]. rewrite !(assemble_ok d xb T nb w eta) by assumption. cbn [rbind]. reflexivity.
Qed.
Lemma ready_eq k d mask modes D K xb w f : good_db d -> binary mask -> loaded d mask modes D K xb -> in_range d w -> ready k d xb w f ->
  f = HF (built d (spread mask (tables_of k D K)) (length (active mask))) (wave_mats d (spread mask (tables_of k D K)) (length (active mask)) w).
Proof.
  intros G B L I Rd. destruct (loaded_holds d mask modes D K xb B L) as (N & _ & H). unfold ready in Rd. rewrite (init_ok k d xb 6 _ w G I (H k)), N in Rd. inversion Rd. reflexivity.
Qed.
(** All masks: mode i of the list receives the load of row i of the spread tables *)
Lemma any_mask k d mask modes D K xb w f e b s eta : good_db d -> binary mask -> loaded d mask modes D K xb -> in_range d w -> ready k d xb w f ->
  (length (active mask) <= length modes)%nat -> reachable b -> unitq (frot (ef_frame e)) -> at_frame w e = Ok eta -> eta_sized w eta ->
  exists s', Compute_F_HDB xb w f e b s = Ok s' /\ let L := wave_load d (spread mask (tables_of k D K)) w eta in
    reads_as b s' (wrench_in e (GetCOGPositionInWorld b NWU) (mode_sum modes LINEAR L (length (active mask))) (mode_sum modes ANGULAR L (length (active mask)))).
Proof.
  intros G B L I Rd Hm HR U He Hs. pose proof (ready_eq _ _ _ _ _ _ _ _ _ G B L I Rd) as Ef. destruct (loaded_holds d mask modes D K xb B L) as (N & Mo & _).
  rewrite (compute_ok d (spread mask (tables_of k D K)) xb w f e b s (length (active mask)) _ eta N (active_length mask)) by (rewrite ?Mo; eassumption).
  eexists. split; [reflexivity|]. cbv zeta. rewrite Mo. apply set_world; assumption.
Qed.
Lemma all_binary : binary all_on. Proof. intros i _. right. reflexivity. Qed.
Lemma active_all : active all_on = seq 0 6. Proof. reflexivity. Qed.
Lemma full_mask k d modes D K xb w f e b s eta : good_db d -> loaded d all_on modes D K xb -> in_range d w -> ready k d xb w f ->
  (6 <= length modes)%nat -> reachable b -> unitq (frot (ef_frame e)) -> at_frame w e = Ok eta -> eta_sized w eta ->
  exists s', Compute_F_HDB xb w f e b s = Ok s' /\ let L := wave_load d (tables_of k D K) w eta in
    reads_as b s' (wrench_in e (GetCOGPositionInWorld b NWU) (mode_sum modes LINEAR L 6) (mode_sum modes ANGULAR L 6)).
Proof.
  intros G L I Rd Hm HR U He Hs. destruct (any_mask k d all_on modes D K xb w f e b s eta G all_binary L I Rd) as (s' & E & Q); try assumption.
  exists s'. split; [exact E|]. cbv zeta in Q |- *. rewrite active_all, seq_length in Q.
  assert (X : forall i, (i < 6)%nat -> wave_load d (spread all_on (tables_of k D K)) w eta i = wave_load d (tables_of k D K) w eta i).
  { intros i Hi. apply load_ext. intros a g. apply spread_all. exact Hi. }
  rewrite !(mode_sum_ext modes _ _ _ 6 X) in Q. exact Q.
Qed.

(** ** Regular and irregular waves *)
Lemma im_response A a X : Im (pt A a * X)%C = response A X a.
Proof. destruct X as [x y]. unfold pt, response, Re, Im, Cmult. cbn [fst snd]. ring. Qed.
Lemma regular_eta ip w x y : exists eta, wv_eta (regular_waves ip w) x y = Ok eta /\ eta_sized (regular_waves ip w) eta /\
  eta_of eta 0 0 = pt (rw_height w * b_ramp (rw_b w)) (rw_k w * (x * cos (rw_dir w) + y * sin (rw_dir w)) - rw_omega w * b_time (rw_b w)).
Proof.
  eexists. split; [reflexivity|]. split; [split; [reflexivity|intros r [<-|[]]; reflexivity]|]. unfold eta_of. cbn [nth]. unfold RComplexElevation. rewrite celem_pt. cbn [NWUsign flip_in]. f_equal. ring.
Qed.
Lemma irregular_eta ip w x y : tables_fit w -> exists eta, wv_eta (irregular_waves ip w) x y = Ok eta /\ eta_sized (irregular_waves ip w) eta /\
  forall j i, (j < iq_nbDir w)%nat -> (i < iq_nbFreq w)%nat -> eta_of eta j i = pt (qamp w j i * b_ramp (iq_b w)) (I_th w j i x y).
Proof.
  intros T. cbn [irregular_waves wv_eta]. rewrite (I_cel w T x y NWU). cbn [of_option]. eexists. split; [reflexivity|]. destruct T as (T1 & T2 & _). split.
  - unfold irregular_waves. split; cbn [wv_dirs wv_freqs]; [rewrite !map_length, seq_length; symmetry; exact T1|]. intros r Hr. apply in_map_iff in Hr. destruct Hr as (j & <- & _). rewrite map_length, seq_length. symmetry. exact T2.
  - intros j i Hj Hi. unfold eta_of. rewrite (nth_map_seq _ _ j) by exact Hj. rewrite (nth_map_seq _ _ i) by exact Hi. cbn [flip_in]. unfold I_A. cbn [NWUsign]. f_equal. ring.
Qed.

(** ** Initialisation fails outside the range *)
Lemma rcollect_fails {A : Type} (f : nat -> res A) : forall n k, (forall i, (k <= i < k + n)%nat -> f i = Fails \/ exists a, f i = Ok a) -> (exists i, (k <= i < k + n)%nat /\ f i = Fails) -> rcollect f k n = Fails.
Proof.
  induction n as [|n IH]; intros k H (i & Hi & F); [lia|]. cbn [rcollect]. destruct (H k ltac:(lia)) as [E|[a E]]; rewrite E; [reflexivity|]. cbn [rbind].
  rewrite IH; [reflexivity|intros; apply H; lia|]. exists i. split; [|exact F]. destruct (Nat.eq_dec i k) as [->|]; [congruence|lia].
Qed.
Lemma inside_dec xs x : inside xs x \/ ~ inside xs x.
Proof. unfold inside. lra. Qed.
Lemma forall_dec xs : forall l, List.Forall (inside xs) l \/ exists i, (i < length l)%nat /\ ~ inside xs (nth i l 0).
Proof.
  induction l as [|x l [IH|(i & Hi & N)]]; [left; constructor| |right; exists (S i); cbn [length nth]; split; [lia|exact N]].
  destruct (inside_dec xs x); [left; constructor; assumption|right; exists 0%nat; cbn [length nth]; split; [lia|assumption]].
Qed.
Lemma freq_fails d fr ys : good_db d -> length ys = NbFreq d -> ~ List.Forall (inside (pulsations d)) fr ->
  rcollect (fun i => w <<- vat fr i; EvalC (IC (GetFrequencies d) ys) w) 0 (length fr) = Fails.
Proof.
  intros G Hy N. rewrite freqs_eq. destruct (forall_dec (pulsations d) fr) as [F|(i & Hi & Ni)]; [contradiction|]. apply rcollect_fails.
  - intros j Hj. rewrite (vat_ok fr j 0) by lia. cbn [rbind]. destruct (inside_dec (pulsations d) (nth j fr 0)) as [D|D].
    + right. eexists. apply EvalC_ok; [apply pulsations_inc, G|rewrite pulsations_length; apply G|rewrite pulsations_length; exact Hy|exact D].
    + left. apply EvalC_outside; [apply pulsations_inc, G|exact D].
  - exists i. split; [lia|]. rewrite (vat_ok fr i 0) by lia. cbn [rbind]. apply EvalC_outside; [apply pulsations_inc, G|exact Ni].
Qed.
Lemma dir_eval d T nb m f dir : (m < nb)%nat -> (f < NbFreq d)%nat ->
  (r <<- vat (built d T nb) m; t <<- vat r f; EvalC t dir) = EvalC (IC (angles d) (map (fun a => T a m f) (seq 0 (NbDir d)))) dir.
Proof.
  intros Hm Hf. unfold built. rewrite (vat_ok _ m []) by (rewrite map_length, seq_length; lia). cbn [rbind]. rewrite nth_map_seq by lia.
  rewrite (vat_ok _ f (IC [] [])) by (rewrite map_length, seq_length; lia). cbn [rbind]. rewrite nth_map_seq by lia. reflexivity.
Qed.
Lemma interpdir_fails d b T fr dir : good_db d -> (1 <= GetNbForceMode b)%nat -> ~ (inside (angles d) dir /\ List.Forall (inside (pulsations d)) fr) ->
  InterpDir d b (built d T (GetNbForceMode b)) fr dir = Fails.
Proof.
  intros G Hb N. assert (G4 : (2 <= NbFreq d)%nat) by apply G. unfold InterpDir. rewrite rcollect_fails; [reflexivity| |].
  all: assert (Q : forall m, (m < GetNbForceMode b)%nat -> (freqCoeffs <<- rcollect (fun ifreq => r <<- vat (built d T (GetNbForceMode b)) m; t <<- vat r ifreq; EvalC t dir) 0 (NbFreq d);
    rcollect (fun i => w <<- vat fr i; EvalC (IC (GetFrequencies d) freqCoeffs) w) 0 (length fr)) = Fails);
  [intros m Hm; destruct (inside_dec (angles d) dir) as [A|A];
   [rewrite (rcollect_ok _ (fun f => cinterp (angles d) (map (fun a => T a m f) (seq 0 (NbDir d))) dir)) by
      (intros f Hf; rewrite dir_eval by lia; apply EvalC_ok; [apply angles_inc, G|rewrite angles_length; apply G|rewrite map_length, seq_length, angles_length; reflexivity|exact A]);
    cbn [rbind]; apply freq_fails; [exact G|rewrite map_length, seq_length; reflexivity|intros F; apply N; split; assumption]
   |rewrite rcollect_fails; [reflexivity| |];
     [intros f Hf; left; rewrite dir_eval by lia; apply EvalC_outside; [apply angles_inc, G|exact A]
     |exists 0%nat; split; [lia|]; rewrite dir_eval by lia; apply EvalC_outside; [apply angles_inc, G|exact A]]]|].
  - intros m Hm. left. apply Q. lia.
  - exists 0%nat. split; [lia|]. apply Q. lia.
Qed.
Lemma interp_fails d b T w : good_db d -> (1 <= GetNbForceMode b)%nat -> wv_dirs w <> [] -> ~ in_range d w ->
  GetHDBInterp d b (built d T (GetNbForceMode b)) (wv_freqs w) (wv_dirs w) = Fails.
Proof.
  intros G Hb Hd N. unfold GetHDBInterp. assert (Hl : (0 < length (wv_dirs w))%nat) by (destruct (wv_dirs w); [congruence|cbn; lia]).
  assert (Ev : forall j, (j < length (wv_dirs w))%nat -> (dir <<- vat (wv_dirs w) j; InterpDir d b (built d T (GetNbForceMode b)) (wv_freqs w) (Normalize_0_2PI dir)) = InterpDir d b (built d T (GetNbForceMode b)) (wv_freqs w) (reduced (nth j (wv_dirs w) 0))).
  { intros j Hj. rewrite (vat_ok _ j 0) by lia. reflexivity. }
  apply rcollect_fails.
  - intros j Hj. rewrite Ev by lia. destruct (inside_dec (angles d) (reduced (nth j (wv_dirs w) 0))) as [A|A].
    + destruct (forall_dec (pulsations d) (wv_freqs w)) as [F|(i & Hi & Ni)]; [right; eexists; apply interpdir_ok; assumption|left; apply interpdir_fails; [assumption..|]].
      intros [_ F]. rewrite List.Forall_forall in F. apply Ni, F, nth_In, Hi.
    + left. apply interpdir_fails; [assumption..|]. intros [A' _]. contradiction.
  - destruct (forall_dec (pulsations d) (wv_freqs w)) as [F|(i & Hi & Ni)].
    + assert (X : exists j, (j < length (wv_dirs w))%nat /\ ~ inside (angles d) (reduced (nth j (wv_dirs w) 0))).
      { destruct (forall_dec (angles d) (map reduced (wv_dirs w))) as [F2|(j & Hj & Nj)].
        - exfalso. apply N. split; [exact F|]. rewrite List.Forall_forall in F2 |- *. intros a Ha. apply F2. apply in_map. exact Ha.
        - rewrite map_length in Hj. exists j. split; [exact Hj|]. rewrite (nth_indep _ 0 (reduced 0)) in Nj by (rewrite map_length; exact Hj). rewrite map_nth in Nj. exact Nj. }
      destruct X as (j & Hj & Nj). exists j. split; [lia|]. rewrite Ev by lia. apply interpdir_fails; [assumption..|]. intros [A _]. contradiction.
    + exists 0%nat. split; [lia|]. rewrite Ev by lia. apply interpdir_fails; [assumption..|]. intros [_ F]. rewrite List.Forall_forall in F. apply Ni, F, nth_In, Hi.
Qed.
Lemma init_fails k d b r T w : good_db d -> (1 <= GetNbForceMode b)%nat -> wv_dirs w <> [] -> ~ in_range d w -> holds k d b r T -> HF_Initialize k d b w new_hforce = Fails.
Proof. intros G Hb Hd N H. unfold HF_Initialize. rewrite (build_ok k d b r T H). cbn [rbind new_hforce hf_F]. rewrite (interp_fails d b T w G Hb Hd N). reflexivity. Qed.
