(** The coefficients of the waves and the loads on the modes *)
From Coq Require Import Reals List Bool ZArith Lra Lia Arith.
From Coquelicot Require Import Complex.
From Verif Require Import GeoModel GeoSpec GeoProofs BodyModel BodySpec MeshModel MeshSpec SigSpec EqfModel SeaModel SeaProofs6 WavModel FloModel RadModel RadSpec RadProofs RadProofs7 ExcModel ExcSpec ExcProofs.
Import ListNotations.
Open Scope R_scope.

Definition the_list (k : load) (b : xbody) : list cmat := match k with Diffraction => xb_diff b | FroudeKrylov => xb_fk b | Excitation => xb_exc b end.
(** Tables of r rows, r not less than the number of modes *)
Definition holds (k : load) (d : xdb) (b : xbody) (r : nat) (T : coefs) : Prop :=
  (GetNbForceMode b <= r)%nat /\ forall a, (a < NbDir d)%nat -> exists m, nth_error (the_list k b) a = Some m /\ cm_rows m = r /\ cm_cols m = NbFreq d /\ forall i j, (i < r)%nat -> (j < NbFreq d)%nat -> cm_at m i j = T a i j.
Definition built (d : xdb) (T : coefs) (nb : nat) : list (list interpC) :=
  map (fun m => map (fun f => IC (angles d) (map (fun a => T a m f) (seq 0 (NbDir d)))) (seq 0 (NbFreq d))) (seq 0 nb).
Lemma build_ok k d b r T : holds k d b r T -> BuildHDBInterpolators k d b = Ok (built d T (GetNbForceMode b)).
Proof.
  intros [Hr H]. unfold BuildHDBInterpolators, built. rewrite angles_eq. apply rcollect_ok. intros m Hm. apply rcollect_ok. intros f Hf.
  rewrite (rcollect_ok _ (fun a => T a m f)); [reflexivity|]. intros a Ha. unfold GetHDBData. rewrite (proj2 (Nat.ltb_lt a (NbDir d))) by lia.
  destruct (H a ltac:(lia)) as (M & E & R1 & R2 & V). fold (the_list k b). rewrite (vat_some _ _ _ E). cbn [rbind]. unfold cget.
  rewrite R1, R2, (proj2 (Nat.ltb_lt m r)), (proj2 (Nat.ltb_lt f (NbFreq d))) by lia. cbn [andb]. rewrite V by lia. reflexivity.
Qed.
Lemma coefficient_eq d T m dir om :
  cinterp (pulsations d) (map (fun f => cinterp (angles d) (map (fun a => T a m f) (seq 0 (NbDir d))) dir) (seq 0 (NbFreq d))) om = coefficient d T m dir om.
Proof.
  unfold cinterp, coefficient, part_at. rewrite !map_map. cbn [Re Im fst snd]. unfold NbDir, NbFreq.
  f_equal; f_equal; apply map_ext; intros f; rewrite map_map; reflexivity.
Qed.
Definition wave_row (d : xdb) (T : coefs) (fr : list R) (dir : R) (m : nat) : list C := map (fun i => coefficient d T m dir (nth i fr 0)) (seq 0 (length fr)).
Definition wave_mat (d : xdb) (T : coefs) (nb : nat) (fr : list R) (dir : R) : cmat :=
  CM nb (length fr) (fun i j => nth j (nth i (map (wave_row d T fr dir) (seq 0 nb)) []) (RtoC 0)).
Lemma interpdir_ok d b T fr dir : good_db d -> List.Forall (inside (pulsations d)) fr -> inside (angles d) dir ->
  InterpDir d b (built d T (GetNbForceMode b)) fr dir = Ok (wave_mat d T (GetNbForceMode b) fr dir).
Proof.
  intros G Hf Hd. unfold InterpDir. rewrite (rcollect_ok _ (wave_row d T fr dir)); [reflexivity|]. intros m Hm.
  rewrite (rcollect_ok _ (fun f => cinterp (angles d) (map (fun a => T a m f) (seq 0 (NbDir d))) dir)).
  - cbn [rbind]. rewrite freqs_eq. apply rcollect_ok. intros i Hi. rewrite (vat_ok fr i 0) by lia. cbn [rbind]. rewrite EvalC_ok; [rewrite coefficient_eq; reflexivity|apply pulsations_inc, G| | |].
    + rewrite pulsations_length. apply G.
    + rewrite map_length, seq_length, pulsations_length. reflexivity.
    + rewrite List.Forall_forall in Hf. apply Hf. apply nth_In. lia.
  - intros f Hfr. unfold built. rewrite (vat_ok _ m []) by (rewrite map_length, seq_length; lia). cbn [rbind]. rewrite nth_map_seq by lia.
    rewrite (vat_ok _ f (IC [] [])) by (rewrite map_length, seq_length; lia). cbn [rbind]. rewrite nth_map_seq by lia.
    apply EvalC_ok; [apply angles_inc, G|rewrite angles_length; apply G|rewrite map_length, seq_length, angles_length; reflexivity|exact Hd].
Qed.
Definition wave_mats (d : xdb) (T : coefs) (nb : nat) (w : waves) : list cmat := map (fun j => wave_mat d T nb (wv_freqs w) (reduced (dir_of w j))) (seq 0 (length (wv_dirs w))).
Lemma interp_ok d b T w : good_db d -> in_range d w ->
  GetHDBInterp d b (built d T (GetNbForceMode b)) (wv_freqs w) (wv_dirs w) = Ok (wave_mats d T (GetNbForceMode b) w).
Proof.
  intros G [Hf Hd]. unfold GetHDBInterp. apply rcollect_ok. intros j Hj. rewrite (vat_ok _ j 0) by lia. cbn [rbind]. rewrite reduced_norm.
  apply interpdir_ok; [exact G|exact Hf|]. rewrite List.Forall_forall in Hd. apply Hd. apply nth_In. lia.
Qed.
Lemma init_ok k d b r T w : good_db d -> in_range d w -> holds k d b r T ->
  HF_Initialize k d b w new_hforce = Ok (HF (built d T (GetNbForceMode b)) (wave_mats d T (GetNbForceMode b) w)).
Proof.
  intros G I H. unfold HF_Initialize. rewrite (build_ok k d b r T H). cbn [rbind new_hforce hf_F]. rewrite (interp_ok d b T w G I). reflexivity.
Qed.
Lemma forcemode_ok d T nb w eta m : eta_sized w eta -> (m < nb)%nat -> ForceMode w eta (wave_mats d T nb w) m = Ok (wave_load d T w eta m).
Proof.
  intros [E1 E2] Hm. unfold ForceMode, wave_load, component_sum.
  erewrite rtotal_ok; [reflexivity|]. intros i Hi. apply in_seq in Hi. cbn beta.
  erewrite rtotal_ok; [reflexivity|]. intros j Hj. apply in_seq in Hj. cbn beta.
  rewrite (vat_ok eta j []) by lia. cbn [rbind]. rewrite (vat_ok _ i (RtoC 0)) by (rewrite E2; [lia|apply nth_In; lia]). cbn [rbind].
  unfold wave_mats. rewrite (vat_ok _ j (CM 0 0 (fun _ _ => RtoC 0))) by (rewrite map_length, seq_length; lia). cbn [rbind]. rewrite nth_map_seq by lia.
  unfold cget, wave_mat. cbn [cm_rows cm_cols cm_at]. rewrite (proj2 (Nat.ltb_lt m nb)), (proj2 (Nat.ltb_lt i _)) by lia. cbn [andb rbind].
  rewrite nth_map_seq by exact Hm. unfold wave_row. rewrite nth_map_seq by lia. unfold eta_of, om_of. reflexivity.
Qed.
Lemma assemble_ok d xb T nb w eta k : GetNbForceMode xb = nb -> (nb <= 6)%nat -> (nb <= length (xb_modes xb))%nat -> eta_sized w eta ->
  Assemble xb (ForceMode w eta (wave_mats d T nb w)) k = Ok (mode_sum (xb_modes xb) k (wave_load d T w eta) nb).
Proof.
  intros E H6 Hl He. unfold Assemble, mode_sum. rewrite E. apply rvsum_ok. intros i Hi. apply in_seq in Hi. rewrite forcemode_ok by (assumption || lia). cbn [rbind].
  unfold GetForceMode. rewrite (proj2 (Nat.ltb_lt i 6)) by lia. unfold vat. destruct (nth_error (xb_modes xb) i) eqn:N; [|apply nth_error_None in N; lia]. cbn [of_option rbind].
  reflexivity.
Qed.
(** Interpolation is linear in the values *)
Lemma interpolated_lin c : forall xs ys zs x, length ys = length xs -> length zs = length xs -> interpolated xs (map (fun p => fst p + c * snd p) (combine ys zs)) x = interpolated xs ys x + c * interpolated xs zs x.
Proof.
  induction xs as [|a xs IH]; intros ys zs x Hy Hz; [cbn [interpolated]; ring|].
  destruct xs as [|b xs]; [cbn [interpolated]; ring|]. destruct ys as [|y0 [|y1 ys]]; try discriminate. destruct zs as [|z0 [|z1 zs]]; try discriminate.
  specialize (IH (y1 :: ys) (z1 :: zs) x ltac:(cbn in *; lia) ltac:(cbn in *; lia)). cbn [combine map] in IH |- *.
  change (interpolated (a :: b :: xs) ?l x) with (interpolated (a :: b :: xs) l x).
  cbn [interpolated fst snd]. cbn [interpolated fst snd] in IH. destruct (Rle_dec x b).
  - unfold affine. cbn [fst snd]. unfold Rdiv. ring.
  - exact IH.
Qed.
Lemma interpolated_sum {A : Type} c (f g : A -> R) xs l x : length l = length xs ->
  interpolated xs (map (fun a => f a + c * g a) l) x = interpolated xs (map f l) x + c * interpolated xs (map g l) x.
Proof.
  intros H. rewrite <- interpolated_lin by (rewrite map_length; exact H). f_equal. clear H. induction l; [reflexivity|]. cbn [map combine fst snd]. f_equal. exact IHl.
Qed.
Lemma coefficient_sum d T U k dir om : coefficient d (fun a m f => (T a m f + U a m f)%C) k dir om = (coefficient d T k dir om + coefficient d U k dir om)%C.
Proof.
  assert (P : forall part, (forall z t, part (z + t)%C = part z + part t) -> part_at d (fun a m f => (T a m f + U a m f)%C) part k dir om = part_at d T part k dir om + part_at d U part k dir om).
  { intros part Hp. unfold part_at. rewrite <- (Rmult_1_l (interpolated _ (map (fun f => interpolated (angles d) (map (fun a => part (U a k f)) _) dir) _) om)).
    rewrite <- interpolated_sum by (rewrite seq_length, pulsations_length; reflexivity). f_equal. apply map_ext. intros f.
    rewrite <- interpolated_sum by (rewrite seq_length, angles_length; reflexivity). f_equal. apply map_ext. intros a. rewrite Hp. ring. }
  unfold coefficient. rewrite !P by (intros [z1 z2] [t1 t2]; reflexivity). reflexivity.
Qed.
