(** Lemmas: amplitudes, configuration of irregular fields, the optimised irregular field *)
From Coq Require Import Reals List Lra Lia Psatz Arith ZArith.
From Coquelicot Require Import Coquelicot.
From Verif Require Import GeoModel DispModel WavModel WavSpec WavProofs WavProofs2 WavProofs3 SeaModel SeaSpec SeaProofs SeaProofs2 SeaProofs3 SeaProofs4 SeaProofs5.
Import ListNotations.
Open Scope R_scope.

(** ** Amplitudes *)
Lemma vat_map {A : Type} (g : nat -> A) n i : (i < n)%nat -> vat (map g (seq 0 n)) i = Ok (g i).
Proof. intros H. unfold vat. change (nth_error (map g (seq 0 n)) i) with (at1 (map g (seq 0 n)) i). rewrite at1_map by exact H. reflexivity. Qed.
Lemma amps1 s v : v <> [] -> length v <> 3%nat -> GetWaveAmplitudes1 s v = Ok (map (fun i => sqrt (2 * Eval s (nth i v 0) * width v i)) (seq 0 (length v))).
Proof.
  intros NE N3. unfold GetWaveAmplitudes1. rewrite disc_ok by assumption. cbn [rbind]. apply rcollect_ok. intros i Hi. rewrite (vat_ok v i 0), vat_map by lia. reflexivity.
Qed.
Lemma amps1_three s a b c : GetWaveAmplitudes1 s [a; b; c] = Undef.
Proof. reflexivity. Qed.
Lemma amps2 s freqs dirs g : freqs <> [] -> length freqs <> 3%nat -> dirs <> [] -> length dirs <> 3%nat ->
  match sp_dir s with None => dirs = [nth 0 dirs 0] /\ g = [1] | Some m => spreading m dirs (/ 2 * (nth 0 dirs 0 + nth (length dirs - 1) dirs 0)) = Ok g end ->
  GetWaveAmplitudes2 s freqs dirs = Ok (map (fun j => map (fun i => sqrt (2 * Eval s (nth i freqs 0) * nth j g 0 * width dirs j * width freqs i)) (seq 0 (length freqs))) (seq 0 (length dirs))).
Proof.
  intros F1 F3 D1 D3 M. unfold GetWaveAmplitudes2. cbv zeta. assert (LD : (0 < length dirs)%nat) by (destruct dirs; [contradiction|cbn; lia]).
  rewrite (vat_ok dirs 0 0), (vat_ok dirs (length dirs - 1) 0) by lia. cbn [rbind].
  assert (GL : length g = length dirs /\ match sp_dir s with None => Ok [1] | Some m => spreading m dirs (/ 2 * (nth 0 dirs 0 + nth (length dirs - 1) dirs 0)) end = Ok g).
  { destruct (sp_dir s) as [m|].
    - split; [|exact M]. clear - M. set (th := / 2 * _) in M. clearbody th. revert g M. induction dirs as [|d r IH]; intros g M; cbn in M; [injection M as <-; reflexivity|].
      destruct (dir_eval m d th); try discriminate. cbn in M. destruct (spreading m r th) as [l| | | |] eqn:S; try discriminate. cbn in M. injection M as <-. cbn. f_equal. apply IH. reflexivity.
    - destruct M as [M1 M2]. subst g. split; [|reflexivity]. rewrite M1. reflexivity. }
  destruct GL as [GL GE]. rewrite GE. cbn [rbind]. rewrite (disc_ok dirs), (disc_ok freqs) by assumption. cbn [rbind].
  apply rcollect_ok. intros j Hj. apply rcollect_ok. intros i Hi. rewrite (vat_ok freqs i 0), (vat_ok g j 0), (vat_map (width dirs)), (vat_map (width freqs)) by lia. reflexivity.
Qed.
Lemma linspace_length a b n : length (linspace a b n) = n.
Proof. unfold linspace. rewrite map_length, seq_length. reflexivity. Qed.
Lemma linspace_nth a b n i : (i < n)%nat -> nth i (linspace a b n) 0 = a + INR i * ((b - a) / INR (n - 1)).
Proof. intros H. unfold linspace. rewrite (nth_indep _ 0 (a + INR 0 * ((b - a) / INR (n - 1)))) by (rewrite map_length, seq_length; exact H). rewrite (map_nth (fun i => a + INR i * ((b - a) / INR (n - 1))) (seq 0 n) 0%nat i), seq_nth by exact H. reflexivity. Qed.
Lemma linspace_nil a b n : linspace a b n = [] -> n = 0%nat.
Proof. intros H. pose proof (linspace_length a b n) as L. rewrite H in L. cbn in L. congruence. Qed.
Lemma linspace_ends a b n : (2 <= n)%nat -> nth 0 (linspace a b n) 0 = a /\ nth (n - 1) (linspace a b n) 0 = b.
Proof.
  intros H. rewrite !linspace_nth by lia. cbn [INR]. assert (0 < INR (n - 1)) by (apply lt_0_INR; lia). split; [ring|field; lra].
Qed.
(** shape of the amplitude table *)
Lemma amps2_shape s freqs dirs t : GetWaveAmplitudes2 s freqs dirs = Ok t -> length t = length dirs /\ (forall r, In r t -> length r = length freqs).
Proof.
  unfold GetWaveAmplitudes2. cbv zeta. intros H. destruct (vat dirs 0); cbn in H; try discriminate. destruct (vat dirs (length dirs - 1)); cbn in H; try discriminate.
  destruct (match sp_dir s with None => _ | Some m => _ end); cbn in H; try discriminate. destruct (vectorDiscretization dirs); cbn in H; try discriminate. destruct (vectorDiscretization freqs); cbn in H; try discriminate.
  apply rcollect_inv in H. destruct H as [L G]. split; [exact L|]. intros r Hr. apply In_nth_error in Hr. destruct Hr as [j Hj].
  assert (JL : (j < length dirs)%nat) by (rewrite <- L; apply nth_error_Some; congruence). specialize (G j JL). cbn in G. unfold vat in G at 5. rewrite Hj in G. cbn in G.
  apply rcollect_inv in G. apply G.
Qed.

(** ** Configuration *)
Lemma vect_length fuel h g l : forall k, SolveWaveDispersionRelationVect fuel h l g = Some k -> length k = length l.
Proof.
  induction l as [|w r IH]; intros k H; cbn in H; [injection H as <-; reflexivity|].
  destruct (SolveWaveDispersionRelation fuel h w g); [|discriminate]. destruct (SolveWaveDispersionRelationVect fuel h r g) eqn:E; [|discriminate]. injection H as <-. cbn. f_equal. apply IH. reflexivity.
Qed.
Lemma SWF_inv fuel s w a b n w' : SetWaveFrequencies fuel s w a b n = Ok w' ->
  let q := iw_q w in let q' := iw_q w' in
  0 < a /\ a <= b /\ n <> 0%nat /\ iq_nbFreq q' = n /\ length (iq_freqs q') = n /\ length (iq_ks q') = n /\ iq_dirs q' = iq_dirs q /\ iq_nbDir q' = iq_nbDir q /\
  iq_phases q' = iq_phases q /\ iq_vf q' = iq_vf q /\ iq_b q' = iq_b q /\ (iq_dirs q <> [] -> GetWaveAmplitudes2 (iw_spec w) (iq_freqs q') (iq_dirs q) = Ok (iq_amp q')) /\
  iw_spec w' = iw_spec w /\ iw_mean w' = iw_mean w /\ iw_file w' = iw_file w /\ iw_min w' = a /\ iw_max w' = b /\
  (if Nat.eqb n 1 then iq_freqs q' = [a] /\ a = b else iq_freqs q' = linspace a b n) /\
  (if b_inf (iq_b q) then iq_ks q' = map (fun f => f * f / s_grav s) (iq_freqs q') else SolveWaveDispersionRelationVect fuel (s_depth s) (iq_freqs q') (s_grav s) = Some (iq_ks q')).
Proof.
  unfold SetWaveFrequencies. intros H. destruct (Rlt_dec 0 a) as [A|]; [|discriminate]. destruct (Rle_dec a b) as [B|]; [|discriminate]. destruct (Nat.eqb_spec n 0) as [|N]; [discriminate|].
  set (fr := if Nat.eqb n 1 then _ else _) in H. destruct fr as [freqs| | | |] eqn:FE; cbn [rbind] in H; try discriminate.
  assert (FV : if Nat.eqb n 1 then freqs = [a] /\ a = b else freqs = linspace a b n). { unfold fr in FE. destruct (Nat.eqb n 1); [destruct (Req_EM_T a b); [injection FE as <-; auto|discriminate]|injection FE as <-; reflexivity]. }
  assert (FL : length freqs = n). { destruct (Nat.eqb_spec n 1) as [->|]; [destruct FV as [-> _]; reflexivity|rewrite FV; apply linspace_length]. }
  set (kr := if b_inf _ then _ else _) in H. destruct kr as [ks| | | |] eqn:KE; cbn [rbind] in H; try discriminate.
  assert (KV : if b_inf (iq_b (iw_q w)) then ks = map (fun f => f * f / s_grav s) freqs else SolveWaveDispersionRelationVect fuel (s_depth s) freqs (s_grav s) = Some ks).
  { unfold kr in KE. destruct (b_inf (iq_b (iw_q w))); [injection KE as <-; reflexivity|]. destruct (SolveWaveDispersionRelationVect _ _ _ _); [injection KE as <-; reflexivity|discriminate]. }
  assert (KL : length ks = n). { destruct (b_inf (iq_b (iw_q w))); [rewrite KV, map_length; exact FL|rewrite (vect_length _ _ _ _ _ KV); exact FL]. }
  cbv zeta in H. cbn [iq_dirs set_freqs] in H. destruct (iq_dirs (iw_q w)) as [|d r] eqn:DE.
  - cbn [rbind] in H. injection H as <-. cbn. rewrite DE. spl; auto. intros F; contradiction F; reflexivity.
  - destruct (GetWaveAmplitudes2 (iw_spec w) freqs (d :: r)) as [am| | | |] eqn:AE; cbn [rbind] in H; try discriminate. injection H as <-. cbn. rewrite DE. spl; auto.
Qed.
Lemma CWD_inv fuel w w' : ComputeWaveDirections fuel w = Ok w' ->
  let q := iw_q w in let q' := iw_q w' in
  length (iq_dirs q') = iq_nbDir q /\ iq_nbDir q' = iq_nbDir q /\ iq_nbFreq q' = iq_nbFreq q /\ iq_freqs q' = iq_freqs q /\ iq_ks q' = iq_ks q /\ iq_phases q' = iq_phases q /\ iq_vf q' = iq_vf q /\ iq_b q' = iq_b q /\
  iw_spec w' = iw_spec w /\ iw_mean w' = iw_mean w /\ iw_file w' = iw_file w /\ iw_min w' = iw_min w /\ iw_max w' = iw_max w /\ sp_dir (iw_spec w) <> None.
Proof.
  unfold ComputeWaveDirections. cbv zeta. intros H. destruct (sp_dir (iw_spec w)) as [m|] eqn:DM; [|discriminate].
  set (dr := match m with Cos2s _ _ => _ | DirTest => _ end) in H. destruct dr as [dirs| | | |] eqn:DE; cbn [rbind] in H; try discriminate.
  assert (DL : length dirs = iq_nbDir (iw_q w)). { unfold dr in DE. destruct m as [sf cs|]; [|injection DE as <-; apply linspace_length]. destruct (GetDirectionBandwidth _ _ _); cbn in DE; try discriminate. injection DE as <-. apply linspace_length. }
  cbn [iq_freqs set_dirs] in H. destruct (iq_freqs (iw_q w)) as [|f r] eqn:FE.
  - cbn [rbind] in H. injection H as <-. cbn. rewrite FE. spl; auto; congruence.
  - destruct (GetWaveAmplitudes2 _ _ _) as [am| | | |]; cbn [rbind] in H; try discriminate. injection H as <-. cbn. rewrite FE. spl; auto; congruence.
Qed.
Definition config_ok (w : iwf) : Prop := iw_file w = false /\ iq_nbDir (iw_q w) <> 0%nat /\ ((iq_dirs (iw_q w) = [] /\ iq_nbDir (iw_q w) = 1%nat) \/ length (iq_dirs (iw_q w)) = iq_nbDir (iw_q w)).
Lemma init_inv fuel rnd s w w' : config_ok w -> I_initialize fuel rnd s w = Ok w' ->
  config_ok w' /\ tables_fit (iw_q w') /\ iq_nbFreq (iw_q w') = iq_nbFreq (iw_q w) /\ 0 < iw_min w' /\ iw_min w' <= iw_max w' /\
  (if Nat.eqb (iq_nbFreq (iw_q w)) 1 then iq_freqs (iw_q w') = [iw_min w'] /\ iw_min w' = iw_max w' else iq_freqs (iw_q w') = linspace (iw_min w') (iw_max w') (iq_nbFreq (iw_q w))) /\
  (if s_inf s then iq_ks (iw_q w') = map (fun f => f * f / s_grav s) (iq_freqs (iw_q w')) else SolveWaveDispersionRelationVect fuel (s_depth s) (iq_freqs (iw_q w')) (s_grav s) = Some (iq_ks (iw_q w'))) /\
  GetWaveAmplitudes2 (iw_spec w) (iq_freqs (iw_q w')) (iq_dirs (iw_q w')) = Ok (iq_amp (iw_q w')) /\ iw_spec w' = iw_spec w /\ iw_mean w' = iw_mean w /\
  iq_dirs (iw_q w') = (match iq_dirs (iw_q w) with [] => [iw_mean w] | l => l end) /\
  (forall i j, (i < iq_nbDir (iw_q w'))%nat -> (j < iq_nbFreq (iw_q w'))%nat -> nth j (nth i (iq_phases (iw_q w')) []) 0 = rnd i j) /\
  iq_vf (iw_q w') = VF (vf_kind (iq_vf (iw_q w))) (s_inf s) /\ iq_b (iw_q w') = base_update s (base_init s (iq_b (iw_q w))) 0 /\ iq_nbFreq (iw_q w) <> 0%nat.
Proof.
  intros [FF [N0 DD]] H. unfold I_initialize in H. cbv zeta in H. rewrite FF in H.
  set (q0 := set_base _ _ _) in H. 
  set (q1 := match iq_dirs q0 with [] => _ | _ => _ end) in H.
  assert (Q1 : iq_nbDir q1 = iq_nbDir (iw_q w) /\ iq_nbFreq q1 = iq_nbFreq (iw_q w) /\ length (iq_dirs q1) = iq_nbDir q1 /\ iq_b q1 = base_init s (iq_b (iw_q w)) /\ iq_vf q1 = VF (vf_kind (iq_vf (iw_q w))) (s_inf s) /\ iq_dirs q1 = (match iq_dirs (iw_q w) with [] => [iw_mean w] | l => l end) /\ iq_phases q1 = iq_phases (iw_q w)).
  { unfold q1. change (iq_dirs q0) with (iq_dirs (iw_q w)). destruct (iq_dirs (iw_q w)) as [|d r] eqn:DE; unfold q0; cbn; spl; auto.
    - destruct DD as [[_ ->]|L]; [reflexivity|]. cbn in L. congruence.
    - rewrite DE. destruct DD as [[F _]|L]; [discriminate|exact L]. }
  destruct Q1 as [Q1 [Q2 [Q3 [Q4 [Q5 [Q6 Q7]]]]]].
  set (bwr := if Req_EM_T (iw_min w) 0 then _ else _) in H. destruct bwr as [[lo hi]| | | |]; cbn [rbind] in H; try discriminate. cbn [fst snd] in H.
  destruct (SetWaveFrequencies fuel s (upd_q w q1) lo hi (iq_nbFreq q1)) as [w2| | | |] eqn:SW; cbn [rbind] in H; try discriminate.
  apply SWF_inv in SW. cbv zeta in SW. cbn [iw_q upd_q iw_spec iw_mean iw_file] in SW.
  destruct SW as [S1 [S2 [S3 [S4 [S5 [S6 [S7 [S8 [S9 [S10 [S11 [S12 [S13 [S14 [S15 [S16 [S17 [S18 S19]]]]]]]]]]]]]]]]]].
  assert (DN : iq_dirs q1 <> []). { intros F. rewrite F in Q3. cbn in Q3. congruence. }
  specialize (S12 DN). injection H as <-. cbn.
  pose proof (amps2_shape _ _ _ _ S12) as [SH1 SH2].
  assert (PL : length (map (fun i => map (fun j => rnd i j) (seq 0 (length (iq_freqs (iw_q w2))))) (seq 0 (length (iq_dirs (iw_q w2))))) = iq_nbDir (iw_q w2)) by (rewrite map_length, seq_length; congruence).
  split. { unfold config_ok. cbn. spl; [congruence|congruence|right; congruence]. }
  split. { unfold tables_fit. cbn. spl; try congruence.
    - intros r Hr. rewrite (SH2 r Hr). congruence.
    - intros r Hr. apply in_map_iff in Hr. destruct Hr as [i [<- _]]. rewrite map_length, seq_length. congruence. }
  rewrite S16, S17, S13, S14, S4, S7, Q2 in *. spl; auto.
  - rewrite Q4 in S19. cbn in S19. exact S19.
  - intros i j Hi Hj. rewrite S8 in Hi. rewrite Q3, nth_indep with (d' := map (fun j => rnd 0%nat j) (seq 0 (length (iq_freqs (iw_q w2))))) by (rewrite map_length, seq_length; lia).
    rewrite (map_nth (fun i => map (fun j => rnd i j) (seq 0 (length (iq_freqs (iw_q w2))))) (seq 0 (iq_nbDir q1)) 0%nat i), seq_nth by lia. cbn [Nat.add].
    rewrite nth_indep with (d' := rnd i 0%nat) by (rewrite map_length, seq_length; lia). rewrite (map_nth (fun j => rnd i j) (seq 0 (length (iq_freqs (iw_q w2)))) 0%nat j), seq_nth by lia. reflexivity.
  - rewrite S10, Q5. reflexivity.
  - rewrite S11, Q4. reflexivity.
Qed.
Lemma op_config fuel tg w c w' : config_ok w -> own_call c -> i_op fuel tg w c = Ok w' -> config_ok w'.
Proof.
  intros K O H. destruct c as [s o]. destruct K as [K1 [K2 K3]]. destruct o; cbn in H, O.
  - apply SWF_inv in H. cbv zeta in H. unfold config_ok. intuition congruence.
  - unfold SetMeanWaveDirectionAngle in H. cbv zeta in H. cbn in H. destruct (sp_dir (iw_spec w)); [|injection H as <-; unfold config_ok; cbn; auto].
    apply CWD_inv in H. cbv zeta in H. cbn in H. unfold config_ok. intuition congruence.
  - unfold SetDirectionalParameters in H. cbv zeta in H. apply CWD_inv in H. cbv zeta in H. cbn in H. unfold config_ok. intuition congruence.
  - injection H as <-. unfold config_ok. cbn. auto.
  - injection H as <-. unfold config_ok. cbn. auto.
  - injection H as <-. unfold config_ok. cbn. auto.
  - apply init_inv in H; [apply H|]. unfold config_ok. auto.
  - injection H as <-. unfold config_ok. cbn. auto.
  - contradiction.
Qed.
Lemma run_config fuel tg l : forall w w', config_ok w -> List.Forall own_call l -> i_run fuel tg w l = Ok w' -> config_ok w'.
Proof.
  induction l as [|c r IH]; intros w w' K O H; cbn in H; [injection H as <-; exact K|]. inversion O; subst.
  destruct (i_op fuel tg w c) as [w1| | | |] eqn:E; cbn in H; try discriminate. apply (IH w1); auto. eapply op_config; eauto.
Qed.
Lemma run_app fuel tg l1 : forall l2 w, i_run fuel tg w (l1 ++ l2) = (w' <<- i_run fuel tg w l1; i_run fuel tg w' l2).
Proof. induction l1 as [|c r IH]; intros l2 w; cbn; [reflexivity|]. destruct (i_op fuel tg w c); cbn; auto. Qed.
Lemma make_config s junk : config_ok (I_make s junk).
Proof. unfold config_ok. cbn. auto. Qed.

(** ** The optimised irregular field *)
Lemma of_option_at {A : Type} (l : list A) i r : vat l i = Ok r -> at1 l i = Some r.
Proof. unfold vat, at1, of_option. destruct (nth_error l i); congruence. Qed.
Lemma collect_ext {A : Type} (f g : nat -> option A) n : forall i0, (forall i, (i0 <= i < i0 + n)%nat -> f i = g i) -> collect f i0 n = collect g i0 n.
Proof. induction n as [|n IH]; intros i0 H; cbn; [reflexivity|]. rewrite (H i0) by lia. rewrite IH by (intros; apply H; lia). reflexivity. Qed.
Lemma rcollect_at {A : Type} (f : nat -> res A) n l : rcollect f 0 n = Ok l -> forall i, (i < n)%nat -> exists a, f i = Ok a /\ at1 l i = Some a.
Proof.
  intros H i Hi. apply rcollect_inv in H. destruct H as [L G]. specialize (G i Hi). cbn in G. destruct (nth_error l i) as [a|] eqn:E; [|apply nth_error_None in E; lia].
  exists a. unfold vat in G. rewrite E in G. split; [exact G|exact E].
Qed.
(** the caches hold what the plain field computes *)
Definition caches_fresh (o : iwo) : Prop :=
  let q := iw_q (io_w o) in
  (forall i, (i < iq_nbDir q)%nat -> exists d, at1 (iq_dirs q) i = Some d /\ at1 (io_cos o) i = Some (cos d) /\ at1 (io_sin o) i = Some (sin d)) /\
  (forall i j, (i < iq_nbDir q)%nat -> (j < iq_nbFreq q)%nat -> exists ar a p, at1 (iq_amp q) i = Some ar /\ at1 ar j = Some a /\ at2 (iq_phases q) i j = Some p /\ at2 (io_aexp o) i j = Some (RtoC a * cexp (JJ * RtoC p))%C) /\
  (forall j, (j < iq_nbFreq q)%nat -> exists f, at1 (iq_freqs q) j = Some f /\ at1 (io_exp o) j = Some (cexp (- JJ * RtoC f * RtoC (b_time (iq_b q))))%C).
Lemma fresh_elevation o x y fc : caches_fresh o -> (iq_nbDir (iw_q (io_w o)) <> 0%nat -> iq_nbFreq (iw_q (io_w o)) <> 0%nat) -> IOComplexElevation o x y fc = IComplexElevation (iw_q (io_w o)) x y fc.
Proof.
  intros [F1 [F2 F3]] NZ. unfold IOComplexElevation, IComplexElevation. cbv zeta. apply collect_ext. intros i Hi.
  destruct (F1 i ltac:(lia)) as [d [D1 [D2 D3]]]. rewrite D1, D2, D3. cbn [bind].
  destruct (F2 i 0%nat ltac:(lia)) as [ar [a0 [p0 [A0 _]]]]. { specialize (NZ ltac:(lia)). lia. }
  rewrite A0. cbn [bind]. apply collect_ext. intros j Hj. destruct (F2 i j ltac:(lia) ltac:(lia)) as [ar' [a [p [A1 [A2 [P1 P2]]]]]]. rewrite A0 in A1. injection A1 as <-.
  destruct (F3 j ltac:(lia)) as [f [FF1 FF2]]. rewrite A2, P1, P2, FF1, FF2. cbn [bind]. destruct (at1 (iq_ks (iw_q (io_w o))) j) as [k|]; cbn [bind]; [|reflexivity]. f_equal.
  assert (K : (cexp (JJ * RtoC k * RtoC (x * cos d + flip_in fc y * sin d)) * cexp (- JJ * RtoC f * RtoC (b_time (iq_b (iw_q (io_w o))))) * cexp (JJ * RtoC p) = cexp (JJ * RtoC (k * (x * cos d + flip_in fc y * sin d) - f * b_time (iq_b (iw_q (io_w o))) + p)))%C).
  { replace (JJ * RtoC k * RtoC (x * cos d + flip_in fc y * sin d))%C with (JJ * RtoC (k * (x * cos d + flip_in fc y * sin d)))%C by (rewrite RtoC_mult; ring).
    replace (- JJ * RtoC f * RtoC (b_time (iq_b (iw_q (io_w o)))))%C with (- JJ * RtoC (f * b_time (iq_b (iw_q (io_w o)))))%C by (rewrite RtoC_mult; ring).
    set (u := k * _). set (v := f * _). rewrite (Cmult_comm (cexp (JJ * RtoC u)%C)), cexp_split.
    rewrite !cexp_J. unfold Cmult. cbn. rewrite cos_plus, sin_plus. f_equal; ring. }
  rewrite <- K. ring.
Qed.
Lemma internal_inv o o' : IO_internal o = Ok o' -> io_w o' = io_w o /\ io_cos o' = io_cos o /\ io_sin o' = io_sin o /\ io_aexp o' = io_aexp o /\
  (forall j, (j < iq_nbFreq (iw_q (io_w o)))%nat -> exists f, at1 (iq_freqs (iw_q (io_w o))) j = Some f /\ at1 (io_exp o') j = Some (cexp (- JJ * RtoC f * RtoC (b_time (iq_b (iw_q (io_w o))))))%C).
Proof.
  unfold IO_internal. cbv zeta. intros H. destruct (rcollect _ 0 _) as [e| | | |] eqn:E; cbn [rbind] in H; try discriminate. injection H as <-. cbn. spl; auto.
  intros j Hj. destruct (rcollect_at _ _ _ E j Hj) as [a [A1 A2]]. unfold vat in A1. unfold at1 at 1. destruct (nth_error (iq_freqs (iw_q (io_w o))) j) as [f|]; cbn in A1; [|discriminate]. exists f. split; [reflexivity|]. injection A1 as <-. exact A2.
Qed.
Lemma step_fresh s t o o' : caches_fresh o -> IO_finalize (IO_update s o t) = Ok o' -> caches_fresh o' /\ iq_nbFreq (iw_q (io_w o')) = iq_nbFreq (iw_q (io_w o)) /\ io_w o' = upd_q (io_w o) (I_update s (iw_q (io_w o)) t).
Proof.
  intros [F1 [F2 F3]] H. apply internal_inv in H. destruct H as [H1 [H2 [H3 [H4 H5]]]]. cbn in H1, H2, H3, H4, H5. unfold caches_fresh. rewrite H1, H2, H3, H4. cbn. spl; auto.
Qed.
Lemma steps_fresh l : forall o o', caches_fresh o -> io_steps o l = Ok o' -> caches_fresh o' /\ iq_nbFreq (iw_q (io_w o')) = iq_nbFreq (iw_q (io_w o)).
Proof.
  induction l as [|[s t] r IH]; intros o o' F H; cbn in H; [injection H as <-; auto|].
  destruct (IO_finalize (IO_update s o t)) as [o1| | | |] eqn:E; cbn in H; try discriminate. apply step_fresh in E; [|exact F]. destruct E as [E1 [E2 _]].
  destruct (IH o1 o' E1 H) as [G1 G2]. split; [exact G1|congruence].
Qed.
Lemma io_init_fresh fuel rnd s o o' : config_ok (io_w o) -> IO_initialize fuel rnd s o = Ok o' -> caches_fresh o' /\ iq_nbFreq (iw_q (io_w o')) <> 0%nat /\ I_initialize fuel rnd s (io_w o) = Ok (io_w o').
Proof.
  intros K H. unfold IO_initialize in H. destruct (I_initialize fuel rnd s (io_w o)) as [w| | | |] eqn:IE; cbn [rbind] in H; try discriminate. cbv zeta in H.
  pose proof (init_inv _ _ _ _ _ K IE) as [_ [TF [NF [_ [_ [_ [_ [AM [SPE [_ [_ [_ [_ [_ N0]]]]]]]]]]]]]].
  rewrite SPE, AM in H. cbn [rbind] in H.
  destruct (rcollect _ 0 (iq_nbDir (iw_q w))) as [cs| | | |] eqn:CE in H; cbn [rbind] in H; try discriminate.
  destruct (rcollect _ 0 (iq_nbDir (iw_q w))) as [sn| | | |] eqn:SE in H; cbn [rbind] in H; try discriminate.
  destruct (rcollect _ 0 (iq_nbDir (iw_q w))) as [ae| | | |] eqn:AE in H; cbn [rbind] in H; try discriminate.
  apply internal_inv in H. destruct H as [H1 [H2 [H3 [H4 H5]]]]. cbn in H1, H2, H3, H4, H5. rewrite H1. split; [|split; [congruence|reflexivity]].
  unfold caches_fresh. rewrite H1, H2, H3, H4. spl.
  - intros i Hi. destruct (rcollect_at _ _ _ CE i Hi) as [a [A1 A2]]. destruct (rcollect_at _ _ _ SE i Hi) as [b [B1 B2]].
    unfold vat in A1, B1. unfold at1 at 1. destruct (nth_error (iq_dirs (iw_q w)) i) as [d|]; cbn in A1, B1; [|discriminate]. exists d. injection A1 as <-. injection B1 as <-. auto.
  - intros i j Hi Hj. destruct (rcollect_at _ _ _ AE i Hi) as [row [R1 R2]]. destruct (rcollect_at _ _ _ R1 j Hj) as [a [A1 A2]].
    unfold at2. unfold at1 at 1. unfold vat in A1. destruct (nth_error (iq_amp (iw_q w)) i) as [ar|] eqn:E1; cbn in A1; [|discriminate]. destruct (nth_error ar j) as [am|] eqn:E2; cbn in A1; [|discriminate].
    destruct (nth_error (iq_phases (iw_q w)) i) as [pr|] eqn:E3; cbn in A1; [|discriminate]. destruct (nth_error pr j) as [p|] eqn:E4; cbn in A1; [|discriminate].
    exists ar, am, p. spl; auto; unfold at1 in *. + rewrite E3. exact E4. + rewrite R2. cbn [bind]. rewrite A2. congruence.
  - exact H5.
Qed.
