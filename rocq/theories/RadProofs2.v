(** Proofs for C75, C76: the force after any history of calls *)
From Coq Require Import Reals List Bool ZArith Lra Lia Arith.
From Verif Require Import GeoModel GeoSpec GeoProofs GeoProofs3 BodyModel SigModel SigSpec SigProofs SigProofs2 SigProps EqfModel SeaModel FloModel RadModel RadSpec RadProofs.
Import ListNotations.
Open Scope R_scope.

Lemma fupd_same {A} (f : nat -> A) i a : fupd f i a i = a.
Proof. unfold fupd. rewrite Nat.eqb_refl. reflexivity. Qed.
Lemma fupd_other {A} (f : nat -> A) i j a : j <> i -> fupd f i a j = f j.
Proof. intros H. unfold fupd. destruct (Nat.eqb_spec j i); [contradiction|reflexivity]. Qed.

Lemma RecordAll_spec env t : forall order recs, NoDup order -> (forall j, In j order -> exists r, recs j = Some r) ->
  exists recs', RecordAll env t order recs = Ok recs' /\
    (forall j r, In j order -> recs j = Some r -> recs' j = Some (Record6 r t (GetPerturbationGeneralizedVelocityInFrame (fst (env j)) (snd (env j))))) /\
    (forall j, ~ In j order -> recs' j = recs j).
Proof.
  induction order as [|j0 order IH]; intros recs Hn H.
  - exists recs. split; [reflexivity|]. split; [intros j r []|reflexivity].
  - cbn [RecordAll]. destruct (H j0) as [r0 E0]; [left; reflexivity|]. unfold rec_of. rewrite E0. cbn [of_option rbind].
    inversion Hn as [|? ? N1 N2]; subst.
    set (v := Record6 r0 t _).
    destruct (IH (fupd recs j0 (Some v)) N2) as (recs' & -> & P & Q).
    { intros j Hj. destruct (Nat.eq_dec j j0) as [->|D]; [contradiction|]. rewrite fupd_other by auto. apply H. right; auto. }
    exists recs'. split; [reflexivity|]. split.
    + intros j r [<-|Hj] E.
      * rewrite Q by auto. rewrite fupd_same. rewrite E0 in E. inversion E; subst. reflexivity.
      * destruct (Nat.eq_dec j j0) as [->|D]; [contradiction|]. apply P; auto. rewrite fupd_other by auto. exact E.
    + intros j Hj. rewrite Q by (intros ?; apply Hj; right; auto). apply fupd_other. intros ->. apply Hj. left; reflexivity.
Qed.
Lemma ForceAll_spec h env recs : forall order forces, (forall i, In i order -> exists f, ForceOn h env recs i = Ok f) ->
  exists forces', ForceAll h env recs order forces = Ok forces' /\
    (forall i f, In i order -> ForceOn h env recs i = Ok f -> forces' i = Some f) /\ (forall i, ~ In i order -> forces' i = forces i).
Proof.
  induction order as [|i0 order IH]; intros forces H.
  - exists forces. split; [reflexivity|]. split; [intros i f []|reflexivity].
  - cbn [ForceAll]. destruct (H i0) as [f0 E0]; [left; reflexivity|]. rewrite E0. cbn [rbind].
    destruct (IH (fupd forces i0 (Some f0))) as (forces' & -> & P & Q); [intros; apply H; right; auto|].
    exists forces'. split; [reflexivity|]. split.
    + intros i f [<-|Hi] E; [|apply P; auto]. destruct (in_dec Nat.eq_dec i0 order) as [Hi|Hi]; [apply P; auto|].
      rewrite Q by auto. rewrite fupd_same. congruence.
    + intros i Hi. rewrite Q by (intros ?; apply Hi; right; auto). apply fupd_other. intros ->. apply Hi. left; reflexivity.
Qed.

Lemma fst_last_map {A} (f g : A -> R) : forall l x y, fst (last (map (fun c => (f c, g c)) l) (x, y)) = last (map f l) x.
Proof. induction l as [|c [|c' l] IH]; intros x y; [reflexivity|reflexivity|]. cbn [map] in *. cbn [last] in *. apply (IH x y). Qed.
Lemma last_time_past calls j d : last_time (past calls j d) = last_time (past calls j 0).
Proof.
  destruct calls as [|c calls]; [reflexivity|]. unfold last_time, past. cbn [map]. 
  etransitivity; [apply (fst_last_map (fun c : call => snd (fst c)))|symmetry; apply (fst_last_map (fun c : call => snd (fst c)))].
Qed.
Lemma first_time_past calls j d : first_time (past calls j d) = first_time (past calls j 0).
Proof. destruct calls; reflexivity. Qed.
Lemma steps_past dt calls j d : steps_within dt (past calls j 0) -> steps_within dt (past calls j d).
Proof.
  induction calls as [|c calls IH]; [trivial|]. destruct calls as [|c' calls]; [trivial|]. unfold past in *. cbn [map steps_within fst] in *. intros [A B]. split; [exact A|]. apply IH. exact B.
Qed.
Lemma past_nil calls j d : calls <> [] -> past calls j d <> [].
Proof. destruct calls; [congruence|discriminate]. Qed.
Lemma unique_steps dt d1 d2 m1 m2 : 0 < dt -> 0 <= d1 < dt -> 0 <= d2 < dt -> INR m1 * dt + d1 = INR m2 * dt + d2 -> m1 = m2 /\ d1 = d2.
Proof.
  intros H A B E. assert (m1 = m2); [|subst; split; [reflexivity|lra]].
  destruct (lt_eq_lt_dec m1 m2) as [[L|L]|L]; [exfalso|exact L|exfalso].
  - assert (INR (S m1) <= INR m2) by (apply le_INR; lia). rewrite S_INR in H0. apply (Rmult_le_compat_r dt) in H0; lra.
  - assert (INR (S m2) <= INR m1) by (apply le_INR; lia). rewrite S_INR in H0. apply (Rmult_le_compat_r dt) in H0; lra.
Qed.
(** What a recorder holds after the calls *)
Definition rec_after (Te dt : R) (calls : list call) (j : nat) : rec6 := fun k => rec_run (newRecorder Te dt) (past calls j k).
Lemma rec_after_shows Te dt calls j : 0 < dt <= Te -> calls <> [] -> steps_within dt (past calls j 0) ->
  exists a w, shows6 (rec_after Te dt calls j) a w /\
    memory Te dt (first_time (past calls j 0)) (last_time (past calls j 0)) a /\
    (forall i, (i < length a)%nat -> 0 <= nth i a 0 <= Te) /\
    forall d, (d < 6)%nat -> length (w d) = length a /\
      forall i, (i < length a)%nat -> on_polyline (past calls j d) (last_time (past calls j 0) - nth i a 0) (nth i (w d) 0).
Proof.
  intros Hdt Hc Hs.
  assert (Hcap : (1 <= capacity Te dt)%nat) by (apply capacity_pos; lra).
  assert (M : forall d, exists delta m, 0 <= delta < dt /\ last_time (past calls j 0) - first_time (past calls j 0) = INR m * dt + delta /\
      length (GetData (rec_after Te dt calls j d)) = Nat.min (capacity Te dt) (S m) /\
      GetTime (rec_after Te dt calls j d) = map (age delta dt) (seq 0 (length (GetData (rec_after Te dt calls j d)))) /\
      forall i, (i < length (GetData (rec_after Te dt calls j d)))%nat -> on_polyline (past calls j d) (last_time (past calls j 0) - age delta dt i) (nth i (GetData (rec_after Te dt calls j d)) 0)).
  { intros d. destruct (recorder_main (capacity Te dt) dt (newRecorder Te dt) (past calls j d)) as (delta & m & A & B & C & D & E & F); auto.
    - lra. - apply past_nil; auto. - apply steps_past; auto.
    - rewrite last_time_past, first_time_past in C. rewrite last_time_past in F. exists delta, m. repeat split; auto; apply A. }
  destruct (M 0%nat) as (delta & m & D1 & D2 & D3 & D4 & D5).
  exists (GetTime6 (rec_after Te dt calls j)), (fun d => GetData (rec_after Te dt calls j d)).
  unfold GetTime6. rewrite D4. set (n := length (GetData (rec_after Te dt calls j 0%nat))) in *.
  assert (Hn : (1 <= n)%nat) by lia.
  assert (La : length (map (age delta dt) (seq 0 n)) = n) by (rewrite map_length, seq_length; reflexivity).
  assert (Na : forall i, (i < n)%nat -> nth i (map (age delta dt) (seq 0 n)) 0 = age delta dt i).
  { intros i Hi. rewrite (nth_indep _ 0 (age delta dt 0)) by lia. rewrite (map_nth (age delta dt)), seq_nth; auto. }
  assert (W : forall d, length (GetData (rec_after Te dt calls j d)) = n /\ forall i, (i < n)%nat -> on_polyline (past calls j d) (last_time (past calls j 0) - age delta dt i) (nth i (GetData (rec_after Te dt calls j d)) 0)).
  { intros d. destruct (M d) as (delta' & m' & F1 & F2 & F3 & F4 & F5).
    destruct (unique_steps dt delta delta' m m') as [-> ->]; [lra|auto|auto|lra|].
    split; [lia|]. intros i Hi. apply F5. lia. }
  split.
  - unfold shows6, GetTime6. split; [exact D4|]. split; [destruct n; [lia|discriminate]|].
    intros d _. split; [reflexivity|]. rewrite La. apply W.
  - split; [|split].
    + exists delta, m. split; [exact D1|]. split; [exact D2|]. split; [rewrite La; exact D3|]. split.
      * rewrite (nth_indep _ 1 0) by lia. rewrite Na by lia. reflexivity.
      * intros i Hi. rewrite La in Hi. rewrite Na by lia. reflexivity.
    + rewrite La. intros i Hi. rewrite Na by auto. destruct i as [|i]; cbn [age]; [lra|].
      assert (Hc2 : INR (capacity Te dt) <= Te / dt) by (apply capacity_le; lra).
      assert (INR (S (S i)) <= INR (capacity Te dt)) by (apply le_INR; lia). rewrite !S_INR in H.
      assert (E : Te / dt * dt = Te) by (field; lra). pose proof (pos_INR i).
      assert ((INR i + 2) * dt <= Te / dt * dt) by (apply Rmult_le_compat_r; lra).
      split; [|lra]. assert (0 <= INR i * dt) by (apply Rmult_le_pos; lra). lra.
    + intros d _. destruct (W d) as [W1 W2]. split; [lia|]. rewrite La. intros i Hi. rewrite Na by auto. apply W2; auto.
Qed.

(** ** The sums of convolutions *)
Lemma conv_sum_ok h (K : nat -> list interp6) dofs T recs r a w :
  (forall j, In j (h_order h) -> recs j = Some (r j) /\ shows6 (r j) (a j) (w j) /\ forall i, (i < length (a j))%nat -> 0 <= nth i (a j) 0 <= T j) ->
  kernels_ready h K dofs T ->
  exists v, rsum (h_order h) (fun j => r <<- rec_of recs j; rsum (dofs j) (fun d => t <<- vat (K j) d; Convolve t r d)) = Ok v /\
    forall k, v k = memory_force h K dofs a w k.
Proof.
  intros H KR. unfold memory_force. apply (rsum_ok (h_order h) _ (fun j k => total (map (fun d => convolution (kernel (the_table K j d) k) (a j) (w j d)) (dofs j)))).
  intros j Hj. destruct (H j Hj) as (E & Sh & Ha). unfold rec_of. rewrite E. cbn [of_option rbind].
  apply (rsum_ok (dofs j) _ (fun d k => convolution (kernel (the_table K j d) k) (a j) (w j d))).
  intros d Hd. destruct (KR j d Hj Hd) as (Hd6 & t & Et & Kt). unfold vat. rewrite Et. cbn [of_option rbind].
  destruct (convolve_spec t (T j) (r j) (a j) (w j) d Kt Sh Hd6 Ha) as (c & Ec & Fc). exists c. split; [exact Ec|].
  intros k. rewrite Fc. unfold the_table. rewrite (nth_error_nth _ _ _ Et). reflexivity.
Qed.
Lemma ForceOn_still h env recs r a w T i :
  (forall j, In j (h_order h) -> recs j = Some (r j) /\ shows6 (r j) (a j) (w j) /\ forall i, (i < length (a j))%nat -> 0 <= nth i (a j) 0 <= T j) ->
  kernels_ready h (bm_K (h_bem h i)) (fun j => GetListDOF (h_bem h j)) T ->
  vdot (GetFrameVelocityInFrame (fst (env i)) NWU) (GetFrameVelocityInFrame (fst (env i)) NWU) <= FLT_EPSILON ->
  exists c f, ForceOn h env recs i = Ok f /\ (forall k, c k = memory_force h (bm_K (h_bem h i)) (fun j => GetListDOF (h_bem h j)) a w k) /\
    f = scale6 (-1) (gen (ProjectVectorFrameInParent (ef_frame (fst (env i))) (GForce c) NWU) (ProjectVectorFrameInParent (ef_frame (fst (env i))) (GTorque c) NWU)).
Proof.
  intros H KR U. unfold ForceOn, ConvolutionK, GetIRFInterpolatorK. destruct (conv_sum_ok h (bm_K (h_bem h i)) (fun j => GetListDOF (h_bem h j)) T recs r a w H KR) as (c & E & P).
  rewrite E. cbn [rbind]. destruct (Rlt_dec FLT_EPSILON _) as [L|L]; [lra|]. cbn [rbind]. exists c. eexists. split; [reflexivity|]. split; [exact P|reflexivity].
Qed.

(** ** Runs *)
Lemma rc_run_app h st : forall l1 l2 m, rc_run h st (l1 ++ l2) m = (m' <<- rc_run h st l1 m; rc_run h st l2 m').
Proof.
  induction l1 as [|[[s t] e] l1 IH]; intros l2 m; [reflexivity|]. cbn [app rc_run].
  destruct (RC_Compute h s st e t m); try reflexivity. cbn [rbind]. apply IH.
Qed.
Lemma not_skipped sysStep (c : call) : recorded sysStep c ->
  (if Rlt_dec (Rabs (snd (fst c) - fst (fst c))) (/ 10 * sysStep) then if Rlt_dec FLT_EPSILON (snd (fst c)) then true else false else false) = false.
Proof.
  unfold recorded. intros H. destruct (Rlt_dec (Rabs (snd (fst c) - fst (fst c))) (/ 10 * sysStep)) as [L|L]; [|reflexivity].
  destruct (Rlt_dec FLT_EPSILON (snd (fst c))) as [L2|L2]; [|reflexivity]. exfalso. destruct H; lra.
Qed.
Lemma steps_prefix dt l p : steps_within dt (l ++ [p]) -> steps_within dt l.
Proof.
  induction l as [|q l IH]; [intros; exact I|]. destruct l as [|q' l]; [intros; exact I|]. cbn [app steps_within] in *. intros [A B]. split; [exact A|]. apply IH. exact B.
Qed.
Lemma past_snoc calls c j d : past (calls ++ [c]) j d = past calls j d ++ past [c] j d.
Proof. unfold past. apply map_app. Qed.
(** The general run: what is known of one force computation is enough *)
Lemma run_general h sysStep Te dt (Q : call -> Prop) (P : call -> list call -> nat -> vec6 -> Prop) m0 :
  sized (h_order h) m0 Te dt ->
  (forall c calls, Q c -> paced sysStep (h_order h) dt (calls ++ [c]) -> forall recs, (forall j, In j (h_order h) -> recs j = Some (rec_after (Te j) (dt j) (calls ++ [c]) j)) ->
     forall i, In i (h_order h) -> exists f, ForceOn h (snd c) recs i = Ok f /\ P c (calls ++ [c]) i f) ->
  forall calls, List.Forall Q calls -> paced sysStep (h_order h) dt calls ->
  exists m, rc_run h sysStep calls m0 = Ok m /\
    (forall j, In j (h_order h) -> rd_rec m j = Some (rec_after (Te j) (dt j) calls j)) /\
    forall i, In i (h_order h) -> exists c0 c f, calls = c0 ++ [c] /\ rd_force m i = Some f /\ P c calls i f.
Proof.
  intros [ND SZ] HF calls. induction calls as [|c calls IH] using rev_ind; intros HQ (Hn & HR & HS); [congruence|].
  apply List.Forall_app in HQ. destruct HQ as [HQ HQc].
  assert (B : exists m, rc_run h sysStep calls m0 = Ok m /\ forall j, In j (h_order h) -> rd_rec m j = Some (rec_after (Te j) (dt j) calls j)).
  { destruct calls as [|c' calls].
    - exists m0. split; [reflexivity|]. intros j Hj. destruct (SZ j Hj) as [-> _]. reflexivity.
    - destruct IH as (m & E & F & _).
      + exact HQ.
      + split; [discriminate|]. apply List.Forall_app in HR. split; [apply HR|]. intros j Hj. specialize (HS j Hj). rewrite past_snoc in HS. exact (steps_prefix _ _ _ HS).
      + exists m. split; auto. }
  destruct B as (m & E & F). rewrite rc_run_app, E. cbn [rbind]. destruct c as [[s t] env].
  cbn [rc_run]. unfold RC_Compute.
  assert (Rc : recorded sysStep (s, t, env)) by (apply List.Forall_app in HR; destruct HR as [_ HR]; inversion HR; auto).
  pose proof (not_skipped sysStep (s, t, env) Rc) as NS. cbn [fst snd] in NS. rewrite NS.
  destruct (RecordAll_spec env t (h_order h) (rd_rec m) ND) as (recs & -> & P1 & P2).
  { intros j Hj. eexists. apply F. exact Hj. }
  cbn [rbind].
  assert (RA : forall j, In j (h_order h) -> recs j = Some (rec_after (Te j) (dt j) (calls ++ [(s, t, env)]) j)).
  { intros j Hj. rewrite (P1 j _ Hj (F j Hj)). f_equal. unfold Record6, rec_after. 
    apply FunctionalExtensionality.functional_extensionality. intros k. rewrite past_snoc. unfold rec_run. rewrite fold_left_app. reflexivity. }
  assert (PC : paced sysStep (h_order h) dt (calls ++ [(s, t, env)])) by (split; [exact Hn|split; [exact HR|exact HS]]).
  pose proof (HF (s, t, env) calls (List.Forall_inv HQc) PC recs RA) as G. cbn [snd] in G.
  destruct (ForceAll_spec h env recs (h_order h) (rd_force m)) as (forces & -> & Q1 & Q2).
  { intros i Hi. destruct (G i Hi) as (f & Ef & _). eauto. }
  cbn [rbind]. eexists. split; [reflexivity|]. cbn [rd_rec rd_force]. split; [exact RA|].
  intros i Hi. destruct (G i Hi) as (f & Ef & Pf). exists calls, (s, t, env), f. split; [reflexivity|]. split; [apply Q1; auto|exact Pf].
Qed.
