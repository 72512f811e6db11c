(** Proofs for C75-C80: superposition of runs, forward speed *)
From Coq Require Import Reals List Bool ZArith Lra Lia Arith FunctionalExtensionality.
From Verif Require Import GeoModel GeoSpec GeoProofs GeoProofs3 BodyModel SigModel SigSpec SigProofs SigProofs2 SigProps EqfModel SeaModel FloModel RadModel RadSpec RadProofs RadProofs2 RadProofs3.
Import ListNotations.
Open Scope R_scope.

(** ** Superposition of runs *)
Definition linforces (c : R) (order : list nat) (F1 F2 F3 : nat -> option vec6) : Prop :=
  forall i, In i order -> (F1 i = None /\ F2 i = None /\ F3 i = None) \/
    exists f1 f2 f3, F1 i = Some f1 /\ F2 i = Some f2 /\ F3 i = Some f3 /\ forall k, f3 k = f1 k + c * f2 k.
Lemma RecordAll_some env t : forall order recs recs', RecordAll env t order recs = Ok recs' -> forall j, In j order -> exists r, recs j = Some r.
Proof.
  induction order as [|j0 order IH]; intros recs recs' E j Hj; [destruct Hj|]. cbn [RecordAll] in E. unfold rec_of in E.
  destruct (recs j0) as [r0|] eqn:E0; [|discriminate]. cbn [of_option rbind] in E.
  destruct (Nat.eq_dec j j0) as [->|D]; [eauto|]. destruct Hj as [->|Hj]; [congruence|].
  destruct (IH _ _ E j Hj) as [r Er]. rewrite fupd_other in Er by auto. eauto.
Qed.
Lemma ForceAll_some h env recs : forall order F F', ForceAll h env recs order F = Ok F' -> forall i, In i order -> exists f, ForceOn h env recs i = Ok f.
Proof.
  induction order as [|i0 order IH]; intros F F' E i Hi; [destruct Hi|]. cbn [ForceAll] in E. destruct (rb_ok _ _ _ E) as (f & E1 & E2). cbn beta in E2.
  destruct Hi as [<-|Hi]; [eauto|]. eapply IH; eauto.
Qed.
Lemma compute_linear h sysStep c s t e1 e2 e3 m1 m2 m3 m1' m2' : NoDup (h_order h) -> dofs_ok h -> superposed c e1 e2 e3 ->
  linrecs c (h_order h) (rd_rec m1) (rd_rec m2) (rd_rec m3) -> linforces c (h_order h) (rd_force m1) (rd_force m2) (rd_force m3) ->
  RC_Compute h s sysStep e1 t m1 = Ok m1' -> RC_Compute h s sysStep e2 t m2 = Ok m2' ->
  exists m3', RC_Compute h s sysStep e3 t m3 = Ok m3' /\ linrecs c (h_order h) (rd_rec m1') (rd_rec m2') (rd_rec m3') /\
    linforces c (h_order h) (rd_force m1') (rd_force m2') (rd_force m3').
Proof.
  intros ND HD SP LR LF E1 E2. unfold RC_Compute in *.
  destruct (if Rlt_dec (Rabs (t - s)) (/ 10 * sysStep) then if Rlt_dec FLT_EPSILON t then true else false else false).
  - inversion E1; inversion E2; subst. exists m3. split; [reflexivity|]. split; auto.
  - destruct (rb_ok _ _ _ E1) as (R1 & A1 & B1). destruct (rb_ok _ _ _ E2) as (R2 & A2 & B2). cbn beta in B1, B2.
    destruct (rb_ok _ _ _ B1) as (F1 & C1 & D1). destruct (rb_ok _ _ _ B2) as (F2 & C2 & D2). cbn beta in D1, D2.
    assert (S1 : forall j, In j (h_order h) -> exists r, rd_rec m1 j = Some r) by (eapply RecordAll_some; eauto).
    assert (S2 : forall j, In j (h_order h) -> exists r, rd_rec m2 j = Some r) by (eapply RecordAll_some; eauto).
    destruct (RecordAll_spec e1 t (h_order h) (rd_rec m1) ND S1) as (R1' & A1' & P1 & _). rewrite A1 in A1'. inversion A1'; subst R1'. clear A1'.
    destruct (RecordAll_spec e2 t (h_order h) (rd_rec m2) ND S2) as (R2' & A2' & P2 & _). rewrite A2 in A2'. inversion A2'; subst R2'. clear A2'.
    destruct (RecordAll_spec e3 t (h_order h) (rd_rec m3) ND) as (R3 & -> & P3 & _).
    { intros j Hj. destruct (LR j Hj) as (r1 & r2 & r3 & _ & _ & Q & _). eauto. }
    cbn [rbind].
    assert (LR' : linrecs c (h_order h) R1 R2 R3).
    { intros j Hj. destruct (LR j Hj) as (r1 & r2 & r3 & Q1 & Q2 & Q3 & L). rewrite (P1 j _ Hj Q1), (P2 j _ Hj Q2), (P3 j _ Hj Q3).
      eexists _, _, _. split; [reflexivity|]. split; [reflexivity|]. split; [reflexivity|]. intros k Hk. unfold Record6.
      destruct (SP j) as (_ & _ & _ & _ & B). rewrite B by auto. apply linrec_record. apply L. exact Hk. }
    pose proof (ForceAll_some _ _ _ _ _ _ C1) as T1. pose proof (ForceAll_some _ _ _ _ _ _ C2) as T2.
    assert (T3 : forall i f1 f2, In i (h_order h) -> ForceOn h e1 R1 i = Ok f1 -> ForceOn h e2 R2 i = Ok f2 -> exists f3, ForceOn h e3 R3 i = Ok f3 /\ forall k, f3 k = f1 k + c * f2 k).
    { intros i f1 f2 Hi Q1 Q2. exact (force_on_linear h c e1 e2 e3 R1 R2 R3 i f1 f2 HD LR' SP Q1 Q2). }
    destruct (ForceAll_spec h e1 R1 (h_order h) (rd_force m1) T1) as (F1' & C1' & U1 & _). rewrite C1 in C1'. inversion C1'; subst F1'. clear C1'.
    destruct (ForceAll_spec h e2 R2 (h_order h) (rd_force m2) T2) as (F2' & C2' & U2 & _). rewrite C2 in C2'. inversion C2'; subst F2'. clear C2'.
    destruct (ForceAll_spec h e3 R3 (h_order h) (rd_force m3)) as (F3 & -> & U3 & _).
    { intros i Hi. destruct (T1 i Hi) as [f1 Q1]. destruct (T2 i Hi) as [f2 Q2]. destruct (T3 i f1 f2 Hi Q1 Q2) as (f3 & Q3 & _). eauto. }
    cbn [rbind]. eexists. split; [reflexivity|]. inversion D1; inversion D2; subst. cbn [rd_rec rd_force]. split; [exact LR'|].
    intros i Hi. right. destruct (T1 i Hi) as [f1 Q1]. destruct (T2 i Hi) as [f2 Q2]. destruct (T3 i f1 f2 Hi Q1 Q2) as (f3 & Q3 & V3).
    exists f1, f2, f3. rewrite (U1 i f1 Hi Q1), (U2 i f2 Hi Q2), (U3 i f3 Hi Q3). auto.
Qed.
Lemma run_linear h sysStep c l1 l2 l3 : NoDup (h_order h) -> dofs_ok h -> superposed_calls c l1 l2 l3 -> forall m1 m2 m3 m1' m2',
  linrecs c (h_order h) (rd_rec m1) (rd_rec m2) (rd_rec m3) -> linforces c (h_order h) (rd_force m1) (rd_force m2) (rd_force m3) ->
  rc_run h sysStep l1 m1 = Ok m1' -> rc_run h sysStep l2 m2 = Ok m2' ->
  exists m3', rc_run h sysStep l3 m3 = Ok m3' /\ linforces c (h_order h) (rd_force m1') (rd_force m2') (rd_force m3').
Proof.
  intros ND HD SP. induction SP as [|s t e1 e2 e3 l1 l2 l3 SE SP IH]; intros m1 m2 m3 m1' m2' LR LF E1 E2.
  - inversion E1; inversion E2; subst. exists m3. split; [reflexivity|exact LF].
  - cbn [rc_run] in *. destruct (rb_ok _ _ _ E1) as (n1 & A1 & B1). destruct (rb_ok _ _ _ E2) as (n2 & A2 & B2). cbn beta in B1, B2.
    destruct (compute_linear h sysStep c s t e1 e2 e3 m1 m2 m3 n1 n2 ND HD SE LR LF A1 A2) as (n3 & -> & LR' & LF'). cbn [rbind]. eapply IH; eauto.
Qed.
Lemma linrec_new c r : r_data r = [] -> linrec c r r r.
Proof. intros E. constructor; try reflexivity. rewrite E. reflexivity. Qed.
Lemma sized_lin c order m Te dt : sized order m Te dt -> linrecs c order (rd_rec m) (rd_rec m) (rd_rec m).
Proof. intros [_ H] j Hj. destruct (H j Hj) as [E _]. rewrite E. eexists _, _, _. repeat split; auto. Qed.
Lemma superposition h sysStep c m0 Te dt l1 l2 l3 m1 m2 : sized (h_order h) m0 Te dt -> dofs_ok h -> (forall i, rd_force m0 i = None) -> superposed_calls c l1 l2 l3 ->
  rc_run h sysStep l1 m0 = Ok m1 -> rc_run h sysStep l2 m0 = Ok m2 ->
  exists m3, rc_run h sysStep l3 m0 = Ok m3 /\ linforces c (h_order h) (rd_force m1) (rd_force m2) (rd_force m3).
Proof.
  intros SZ HD HF SP E1 E2. apply (run_linear h sysStep c l1 l2 l3 (proj1 SZ) HD SP m0 m0 m0 m1 m2); auto.
  - eapply sized_lin; eauto.
  - intros i Hi. left. auto.
Qed.
Lemma superposed_rest c l : List.Forall at_rest l -> superposed_calls c l l l.
Proof.
  induction 1 as [|[[s t] e] l H F IH]; [constructor|]. constructor; [|exact IH]. intros j. repeat split. intros k Hk. pose proof (H j k Hk) as Z. cbn [fst snd] in Z. rewrite Z. ring.
Qed.

(** ** Two calls at the same time *)
Lemma record_twice r t v v' : (1 <= r_cap r)%nat -> Record_ (Record_ r t v) t v' = Record_ r t v.
Proof.
  intros Hc. unfold Record_ at 2 3. destruct r as [cap step d last prev del]. cbn [r_cap r_step r_data r_last r_prev r_delta] in *. destruct d as [|a d].
  - destruct cap; [lia|]. unfold Record_, push_front. cbn [firstn r_data r_last]. destruct (Req_EM_T t t); [reflexivity|congruence].
  - destruct (Req_EM_T t last) as [E|E].
    + unfold Record_. cbn [r_data r_last]. destruct (Req_EM_T t last); [reflexivity|congruence].
    + destruct (Rlt_dec (t - prev) step).
      * unfold Record_. cbn [r_data r_last]. destruct (Req_EM_T t t); [reflexivity|congruence].
      * destruct cap; [lia|]. unfold Record_, push_front. cbn [firstn r_data r_last]. destruct (Req_EM_T t t); [reflexivity|congruence].
Qed.

(** ** Forward speed, one body *)
Lemma ForceOn_one h env recs r a w T i A : h_order h = [i] -> recs i = Some r -> shows6 r a w -> (forall n, (n < length a)%nat -> 0 <= nth n a 0 <= T) ->
  kernels_ready h (bm_K (h_bem h i)) (fun j => GetListDOF (h_bem h j)) (fun _ => T) ->
  kernels_ready h (bm_Ku (h_bem h i)) (fun _ => [4%nat; 5%nat]) (fun _ => T) ->
  bm_Ainf (h_bem h i) i = Some A ->
  let e := fst (env i) in let u := GetFrameVelocityInFrame e NWU in let pw := GetPerturbationAngularVelocityInFrame e (snd (env i)) NWU in
  FLT_EPSILON < vdot u u ->
  exists c f, ForceOn h env recs i = Ok f /\
    (forall k, c k = memory_force h (bm_K (h_bem h i)) (fun j => GetListDOF (h_bem h j)) (fun _ => a) (fun _ => w) k +
       vnorm u * (memory_force h (bm_Ku (h_bem h i)) (fun _ => [4%nat; 5%nat]) (fun _ => a) (fun _ => w) k + A k 2%nat * vy pw - A k 1%nat * vz pw)) /\
    f = scale6 (-1) (gen (ProjectVectorFrameInParent (ef_frame e) (GForce c) NWU) (ProjectVectorFrameInParent (ef_frame e) (GTorque c) NWU)).
Proof.
  intros Ho Er Sh Ha KR KU EA e u pw Hu. unfold ForceOn.
  assert (H : forall j, In j (h_order h) -> recs j = Some r /\ shows6 r a w /\ forall n, (n < length a)%nat -> 0 <= nth n a 0 <= T).
  { rewrite Ho. intros j [<-|[]]. auto. }
  destruct (conv_sum_ok h (bm_K (h_bem h i)) (fun j => GetListDOF (h_bem h j)) (fun _ => T) recs (fun _ => r) (fun _ => a) (fun _ => w) H KR) as (c & E & P).
  change (ConvolutionK h recs i) with (rsum (h_order h) (fun j => r0 <<- rec_of recs j; rsum (GetListDOF (h_bem h j)) (fun d => t <<- vat (bm_K (h_bem h i) j) d; Convolve t r0 d))).
  rewrite E. cbn [rbind]. fold e. fold u. destruct (Rlt_dec FLT_EPSILON (vdot u u)) as [L|L]; [|lra].
  unfold ConvolutionKu. rewrite Ho. cbn [rsum]. rewrite EA. cbn [of_option rbind]. unfold rec_of. rewrite Er. cbn [of_option rbind].
  destruct (KU i 4%nat) as (_ & t4 & N4 & K4); [rewrite Ho; left; reflexivity|left; reflexivity|].
  destruct (KU i 5%nat) as (_ & t5 & N5 & K5); [rewrite Ho; left; reflexivity|right; left; reflexivity|].
  unfold GetIRFInterpolatorKu, vat. rewrite N4, N5. cbn [of_option rbind].
  destruct (convolve_spec t4 T r a w 4 K4 Sh ltac:(lia) Ha) as (c4 & -> & P4). destruct (convolve_spec t5 T r a w 5 K5 Sh ltac:(lia) Ha) as (c5 & -> & P5).
  cbn [rbind]. eexists. eexists. split; [reflexivity|]. split; [|reflexivity]. intros k.
  unfold add6, scale6, zero6. fold e. fold pw. rewrite P, P4, P5. unfold memory_force at 3. rewrite Ho. cbn [map total]. unfold the_table. rewrite (nth_error_nth _ _ _ N4), (nth_error_nth _ _ _ N5). ring.
Qed.

