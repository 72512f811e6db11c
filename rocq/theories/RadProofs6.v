(** Proofs for C75-C76: the runs and what they give *)
From Coq Require Import Reals List Bool ZArith Lra Lia Arith FunctionalExtensionality.
From Verif Require Import GeoModel GeoSpec GeoProofs BodyModel SigModel SigSpec SigProofs SigProofs2 SigProps EqfModel SeaModel FloModel RadModel RadSpec RadProofs RadProofs2 RadProofs3 RadProofs4.
Import ListNotations.
Open Scope R_scope.

Definition ages_of (Te dt : nat -> R) (calls : list call) (j : nat) : list R := GetTime6 (rec_after (Te j) (dt j) calls j).
Definition vals_of (Te dt : nat -> R) (calls : list call) (j d : nat) : list R := GetData (rec_after (Te j) (dt j) calls j d).
Lemma held_one Te dt calls j : 0 < dt <= Te -> calls <> [] -> steps_within dt (past calls j 0) ->
  let a := GetTime6 (rec_after Te dt calls j) in let w := fun d => GetData (rec_after Te dt calls j d) in
  shows6 (rec_after Te dt calls j) a w /\ memory Te dt (first_time (past calls j 0)) (last_time (past calls j 0)) a /\
    (forall i, (i < length a)%nat -> 0 <= nth i a 0 <= Te) /\
    forall d, (d < 6)%nat -> length (w d) = length a /\
      forall i, (i < length a)%nat -> on_polyline (past calls j d) (last_time (past calls j 0) - nth i a 0) (nth i (w d) 0).
Proof.
  intros H1 H2 H3 a w. destruct (rec_after_shows Te dt calls j H1 H2 H3) as (a' & w' & (Ea & Hn & W) & M & B & P).
  assert (a' = a) by (symmetry; exact Ea). subst a'.
  assert (Q : forall d, (d < 6)%nat -> w' d = w d) by (intros d Hd; symmetry; exact (proj1 (W d Hd))).
  split; [|split; [exact M|split; [exact B|]]].
  - split; [reflexivity|]. split; [exact Hn|]. intros d Hd. split; [reflexivity|]. rewrite <- (Q d Hd). exact (proj2 (W d Hd)).
  - intros d Hd. rewrite <- (Q d Hd). exact (P d Hd).
Qed.
Lemma held_all sysStep order m0 Te dt calls : sized order m0 Te dt -> paced sysStep order dt calls ->
  held order calls Te dt (ages_of Te dt calls) (vals_of Te dt calls) /\
  forall j, In j order -> shows6 (rec_after (Te j) (dt j) calls j) (ages_of Te dt calls j) (vals_of Te dt calls j) /\
    forall i, (i < length (ages_of Te dt calls j))%nat -> 0 <= nth i (ages_of Te dt calls j) 0 <= Te j.
Proof.
  intros [_ SZ] (Hn & _ & HS). split.
  - intros j Hj. destruct (held_one (Te j) (dt j) calls j (proj2 (SZ j Hj)) Hn (HS j Hj)) as (_ & M & _ & P). split; [exact M|exact P].
  - intros j Hj. destruct (held_one (Te j) (dt j) calls j (proj2 (SZ j Hj)) Hn (HS j Hj)) as (S6 & _ & B & _). split; [exact S6|exact B].
Qed.

(** From a generalized force in the axes of a frame to what the getters return *)
Lemma getters m i c e f : rd_force m i = Some f -> unitq (frot (ef_frame e)) ->
  f = scale6 (-1) (gen (ProjectVectorFrameInParent (ef_frame e) (GForce c) NWU) (ProjectVectorFrameInParent (ef_frame e) (GTorque c) NWU)) ->
  GetRadiationForce m i = Ok (scal3 (-1) (quat_action (frot (ef_frame e)) (V (c 0%nat) (c 1%nat) (c 2%nat)))) /\
  GetRadiationTorque m i = Ok (scal3 (-1) (quat_action (frot (ef_frame e)) (V (c 3%nat) (c 4%nat) (c 5%nat)))).
Proof.
  intros E U ->. unfold GetRadiationForce, GetRadiationTorque, at_map. rewrite E. cbn [rbind].
  unfold ProjectVectorFrameInParent, UQ_Rotate. cbn [swap_if IsNED]. rewrite !qrotate_action by exact U. split; reflexivity.
Qed.

Lemma still_run h sysStep Te dt m0 calls : sized (h_order h) m0 Te dt -> paced sysStep (h_order h) dt calls ->
  (forall i, In i (h_order h) -> kernels_ready h (bm_K (h_bem h i)) (fun j => GetListDOF (h_bem h j)) Te) ->
  List.Forall (fun c => forall i, In i (h_order h) -> stationary c i) calls ->
  exists m, rc_run h sysStep calls m0 = Ok m /\ forall i, In i (h_order h) -> exists c0 c f, calls = c0 ++ [c] /\ rd_force m i = Some f /\
    f = scale6 (-1) (let e := fst (snd c i) in let g := memory_force h (bm_K (h_bem h i)) (fun j => GetListDOF (h_bem h j)) (ages_of Te dt calls) (vals_of Te dt calls) in
         gen (ProjectVectorFrameInParent (ef_frame e) (GForce g) NWU) (ProjectVectorFrameInParent (ef_frame e) (GTorque g) NWU)).
Proof.
  intros SZ PC KR ST.
  destruct (run_general h sysStep Te dt (fun c => forall i, In i (h_order h) -> stationary c i)
    (fun c calls i f => f = scale6 (-1) (let e := fst (snd c i) in let g := memory_force h (bm_K (h_bem h i)) (fun j => GetListDOF (h_bem h j)) (ages_of Te dt calls) (vals_of Te dt calls) in
         gen (ProjectVectorFrameInParent (ef_frame e) (GForce g) NWU) (ProjectVectorFrameInParent (ef_frame e) (GTorque g) NWU))) m0 SZ) with (calls := calls) as (m & E & _ & P); auto.
  - intros c cs Sc Pc recs Hr i Hi. destruct (held_all sysStep (h_order h) m0 Te dt (cs ++ [c]) SZ Pc) as (_ & SH).
    destruct (ForceOn_still h (snd c) recs (fun j => rec_after (Te j) (dt j) (cs ++ [c]) j) (ages_of Te dt (cs ++ [c])) (vals_of Te dt (cs ++ [c])) Te i) as (g & f & Ef & G & Ff).
    + intros j Hj. split; [apply Hr; auto|]. apply SH. exact Hj.
    + apply KR. exact Hi.
    + apply (Sc i Hi).
    + exists f. split; [exact Ef|]. cbv zeta. rewrite <- (functional_extensionality _ _ G). exact Ff.
  - eauto.
Qed.
(** One body, with or without forward speed *)
Definition threshold_speed (e : eqf) : R := let u := GetFrameVelocityInFrame e NWU in if Rlt_dec FLT_EPSILON (vdot u u) then vnorm u else 0.
Definition one_force (h : hdb) (i : nat) (A : mat6) (calls : list call) (c : call) (a : nat -> list R) (w : nat -> nat -> list R) (k : nat) : R :=
  let pw := GetPerturbationAngularVelocityInFrame (fst (snd c i)) (snd (snd c i)) NWU in
  memory_force h (bm_K (h_bem h i)) (fun j => GetListDOF (h_bem h j)) a w k +
  threshold_speed (fst (snd c i)) * (memory_force h (bm_Ku (h_bem h i)) (fun _ => [4%nat; 5%nat]) a w k + A k 2%nat * vy pw - A k 1%nat * vz pw).
Lemma one_body_const h K dofs i a w k : h_order h = [i] -> memory_force h K dofs (fun _ => a i) (fun _ => w i) k = memory_force h K dofs a w k.
Proof. intros E. unfold memory_force. rewrite E. reflexivity. Qed.
Lemma one_run h sysStep Te dt m0 calls i A : h_order h = [i] -> sized [i] m0 Te dt -> paced sysStep [i] dt calls ->
  kernels_ready h (bm_K (h_bem h i)) (fun j => GetListDOF (h_bem h j)) Te -> kernels_ready h (bm_Ku (h_bem h i)) (fun _ => [4%nat; 5%nat]) Te -> bm_Ainf (h_bem h i) i = Some A ->
  exists m, rc_run h sysStep calls m0 = Ok m /\ exists c0 c f, calls = c0 ++ [c] /\ rd_force m i = Some f /\
    f = scale6 (-1) (let e := fst (snd c i) in let g := one_force h i A calls c (ages_of Te dt calls) (vals_of Te dt calls) in
         gen (ProjectVectorFrameInParent (ef_frame e) (GForce g) NWU) (ProjectVectorFrameInParent (ef_frame e) (GTorque g) NWU)).
Proof.
  intros Ho SZ PC KR KU EA. rewrite <- Ho in SZ, PC.
  assert (Hi : In i (h_order h)) by (rewrite Ho; left; reflexivity).
  destruct (run_general h sysStep Te dt (fun _ => True)
    (fun c calls i f => f = scale6 (-1) (let e := fst (snd c i) in let g := one_force h i A calls c (ages_of Te dt calls) (vals_of Te dt calls) in
         gen (ProjectVectorFrameInParent (ef_frame e) (GForce g) NWU) (ProjectVectorFrameInParent (ef_frame e) (GTorque g) NWU))) m0 SZ) with (calls := calls) as (m & E & _ & P); auto.
  - intros c cs _ Pc recs Hr i' Hi'. assert (i' = i) by (rewrite Ho in Hi'; destruct Hi' as [->|[]]; reflexivity). subst i'. clear Hi'.
    destruct (held_all sysStep (h_order h) m0 Te dt (cs ++ [c]) SZ Pc) as (_ & SH). destruct (SH i Hi) as [S6 B].
    destruct (Rlt_dec FLT_EPSILON (vdot (GetFrameVelocityInFrame (fst (snd c i)) NWU) (GetFrameVelocityInFrame (fst (snd c i)) NWU))) as [L|L].
    + destruct (ForceOn_one h (snd c) recs (rec_after (Te i) (dt i) (cs ++ [c]) i) (ages_of Te dt (cs ++ [c]) i) (vals_of Te dt (cs ++ [c]) i) (Te i) i A Ho (Hr i Hi) S6 B) as (g & f & Ef & G & Ff); auto.
      * intros j d Hj Hd. assert (j = i) by (rewrite Ho in Hj; destruct Hj as [->|[]]; reflexivity). subst j. apply KR; auto.
      * intros j d Hj Hd. assert (j = i) by (rewrite Ho in Hj; destruct Hj as [->|[]]; reflexivity). subst j. apply KU; auto.
      * exists f. split; [exact Ef|]. cbv zeta. replace (one_force h i A (cs ++ [c]) c (ages_of Te dt (cs ++ [c])) (vals_of Te dt (cs ++ [c]))) with g; [exact Ff|].
        apply functional_extensionality. intros k. rewrite G. unfold one_force, threshold_speed. cbv zeta. destruct (Rlt_dec FLT_EPSILON _) as [L'|L']; [|contradiction].
        rewrite !(one_body_const h _ _ i (ages_of Te dt (cs ++ [c])) (vals_of Te dt (cs ++ [c])) k Ho). reflexivity.
    + destruct (ForceOn_still h (snd c) recs (fun j => rec_after (Te j) (dt j) (cs ++ [c]) j) (ages_of Te dt (cs ++ [c])) (vals_of Te dt (cs ++ [c])) Te i) as (g & f & Ef & G & Ff); auto.
      * lra.
      * exists f. split; [exact Ef|]. cbv zeta. replace (one_force h i A (cs ++ [c]) c (ages_of Te dt (cs ++ [c])) (vals_of Te dt (cs ++ [c]))) with g; [exact Ff|].
        apply functional_extensionality. intros k. rewrite G. unfold one_force, threshold_speed. cbv zeta. destruct (Rlt_dec FLT_EPSILON _) as [L'|L']; [contradiction|]. ring.
  - apply List.Forall_forall. auto.
  - eauto.
Qed.

(** ** Two calls at the same time *)
Lemma Record6_twice r t v v' : (forall k, (1 <= r_cap (r k))%nat) -> Record6 (Record6 r t v) t v' = Record6 r t v.
Proof. intros H. apply functional_extensionality. intros k. unfold Record6. apply record_twice. apply H. Qed.
Lemma ForceOn_env h env env' recs i : (forall j, In j (h_order h) -> env j = env' j) -> In i (h_order h) -> ForceOn h env recs i = ForceOn h env' recs i.
Proof.
  intros H Hi. unfold ForceOn. rewrite <- (H i Hi). 
  assert (Z : forall U, ConvolutionKu h env recs U = ConvolutionKu h env' recs U).
  { intros U. unfold ConvolutionKu. assert (X : forall l, (forall j, In j l -> In j (h_order h)) -> forall (Ainf : mat6) i0,
      rsum l (fun j => r <<- rec_of recs j; c <<- rsum [4%nat; 5%nat] (fun idof => t <<- GetIRFInterpolatorKu (h_bem h i0) j idof; c <<- Convolve t r idof; Ok (scale6 U c));
        let w := GetPerturbationAngularVelocityInFrame (fst (env j)) (snd (env j)) NWU in Ok (add6 c (fun k => U * (Ainf k 2%nat * vy w - Ainf k 1%nat * vz w)))) =
      rsum l (fun j => r <<- rec_of recs j; c <<- rsum [4%nat; 5%nat] (fun idof => t <<- GetIRFInterpolatorKu (h_bem h i0) j idof; c <<- Convolve t r idof; Ok (scale6 U c));
        let w := GetPerturbationAngularVelocityInFrame (fst (env' j)) (snd (env' j)) NWU in Ok (add6 c (fun k => U * (Ainf k 2%nat * vy w - Ainf k 1%nat * vz w))))).
    { induction l as [|j l IH]; intros Hl A i0; [reflexivity|]. cbn [rsum]. cbn [rsum] in IH. rewrite (IH (fun j H' => Hl j (or_intror H'))). rewrite (H j (Hl j (or_introl eq_refl))). reflexivity. }
    f_equal. apply functional_extensionality. intros i0. destruct (of_option (bm_Ainf (h_bem h i0) i0)); try reflexivity. cbn [rbind]. apply X. auto. }
  destruct (ConvolutionK h recs i); try reflexivity. cbn [rbind]. cbv zeta. destruct (Rlt_dec FLT_EPSILON _); [rewrite Z|]; reflexivity.
Qed.
Lemma ForceAll_env h env env' recs : (forall j, In j (h_order h) -> env j = env' j) -> forall l F, (forall j, In j l -> In j (h_order h)) -> ForceAll h env recs l F = ForceAll h env' recs l F.
Proof.
  intros H. induction l as [|i l IH]; intros F Hl; [reflexivity|]. cbn [ForceAll]. rewrite (ForceOn_env h env env' recs i H (Hl i (or_introl eq_refl))).
  destruct (ForceOn h env' recs i); try reflexivity. cbn [rbind]. apply IH. intros j Hj. apply Hl. right. exact Hj.
Qed.
Lemma same_time h sysStep s env env' t m m' : (forall j r, rd_rec m j = Some r -> forall k, (1 <= r_cap (r k))%nat) -> NoDup (h_order h) ->
  (forall i, In i (h_order h) -> env i = env' i) ->
  RC_Compute h s sysStep env t m = Ok m' -> exists m'', RC_Compute h s sysStep env' t m' = Ok m'' /\ (forall j, rd_rec m'' j = rd_rec m' j) /\
  forall i, In i (h_order h) -> rd_force m'' i = rd_force m' i.
Proof.
  intros HC ND HE E. unfold RC_Compute in *.
  destruct (if Rlt_dec (Rabs (t - s)) (/ 10 * sysStep) then if Rlt_dec FLT_EPSILON t then true else false else false).
  { inversion E; subst. eexists. split; [reflexivity|]. auto. }
  destruct (rb_ok _ _ _ E) as (R1 & A1 & B1). cbn beta in B1. destruct (rb_ok _ _ _ B1) as (F1 & C1 & D1). cbn beta in D1. inversion D1; subst m'. clear D1 B1 E. cbn [rd_rec rd_force rd_Te rd_dt].
  assert (S1 : forall j, In j (h_order h) -> exists r, rd_rec m j = Some r) by (eapply RecordAll_some; eauto).
  destruct (RecordAll_spec env t (h_order h) (rd_rec m) ND S1) as (R1' & A1' & P1 & O1). rewrite A1 in A1'. inversion A1'; subst R1'. clear A1'.
  destruct (RecordAll_spec env' t (h_order h) R1 ND) as (R2 & -> & P2 & O2).
  { intros j Hj. destruct (S1 j Hj) as [r Er]. eexists. exact (P1 j r Hj Er). }
  assert (R2 = R1).
  { apply functional_extensionality. intros j. destruct (in_dec Nat.eq_dec j (h_order h)) as [Hj|Hj]; [|apply O2; exact Hj].
    destruct (S1 j Hj) as [r Er]. rewrite (P2 j _ Hj (P1 j r Hj Er)), (P1 j r Hj Er). f_equal. apply Record6_twice. apply (HC j r Er). }
  subst R2. cbn [rbind]. rewrite <- (ForceAll_env h env env' R1 HE (h_order h)) by auto.
  pose proof (ForceAll_some _ _ _ _ _ _ C1) as T1.
  destruct (ForceAll_spec h env R1 (h_order h) (rd_force m) T1) as (F1' & C1' & U1 & _). rewrite C1 in C1'. inversion C1'; subst F1'. clear C1'.
  destruct (ForceAll_spec h env R1 (h_order h) F1 T1) as (F2 & -> & U2 & _). cbn [rbind]. eexists. split; [reflexivity|]. split; [reflexivity|].
  intros i Hi. cbn [rd_force]. destruct (T1 i Hi) as [f Ef]. rewrite (U1 i f Hi Ef), (U2 i f Hi Ef). reflexivity.
Qed.
