(** Proofs for C75, C76: superposition, forward speed *)
From Coq Require Import Reals List Bool ZArith Lra Lia Arith FunctionalExtensionality.
From Verif Require Import GeoModel GeoSpec GeoProofs GeoProofs3 BodyModel SigModel SigSpec SigProofs SigProofs2 SigProps EqfModel SeaModel FloModel RadModel RadSpec RadProofs RadProofs2.
Import ListNotations.
Open Scope R_scope.

Definition lc (c : R) (l1 l2 : list R) : list R := map (fun p => fst p + c * snd p) (combine l1 l2).
Lemma lc_cons c a b l1 l2 : lc c (a :: l1) (b :: l2) = (a + c * b) :: lc c l1 l2. Proof. reflexivity. Qed.
Lemma lc_firstn c n : forall l1 l2, firstn n (lc c l1 l2) = lc c (firstn n l1) (firstn n l2).
Proof. induction n as [|n IH]; intros [|a l1] [|b l2]; try reflexivity. rewrite lc_cons. cbn [firstn]. rewrite lc_cons. rewrite IH. reflexivity. Qed.
Lemma lc_length c l1 l2 : length l1 = length l2 -> length (lc c l1 l2) = length l1.
Proof. intros H. unfold lc. rewrite map_length, combine_length. lia. Qed.
Lemma lc_nth c l1 l2 x1 x2 i : nth_error l1 i = Some x1 -> nth_error l2 i = Some x2 -> nth_error (lc c l1 l2) i = Some (x1 + c * x2).
Proof.
  revert l2 i. induction l1 as [|a l1 IH]; intros [|b l2] [|i] E1 E2; try discriminate.
  - cbn in *. inversion E1; inversion E2; subst. reflexivity.
  - rewrite lc_cons. cbn [nth_error] in *. apply IH; auto.
Qed.
Record linrec (c : R) (r1 r2 r3 : recorder) : Prop := LR {
  l_cap2 : r_cap r2 = r_cap r1; l_cap3 : r_cap r3 = r_cap r1; l_step2 : r_step r2 = r_step r1; l_step3 : r_step r3 = r_step r1;
  l_last2 : r_last r2 = r_last r1; l_last3 : r_last r3 = r_last r1; l_prev2 : r_prev r2 = r_prev r1; l_prev3 : r_prev r3 = r_prev r1;
  l_del2 : r_delta r2 = r_delta r1; l_del3 : r_delta r3 = r_delta r1; l_len : length (r_data r2) = length (r_data r1);
  l_data : r_data r3 = lc c (r_data r1) (r_data r2) }.
Lemma linrec_record c r1 r2 r3 t v1 v2 : linrec c r1 r2 r3 -> linrec c (Record_ r1 t v1) (Record_ r2 t v2) (Record_ r3 t (v1 + c * v2)).
Proof.
  intros [A1 A2 A3 A4 A5 A6 A7 A8 A9 A10 A11 A12]. destruct r1 as [cap step d1 last prev del], r2 as [c2 s2 d2 la2 p2 de2], r3 as [c3 s3 d3 la3 p3 de3].
  cbn [r_cap r_step r_data r_last r_prev r_delta] in *. subst c2 c3 s2 s3 la2 la3 p2 p3 de2 de3 d3.
  unfold Record_. cbn [r_cap r_step r_data r_last r_prev r_delta].
  destruct d1 as [|a1 d1], d2 as [|a2 d2]; try discriminate.
  - cbn [lc combine map]. constructor; cbn [r_cap r_step r_data r_last r_prev r_delta]; try reflexivity; unfold push_front; [rewrite !firstn_length; reflexivity|rewrite <- lc_firstn; reflexivity].
  - rewrite lc_cons. destruct (Req_EM_T t last); [constructor; auto; reflexivity|].
    destruct (Rlt_dec (t - prev) step); constructor; cbn [r_cap r_step r_data r_last r_prev r_delta]; try reflexivity; try exact A11.
    + unfold push_front. rewrite !firstn_length. cbn [length] in *. lia.
    + unfold push_front. rewrite <- lc_firstn, !lc_cons. f_equal. f_equal. f_equal. unfold Interpolate, Rdiv. ring.
Qed.
Lemma linrec_time c r1 r2 r3 : linrec c r1 r2 r3 -> GetTime r2 = GetTime r1 /\ GetTime r3 = GetTime r1.
Proof.
  intros [A1 A2 A3 A4 A5 A6 A7 A8 A9 A10 A11 A12]. unfold GetTime. rewrite A12, (lc_length c _ _ (eq_sym A11)), A11, A9, A10, A3, A4. split; reflexivity.
Qed.
Definition linrec6 (c : R) (r1 r2 r3 : rec6) : Prop := forall k, (k < 6)%nat -> linrec c (r1 k) (r2 k) (r3 k).

Lemma rcollect_inv {A} (f : nat -> res A) n : forall i l, rcollect f i n = Ok l -> length l = n /\ forall d it, (it < n)%nat -> f (i + it)%nat = Ok (nth it l d).
Proof.
  induction n as [|n IH]; intros i l H; cbn [rcollect] in H.
  - inversion H; subst. split; [reflexivity|intros; lia].
  - destruct (rb_ok _ _ _ H) as (a & E & H2). cbn beta in H2. destruct (rb_ok _ _ _ H2) as (r & E2 & H3). inversion H3; subst.
    destruct (IH _ _ E2) as [L P]. split; [cbn; lia|]. intros d [|it] Hit; [rewrite Nat.add_0_r; exact E|]. cbn [nth]. replace (i + S it)%nat with (S i + it)%nat by lia. apply P. lia.
Qed.
Lemma convolve_linear c t r1 r2 r3 d c1 c2 : linrec6 c r1 r2 r3 -> (d < 6)%nat -> Convolve t r1 d = Ok c1 -> Convolve t r2 d = Ok c2 ->
  exists c3, Convolve t r3 d = Ok c3 /\ forall k, c3 k = c1 k + c * c2 k.
Proof.
  intros LN Hd E1 E2. unfold Convolve, GetTime6 in *. destruct (linrec_time _ _ _ _ (LN 0%nat ltac:(lia))) as [T2 T3]. rewrite T2 in E2. rewrite T3.
  set (a := GetTime (r1 0%nat)) in *. clearbody a. pose proof (LN d Hd) as Ld.
  destruct (rb_ok _ _ _ E1) as (l1 & F1 & G1). destruct (rb_ok _ _ _ E2) as (l2 & F2 & G2). cbn beta in G1, G2.
  destruct (rcollect_inv _ _ _ _ F1) as [L1 P1]. destruct (rcollect_inv _ _ _ _ F2) as [L2 P2].
  destruct (rcollect_some (fun it => a0 <<- vat a it; K <<- Eval6 t a0; v <<- Data6 r3 it d; Ok (scale6 v K))
     (fun it v => forall k, v k = nth it l1 zero6 k + c * nth it l2 zero6 k) (length a) 0) as (l3 & -> & L3 & P3).
  { intros it Hit. specialize (P1 zero6 it ltac:(lia)). specialize (P2 zero6 it ltac:(lia)). cbn [Nat.add] in P1, P2. cbn beta in P1, P2.
    destruct (rb_ok _ _ _ P1) as (a0 & H1 & H2). cbn beta in H2. rewrite H1 in P2 |- *. cbn [rbind] in *.
    destruct (rb_ok _ _ _ H2) as (K & H3 & H4). cbn beta in H4. rewrite H3 in P2 |- *. cbn [rbind] in *.
    destruct (rb_ok _ _ _ H4) as (v1 & H5 & H6). destruct (rb_ok _ _ _ P2) as (v2 & H7 & H8). cbn beta in H6, H8.
    assert (Data6 r3 it d = Ok (v1 + c * v2)) as ->.
    { unfold Data6, GetData in *. rewrite (l_data _ _ _ _ Ld). destruct (nth_error (r_data (r1 d)) it) eqn:Q1; [|discriminate]. destruct (nth_error (r_data (r2 d)) it) eqn:Q2; [|discriminate].
      rewrite (lc_nth c _ _ _ _ _ Q1 Q2). inversion H5; inversion H7; subst; reflexivity. }
    cbn [rbind]. eexists. split; [reflexivity|]. intros k. apply (f_equal (fun r => match r with Ok v => v k | _ => 0 end)) in H6, H8. rewrite <- H6, <- H8. unfold scale6. ring. }
  cbn [rbind Nat.add] in *. unfold Trapz6 in *. rewrite L3. rewrite L1 in G1. rewrite L2 in G2.
  destruct (Nat.leb_spec (length a) 1).
  - inversion G1; inversion G2; subst. exists zero6. split; [reflexivity|]. intros k. unfold zero6. ring.
  - rewrite Nat.eqb_refl in *. eexists. split; [reflexivity|]. intros k.
    apply (f_equal (fun r => match r with Ok v => v k | _ => 0 end)) in G1, G2. rewrite <- G1, <- G2.
    rewrite !trapz_spec by (rewrite map_length; lia).
    assert (M : map (fun v : vec6 => v k) l3 = map (fun p => c * fst p + snd p) (combine (map (fun v : vec6 => v k) l2) (map (fun v : vec6 => v k) l1))).
    { apply (nth_ext _ _ 0 0); [rewrite !map_length, combine_length, !map_length; lia|]. intros n Hn. rewrite map_length in Hn.
      rewrite (nth_indep _ 0 (zero6 k)) by (rewrite map_length; lia). rewrite (map_nth (fun v : vec6 => v k)), P3 by lia.
      set (F := fun p : R * R => c * fst p + snd p). rewrite (nth_indep (map F (combine (map (fun v : vec6 => v k) l2) (map (fun v : vec6 => v k) l1))) 0 (F (zero6 k, zero6 k))) by (rewrite map_length, combine_length, !map_length; lia).
      rewrite (map_nth F), combine_nth by (rewrite !map_length; lia). rewrite !(map_nth (fun v : vec6 => v k)). unfold F. cbn [fst snd]. ring. }
    rewrite M, trapz_linear by (rewrite map_length; lia). ring.
Qed.
Lemma rsum_linear {A} c (l : list A) (f1 f2 f3 : A -> res vec6) : forall v1 v2,
  (forall a x1 x2, In a l -> f1 a = Ok x1 -> f2 a = Ok x2 -> exists x3, f3 a = Ok x3 /\ forall k, x3 k = x1 k + c * x2 k) ->
  rsum l f1 = Ok v1 -> rsum l f2 = Ok v2 -> exists v3, rsum l f3 = Ok v3 /\ forall k, v3 k = v1 k + c * v2 k.
Proof.
  induction l as [|a l IH]; intros v1 v2 H E1 E2; cbn [rsum] in *.
  - inversion E1; inversion E2; subst. exists zero6. split; [reflexivity|]. intros k. unfold zero6. ring.
  - destruct (rb_ok _ _ _ E1) as (x1 & F1 & G1). destruct (rb_ok _ _ _ E2) as (x2 & F2 & G2). cbn beta in G1, G2.
    destruct (rb_ok _ _ _ G1) as (y1 & H1 & I1). destruct (rb_ok _ _ _ G2) as (y2 & H2 & I2). cbn beta in I1, I2.
    destruct (H a x1 x2) as (x3 & -> & X3); [left; reflexivity|auto|auto|]. cbn [rbind].
    destruct (IH y1 y2) as (y3 & -> & Y3); [intros; eapply H; eauto; right; auto|auto|auto|]. cbn [rbind].
    eexists. split; [reflexivity|]. intros k. apply (f_equal (fun r => match r with Ok v => v k | _ => 0 end)) in I1, I2. rewrite <- I1, <- I2. unfold add6. rewrite X3, Y3. ring.
Qed.

Definition linrecs (c : R) (order : list nat) (R1 R2 R3 : nat -> option rec6) : Prop :=
  forall j, In j order -> exists r1 r2 r3, R1 j = Some r1 /\ R2 j = Some r2 /\ R3 j = Some r3 /\ linrec6 c r1 r2 r3.
Lemma gen_ext f g : (forall k, (k < 6)%nat -> f k = g k) -> GForce f = GForce g /\ GTorque f = GTorque g.
Proof. intros H. unfold GForce, GTorque. split; f_equal; apply H; lia. Qed.
Lemma project_linear f u v c : ProjectVectorFrameInParent f (vadd u (vscale c v)) NWU = vadd (ProjectVectorFrameInParent f u NWU) (vscale c (ProjectVectorFrameInParent f v NWU)).
Proof.
  unfold ProjectVectorFrameInParent, UQ_Rotate. cbn [swap_if IsNED]. rewrite qrotate_plus. f_equal.
  apply vec_eq; unfold qrotate, vscale; cbn [vx vy vz]; ring.
Qed.
Lemma force_on_linear h c e1 e2 e3 R1 R2 R3 i f1 f2 : dofs_ok h -> linrecs c (h_order h) R1 R2 R3 -> superposed c e1 e2 e3 ->
  ForceOn h e1 R1 i = Ok f1 -> ForceOn h e2 R2 i = Ok f2 -> exists f3, ForceOn h e3 R3 i = Ok f3 /\ forall k, f3 k = f1 k + c * f2 k.
Proof.
  intros HD LN SP E1 E2. unfold ForceOn in *.
  destruct (rb_ok _ _ _ E1) as (c1 & F1 & G1). destruct (rb_ok _ _ _ E2) as (c2 & F2 & G2). cbn beta zeta in G1, G2.
  destruct (SP i) as (S1 & S2 & S3 & S4 & S5).
  assert (C : exists c3, ConvolutionK h R3 i = Ok c3 /\ forall k, c3 k = c1 k + c * c2 k).
  { apply (rsum_linear c (h_order h) _ _ _ c1 c2) with (2 := F1) (3 := F2). intros j x1 x2 Hj X1 X2. destruct (LN j Hj) as (r1 & r2 & r3 & Q1 & Q2 & Q3 & L).
    unfold rec_of in *. rewrite Q1 in X1. rewrite Q2 in X2. rewrite Q3. cbn [of_option rbind] in *.
    apply (rsum_linear c _ _ _ _ x1 x2) with (2 := X1) (3 := X2). intros d y1 y2 Hd Y1 Y2. destruct (rb_ok _ _ _ Y1) as (t & T1 & T2). cbn beta in T2. rewrite T1 in Y2 |- *. cbn [rbind] in *.
    apply (convolve_linear c t r1 r2 r3 d y1 y2); auto. eapply HD; eauto. }
  destruct C as (c3 & -> & C3). cbn [rbind].
  assert (U : GetFrameVelocityInFrame (fst (e2 i)) NWU = GetFrameVelocityInFrame (fst (e1 i)) NWU /\ GetFrameVelocityInFrame (fst (e3 i)) NWU = GetFrameVelocityInFrame (fst (e1 i)) NWU).
  { unfold GetFrameVelocityInFrame. rewrite S1, S2, S3, S4. split; reflexivity. }
  destruct U as [U2 U3]. rewrite U2, S1 in G2. rewrite U3, S2. set (u := GetFrameVelocityInFrame (fst (e1 i)) NWU) in *. clearbody u.
  destruct (rb_ok _ _ _ G1) as (g1 & H1 & I1). destruct (rb_ok _ _ _ G2) as (g2 & H2 & I2). cbn beta in I1, I2.
  assert (C : exists g3, (if Rlt_dec FLT_EPSILON (vdot u u) then u0 <<- ConvolutionKu h e3 R3 (vnorm u); Ok (add6 c3 u0) else Ok c3) = Ok g3 /\ forall k, (k < 6)%nat -> g3 k = g1 k + c * g2 k).
  { destruct (Rlt_dec FLT_EPSILON (vdot u u)).
    - destruct (rb_ok _ _ _ H1) as (k1 & K1 & J1). destruct (rb_ok _ _ _ H2) as (k2 & K2 & J2). cbn beta in J1, J2.
      assert (C : exists k3, ConvolutionKu h e3 R3 (vnorm u) = Ok k3 /\ forall k, k3 k = k1 k + c * k2 k).
      { apply (rsum_linear c (h_order h) _ _ _ k1 k2) with (2 := K1) (3 := K2). intros i' x1 x2 Hi' X1 X2.
        destruct (rb_ok _ _ _ X1) as (A & A1 & A2). cbn beta in A2. rewrite A1 in X2 |- *. cbn [rbind] in *.
        apply (rsum_linear c (h_order h) _ _ _ x1 x2) with (2 := A2) (3 := X2). intros j y1 y2 Hj Y1 Y2. destruct (LN j Hj) as (r1 & r2 & r3 & Q1 & Q2 & Q3 & L).
        unfold rec_of in *. rewrite Q1 in Y1. rewrite Q2 in Y2. rewrite Q3. cbn [of_option rbind] in Y1, Y2 |- *.
        destruct (rb_ok _ _ _ Y1) as (z1 & Z1 & W1). destruct (rb_ok _ _ _ Y2) as (z2 & Z2 & W2). cbn beta zeta in W1, W2.
        assert (C : exists z3, rsum [4%nat; 5%nat] (fun idof => t <<- GetIRFInterpolatorKu (h_bem h i') j idof; c0 <<- Convolve t r3 idof; Ok (scale6 (vnorm u) c0)) = Ok z3 /\ forall k, z3 k = z1 k + c * z2 k).
        { apply (rsum_linear c _ _ _ _ z1 z2) with (2 := Z1) (3 := Z2). intros d p1 p2 Hd P1 P2. destruct (rb_ok _ _ _ P1) as (t & T1 & T2). cbn beta in T2. rewrite T1 in P2 |- *. cbn [rbind] in *.
          destruct (rb_ok _ _ _ T2) as (q1 & O1 & N1). destruct (rb_ok _ _ _ P2) as (q2 & O2 & N2). cbn beta in N1, N2.
          destruct (convolve_linear c t r1 r2 r3 d q1 q2) as (q3 & -> & V3); auto.
          { cbn in Hd. destruct Hd as [<-|[<-|[]]]; lia. }
          cbn [rbind]. eexists. split; [reflexivity|]. intros k. apply (f_equal (fun r => match r with Ok v => v k | _ => 0 end)) in N1, N2. rewrite <- N1, <- N2. unfold scale6. rewrite V3. ring. }
        destruct C as (z3 & -> & V3). cbn [rbind]. eexists. split; [reflexivity|]. intros k.
        apply (f_equal (fun r => match r with Ok v => v k | _ => 0 end)) in W1, W2. rewrite <- W1, <- W2. unfold add6. rewrite V3.
        destruct (SP j) as (_ & _ & _ & _ & SJ). pose proof (SJ 4%nat ltac:(lia)) as B4. pose proof (SJ 5%nat ltac:(lia)) as B5.
        unfold GetPerturbationGeneralizedVelocityInFrame in B4, B5. cbn [gen] in B4, B5. rewrite B4, B5. ring. }
      destruct C as (k3 & -> & V3). cbn [rbind]. eexists. split; [reflexivity|]. intros k _.
      apply (f_equal (fun r => match r with Ok v => v k | _ => 0 end)) in J1, J2. rewrite <- J1, <- J2. unfold add6. rewrite V3, C3. ring.
    - inversion H1; inversion H2; subst. eexists. split; [reflexivity|]. intros k _. apply C3. }
  destruct C as (g3 & -> & C). cbn [rbind]. eexists. split; [reflexivity|]. intros k.
  apply (f_equal (fun r => match r with Ok v => v k | _ => 0 end)) in I1, I2. rewrite <- I1, <- I2.
  assert (GF : GForce g3 = vadd (GForce g1) (vscale c (GForce g2)) /\ GTorque g3 = vadd (GTorque g1) (vscale c (GTorque g2))).
  { unfold GForce, GTorque, vadd, vscale. cbn [vx vy vz]. rewrite !C by lia. split; reflexivity. }
  destruct GF as [-> ->]. rewrite !project_linear. unfold scale6.
  set (a1 := ProjectVectorFrameInParent _ (GForce g1) NWU). set (a2 := ProjectVectorFrameInParent _ (GForce g2) NWU).
  set (b1 := ProjectVectorFrameInParent _ (GTorque g1) NWU). set (b2 := ProjectVectorFrameInParent _ (GTorque g2) NWU). clearbody a1 a2 b1 b2.
  destruct k as [|[|[|[|[|[|k]]]]]]; cbn [gen vadd vscale vx vy vz]; ring.
Qed.
