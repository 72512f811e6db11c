(** Proofs for the catenary line, 6: start of the solver, short lines, vertical lines. *)
From Coq Require Import Reals List Lra Psatz Lia.
From Coquelicot Require Import Coquelicot.
From Verif Require Import GeoModel GeoSpec GeoProofs HydSpec BodyModel SeaModel CabModel CabSpec DispProofs CabProofs CabProofs2 CabProofs3 CabProofs4 CabProofs5.
Import ListNotations.
Open Scope R_scope.

Lemma reach p0 l : wf l -> loaded l -> l_elastic l = false -> 0 <= l_len l -> len3 (minus3 (posf p0 l (l_len l)) p0) <= l_len l.
Proof.
  intros W LD E LP. assert (K : compliance l = 0) by (unfold compliance; rewrite E; reflexivity). destruct (vert_or (vx (l_t0 l)) (vy (l_t0 l))) as [[A B]|S].
  - unfold posf. rewrite K, A, B. unfold chordf, plus3, minus3, scal3, len3, dot3. cbn [vx vy vz]. set (c := vz (l_t0 l)). set (q := l_q l). set (L := l_len l) in *. assert (Q : q <> 0) by apply LD.
    assert (NA : forall z, Nf 0 0 z = Rabs z) by (intros z; unfold Nf; replace (0 * 0 + 0 * 0 + z * z) with (Rsqr z) by (unfold Rsqr; ring); apply sqrt_Rsqr_abs). rewrite !NA.
    set (w := (Rabs (c + q * L) - Rabs c) / q).
    match goal with |- sqrt ?x <= _ => replace x with (Rsqr w) by (unfold Rsqr, Rdiv; ring) end. rewrite sqrt_Rsqr_abs. unfold w, Rdiv. rewrite Rabs_mult, Rabs_inv.
    assert (H : Rabs (Rabs (c + q * L) - Rabs c) <= Rabs q * L). { eapply Rle_trans; [apply Rabs_triang_inv2|]. replace (c + q * L - c) with (q * L) by ring. rewrite Rabs_mult. rewrite (Rabs_pos_eq L) by lra. lra. }
    pose proof (Rabs_pos_lt q Q). apply Rmult_le_reg_r with (Rabs q); [lra|]. rewrite Rmult_assoc, Rinv_l by lra. lra.
  - assert (RI : RInt (stretch l) 0 (l_len l) = l_len l). { rewrite (RInt_ext (stretch l) (fun _ => 1)); [|intros; unfold stretch; rewrite K; req; ring]. rewrite RInt_const. unfold scal; cbn; unfold mult; cbn. req. ring. }
    pose proof (seg_upper p0 l 0 (l_len l) W LD S LP) as H. rewrite pos_0, RI in H. exact H.
Qed.
Lemma within_len e v : within e v -> len3 v <= sqrt 3 * e.
Proof.
  intros [A [B C]]. assert (E : 0 <= e) by (pose proof (Rabs_pos (vx v)); lra). unfold len3. rewrite <- (sqrt_Rsqr e E). rewrite <- sqrt_mult_alt by lra. apply sqrt_le_1_alt. unfold dot3.
  assert (SQ : forall x, Rabs x <= e -> x * x <= e * e). { intros x H. pose proof (Rabs_pos x). replace (x * x) with (Rabs x * Rabs x) by (rewrite <- Rabs_mult; apply Rabs_pos_eq; nra). nra. }
  apply SQ in A, B, C. unfold Rsqr. lra.
Qed.
Lemma guess_val p0 pL l : pL <> p0 -> exists lam, 0 < lam /\ (l_len l <= len3 (minus3 pL p0) -> lam = 2 / 10) /\
  guess_tension p0 pL l = Ok (set_t0 l (V (1 / 2 * l_q l * sqrt (vx (minus3 pL p0) * vx (minus3 pL p0) + vy (minus3 pL p0) * vy (minus3 pL p0)) / lam * (vx (minus3 pL p0) / len3 (minus3 pL p0)))
     (1 / 2 * l_q l * sqrt (vx (minus3 pL p0) * vx (minus3 pL p0) + vy (minus3 pL p0) * vy (minus3 pL p0)) / lam * (vy (minus3 pL p0) / len3 (minus3 pL p0))) (1 / 2 * l_q l * (vz (minus3 pL p0) / tanh lam - l_len l)))).
Proof.
  intros NE. unfold guess_tension. cbv zeta. change (vsub pL p0) with (minus3 pL p0). change (vnorm (minus3 pL p0)) with (len3 (minus3 pL p0)).
  assert (N : minus3 pL p0 <> origin). { intros F. apply NE. unfold minus3, origin in F. injection F as F1 F2 F3. apply vec_eq; lra. }
  set (p := minus3 pL p0) in *. clearbody p. pose proof (N_vec _ N) as NN. rewrite <- len3_Nf in NN. destruct (Req_EM_T (len3 p) 0); [contradiction|].
  set (lam := if Rle_dec (l_len l) (len3 p) then 2 / 10 else _). exists lam.
  assert (LP : 0 < lam /\ (l_len l <= len3 p -> lam = 2 / 10)).
  { unfold lam. destruct (Rle_dec (l_len l) (len3 p)) as [C|C]; [lra|]. split; [|lra]. destruct (Rlt_dec (vnorm (vcross m_u p)) (1 / 10000)) as [V|V]; [lra|]. apply sqrt_lt_R0. pose proof (len3_sq p) as LS. pose proof (len3_nonneg p). unfold dot3 in LS.
    assert (H2 : 0 < vx p * vx p + vy p * vy p). { destruct (Rlt_le_dec 0 (vx p * vx p + vy p * vy p)); auto. exfalso. apply V. replace (vnorm (vcross m_u p)) with 0; [lra|]. symmetry. unfold vnorm. replace (vdot _ _) with 0; [apply sqrt_0|]. unfold vdot, vcross, m_u. cbn [vx vy vz]. pose proof (Rle_0_sqr (vx p)). pose proof (Rle_0_sqr (vy p)). unfold Rsqr in *. lra. }
    apply Rdiv_lt_0_compat; [nra|exact H2]. }
  split; [apply LP|]. split; [apply LP|]. f_equal. f_equal. clearbody lam. destruct LP as [LP _]. pose proof (tanh_pos lam LP).
  set (sq := sqrt (vx p * vx p + vy p * vy p)). clearbody sq. set (np := len3 p) in *. clearbody np. set (th := tanh lam) in *. clearbody th.
  apply vec_eq; unfold vadd, vscale, vcross, m_u; cbn [vx vy vz]; field; repeat split; lra.
Qed.
Lemma guess_slanted p0 pL l : slanted (minus3 pL p0) -> l_q l <> 0 -> exists t, guess_tension p0 pL l = Ok (set_t0 l t) /\ slanted t.
Proof.
  intros S Q. assert (NE : pL <> p0). { intros ->. unfold slanted, minus3 in S. cbn in S. lra. } destruct (guess_val p0 pL l NE) as [lam [LP [_ E]]]. eexists. split; [exact E|].
  assert (N : 0 < len3 (minus3 pL p0)). { rewrite len3_Nf. apply Nf_pos. unfold slanted in S. tauto. } set (p := minus3 pL p0) in *. clearbody p. pose proof (slant_sq _ _ S) as H2. pose proof (sqrt_lt_R0 _ H2) as SQ. set (sq := sqrt _) in *. clearbody sq.
  unfold slanted in *. cbn [vx vy vz]. assert (K : 1 / 2 * l_q l * sq / lam <> 0). { unfold Rdiv. repeat apply Rmult_integral_contrapositive_currified; try lra. apply Rinv_neq_0_compat. lra. }
  assert (I0 : / len3 p <> 0) by (apply Rinv_neq_0_compat; lra).
  destruct S as [S|S]; [left|right]; (apply Rmult_integral_contrapositive_currified; [exact K|unfold Rdiv; apply Rmult_integral_contrapositive_currified; auto]).
Qed.
(** With one iteration allowed Initialize always ends for nodes that are not above one another *)
Lemma init_one fuel p0 pL g rhof l : slanted (minus3 pL p0) -> (GetLinearDensity (l_props l) - GetSectionArea (l_props l) * rhof) * g <> 0 -> (l_elastic l = true -> 0 < GetEA (l_props l)) -> 0 < l_len l -> (l_itermax l <= 1)%nat ->
  exists l' d t, CInitialize fuel p0 pL g rhof l = Ok l' /\ slanted t /\ l_t0 l' = vadd t (vscale (l_relax l) d) /\ wf l' /\ loaded l' /\ l_len l' = l_len l /\ l_elastic l' = l_elastic l.
Proof.
  intros S Q EA LP IT. unfold CInitialize. cbv zeta. match goal with |- context [set_load l ?q ?qv ?um] => set (l0 := set_load l q qv um) end.
  assert (W0 : wf l0). { split; [reflexivity|]. unfold l0, m_u. cbn. f_equal; ring. } assert (LD0 : loaded l0) by (split; [exact Q|exact EA]).
  destruct (guess_slanted p0 pL l0 S Q) as [t [G T]]. rewrite G. cbn [rbind]. set (l1 := set_t0 l0 t).
  assert (W1 : wf l1) by (apply set_t0_wf; auto). assert (LD1 : loaded l1) by (apply set_t0_loaded; auto).
  destruct (delta_def p0 pL l1 W1 LD1 T LP) as [d D]. unfold solve. rewrite D. cbn [rbind]. cbv zeta. rewrite residual_val; [|apply set_t0_wf; auto|apply set_t0_loaded; auto]. cbn [rbind].
  change (l_itermax (set_t0 l1 _)) with (l_itermax l). replace (l_itermax l - 1)%nat with 0%nat by lia. cbn [newton_loop rbind]. do 3 eexists. split; [reflexivity|]. split; [exact T|]. split; [reflexivity|].
  split; [apply W1|]. split; [exact LD1|]. split; reflexivity.
Qed.
Lemma init_vertical fuel p0 pL g rhof l : vx pL = vx p0 -> vy pL = vy p0 -> vz pL < vz p0 -> 0 < (GetLinearDensity (l_props l) - GetSectionArea (l_props l) * rhof) * g -> 0 <= l_len l -> l_elastic l = false ->
  CInitialize fuel p0 pL g rhof l = Undef.
Proof.
  intros X Y Z Q LP EL. unfold CInitialize. cbv zeta. match goal with |- context [set_load l ?q ?qv ?um] => set (l0 := set_load l q qv um) end.
  assert (W0 : wf l0). { split; [reflexivity|]. unfold l0, m_u. cbn. f_equal; ring. }
  assert (LD0 : loaded l0) by (split; [unfold weight; cbn; lra|cbn; rewrite EL; discriminate]).
  assert (NE : pL <> p0) by (intros ->; lra). destruct (guess_val p0 pL l0 NE) as [lam [LMP [_ G]]].
  assert (PX : vx (minus3 pL p0) = 0) by (cbn; lra). assert (PY : vy (minus3 pL p0) = 0) by (cbn; lra). assert (PZ : vz (minus3 pL p0) < 0) by (cbn; lra). rewrite PX, PY in G. set (p := minus3 pL p0) in *. clearbody p.
  pose proof (tanh_pos lam LMP) as TP. assert (TZ : 1 / 2 * l_q l0 * (vz p / tanh lam - l_len l0) < 0).
  { assert (vz p / tanh lam < 0). { unfold Rdiv. pose proof (Rinv_0_lt_compat _ TP). nra. } change (l_len l0) with (l_len l). assert (0 < l_q l0) by exact Q. nra. }
  assert (GE : exists c, c < 0 /\ guess_tension p0 pL l0 = Ok (set_t0 l0 (V 0 0 c))). { eexists. split; [exact TZ|]. rewrite G. f_equal. f_equal. apply vec_eq; cbn [vx vy vz]; unfold Rdiv; ring. }
  destruct GE as [c [CN GE]]. rewrite GE. cbn [rbind]. set (l1 := set_t0 l0 (V 0 0 c)). assert (W1 : wf l1) by (apply set_t0_wf; auto). assert (LD1 : loaded l1) by (apply set_t0_loaded; auto).
  assert (SV : solve fuel p0 pL l1 = Undef); [|rewrite SV; reflexivity].
  unfold solve, newton_delta. rewrite residual_val by auto. cbn [rbind].
  destruct (analytical_jacobian l1) as [J| | | |] eqn:JE.
  - cbn [rbind]. assert (DZ : det3 J = 0); [|unfold Inverse; cbv zeta; destruct (Req_EM_T (det3 J) 0); [reflexivity|contradiction]].
    unfold analytical_jacobian in JE. cbv zeta in JE. destruct (Req_EM_T (l_q l1) 0); [discriminate|]. destruct (Req_EM_T (vnorm (l_t0 l1)) 0); [discriminate|]. match type of JE with context [Req_EM_T ?x 0] => destruct (Req_EM_T x 0); [discriminate|] end.
    assert (R0 : rho l1 0 = 0). { rewrite rho_val by auto. cbn [l1 set_t0 l_t0 vx vy vz]. unfold rf, Nf. replace (c + l_q l1 * 0) with c by ring. replace (0 * 0 + 0 * 0 + c * c) with (Rsqr c) by (unfold Rsqr; ring). rewrite sqrt_Rsqr_abs, Rabs_left by lra. ring. }
    rewrite R0 in JE. destruct (Rlt_dec 0 0); [lra|]. change (l_elastic l1) with (l_elastic l) in JE. rewrite EL in JE. injection JE as <-. unfold det3. cbn [m00 m01 m02 m10 m11 m12 m20 m21 m22 Nat.eqb vget m_u vx vy vz]. unfold Rdiv. ring.
  - reflexivity.
  - unfold analytical_jacobian in JE. cbv zeta in JE. repeat match type of JE with context [if ?b then _ else _] => destruct b; try discriminate end.
  - unfold analytical_jacobian in JE. cbv zeta in JE. repeat match type of JE with context [if ?b then _ else _] => destruct b; try discriminate end.
  - unfold analytical_jacobian in JE. cbv zeta in JE. repeat match type of JE with context [if ?b then _ else _] => destruct b; try discriminate end.
Qed.
