(** Proofs for the catenary line, 1: closed form and derivatives along the line. *)
From Coq Require Import Reals List Lra Psatz Lia.
From Coquelicot Require Import Coquelicot.
From Verif Require Import GeoModel GeoSpec GeoProofs HydSpec BodyModel SeaModel CabModel CabSpec.
Import ListNotations.
Open Scope R_scope.

Definition Nf (a b z : R) : R := sqrt (a * a + b * b + z * z).
Definition rf (a b z : R) : R := Nf a b z + z.
Lemma Nf_sq a b z : Nf a b z * Nf a b z = a * a + b * b + z * z.
Proof. unfold Nf. rewrite sqrt_sqrt; nra. Qed.
Lemma Nf_nonneg a b z : 0 <= Nf a b z. Proof. apply sqrt_pos. Qed.
Lemma Nf_pos a b z : a <> 0 \/ b <> 0 \/ z <> 0 -> 0 < Nf a b z.
Proof. intros H. apply sqrt_lt_R0. assert (A : forall x, x <> 0 -> 0 < x * x) by (intros; nra). pose proof (Rle_0_sqr a). pose proof (Rle_0_sqr b). pose proof (Rle_0_sqr z). unfold Rsqr in *. destruct H as [H|[H|H]]; apply A in H; lra. Qed.
Lemma slant_sq a b : a <> 0 \/ b <> 0 -> 0 < a * a + b * b.
Proof. intros [H|H]; nra. Qed.
Lemma rf_pos a b z : a <> 0 \/ b <> 0 -> 0 < rf a b z.
Proof. intros H. unfold rf. pose proof (Nf_sq a b z). pose proof (Nf_nonneg a b z). pose proof (slant_sq _ _ H). destruct (Rlt_le_dec 0 z); [lra|]. nra. Qed.
Lemma Nf_ge a b z : Rabs z <= Nf a b z.
Proof. unfold Nf. rewrite <- (sqrt_Rsqr_abs z). unfold Rsqr. apply sqrt_le_1_alt. nra. Qed.
Lemma rf_nonneg a b z : 0 <= rf a b z.
Proof. unfold rf. pose proof (Nf_ge a b z). pose proof (Rle_abs (- z)). rewrite Rabs_Ropp in *. lra. Qed.
Lemma vert_or a b : (a = 0 /\ b = 0) \/ (a <> 0 \/ b <> 0).
Proof. destruct (Req_EM_T a 0), (Req_EM_T b 0); auto. Qed.

Definition wf (l : line) : Prop := l_qvec l = vscale (l_q l) m_u /\ l_umat l = M 1 0 0 0 1 0 0 0 0.
Lemma tension_val l s : wf l -> GetTension l s NWU = V (vx (l_t0 l)) (vy (l_t0 l)) (vz (l_t0 l) + l_q l * s).
Proof. intros [Q _]. unfold GetTension, swap_if. cbn [IsNED]. rewrite Q. apply vec_eq; unfold vsub, vscale, m_u; cbn [vx vy vz]; ring. Qed.
Lemma vnorm_Nf v : vnorm v = Nf (vx v) (vy v) (vz v).
Proof. reflexivity. Qed.
Lemma rho_val l s : wf l -> rho l s = rf (vx (l_t0 l)) (vy (l_t0 l)) (vz (l_t0 l) + l_q l * s).
Proof. intros W. unfold rho. cbv zeta. rewrite tension_val by auto. rewrite vnorm_Nf. unfold rf, vdot, m_u. cbn [vx vy vz]. ring. Qed.
Lemma swap_convert fc v : swap_if fc v = convert fc v.
Proof. destruct fc; reflexivity. Qed.
(** Closed form of the chord *)
Definition chordf (a b c q s : R) : vec :=
  V (a / q * ln (rf a b (c + q * s) / rf a b c)) (b / q * ln (rf a b (c + q * s) / rf a b c)) ((Nf a b (c + q * s) - Nf a b c) / q).
Lemma chord_val l s fc : wf l -> l_q l <> 0 -> GetUnstrainedChord l s fc = Ok (convert fc (chordf (vx (l_t0 l)) (vy (l_t0 l)) (vz (l_t0 l)) (l_q l) s)).
Proof.
  intros W Q. unfold GetUnstrainedChord. cbv zeta. destruct (Req_EM_T (l_q l) 0); [contradiction|]. rewrite swap_convert. f_equal. f_equal.
  rewrite !rho_val by auto. rewrite tension_val by auto. rewrite !vnorm_Nf. cbn [vx vy vz]. replace (vz (l_t0 l) + l_q l * 0) with (vz (l_t0 l)) by ring.
  destruct W as [_ U]. rewrite U. set (a := vx (l_t0 l)). set (b := vy (l_t0 l)). set (c := vz (l_t0 l)). set (q := l_q l) in *.
  assert (K : forall v, vscale v (vscale (/ q) (mapply (M 1 0 0 0 1 0 0 0 0) (l_t0 l))) = V (a / q * v) (b / q * v) 0).
  { intros v. apply vec_eq; unfold vscale, mapply, a, b, Rdiv; cbn [vx vy vz m00 m01 m02 m10 m11 m12 m20 m21 m22]; ring. }
  rewrite K.
  destruct (vert_or a b) as [[A B]|S].
  - rewrite A, B. unfold chordf. destruct (Rlt_dec 0 _); [destruct (Rlt_dec 0 _)|]; apply vec_eq; unfold vadd, vscale, vneg, m_u; cbn [vx vy vz]; field; exact Q.
  - pose proof (rf_pos a b c S). pose proof (rf_pos a b (c + q * s) S). destruct (Rlt_dec 0 (rf a b c)); [|lra]. destruct (Rlt_dec 0 (rf a b (c + q * s))); [|lra].
    unfold chordf. apply vec_eq; unfold vadd, vscale, vneg, m_u; cbn [vx vy vz]; field; exact Q.
Qed.
Lemma elastic_val l s fc : loaded l -> GetElasticIncrement l s fc = Ok (convert fc (scal3 (compliance l) (V (vx (l_t0 l) * s) (vy (l_t0 l) * s) (vz (l_t0 l) * s + l_q l * s * s / 2)))).
Proof.
  intros [Q E]. unfold weight in Q. unfold GetElasticIncrement, compliance. destruct (l_elastic l) eqn:EL.
  - destruct (Req_EM_T (l_q l) 0); [contradiction|]. specialize (E eq_refl). destruct (Req_EM_T (GetEA (l_props l)) 0); [lra|]. cbn [rbind]. rewrite swap_convert. f_equal. f_equal.
    apply vec_eq; unfold vscale, vsub, scal3, m_u; cbn [vx vy vz]; field; split; lra.
  - cbn [rbind]. rewrite swap_convert. f_equal. f_equal. apply vec_eq; unfold vzero, scal3; cbn [vx vy vz]; ring.
Qed.
Definition posf (p0 : vec) (l : line) (s : R) : vec :=
  plus3 (plus3 p0 (chordf (vx (l_t0 l)) (vy (l_t0 l)) (vz (l_t0 l)) (l_q l) s)) (scal3 (compliance l) (V (vx (l_t0 l) * s) (vy (l_t0 l) * s) (vz (l_t0 l) * s + l_q l * s * s / 2))).
Lemma pos_val p0 l s fc : wf l -> loaded l -> GetNodePositionInWorld p0 l s fc = Ok (convert fc (posf p0 l s)).
Proof.
  intros W LD. unfold GetNodePositionInWorld. rewrite chord_val by (auto; apply LD). cbn [rbind]. rewrite elastic_val by auto. cbn [rbind]. rewrite swap_convert. f_equal.
  unfold posf. destruct fc; apply vec_eq; unfold vadd, vzero, plus3, convert; cbn [vx vy vz]; ring.
Qed.

(** Derivatives along the line *)
Lemma D_N a b c q s : Nf a b (c + q * s) <> 0 -> is_derive (fun s => Nf a b (c + q * s)) s (q * (c + q * s) / Nf a b (c + q * s)).
Proof.
  intros N. pose proof (Nf_nonneg a b (c + q * s)) as P. assert (P2 : 0 < a * a + b * b + (c + q * s) * (c + q * s)). { rewrite <- Nf_sq. nra. }
  unfold Nf. auto_derive; [exact P2|]. change (sqrt (a * a + b * b + (c + q * s) * (c + q * s))) with (Nf a b (c + q * s)). field. exact N.
Qed.
Lemma D_r a b c q s : Nf a b (c + q * s) <> 0 -> is_derive (fun s => rf a b (c + q * s)) s (q * rf a b (c + q * s) / Nf a b (c + q * s)).
Proof.
  intros N. unfold rf. evar_last; [apply (is_derive_plus (fun s => Nf a b (c + q * s)) (fun s => c + q * s)); [apply D_N; exact N|auto_derive; [exact I|reflexivity]]|].
  unfold plus; cbn. field. exact N.
Qed.
Lemma D_ln a b c q s : a <> 0 \/ b <> 0 -> is_derive (fun s => ln (rf a b (c + q * s) / rf a b c)) s (q / Nf a b (c + q * s)).
Proof.
  intros H. pose proof (rf_pos a b c H) as R0. pose proof (rf_pos a b (c + q * s) H) as R1.
  assert (N : 0 < Nf a b (c + q * s)) by (apply Nf_pos; tauto).
  evar_last; [apply (is_derive_comp ln (fun s => rf a b (c + q * s) / rf a b c)); [apply is_derive_Reals; apply derivable_pt_lim_ln; apply Rdiv_lt_0_compat; assumption|]|].
  - apply (is_derive_ext (fun s => scal (/ rf a b c) (rf a b (c + q * s)))); [intros; unfold scal, mult, Rdiv; cbn; unfold mult; cbn; ring|].
    apply (is_derive_scal (fun s => rf a b (c + q * s))). apply D_r. lra.
  - unfold scal, mult; cbn; unfold mult; cbn. field. repeat split; lra.
Qed.
Lemma chord_D a b c q s : q <> 0 -> Nf a b (c + q * s) <> 0 ->
  derive3 (chordf a b c q) s (V (a / Nf a b (c + q * s)) (b / Nf a b (c + q * s)) ((c + q * s) / Nf a b (c + q * s))).
Proof.
  intros Q N. unfold derive3, chordf. cbn [vx vy vz].
  assert (Z : is_derive (fun t => (Nf a b (c + q * t) - Nf a b c) / q) s ((c + q * s) / Nf a b (c + q * s))).
  { apply (is_derive_ext (fun t => scal (/ q) (minus (Nf a b (c + q * t)) (Nf a b c)))); [intros; unfold scal, minus, plus, opp, mult, Rdiv; cbn; unfold mult; cbn; ring|].
    evar_last; [apply (is_derive_scal (fun t => minus (Nf a b (c + q * t)) (Nf a b c))); apply (is_derive_minus (fun t => Nf a b (c + q * t)) (fun _ => Nf a b c)); [apply D_N; exact N|apply (is_derive_const (Nf a b c))]|].
    unfold scal, minus, plus, opp, mult, zero; cbn; unfold mult; cbn. field. tauto. }
  destruct (vert_or a b) as [[-> ->]|H].
  - split; [|split; [|exact Z]]; (apply (is_derive_ext (fun _ => 0)); [intros t; unfold Rdiv; change (@eq R 0 (0 * / q * ln (rf 0 0 (c + q * t) * / rf 0 0 c))); ring|]); unfold Rdiv; rewrite Rmult_0_l; apply @is_derive_const.
  - split; [|split; [|exact Z]].
    + evar_last; [apply (is_derive_scal (fun t => ln (rf a b (c + q * t) / rf a b c)) s (a / q)); apply D_ln; exact H|]. unfold scal, mult; cbn; unfold mult; cbn. field. tauto.
    + evar_last; [apply (is_derive_scal (fun t => ln (rf a b (c + q * t) / rf a b c)) s (b / q)); apply D_ln; exact H|]. unfold scal, mult; cbn; unfold mult; cbn. field. tauto.
Qed.
Lemma len3_Nf v : len3 v = Nf (vx v) (vy v) (vz v). Proof. reflexivity. Qed.
Lemma N_vec v : v <> origin -> Nf (vx v) (vy v) (vz v) <> 0.
Proof.
  intros H. apply Rgt_not_eq, Nf_pos. destruct v as [x y z]. cbn [vx vy vz]. destruct (Req_EM_T x 0); auto. destruct (Req_EM_T y 0); auto. destruct (Req_EM_T z 0); auto. subst. exfalso. apply H. reflexivity.
Qed.
Lemma pos_D p0 l s : wf l -> loaded l -> GetTension l s NWU <> origin ->
  derive3 (posf p0 l) s (plus3 (along (GetTension l s NWU)) (scal3 (compliance l) (GetTension l s NWU))).
Proof.
  intros W LD T. pose proof (N_vec _ T) as N. rewrite (tension_val l s W) in *. cbn [vx vy vz] in N. destruct (chord_D _ _ _ _ s (proj1 LD) N) as [X [Y Z]]. unfold weight in *.
  unfold derive3, posf, along, plus3, scal3. rewrite len3_Nf. cbn [vx vy vz].
  set (a := vx (l_t0 l)) in *. set (b := vy (l_t0 l)) in *. set (c := vz (l_t0 l)) in *. set (q := l_q l) in *. set (k := compliance l).
  split; [|split].
  - evar_last; [apply (is_derive_plus (fun s => vx p0 + vx (chordf a b c q s)) (fun s => k * (a * s)))|].
    + apply (is_derive_plus (fun _ => vx p0)); [apply @is_derive_const|exact X].
    + auto_derive; [exact I|reflexivity].
    + unfold plus, zero; cbn. field. exact N.
  - evar_last; [apply (is_derive_plus (fun s => vy p0 + vy (chordf a b c q s)) (fun s => k * (b * s)))|].
    + apply (is_derive_plus (fun _ => vy p0)); [apply @is_derive_const|exact Y].
    + auto_derive; [exact I|reflexivity].
    + unfold plus, zero; cbn. field. exact N.
  - evar_last; [apply (is_derive_plus (fun s => vz p0 + vz (chordf a b c q s)) (fun s => k * (c * s + q * s * s / 2)))|].
    + apply (is_derive_plus (fun _ => vz p0)); [apply @is_derive_const|exact Z].
    + auto_derive; [exact I|reflexivity].
    + unfold plus, zero; cbn. field. exact N.
Qed.
Lemma pos_0 p0 l : posf p0 l 0 = p0.
Proof.
  unfold posf, chordf. replace (vz (l_t0 l) + l_q l * 0) with (vz (l_t0 l)) by ring. set (r := rf _ _ _).
  assert (E : ln (r / r) * 1 = 0 \/ r = 0). { destruct (Req_EM_T r 0); [right; auto|left; unfold Rdiv; rewrite Rinv_r by auto; rewrite ln_1; ring]. }
  destruct E as [E|E].
  - rewrite Rmult_1_r in E. apply vec_eq; unfold plus3, scal3; cbn [vx vy vz]; rewrite ?E; unfold Rdiv; ring.
  - destruct (vert_or (vx (l_t0 l)) (vy (l_t0 l))) as [[A B]|S]; [|pose proof (rf_pos _ _ (vz (l_t0 l)) S); unfold r in E; lra].
    apply vec_eq; unfold plus3, scal3; cbn [vx vy vz]; rewrite ?A, ?B; unfold Rdiv; ring.
Qed.
