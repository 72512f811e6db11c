(** Proofs for the catenary line, 2: the Jacobian. *)
From Coq Require Import Reals List Lra Psatz Lia.
From Coquelicot Require Import Coquelicot.
From Verif Require Import GeoModel GeoSpec GeoProofs HydSpec BodyModel SeaModel CabModel CabSpec CabProofs.
Import ListNotations.
Open Scope R_scope.

(** Closed form of the Jacobian for a tension that is not vertical; z0, z1: vertical parts at the two ends *)
Definition Df (a b z0 z1 : R) := / (Nf a b z1 * rf a b z1) - / (Nf a b z0 * rf a b z0).
Definition Ef (a b z0 z1 : R) := / Nf a b z1 - / Nf a b z0.
Definition Ff (a b z0 z1 : R) := z1 / Nf a b z1 - z0 / Nf a b z0.
Definition Lf (a b z0 z1 : R) := ln (rf a b z1 / rf a b z0).
Definition Jf (a b z0 z1 q e : R) : mat :=
  let Lq := Lf a b z0 z1 / q in let D := Df a b z0 z1 / q in let E := Ef a b z0 z1 / q in
  M (Lq + a * a * D + e) (a * b * D) (a * E) (a * b * D) (Lq + b * b * D + e) (b * E) (a * E) (b * E) (Ff a b z0 z1 / q + e).
Lemma jac_val l : wf l -> loaded l -> slanted (l_t0 l) ->
  analytical_jacobian l = Ok (Jf (vx (l_t0 l)) (vy (l_t0 l)) (vz (l_t0 l)) (vz (l_t0 l) + l_q l * l_len l) (l_q l) (compliance l * l_len l)).
Proof.
  intros W LD S. assert (Q : l_q l <> 0) by apply LD. unfold analytical_jacobian. cbv zeta. rewrite !(rho_val l) by auto.
  assert (TL : vsub (l_t0 l) (vscale (l_len l) (l_qvec l)) = V (vx (l_t0 l)) (vy (l_t0 l)) (vz (l_t0 l) + l_q l * l_len l)) by (apply (tension_val l (l_len l)); auto).
  rewrite TL, !vnorm_Nf. cbn [vx vy vz]. replace (vz (l_t0 l) + l_q l * 0) with (vz (l_t0 l)) by ring. destruct W as [_ U]. rewrite U.
  assert (EL : (if l_elastic l then l_len l / GetEA (l_props l) else 0) = compliance l * l_len l) by (unfold compliance; destruct (l_elastic l); unfold Rdiv; ring). rewrite EL. clear EL TL.
  assert (EB : (if l_elastic l then if Req_EM_T (GetEA (l_props l)) 0 then true else false else false) = false). { destruct LD as [_ E]. destruct (l_elastic l); auto. specialize (E eq_refl). destruct (Req_EM_T (GetEA (l_props l)) 0); auto. lra. } rewrite EB. clear EB.
  set (e := compliance l * l_len l). clearbody e. set (z1 := vz (l_t0 l) + l_q l * l_len l). clearbody z1.
  destruct (l_t0 l) as [a b z0]. cbn [vx vy vz] in *. set (q := l_q l) in *. clearbody q. unfold slanted in S. cbn [vx vy] in S.
  assert (P0 : 0 < Nf a b z0) by (apply Nf_pos; tauto). assert (P1 : 0 < Nf a b z1) by (apply Nf_pos; tauto). pose proof (rf_pos a b z0 S) as R0. pose proof (rf_pos a b z1 S) as R1.
  destruct (Req_EM_T q 0); [contradiction|]. destruct (Req_EM_T (Nf a b z0) 0); [lra|]. destruct (Req_EM_T (Nf a b z1) 0); [lra|]. destruct (Rlt_dec 0 (rf a b z0)); [|lra]. destruct (Rlt_dec 0 (rf a b z1)); [|lra].
  f_equal. unfold Jf, Df, Ef, Ff, Lf, rf in *. set (N0 := Nf a b z0) in *. set (N1 := Nf a b z1) in *. set (LN := ln ((N1 + z1) / (N0 + z0))). clearbody LN N0 N1.
  cbv beta iota zeta delta [vget mrow m_u vdot Nat.eqb vx vy vz m00 m01 m02 m10 m11 m12 m20 m21 m22].
  apply mat_eq; cbn [m00 m01 m02 m10 m11 m12 m20 m21 m22]; field; repeat split; lra.
Qed.

(** Derivatives with respect to the tension *)
Lemma D_Nd a b z da db dz : 0 < Nf a b z -> is_derive (fun h => Nf (a + h * da) (b + h * db) (z + h * dz)) 0 ((a * da + b * db + z * dz) / Nf a b z).
Proof.
  intros N. assert (P : 0 < a * a + b * b + z * z) by (rewrite <- Nf_sq; nra). unfold Nf. auto_derive; [rewrite !Rmult_0_l, !Rplus_0_r; exact P|]. rewrite !Rmult_0_l, !Rplus_0_r. change (sqrt (a * a + b * b + z * z)) with (Nf a b z). field. lra.
Qed.
Lemma D_rd a b z da db dz : 0 < Nf a b z -> is_derive (fun h => rf (a + h * da) (b + h * db) (z + h * dz)) 0 ((a * da + b * db + z * dz) / Nf a b z + dz).
Proof.
  intros N. unfold rf. evar_last; [apply (is_derive_plus (fun h => Nf (a + h * da) (b + h * db) (z + h * dz)) (fun h => z + h * dz)); [apply D_Nd; exact N|auto_derive; [exact I|reflexivity]]|]. unfold plus; cbn. ring.
Qed.
Lemma D_lnd a b z0 z1 da db dz : a <> 0 \/ b <> 0 -> is_derive (fun h => Lf (a + h * da) (b + h * db) (z0 + h * dz) (z1 + h * dz)) 0 ((a * da + b * db) * Df a b z0 z1 + dz * Ef a b z0 z1).
Proof.
  intros S. assert (P0 : 0 < Nf a b z0) by (apply Nf_pos; tauto). assert (P1 : 0 < Nf a b z1) by (apply Nf_pos; tauto). pose proof (rf_pos a b z0 S) as R0. pose proof (rf_pos a b z1 S) as R1.
  unfold Lf. evar_last; [apply (is_derive_comp ln (fun h => rf (a + h * da) (b + h * db) (z1 + h * dz) / rf (a + h * da) (b + h * db) (z0 + h * dz)))|].
  - apply is_derive_Reals. apply derivable_pt_lim_ln. rewrite !Rmult_0_l, !Rplus_0_r. apply Rdiv_lt_0_compat; assumption.
  - apply (is_derive_div (fun h => rf (a + h * da) (b + h * db) (z1 + h * dz)) (fun h => rf (a + h * da) (b + h * db) (z0 + h * dz))); [apply D_rd; exact P1|apply D_rd; exact P0|].
    rewrite !Rmult_0_l, !Rplus_0_r. lra.
  - rewrite !Rmult_0_l, !Rplus_0_r. unfold scal, mult; cbn; unfold mult; cbn. unfold Df, Ef, rf in *. set (N0 := Nf a b z0) in *. set (N1 := Nf a b z1) in *. clearbody N0 N1. field. repeat split; lra.
Qed.
Lemma D_chord a b c q L da db dz : q <> 0 -> a <> 0 \/ b <> 0 ->
  derive3 (fun h => chordf (a + h * da) (b + h * db) (c + h * dz) q L) 0 (mv (Jf a b c (c + q * L) q 0) (V da db dz)).
Proof.
  intros Q S. assert (P0 : 0 < Nf a b c) by (apply Nf_pos; tauto). assert (P1 : 0 < Nf a b (c + q * L)) by (apply Nf_pos; tauto). pose proof (rf_pos a b c S) as R0. pose proof (rf_pos a b (c + q * L) S) as R1.
  pose proof (D_lnd a b c (c + q * L) da db dz S) as DL.
  assert (DX : forall x dx, is_derive (fun h => (x + h * dx) / q * ln (rf (a + h * da) (b + h * db) (c + h * dz + q * L) / rf (a + h * da) (b + h * db) (c + h * dz))) 0
     (dx / q * Lf a b c (c + q * L) + x / q * ((a * da + b * db) * Df a b c (c + q * L) + dz * Ef a b c (c + q * L)))).
  { intros x dx. apply (is_derive_ext (fun h => ((x + h * dx) / q) * Lf (a + h * da) (b + h * db) (c + h * dz) (c + q * L + h * dz))).
    { intros t. unfold Lf. replace (c + t * dz + q * L) with (c + q * L + t * dz) by ring. reflexivity. }
    evar_last; [apply (is_derive_mult (fun h => (x + h * dx) / q) (fun h => Lf (a + h * da) (b + h * db) (c + h * dz) (c + q * L + h * dz)) 0 (dx / q)); [auto_derive; [exact I|field; exact Q]|exact DL|intros; apply Rmult_comm]|].
    unfold plus, mult; cbn. unfold mult; cbn. rewrite !Rmult_0_l, !Rplus_0_r. unfold Lf. reflexivity. }
  unfold derive3, chordf, mv, dot3, Jf. cbn [vx vy vz m00 m01 m02 m10 m11 m12 m20 m21 m22]. split; [|split].
  - evar_last; [apply DX|]. field. exact Q.
  - evar_last; [apply DX|]. field. exact Q.
  - pose proof (D_Nd a b c da db dz P0) as D0. pose proof (D_Nd a b (c + q * L) da db dz P1) as D1.
    apply (is_derive_ext (fun h => scal (/ q) (minus (Nf (a + h * da) (b + h * db) (c + q * L + h * dz)) (Nf (a + h * da) (b + h * db) (c + h * dz))))).
    { intros t. unfold scal, minus, plus, opp, mult; cbn; unfold mult; cbn. replace (c + t * dz + q * L) with (c + q * L + t * dz) by ring. unfold Rdiv. rewrite Rmult_comm. reflexivity. }
    evar_last; [apply (is_derive_scal (fun h => minus (Nf (a + h * da) (b + h * db) (c + q * L + h * dz)) (Nf (a + h * da) (b + h * db) (c + h * dz)))); apply (is_derive_minus (fun h => Nf (a + h * da) (b + h * db) (c + q * L + h * dz)) (fun h => Nf (a + h * da) (b + h * db) (c + h * dz))); [exact D1|exact D0]|].
    unfold scal, minus, plus, opp, mult; cbn; unfold mult; cbn. unfold Ef, Ff. field. repeat split; lra.
Qed.
Lemma set_t0_wf l t : wf l -> wf (set_t0 l t). Proof. intros [A B]. split; assumption. Qed.
Lemma set_t0_loaded l t : loaded l -> loaded (set_t0 l t). Proof. intros [A B]. split; assumption. Qed.
Lemma residual_val p0 pL l fc : wf l -> loaded l -> get_residual p0 pL l fc = Ok (convert fc (minus3 (posf p0 l (l_len l)) pL)).
Proof.
  intros W LD. unfold get_residual. rewrite pos_val by auto. cbn [rbind]. rewrite swap_convert. f_equal. destruct fc; apply vec_eq; unfold vsub, minus3, convert; cbn [vx vy vz]; ring.
Qed.
Lemma residual_D p0 pL l d : wf l -> loaded l -> slanted (l_t0 l) ->
  derive3 (fun h => minus3 (posf p0 (set_t0 l (plus3 (l_t0 l) (scal3 h d))) (l_len l)) pL) 0
    (mv (Jf (vx (l_t0 l)) (vy (l_t0 l)) (vz (l_t0 l)) (vz (l_t0 l) + l_q l * l_len l) (l_q l) (compliance l * l_len l)) d).
Proof.
  intros W LD S. destruct (l_t0 l) as [a b c] eqn:ET. destruct d as [da db dz].
  pose proof (D_chord a b c (l_q l) (l_len l) da db dz (proj1 LD) S) as [X [Y Z]].
  unfold posf, minus3, plus3, scal3, derive3. cbn [set_t0 l_t0 l_q l_len vx vy vz]. change (compliance (set_t0 l _)) with (compliance l).
  set (k := compliance l). set (q := l_q l) in *. set (L := l_len l) in *.
  unfold mv, dot3, Jf in *. cbn [vx vy vz m00 m01 m02 m10 m11 m12 m20 m21 m22] in *.
  split; [|split].
  - apply (is_derive_ext (fun h => plus (vx p0 - vx pL) (plus (vx (chordf (a + h * da) (b + h * db) (c + h * dz) q L)) (k * ((a + h * da) * L))))); [intros; unfold plus; cbn; ring|].
    evar_last; [apply (is_derive_plus (fun _ => vx p0 - vx pL)); [apply @is_derive_const|apply (is_derive_plus (fun h => vx (chordf (a + h * da) (b + h * db) (c + h * dz) q L))); [exact X|auto_derive; [exact I|reflexivity]]]|].
    unfold plus, zero; cbn. ring.
  - apply (is_derive_ext (fun h => plus (vy p0 - vy pL) (plus (vy (chordf (a + h * da) (b + h * db) (c + h * dz) q L)) (k * ((b + h * db) * L))))); [intros; unfold plus; cbn; ring|].
    evar_last; [apply (is_derive_plus (fun _ => vy p0 - vy pL)); [apply @is_derive_const|apply (is_derive_plus (fun h => vy (chordf (a + h * da) (b + h * db) (c + h * dz) q L))); [exact Y|auto_derive; [exact I|reflexivity]]]|].
    unfold plus, zero; cbn. ring.
  - apply (is_derive_ext (fun h => plus (vz p0 - vz pL) (plus (vz (chordf (a + h * da) (b + h * db) (c + h * dz) q L)) (k * ((c + h * dz) * L + q * L * L / 2))))); [intros; unfold plus; cbn; ring|].
    evar_last; [apply (is_derive_plus (fun _ => vz p0 - vz pL)); [apply @is_derive_const|apply (is_derive_plus (fun h => vz (chordf (a + h * da) (b + h * db) (c + h * dz) q L))); [exact Z|auto_derive; [exact I|reflexivity]]]|].
    unfold plus, zero; cbn. field.
    apply LD.
Qed.

(** Growth of the quadratic form of the Jacobian with the length *)
Definition qform (a b c q k : R) (v : vec) (s : R) : R := dot3 v (mv (Jf a b c (c + q * s) q (k * s)) v).
Lemma qform_0 a b c q k v : a <> 0 \/ b <> 0 -> qform a b c q k v 0 = 0.
Proof.
  intros S. pose proof (rf_pos a b c S). unfold qform, Jf, Df, Ef, Ff, Lf. replace (c + q * 0) with c by ring. assert (LN : ln (rf a b c / rf a b c) = 0) by (unfold Rdiv; rewrite Rinv_r by lra; apply ln_1). rewrite LN.
  unfold dot3, mv, dot3. cbn [vx vy vz m00 m01 m02 m10 m11 m12 m20 m21 m22]. unfold Rdiv. ring.
Qed.
Definition qrate (a b c q k : R) (v : vec) (s : R) : R :=
  let z := c + q * s in (dot3 v v - (vx v * a + vy v * b + vz v * z) * (vx v * a + vy v * b + vz v * z) / (Nf a b z * Nf a b z)) / Nf a b z + k * dot3 v v.
Lemma D_D a b c q s : a <> 0 \/ b <> 0 -> is_derive (fun s => Df a b c (c + q * s)) s (- q / (Nf a b (c + q * s) * Nf a b (c + q * s) * Nf a b (c + q * s))).
Proof.
  intros S. assert (P1 : 0 < Nf a b (c + q * s)) by (apply Nf_pos; tauto). pose proof (rf_pos a b (c + q * s) S) as R1.
  unfold Df. evar_last; [apply (is_derive_minus (fun s => / (Nf a b (c + q * s) * rf a b (c + q * s))) (fun _ => / (Nf a b c * rf a b c))); [|apply @is_derive_const]|].
  - apply (is_derive_inv (fun s => Nf a b (c + q * s) * rf a b (c + q * s))); [|nra].
    apply (is_derive_mult (fun s => Nf a b (c + q * s)) (fun s => rf a b (c + q * s))); [apply D_N; lra|apply D_r; lra|intros; apply Rmult_comm].
  - unfold minus, plus, opp, zero, mult; cbn. unfold rf in *. set (N := Nf a b (c + q * s)) in *. set (z := c + q * s) in *. clearbody N z. field. repeat split; lra.
Qed.
Lemma D_E a b c q s : a <> 0 \/ b <> 0 -> is_derive (fun s => Ef a b c (c + q * s)) s (- q * (c + q * s) / (Nf a b (c + q * s) * Nf a b (c + q * s) * Nf a b (c + q * s))).
Proof.
  intros S. assert (P1 : 0 < Nf a b (c + q * s)) by (apply Nf_pos; tauto).
  unfold Ef. evar_last; [apply (is_derive_minus (fun s => / Nf a b (c + q * s)) (fun _ => / Nf a b c)); [|apply @is_derive_const]|].
  - apply (is_derive_inv (fun s => Nf a b (c + q * s))); [apply D_N; lra|lra].
  - unfold minus, plus, opp, zero; cbn. field. lra.
Qed.
Lemma D_F a b c q s : a <> 0 \/ b <> 0 -> is_derive (fun s => Ff a b c (c + q * s)) s (q / Nf a b (c + q * s) - q * (c + q * s) * (c + q * s) / (Nf a b (c + q * s) * Nf a b (c + q * s) * Nf a b (c + q * s))).
Proof.
  intros S. assert (P1 : 0 < Nf a b (c + q * s)) by (apply Nf_pos; tauto).
  unfold Ff. evar_last; [apply (is_derive_minus (fun s => (c + q * s) / Nf a b (c + q * s)) (fun _ => c / Nf a b c)); [|apply @is_derive_const]|].
  - apply (is_derive_div (fun s => c + q * s) (fun s => Nf a b (c + q * s))); [auto_derive; [exact I|reflexivity]|apply D_N; lra|lra].
  - unfold minus, plus, opp, zero; cbn. field. lra.
Qed.
Lemma D_qform a b c q k v s : q <> 0 -> a <> 0 \/ b <> 0 -> is_derive (qform a b c q k v) s (qrate a b c q k v s).
Proof.
  intros Q S. assert (P1 : 0 < Nf a b (c + q * s)) by (apply Nf_pos; tauto). destruct v as [x y z].
  pose proof (D_ln a b c q s S) as DL. pose proof (D_D a b c q s S) as DD. pose proof (D_E a b c q s S) as DE. pose proof (D_F a b c q s S) as DF.
  change (is_derive (fun s => Lf a b c (c + q * s)) s (q / Nf a b (c + q * s))) in DL.
  apply (is_derive_ext (fun s => plus (scal ((x * x + y * y) / q) (Lf a b c (c + q * s))) (plus (scal ((a * x + b * y) * (a * x + b * y) / q) (Df a b c (c + q * s)))
     (plus (scal (2 * z * (a * x + b * y) / q) (Ef a b c (c + q * s))) (plus (scal (z * z / q) (Ff a b c (c + q * s))) (scal (k * (x * x + y * y + z * z)) s)))))).
  { intros t. unfold qform, Jf, dot3, mv, dot3, plus, scal; cbn; unfold mult; cbn. change ((x * x + y * y) / q * Lf a b c (c + q * t) + ((a * x + b * y) * (a * x + b * y) / q * Df a b c (c + q * t) + (2 * z * (a * x + b * y) / q * Ef a b c (c + q * t) + (z * z / q * Ff a b c (c + q * t) + k * (x * x + y * y + z * z) * t))) =
      x * ((Lf a b c (c + q * t) / q + a * a * (Df a b c (c + q * t) / q) + k * t) * x + a * b * (Df a b c (c + q * t) / q) * y + a * (Ef a b c (c + q * t) / q) * z) +
      y * (a * b * (Df a b c (c + q * t) / q) * x + (Lf a b c (c + q * t) / q + b * b * (Df a b c (c + q * t) / q) + k * t) * y + b * (Ef a b c (c + q * t) / q) * z) +
      z * (a * (Ef a b c (c + q * t) / q) * x + b * (Ef a b c (c + q * t) / q) * y + (Ff a b c (c + q * t) / q + k * t) * z)). field. exact Q. }
  evar_last.
  - apply (is_derive_plus (fun s => scal ((x * x + y * y) / q) (Lf a b c (c + q * s)))); [apply (is_derive_scal (fun s => Lf a b c (c + q * s))); exact DL|].
    apply (is_derive_plus (fun s => scal ((a * x + b * y) * (a * x + b * y) / q) (Df a b c (c + q * s)))); [apply (is_derive_scal (fun s => Df a b c (c + q * s))); exact DD|].
    apply (is_derive_plus (fun s => scal (2 * z * (a * x + b * y) / q) (Ef a b c (c + q * s)))); [apply (is_derive_scal (fun s => Ef a b c (c + q * s))); exact DE|].
    apply (is_derive_plus (fun s => scal (z * z / q) (Ff a b c (c + q * s)))); [apply (is_derive_scal (fun s => Ff a b c (c + q * s))); exact DF|].
    apply (is_derive_scal (fun s => s)). apply @is_derive_id.
  - unfold qrate, plus, scal, one; cbn; unfold mult; cbn. unfold dot3. cbn [vx vy vz]. set (N := Nf a b (c + q * s)) in *. set (w := c + q * s) in *. clearbody N w. 
    match goal with |- ?l = ?r => change (@eq R l r) end. field. split; lra.
Qed.
Lemma qrate_nonneg a b c q k v s : a <> 0 \/ b <> 0 -> 0 <= k -> 0 <= qrate a b c q k v s.
Proof.
  intros S K. unfold qrate. cbv zeta. set (z := c + q * s). clearbody z. assert (P1 : 0 < Nf a b z) by (apply Nf_pos; tauto). pose proof (Nf_sq a b z) as N2. destruct v as [x y w]. unfold dot3. cbn [vx vy vz].
  assert (A : (x * a + y * b + w * z) * (x * a + y * b + w * z) <= (x * x + y * y + w * w) * (Nf a b z * Nf a b z)).
  { rewrite N2. pose proof (Rle_0_sqr (y * z - w * b)). pose proof (Rle_0_sqr (w * a - x * z)). pose proof (Rle_0_sqr (x * b - y * a)). unfold Rsqr in *. lra. }
  assert (B : (x * a + y * b + w * z) * (x * a + y * b + w * z) / (Nf a b z * Nf a b z) <= x * x + y * y + w * w).
  { apply Rmult_le_reg_r with (Nf a b z * Nf a b z); [nra|]. unfold Rdiv. rewrite Rmult_assoc, Rinv_l by nra. lra. }
  assert (0 <= (x * x + y * y + w * w - (x * a + y * b + w * z) * (x * a + y * b + w * z) / (Nf a b z * Nf a b z)) / Nf a b z). { apply Rmult_le_pos; [lra|]. left. apply Rinv_0_lt_compat. lra. }
  assert (0 <= k * (x * x + y * y + w * w)) by (apply Rmult_le_pos; nra). lra.
Qed.
Lemma qrate_pos a b c q k v s : a <> 0 \/ b <> 0 -> 0 <= k -> vcross v (V a b (c + q * s)) <> vzero -> 0 < qrate a b c q k v s.
Proof.
  intros S K X. unfold qrate. cbv zeta. set (z := c + q * s) in *. clearbody z. assert (P1 : 0 < Nf a b z) by (apply Nf_pos; tauto). pose proof (Nf_sq a b z) as N2. destruct v as [x y w]. unfold dot3, vcross, vzero in *. cbn [vx vy vz] in *.
  assert (C : 0 < (y * z - w * b) * (y * z - w * b) + (w * a - x * z) * (w * a - x * z) + (x * b - y * a) * (x * b - y * a)).
  { pose proof (Rle_0_sqr (y * z - w * b)) as Q1. pose proof (Rle_0_sqr (w * a - x * z)) as Q2. pose proof (Rle_0_sqr (x * b - y * a)) as Q3. unfold Rsqr in *. assert (SQ : forall t, t <> 0 -> 0 < t * t) by (intros; nra).
    destruct (Req_EM_T (y * z - w * b) 0) as [E1|E1]; [|apply SQ in E1; lra]. destruct (Req_EM_T (w * a - x * z) 0) as [E2|E2]; [|apply SQ in E2; lra]. destruct (Req_EM_T (x * b - y * a) 0) as [E3|E3]; [|apply SQ in E3; lra]. exfalso. apply X. rewrite E1, E2, E3. reflexivity. }
  assert (A : (x * a + y * b + w * z) * (x * a + y * b + w * z) < (x * x + y * y + w * w) * (Nf a b z * Nf a b z)).
  { rewrite N2. lra. }
  assert (B : (x * a + y * b + w * z) * (x * a + y * b + w * z) / (Nf a b z * Nf a b z) < x * x + y * y + w * w).
  { apply Rmult_lt_reg_r with (Nf a b z * Nf a b z); [nra|]. unfold Rdiv. rewrite Rmult_assoc, Rinv_l by nra. lra. }
  assert (0 < (x * x + y * y + w * w - (x * a + y * b + w * z) * (x * a + y * b + w * z) / (Nf a b z * Nf a b z)) / Nf a b z). { apply Rmult_lt_0_compat; [lra|]. apply Rinv_0_lt_compat. lra. }
  assert (0 <= k * (x * x + y * y + w * w)) by (apply Rmult_le_pos; nra). lra.
Qed.
(** v is along the tension at one place at most *)
Lemma parallel_once a b c q v s s' : q <> 0 -> a <> 0 \/ b <> 0 -> v <> vzero -> s <> s' -> vcross v (V a b (c + q * s)) = vzero -> vcross v (V a b (c + q * s')) = vzero -> False.
Proof.
  intros Q S NV NS E E'. destruct v as [x y w]. unfold vcross, vzero in *. cbn [vx vy vz] in *. injection E as A1 A2 A3. injection E' as B1 B2 B3.
  assert (Y : y * (q * (s - s')) = 0) by lra. assert (X : x * (q * (s - s')) = 0) by lra. assert (N : q * (s - s') <> 0) by (apply Rmult_integral_contrapositive_currified; lra).
  assert (Y0 : y = 0) by (destruct (Rmult_integral _ _ Y); tauto). assert (X0 : x = 0) by (destruct (Rmult_integral _ _ X); tauto). subst.
  assert (w <> 0) by (intros ->; apply NV; reflexivity). destruct S as [S|S]; apply S; [assert (w * a = 0) by lra|assert (w * b = 0) by lra]; destruct (Rmult_integral w _ ltac:(eassumption)); tauto.
Qed.
Lemma deriv_mono f df x y : x <= y -> (forall t, x <= t <= y -> is_derive f t (df t)) -> (forall t, x < t < y -> 0 <= df t) -> f x <= f y.
Proof.
  intros H D P. destruct (Req_EM_T x y) as [->|N]; [lra|]. destruct (MVT_cor2 f df x y) as [t [E [T1 T2]]]; [lra|intros; apply is_derive_Reals; apply D; lra|]. specialize (P t (conj T1 T2)). nra.
Qed.
Lemma deriv_mono_strict f df x y : x < y -> (forall t, x <= t <= y -> is_derive f t (df t)) -> (forall t, x < t < y -> 0 < df t) -> f x < f y.
Proof.
  intros H D P. destruct (MVT_cor2 f df x y) as [t [E [T1 T2]]]; [lra|intros; apply is_derive_Reals; apply D; lra|]. specialize (P t (conj T1 T2)). nra.
Qed.
Lemma qform_pos a b c q k v L : q <> 0 -> a <> 0 \/ b <> 0 -> 0 <= k -> 0 < L -> v <> vzero -> 0 < qform a b c q k v L.
Proof.
  intros Q S K LP NV. rewrite <- (qform_0 a b c q k v S).
  assert (D : forall t, is_derive (qform a b c q k v) t (qrate a b c q k v t)) by (intros; apply D_qform; auto).
  assert (ZD : forall t, vcross v (V a b (c + q * t)) = vzero \/ vcross v (V a b (c + q * t)) <> vzero).
  { intros t. destruct (vcross v _) as [x y z]. destruct (Req_EM_T x 0); [|right; intros F; injection F; auto]. destruct (Req_EM_T y 0); [|right; intros F; injection F; auto]. destruct (Req_EM_T z 0); [|right; intros F; injection F; auto]. left. subst. reflexivity. }
  assert (ALT : (forall t, 0 < t < L / 2 -> vcross v (V a b (c + q * t)) <> vzero) \/ (forall t, L / 2 < t < L -> vcross v (V a b (c + q * t)) <> vzero)).
  { destruct (Classical_Prop.classic (exists t, 0 < t < L / 2 /\ vcross v (V a b (c + q * t)) = vzero)) as [[t [T E]]|N].
    - right. intros t' T' E'. exact (parallel_once a b c q v t t' Q S NV ltac:(lra) E E').
    - left. intros t T E. apply N. eauto. }
  destruct ALT as [A|A].
  - apply Rlt_le_trans with (qform a b c q k v (L / 2)).
    + apply (deriv_mono_strict _ (qrate a b c q k v)); [lra|auto|]. intros t T. apply qrate_pos; auto.
    + apply (deriv_mono _ (qrate a b c q k v)); [lra|auto|]. intros t T. apply qrate_nonneg; auto.
  - apply Rle_lt_trans with (qform a b c q k v (L / 2)).
    + apply (deriv_mono _ (qrate a b c q k v)); [lra|auto|]. intros t T. apply qrate_nonneg; auto.
    + apply (deriv_mono_strict _ (qrate a b c q k v)); [lra|auto|]. intros t T. apply qrate_pos; auto.
Qed.
Lemma compliance_nonneg l : loaded l -> 0 <= compliance l.
Proof. intros [_ E]. unfold compliance. destruct (l_elastic l); [|lra]. left. apply Rinv_0_lt_compat. auto. Qed.
Lemma jac_pd l J : wf l -> loaded l -> slanted (l_t0 l) -> 0 < l_len l -> analytical_jacobian l = Ok J -> symmetric J /\ positive_definite J.
Proof.
  intros W LD S LP E. rewrite jac_val in E by auto. injection E as <-. split; [reflexivity|]. intros v V. apply (qform_pos _ _ _ _ _ v (l_len l) (proj1 LD) S (compliance_nonneg l LD) LP). exact V.
Qed.
(** A symmetric positive definite matrix has a positive determinant *)
Lemma pd_det m : symmetric m -> positive_definite m -> 0 < det3 m.
Proof.
  intros SY P. destruct m as [A B C B' D E C' E' F]. unfold symmetric, mt in SY. cbn [m00 m01 m02 m10 m11 m12 m20 m21 m22] in SY. injection SY as H1 H2 H3 H4 H5 H6. subst.
  assert (PA : 0 < A). { specialize (P (V 1 0 0) ltac:(intros F0; injection F0; lra)). unfold dot3, mv, dot3 in P. cbn [vx vy vz m00 m01 m02 m10 m11 m12 m20 m21 m22] in P. lra. }
  assert (P2 : 0 < A * D - B * B).
  { assert (NZ : V (- B) A 0 <> origin) by (intros F0; injection F0; lra). specialize (P _ NZ). unfold dot3, mv, dot3 in P. cbn [vx vy vz m00 m01 m02 m10 m11 m12 m20 m21 m22] in P. assert (0 < A * (A * D - B * B)) by lra. apply Rmult_lt_reg_l with A; lra. }
  assert (NZ : V (B * E - C * D) (C * B - A * E) (A * D - B * B) <> origin) by (intros F0; injection F0; lra). specialize (P _ NZ).
  unfold dot3, mv, dot3, det3 in *. cbn [vx vy vz m00 m01 m02 m10 m11 m12 m20 m21 m22] in *.
  assert (0 < (A * D - B * B) * (A * (D * F - E * E) - B * (B * F - E * C) + C * (B * E - D * C))) by nra. apply Rmult_lt_reg_l with (A * D - B * B); lra.
Qed.
Lemma inverse_ok m : det3 m <> 0 -> exists i, Inverse m = Ok i /\ forall v, mv m (mapply i v) = v.
Proof.
  intros D. unfold Inverse. cbv zeta. destruct (Req_EM_T (det3 m) 0); [contradiction|]. eexists. split; [reflexivity|]. intros [x y z]. unfold det3 in *. destruct m as [A B C D' E F G H K]. cbn [m00 m01 m02 m10 m11 m12 m20 m21 m22] in *.
  apply vec_eq; unfold mv, dot3, mapply; cbn [vx vy vz m00 m01 m02 m10 m11 m12 m20 m21 m22]; field; exact D.
Qed.
