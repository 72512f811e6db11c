(** Proofs for the catenary line, 5: moments, lengths, vertical lines. *)
From Coq Require Import Reals List Lra Psatz Lia.
From Coquelicot Require Import Coquelicot.
From Verif Require Import GeoModel GeoSpec GeoProofs HydSpec BodyModel SeaModel CabModel CabSpec CabProofs CabProofs2 CabProofs3 CabProofs4.
Import ListNotations.
Open Scope R_scope.

Ltac req := match goal with |- ?l = ?r => change (@eq R l r) end.
(** ** Moments *)
Lemma is_RInt_D (f df : R -> R) a b : (forall s, is_derive f s (df s)) -> (forall s, continuous df s) -> is_RInt df a b (f b - f a).
Proof. intros D C. apply (is_RInt_derive f df); auto. Qed.
Lemma moment_int p0 l P : wf l -> loaded l -> slanted (l_t0 l) ->
  integral3 (fun s => cross3 (minus3 (posf p0 l s) P) (V 0 0 (- l_q l))) 0 (l_len l)
    (plus3 (cross3 (minus3 p0 P) (GetStartingNodeTension l NWU)) (cross3 (minus3 (posf p0 l (l_len l)) P) (GetEndingNodeTension l NWU))).
Proof.
  intros W LD S. unfold GetStartingNodeTension, GetEndingNodeTension. rewrite !tension_val by auto.
  assert (D : forall s, derive3 (posf p0 l) s (plus3 (along (GetTension l s NWU)) (scal3 (compliance l) (GetTension l s NWU)))) by (intros; apply pos_D'; auto).
  assert (D' : forall s, exists k, derive3 (posf p0 l) s (V (k * vx (l_t0 l)) (k * vy (l_t0 l)) (k * (vz (l_t0 l) + l_q l * s)))).
  { intros s. exists (/ len3 (GetTension l s NWU) + compliance l). specialize (D s). rewrite !tension_val in * by auto. eapply (eq_ind _ (derive3 _ s) D). apply vec_eq; unfold along, plus3, scal3; cbn [vx vy vz]; ring. }
  clear D. pose proof (pos_0 p0 l) as P0. set (p := posf p0 l) in *. clearbody p. destruct (l_t0 l) as [a b c]. cbn [vx vy vz] in *. set (q := l_q l) in *. set (L := l_len l).
  assert (CX : forall s, continuous (fun s => vx (p s)) s) by (intros s; destruct (D' s) as [k [A _]]; apply (ex_derive_continuous (fun s => vx (p s))); eexists; exact A).
  assert (CY : forall s, continuous (fun s => vy (p s)) s) by (intros s; destruct (D' s) as [k [_ [A _]]]; apply (ex_derive_continuous (fun s => vy (p s))); eexists; exact A).
  unfold integral3, cross3, plus3, minus3, vneg. cbn [vx vy vz].
  assert (AFF : forall (f : R -> R) u v s, continuous f s -> continuous (fun s => u * (f s - v)) s).
  { intros f u v s C. apply (continuous_scal_r u (fun s => f s - v)). apply (continuous_minus f (fun _ => v)); [exact C|apply continuous_const]. }
  split; [|split].
  - evar_last; [apply (is_RInt_ext (fun s => (- q) * (vy (p s) - vy P))); [intros; cbn beta; req; ring|]; apply (is_RInt_D (fun s => - ((vy (p s) - vy P) * (c + q * s) - (vz (p s) - vz P) * b)))|].
    + intros s. destruct (D' s) as [k [A [B C]]]. evar_last.
      * apply (is_derive_opp (fun s => (vy (p s) - vy P) * (c + q * s) - (vz (p s) - vz P) * b)). apply (is_derive_minus (fun s => (vy (p s) - vy P) * (c + q * s)) (fun s => (vz (p s) - vz P) * b)).
        -- apply (is_derive_mult (fun s => vy (p s) - vy P) (fun s => c + q * s)); [apply (is_derive_minus (fun s => vy (p s)) (fun _ => vy P)); [exact B|apply @is_derive_const]|auto_derive; [exact I|reflexivity]|intros; apply Rmult_comm].
        -- apply (is_derive_ext (fun s => scal b (minus (vz (p s)) (vz P)))); [intros; unfold scal, minus, plus, opp, mult; cbn; unfold mult; cbn; req; ring|]. apply (is_derive_scal (fun s => minus (vz (p s)) (vz P))). apply (is_derive_minus (fun s => vz (p s)) (fun _ => vz P)); [exact C|apply @is_derive_const].
      * unfold opp, minus, plus, opp, scal, mult, zero; cbn; unfold mult; cbn. req. ring.
    + intros s. apply AFF. apply CY.
    + cbn beta. rewrite P0. fold L. req. ring.
  - evar_last; [apply (is_RInt_ext (fun s => q * (vx (p s) - vx P))); [intros; cbn beta; req; ring|]; apply (is_RInt_D (fun s => - ((vz (p s) - vz P) * a - (vx (p s) - vx P) * (c + q * s))))|].
    + intros s. destruct (D' s) as [k [A [B C]]]. evar_last.
      * apply (is_derive_opp (fun s => (vz (p s) - vz P) * a - (vx (p s) - vx P) * (c + q * s))). apply (is_derive_minus (fun s => (vz (p s) - vz P) * a) (fun s => (vx (p s) - vx P) * (c + q * s))).
        -- apply (is_derive_ext (fun s => scal a (minus (vz (p s)) (vz P)))); [intros; unfold scal, minus, plus, opp, mult; cbn; unfold mult; cbn; req; ring|]. apply (is_derive_scal (fun s => minus (vz (p s)) (vz P))). apply (is_derive_minus (fun s => vz (p s)) (fun _ => vz P)); [exact C|apply @is_derive_const].
        -- apply (is_derive_mult (fun s => vx (p s) - vx P) (fun s => c + q * s)); [apply (is_derive_minus (fun s => vx (p s)) (fun _ => vx P)); [exact A|apply @is_derive_const]|auto_derive; [exact I|reflexivity]|intros; apply Rmult_comm].
      * unfold opp, minus, plus, opp, scal, mult, zero; cbn; unfold mult; cbn. req. ring.
    + intros s. apply AFF. apply CX.
    + cbn beta. rewrite P0. fold L. req. ring.
  - evar_last; [apply (is_RInt_ext (fun s => 0 * (vx (p s) - 0))); [intros; cbn beta; req; ring|]; apply (is_RInt_D (fun s => - ((vx (p s) - vx P) * b - (vy (p s) - vy P) * a)))|].
    + intros s. destruct (D' s) as [k [A [B C]]]. evar_last.
      * apply (is_derive_opp (fun s => (vx (p s) - vx P) * b - (vy (p s) - vy P) * a)). apply (is_derive_minus (fun s => (vx (p s) - vx P) * b) (fun s => (vy (p s) - vy P) * a)).
        -- apply (is_derive_ext (fun s => scal b (minus (vx (p s)) (vx P)))); [intros; unfold scal, minus, plus, opp, mult; cbn; unfold mult; cbn; req; ring|]. apply (is_derive_scal (fun s => minus (vx (p s)) (vx P))). apply (is_derive_minus (fun s => vx (p s)) (fun _ => vx P)); [exact A|apply @is_derive_const].
        -- apply (is_derive_ext (fun s => scal a (minus (vy (p s)) (vy P)))); [intros; unfold scal, minus, plus, opp, mult; cbn; unfold mult; cbn; req; ring|]. apply (is_derive_scal (fun s => minus (vy (p s)) (vy P))). apply (is_derive_minus (fun s => vy (p s)) (fun _ => vy P)); [exact B|apply @is_derive_const].
      * unfold opp, minus, plus, opp, scal, mult, zero; cbn; unfold mult; cbn. req. ring.
    + intros s. apply AFF. apply CX.
    + cbn beta. rewrite P0. fold L. req. ring.
Qed.

(** ** Lengths *)
Lemma len3_sq v : len3 v * len3 v = dot3 v v.
Proof. unfold len3. apply sqrt_sqrt. unfold dot3. nra. Qed.
Lemma len3_nonneg v : 0 <= len3 v. Proof. apply sqrt_pos. Qed.
Lemma cauchy u v : dot3 u v <= len3 u * len3 v.
Proof.
  pose proof (len3_sq u). pose proof (len3_sq v). pose proof (len3_nonneg u). pose proof (len3_nonneg v).
  assert (C : dot3 u v * dot3 u v <= dot3 u u * dot3 v v).
  { unfold dot3. pose proof (Rle_0_sqr (vx u * vy v - vy u * vx v)). pose proof (Rle_0_sqr (vy u * vz v - vz u * vy v)). pose proof (Rle_0_sqr (vz u * vx v - vx u * vz v)). unfold Rsqr in *. lra. }
  destruct (Rle_lt_dec (dot3 u v) (len3 u * len3 v)); auto. assert (0 <= len3 u * len3 v) by nra. nra.
Qed.
Lemma len3_scal k v : len3 (scal3 k v) = Rabs k * len3 v.
Proof. unfold len3. replace (dot3 (scal3 k v) (scal3 k v)) with (k * k * dot3 v v) by (unfold dot3, scal3; cbn [vx vy vz]; ring). rewrite sqrt_mult_alt by nra. f_equal. rewrite <- (sqrt_Rsqr_abs k). reflexivity. Qed.
(** Reaching the length of v with a unit vector *)
Lemma by_unit v m : (forall e, len3 e = 1 -> dot3 e v <= m) -> 0 <= m -> len3 v <= m.
Proof.
  intros H M. destruct (Req_EM_T (len3 v) 0) as [E|E]; [lra|]. pose proof (len3_nonneg v).
  specialize (H (scal3 (/ len3 v) v)). rewrite len3_scal in H. rewrite Rabs_pos_eq in H by (left; apply Rinv_0_lt_compat; lra). specialize (H ltac:(field; lra)).
  assert (EQ : dot3 (scal3 (/ len3 v) v) v = len3 v). { apply Rmult_eq_reg_r with (len3 v); [|exact E]. rewrite len3_sq. unfold dot3, scal3. cbn [vx vy vz]. field. exact E. }
  rewrite EQ in H. exact H.
Qed.
Lemma triangle u v : len3 (plus3 u v) <= len3 u + len3 v.
Proof.
  apply by_unit; [|pose proof (len3_nonneg u); pose proof (len3_nonneg v); lra]. intros e E. pose proof (cauchy e u). pose proof (cauchy e v). rewrite E in *.
  replace (dot3 e (plus3 u v)) with (dot3 e u + dot3 e v) by (unfold dot3, plus3; cbn [vx vy vz]; ring). lra.
Qed.
Definition stretch (l : line) (s : R) : R := 1 + compliance l * len3 (GetTension l s NWU).
Lemma stretch_cont l s : wf l -> slanted (l_t0 l) -> continuous (stretch l) s.
Proof.
  intros W S. apply (continuous_ext (fun s => 1 + compliance l * Nf (vx (l_t0 l)) (vy (l_t0 l)) (vz (l_t0 l) + l_q l * s))).
  { intros x. unfold stretch. rewrite tension_val by auto. rewrite len3_Nf. reflexivity. }
  apply (continuous_plus (fun _ => 1) (fun s => compliance l * Nf (vx (l_t0 l)) (vy (l_t0 l)) (vz (l_t0 l) + l_q l * s))); [apply continuous_const|].
  apply (continuous_scal_r (compliance l) (fun s => Nf (vx (l_t0 l)) (vy (l_t0 l)) (vz (l_t0 l) + l_q l * s))). apply (ex_derive_continuous (fun s => Nf (vx (l_t0 l)) (vy (l_t0 l)) (vz (l_t0 l) + l_q l * s))). eexists. apply D_N. apply Rgt_not_eq, Nf_pos. unfold slanted in S. tauto.
Qed.
Lemma stretch_RInt l a b : wf l -> slanted (l_t0 l) -> ex_RInt (stretch l) a b.
Proof. intros W S. apply (ex_RInt_continuous (stretch l)). intros. apply stretch_cont; auto. Qed.
Lemma D_arc l a s : wf l -> slanted (l_t0 l) -> is_derive (fun s => RInt (stretch l) a s) s (stretch l s).
Proof.
  intros W S. apply (is_derive_RInt (stretch l) (fun s => RInt (stretch l) a s) a s); [|apply stretch_cont; auto]. exists (mkposreal 1 Rlt_0_1). intros y _. apply (RInt_correct (stretch l)). apply stretch_RInt; auto.
Qed.
(** The tangent seen along a direction *)
Lemma tangent_dot l s e : wf l -> slanted (l_t0 l) -> dot3 e (plus3 (along (GetTension l s NWU)) (scal3 (compliance l) (GetTension l s NWU))) = dot3 e (along (GetTension l s NWU)) * stretch l s.
Proof.
  intros W S. unfold stretch, along. assert (N : len3 (GetTension l s NWU) <> 0). { rewrite tension_val by auto. rewrite len3_Nf. apply Rgt_not_eq, Nf_pos. unfold slanted in S. cbn. tauto. }
  set (T := GetTension l s NWU) in *. clearbody T. set (n := len3 T) in *. clearbody n. unfold dot3, plus3, scal3. cbn [vx vy vz]. field. exact N.
Qed.
Lemma stretch_pos l s : loaded l -> 1 <= stretch l s.
Proof. intros LD. unfold stretch. pose proof (compliance_nonneg l LD). pose proof (len3_nonneg (GetTension l s NWU)). nra. Qed.
Lemma along_unit v : v <> origin -> len3 (along v) = 1.
Proof. intros H. apply N_vec in H. unfold along. rewrite len3_scal. pose proof (len3_nonneg v). rewrite (len3_Nf v) in *. rewrite Rabs_pos_eq; [field; exact H|]. left. apply Rinv_0_lt_compat. lra. Qed.
Lemma tension_nz l s : wf l -> slanted (l_t0 l) -> GetTension l s NWU <> origin.
Proof. intros W S. rewrite tension_val by auto. intros F. injection F as F1 F2 F3. unfold slanted in S. tauto. Qed.
Lemma minus3_dot e u v : dot3 e (minus3 u v) = dot3 e u - dot3 e v.
Proof. unfold dot3, minus3. cbn [vx vy vz]. ring. Qed.
Lemma seg_upper p0 l a b : wf l -> loaded l -> slanted (l_t0 l) -> a <= b -> len3 (minus3 (posf p0 l b) (posf p0 l a)) <= RInt (stretch l) a b.
Proof.
  intros W LD S AB. apply by_unit.
  - intros e E. rewrite minus3_dot.
    assert (M : dot3 e (posf p0 l b) - dot3 e (posf p0 l a) <= RInt (stretch l) a b - RInt (stretch l) a a).
    { assert (H : RInt (stretch l) a a - dot3 e (posf p0 l a) <= RInt (stretch l) a b - dot3 e (posf p0 l b)); [|lra].
      apply (deriv_mono (fun s => RInt (stretch l) a s - dot3 e (posf p0 l s)) (fun s => stretch l s - dot3 e (along (GetTension l s NWU)) * stretch l s) a b AB).
      - intros t _. apply (is_derive_minus (fun s => RInt (stretch l) a s) (fun s => dot3 e (posf p0 l s))); [apply D_arc; auto|]. rewrite <- tangent_dot by auto. apply (D_dot (posf p0 l)). apply pos_D'; auto.
      - intros t _. pose proof (cauchy e (along (GetTension l t NWU))) as C. rewrite E, along_unit in C by (apply tension_nz; auto). pose proof (stretch_pos l t LD). nra. }
    rewrite RInt_point in M. change (@zero (CompleteNormedModule.AbelianGroup R_AbsRing R_CompleteNormedModule)) with 0 in M. lra.
  - apply (RInt_ge_0 (stretch l)); [exact AB|apply stretch_RInt; auto|]. intros x _. pose proof (stretch_pos l x LD). lra.
Qed.
Lemma cos_lower l a t d : wf l -> slanted (l_t0 l) -> 0 <= t - a <= d ->
  1 - (l_q l * d) * (l_q l * d) / (2 * (vx (l_t0 l) * vx (l_t0 l) + vy (l_t0 l) * vy (l_t0 l))) <= dot3 (along (GetTension l a NWU)) (along (GetTension l t NWU)).
Proof.
  intros W S TD. unfold along. rewrite !tension_val by auto. rewrite !len3_Nf. cbn [vx vy vz]. pose proof (slant_sq _ _ S) as H2. destruct (l_t0 l) as [x y z]. cbn [vx vy vz] in *. set (q := l_q l) in *. clearbody q.
  assert (P : 0 < Nf x y (z + q * a)) by (apply Nf_pos; unfold slanted in S; cbn in S; tauto). assert (P' : 0 < Nf x y (z + q * t)) by (apply Nf_pos; unfold slanted in S; cbn in S; tauto).
  pose proof (Nf_sq x y (z + q * a)) as Q1. pose proof (Nf_sq x y (z + q * t)) as Q2. set (N := Nf x y (z + q * a)) in *. set (N' := Nf x y (z + q * t)) in *. clearbody N N'.
  unfold dot3, scal3. cbn [vx vy vz]. set (h := x * x + y * y) in *.
  replace (/ N * x * (/ N' * x) + / N * y * (/ N' * y) + / N * (z + q * a) * (/ N' * (z + q * t))) with ((h + (z + q * a) * (z + q * t)) / (N * N')) by (unfold h; field; split; lra).
  assert (HN : h <= N * N').
  { assert (h * h <= (N * N') * (N * N')). { replace ((N * N') * (N * N')) with ((N * N) * (N' * N')) by ring. rewrite Q1, Q2. fold h. pose proof (Rle_0_sqr (z + q * a)). pose proof (Rle_0_sqr (z + q * t)). unfold Rsqr in *. nra. } assert (0 < N * N') by nra. nra. }
  assert (QD : (q * (t - a)) * (q * (t - a)) <= (q * d) * (q * d)). { replace ((q * (t - a)) * (q * (t - a))) with (q * q * ((t - a) * (t - a))) by ring. replace ((q * d) * (q * d)) with (q * q * (d * d)) by ring. apply Rmult_le_compat_l; [nra|]. nra. }
  assert (PP : 0 < N * N') by nra.
  assert (E : N * N' - (h + (z + q * a) * (z + q * t)) <= (q * d) * (q * d) / 2).
  { assert (2 * (N * N') <= N * N + N' * N') by (pose proof (Rle_0_sqr (N - N')); unfold Rsqr in *; lra). rewrite Q1, Q2 in *. fold h in H. lra. }
  apply Rmult_le_reg_r with (N * N'); [exact PP|]. replace ((h + (z + q * a) * (z + q * t)) / (N * N') * (N * N')) with (h + (z + q * a) * (z + q * t)) by (field; split; lra).
  assert (G : (q * d) * (q * d) / 2 <= (q * d) * (q * d) / (2 * h) * (N * N')).
  { replace ((q * d) * (q * d) / (2 * h) * (N * N')) with ((q * d) * (q * d) / 2 * ((N * N') / h)) by (field; lra). assert (1 <= N * N' / h). { apply Rmult_le_reg_r with h; [lra|]. unfold Rdiv. rewrite Rmult_assoc, Rinv_l by lra. lra. } assert (0 <= (q * d) * (q * d) / 2) by nra. nra. }
  lra.
Qed.
Lemma seg_lower p0 l a b d : wf l -> loaded l -> slanted (l_t0 l) -> a <= b -> b - a <= d ->
  (1 - (l_q l * d) * (l_q l * d) / (2 * (vx (l_t0 l) * vx (l_t0 l) + vy (l_t0 l) * vy (l_t0 l)))) * RInt (stretch l) a b <= len3 (minus3 (posf p0 l b) (posf p0 l a)).
Proof.
  intros W LD S AB BD. set (k := 1 - _). set (e := along (GetTension l a NWU)).
  assert (U : len3 e = 1) by (apply along_unit; apply tension_nz; auto).
  apply Rle_trans with (dot3 e (minus3 (posf p0 l b) (posf p0 l a))); [|pose proof (cauchy e (minus3 (posf p0 l b) (posf p0 l a))) as C; rewrite U in C; lra].
  rewrite minus3_dot.
  assert (H : dot3 e (posf p0 l a) - k * RInt (stretch l) a a <= dot3 e (posf p0 l b) - k * RInt (stretch l) a b).
  { apply (deriv_mono (fun s => dot3 e (posf p0 l s) - k * RInt (stretch l) a s) (fun s => dot3 e (along (GetTension l s NWU)) * stretch l s - k * stretch l s) a b AB).
    - intros t _. apply (is_derive_minus (fun s => dot3 e (posf p0 l s)) (fun s => k * RInt (stretch l) a s)); [rewrite <- tangent_dot by auto; apply (D_dot (posf p0 l)); apply pos_D'; auto|]. apply (is_derive_scal (fun s => RInt (stretch l) a s)). apply D_arc; auto.
    - intros t T. pose proof (cos_lower l a t d W S ltac:(lra)) as C. fold e k in C. pose proof (stretch_pos l t LD). nra. }
  rewrite RInt_point in H. change (@zero (CompleteNormedModule.AbelianGroup R_AbsRing R_CompleteNormedModule)) with 0 in H. lra.
Qed.
(** The polygon *)
Lemma poly_bounds (pos : R -> vec) (A : R -> R -> R) (k ds : R) (posr : nat -> res vec) :
  (forall i, posr i = Ok (pos (INR i * ds))) -> 0 <= ds ->
  (forall a b c, A a b + A b c = A a c) ->
  (forall a, len3 (minus3 (pos (a + ds)) (pos a)) <= A a (a + ds) /\ k * A a (a + ds) <= len3 (minus3 (pos (a + ds)) (pos a))) ->
  forall n i cl, exists r, polyline posr (S i) n (pos (INR i * ds)) cl = Ok r /\ r <= cl + A (INR i * ds) (INR (i + n) * ds) /\ cl + k * A (INR i * ds) (INR (i + n) * ds) <= r /\
     len3 (minus3 (pos (INR (i + n) * ds)) (pos (INR i * ds))) <= r - cl.
Proof.
  intros PR DS CH SG. induction n as [|n IH]; intros i cl; cbn [polyline].
  - exists cl. rewrite Nat.add_0_r. assert (Z : A (INR i * ds) (INR i * ds) = 0) by (pose proof (CH (INR i * ds) (INR i * ds) (INR i * ds)); lra). rewrite Z. repeat split; try lra.
    unfold len3. replace (dot3 _ _) with 0 by (unfold dot3, minus3; cbn [vx vy vz]; ring). rewrite sqrt_0. lra.
  - rewrite PR. cbn [rbind]. destruct (IH (S i) (cl + vnorm (vsub (pos (INR (S i) * ds)) (pos (INR i * ds))))) as [r [E [U [D T]]]]. exists r. split; [exact E|].
    replace (i + S n)%nat with (S i + n)%nat by lia. replace (INR (S i) * ds) with (INR i * ds + ds) in * by (rewrite S_INR; ring).
    change (vnorm (vsub (pos (INR i * ds + ds)) (pos (INR i * ds)))) with (len3 (minus3 (pos (INR i * ds + ds)) (pos (INR i * ds)))) in *.
    destruct (SG (INR i * ds)) as [S1 S2]. pose proof (CH (INR i * ds) (INR i * ds + ds) (INR (S i + n) * ds)) as C. rewrite <- C.
    split; [lra|]. split; [lra|].
    pose proof (triangle (minus3 (pos (INR (S i + n) * ds)) (pos (INR i * ds + ds))) (minus3 (pos (INR i * ds + ds)) (pos (INR i * ds)))) as TR.
    replace (plus3 _ _) with (minus3 (pos (INR (S i + n) * ds)) (pos (INR i * ds))) in TR by (apply vec_eq; unfold plus3, minus3; cbn [vx vy vz]; ring). lra.
Qed.
Lemma poly_step f i n prev cl : polyline f i (S n) prev cl = rbind (f i) (fun p => polyline f (S i) n p (cl + vnorm (vsub p prev))).
Proof. reflexivity. Qed.
Lemma strained_bounds p0 l : wf l -> loaded l -> slanted (l_t0 l) -> 0 <= l_len l -> exists r, GetStrainedLength p0 l = Ok r /\
  len3 (minus3 (posf p0 l (l_len l)) p0) <= r <= RInt (stretch l) 0 (l_len l) /\
  (1 - (l_q l * (l_len l / 999)) * (l_q l * (l_len l / 999)) / (2 * (vx (l_t0 l) * vx (l_t0 l) + vy (l_t0 l) * vy (l_t0 l)))) * RInt (stretch l) 0 (l_len l) <= r.
Proof.
  intros W LD S LP. unfold GetStrainedLength. cbv zeta. rewrite pos_val by auto. cbn [rbind convert]. set (ds := l_len l / 999).
  assert (DS : 0 <= ds) by (unfold ds; lra). set (k := 1 - _).
  assert (N1000 : exists n, n = 999%nat) by eauto. destruct N1000 as [n N]. replace 1000%nat with (Datatypes.S n) by (rewrite N; reflexivity). rewrite poly_step. rewrite pos_val by auto. cbn [rbind convert]. replace (INR 0 * ds) with 0 by (cbn; ring).
  replace (0 + vnorm (vsub (posf p0 l 0) (posf p0 l 0))) with 0 by (rewrite vnorm_Nf; unfold vsub, Nf; cbn [vx vy vz]; replace (_ + _ + _) with 0 by ring; rewrite sqrt_0; ring).
  destruct (poly_bounds (posf p0 l) (fun a b => RInt (stretch l) a b) k ds (fun i => GetNodePositionInWorld p0 l (INR i * ds) NWU)) with (n := n) (i := 0%nat) (cl := 0) as [r [E [U [D T]]]].
  - intros i. rewrite pos_val by auto. reflexivity.
  - exact DS.
  - intros a b c. apply (RInt_Chasles (stretch l)); apply stretch_RInt; auto.
  - intros a. split; [apply seg_upper; auto; lra|apply seg_lower; auto; lra].
  - replace (INR 0 * ds) with 0 in * by (cbn; ring). exists r. split; [exact E|].
    assert (LE : INR (0 + n) * ds = l_len l). { unfold ds. rewrite N. rewrite INR_IZR_INZ. replace (Z.of_nat (0 + 999)) with 999%Z by reflexivity. field. }
    rewrite LE in *. rewrite pos_0 in T. lra.
Qed.
