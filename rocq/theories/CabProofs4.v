(** Proofs for the catenary line, 4: uniqueness. *)
From Coq Require Import Reals List Lra Psatz Lia.
From Coquelicot Require Import Coquelicot.
From Verif Require Import GeoModel GeoSpec GeoProofs HydSpec BodyModel SeaModel CabModel CabSpec CabProofs CabProofs2 CabProofs3.
Import ListNotations.
Open Scope R_scope.

(** ** Uniqueness *)
Lemma pos_D' p0 l s : wf l -> loaded l -> slanted (l_t0 l) ->
  derive3 (posf p0 l) s (plus3 (along (GetTension l s NWU)) (scal3 (compliance l) (GetTension l s NWU))).
Proof. intros W LD S. apply pos_D; auto. rewrite tension_val by auto. intros F. injection F as F1 F2 F3. unfold slanted in S. tauto. Qed.
Definition gap (p0 : vec) (l : line) (t t' : vec) (s : R) : R := dot3 (minus3 t t') (minus3 (posf p0 (set_t0 l t) s) (posf p0 (set_t0 l t') s)).
Definition tdot (t t' : vec) (q s : R) := vx t * vx t' + vy t * vy t' + (vz t + q * s) * (vz t' + q * s).
Definition gap_rate (l : line) (t t' : vec) (s : R) : R :=
  let N := Nf (vx t) (vy t) (vz t + l_q l * s) in let N' := Nf (vx t') (vy t') (vz t' + l_q l * s) in
  (N + N') * (1 - tdot t t' (l_q l) s / (N * N')) + compliance l * dot3 (minus3 t t') (minus3 t t').
Lemma D_dot f d e s : derive3 f s d -> is_derive (fun t => dot3 e (f t)) s (dot3 e d).
Proof.
  intros [A [B C]]. unfold dot3. apply (is_derive_plus (fun t => vx e * vx (f t) + vy e * vy (f t)) (fun t => vz e * vz (f t)) s (vx e * vx d + vy e * vy d) (vz e * vz d)).
  - apply (is_derive_plus (fun t => vx e * vx (f t)) (fun t => vy e * vy (f t))); [apply (is_derive_scal (fun t => vx (f t))); exact A|apply (is_derive_scal (fun t => vy (f t))); exact B].
  - apply (is_derive_scal (fun t => vz (f t))). exact C.
Qed.
Lemma D_gap p0 l t t' s : wf l -> loaded l -> slanted t -> slanted t' -> is_derive (gap p0 l t t') s (gap_rate l t t' s).
Proof.
  intros W LD S S'. pose proof (pos_D' p0 (set_t0 l t) s (set_t0_wf _ _ W) (set_t0_loaded _ _ LD) S) as D. pose proof (pos_D' p0 (set_t0 l t') s (set_t0_wf _ _ W) (set_t0_loaded _ _ LD) S') as D'.
  apply (D_dot _ _ (minus3 t t')) in D. apply (D_dot _ _ (minus3 t t')) in D'.
  apply (is_derive_ext (fun s => minus (dot3 (minus3 t t') (posf p0 (set_t0 l t) s)) (dot3 (minus3 t t') (posf p0 (set_t0 l t') s)))).
  { intros x. unfold gap, minus, plus, opp; cbn. unfold dot3, minus3. cbn [vx vy vz]. match goal with |- ?l = ?r => change (@eq R l r) end. ring. }
  pose proof (is_derive_minus (fun s => dot3 (minus3 t t') (posf p0 (set_t0 l t) s)) (fun s => dot3 (minus3 t t') (posf p0 (set_t0 l t') s)) s _ _ D D') as DM. evar_last; [exact DM|]. clear DM. rewrite !tension_val by (apply set_t0_wf; auto). unfold gap_rate, along. cbv zeta. rewrite !len3_Nf.
  change (compliance (set_t0 l t)) with (compliance l). change (compliance (set_t0 l t')) with (compliance l). cbn [set_t0 l_t0 l_q vx vy vz].
  assert (P : 0 < Nf (vx t) (vy t) (vz t + l_q l * s)) by (apply Nf_pos; unfold slanted in S; tauto). assert (P' : 0 < Nf (vx t') (vy t') (vz t' + l_q l * s)) by (apply Nf_pos; unfold slanted in S'; tauto).
  pose proof (Nf_sq (vx t) (vy t) (vz t + l_q l * s)) as Q. pose proof (Nf_sq (vx t') (vy t') (vz t' + l_q l * s)) as Q'.
  unfold minus, plus, opp; cbn. unfold tdot, dot3, plus3, minus3, scal3. cbn [vx vy vz]. set (N := Nf (vx t) _ _) in *. set (N' := Nf (vx t') _ _) in *. clearbody N N'. set (q := l_q l) in *. clearbody q. clear D D' W LD S S'. set (k := compliance l). clearbody k. destruct t as [a b c], t' as [a' b' c']. cbn [vx vy vz] in *.
  match goal with |- ?l = ?r => change (@eq R l r) end.
  apply Rmult_eq_reg_r with (N * N'); [|nra].
  match goal with |- ?l = ?r => assert (E1 : l = (((a - a') * a + (b - b') * b + (c - c') * (c + q * s)) * N' - ((a - a') * a' + (b - b') * b' + (c - c') * (c' + q * s)) * N) + k * ((a - a') * (a - a') + (b - b') * (b - b') + (c - c') * (c - c')) * (N * N')) by (field; split; lra);
   assert (E2 : r = (N + N') * (N * N' - (a * a' + b * b' + (c + q * s) * (c' + q * s))) + k * ((a - a') * (a - a') + (b - b') * (b - b') + (c - c') * (c - c')) * (N * N')) by (field; split; lra) end.
  rewrite E1, E2. f_equal.
  assert (X1 : (a - a') * a + (b - b') * b + (c - c') * (c + q * s) = N * N - (a * a' + b * b' + (c + q * s) * (c' + q * s))) by (rewrite Q; ring).
  assert (X2 : (a - a') * a' + (b - b') * b' + (c - c') * (c' + q * s) = (a * a' + b * b' + (c + q * s) * (c' + q * s)) - N' * N') by (rewrite Q'; ring).
  rewrite X1, X2. ring.
Qed.
Lemma cross_lag t t' q s : Nf (vx t) (vy t) (vz t + q * s) * Nf (vx t) (vy t) (vz t + q * s) * (Nf (vx t') (vy t') (vz t' + q * s) * Nf (vx t') (vy t') (vz t' + q * s)) - tdot t t' q s * tdot t t' q s =
  let c := vcross (vsub t t') (V (vx t) (vy t) (vz t + q * s)) in vdot c c.
Proof. rewrite !Nf_sq. unfold tdot, vcross, vsub, vdot. cbn [vx vy vz]. ring. Qed.
Lemma gap_rate_ge l t t' s : loaded l -> slanted t -> slanted t' -> compliance l * dot3 (minus3 t t') (minus3 t t') <= gap_rate l t t' s /\
  (vcross (vsub t t') (V (vx t) (vy t) (vz t + l_q l * s)) <> vzero -> compliance l * dot3 (minus3 t t') (minus3 t t') < gap_rate l t t' s).
Proof.
  intros LD S S'. unfold gap_rate. cbv zeta. pose proof (cross_lag t t' (l_q l) s) as CL. cbv zeta in CL.
  assert (P : 0 < Nf (vx t) (vy t) (vz t + l_q l * s)) by (apply Nf_pos; unfold slanted in S; tauto). assert (P' : 0 < Nf (vx t') (vy t') (vz t' + l_q l * s)) by (apply Nf_pos; unfold slanted in S'; tauto).
  set (N := Nf (vx t) _ _) in *. set (N' := Nf (vx t') _ _) in *. set (X := vcross _ _) in *. set (d := tdot _ _ _ _) in *. clearbody N N' X d.
  assert (PP : 0 < N * N') by nra. assert (DV : d / (N * N') * (N * N') = d) by (field; split; lra). set (u := d / (N * N')) in *. clearbody u.
  assert (XN : 0 <= vdot X X) by (unfold vdot; nra).
  split.
  - assert (u <= 1). { destruct (Rle_lt_dec u 1); auto. assert (N * N' < d) by nra. nra. } assert (0 <= (N + N') * (1 - u)) by (apply Rmult_le_pos; lra). lra.
  - intros NX. assert (0 < vdot X X). { destruct X as [x y z]. unfold vdot. cbn [vx vy vz]. assert (SQ : forall w, w <> 0 -> 0 < w * w) by (intros; nra). pose proof (Rle_0_sqr x). pose proof (Rle_0_sqr y). pose proof (Rle_0_sqr z). unfold Rsqr in *. destruct (Req_EM_T x 0) as [A|A]; [|apply SQ in A; lra]. destruct (Req_EM_T y 0) as [B|B]; [|apply SQ in B; lra]. destruct (Req_EM_T z 0) as [C|C]; [|apply SQ in C; lra]. exfalso. apply NX. subst. reflexivity. }
    assert (u < 1). { destruct (Rlt_le_dec u 1); auto. assert (N * N' <= d) by nra. nra. } assert (0 < (N + N') * (1 - u)) by (apply Rmult_lt_0_compat; lra). lra.
Qed.
Lemma gap_0 p0 l t t' : gap p0 l t t' 0 = 0.
Proof. unfold gap. rewrite !pos_0. unfold dot3, minus3. cbn [vx vy vz]. ring. Qed.
Lemma gap_growth p0 l t t' L : wf l -> loaded l -> slanted t -> slanted t' -> 0 < L ->
  compliance l * L * dot3 (minus3 t t') (minus3 t t') <= gap p0 l t t' L /\ (t <> t' -> compliance l * L * dot3 (minus3 t t') (minus3 t t') < gap p0 l t t' L).
Proof.
  intros W LD S S' LP. set (K := dot3 (minus3 t t') (minus3 t t')).
  set (f := fun s => gap p0 l t t' s - compliance l * K * s).
  assert (D : forall s, is_derive f s (gap_rate l t t' s - compliance l * K)).
  { intros s. unfold f. evar_last; [apply (is_derive_minus (gap p0 l t t') (fun s => compliance l * K * s)); [apply D_gap; auto|auto_derive; [exact I|reflexivity]]|]. unfold minus, plus, opp; cbn. ring. }
  assert (F0 : f 0 = 0) by (unfold f; rewrite gap_0; ring).
  assert (NN : forall s, 0 <= gap_rate l t t' s - compliance l * K) by (intros s; pose proof (proj1 (gap_rate_ge l t t' s LD S S')); unfold K; lra).
  split.
  - assert (f 0 <= f L) by (apply (deriv_mono f (fun s => gap_rate l t t' s - compliance l * K)); [lra|auto|auto]). unfold f in *. lra.
  - intros NE. assert (NV : vsub t t' <> vzero). { intros F. apply NE. unfold vsub, vzero in F. injection F as F1 F2 F3. apply vec_eq; lra. }
    assert (ALT : (forall s, 0 < s < L / 2 -> vcross (vsub t t') (V (vx t) (vy t) (vz t + l_q l * s)) <> vzero) \/ (forall s, L / 2 < s < L -> vcross (vsub t t') (V (vx t) (vy t) (vz t + l_q l * s)) <> vzero)).
    { destruct (Classical_Prop.classic (exists s, 0 < s < L / 2 /\ vcross (vsub t t') (V (vx t) (vy t) (vz t + l_q l * s)) = vzero)) as [[s [T E]]|N].
      - right. intros s' T' E'. exact (parallel_once _ _ _ _ _ s s' (proj1 LD) S NV ltac:(lra) E E').
      - left. intros s T E. apply N. eauto. }
    assert (f 0 < f L).
    { destruct ALT as [A|A].
      - apply Rlt_le_trans with (f (L / 2)); [apply (deriv_mono_strict f (fun s => gap_rate l t t' s - compliance l * K)); [lra|auto|]|apply (deriv_mono f (fun s => gap_rate l t t' s - compliance l * K)); [lra|auto|auto]].
        intros s Hs. pose proof (proj2 (gap_rate_ge l t t' s LD S S') (A s Hs)). unfold K. lra.
      - apply Rle_lt_trans with (f (L / 2)); [apply (deriv_mono f (fun s => gap_rate l t t' s - compliance l * K)); [lra|auto|auto]|apply (deriv_mono_strict f (fun s => gap_rate l t t' s - compliance l * K)); [lra|auto|]].
        intros s Hs. pose proof (proj2 (gap_rate_ge l t t' s LD S S') (A s Hs)). unfold K. lra. }
    unfold f in *. lra.
Qed.
