(** Proofs for the spring-damping and mean-motion frames *)
From Coq Require Import Reals List Lra Lia Psatz.
From Verif Require Import GeoModel GeoSpec BodyModel BodySpec GeoProofs GeoProofs2 GeoProofs3 GeoProofs4 BodyProofs BodyProofs2 BodyProofs3 SigModel HydModel EqfModel EqfSpec EqfProofs.
Import ListNotations.
Open Scope R_scope.

Lemma shows_heading n s : shows n s -> - PI < s_heading s <= PI -> a_psi (Rot_GetCardan_RADIANS (frot (NGetFrameInWorld n)) NWU) = s_heading s.
Proof.
  intros (E & _ & _ & U & phi & theta & T & H) B.
  assert (Q : forall x, qrotate (frot (NGetFrameInWorld n)) x = mv (attitude phi theta (s_heading s)) x).
  { intros x. specialize (H x). change (GetPointPositionInParent (NGetFrameInWorld n) x NWU) with (pmap (NGetFrameInWorld n) x) in H. rewrite pmap_eq in H.
    unfold NGetPositionInWorld, GetPosition, swap_if in E; cbn [IsNED] in E. rewrite E in H. apply plus_cancel in H. exact H. }
  destruct (attitude_heading _ phi theta (s_heading s) U Q T) as (C & S0 & R0 & _). apply cossin_eq; auto.
Qed.
Lemma stands_psi f P psi : stands f P psi -> - PI < psi <= PI -> a_psi (Rot_GetCardan_RADIANS (frot f) NWU) = psi.
Proof. intros H B. destruct (stands_cardan _ _ _ H) as (C & S0 & R0). apply cossin_eq; auto. Qed.

Lemma sd_step s n si t P psi : stands (ef_frame (sd_base s)) P psi -> shows n si -> - PI < psi <= PI -> - PI < s_heading si <= PI ->
  FLT_EPSILON <= Rabs (t - sd_prev s) ->
  let v := ef_vel (sd_base s) in let w := ef_w (sd_base s) in let h := t - sd_prev s in
  let v' := plus3 v (scal3 h (flat (plus3 (scal3 (sd_k s) (minus3 (s_pos si) P)) (scal3 (sd_c s) (minus3 (s_vel si) v))))) in
  let w' := w + h * (sd_k s * (s_heading si - psi) + sd_c s * (s_wz si - w)) in
  let s' := SD_Compute s n t in
  stands (ef_frame (sd_base s')) (plus3 P (scal3 h v')) (psi + h * w') /\ ef_vel (sd_base s') = v' /\ ef_w (sd_base s') = w' /\
  sd_k s' = sd_k s /\ sd_c s' = sd_c s /\ sd_prev s' = t.
Proof.
  intros S0 SH B1 B2 D. cbv zeta. unfold SD_Compute. destruct (Rlt_dec _ _) as [K|_]; [lra|]. cbv zeta. cbn [ef_frame ef_vel ef_w sd_base sd_k sd_c sd_prev].
  rewrite (shows_heading n si SH B2), (stands_psi _ _ _ S0 B1), (stands_pos _ _ _ S0). destruct SH as (E1 & E2 & E3 & _). rewrite E1, E2, E3.
  set (h := t - sd_prev s).
  assert (EV : vadd (ef_vel (sd_base s)) (vscale h (V (vx (vadd (vscale (sd_k s) (vsub (s_pos si) P)) (vscale (sd_c s) (vsub (s_vel si) (ef_vel (sd_base s))))))
       (vy (vadd (vscale (sd_k s) (vsub (s_pos si) P)) (vscale (sd_c s) (vsub (s_vel si) (ef_vel (sd_base s)))))) 0)) =
     plus3 (ef_vel (sd_base s)) (scal3 h (flat (plus3 (scal3 (sd_k s) (minus3 (s_pos si) P)) (scal3 (sd_c s) (minus3 (s_vel si) (ef_vel (sd_base s)))))))).
  { reflexivity. }
  assert (EW : ef_w (sd_base s) + ((s_heading si - psi) * sd_k s + (s_wz si - ef_w (sd_base s)) * sd_c s) * h =
               ef_w (sd_base s) + h * (sd_k s * (s_heading si - psi) + sd_c s * (s_wz si - ef_w (sd_base s)))) by ring.
  rewrite EV, EW. set (v' := plus3 (ef_vel (sd_base s)) _). set (w' := ef_w (sd_base s) + _). split; [|auto 6].
  rewrite (Rmult_comm h w').
  apply (stands_rot (SetPosition (ef_frame (sd_base s)) (vadd P (vscale h v')) NWU) (plus3 P (scal3 h v')) psi (w' * h)).
  apply (stands_moved _ _ _ _ S0).
Qed.

(** ** The damped oscillator *)
Definition energy (k c h : R) (s : R * R) : R := k * fst s ^ 2 + (c - h * k) * fst s * snd s + (1 - c * h) * snd s ^ 2.
Lemma energy_step k c h s : energy k c h (damped_step k c h s) = (1 - c * h) * energy k c h s.
Proof. destruct s as [y v]. unfold energy, damped_step; cbn [fst snd]. ring. Qed.
Lemma energy_run k c h n s : energy k c h (damped k c h n s) = (1 - c * h) ^ n * energy k c h s.
Proof. induction n as [|n IH]; [cbn; ring|]. cbn [damped]. rewrite energy_step, IH. cbn [pow]. ring. Qed.
(** k and c of a cut-off time and a damping ratio *)
Lemma stable_facts T z h : 0 < T -> 0 < z -> 0 < h -> z + PI * h / T < 1 ->
  let w0 := 2 * PI / T in let k := w0 * w0 in let c := 2 * z * w0 in
  0 < 1 - c * h < 1 /\ exists kap, 0 < kap /\ forall s, kap * fst s ^ 2 <= energy k c h s.
Proof.
  intros HT Hz Hh HS. cbv zeta. pose proof PI_RGT_0 as HP. set (w0 := 2 * PI / T). assert (W : 0 < w0) by (unfold w0; apply Rdiv_lt_0_compat; lra).
  assert (E : PI * h / T = w0 * h / 2) by (unfold w0; field; lra). rewrite E in HS. set (a := w0 * h) in *. assert (A : 0 < a) by (unfold a; apply Rmult_lt_0_compat; lra).
  assert (Za : 2 * z * w0 * h = 2 * (z * a)) by (unfold a; ring). assert (ZA : 0 < z * a) by (apply Rmult_lt_0_compat; lra).
  assert (ZA2 : z * a < / 2). { assert (0 <= (z - a / 2) ^ 2) by apply pow2_ge_0. nra. }
  rewrite Za. split; [split; lra|]. set (D := 1 - 2 * (z * a)). assert (HD : 0 < D) by (unfold D; lra).
  exists (w0 * w0 * (1 - (z + a / 2) ^ 2) / D).
  assert (N : 0 < 1 - (z + a / 2) ^ 2) by nra. split. { apply Rdiv_lt_0_compat; [|exact HD]. apply Rmult_lt_0_compat; [nra|exact N]. }
  intros [y v]. unfold energy; cbn [fst snd]. rewrite Za. fold D.
  assert (EQ : w0 * w0 * y ^ 2 + (2 * z * w0 - h * (w0 * w0)) * y * v + D * v ^ 2 - w0 * w0 * (1 - (z + a / 2) ^ 2) / D * y ^ 2 =
     D * (v + (2 * z * w0 - h * (w0 * w0)) * y / (2 * D)) ^ 2).
  { replace (h * (w0 * w0)) with (w0 * a) by (unfold a; ring). field_simplify; [|lra|lra]. unfold D. field. unfold D in HD. lra. }
  assert (P2 : 0 <= D * (v + (2 * z * w0 - h * (w0 * w0)) * y / (2 * D)) ^ 2) by (apply Rmult_le_pos; [lra|apply pow2_ge_0]). lra.
Qed.
Lemma damped_small T z h : 0 < T -> 0 < z -> 0 < h -> z + PI * h / T < 1 ->
  let w0 := 2 * PI / T in let k := w0 * w0 in let c := 2 * z * w0 in
  forall s eps, 0 < eps -> exists N, forall n, (N <= n)%nat -> Rabs (fst (damped k c h n s)) < eps.
Proof.
  intros HT Hz Hh HS. cbv zeta. destruct (stable_facts T z h HT Hz Hh HS) as (Q & kap & KP & KB). set (w0 := 2 * PI / T) in *. set (q := 1 - 2 * z * w0 * h) in *.
  intros s eps HE. set (E0 := energy (w0 * w0) (2 * z * w0) h s) in *.
  assert (B : 0 < kap * eps ^ 2 / (Rabs E0 + 1)). { apply Rdiv_lt_0_compat; [|pose proof (Rabs_pos E0); lra]. apply Rmult_lt_0_compat; [exact KP|]. apply pow_lt, HE. }
  assert (AQ : Rabs q < 1) by (rewrite Rabs_pos_eq; lra).
  destruct (pow_lt_1_zero q AQ _ B) as [N HN]. exists N. intros n Hn. specialize (HN n Hn).
  pose proof (KB (damped (w0 * w0) (2 * z * w0) h n s)) as K. rewrite energy_run in K. fold q E0 in K.
  assert (PQ : 0 < q ^ n) by (apply pow_lt; lra). rewrite Rabs_pos_eq in HN by lra.
  pose proof (Rle_abs E0) as AE. pose proof (Rabs_pos E0) as AE2. set (y := fst (damped (w0 * w0) (2 * z * w0) h n s)) in *.
  assert (L : q ^ n * (Rabs E0 + 1) < kap * eps ^ 2). { apply (Rmult_lt_compat_r (Rabs E0 + 1)) in HN; [|lra]. unfold Rdiv in HN. rewrite Rmult_assoc, Rinv_l, Rmult_1_r in HN by lra. exact HN. }
  assert (L2 : kap * y ^ 2 < kap * eps ^ 2) by nra. apply Rmult_lt_reg_l in L2; [|exact KP].
  rewrite <- (Rabs_pos_eq eps) by lra. apply Rsqr_lt_abs_0. unfold Rsqr. lra.
Qed.

(** ** The frame near a body at rest *)
Lemma heading_range k c h m y w beta kap : 0 < kap -> 0 < 1 - c * h < 1 -> (forall s, kap * fst s ^ 2 <= energy k c h s) ->
  - PI < beta < PI -> energy k c h (y, w) < kap * (PI - Rabs beta) ^ 2 -> - PI < beta + fst (damped k c h m (y, w)) <= PI.
Proof.
  intros KP Q KB B E. pose proof (KB (damped k c h m (y, w))) as K. rewrite energy_run in K. pose proof (KB (y, w)) as K0.
  assert (P0 : 0 <= energy k c h (y, w)). { pose proof (pow2_ge_0 (fst (y, w))). nra. }
  assert (PQ : (1 - c * h) ^ m <= 1). { pose proof (pow_incr (1 - c * h) 1 m ltac:(lra)) as PI1. rewrite pow1 in PI1. exact PI1. }
  set (z := fst (damped k c h m (y, w))) in *. assert (L : kap * z ^ 2 < kap * (PI - Rabs beta) ^ 2) by nra. apply Rmult_lt_reg_l in L; [|exact KP].
  assert (AB : 0 < PI - Rabs beta). { assert (Rabs beta < PI) by (apply Rabs_def1; lra). lra. }
  assert (AZ : Rabs z < PI - Rabs beta). { rewrite <- (Rabs_pos_eq (PI - Rabs beta)) by lra. apply Rsqr_lt_abs_0. unfold Rsqr. lra. }
  apply Rabs_def2 in AZ. destruct AZ as [Z1 Z2]. revert Z1 Z2 AB. unfold Rabs. destruct (Rcase_abs beta); lra.
Qed.
Definition coord (g : vec -> R) := forall a b k, g (plus3 a (scal3 k b)) = g a + k * g b.
Lemma sd_rest s n si P psi h : stands (ef_frame (sd_base s)) P psi -> shows n si -> s_vel si = origin -> s_wz si = 0 -> - PI < s_heading si < PI -> sd_prev s = 0 ->
  FLT_EPSILON <= h -> 
  (forall m, - PI < s_heading si + fst (damped (sd_k s) (sd_c s) h m (psi - s_heading si, ef_w (sd_base s))) <= PI) ->
  forall m, let s' := sd_run s n h m in
  let X := damped (sd_k s) (sd_c s) h m (vx P - vx (s_pos si), vx (ef_vel (sd_base s))) in
  let Y := damped (sd_k s) (sd_c s) h m (vy P - vy (s_pos si), vy (ef_vel (sd_base s))) in
  let A := damped (sd_k s) (sd_c s) h m (psi - s_heading si, ef_w (sd_base s)) in
  stands (ef_frame (sd_base s')) (V (vx (s_pos si) + fst X) (vy (s_pos si) + fst Y) (vz P + INR m * h * vz (ef_vel (sd_base s)))) (s_heading si + fst A) /\
  ef_vel (sd_base s') = V (snd X) (snd Y) (vz (ef_vel (sd_base s))) /\ ef_w (sd_base s') = snd A /\
  sd_k s' = sd_k s /\ sd_c s' = sd_c s /\ sd_prev s' = INR m * h.
Proof.
  intros S0 SH V0 W0 B P0 Hh RG m. assert (EP : 0 < FLT_EPSILON) by (unfold FLT_EPSILON; lra). induction m as [|m IH]; cbv zeta.
  - cbn [sd_run damped fst snd INR]. split; [|split; [|split; [|split; [|split]]]]; try reflexivity; try (rewrite P0; ring).
    + replace (V (vx (s_pos si) + (vx P - vx (s_pos si))) (vy (s_pos si) + (vy P - vy (s_pos si))) (vz P + 0 * h * vz (ef_vel (sd_base s)))) with P by (apply vec_eq; cbn [vx vy vz]; ring).
      replace (s_heading si + (psi - s_heading si)) with psi by ring. exact S0.
    + apply vec_eq; reflexivity.
  - cbv zeta in IH. destruct IH as (I1 & I2 & I3 & I4 & I5 & I6). cbn [sd_run].
    assert (DT : INR (S m) * h - sd_prev (sd_run s n h m) = h) by (rewrite I6, S_INR; ring).
    assert (DE : FLT_EPSILON <= Rabs (INR (S m) * h - sd_prev (sd_run s n h m))) by (rewrite DT, Rabs_pos_eq; lra).
    assert (B2 : - PI < s_heading si <= PI) by lra.
    destruct (sd_step _ n si _ _ _ I1 SH (RG m) B2 DE) as (J1 & J2 & J3 & J4 & J5 & J6). rewrite DT in J1, J2, J3. rewrite ?I4, ?I5, ?I2, ?I3, ?V0, ?W0 in J1. rewrite ?I4, ?I5, ?I2, ?I3, ?V0, ?W0 in J2. rewrite ?I4, ?I5, ?I2, ?I3, ?V0, ?W0 in J3.
    cbn [damped]. set (X := damped (sd_k s) (sd_c s) h m (vx P - vx (s_pos si), vx (ef_vel (sd_base s)))) in *. set (Y := damped (sd_k s) (sd_c s) h m (vy P - vy (s_pos si), vy (ef_vel (sd_base s)))) in *.
    set (A := damped (sd_k s) (sd_c s) h m (psi - s_heading si, ef_w (sd_base s))) in *. 
    assert (EV : forall z, plus3 (V (snd X) (snd Y) z) (scal3 h (flat (plus3 (scal3 (sd_k s) (minus3 (s_pos si) (V (vx (s_pos si) + fst X) (vy (s_pos si) + fst Y) (vz P + INR m * h * vz (ef_vel (sd_base s)))))) (scal3 (sd_c s) (minus3 origin (V (snd X) (snd Y) z)))))) =
        V (snd (damped_step (sd_k s) (sd_c s) h X)) (snd (damped_step (sd_k s) (sd_c s) h Y)) z).
    { intros z. unfold damped_step; cbn [fst snd]. apply vec_eq; unfold flat, plus3, scal3, minus3, origin; cbn [vx vy vz]; ring. }
    rewrite EV in J1, J2.
    assert (EW : snd A + h * (sd_k s * (s_heading si - (s_heading si + fst A)) + sd_c s * (0 - snd A)) = snd (damped_step (sd_k s) (sd_c s) h A)) by (unfold damped_step; cbn [snd]; ring).
    rewrite EW in J1, J3. split; [|rewrite J2, J3, J4, J5, J6, I4, I5; auto 8].
    replace (s_heading si + fst (damped_step (sd_k s) (sd_c s) h A)) with (s_heading si + fst A + h * snd (damped_step (sd_k s) (sd_c s) h A)) by (unfold damped_step; cbn [fst snd]; ring).
    replace (V (vx (s_pos si) + fst (damped_step (sd_k s) (sd_c s) h X)) (vy (s_pos si) + fst (damped_step (sd_k s) (sd_c s) h Y)) (vz P + INR (S m) * h * vz (ef_vel (sd_base s))))
      with (plus3 (V (vx (s_pos si) + fst X) (vy (s_pos si) + fst Y) (vz P + INR m * h * vz (ef_vel (sd_base s)))) (scal3 h (V (snd (damped_step (sd_k s) (sd_c s) h X)) (snd (damped_step (sd_k s) (sd_c s) h Y)) (vz (ef_vel (sd_base s)))))); [exact J1|].
    rewrite S_INR. apply vec_eq; unfold plus3, scal3, damped_step; cbn [vx vy vz fst snd]; ring.
Qed.

(** ** Mean of constant signals *)
Definition const_rec (c : R) (r : recorder) : Prop := (1 <= r_cap r)%nat /\ forall x, In x (r_data r) -> x = c.
Lemma firstn_In' {A} n (l : list A) x : In x (firstn n l) -> In x l.
Proof. revert l. induction n as [|n IH]; intros [|a l]; cbn; try tauto. intros [->|H]; auto. Qed.
Lemma push_front_cons cap d l : (1 <= cap)%nat -> exists l', push_front cap d l = d :: l'.
Proof. intros H. destruct cap as [|k]; [lia|]. unfold push_front. cbn [firstn]. eexists; reflexivity. Qed.
Lemma record_const c r t : const_rec c r -> const_rec c (Record_ r t c) /\ r_data (Record_ r t c) <> nil.
Proof.
  intros [C H]. unfold Record_. destruct (r_data r) as [|front rest] eqn:E.
  - destruct (push_front_cons (r_cap r) c nil C) as [l' El]. split; [|cbn [r_data]; rewrite El; discriminate]. split; [exact C|]. cbn [r_data]. intros x Hx. apply firstn_In' in Hx. destruct Hx as [->|[]]. reflexivity.
  - destruct (Req_EM_T t (r_last r)) as [Et|Nt]; [split; [split; [exact C|]; rewrite E; exact H|rewrite E; discriminate]|].
    cbv zeta. destruct (Rlt_dec _ _).
    + split; [|cbn [r_data]; discriminate]. split; [exact C|]. cbn [r_data]. intros x [<-|Hx]; [reflexivity|]. apply H. right. exact Hx.
    + destruct (push_front_cons (r_cap r) c (Interpolate front (r_last r) (r_prev r + r_step r) c t :: rest) C) as [l' El]. split; [|cbn [r_data]; rewrite El; discriminate].
      split; [exact C|]. cbn [r_data]. intros x Hx. apply firstn_In' in Hx. destruct Hx as [<-|[<-|Hx]]; [reflexivity| |apply H; right; exact Hx].
      unfold Interpolate. assert (F : front = c) by (apply H; left; reflexivity). rewrite F. field. lra.
Qed.
Lemma mean_const c r : const_rec c r -> r_data r <> nil -> GetMean r = c.
Proof.
  intros [_ H] N. unfold GetMean. destruct (r_data r) as [|a l] eqn:E; [congruence|]. cbv zeta.
  assert (K : forall l a, (forall x, In x l -> x = c) -> fold_left Rplus l a = a + INR (length l) * c).
  { clear. induction l as [|b l IH]; intros a H; [cbn; ring|]. cbn [fold_left length]. rewrite IH by (intros; apply H; right; auto). rewrite (H b) by (left; auto). rewrite S_INR. ring. }
  rewrite K by exact H. field. cbn [length]. apply not_0_INR. lia.
Qed.
Definition const_vrec (u : vec) (r : vrec) : Prop := const_rec (vx u) (vr_x r) /\ const_rec (vy u) (vr_y r) /\ const_rec (vz u) (vr_z r).
Lemma vrecord_const u r t : const_vrec u r -> const_vrec u (VRecord r t u) /\ VGetMean (VRecord r t u) = u.
Proof.
  intros (A & B & C). unfold VRecord, VGetMean, const_vrec; cbn [vr_x vr_y vr_z].
  destruct (record_const _ _ t A) as [A1 A2], (record_const _ _ t B) as [B1 B2], (record_const _ _ t C) as [C1 C2].
  split; [auto|]. rewrite (mean_const _ _ A1 A2), (mean_const _ _ B1 B2), (mean_const _ _ C1 C2). destruct u; reflexivity.
Qed.
Definition mm_pose (s : mmf) (P : vec) (psi : R) (u : vec) (w g T : R) : Prop :=
  stands (ef_frame (mm_base s)) (plus3 P (scal3 (T - g) u)) (psi + (T - g) * w) /\ const_vrec u (mm_vel s) /\ const_rec w (mm_wz s) /\ mm_corr s = None /\ mm_prev s = T.
Lemma mm_step s P psi u w g T n t : mm_pose s P psi u w g T -> NGetVelocityInWorld n NWU = u -> vz (NGetAngularVelocityInWorld n NWU) = w ->
  FLT_EPSILON <= Rabs (t - T) -> mm_pose (MM_Compute s n t) P psi u w g t /\ ef_vel (mm_base (MM_Compute s n t)) = u /\ ef_w (mm_base (MM_Compute s n t)) = w.
Proof.
  intros (S0 & CV & CW & CN & E) EU EW D. unfold MM_Compute. rewrite E. destruct (Rlt_dec _ _) as [K|_]; [lra|]. cbv zeta. rewrite CN, EU, EW.
  destruct (vrecord_const _ _ t CV) as [CV1 CV2]. destruct (record_const _ _ t CW) as [CW1 CW2]. rewrite CV2, (mean_const _ _ CW1 CW2).
  split; [|cbn [mm_base ef_vel ef_w]; auto]. unfold mm_pose; cbn [mm_base mm_vel mm_wz mm_corr mm_prev ef_frame]. split; [|auto].
  rewrite (stands_pos _ _ _ S0).
  replace (plus3 P (scal3 (t - g) u)) with (plus3 (plus3 P (scal3 (T - g) u)) (scal3 (t - T) u)) by (destruct P, u; geo; veq; ring).
  replace (psi + (t - g) * w) with (psi + (T - g) * w + w * (t - T)) by ring.
  apply (stands_rot (SetPosition (ef_frame (mm_base s)) (vadd (plus3 P (scal3 (T - g) u)) (vscale (t - T) u)) NWU)). apply (stands_moved _ _ _ _ S0).
Qed.
Lemma mm_run_ok l : forall s P psi u w g T, mm_pose s P psi u w g T -> (forall t n, In (t, n) l -> NGetVelocityInWorld n NWU = u /\ vz (NGetAngularVelocityInWorld n NWU) = w) ->
  spaced FLT_EPSILON T (map fst l) -> mm_pose (mm_run s l) P psi u w g (last (map fst l) T).
Proof.
  induction l as [|[t n] l IH]; intros s P psi u w g T H HN SP; [exact H|]. cbn [map fst spaced] in SP. destruct SP as [D SP]. cbn [mm_run].
  destruct (HN t n (or_introl eq_refl)) as [E1 E2]. destruct (mm_step _ _ _ _ _ _ _ n t H E1 E2 D) as [H1 _].
  pose proof (IH _ _ _ _ _ _ _ H1 (fun t' n' K => HN t' n' (or_intror K)) SP) as K. cbn [map fst]. replace (last (t :: map fst l) T) with (last (map fst l) t); [exact K|].
  clear. revert t. generalize (map fst l). induction l0 as [|a l' IH]; intros t; [reflexivity|]. cbn [last] in *. destruct l'; [reflexivity|]. rewrite !IH in *. specialize (IH t). rewrite <- IH. reflexivity.
Qed.

(** ** Linear hydrostatic force *)
Lemma perturbation_pose e n P psi d phi theta psi' : stands (ef_frame e) P psi -> displaced (NGetFrameInWorld n) P psi d phi theta psi' ->
  let D := GetPerturbationFrame e n in unitf D /\ GeoModel.fpos D = d /\ forall x, qrotate (frot D) x = mv (attitude phi theta psi') x.
Proof.
  intros H [UN HD]. destruct (stands_parts _ _ _ H) as (U & E & Q). cbv zeta. set (D := GetPerturbationFrame e n).
  assert (UD : unitf D) by (unfold D, GetPerturbationFrame, Frame_mul, Frame_Inverse; apply unitf_mul; [apply unitf_inv, U|exact UN]).
  assert (M0 : forall x, pmap D x = plus3 d (mv (attitude phi theta psi') x)).
  { intros x. unfold pmap, D, GetPerturbationFrame, Frame_mul, Frame_Inverse. rewrite pmap_mul; [|apply unitf_inv; exact U|exact UN]. rewrite HD, pmap_inverse by exact U.
    destruct H as [_ H]. rewrite <- H. apply pmap_inv_l, U. }
  split; [exact UD|]. assert (ED : GeoModel.fpos D = d) by (rewrite <- pmap0, M0, mv_origin; apply plus_origin). split; [exact ED|].
  intros x. specialize (M0 x). rewrite pmap_eq, ED in M0. apply plus_cancel in M0. exact M0.
Qed.
Lemma lh_value g mass K e n s P psi d phi theta psi' : stands (ef_frame e) P psi -> displaced (NGetFrameInWorld n) P psi d phi theta psi' ->
  - PI < phi <= PI -> - (PI / 2) < theta < PI / 2 ->
  exists s', LH_Compute g mass K e n s = Some s' /\
    (forall fc, GetForceInWorld s' fc = convert fc (V 0 0 (g * mass - (m00 K * vz d + m01 K * phi + m02 K * theta)))) /\
    (forall fc, GetTorqueInBodyAtCOG s' fc = convert fc (V (- (m10 K * vz d + m11 K * phi + m12 K * theta)) (- (m20 K * vz d + m21 K * phi + m22 K * theta)) 0)).
Proof.
  intros H HD BP BT. destruct (perturbation_pose e n P psi d phi theta psi' H HD) as (U & E & Q). unfold LH_Compute. cbv zeta. set (D := GetPerturbationFrame e n) in *.
  destruct (attitude_heading _ phi theta psi' U Q BT) as (_ & _ & _ & TH & p & EP & C & S0 & R0). cbv zeta in *. rewrite EP, TH.
  assert (p = phi) by (apply cossin_eq; auto). subst p.
  eexists. split; [reflexivity|]. unfold GetForceInWorld, GetTorqueInBodyAtCOG, SetForceInWorldAtCOG, SetTorqueInBodyAtCOG; cbn [f_force f_torque].
  unfold GetPosition. rewrite E. split; intros fc; rewrite !swap_convert; f_equal; apply vec_eq; unfold StiffMul, mapply, vneg, convert; cbn [vx vy vz]; ring.
Qed.
