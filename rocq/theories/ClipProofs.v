(** Clipping surfaces and classification (C34, C35). *)
From Coq Require Import Reals List Lra Lia Permutation Arith Bool.
From Verif Require Import GeoModel GeoSpec GeoProofs GeoProofs2 GeoProofs3 MeshModel MeshSpec MeshProofs4 ClipModel ClipSpec.
Import ListNotations.
Open Scope R_scope.

Lemma vnorm_dist p q : vnorm (vsub q p) = dist3 q p.
Proof. reflexivity. Qed.
Lemma plane_distance_diff pl bp p q : PlaneDistance pl bp q - PlaneDistance pl bp p = vdot (vsub q p) (Pl_GetNormal pl NWU).
Proof. unfold PlaneDistance. generalize (Pl_GetNormal pl NWU) (vsub (Pl_GetOrigin pl NWU) (horizontal bp)). intros n o. destruct p, q, n, o; geo; ring. Qed.
(** d is affine along a segment *)
Lemma plane_distance_affine pl bp p q s : PlaneDistance pl bp (vadd p (vscale s (vsub q p))) = (1 - s) * PlaneDistance pl bp p + s * PlaneDistance pl bp q.
Proof. unfold PlaneDistance. generalize (Pl_GetNormal pl NWU) (vsub (Pl_GetOrigin pl NWU) (horizontal bp)). intros n o. destruct p, q, n, o; geo; ring. Qed.
Lemma cauchy a b : dot3 a b * dot3 a b <= dot3 a a * dot3 b b.
Proof.
  assert (0 <= dot3 (cross3 a b) (cross3 a b)) by (generalize (cross3 a b); intros [x y z]; unfold dot3; cbn [vx vy vz]; nra).
  replace (dot3 a a * dot3 b b) with (dot3 a b * dot3 a b + dot3 (cross3 a b) (cross3 a b)) by (destruct a, b; geo; ring). lra.
Qed.
Lemma unit_bound a n : unit3 n -> Rabs (dot3 a n) <= vnorm a.
Proof.
  intros U. unfold unit3 in U. apply Rsqr_incr_0_var; [|apply sqrt_pos]. rewrite <- Rsqr_abs. unfold vnorm. change (vdot a a) with (dot3 a a).
  rewrite Rsqr_sqrt by (destruct a; unfold dot3; cbn; nra). unfold Rsqr. pose proof (cauchy a n) as C. rewrite U in C. lra.
Qed.
(** The intersection with the plane *)
Lemma plane_cut pl bp p q : unit3 (Pl_GetNormal pl NWU) -> 1 / 10 ^ 16 < Rabs (PlaneDistance pl bp q - PlaneDistance pl bp p) ->
  let d0 := PlaneDistance pl bp p in let d1 := PlaneDistance pl bp q in
  exists r, PlaneIntersection pl bp p q = Some r /\ r = plus3 p (scal3 (d0 / (d0 - d1)) (minus3 q p)) /\ PlaneDistance pl bp r = 0.
Proof.
  intros U H. cbv zeta. rewrite plane_distance_diff in H. pose proof (unit_bound (vsub q p) _ U) as B. change (dot3 (vsub q p)) with (vdot (vsub q p)) in B.
  assert (P16 : 0 < 1 / 10 ^ 16) by (apply Rdiv_lt_0_compat; [lra|apply pow_lt; lra]).
  assert (NZ : vdot (vsub q p) (Pl_GetNormal pl NWU) <> 0) by (intros E; rewrite E, Rabs_R0 in H; lra).
  unfold PlaneIntersection. destruct (Rlt_dec (1 / 10 ^ 16) (vnorm (vsub q p))) as [_|N]; [|exfalso; lra].
  destruct (Req_EM_T (vdot (vsub q p) (Pl_GetNormal pl NWU)) 0) as [E|_]; [contradiction|].
  set (s := vdot (vsub (vsub (Pl_GetOrigin pl NWU) (horizontal bp)) p) (Pl_GetNormal pl NWU) / vdot (vsub q p) (Pl_GetNormal pl NWU)).
  assert (Es : s = PlaneDistance pl bp p / (PlaneDistance pl bp p - PlaneDistance pl bp q)).
  { unfold s. rewrite <- (plane_distance_diff pl bp p q) in NZ |- *. replace (vdot (vsub (vsub (Pl_GetOrigin pl NWU) (horizontal bp)) p) (Pl_GetNormal pl NWU)) with (- PlaneDistance pl bp p); [generalize dependent (PlaneDistance pl bp p); generalize (PlaneDistance pl bp q); intros; field; split; lra|].
    unfold PlaneDistance. generalize (Pl_GetNormal pl NWU) (vsub (Pl_GetOrigin pl NWU) (horizontal bp)). intros n o. destruct p, n, o; geo; ring. }
  eexists. split; [reflexivity|]. rewrite <- (plane_distance_diff pl bp) in NZ. split.
  - rewrite Es. destruct p, q; apply vec_eq; geo; ring.
  - rewrite plane_distance_affine, Es. field. lra.
Qed.
Lemma plane_cuts pl bp eps : unit3 (Pl_GetNormal pl NWU) -> 1 / 10 ^ 16 <= eps -> cuts (ClippingPlane pl bp) eps.
Proof.
  intros U E p q H. cbn [s_dist s_inter ClippingPlane] in *. unfold opposite_sides in H.
  assert (P16 : 0 < 1 / 10 ^ 16) by (apply Rdiv_lt_0_compat; [lra|apply pow_lt; lra]).
  destruct (plane_cut pl bp p q U) as (r & R1 & R2 & R3).
  { destruct H as [[A B]|[A B]]; [rewrite Rabs_left by lra|rewrite Rabs_right by lra]; lra. }
  exists r. split; [exact R1|]. split; [|rewrite R3, Rabs_R0; lra].
  eexists. split; [|exact R2]. set (d0 := PlaneDistance pl bp p) in *. set (d1 := PlaneDistance pl bp q) in *.
  destruct H as [[A B]|[A B]].
  - split; [apply Rle_mult_inv_pos; lra|]. apply (Rmult_le_reg_r (d0 - d1)); [lra|]. unfold Rdiv. rewrite Rmult_assoc, Rinv_l by lra. lra.
  - replace (d0 / (d0 - d1)) with (- d0 / (d1 - d0)) by (field; lra). split; [apply Rle_mult_inv_pos; lra|]. apply (Rmult_le_reg_r (d1 - d0)); [lra|]. unfold Rdiv. rewrite Rmult_assoc, Rinv_l by lra. lra.
Qed.
(** the same point from both ends *)
Lemma plane_swap pl bp p q : PlaneIntersection pl bp p q = PlaneIntersection pl bp q p.
Proof.
  unfold PlaneIntersection. replace (vnorm (vsub q p)) with (vnorm (vsub p q)) by (unfold vnorm; f_equal; destruct p, q; geo; ring).
  destruct (Rlt_dec _ _); [|reflexivity]. set (n := Pl_GetNormal pl NWU). set (o := vsub (Pl_GetOrigin pl NWU) (horizontal bp)).
  replace (vdot (vsub q p) n) with (- vdot (vsub p q) n) by (generalize n; intros v; destruct p, q, v; geo; ring).
  destruct (Req_EM_T (vdot (vsub p q) n) 0) as [E|E], (Req_EM_T (- vdot (vsub p q) n) 0) as [E'|E']; try reflexivity; try (exfalso; lra).
  f_equal. assert (K : vdot (vsub o p) n = vdot (vsub o q) n - vdot (vsub p q) n) by (generalize n o; intros v w; destruct p, q, v, w; geo; ring).
  rewrite K. set (a := vdot (vsub o q) n) in *. set (b := vdot (vsub p q) n) in *. clearbody a b. destruct p as [p1 p2 p3], q as [q1 q2 q3]; apply vec_eq; cbn [vx vy vz vadd vscale vsub]; field; lra.
Qed.

(** ** Bisection on a wave surface *)
Definition on_line (p0 p1 : vec) (s : R) : vec := vadd (vscale s p1) (vscale (1 - s) p0).
Lemma on_line_dist p0 p1 s t : dist3 (on_line p0 p1 s) (on_line p0 p1 t) = Rabs (s - t) * dist3 p0 p1.
Proof.
  unfold dist3. rewrite <- sqrt_Rsqr_abs. rewrite <- sqrt_mult_alt by apply Rle_0_sqr. f_equal. unfold on_line, Rsqr. destruct p0, p1; geo; ring.
Qed.
Lemma positive_iff x : positive x = true <-> 0 < x.
Proof. unfold positive. destruct (Rlt_dec 0 x); split; intros; try lra; try discriminate; reflexivity. Qed.
Lemma positive_not x : positive x = false <-> x <= 0.
Proof. unfold positive. destruct (Rlt_dec 0 x); split; intros; try lra; try discriminate; reflexivity. Qed.
Lemma dichotomy_ok d K thr z1 p0 p1 : lipschitz d K -> 0 <= thr -> forall fuel s0 s1, s0 <= s1 -> 0 <= s0 -> s1 <= 1 ->
  positive (d (on_line p0 p1 s1)) = positive z1 -> positive (d (on_line p0 p1 s0)) = negb (positive z1) ->
  thr < Rabs (d (on_line p0 p1 s0)) -> thr < Rabs (d (on_line p0 p1 s1)) ->
  K * dist3 p0 p1 * (s1 - s0) <= 2 * thr * 2 ^ fuel ->
  exists s, 0 <= s <= 1 /\ dichotomy fuel d thr z1 p0 p1 s0 s1 = on_line p0 p1 s /\ Rabs (d (on_line p0 p1 s)) <= thr.
Proof.
  intros L T0. induction fuel as [|fuel IH]; intros s0 s1 O B0 B1 S1 S0 T1 T2 H.
  - exfalso. pose proof (L (on_line p0 p1 s1) (on_line p0 p1 s0)) as Q. rewrite on_line_dist, (Rabs_right (s1 - s0)) in Q by lra. cbn [pow] in H.
    assert (2 * thr < Rabs (d (on_line p0 p1 s1) - d (on_line p0 p1 s0))); [|nra].
    set (a := d (on_line p0 p1 s1)) in *. set (b := d (on_line p0 p1 s0)) in *.
    destruct (positive z1); cbn [negb] in S0; [apply positive_iff in S1; apply positive_not in S0|apply positive_iff in S0; apply positive_not in S1]; clear -S0 S1 T1 T2 T0; unfold Rabs in *; repeat destruct (Rcase_abs _); lra.
  - cbn [dichotomy]. set (s := 1 / 2 * (s0 + s1)). fold (on_line p0 p1 s). destruct (Rle_dec (Rabs (d (on_line p0 p1 s))) thr) as [E|E].
    + exists s. split; [unfold s; lra|]. split; [reflexivity|exact E].
    + cbn [pow] in H. destruct (positive (d (on_line p0 p1 s))) eqn:PS, (positive z1) eqn:PZ; cbn [andb orb negb fst snd]; apply IH; try rewrite PS; try assumption; try reflexivity; try (unfold s; lra); try (apply Rnot_le_lt in E; exact E).
Qed.
Lemma wave_cut eta bp thr K p q : lipschitz (WaveDistance eta bp) K -> 0 <= thr -> K * dist3 p q <= 2 * thr * 2 ^ 1001 ->
  opposite_sides (WaveDistance eta bp) thr p q \/ Rabs (WaveDistance eta bp p) <= thr \/ Rabs (WaveDistance eta bp q) <= thr ->
  between p q (WaveIntersection eta bp thr p q) /\ Rabs (WaveDistance eta bp (WaveIntersection eta bp thr p q)) <= thr.
Proof.
  intros L T0 H OP. unfold WaveIntersection. set (d := WaveDistance eta bp) in *.
  destruct (Rle_dec (Rabs (d p)) thr) as [E0|E0].
  { split; [|exact E0]. exists 0. split; [lra|]. destruct p, q; apply vec_eq; geo; ring. }
  destruct (Rle_dec (Rabs (d q)) thr) as [E1|E1].
  { split; [|exact E1]. exists 1. split; [lra|]. destruct p, q; apply vec_eq; geo; ring. }
  assert (A0 : on_line p q 0 = p) by (unfold on_line; destruct p, q; apply vec_eq; geo; ring).
  assert (A1 : on_line p q 1 = q) by (unfold on_line; destruct p, q; apply vec_eq; geo; ring).
  destruct OP as [OP|[OP|OP]]; [|contradiction|contradiction].
  destruct (dichotomy_ok d K thr (d q) p q L T0 1001 0 1) as (s & S1 & S2 & S3); rewrite ?A0, ?A1; try lra.
  - reflexivity.
  - destruct OP as [[A B]|[A B]].
    + destruct (positive (d q)) eqn:X; [apply positive_iff in X|apply positive_not in X]; cbn [negb]; [exfalso|apply positive_iff]; unfold Rabs in *; repeat destruct (Rcase_abs _); lra.
    + destruct (positive (d q)) eqn:X; [apply positive_iff in X|apply positive_not in X]; cbn [negb]; [apply positive_not|exfalso]; unfold Rabs in *; repeat destruct (Rcase_abs _); lra.
  - rewrite S2. split; [|exact S3]. exists s. split; [exact S1|]. unfold on_line. destruct p, q; apply vec_eq; geo; ring.
Qed.
Lemma wave_cuts eta bp K eps : lipschitz (WaveDistance eta bp) K -> ThresholdDichotomy < eps ->
  forall p q, K * dist3 p q <= 2 * ThresholdDichotomy * 2 ^ 1001 -> opposite_sides (WaveDistance eta bp) eps p q ->
  exists r, s_inter (ClippingWaveSurface eta bp) p q = Some r /\ between p q r /\ Rabs (s_dist (ClippingWaveSurface eta bp) r) < eps.
Proof.
  intros L E p q H OP. assert (T0 : 0 <= ThresholdDichotomy) by (unfold ThresholdDichotomy; apply Rlt_le, Rdiv_lt_0_compat; [lra|apply pow_lt; lra]).
  destruct (wave_cut eta bp ThresholdDichotomy K p q L T0 H) as [A B].
  - left. unfold opposite_sides in *. lra.
  - eexists. split; [reflexivity|]. split; [exact A|]. cbn [s_dist ClippingWaveSurface]. lra.
Qed.

(** ** Classification *)
Lemma classify_vertex sf thr p : 0 < thr ->
  (ClassifyVertex sf thr p = VP_ON <-> Rabs (s_dist sf p) < thr) /\ (ClassifyVertex sf thr p = VP_ABOVE <-> thr <= s_dist sf p) /\ (ClassifyVertex sf thr p = VP_UNDER <-> s_dist sf p <= - thr).
Proof.
  intros T. unfold ClassifyVertex. destruct (Rlt_dec (Rabs (s_dist sf p)) thr) as [A|A].
  - apply Rabs_def2 in A as A2. repeat split; intros; try discriminate; try lra; exact A.
  - destruct (Rlt_dec 0 (s_dist sf p)) as [B|B].
    + rewrite Rabs_right in A |- * by lra. repeat split; intros; try discriminate; try lra.
    + rewrite Rabs_left1 in A |- * by lra. repeat split; intros; try discriminate; try lra.
Qed.
