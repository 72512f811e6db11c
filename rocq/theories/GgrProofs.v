From Coq Require Import Reals Lra Lia Psatz ZArith.
From Coquelicot Require Import Coquelicot.
From Verif Require Import GeoModel GeoSpec SeaModel GeoProofs2 GgrModel GgrSpec.
Open Scope R_scope.

Lemma f_bounds : 0 < EARTH_F < 1 / 100.
Proof.
  unfold EARTH_F. assert (100 < 298257223563 / 1000000000) by lra. split; [apply Rdiv_lt_0_compat; lra|]. apply (Rmult_lt_reg_r (298257223563 / 1000000000)); [lra|]. unfold Rdiv at 1. rewrite Rmult_assoc, Rinv_l by lra. lra.
Qed.
Lemma e2_bounds : 0 < E2 < 1 / 50.
Proof. unfold E2. pose proof f_bounds. split; nra. Qed.
Definition ww (x : R) : R := 1 - E2 * (sin x * sin x).
Lemma sc : forall x, sin x * sin x + cos x * cos x = 1.
Proof. intro x. pose proof (sin2_cos2 x) as H. unfold Rsqr in H. exact H. Qed.
Lemma ww_pos : forall x, 49 / 50 < ww x <= 1.
Proof. intro x. pose proof (sc x). pose proof e2_bounds. unfold ww. assert (0 <= sin x * sin x <= 1) by nra. nra. Qed.
Lemma n_bounds : forall x, EARTH_A <= prime_vertical x.
Proof.
  intro x. unfold prime_vertical. fold (ww x). pose proof (ww_pos x) as W. assert (0 < EARTH_A) by (unfold EARTH_A; lra).
  assert (0 < sqrt (ww x) <= 1) as S. { split; [apply sqrt_lt_R0; lra|]. rewrite <- sqrt_1. apply sqrt_le_1; lra. }
  apply (Rmult_le_reg_r (sqrt (ww x))); [lra|]. unfold Rdiv. rewrite Rmult_assoc, Rinv_l by lra. nra.
Qed.

(** ** the local frame *)
Lemma lat_true : forall x, -90 <= x <= 90 -> lat_ok x = true.
Proof. intros x H. unfold lat_ok. destruct (Rle_dec _ _); [|lra]. destruct (Rle_dec _ _); [reflexivity|lra]. Qed.
Lemma lat_inv : forall x, lat_ok x = true -> -90 <= x <= 90.
Proof. intros x. unfold lat_ok. destruct (Rle_dec _ _); [|discriminate]. destruct (Rle_dec _ _); [lra|discriminate]. Qed.
Definition enu (o c : coord) : vec :=
  let d := vsub (geocentric c) (geocentric o) in
  let phi := rad (g_lat o) in
  let lam := rad (g_lon o) in
  V (- sin lam * vx d + cos lam * vy d)
    (- cos lam * sin phi * vx d - sin lam * sin phi * vy d + cos phi * vz d)
    (cos lam * cos phi * vx d + sin lam * cos phi * vy d + sin phi * vz d).
Lemma forward_eq : forall o c, Forward o c = if lat_ok (g_lat c) then Ok (enu o c) else Undef.
Proof. intros. unfold Forward, enu. destruct (lat_ok (g_lat c)); reflexivity. Qed.
Definition cart (o c : coord) (fc : conv) : vec := let f := enu o c in if IsNED fc then V (vy f) (vx f) (- vz f) else V (vy f) (- vx f) (vz f).
Lemma cart_eq : forall o c fc p, GeoToCart o c fc = Ok p <-> lat_ok (g_lat c) = true /\ p = cart o c fc.
Proof.
  intros o c fc p. unfold GeoToCart. rewrite forward_eq. destruct (lat_ok (g_lat c)); cbn [rbind]; [|split; [discriminate|intros [H _]; discriminate]].
  split; [intro H; inversion H; split; reflexivity|intros [_ ->]; reflexivity].
Qed.
Lemma rot_norm : forall sl cl sp cp a b c, sl * sl + cl * cl = 1 -> sp * sp + cp * cp = 1 ->
  (- sl * a + cl * b) * (- sl * a + cl * b) + (- cl * sp * a - sl * sp * b + cp * c) * (- cl * sp * a - sl * sp * b + cp * c) + (cl * cp * a + sl * cp * b + sp * c) * (cl * cp * a + sl * cp * b + sp * c) = a * a + b * b + c * c.
Proof.
  intros sl cl sp cp a b c H1 H2.
  transitivity ((- sl * a + cl * b) * (- sl * a + cl * b) + (sp * sp + cp * cp) * ((cl * a + sl * b) * (cl * a + sl * b) + c * c)); [ring|]. rewrite H2.
  transitivity ((sl * sl + cl * cl) * (a * a + b * b) + c * c); [ring|]. rewrite H1. ring.
Qed.
Lemma cart_dist : forall o a b fc, dist2 (cart o a fc) (cart o b fc) = dist2 (geocentric a) (geocentric b).
Proof.
  intros o a b fc. pose proof (sc (rad (g_lon o))) as H1. pose proof (sc (rad (g_lat o))) as H2.
  set (d := vsub (geocentric a) (geocentric b)). assert (dist2 (geocentric a) (geocentric b) = vx d * vx d + vy d * vy d + vz d * vz d) as -> by reflexivity.
  rewrite <- (rot_norm _ _ _ _ (vx d) (vy d) (vz d) H1 H2). unfold cart, enu, dist2, d. cbv zeta. destruct (IsNED fc); cbn [vx vy vz vsub]; ring.
Qed.
Lemma cart_ned : forall o c, cart o c NED = convert NED (cart o c NWU).
Proof. intros. unfold cart. cbn [IsNED convert vx vy vz]. f_equal; ring. Qed.
Lemma cart_origin : forall o fc, cart o o fc = origin.
Proof. intros o fc. unfold cart, enu, origin. destruct (IsNED fc); cbn [vx vy vz vsub]; f_equal; ring. Qed.
Lemma cart_up : forall o k fc, cart o (GC (g_lat o) (g_lon o) (g_h o + k)) fc = V 0 0 (if IsNED fc then - k else k).
Proof.
  intros o k fc. unfold cart, enu, geocentric. cbn [g_lat g_lon g_h]. cbv zeta. pose proof (sc (rad (g_lat o))) as H. pose proof (sc (rad (g_lon o))) as H'.
  set (sp := sin (rad (g_lat o))) in *. set (cp := cos (rad (g_lat o))) in *. set (sl := sin (rad (g_lon o))) in *. set (cl := cos (rad (g_lon o))) in *. set (n := prime_vertical (rad (g_lat o))). clearbody sp cp sl cl n.
  assert (cl * cp * ((n + (g_h o + k)) * cp * cl - (n + g_h o) * cp * cl) + sl * cp * ((n + (g_h o + k)) * cp * sl - (n + g_h o) * cp * sl) + sp * (((1 - E2) * n + (g_h o + k)) * sp - ((1 - E2) * n + g_h o) * sp) = k) as U.
  { transitivity (k * (cp * cp * (sl * sl + cl * cl) + sp * sp)); [ring|]. rewrite H'. replace (cp * cp * 1 + sp * sp) with (sp * sp + cp * cp) by ring. rewrite H. ring. }
  assert (- cl * sp * ((n + (g_h o + k)) * cp * cl - (n + g_h o) * cp * cl) - sl * sp * ((n + (g_h o + k)) * cp * sl - (n + g_h o) * cp * sl) + cp * (((1 - E2) * n + (g_h o + k)) * sp - ((1 - E2) * n + g_h o) * sp) = 0) as N.
  { transitivity (k * cp * sp * (1 - (sl * sl + cl * cl))); [ring|]. rewrite H'. ring. }
  destruct (IsNED fc); cbn [vx vy vz vsub]; rewrite U, N; f_equal; ring.
Qed.
Lemma rad_minus : forall a b, rad (a - b) = rad a - rad b.
Proof. intros. unfold rad. ring. Qed.
Lemma east_eq : forall o c, vx (enu o c) = (prime_vertical (rad (g_lat c)) + g_h c) * cos (rad (g_lat c)) * sin (rad (g_lon c - g_lon o)).
Proof.
  intros o c. unfold enu, geocentric. cbn [vx vy vz vsub]. rewrite rad_minus, sin_minus. ring.
Qed.
Lemma north_eq : forall o c, sin (rad (g_lon c - g_lon o)) = 0 -> cos (rad (g_lon c - g_lon o)) = 1 ->
  vy (enu o c) = - sin (rad (g_lat o)) * ((prime_vertical (rad (g_lat c)) + g_h c) * cos (rad (g_lat c)) - (prime_vertical (rad (g_lat o)) + g_h o) * cos (rad (g_lat o)))
                 + cos (rad (g_lat o)) * (((1 - E2) * prime_vertical (rad (g_lat c)) + g_h c) * sin (rad (g_lat c)) - ((1 - E2) * prime_vertical (rad (g_lat o)) + g_h o) * sin (rad (g_lat o))).
Proof.
  intros o c _ H. rewrite rad_minus, cos_minus in H. pose proof (sc (rad (g_lon o))) as H'. unfold enu, geocentric. cbn [vx vy vz vsub].
  set (r1 := (prime_vertical (rad (g_lat c)) + g_h c) * cos (rad (g_lat c))). set (r0 := (prime_vertical (rad (g_lat o)) + g_h o) * cos (rad (g_lat o))).
  transitivity (- sin (rad (g_lat o)) * (r1 * (cos (rad (g_lon c)) * cos (rad (g_lon o)) + sin (rad (g_lon c)) * sin (rad (g_lon o))) - r0 * (sin (rad (g_lon o)) * sin (rad (g_lon o)) + cos (rad (g_lon o)) * cos (rad (g_lon o))))
                 + cos (rad (g_lat o)) * (((1 - E2) * prime_vertical (rad (g_lat c)) + g_h c) * sin (rad (g_lat c)) - ((1 - E2) * prime_vertical (rad (g_lat o)) + g_h o) * sin (rad (g_lat o)))); [ring|]. rewrite H, H'. ring.
Qed.
(** ** going north along a meridian *)
Definition north (x0 h x : R) : R := - sin x0 * ((prime_vertical x + h) * cos x) + cos x0 * (((1 - E2) * prime_vertical x + h) * sin x).
Definition curvature (x : R) : R := EARTH_A * (1 - E2) / (ww x * sqrt (ww x)).
Lemma derive_algebra : forall A e sx cx s h x0s x0c, 0 < s -> s * s = 1 - e * (sx * sx) -> sx * sx + cx * cx = 1 ->
  - x0s * (A * (- (- (e * (1 * cx * sx + sx * (1 * cx))) * / (2 * s)) * / (s * s)) * cx + (A * / s + h) * (1 * - sx)) +
  x0c * ((1 - e) * (A * (- (- (e * (1 * cx * sx + sx * (1 * cx))) * / (2 * s)) * / (s * s))) * sx + ((1 - e) * (A * / s) + h) * (1 * cx)) =
  (A * (1 - e) / (s * s * s) + h) * (cx * x0c + sx * x0s).
Proof.
  intros A e sx cx s h x0s x0c S W C.
  assert (A * (- (- (e * (1 * cx * sx + sx * (1 * cx))) * / (2 * s)) * / (s * s)) * cx + (A * / s + h) * (1 * - sx) = - sx * (A * (1 - e) / (s * s * s) + h)) as ->.
  { transitivity (sx * A * (e * (cx * cx) - s * s) / (s * s * s) - sx * h); [field; lra|]. replace (e * (cx * cx) - s * s) with (- (1 - e)) by (rewrite W; replace (cx * cx) with (1 - sx * sx) by lra; ring). field. lra. }
  assert ((1 - e) * (A * (- (- (e * (1 * cx * sx + sx * (1 * cx))) * / (2 * s)) * / (s * s))) * sx + ((1 - e) * (A * / s) + h) * (1 * cx) = cx * (A * (1 - e) / (s * s * s) + h)) as ->.
  { transitivity (cx * A * (1 - e) * (e * (sx * sx) + s * s) / (s * s * s) + cx * h); [field; lra|]. replace (e * (sx * sx) + s * s) with 1 by lra. field. lra. }
  ring.
Qed.
Lemma north_derive : forall x0 h x, is_derive (north x0 h) x ((curvature x + h) * cos (x - x0)).
Proof.
  intros x0 h x. unfold north, prime_vertical. pose proof (ww_pos x) as W. assert (0 < sqrt (ww x)) as S by (apply sqrt_lt_R0; lra).
  auto_derive; replace (1 + - (E2 * (sin x * sin x))) with (ww x) by (unfold ww; ring).
  - repeat split; lra || apply Rgt_not_eq; assumption.
  - unfold curvature. rewrite cos_minus. replace (ww x * sqrt (ww x)) with (sqrt (ww x) * sqrt (ww x) * sqrt (ww x)) by (rewrite sqrt_def by lra; reflexivity).
    apply derive_algebra; [exact S|rewrite sqrt_def by lra; reflexivity|apply sc].
Qed.
Lemma curvature_pos : forall x, 6000000 <= curvature x.
Proof.
  intro x. unfold curvature. pose proof (ww_pos x) as W. pose proof e2_bounds as E. assert (0 < sqrt (ww x) <= 1) as S. { split; [apply sqrt_lt_R0; lra|]. rewrite <- sqrt_1. apply sqrt_le_1; lra. }
  assert (0 < ww x * sqrt (ww x) <= 1) as P by (split; nra). apply (Rmult_le_reg_r (ww x * sqrt (ww x))); [lra|]. unfold Rdiv. rewrite Rmult_assoc, Rinv_l by lra. unfold EARTH_A. nra.
Qed.
Lemma north_pos : forall x0 h x, - 6000000 < h -> x0 < x <= x0 + PI / 2 -> north x0 h x0 < north x0 h x.
Proof.
  intros x0 h x Hh Hx. destruct (MVT_gen (north x0 h) x0 x (fun t => (curvature t + h) * cos (t - x0))) as [c [Hc E]].
  - intros t Ht. apply north_derive.
  - intros t Ht. apply continuity_pt_filterlim. apply (ex_derive_continuous (north x0 h) t). eexists. apply north_derive.
  - rewrite Rmin_left, Rmax_right in Hc by lra. (* c in [x0, x]; cos may vanish only at the end *)
    assert (north x0 h x0 <= north x0 h x) as L. { assert (0 <= (curvature c + h) * cos (c - x0)) by (apply Rmult_le_pos; [pose proof (curvature_pos c); lra|apply cos_ge_0; lra]). nra. }
    clear c Hc E L.
    set (m := x0 + (x - x0) / 2).
    destruct (MVT_gen (north x0 h) x0 m (fun t => (curvature t + h) * cos (t - x0))) as [c [Hc E]]; [intros; apply north_derive|intros t Ht; apply continuity_pt_filterlim; apply (ex_derive_continuous (north x0 h) t); eexists; apply north_derive|].
    destruct (MVT_gen (north x0 h) m x (fun t => (curvature t + h) * cos (t - x0))) as [d [Hd F]]; [intros; apply north_derive|intros t Ht; apply continuity_pt_filterlim; apply (ex_derive_continuous (north x0 h) t); eexists; apply north_derive|].
    unfold m in *. rewrite Rmin_left, Rmax_right in Hc, Hd by lra. pose proof PI_RGT_0.
    assert (0 < (curvature c + h) * cos (c - x0)) by (apply Rmult_lt_0_compat; [pose proof (curvature_pos c); lra|apply cos_gt_0; lra]).
    assert (0 <= (curvature d + h) * cos (d - x0)) by (apply Rmult_le_pos; [pose proof (curvature_pos d); lra|apply cos_ge_0; lra]). nra.
Qed.
Lemma rad_lt : forall a b, a < b -> rad a < rad b.
Proof. intros a b H. unfold rad. pose proof PI_RGT_0. apply Rmult_lt_compat_r; lra. Qed.
Lemma rad_le : forall a b, a <= b -> rad a <= rad b.
Proof. intros a b H. unfold rad. pose proof PI_RGT_0. apply Rmult_le_compat_r; lra. Qed.
Lemma rad_180 : rad 180 = PI. Proof. unfold rad. field. Qed.
Lemma rad_90 : rad 90 = PI / 2. Proof. unfold rad. field. Qed.
Lemma rad_neg : forall a, rad (- a) = - rad a. Proof. intro. unfold rad. ring. Qed.
Lemma cos_lat : forall a, -90 < a < 90 -> 0 < cos (rad a).
Proof. intros a H. apply cos_gt_0; [rewrite <- rad_90, <- rad_neg|rewrite <- rad_90]; apply rad_lt; lra. Qed.
Lemma rad_turns : forall a b k, a = b + 360 * IZR k -> sin (rad a) = sin (rad b) /\ cos (rad a) = cos (rad b).
Proof.
  intros a b k ->. assert (rad (b + 360 * IZR k) = rad b + 2 * IZR k * PI) as -> by (unfold rad; field).
  assert (forall n, sin (rad b + 2 * INR n * PI) = sin (rad b) /\ cos (rad b + 2 * INR n * PI) = cos (rad b)) as P by (intro n; split; [apply sin_period|apply cos_period]).
  destruct k as [|p|p].
  - rewrite Rmult_0_r, Rmult_0_l, Rplus_0_r. split; reflexivity.
  - rewrite <- (positive_nat_Z p), <- INR_IZR_INZ. apply P.
  - assert (forall n y, sin (y + - (2 * INR n * PI)) = sin y /\ cos (y + - (2 * INR n * PI)) = cos y) as Q.
    { intros n y. rewrite <- (sin_period (y + - (2 * INR n * PI)) n), <- (cos_period (y + - (2 * INR n * PI)) n). replace (y + - (2 * INR n * PI) + 2 * INR n * PI) with y by ring. split; reflexivity. }
    change (Z.neg p) with (- Z.pos p)%Z. rewrite opp_IZR, <- (positive_nat_Z p), <- INR_IZR_INZ. replace (2 * - INR (Pos.to_nat p) * PI) with (- (2 * INR (Pos.to_nat p) * PI)) by ring. apply Q.
Qed.
Lemma ang_range : forall x, -180 <= AngNormalize x < 180.
Proof. intro x. unfold AngNormalize. destruct (base_Int_part ((x + 180) / 360)) as [A B]. lra. Qed.
Lemma ang_cong : forall x, congruent_deg (AngNormalize x) x.
Proof. intro x. exists (- Int_part ((x + 180) / 360))%Z. unfold AngNormalize. rewrite opp_IZR. ring. Qed.
Lemma geocentric_turns : forall la lo lo' h, congruent_deg lo lo' -> geocentric (GC la lo h) = geocentric (GC la lo' h).
Proof. intros la lo lo' h [k E]. destruct (rad_turns _ _ _ E) as [A B]. unfold geocentric. cbn [g_lat g_lon g_h]. rewrite A, B. reflexivity. Qed.
Lemma enu_turns_r : forall o la lo lo' h, congruent_deg lo lo' -> enu o (GC la lo h) = enu o (GC la lo' h).
Proof. intros. unfold enu. rewrite (geocentric_turns la lo lo' h) by assumption. reflexivity. Qed.
Lemma enu_turns_l : forall c la lo lo' h, congruent_deg lo lo' -> enu (GC la lo h) c = enu (GC la lo' h) c.
Proof.
  intros c la lo lo' h H. pose proof H as [k E]. destruct (rad_turns _ _ _ E) as [A B]. unfold enu. rewrite (geocentric_turns la lo lo' h) by assumption. cbn [g_lon g_lat]. rewrite A, B. reflexivity.
Qed.
Lemma origin_lat : forall o, an_origin o -> -90 <= g_lat o <= 90.
Proof.
  intros o [->|(o' & lat & lon & h & H)]; [cbn; lra|]. unfold SetGeographicOrigin, Reset in H. destruct (lat_ok lat) eqn:L; [|discriminate]. inversion H; subst. cbn [g_lat]. apply lat_inv; exact L.
Qed.
Lemma cong_sym : forall a b, congruent_deg a b -> congruent_deg b a.
Proof. intros a b [k ->]. exists (- k)%Z. rewrite opp_IZR. ring. Qed.
Lemma cong_trans : forall a b c, congruent_deg a b -> congruent_deg b c -> congruent_deg a c.
Proof. intros a b c [k ->] [j ->]. exists (k + j)%Z. rewrite plus_IZR. ring. Qed.
Lemma ang_unique : forall x y, congruent_deg x y -> -180 <= y < 180 -> AngNormalize x = y.
Proof.
  intros x y C H. pose proof (ang_range x) as B. destruct (cong_trans _ _ _ (ang_cong x) C) as [k E]. assert (k = 0)%Z as ->.
  { assert (-1 < IZR k < 1) as K by lra. destruct K as [K1 K2]. apply (lt_IZR (-1)) in K1. apply (lt_IZR _ 1) in K2. lia. }
  rewrite E. ring.
Qed.
Lemma ang_id : forall x, -180 <= x < 180 -> AngNormalize x = x.
Proof. intros x H. apply ang_unique; [exists 0%Z; ring|exact H]. Qed.
Lemma east_sign : forall o c, -90 < g_lat c < 90 -> - 6000000 < g_h c -> let p := cart o c NWU in
  (g_lon c = g_lon o -> vy p = 0) /\ (0 < g_lon c - g_lon o < 180 -> vy p < 0) /\ (-180 < g_lon c - g_lon o < 0 -> 0 < vy p).
Proof.
  intros o c Lc Hc p. unfold p, cart. cbn [IsNED vy]. rewrite east_eq. pose proof (cos_lat _ Lc) as C. pose proof (n_bounds (rad (g_lat c))) as N. unfold EARTH_A in N.
  set (n := prime_vertical (rad (g_lat c)) + g_h c). assert (0 < n) by (unfold n; lra). assert (0 < n * cos (rad (g_lat c))) as P by (apply Rmult_lt_0_compat; assumption). set (k := n * cos (rad (g_lat c))) in *. clearbody k.
  split; [|split].
  - intro E. replace (g_lon c - g_lon o) with 0 by lra. replace (rad 0) with 0 by (unfold rad; ring). rewrite sin_0. ring.
  - intro H'. assert (0 < sin (rad (g_lon c - g_lon o))). { apply sin_gt_0; [replace 0 with (rad 0) by (unfold rad; ring)|rewrite <- rad_180]; apply rad_lt; lra. } nra.
  - intro H'. assert (0 < sin (rad (- (g_lon c - g_lon o)))) as Q. { apply sin_gt_0; [replace 0 with (rad 0) by (unfold rad; ring)|rewrite <- rad_180]; apply rad_lt; lra. } rewrite rad_neg, sin_neg in Q. nra.
Qed.
Lemma north_sign : forall o c fc, g_lon c = g_lon o -> g_h c = g_h o -> - 6000000 < g_h o -> g_lat o < g_lat c <= g_lat o + 90 -> 0 < vx (cart o c fc).
Proof.
  intros o c fc E Eh Hh L. assert (vx (cart o c fc) = vy (enu o c)) as -> by (unfold cart; destruct (IsNED fc); reflexivity).
  rewrite north_eq; [|replace (g_lon c - g_lon o) with 0 by lra; replace (rad 0) with 0 by (unfold rad; ring); apply sin_0|replace (g_lon c - g_lon o) with 0 by lra; replace (rad 0) with 0 by (unfold rad; ring); apply cos_0].
  rewrite Eh. pose proof (north_pos (rad (g_lat o)) (g_h o) (rad (g_lat c)) Hh) as P. unfold north in P.
  assert (rad (g_lat o) < rad (g_lat c) <= rad (g_lat o) + PI / 2) as Q. { split; [apply rad_lt; lra|]. replace (rad (g_lat o) + PI / 2) with (rad (g_lat o + 90)) by (unfold rad; field). apply rad_le; lra. }
  specialize (P Q). lra.
Qed.
