(** Proofs for the geometry classes: matrix to quaternion, atan2, Cardan angles. *)
From Coq Require Import Reals List Lra Psatz Lia.
From Verif Require Import GeoModel GeoSpec GeoProofs.
Open Scope R_scope.

(** *** rotation matrices *)
Lemma mv_mm : forall a b v, mv (mm a b) v = mv a (mv b v).
Proof. intros [] [] []; geo; veq; ring. Qed.
Lemma mv_mid : forall v, mv mid v = v.
Proof. intros []; geo; veq; ring. Qed.

Definition row0 m := V (m00 m) (m01 m) (m02 m).
Definition row1 m := V (m10 m) (m11 m) (m12 m).
Definition row2 m := V (m20 m) (m21 m) (m22 m).

Lemma mv_cof0 : forall m, mv m (cross3 (row1 m) (row2 m)) = V (mdet m) 0 0.
Proof. intros []; unfold row1, row2; geo; veq; ring. Qed.
Lemma mv_cof1 : forall m, mv m (cross3 (row2 m) (row0 m)) = V 0 (mdet m) 0.
Proof. intros []; unfold row0, row2; geo; veq; ring. Qed.
Lemma mv_cof2 : forall m, mv m (cross3 (row0 m) (row1 m)) = V 0 0 (mdet m).
Proof. intros []; unfold row0, row1; geo; veq; ring. Qed.
Lemma cof0 : forall m, rotation_matrix m -> cross3 (row1 m) (row2 m) = row0 m.
Proof.
  intros m (H & _ & D). rewrite <- (mv_mid (cross3 _ _)), <- H, mv_mm, mv_cof0, D.
  unfold row0; destruct m; geo; veq; ring.
Qed.
Lemma cof1 : forall m, rotation_matrix m -> cross3 (row2 m) (row0 m) = row1 m.
Proof.
  intros m (H & _ & D). rewrite <- (mv_mid (cross3 _ _)), <- H, mv_mm, mv_cof1, D.
  unfold row1; destruct m; geo; veq; ring.
Qed.
Lemma cof2 : forall m, rotation_matrix m -> cross3 (row0 m) (row1 m) = row2 m.
Proof.
  intros m (H & _ & D). rewrite <- (mv_mid (cross3 _ _)), <- H, mv_mm, mv_cof2, D.
  unfold row2; destruct m; geo; veq; ring.
Qed.

(** All the quadratic relations between the entries. *)
Ltac rotfacts H :=
  let C0 := fresh "C" in let C1 := fresh "C" in let C2 := fresh "C" in
  pose proof (cof0 _ H) as C0; pose proof (cof1 _ H) as C1; pose proof (cof2 _ H) as C2;
  destruct H as (?Ht & ?Ho & _);
  unfold row0, row1, row2 in *; geo;
  injection C0; injection C1; injection C2; injection Ht; injection Ho; clear C0 C1 C2 Ht Ho; intros.

Lemma prod_k : forall s A B T, 0 < s -> A * B = s * s * T -> (A * (/ 2 / s)) * (B * (/ 2 / s)) = T / 4.
Proof. intros s A B T Hs H. replace (A * (/ 2 / s) * (B * (/ 2 / s))) with (A * B / (4 * (s * s))) by (field; lra). rewrite H. field; lra. Qed.
Lemma prod_s : forall s A, 0 < s -> / 2 * s * (A * (/ 2 / s)) = A / 4.
Proof. intros; field; lra. Qed.
Lemma prod_s' : forall s A, 0 < s -> A * (/ 2 / s) * (/ 2 * s) = A / 4.
Proof. intros; field; lra. Qed.

Lemma A_quat_sound : forall m, rotation_matrix m ->
  unitq (Get_A_quaternion m) /\ Set_A_quaternion (Get_A_quaternion m) = m.
Proof.
  intros [a b c d e f g h i] H. rotfacts H.
  unfold Get_A_quaternion, unitq; cbv beta iota zeta delta [m00 m01 m02 m10 m11 m12 m20 m21 m22 Set_A_quaternion].
  destruct (Rle_dec 0 (a + e + i)) as [T|T].
  - set (s := sqrt (a + e + i + 1)).
    assert (Hs : 0 < s) by (apply sqrt_lt_R0; lra).
    assert (Hq : s * s = a + e + i + 1) by (apply sqrt_sqrt; lra).
    assert (P11 : (h - f) * (h - f) = s * s * (1 + a - e - i)) by (rewrite Hq; lra).
    assert (P22 : (c - g) * (c - g) = s * s * (1 - a + e - i)) by (rewrite Hq; lra).
    assert (P33 : (d - b) * (d - b) = s * s * (1 - a - e + i)) by (rewrite Hq; lra).
    assert (P12 : (h - f) * (c - g) = s * s * (b + d)) by (rewrite Hq; lra).
    assert (P13 : (h - f) * (d - b) = s * s * (c + g)) by (rewrite Hq; lra).
    assert (P23 : (c - g) * (d - b) = s * s * (f + h)) by (rewrite Hq; lra).
    cbn [q0 q1 q2 q3]. split; [|meq];
    rewrite ?(prod_k _ _ _ _ Hs P11), ?(prod_k _ _ _ _ Hs P22), ?(prod_k _ _ _ _ Hs P33),
      ?(prod_k _ _ _ _ Hs P12), ?(prod_k _ _ _ _ Hs P13), ?(prod_k _ _ _ _ Hs P23), ?prod_s by exact Hs;
    replace (/ 2 * s * (/ 2 * s)) with (s * s / 4) by field; rewrite ?Hq; lra.
  - destruct (Rlt_dec a e) as [T1|T1]; [destruct (Rlt_dec e i) as [T2|T2] | destruct (Rlt_dec a i) as [T2|T2]].
    + set (s := sqrt (i - a - e + 1)).
      assert (Hs : 0 < s) by (apply sqrt_lt_R0; lra).
      assert (Hq : s * s = i - a - e + 1) by (apply sqrt_sqrt; lra).
      assert (P00 : (d - b) * (d - b) = s * s * (1 + a + e + i)) by (rewrite Hq; lra).
      assert (P11 : (g + c) * (g + c) = s * s * (1 + a - e - i)) by (rewrite Hq; lra).
      assert (P22 : (f + h) * (f + h) = s * s * (1 - a + e - i)) by (rewrite Hq; lra).
      assert (P01 : (d - b) * (g + c) = s * s * (h - f)) by (rewrite Hq; lra).
      assert (P02 : (d - b) * (f + h) = s * s * (c - g)) by (rewrite Hq; lra).
      assert (P12 : (g + c) * (f + h) = s * s * (b + d)) by (rewrite Hq; lra).
      cbn [q0 q1 q2 q3]. split; [|meq];
      rewrite ?(prod_k _ _ _ _ Hs P00), ?(prod_k _ _ _ _ Hs P11), ?(prod_k _ _ _ _ Hs P22),
        ?(prod_k _ _ _ _ Hs P01), ?(prod_k _ _ _ _ Hs P02), ?(prod_k _ _ _ _ Hs P12), ?prod_s, ?prod_s' by exact Hs;
      replace (/ 2 * s * (/ 2 * s)) with (s * s / 4) by field; rewrite ?Hq; lra.
    + set (s := sqrt (e - i - a + 1)).
      assert (Hs : 0 < s) by (apply sqrt_lt_R0; lra).
      assert (Hq : s * s = e - i - a + 1) by (apply sqrt_sqrt; lra).
      assert (P00 : (c - g) * (c - g) = s * s * (1 + a + e + i)) by (rewrite Hq; lra).
      assert (P11 : (b + d) * (b + d) = s * s * (1 + a - e - i)) by (rewrite Hq; lra).
      assert (P33 : (f + h) * (f + h) = s * s * (1 - a - e + i)) by (rewrite Hq; lra).
      assert (P01 : (c - g) * (b + d) = s * s * (h - f)) by (rewrite Hq; lra).
      assert (P03 : (c - g) * (f + h) = s * s * (d - b)) by (rewrite Hq; lra).
      assert (P13 : (b + d) * (f + h) = s * s * (c + g)) by (rewrite Hq; lra).
      cbn [q0 q1 q2 q3]. split; [|meq];
      rewrite ?(prod_k _ _ _ _ Hs P00), ?(prod_k _ _ _ _ Hs P11), ?(prod_k _ _ _ _ Hs P33),
        ?(prod_k _ _ _ _ Hs P01), ?(prod_k _ _ _ _ Hs P03), ?(prod_k _ _ _ _ Hs P13), ?prod_s, ?prod_s' by exact Hs;
      replace (/ 2 * s * (/ 2 * s)) with (s * s / 4) by field; rewrite ?Hq; lra.
    + set (s := sqrt (i - a - e + 1)).
      assert (Hs : 0 < s) by (apply sqrt_lt_R0; lra).
      assert (Hq : s * s = i - a - e + 1) by (apply sqrt_sqrt; lra).
      assert (P00 : (d - b) * (d - b) = s * s * (1 + a + e + i)) by (rewrite Hq; lra).
      assert (P11 : (g + c) * (g + c) = s * s * (1 + a - e - i)) by (rewrite Hq; lra).
      assert (P22 : (f + h) * (f + h) = s * s * (1 - a + e - i)) by (rewrite Hq; lra).
      assert (P01 : (d - b) * (g + c) = s * s * (h - f)) by (rewrite Hq; lra).
      assert (P02 : (d - b) * (f + h) = s * s * (c - g)) by (rewrite Hq; lra).
      assert (P12 : (g + c) * (f + h) = s * s * (b + d)) by (rewrite Hq; lra).
      cbn [q0 q1 q2 q3]. split; [|meq];
      rewrite ?(prod_k _ _ _ _ Hs P00), ?(prod_k _ _ _ _ Hs P11), ?(prod_k _ _ _ _ Hs P22),
        ?(prod_k _ _ _ _ Hs P01), ?(prod_k _ _ _ _ Hs P02), ?(prod_k _ _ _ _ Hs P12), ?prod_s, ?prod_s' by exact Hs;
      replace (/ 2 * s * (/ 2 * s)) with (s * s / 4) by field; rewrite ?Hq; lra.
    + set (s := sqrt (a - e - i + 1)).
      assert (Hs : 0 < s) by (apply sqrt_lt_R0; lra).
      assert (Hq : s * s = a - e - i + 1) by (apply sqrt_sqrt; lra).
      assert (P00 : (h - f) * (h - f) = s * s * (1 + a + e + i)) by (rewrite Hq; lra).
      assert (P22 : (b + d) * (b + d) = s * s * (1 - a + e - i)) by (rewrite Hq; lra).
      assert (P33 : (g + c) * (g + c) = s * s * (1 - a - e + i)) by (rewrite Hq; lra).
      assert (P02 : (h - f) * (b + d) = s * s * (c - g)) by (rewrite Hq; lra).
      assert (P03 : (h - f) * (g + c) = s * s * (d - b)) by (rewrite Hq; lra).
      assert (P23 : (b + d) * (g + c) = s * s * (f + h)) by (rewrite Hq; lra).
      cbn [q0 q1 q2 q3]. split; [|meq];
      rewrite ?(prod_k _ _ _ _ Hs P00), ?(prod_k _ _ _ _ Hs P22), ?(prod_k _ _ _ _ Hs P33),
        ?(prod_k _ _ _ _ Hs P02), ?(prod_k _ _ _ _ Hs P03), ?(prod_k _ _ _ _ Hs P23), ?prod_s, ?prod_s' by exact Hs;
      replace (/ 2 * s * (/ 2 * s)) with (s * s / 4) by field; rewrite ?Hq; lra.
Qed.

(** *** atan2 *)
Lemma atan2_polar : forall r t, 0 < r -> - PI < t <= PI -> atan2 (r * sin t) (r * cos t) = t.
Proof.
  intros r t Hr [H1 H2]. pose proof PI_RGT_0 as HP. unfold atan2.
  assert (Q : forall c, c <> 0 -> r * sin t / (r * c) = sin t / c) by (intros; field; lra).
  destruct (Rlt_dec 0 (r * cos t)) as [C|C].
  - assert (Hc : 0 < cos t) by nra.
    rewrite Q by lra. change (sin t / cos t) with (tan t). apply atan_tan.
    split.
    + destruct (Rlt_dec (- (PI / 2)) t); auto. exfalso.
      assert (cos (- t) <= 0) by (apply cos_le_0; lra). rewrite cos_neg in *; lra.
    + destruct (Rlt_dec t (PI / 2)); auto. exfalso.
      assert (cos t <= 0) by (apply cos_le_0; lra). lra.
  - destruct (Rlt_dec (r * cos t) 0) as [D|D].
    + assert (Hc : cos t < 0) by nra. rewrite Q by lra.
      destruct (Rle_dec 0 (r * sin t)) as [E|E].
      * assert (Hsn : 0 <= sin t) by nra.
        assert (PI / 2 < t).
        { destruct (Rlt_dec (PI / 2) t); auto. exfalso.
          destruct (Rle_dec (- (PI / 2)) t).
          - assert (0 <= cos t) by (apply cos_ge_0; lra). lra.
          - assert (sin (- t) > 0) by (apply sin_gt_0; lra). rewrite sin_neg in *; lra. }
        replace (sin t / cos t) with (tan (t - PI)).
        2:{ unfold tan. rewrite sin_minus, cos_minus, sin_PI, cos_PI. field. lra. }
        rewrite atan_tan by lra. ring.
      * assert (Hsn : sin t < 0) by nra.
        assert (t < - (PI / 2)).
        { destruct (Rlt_dec t (- (PI / 2))); auto. exfalso.
          destruct (Rle_dec t (PI / 2)).
          - assert (0 <= cos t) by (apply cos_ge_0; lra). lra.
          - assert (sin t >= 0) by (apply Rle_ge, sin_ge_0; lra). lra. }
        replace (sin t / cos t) with (tan (t + PI)).
        2:{ unfold tan. rewrite sin_plus, cos_plus, sin_PI, cos_PI. field. lra. }
        rewrite atan_tan by lra. ring.
    + assert (Hc : cos t = 0) by nra.
      assert (Hs2 : sin t * sin t = 1) by (rewrite sc, Hc; ring).
      destruct (Rlt_dec 0 (r * sin t)) as [E|E].
      * assert (Hsn : 0 < sin t) by nra.
        assert (0 < t).
        { destruct (Rlt_dec 0 t); auto. exfalso. assert (0 <= sin (- t)) by (apply sin_ge_0; lra). rewrite sin_neg in *; lra. }
        destruct (Rtotal_order t (PI / 2)) as [K|[K|K]]; [|lra|].
        -- assert (0 < cos t) by (apply cos_gt_0; lra). lra.
        -- assert (cos t < 0) by (apply cos_lt_0; lra). lra.
      * assert (Hsn : sin t < 0) by nra.
        destruct (Rlt_dec (r * sin t) 0) as [E'|E']; [|nra].
        assert (t < 0).
        { destruct (Rlt_dec t 0); auto. exfalso. assert (0 <= sin t) by (apply sin_ge_0; lra). lra. }
        destruct (Rtotal_order (- t) (PI / 2)) as [K|[K|K]]; [|lra|].
        -- assert (0 < cos (- t)) by (apply cos_gt_0; lra). rewrite cos_neg in *; lra.
        -- assert (cos (- t) < 0) by (apply cos_lt_0; lra). rewrite cos_neg in *; lra.
Qed.

Lemma cos_atan_mul : forall x y, 0 < x -> sqrt (x * x + y * y) * cos (atan (y / x)) = x /\
                                          sqrt (x * x + y * y) * sin (atan (y / x)) = y.
Proof.
  intros x y Hx.
  assert (Hn : 0 < sqrt (x * x + y * y)) by (apply sqrt_lt_R0; nra).
  assert (Hq : sqrt (1 + (y / x) ^ 2) = sqrt (x * x + y * y) / x).
  { replace (1 + (y / x) ^ 2) with ((x * x + y * y) / (x * x)) by (field; lra).
    rewrite sqrt_div by nra. rewrite sqrt_square by lra. reflexivity. }
  rewrite cos_atan, sin_atan. unfold Rsqr in *.
  replace (1 + (y / x) * (y / x)) with (1 + (y / x) ^ 2) by ring.
  rewrite Hq. split; field; lra.
Qed.
Lemma atan2_spec : forall x y, 0 < x * x + y * y ->
  sqrt (x * x + y * y) * cos (atan2 y x) = x /\ sqrt (x * x + y * y) * sin (atan2 y x) = y.
Proof.
  intros x y H. unfold atan2.
  destruct (Rlt_dec 0 x) as [C|C]; [apply cos_atan_mul; auto|].
  destruct (Rlt_dec x 0) as [D|D].
  - destruct (cos_atan_mul (- x) (- y)) as [E F]; [lra|].
    replace (- x * - x + - y * - y) with (x * x + y * y) in * by ring.
    replace (- y / - x) with (y / x) in * by (field; lra).
    destruct (Rle_dec 0 y).
    + rewrite cos_plus, sin_plus, cos_PI, sin_PI.
      replace (sqrt (x * x + y * y) * (cos (atan (y / x)) * -1 - sin (atan (y / x)) * 0))
        with (- (sqrt (x * x + y * y) * cos (atan (y / x)))) by ring.
      replace (sqrt (x * x + y * y) * (sin (atan (y / x)) * -1 + cos (atan (y / x)) * 0))
        with (- (sqrt (x * x + y * y) * sin (atan (y / x)))) by ring. lra.
    + rewrite cos_minus, sin_minus, cos_PI, sin_PI.
      replace (sqrt (x * x + y * y) * (cos (atan (y / x)) * -1 + sin (atan (y / x)) * 0))
        with (- (sqrt (x * x + y * y) * cos (atan (y / x)))) by ring.
      replace (sqrt (x * x + y * y) * (sin (atan (y / x)) * -1 - cos (atan (y / x)) * 0))
        with (- (sqrt (x * x + y * y) * sin (atan (y / x)))) by ring. lra.
  - assert (x = 0) by lra. subst x.
    replace (0 * 0 + y * y) with (y * y) in * by ring.
    destruct (Rlt_dec 0 y).
    + rewrite sqrt_square by lra. rewrite cos_PI2, sin_PI2. lra.
    + destruct (Rlt_dec y 0); [|nra].
      replace (y * y) with ((- y) * (- y)) by ring. rewrite sqrt_square by lra.
      rewrite cos_neg, sin_neg, cos_PI2, sin_PI2. lra.
Qed.
Lemma atan2_unit : forall c s, c * c + s * s = 1 -> cos (atan2 s c) = c /\ sin (atan2 s c) = s.
Proof.
  intros c s H. destruct (atan2_spec c s) as [A B]; [lra|].
  rewrite H, sqrt_1 in *. lra.
Qed.
Lemma atan2_range : forall y x, - PI < atan2 y x <= PI.
Proof.
  intros. pose proof PI_RGT_0. unfold atan2.
  generalize (atan_bound (y / x)); intros.
  destruct (Rlt_dec 0 x); [lra|]. destruct (Rlt_dec x 0).
  - destruct (Rle_dec 0 y).
    + assert (atan (y / x) <= 0).
      { rewrite <- atan_0. destruct (Req_dec y 0) as [->|N].
        - unfold Rdiv. rewrite Rmult_0_l. lra.
        - left. apply atan_increasing. unfold Rdiv. assert (/ x < 0) by (apply Rinv_lt_0_compat; auto). nra. }
      lra.
    + assert (0 < atan (y / x)).
      { rewrite <- atan_0. apply atan_increasing. unfold Rdiv. assert (/ x < 0) by (apply Rinv_lt_0_compat; auto). nra. }
      lra.
  - destruct (Rlt_dec 0 y); [lra|]. destruct (Rlt_dec y 0); lra.
Qed.

(** *** Cardan angles round trip *)
Lemma mat2eul_cardan : forall p t s, - PI < p <= PI -> - (PI / 2) < t < PI / 2 -> - PI < s <= PI ->
  mat2eul_xyz (mm (Rz s) (mm (Ry t) (Rx p))) = Angles (Some p) t s.
Proof.
  intros p t s Hp Ht Hs.
  assert (Hc : 0 < cos t) by (apply cos_gt_0; lra).
  assert (E : mm (Rz s) (mm (Ry t) (Rx p)) =
    M (cos t * cos s) (sin p * sin t * cos s - cos p * sin s) (cos p * sin t * cos s + sin p * sin s)
      (cos t * sin s) (sin p * sin t * sin s + cos p * cos s) (cos p * sin t * sin s - sin p * cos s)
      (- sin t) (cos t * sin p) (cos t * cos p)).
  { unfold Rx, Ry, Rz; geo; meq; ring. }
  rewrite E. unfold mat2eul_xyz. cbn [m20 m21 m22 m10 m00 m12 m11].
  assert (B : -1 < sin t < 1).
  { pose proof (sc t). split; nra. }
  destruct (Rlt_dec (- sin t) 1); [|lra]. destruct (Rlt_dec (-1) (- sin t)); [|lra].
  rewrite !atan2_polar by lra. rewrite Ropp_involutive, asin_sin by lra. reflexivity.
Qed.

Lemma asin_facts : forall x, -1 < x < 1 -> sin (asin x) = x /\ cos (asin x) = sqrt (1 - x * x).
Proof. intros. split; [apply sin_asin; lra | rewrite cos_asin by lra; reflexivity]. Qed.

(** The reported angles describe the matrix, when phi is defined. *)
Lemma mat2eul_sound : forall m p t s, rotation_matrix m -> mat2eul_xyz m = Angles (Some p) t s ->
  mm (Rz s) (mm (Ry t) (Rx p)) = m.
Proof.
  intros m p t s H. unfold mat2eul_xyz.
  destruct (Rlt_dec (m20 m) 1) as [L|L]; [destruct (Rlt_dec (-1) (m20 m)) as [K|K]|]; intros E; inversion E; subst; clear E.
  - destruct m as [a b c d e f g h i]. rotfacts H.
    cbn [m20 m21 m22 m10 m00 m12 m11] in *.
    destruct (asin_facts (- g)) as [S1 C1]; [lra|].
    set (k := sqrt (1 - - g * - g)) in *.
    assert (Kp : 0 < k) by (apply sqrt_lt_R0; clear - L K; nra).
    assert (Kq : k * k = 1 - g * g) by (unfold k; rewrite sqrt_sqrt by (clear - L K; nra); ring).
    assert (N1 : h * h + i * i = 1 - g * g) by lra.
    assert (N2 : d * d + a * a = 1 - g * g) by lra.
    assert (GG : 0 < 1 - g * g) by (clear - L K; nra).
    destruct (atan2_spec i h) as [I1 I2]; [lra|].
    destruct (atan2_spec a d) as [A1 A2]; [lra|].
    assert (Z1 : sqrt (i * i + h * h) = k) by (unfold k; f_equal; lra). rewrite Z1 in I1, I2.
    assert (Z2 : sqrt (a * a + d * d) = k) by (unfold k; f_equal; lra). rewrite Z2 in A1, A2.
    set (cp := cos (atan2 h i)) in *. set (sp := sin (atan2 h i)) in *.
    set (cs := cos (atan2 d a)) in *. set (ss := sin (atan2 d a)) in *.
    unfold Rx, Ry, Rz; geo. fold cp sp cs ss. rewrite S1, C1.
    assert (Ecp : cp = i / k) by (rewrite <- I1; field; lra).
    assert (Esp : sp = h / k) by (rewrite <- I2; field; lra).
    assert (Ecs : cs = a / k) by (rewrite <- A1; field; lra).
    assert (Ess : ss = d / k) by (rewrite <- A2; field; lra).
    assert (KD : forall X Y, X = Y * (1 - g * g) -> X / (k * k) = Y).
    { intros X Y HX. rewrite Kq, HX. field. lra. }
    meq; rewrite ?Ecp, ?Esp, ?Ecs, ?Ess; try (field; lra).
    + transitivity ((- a * g * h - d * i) / (k * k)); [field; lra | apply KD].
      assert (F : g * b = f + h * a) by lra. assert (F' : b = f * g - d * i) by lra.
      replace (b * (1 - g * g)) with (b - g * (g * b)) by ring. rewrite F. clear - F'. lra.
    + transitivity ((- a * g * i + d * h) / (k * k)); [field; lra | apply KD].
      assert (F : g * c = i * a - e) by lra. assert (F' : c = d * h - e * g) by lra.
      replace (c * (1 - g * g)) with (c - g * (g * c)) by ring. rewrite F. clear - F'. lra.
    + transitivity ((- d * g * h + a * i) / (k * k)); [field; lra | apply KD].
      assert (F : g * e = d * h - c) by lra. assert (F' : e = i * a - g * c) by lra.
      replace (e * (1 - g * g)) with (e - g * (g * e)) by ring. rewrite F. clear - F'. lra.
    + transitivity ((- d * g * i - a * h) / (k * k)); [field; lra | apply KD].
      assert (F : g * f = b + d * i) by lra. assert (F' : f = g * b - h * a) by lra.
      replace (f * (1 - g * g)) with (f - g * (g * f)) by ring. rewrite F. clear - F'. lra.
  - destruct m as [a b c d e f g h i]. rotfacts H. cbn [m20 m21 m22 m10 m00 m12 m11] in *.
    assert (R2 : g * g + h * h + i * i = 1) by lra. assert (R0 : a * a + d * d + g * g = 1) by lra.
    assert (R1 : d * d + e * e + f * f = 1) by lra.
    assert (Cc : c = d * h - e * g) by lra. assert (Cb : b = f * g - d * i) by lra.
    clear - K R2 R0 R1 Cc Cb.
    assert (G : g = -1) by nra.
    assert (a = 0) by nra. assert (d = 0) by nra. assert (h = 0) by nra. assert (i = 0) by nra. subst.
    assert (N : e * e + - f * - f = 1) by lra.
    destruct (atan2_unit e (- f) N) as [U1 U2].
    unfold Rx, Ry, Rz; geo. rewrite cos_0, sin_0, cos_PI2, sin_PI2, cos_neg, sin_neg, U1, U2.
    meq; lra.
Qed.
Lemma mat2eul_undef : forall m, rotation_matrix m -> (a_phi (mat2eul_xyz m) = None <-> m20 m = 1).
Proof.
  intros m H. unfold mat2eul_xyz.
  destruct (Rlt_dec (m20 m) 1) as [L|L]; [destruct (Rlt_dec (-1) (m20 m)) as [K|K]|]; cbn [a_phi]; split; intro E; try discriminate; try lra; try reflexivity.
  destruct m as [a b c d e f g h i]. rotfacts H. cbn [m20] in *.
  assert (R2 : g * g + h * h + i * i = 1) by lra. clear - L R2. nra.
Qed.
