(** Planes, frames of planes, polygons in space (C31, C32). *)
From Coq Require Import Reals List Lra Lia Permutation.
From Coquelicot Require Import Coquelicot.
From Verif Require Import GeoModel GeoSpec GeoProofs GeoProofs2 GeoProofs3 GeoProofs4 MeshModel MeshSpec MeshProofs MeshProofs2 MeshProofs3.
Import ListNotations.
Open Scope R_scope.

Lemma normalize_unit3 v : 0 < dot3 v v -> unit3 (vnormalize v) /\ v = scal3 (sqrt (dot3 v v)) (vnormalize v).
Proof.
  intros H. unfold vnormalize, vnorm. change (vdot v v) with (dot3 v v). destruct (Rlt_dec 0 (dot3 v v)); [|lra].
  pose proof (sqrt_lt_R0 _ H) as P. pose proof (sqrt_sqrt (dot3 v v) ltac:(lra)) as Q. set (k := sqrt (dot3 v v)) in *. split.
  - unfold unit3. replace (dot3 (vscale (/ k) v) (vscale (/ k) v)) with (/ k * / k * dot3 v v) by (unfold dot3, vscale; cbn; ring). rewrite <- Q. field; lra.
  - destruct v as [x y z]. unfold scal3, vscale; cbn [vx vy vz]. f_equal; field; lra.
Qed.
Lemma normalize_zero v : dot3 v v = 0 -> vnormalize v = v.
Proof. intros H. unfold vnormalize. change (vdot v v) with (dot3 v v). destruct (Rlt_dec 0 (dot3 v v)); [lra|reflexivity]. Qed.

(** The frame of a plane with unit normal *)
Lemma build_frame o n : unit3 n -> exists f, BuildFrame o n = Some f /\ fpos f = scal3 (dot3 o n) n /\ unitq (frot f) /\ qrotate (frot f) (V 0 0 1) = n.
Proof.
  intros U. unfold BuildFrame, ClosestPointOnPlane, IntersectionWithLine. cbn [swap_if IsNED].
  assert (L : vsub (vadd vzero n) vzero = n) by (destruct n; apply vec_eq; geo; ring). rewrite L.
  assert (N1 : vnorm n = 1) by (unfold vnorm; change (vdot n n) with (dot3 n n); rewrite U; apply sqrt_1). rewrite N1.
  assert (T16 : 1 / 10 ^ 16 < 1) by lra. assert (T8 : 0 < 1 / 10 ^ 8 < 1) by lra.
  destruct (Rlt_dec (1 / 10 ^ 16) 1); [|lra]. change (vdot n n) with (dot3 n n). rewrite U. destruct (Req_EM_T 1 0); [lra|].
  set (pos := vadd vzero _).
  assert (EP : pos = scal3 (dot3 o n) n). { unfold pos. destruct o, n; apply vec_eq; geo; field. }
  set (x := if Rlt_dec _ _ then _ else _).
  assert (X : unit3 x /\ dot3 x n = 0).
  { unfold x. destruct n as [a b c]. unfold unit3 in U. assert (U' : a * a + b * b + c * c = 1) by (geo; lra).
    assert (CR : vcross (V a b c) (V 0 (-1) 0) = V c 0 (- a)) by (apply vec_eq; geo; ring). rewrite CR.
    destruct (Rlt_dec 0 (dot3 (V c 0 (- a)) (V c 0 (- a)))) as [P|P].
    - destruct (normalize_unit3 _ P) as [Q1 Q2]. set (w := vnormalize (V c 0 (- a))) in *. set (k := sqrt _) in *.
      assert (vnorm w = 1) as -> by (unfold vnorm; change (vdot w w) with (dot3 w w); rewrite Q1; apply sqrt_1).
      destruct (Rlt_dec 1 (1 / 10 ^ 8)); [lra|]. split; [exact Q1|].
      assert (K0 : 0 < k) by (apply sqrt_lt_R0; exact P).
      assert (Z : k * dot3 w (V a b c) = 0) by (destruct w as [w1 w2 w3]; injection Q2; intros E3 E2 E1; unfold dot3; cbn [vx vy vz]; replace (k * (w1 * a + w2 * b + w3 * c)) with ((k * w1) * a + (k * w2) * b + (k * w3) * c) by ring; rewrite <- E1, <- E2, <- E3; ring).
      apply Rmult_integral in Z. destruct Z; [lra|assumption].
    - assert (a = 0 /\ c = 0) as [-> ->] by (unfold dot3 in P; cbn [vx vy vz] in P; split; nra).
      rewrite normalize_zero by (unfold dot3; cbn [vx vy vz]; ring).
      replace (vnorm (V 0 0 (- 0))) with 0 by (unfold vnorm; replace (vdot (V 0 0 (- 0)) (V 0 0 (- 0))) with 0 by (unfold vdot; cbn [vx vy vz]; ring); rewrite sqrt_0; reflexivity).
      destruct (Rlt_dec 0 (1 / 10 ^ 8)); [|lra]. split; unfold unit3; geo; lra. }
  destruct X as [X1 X2]. clearbody x.
  assert (Y1 : unit3 (vcross n x)).
  { unfold unit3. replace (dot3 (vcross n x) (vcross n x)) with (dot3 n n * dot3 x x - dot3 x n * dot3 x n) by (destruct n, x; geo; ring). rewrite U, X1, X2. ring. }
  rewrite (vnorm1 (vcross n x)) by exact Y1. set (y := vcross n x) in *.
  assert (RM : rotation_matrix (M (vx x) (vx y) (vx n) (vy x) (vy y) (vy n) (vz x) (vz y) (vz n))).
  { assert (YN : dot3 y n = 0) by (unfold y; destruct n, x; geo; ring). assert (YX : dot3 y x = 0) by (unfold y; destruct n, x; geo; ring).
    assert (D : dot3 n (cross3 x y) = 1) by (unfold y; replace (dot3 n (cross3 x (vcross n x))) with (dot3 n n * dot3 x x - dot3 x n * dot3 x n) by (destruct n, x; geo; ring); rewrite U, X1, X2; ring).
    assert (O1 : mm (mt (M (vx x) (vx y) (vx n) (vy x) (vy y) (vy n) (vz x) (vz y) (vz n))) (M (vx x) (vx y) (vx n) (vy x) (vy y) (vy n) (vz x) (vz y) (vz n)) = mid).
    { unfold unit3 in *. clearbody y. destruct n, x, y; geo; meq; lra. }
    assert (CX : cross3 y n = x) by (unfold y; transitivity (minus3 (scal3 (dot3 n n) x) (scal3 (dot3 x n) n)); [destruct n, x; apply vec_eq; geo; ring|rewrite U, X2; destruct n, x; apply vec_eq; geo; ring]).
    assert (CY : cross3 n x = y) by reflexivity.
    assert (CN : cross3 x y = n) by (unfold y; transitivity (minus3 (scal3 (dot3 x x) n) (scal3 (dot3 x n) x)); [destruct n, x; apply vec_eq; geo; ring|rewrite X1, X2; destruct n, x; apply vec_eq; geo; ring]).
    split; [exact O1|]. split.
    - clear O1 CY CN. clearbody y.
      assert (GR : forall u v, dot3 u x * dot3 v x + dot3 u y * dot3 v y + dot3 u n * dot3 v n = dot3 u v).
      { intros u v. rewrite <- CX. transitivity (dot3 u v * (dot3 y y * dot3 n n - dot3 y n * dot3 y n) - dot3 u y * (dot3 v y * (dot3 n n - 1) - dot3 v n * dot3 y n) + dot3 u n * (dot3 v y * dot3 y n - dot3 v n * (dot3 y y - 1))).
        - clear. destruct u, v, y, n; geo; ring.
        - rewrite YN, U, Y1. ring. }
      pose proof (GR (V 1 0 0) (V 1 0 0)) as G1. pose proof (GR (V 1 0 0) (V 0 1 0)) as G2. pose proof (GR (V 1 0 0) (V 0 0 1)) as G3.
      pose proof (GR (V 0 1 0) (V 0 1 0)) as G4. pose proof (GR (V 0 1 0) (V 0 0 1)) as G5. pose proof (GR (V 0 0 1) (V 0 0 1)) as G6.
      clear - G1 G2 G3 G4 G5 G6. destruct n as [n1 n2 n3], x as [x1 x2 x3], y as [y1 y2 y3]. geo. meq; lra.
    - clearbody y. destruct n as [n1 n2 n3], x as [x1 x2 x3], y as [y1 y2 y3]. geo. lra. }
  exists (Fr pos (UQ_SetMatrix (M (vx x) (vx y) (vx n) (vy x) (vy y) (vy n) (vz x) (vz y) (vz n)) NWU)). split; [reflexivity|]. cbn [fpos frot]. split; [exact EP|].
  destruct (A_quat_sound _ RM) as [A B]. split; [exact A|]. rewrite <- qrotate_mat. unfold UQ_SetMatrix; cbn [qswap_if IsNED]. rewrite B. destruct n; apply vec_eq; geo; ring.
Qed.

(** ** Vector area and the plane of a closed list of points *)
Fixpoint nsum (G : vec) (l : list vec) : vec :=
  match l with a :: ((b :: _) as l') => plus3 (cross3 (minus3 G a) (minus3 G b)) (nsum G l') | _ => origin end.
Lemma nsum_cons G a b l : nsum G (a :: b :: l) = plus3 (cross3 (minus3 G a) (minus3 G b)) (nsum G (b :: l)). Proof. reflexivity. Qed.
Lemma va_cons a b l : vector_area (a :: b :: l) = plus3 (scal3 (1/2) (cross3 a b)) (vector_area (b :: l)). Proof. reflexivity. Qed.
Lemma normal_sum_nsum G l : forall acc, normal_sum G l acc = plus3 acc (nsum G l).
Proof.
  induction l as [|a l IH]; intros acc; [cbn [nsum normal_sum]; destruct acc; apply vec_eq; geo; ring|]. destruct l as [|b l]; [cbn [nsum normal_sum]; destruct acc; apply vec_eq; geo; ring|].
  rewrite nsum_cons. change (normal_sum G (a :: b :: l) acc) with (normal_sum G (b :: l) (vadd acc (vcross (vsub G a) (vsub G b)))). rewrite IH.
  generalize (nsum G (b :: l)). intros w. destruct acc, w, G, a, b; apply vec_eq; geo; ring.
Qed.
Lemma nsum_area G l : nsum G l = plus3 (scal3 2 (vector_area l)) (match l with nil => origin | a :: l' => cross3 G (minus3 a (last l' a)) end).
Proof.
  induction l as [|a l IH]; [cbn [nsum vector_area]; apply vec_eq; geo; ring|]. destruct l as [|b l]; [cbn [nsum vector_area last]; destruct a, G; apply vec_eq; geo; ring|].
  rewrite nsum_cons, va_cons, IH, last_any. generalize (vector_area (b :: l)) (last l b). intros w z. destruct w, z, G, a, b; apply vec_eq; geo; field.
Qed.
Lemma nsum_closed G l : closed_list l -> nsum G l = scal3 2 (vector_area l).
Proof. intros C. rewrite nsum_area. destruct l as [|a l]; [destruct C|]. cbn in C. rewrite C. generalize (vector_area (a :: l)); intros w. destruct w, a, G; apply vec_eq; geo; ring. Qed.

(** Points of a common plane *)
Lemma nsum_plane G m l : (forall p, In p l -> dot3 (minus3 G p) m = 0) -> cross3 (nsum G l) m = origin.
Proof.
  induction l as [|a l IH]; intros H; [cbn [nsum]; destruct m; apply vec_eq; geo; ring|]. destruct l as [|b l]; [cbn [nsum]; destruct m; apply vec_eq; geo; ring|].
  rewrite nsum_cons. assert (Ha := H a (or_introl eq_refl)). assert (Hb := H b (or_intror (or_introl eq_refl))).
  specialize (IH (fun p Hp => H p (or_intror Hp))). set (w := nsum G (b :: l)) in *.
  transitivity (plus3 (minus3 (scal3 (dot3 (minus3 G a) m) (minus3 G b)) (scal3 (dot3 (minus3 G b) m) (minus3 G a))) (cross3 w m)).
  - generalize w; intros v; destruct v, G, a, b, m; apply vec_eq; geo; ring.
  - rewrite IH, Ha, Hb. destruct G, a, b; apply vec_eq; geo; ring.
Qed.
Lemma coplanar_area l p q : closed_list l -> coplanar l -> In p l -> In q l -> dot3 p (vector_area l) = dot3 q (vector_area l).
Proof.
  intros C (m & d & Hm & H) Hp Hq.
  assert (P : cross3 (nsum p l) m = origin).
  { apply nsum_plane. intros r Hr. replace (dot3 (minus3 p r) m) with (dot3 p m - dot3 r m) by (destruct p, r, m; geo; ring). rewrite (H p Hp), (H r Hr). ring. }
  rewrite nsum_closed in P by exact C. set (A := vector_area l) in *.
  assert (MM : 0 < dot3 m m). { destruct m as [a b c]. unfold dot3; cbn [vx vy vz]. destruct (Req_dec a 0), (Req_dec b 0), (Req_dec c 0); subst; try nra. exfalso; apply Hm; reflexivity. }
  assert (X : dot3 m m * (dot3 p A - dot3 q A) = 0).
  { transitivity (dot3 m A * (dot3 p m - dot3 q m) + dot3 (minus3 p q) (cross3 m (scal3 (-1/2) (cross3 (scal3 2 A) m))) * -1).
    - clear. destruct A, m, p, q; geo. field.
    - rewrite P, (H p Hp), (H q Hq). destruct m, p, q; geo; ring. }
  apply Rmult_integral in X. destruct X; lra.
Qed.
Lemma vsum_acc l : forall acc, fold_left vadd l acc = plus3 acc (fold_left vadd l vzero).
Proof.
  induction l as [|a l IH]; intros acc; [cbn [fold_left]; destruct acc; apply vec_eq; geo; ring|]. cbn [fold_left]. rewrite IH, (IH (vadd vzero a)).
  generalize (fold_left vadd l vzero). intros w. destruct acc, a, w; apply vec_eq; geo; ring.
Qed.
Lemma vsum_dot l n d : (forall p, In p l -> dot3 p n = d) -> dot3 (vsum l) n = INR (length l) * d.
Proof.
  unfold vsum. induction l as [|a l IH]; intros H; [destruct n; geo; cbn; ring|]. cbn [fold_left length]. rewrite vsum_acc, S_INR.
  replace (dot3 (plus3 (vadd vzero a) (fold_left vadd l vzero)) n) with (dot3 a n + dot3 (fold_left vadd l vzero) n) by (generalize (fold_left vadd l vzero); intros w; destruct a, n, w; geo; ring).
  rewrite IH, (H a) by (cbn in *; auto). ring.
Qed.

(** Everything the constructor of a polygon establishes *)
Definition local (f : frame) (p : vec) : vec := qrotate (qconj (frot f)) (minus3 p (fpos f)).
Record polygon_ok (p : polygon) (vs : list vec) (n : vec) (e : R) (f : frame) : Prop := {
  po_verts : pg_verts p = vs;
  po_normal : pl_normal (pg_plane p) = n;
  po_frame : pl_frame (pg_plane p) = f;
  po_unit : unit3 n;
  po_area : vector_area vs = scal3 (sqrt (dot3 (vector_area vs) (vector_area vs))) n;
  po_pos : fpos f = scal3 e n;
  po_rot : unitq (frot f);
  po_axis : qrotate (frot f) (V 0 0 1) = n;
  po_ints : exists u, ComputeSurfacePolynomialIntegrals u (map (local f) vs) = Some (pg_ints p) }.
Lemma make_polygon u vs p : closed_list vs -> FrPolygon_make u vs NWU = Some p -> vector_area vs <> origin ->
  exists n e f, polygon_ok p vs n e f /\ (coplanar vs -> forall q, In q vs -> dot3 q n = e).
Proof.
  intros C H NZ. unfold FrPolygon_make in H.
  assert (MV : map (swap_if NWU) vs = vs) by (rewrite <- (map_id vs) at 2; apply map_ext; reflexivity). rewrite MV in H. clear MV.
  destruct (FrPlane_cloud vs NWU) as [pl|] eqn:EP; [|discriminate]. destruct (all_planar pl vs) eqn:EA; [|discriminate].
  destruct (ComputeSurfacePolynomialIntegrals u _) as [j|] eqn:EJ; [|discriminate]. injection H as <-.
  unfold FrPlane_cloud in EP. destruct vs as [|a vs]; [destruct C|]. set (l := a :: vs) in *.
  set (G := vscale (/ INR (length l)) (vsum l)) in *. cbn [swap_if IsNED] in EP.
  rewrite normal_sum_nsum, nsum_closed in EP by exact C.
  set (A := vector_area l) in *.
  assert (PA : 0 < dot3 A A). { destruct A as [x y z]. unfold dot3; cbn [vx vy vz]. destruct (Req_dec x 0), (Req_dec y 0), (Req_dec z 0); subst; try nra. exfalso; apply NZ; reflexivity. }
  set (w := plus3 vzero (scal3 2 A)) in *.
  assert (W : dot3 w w = 2 * 2 * dot3 A A) by (unfold w; destruct A; geo; ring).
  destruct (normalize_unit3 w ltac:(lra)) as [U1 U2].
  assert (SW : sqrt (dot3 w w) = 2 * sqrt (dot3 A A)) by (rewrite W, sqrt_mult_alt by lra; rewrite sqrt_square by lra; reflexivity).
  set (n := vnormalize w) in *. rewrite SW in U2.
  unfold with_frame in EP. destruct (build_frame G n U1) as (f & EB & F1 & F2 & F3). rewrite EB in EP. injection EP as <-.
  exists n, (dot3 G n), f. split.
  - constructor; cbn [pg_verts pg_plane pg_ints pl_normal pl_frame]; auto.
    + fold A. unfold w in U2. clear -U2. generalize dependent (sqrt (dot3 A A)). intros k. destruct A as [x y z], n as [n1 n2 n3]. intros U2. geo. injection U2; intros; f_equal; lra.
    + exists u. replace (map (local f) l) with (map (fun p => GetPointPositionInFrame (pl_frame (Pl G n f)) p NWU) l); [exact EJ|].
      apply map_ext. intros q. rewrite pointinv_convert. cbn [convert pl_frame]. reflexivity.
  - intros CP q Hq.
    assert (AN : A = scal3 (sqrt (dot3 A A)) n).
    { unfold w in U2. clear -U2. generalize dependent (sqrt (dot3 A A)). intros k. destruct A as [x y z], n as [n1 n2 n3]. intros U2. geo. injection U2; intros; f_equal; lra. }
    assert (K0 : 0 < sqrt (dot3 A A)) by (apply sqrt_lt_R0; exact PA).
    assert (DN : forall r, dot3 r n = dot3 r A / sqrt (dot3 A A)). { intros r. rewrite AN at 1. destruct r, n. geo. field. lra. }
    assert (CO : forall r, In r l -> dot3 r n = dot3 q n). { intros r Hr. rewrite !DN. unfold A. rewrite (coplanar_area l r q C CP Hr Hq). reflexivity. }
    unfold G. replace (dot3 (vscale (/ INR (length l)) (vsum l)) n) with (/ INR (length l) * dot3 (vsum l) n) by (destruct (vsum l), n; geo; ring).
    rewrite (vsum_dot l n (dot3 q n) CO). field. apply not_0_INR. discriminate.
Qed.
