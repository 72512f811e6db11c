(** Proofs about the polar grid. *)
From Coq Require Import Reals List ZArith Bool Lra Lia.
From Verif Require Import GeoModel GeoSpec GeoProofs2 SeaModel AstModel AstSpec AstProofs.
Import ListNotations.
Open Scope R_scope.

Lemma linspace_length : forall a b n, List.length (linspace a b n) = n.
Proof. intros. unfold linspace. rewrite map_length. apply seq_length. Qed.
Lemma linspace_nth : forall a b n i d, (i < n)%nat -> nth i (linspace a b n) d = a + INR i * ((b - a) / INR (n - 1)).
Proof.
  intros a b n i d H. unfold linspace. rewrite (nth_indep _ _ (a + INR 0 * ((b - a) / INR (n - 1)))) by (rewrite map_length, seq_length; exact H).
  rewrite (map_nth (fun i => a + INR i * ((b - a) / INR (n - 1)))). rewrite seq_nth by exact H. reflexivity.
Qed.
Section polar.
Variables xc yc r h : R.
Variables m n : nat.
Hypothesis (Hr : 0 < r) (Hm : (1 <= m)%nat) (Hn : (3 <= n)%nat).
Let dd (j : nat) : R := INR j * (r / INR m).
Let th (k : nat) : R := INR k * (2 * PI / INR n).
Let delta : R := 2 * PI / INR n.
Definition polar_mesh : trimesh := BuildPolarMeshGrid xc yc (2 * r) (S m) (S n) h.
Lemma Im : 0 < INR m. Proof using Hr Hm Hn. apply lt_0_INR. lia. Qed.
Lemma In3 : 3 <= INR n. Proof using Hr Hm Hn. replace 3 with (INR 3) by (cbn; ring). apply le_INR. lia. Qed.
Lemma dd_0 : dd 0 = 0. Proof using Hr Hm Hn. unfold dd. cbn [INR]. ring. Qed.
Lemma dd_m : dd m = r. Proof using Hr Hm Hn. unfold dd. pose proof Im. field. lra. Qed.
Lemma dd_S : forall j, dd (S j) = dd j + r / INR m. Proof using Hr Hm Hn. intro j. unfold dd. rewrite S_INR. ring. Qed.
Lemma step_pos : 0 < r / INR m. Proof using Hr Hm Hn. apply Rdiv_lt_0_compat; [exact Hr|apply Im]. Qed.
Lemma dd_pos : forall j, 0 <= dd j. Proof using Hr Hm Hn. intro j. unfold dd. apply Rmult_le_pos; [apply pos_INR|apply Rlt_le, step_pos]. Qed.
Lemma dd_le : forall j, (j <= m)%nat -> dd j <= r.
Proof using Hr Hm Hn. intros j H. rewrite <- dd_m. unfold dd. apply Rmult_le_compat_r; [apply Rlt_le, step_pos|apply le_INR; exact H]. Qed.
Lemma th_S : forall k, th (S k) = th k + delta. Proof using Hr Hm Hn. intro k. unfold th, delta. rewrite S_INR. ring. Qed.
Lemma half_sector : 0 < PI / INR n <= PI / 3.
Proof using Hr Hm Hn.
  pose proof PI_RGT_0 as P. pose proof In3 as I. split; [apply Rdiv_lt_0_compat; lra|]. unfold Rdiv. apply Rmult_le_compat_l; [lra|]. apply Rinv_le_contravar; lra.
Qed.
Lemma delta_range : 0 < delta < PI.
Proof using Hr Hm Hn. pose proof half_sector as Q. pose proof PI_RGT_0. unfold delta. replace (2 * PI / INR n) with (2 * (PI / INR n)) by (unfold Rdiv; ring). lra. Qed.
Lemma sin_delta : 0 < sin delta. Proof using Hr Hm Hn. apply sin_gt_0; apply delta_range. Qed.
Lemma cos_half : 0 < cos (PI / INR n). Proof using Hr Hm Hn. pose proof half_sector. pose proof PI_RGT_0. apply cos_gt_0; lra. Qed.
Definition P (k j : nat) : vec := V (xc + dd j * cos (th k)) (yc + dd j * sin (th k)) 0.
Lemma polar_count : List.length (t_vertices polar_mesh) = (S m + n * m)%nat.
Proof using Hr Hm Hn.
  unfold polar_mesh, BuildPolarMeshGrid. cbn [t_vertices]. rewrite app_length, map_length, linspace_length. rewrite (rows_length _ _ _ m).
  - rewrite seq_length. lia.
  - intros k _. rewrite map_length, seq_length. lia.
Qed.
Lemma polar_centre : vx (corner polar_mesh 0) = xc /\ vy (corner polar_mesh 0) = yc.
Proof using Hr Hm Hn.
  unfold corner, polar_mesh, BuildPolarMeshGrid. cbv zeta. cbn [t_vertices].
  rewrite app_nth1 by (rewrite map_length, linspace_length; lia). rewrite (nth_indep _ _ (V (xc + 0) yc h)) by (rewrite map_length, linspace_length; lia).
  rewrite (map_nth (fun d => V (xc + d) yc h)). rewrite linspace_nth by lia. cbn [INR]. rewrite Rmult_0_l. cbn [vx vy]. split; ring.
Qed.
Lemma polar_corner : forall k j, (k <= n)%nat -> (1 <= j <= m)%nat -> vx (corner polar_mesh (k * m + j)) = vx (P k j) /\ vy (corner polar_mesh (k * m + j)) = vy (P k j).
Proof using Hr Hm Hn.
  intros k j K J. unfold corner, polar_mesh, BuildPolarMeshGrid. cbv zeta. cbn [t_vertices].
  set (A := map (fun d => V (xc + d) yc h) (linspace 0 (2 * r * (1 / 2)) (S m))).
  assert (List.length A = S m) as LA by (unfold A; rewrite map_length; apply linspace_length).
  assert (forall i, (i < S m)%nat -> forall e, nth i (linspace 0 (2 * r * (1 / 2)) (S m)) e = dd i) as LD.
  { intros i I e. rewrite linspace_nth by exact I. unfold dd. replace (S m - 1)%nat with m by lia. pose proof Im. field. lra. }
  destruct k as [|k].
  - rewrite app_nth1 by lia. unfold A. rewrite (nth_indep _ _ (V (xc + 0) yc h)) by (rewrite map_length, linspace_length; lia).
    rewrite (map_nth (fun d => V (xc + d) yc h)). cbn [Nat.mul Nat.add]. rewrite LD by lia. unfold P, th. cbn [vx vy INR]. rewrite Rmult_0_l, cos_0, sin_0. split; ring.
  - rewrite app_nth2 by nia. rewrite LA. replace (S k * m + j - S m)%nat with (k * m + (j - 1))%nat by nia.
    rewrite (rows_nth _ _ _ m _ _ _ 0%nat).
    + rewrite seq_nth by lia. replace (S m - 1)%nat with m by lia. 
      match goal with |- context [nth (j - 1) (map ?f (seq 1 m)) vzero] => rewrite (nth_indep (map f (seq 1 m)) vzero (f 0%nat)) by (rewrite map_length, seq_length; lia); rewrite (map_nth f) end.
      rewrite seq_nth by lia. replace (1 + (j - 1))%nat with j by lia. replace (1 + k)%nat with (S k) by lia. rewrite LD by lia.
      rewrite linspace_nth by lia. replace (S n - 1)%nat with n by lia. unfold P, th. cbn [vx vy].
      replace (0 + INR (S k) * ((2 * PI - 0) / INR n)) with (INR (S k) * (2 * PI / INR n)) by (pose proof In3; field; lra). split; reflexivity.
    + intros i _. rewrite map_length, seq_length. lia.
    + rewrite seq_length. lia.
    + lia.
Qed.
(** The faces of sector k (between the rays k and k + 1) in ring j *)
Definition fan (k : nat) : nat * nat * nat := (0%nat, (k * m + 1)%nat, (S k * m + 1)%nat).
Definition ring1 (k j : nat) : nat * nat * nat := ((S k * m + j)%nat, (k * m + j)%nat, (S k * m + S j)%nat).
Definition ring2 (k j : nat) : nat * nat * nat := ((S k * m + S j)%nat, (k * m + j)%nat, (k * m + S j)%nat).
Lemma polar_faces : t_faces polar_mesh = flat_map (fun k => fan k :: flat_map (fun j => [ring1 k j; ring2 k j]) (seq 1 (m - 1))) (seq 0 n).
Proof using Hr Hm Hn.
  unfold polar_mesh, BuildPolarMeshGrid. cbv zeta. cbn [t_faces]. replace (S n - 1)%nat with n by lia. replace (S m - 1)%nat with m by lia. replace (S m - 2)%nat with (m - 1)%nat by lia.
  rewrite <- (seq_shift n 0). rewrite flat_map_concat_map, map_map, <- flat_map_concat_map. apply flat_map_ext. intro k.
  rewrite <- (seq_shift (m - 1) 1). rewrite (flat_map_concat_map _ (map S _)), map_map, <- flat_map_concat_map. f_equal.
  - unfold fan. replace (S k - 1)%nat with k by lia. reflexivity.
  - apply flat_map_ext. intro j. unfold ring1, ring2. replace (S k - 1)%nat with k by lia. replace (S k * m + S j - 1)%nat with (S k * m + j)%nat by lia.
    replace (k * m + S j - 1)%nat with (k * m + j)%nat by lia. reflexivity.
Qed.
Lemma cross_rays : forall k, cos (th k) * sin (th (S k)) - sin (th k) * cos (th (S k)) = sin delta.
Proof using Hr Hm Hn. intro k. replace delta with (th (S k) - th k) by (rewrite th_S; ring). rewrite sin_minus. ring. Qed.
Lemma fan_area : forall k, (k < n)%nat -> face_area polar_mesh (fan k) = dd 1 * dd 1 * sin delta / 2.
Proof using Hr Hm Hn.
  intros k K. unfold face_area, fan. cbv beta iota zeta. destruct polar_centre as [X0 Y0].
  destruct (polar_corner k 1) as [X1 Y1]; [lia|lia|]. destruct (polar_corner (S k) 1) as [X2 Y2]; [lia|lia|].
  rewrite X0, Y0, X1, Y1, X2, Y2. unfold P. cbn [vx vy]. rewrite <- (cross_rays k). field.
Qed.
Lemma ring_area : forall k j, (k < n)%nat -> (1 <= j < m)%nat ->
  face_area polar_mesh (ring1 k j) = dd j * (dd (S j) - dd j) * sin delta / 2 /\ face_area polar_mesh (ring2 k j) = dd (S j) * (dd (S j) - dd j) * sin delta / 2.
Proof using Hr Hm Hn.
  intros k j K J. unfold face_area, ring1, ring2. cbv beta iota zeta.
  destruct (polar_corner k j) as [X1 Y1]; [lia|lia|]. destruct (polar_corner (S k) j) as [X2 Y2]; [lia|lia|].
  destruct (polar_corner k (S j)) as [X3 Y3]; [lia|lia|]. destruct (polar_corner (S k) (S j)) as [X4 Y4]; [lia|lia|].
  rewrite X1, Y1, X2, Y2, X3, Y3, X4, Y4. unfold P. cbn [vx vy]. rewrite <- (cross_rays k). split; field.
Qed.
Lemma sector_area : forall k, (k < n)%nat -> forall p, (p <= m - 1)%nat ->
  sum_area polar_mesh (fan k :: flat_map (fun j => [ring1 k j; ring2 k j]) (seq 1 p)) = dd (S p) * dd (S p) * sin delta / 2.
Proof using Hr Hm Hn.
  intros k K. induction p as [|p IH]; intro L.
  - change (face_area polar_mesh (fan k) + 0 = dd 1 * dd 1 * sin delta / 2). rewrite fan_area by exact K. ring.
  - replace (seq 1 (S p)) with (seq 1 p ++ [S p]) by (rewrite seq_S; reflexivity). rewrite flat_map_app, app_comm_cons, sum_app, IH by lia.
    change (sum_area polar_mesh (flat_map (fun j => [ring1 k j; ring2 k j]) [S p])) with (face_area polar_mesh (ring1 k (S p)) + (face_area polar_mesh (ring2 k (S p)) + 0)).
    destruct (ring_area k (S p)) as [A1 A2]; [exact K|lia|]. rewrite A1, A2. field.
Qed.
Lemma odd_cos : forall p, (p < n)%nat -> cos ((2 * INR p + 1) * PI / INR n) <= cos (PI / INR n).
Proof using Hr Hm Hn.
  intros p Hp. pose proof half_sector as Q. pose proof PI_RGT_0 as PP. pose proof In3 as I3.
  set (w := PI / INR n) in *. replace ((2 * INR p + 1) * PI / INR n) with ((2 * INR p + 1) * w) by (unfold w; field; lra).
  assert (INR n * w = PI) as E by (unfold w; field; lra). clearbody w. pose proof (pos_INR p) as P0.
  assert (INR p + 1 <= INR n) as P1 by (rewrite <- S_INR; apply le_INR; lia).
  destruct (Rle_dec ((2 * INR p + 1) * w) PI) as [L|L].
  - apply cos_decr_1; nra.
  - replace (cos ((2 * INR p + 1) * w)) with (cos (2 * PI - (2 * INR p + 1) * w)).
    + apply cos_decr_1; nra.
    + rewrite cos_minus, cos_2PI, sin_2PI. ring.
Qed.
Lemma corner_in_polygon : forall k j x y, (k <= n)%nat -> (j <= m)%nat -> x = vx (P k j) -> y = vy (P k j) -> polygon xc yc r n x y.
Proof using Hr Hm Hn.
  intros k j x y K J -> -> l L a. unfold P. cbn [vx vy].
  replace ((xc + dd j * cos (th k) - xc) * cos a + (yc + dd j * sin (th k) - yc) * sin a) with (dd j * cos (th k - a)) by (rewrite cos_minus; ring).
  assert (cos (th k - a) <= cos (PI / INR n)) as Q.
  { pose proof In3 as I3. destruct (le_lt_dec k l) as [H|H].
    - rewrite <- cos_neg. replace (- (th k - a)) with ((2 * INR (l - k) + 1) * PI / INR n) by (unfold th, a; rewrite minus_INR by exact H; field; lra). apply odd_cos. lia.
    - replace (th k - a) with ((2 * INR (k - l - 1) + 1) * PI / INR n) by (unfold th, a; rewrite !minus_INR by lia; cbn [INR]; field; lra). apply odd_cos. lia. }
  pose proof (dd_pos j) as D0. pose proof (dd_le j J) as D1. pose proof cos_half as CH. set (c := cos (PI / INR n)) in *. set (e := cos (th k - a)) in *. clearbody c e. nra.
Qed.
Lemma polar_vertex : forall v, In v (t_vertices polar_mesh) -> polygon xc yc r n (vx v) (vy v).
Proof using Hr Hm Hn.
  intros v Hv. apply (In_nth _ _ vzero) in Hv. destruct Hv as (i & I & <-). rewrite polar_count in I. change (nth i (t_vertices polar_mesh) vzero) with (corner polar_mesh i).
  destruct i as [|i].
  - destruct polar_centre as [X Y]. apply (corner_in_polygon 0 0); [lia|lia| |]; rewrite ?X, ?Y; unfold P; rewrite dd_0; cbn [vx vy]; ring.
  - assert (i = (i / m) * m + i mod m)%nat as E by (rewrite Nat.mul_comm; apply Nat.div_mod; lia).
    assert (i mod m < m)%nat as X by (apply Nat.mod_upper_bound; lia). assert (i / m <= n)%nat as Y by (apply Nat.lt_succ_r, Nat.div_lt_upper_bound; nia).
    replace (S i) with (i / m * m + S (i mod m))%nat by lia. destruct (polar_corner (i / m) (S (i mod m))) as [U W]; [exact Y|lia|].
    apply (corner_in_polygon (i / m) (S (i mod m))); [exact Y|lia|exact U|exact W].
Qed.
Lemma in_faces : forall k, (k < n)%nat -> In (fan k) (t_faces polar_mesh) /\ forall j, (1 <= j < m)%nat -> In (ring1 k j) (t_faces polar_mesh) /\ In (ring2 k j) (t_faces polar_mesh).
Proof using Hr Hm Hn.
  intros k K. rewrite polar_faces. split.
  - apply in_flat_map. exists k. split; [apply in_seq; lia|left; reflexivity].
  - intros j J. split; apply in_flat_map; exists k; (split; [apply in_seq; lia|]); right; apply in_flat_map; exists j; (split; [apply in_seq; lia|]); cbn [In]; auto.
Qed.
Lemma face_cases : forall f, In f (t_faces polar_mesh) -> exists k, (k < n)%nat /\ (f = fan k \/ exists j, (1 <= j < m)%nat /\ (f = ring1 k j \/ f = ring2 k j)).
Proof using Hr Hm Hn.
  intros f F. rewrite polar_faces in F. apply in_flat_map in F. destruct F as (k & K & F). apply in_seq in K. exists k. split; [lia|]. destruct F as [<-|F]; [left; reflexivity|].
  right. apply in_flat_map in F. destruct F as (j & J & F). apply in_seq in J. exists j. split; [lia|]. destruct F as [<-|[<-|[]]]; auto.
Qed.
(** A point of the sector between two rays *)
Lemma sector_cover : forall k a b, (k < n)%nat -> 0 <= a -> 0 <= b -> a + b <= r ->
  covers polar_mesh (xc + (a * cos (th k) + b * cos (th (S k)))) (yc + (a * sin (th k) + b * sin (th (S k)))).
Proof using Hr Hm Hn.
  intros k a b K A B AB. pose proof step_pos as SP. pose proof Im as IM.
  destruct (cell (m - 1) ((a + b) / (r / INR m))) as (j & J & C).
  { replace (S (m - 1)) with m by lia. split; [apply Rmult_le_pos; [lra|apply Rlt_le, Rinv_0_lt_compat; exact SP]|].
    apply (Rmult_le_reg_r (r / INR m)); [exact SP|]. replace ((a + b) / (r / INR m) * (r / INR m)) with (a + b) by (field; split; lra). replace (INR m * (r / INR m)) with r by (field; lra). exact AB. }
  assert (dd j <= a + b <= dd (S j)) as D.
  { unfold dd. destruct C as [C1 C2]. split; [apply (Rmult_le_compat_r (r / INR m)) in C1|apply (Rmult_le_compat_r (r / INR m)) in C2]; try lra;
    replace ((a + b) / (r / INR m) * (r / INR m)) with (a + b) in * by (field; split; lra); assumption. }
  clear C. destruct (in_faces k K) as [F0 F12]. destruct polar_centre as [X0 Y0].
  destruct j as [|j].
  - destruct (polar_corner k 1) as [X1 Y1]; [lia|lia|]. destruct (polar_corner (S k) 1) as [X2 Y2]; [lia|lia|].
    assert (0 < dd 1) as D1 by (rewrite dd_S, dd_0; lra).
    do 3 eexists. exists (1 - (a + b) / dd 1), (a / dd 1), (b / dd 1). split; [exact F0|]. rewrite X0, Y0, X1, Y1, X2, Y2. unfold P. cbn [vx vy].
    assert (0 <= a / dd 1) by (apply Rmult_le_pos; [lra|apply Rlt_le, Rinv_0_lt_compat; exact D1]).
    assert (0 <= b / dd 1) by (apply Rmult_le_pos; [lra|apply Rlt_le, Rinv_0_lt_compat; exact D1]).
    assert ((a + b) / dd 1 <= 1). { apply (Rmult_le_reg_r (dd 1)); [exact D1|]. replace ((a + b) / dd 1 * dd 1) with (a + b) by (field; lra). lra. }
    repeat split; try lra; field; lra.
  - destruct (F12 (S j)) as [F1 F2]; [lia|]. 
    destruct (polar_corner k (S j)) as [X1 Y1]; [lia|lia|]. destruct (polar_corner (S k) (S j)) as [X2 Y2]; [lia|lia|].
    destruct (polar_corner k (S (S j))) as [X3 Y3]; [lia|lia|]. destruct (polar_corner (S k) (S (S j))) as [X4 Y4]; [lia|lia|].
    assert (0 < dd (S j)) as D0 by (rewrite dd_S; pose proof (dd_pos j); lra). rewrite (dd_S (S j)) in D.
    set (d0 := dd (S j)) in *. set (q := r / INR m) in *.
    assert (dd (S (S j)) = d0 + q) as ED by (unfold d0, q; apply dd_S). unfold P in *. rewrite ED in X3, Y3, X4, Y4. cbn [vx vy] in *. fold d0 in X1, Y1, X2, Y2. clearbody d0 q. clear ED.
    assert (0 <= a / d0) as W2 by (apply Rmult_le_pos; [lra|apply Rlt_le, Rinv_0_lt_compat; exact D0]).
    assert (0 <= (a + b - d0) / q) as W3 by (apply Rmult_le_pos; [lra|apply Rlt_le, Rinv_0_lt_compat; exact SP]).
    destruct (Rle_dec (a / d0 + (a + b - d0) / q) 1) as [T|T].
    + do 3 eexists. exists (1 - a / d0 - (a + b - d0) / q), (a / d0), ((a + b - d0) / q). split; [exact F1|]. rewrite X1, Y1, X2, Y2, X4, Y4. repeat split; try lra; field; lra.
    + assert (0 <= b / (d0 + q)) as V1 by (apply Rmult_le_pos; [lra|apply Rlt_le, Rinv_0_lt_compat; lra]).
      assert (0 <= (d0 + q - (a + b)) / q) as V2 by (apply Rmult_le_pos; [lra|apply Rlt_le, Rinv_0_lt_compat; exact SP]).
      assert (b / (d0 + q) <= (a + b - d0) / q) as V3.
      { apply (Rmult_le_reg_r ((d0 + q) * q)); [nra|]. replace (b / (d0 + q) * ((d0 + q) * q)) with (b * q) by (field; lra). replace ((a + b - d0) / q * ((d0 + q) * q)) with ((a + b - d0) * (d0 + q)) by (field; lra).
        assert (1 * (d0 * q) < (a / d0 + (a + b - d0) / q) * (d0 * q)) as Q by (apply Rmult_lt_compat_r; nra).
        replace ((a / d0 + (a + b - d0) / q) * (d0 * q)) with (a * q + (a + b - d0) * d0) in Q by (field; lra). nra. }
      assert ((a + b - d0) / q = 1 - (d0 + q - (a + b)) / q) as V4 by (field; lra).
      do 3 eexists. exists (b / (d0 + q)), ((d0 + q - (a + b)) / q), (1 - b / (d0 + q) - (d0 + q - (a + b)) / q). split; [exact F2|]. rewrite X1, Y1, X3, Y3, X4, Y4. repeat split; try lra; field; lra.
Qed.
Lemma polygon_cover : forall x y, polygon xc yc r n x y -> covers polar_mesh x y.
Proof using Hr Hm Hn.
  intros x y H. pose proof PI_RGT_0 as PP. pose proof In3 as I3. pose proof delta_range as DR. pose proof sin_delta as SD. pose proof half_sector as HS.
  set (X := x - xc). set (Y := y - yc). replace x with (xc + X) by (unfold X; ring). replace y with (yc + Y) by (unfold Y; ring).
  assert (exists rho t, 0 <= rho /\ 0 <= t <= 2 * PI /\ X = rho * cos t /\ Y = rho * sin t) as (rho & t & R0 & T & EX & EY).
  { destruct (Req_dec (X * X + Y * Y) 0) as [Z|Z].
    - exists 0, 0. assert (X = 0) by nra. assert (Y = 0) by nra. repeat split; lra.
    - assert (0 < X * X + Y * Y) as Z' by nra. destruct (atan2_spec X Y Z') as [A B]. pose proof (atan2_range Y X) as G.
      destruct (Rle_dec 0 (atan2 Y X)) as [L|L].
      + exists (sqrt (X * X + Y * Y)), (atan2 Y X). split; [apply sqrt_pos|]. split; [lra|]. split; symmetry; assumption.
      + exists (sqrt (X * X + Y * Y)), (atan2 Y X + 2 * PI). split; [apply sqrt_pos|]. split; [lra|]. rewrite cos_plus, sin_plus, cos_2PI, sin_2PI.
        split; [rewrite <- A at 1|rewrite <- B at 1]; ring. }
  destruct (cell (n - 1) (t / delta)) as (k & K & C).
  { replace (S (n - 1)) with n by lia. split; [apply Rmult_le_pos; [lra|apply Rlt_le, Rinv_0_lt_compat; lra]|].
    apply (Rmult_le_reg_r delta); [lra|]. replace (t / delta * delta) with t by (field; lra). unfold delta. replace (INR n * (2 * PI / INR n)) with (2 * PI) by (field; lra). lra. }
  assert (th k <= t <= th (S k)) as TK.
  { unfold th. fold delta. destruct C as [C1 C2]. split; [apply (Rmult_le_compat_r delta) in C1|apply (Rmult_le_compat_r delta) in C2]; try lra;
    replace (t / delta * delta) with t in * by (field; lra); assumption. }
  set (a := rho * sin (th (S k) - t) / sin delta). set (b := rho * sin (t - th k) / sin delta).
  assert (th (S k) = th k + delta) as TS by apply th_S.
  assert (0 <= sin (th (S k) - t)) as S1 by (apply sin_ge_0; lra). assert (0 <= sin (t - th k)) as S2 by (apply sin_ge_0; lra).
  assert (0 <= a) as A by (unfold a; apply Rmult_le_pos; [apply Rmult_le_pos; assumption|apply Rlt_le, Rinv_0_lt_compat; exact SD]).
  assert (0 <= b) as B by (unfold b; apply Rmult_le_pos; [apply Rmult_le_pos; assumption|apply Rlt_le, Rinv_0_lt_compat; exact SD]).
  assert (X = a * cos (th k) + b * cos (th (S k)) /\ Y = a * sin (th k) + b * sin (th (S k))) as [FX FY].
  { unfold a, b. rewrite EX, EY. pose proof (cross_rays k) as CR. rewrite !sin_minus.
    split; apply (Rmult_eq_reg_r (sin delta)); try lra; rewrite <- CR at 1; field; lra. }
  rewrite FX, FY. apply sector_cover; [lia|exact A|exact B|].
  specialize (H k ltac:(lia)). cbv zeta in H. fold X in H. fold Y in H. rewrite FX, FY in H. pose proof cos_half as CH. unfold delta in TS.
  set (f := (2 * INR k + 1) * PI / INR n) in *.
  assert ((a * cos (th k) + b * cos (th (S k))) * cos f + (a * sin (th k) + b * sin (th (S k))) * sin f = (a + b) * cos (PI / INR n)) as E.
  { transitivity (a * cos (th k - f) + b * cos (th (S k) - f)); [rewrite !cos_minus; ring|].
    replace (th (S k) - f) with (PI / INR n) by (unfold f, th; rewrite S_INR; field; lra).
    replace (th k - f) with (- (PI / INR n)) by (unfold f, th; field; lra). rewrite cos_neg. ring. }
  rewrite E in H. apply (Rmult_le_reg_r (cos (PI / INR n))); [exact CH|exact H].
Qed.
Lemma polar_tiles : tiles polar_mesh (polygon xc yc r n) (INR n * (r * r * sin (2 * PI / INR n) / 2)).
Proof using Hr Hm Hn.
  split; [|split; [|split; [|split]]].
  - intros i j k F. rewrite polar_count. destruct (face_cases _ F) as (q & Q & [G|(p & J & [G|G])]); injection G; intros; subst; repeat split; nia.
  - intros f F. pose proof sin_delta as SD. pose proof step_pos as SP. destruct (face_cases _ F) as (q & Q & [->|(p & J & G)]).
    + rewrite fan_area by exact Q. rewrite dd_S, dd_0. assert (0 < r / INR m * (r / INR m)) by nra. nra.
    + destruct (ring_area q p Q J) as [A1 A2]. assert (0 < dd p) as DP. { destruct p as [|p]; [lia|]. rewrite dd_S. pose proof (dd_pos p). lra. }
      destruct G as [->| ->]; [rewrite A1|rewrite A2]; rewrite dd_S; replace (dd p + r / INR m - dd p) with (r / INR m) by ring;
        apply Rdiv_lt_0_compat; try lra; apply Rmult_lt_0_compat; try exact SD; apply Rmult_lt_0_compat; lra.
  - apply polar_vertex.
  - apply polygon_cover.
  - rewrite polar_faces. apply sum_rows. intros k K. rewrite sector_area by lia. replace (S (m - 1)) with m by lia. rewrite dd_m. reflexivity.
Qed.
(** The heights: the first ray is at the grid height, all the other vertices at zero *)
Lemma polar_heights : forall k j, (k <= n)%nat -> (1 <= j <= m)%nat -> vz (corner polar_mesh (k * m + j)) = (if Nat.eqb k 0 then h else 0) /\ vz (corner polar_mesh 0) = h.
Proof using Hr Hm Hn.
  intros k j K J. unfold corner, polar_mesh, BuildPolarMeshGrid. cbv zeta. cbn [t_vertices].
  set (A := map (fun d => V (xc + d) yc h) (linspace 0 (2 * r * (1 / 2)) (S m))).
  assert (List.length A = S m) as LA by (unfold A; rewrite map_length; apply linspace_length).
  assert (forall i, (i < S m)%nat -> forall l, vz (nth i (A ++ l) vzero) = h) as LH.
  { intros i I l. rewrite app_nth1 by lia. unfold A. rewrite (nth_indep _ _ (V (xc + 0) yc h)) by (rewrite map_length, linspace_length; lia).
    rewrite (map_nth (fun d => V (xc + d) yc h)). reflexivity. }
  split; [|apply LH; lia]. destruct k as [|k]; [apply LH; cbn; lia|]. cbn [Nat.eqb].
  rewrite app_nth2 by nia. rewrite LA. replace (S k * m + j - S m)%nat with (k * m + (j - 1))%nat by nia.
  rewrite (rows_nth _ _ _ m _ _ _ 0%nat).
  - rewrite seq_nth by lia. replace (S m - 1)%nat with m by lia.
    match goal with |- context [nth (j - 1) (map ?f (seq 1 m)) vzero] => rewrite (nth_indep (map f (seq 1 m)) vzero (f 0%nat)) by (rewrite map_length, seq_length; lia); rewrite (map_nth f) end.
    reflexivity.
  - intros i _. rewrite map_length, seq_length. lia.
  - rewrite seq_length. lia.
  - lia.
Qed.
End polar.
