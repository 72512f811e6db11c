(** Property theorems C34, C35, C53, C54: the mesh clipper and the hydrostatic force it leads to. *)
From Coq Require Import Reals List Lra Lia Permutation Arith Bool.
From Verif Require Import GeoModel GeoSpec GeoProofs MeshModel MeshSpec MeshProofs2 MeshProofs7 MeshProofs8 MeshProofs10 MeshProps ClipModel ClipSpec ClipProofs ClipProofs2 ClipProofs3 ClipProofs4 ClipProofs5.
Import ListNotations.
Local Open Scope R_scope.

(** ** C34 *)
(** Plane: for end points on both sides, the point returned is on the plane and on the edge, and is
    the same from both ends. *)
Theorem C34_plane : forall pl bodyPos p q, unit3 (pl_normal pl) ->
  let d := above_plane (minus3 (pl_origin pl) (V (vx bodyPos) (vy bodyPos) 0)) (pl_normal pl) in
  d p * d q <= 0 -> 1 / 10 ^ 16 < Rabs (d q - d p) ->
  exists r, PlaneIntersection pl bodyPos p q = Some r /\ PlaneIntersection pl bodyPos q p = Some r /\ between p q r /\ d r = 0.
Proof.
  intros pl bp p q U d OP D. change d with (PlaneDistance pl bp) in *. destruct (plane_cut pl bp p q U D) as (r & A & B & C). exists r.
  split; [exact A|]. split; [rewrite <- plane_swap; exact A|]. split; [|exact C].
  assert (NE : PlaneDistance pl bp p - PlaneDistance pl bp q <> 0) by (intros K; assert (P16 : 0 < 1 / 10 ^ 16) by (apply Rdiv_lt_0_compat; [lra|apply pow_lt; lra]); replace (PlaneDistance pl bp q - PlaneDistance pl bp p) with 0 in D by lra; rewrite Rabs_R0 in D; lra).
  eexists. split; [|exact B]. set (x := PlaneDistance pl bp p) in *. set (y := PlaneDistance pl bp q) in *. clearbody x y.
  assert (S1 : 0 < (x - y) * (x - y)) by (destruct (Rtotal_order (x - y) 0) as [K|[K|K]]; nra).
  replace (x / (x - y)) with (x * (x - y) * / ((x - y) * (x - y))) by (field; exact NE). split; [apply Rle_mult_inv_pos; [nra|exact S1]|].
  apply (Rmult_le_reg_r ((x - y) * (x - y))); [exact S1|]. rewrite Rmult_assoc, Rinv_l by lra. nra.
Qed.
(** Wave surface: whatever the free surface, as long as the distance to it is Lipschitz (the bound
    covers every constant and length below 10^290) *)
Theorem C34_wave : forall eta bodyPos K tolerance p q, 0 <= tolerance ->
  let d := fun x : vec => vz x - eta (vx x + vx bodyPos) (vy x + vy bodyPos) in
  lipschitz d K -> K * dist3 p q <= 2 * tolerance * 2 ^ 1001 -> opposite_sides d tolerance p q ->
  between p q (WaveIntersection eta bodyPos tolerance p q) /\ Rabs (d (WaveIntersection eta bodyPos tolerance p q)) <= tolerance.
Proof.
  intros eta bp K tol p q T0 d L H OP.
  assert (E : forall x, d x = WaveDistance eta bp x) by (intros x; unfold d, WaveDistance, horizontal, vadd; cbn [vx vy vz]; ring).
  rewrite E. apply (wave_cut eta bp tol K); auto; [intros a b; rewrite <- !E; apply L|]. left. unfold opposite_sides in *. rewrite <- !E. exact OP.
Qed.
Example C34_wave_nontrivial : lipschitz (fun x => vz x - 0) 1 /\ opposite_sides (fun x => vz x - 0) (1/10) (V 0 0 1) (V 0 0 (-1)) /\ 1 * dist3 (V 0 0 1) (V 0 0 (-1)) <= 2 * (1/10) * 2 ^ 1001.
Proof.
  split; [|split].
  - intros [a1 a2 a3] [b1 b2 b3]. cbn [vz]. rewrite Rmult_1_l. unfold dist3. replace (a3 - 0 - (b3 - 0)) with (a3 - b3) by ring. rewrite <- sqrt_Rsqr_abs. apply sqrt_le_1_alt. pose proof (Rle_0_sqr (a1 - b1)). pose proof (Rle_0_sqr (a2 - b2)). unfold Rsqr in *. geo. lra.
  - left. cbn [vz]. lra.
  - assert (1 * dist3 (V 0 0 1) (V 0 0 (-1)) <= 2).
    { rewrite Rmult_1_l. unfold dist3. rewrite <- (sqrt_square 2) by lra. apply sqrt_le_1_alt. geo. lra. }
    assert (1024 <= 2 ^ 1001) by (replace 1024 with (2 ^ 10) by lra; apply Rle_pow; [lra|lia]). lra.
Qed.
(** Without continuity the loop runs out and the origin is returned, which is not on the edge. *)
Theorem C109_jump_refuted : exists eta p q, opposite_sides (fun x => vz x - eta (vx x) (vy x)) 1 p q /\
  WaveIntersection eta origin 1 p q = origin /\ ~ between p q origin.
Proof.
  exists (fun x _ => if Rlt_dec (1/3) x then 5 else -5), (V 0 1 0), (V 1 1 0). split; [|split].
  - left. cbn [vx vy vz]. destruct (Rlt_dec (1/3) 0); [lra|]. destruct (Rlt_dec (1/3) 1); lra.
  - unfold WaveIntersection. set (d := WaveDistance _ origin).
    assert (D : forall p, vz p = 0 -> ~ Rabs (d p) <= 1).
    { intros p Z. unfold d, WaveDistance, horizontal, vadd, origin. cbn [vx vy vz]. rewrite Z. destruct (Rlt_dec (1/3) (vx p + 0)); unfold Rabs; destruct (Rcase_abs _); lra. }
    destruct (Rle_dec (Rabs (d (V 0 1 0))) 1) as [K|_]; [exfalso; refine (D _ _ K); reflexivity|]. destruct (Rle_dec (Rabs (d (V 1 1 0))) 1) as [K|_]; [exfalso; refine (D _ _ K); reflexivity|].
    assert (L : forall n z s0 s1, dichotomy n d 1 z (V 0 1 0) (V 1 1 0) s0 s1 = origin); [|apply L].
    induction n as [|n IH]; intros z s0 s1; [reflexivity|]. cbn [dichotomy].
    match goal with |- context [Rle_dec (Rabs (d ?P)) 1] => destruct (Rle_dec (Rabs (d P)) 1) as [K|_]; [exfalso; refine (D P _ K); geo; ring|] end. apply IH.
  - intros (s & _ & E). apply (f_equal vy) in E. revert E. geo. lra.
Qed.

(** ** C35 *)
Theorem C35_vertex : forall sf threshold p, 0 < threshold ->
  (ClassifyVertex sf threshold p = VP_ON <-> Rabs (s_dist sf p) < threshold) /\
  (ClassifyVertex sf threshold p = VP_ABOVE <-> threshold <= s_dist sf p) /\
  (ClassifyVertex sf threshold p = VP_UNDER <-> s_dist sf p <= - threshold).
Proof. exact classify_vertex. Qed.
(** Numbers of corners of each sort *)
Definition vpos_dec : forall x y : vpos, {x = y} + {x <> y} := ltac:(decide equality).
Definition number (x : vpos) (l : list vpos) : nat := count_occ vpos_dec l x.
Theorem C35_face : forall a b c, digits (ClassifyFace a b c) = (number VP_ABOVE [a; b; c], number VP_ON [a; b; c], number VP_UNDER [a; b; c]).
Proof. intros [] [] []; reflexivity. Qed.
(** Different counts, different types *)
Theorem C35_types_distinct : forall f g, digits f = digits g -> f = g.
Proof. intros [] []; try reflexivity; discriminate. Qed.
(** The distance used with a plane at height h is the height over it, wherever the body is *)
Theorem C35_horizontal_plane : forall h bodyPos p, exists pl, with_frame (V 0 0 h) (V 0 0 1) = Some pl /\ s_dist (ClippingPlane pl bodyPos) p = vz p - h.
Proof. intros h bp p. destruct (horizontal_plane h) as (f & E). exists (Pl (V 0 0 h) (V 0 0 1) f). split; [exact E|apply horizontal_distance]. Qed.

(** ** C53 *)
Lemma sixteen thr : 1 / 10 ^ 16 <= thr -> 0 < thr.
Proof. intros H. assert (0 < 1 / 10 ^ 16) by (apply Rdiv_lt_0_compat; [lra|apply pow_lt; lra]). lra. Qed.
(** Any plane, threshold and projection ratio at most 1: the clipping succeeds within 4 visits per
    face, nothing sticks out more than the threshold, and a mesh without border is left with a
    border within the threshold of the plane: a fan of triangles from any point o to border points
    closes it. *)
Theorem C53_plane : forall fuel om pl bodyPos threshold ratio m, circulators om -> unit3 (pl_normal pl) -> 1 / 10 ^ 16 <= threshold -> ratio <= 1 ->
  indices_ok (verts m) (faces m) -> proper (faces m) -> (forall p, In p (verts m) -> in_world p) -> (4 * length (faces m) <= fuel)%nat ->
  let d := above_plane (minus3 (pl_origin pl) (V (vx bodyPos) (vy bodyPos) 0)) (pl_normal pl) in
  exists m', Apply fuel om (ClippingPlane pl bodyPos) threshold ratio m = Some m' /\ indices_ok (verts m') (faces m') /\ proper (faces m') /\
    (forall a b c, In (a, b, c) (soup_of (verts m') (faces m')) -> d a < threshold /\ d b < threshold /\ d c < threshold) /\
    (borderless (faces m) -> forall o, exists lid, (forall a b c, In (a, b, c) lid -> a = o /\ Rabs (d b) < threshold /\ Rabs (d c) < threshold) /\
       watertight (soup_of (verts m') (faces m') ++ lid)).
Proof.
  intros fuel om pl bp thr ratio m OMc U T R1 IX PR W FU d.
  destruct (apply_ok om (ClippingPlane pl bp) thr ratio (borderless (faces m)) False (fun p => Rabs (PlaneDistance pl bp p) < thr) OMc) with (fuel := fuel) (m := m) as (m' & A & B & C & D & _ & E & _ & F & _); auto; try contradiction.
  - intros p q _ _ OP. exact (plane_cuts pl bp thr U T p q OP).
  - exact (sixteen _ T).
  - exists m'. repeat (split; [assumption|]). exact F.
Qed.
(** Any free surface with a Lipschitz constant (at most 10^200) and a threshold larger than the
    tolerance of the bisection.  Not claimed: the default values, where both are 10^-4 and a point found
    at exactly this distance would be taken as crossing again. *)
Theorem C53_wave : forall fuel om eta bodyPos threshold ratio K m, circulators om -> 1 / 10 ^ 4 < threshold -> ratio <= 1 ->
  let d := fun x : vec => vz x - eta (vx x + vx bodyPos) (vy x + vy bodyPos) in
  0 <= K <= 10 ^ 200 -> lipschitz d K ->
  indices_ok (verts m) (faces m) -> proper (faces m) -> (forall p, In p (verts m) -> in_world p) -> (4 * length (faces m) <= fuel)%nat ->
  exists m', Apply fuel om (ClippingWaveSurface eta bodyPos) threshold ratio m = Some m' /\ indices_ok (verts m') (faces m') /\ proper (faces m') /\
    (forall a b c, In (a, b, c) (soup_of (verts m') (faces m')) -> d a < threshold /\ d b < threshold /\ d c < threshold) /\
    (borderless (faces m) -> forall o, exists lid, (forall a b c, In (a, b, c) lid -> a = o /\ Rabs (d b) < threshold /\ Rabs (d c) < threshold) /\
       watertight (soup_of (verts m') (faces m') ++ lid)).
Proof.
  intros fuel om eta bp thr ratio K m OMc T R1 d K1 L IX PR W FU.
  assert (E : forall x, d x = WaveDistance eta bp x) by (intros x; unfold d, WaveDistance, horizontal, vadd; cbn [vx vy vz]; ring).
  assert (L' : lipschitz (WaveDistance eta bp) K) by (intros a b; rewrite <- !E; apply L).
  destruct (apply_ok om (ClippingWaveSurface eta bp) thr ratio (borderless (faces m)) False (fun p => Rabs (WaveDistance eta bp p) < thr) OMc) with (fuel := fuel) (m := m) as (m' & A & B & C & D & _ & F & _ & G & _); auto; try contradiction.
  - intros p q Wp Wq OP. apply (wave_cuts eta bp K thr L' T p q); [|exact OP].
    pose proof (world_length _ _ Wq Wp) as H. rewrite vnorm_dist in H. assert (D0 : 0 <= dist3 p q) by apply sqrt_pos.
    apply (Rle_trans _ (10 ^ 200 * 10 ^ 10)); [apply Rmult_le_compat; lra|]. unfold ThresholdDichotomy.
    apply (Rmult_le_reg_r (10 ^ 4)); [apply pow_lt; lra|]. replace (2 * (1 / 10 ^ 4) * 2 ^ 1001 * 10 ^ 4) with (2 * 2 ^ 1001) by (field; apply pow_nonzero; lra).
    rewrite <- !pow_add. apply (Rle_trans _ (16 ^ 214)); [apply pow_incr; lra|]. replace 16 with (2 ^ 4) by lra. rewrite <- pow_mult. apply (Rle_trans _ (2 ^ 1001)); [apply Rle_pow; [lra|lia]|]. assert (0 < 2 ^ 1001) by (apply pow_lt; lra). lra.
  - assert (0 < 1 / 10 ^ 4) by lra. lra.
  - exists m'. split; [exact A|]. split; [exact C|]. split; [exact D|]. split.
    + intros a b c H. rewrite !E. exact (F a b c H).
    + intros BL o. destruct (G BL o) as (lid & L1 & L2). exists lid. split; [|exact L2]. intros a b c H. rewrite !E. exact (L1 a b c H).
Qed.
(** Without projection (ratio 0) and when no vertex is closer to the plane than the threshold
    without being on it, the result covers exactly the part of the surface under the plane; what is
    thrown away is above it; volumes, areas and every other additive quantity add up; the vertices
    of the mesh do not move. *)
Theorem C53_plane_exact : forall fuel om pl bodyPos threshold ratio m, circulators om -> unit3 (pl_normal pl) -> 1 / 10 ^ 16 <= threshold -> ratio <= 0 ->
  indices_ok (verts m) (faces m) -> proper (faces m) -> (forall p, In p (verts m) -> in_world p) -> (4 * length (faces m) <= fuel)%nat ->
  let d := above_plane (minus3 (pl_origin pl) (V (vx bodyPos) (vy bodyPos) 0)) (pl_normal pl) in
  (forall p, In p (verts m) -> Rabs (d p) < threshold -> d p = 0) ->
  let before := soup_of (verts m) (faces m) in
  exists m' dry, Apply fuel om (ClippingPlane pl bodyPos) threshold ratio m = Some m' /\
    let after := soup_of (verts m') (faces m') in
    (forall p, covered after p -> covered before p /\ d p <= 0) /\ (forall p, covered before p -> d p < 0 -> covered after p) /\
    (forall p, covered dry p -> covered before p /\ 0 <= d p) /\
    (forall i, (i < length (verts m))%nat -> nth i (verts m') origin = nth i (verts m) origin) /\
    volume after + volume dry = volume before /\ sum (map triangle_area after) + sum (map triangle_area dry) = sum (map triangle_area before) /\
    (forall phi, additive phi -> total_over phi after + total_over phi dry = total_over phi before) /\
    (borderless (faces m) -> forall o, d o = 0 -> exists lid, (forall a b c, In (a, b, c) lid -> a = o /\ d b = 0 /\ d c = 0) /\ watertight (after ++ lid)).
Proof.
  intros fuel om pl bp thr ratio m OMc U T R0 IX PR W FU d NR before. pose proof (sixteen _ T) as T0.
  destruct (apply_ok om (ClippingPlane pl bp) thr ratio (borderless (faces m)) True (fun p => PlaneDistance pl bp p = 0) OMc) with (fuel := fuel) (m := m) as (m' & A & B & C & D & _ & E & E2 & F & G); auto.
  - intros p q _ _ OP. destruct (plane_cuts pl bp thr U T p q OP) as (r & Q1 & Q2 & _). exists r. split; [exact Q1|]. split; [exact Q2|].
    destruct (plane_cut pl bp p q U) as (r' & Q3 & _ & Q4); [|cbn [s_inter ClippingPlane] in Q1; congruence]. cbn [s_dist ClippingPlane] in OP. destruct OP as [[X Y]|[X Y]]; [rewrite Rabs_left by lra|rewrite Rabs_right by lra]; lra.
  - intros r Hr. cbn [s_dist ClippingPlane]. rewrite Hr, Rabs_R0. exact T0.
  - lra.
  - destruct (G Logic.I) as (G1 & G2 & dry & G3 & G4 & G5). exists m', dry. split; [exact A|]. cbv zeta. pose proof (plane_affine pl bp) as AF.
    assert (DR : forall p, covered dry p -> 0 <= d p).
    { intros p (a & b & c & K1 & K2). assert (Z : forall q, q = a \/ q = b \/ q = c -> 0 <= PlaneDistance pl bp q) by (intros q Hq; destruct (G3 a b c K1 q Hq) as [Z|Z]; [lra|cbn in Z; lra]). apply (affine_above (PlaneDistance pl bp) a b c p 0 AF K2); apply Z; auto. }
    split; [|split; [|split; [|split; [|split; [|split; [|split]]]]]].
    + intros p K. split; [apply G4; left; exact K|]. destruct K as (a & b & c & K1 & K2). assert (Z : forall q, q = a \/ q = b \/ q = c -> PlaneDistance pl bp q <= 0) by (intros q Hq; destruct (E2 a b c K1 q Hq) as [Z|Z]; [lra|cbn in Z; lra]). apply (affine_below (PlaneDistance pl bp) a b c p 0 AF K2); apply Z; auto.
    + intros p K N. apply G4 in K as [K|K]; [exact K|]. apply DR in K. lra.
    + intros p K. split; [apply G4; right; exact K|apply DR, K].
    + exact G1.
    + rewrite !C32_signed_tetrahedra. exact (G5 _ det_additive).
    + pose proof (G5 _ surface_additive) as Q. unfold total_over in Q. assert (X : forall s : soup, map (fun t => let '(a, b, c) := t in triangle_area (a, b, c)) s = map triangle_area s) by (intros s; apply map_ext; intros [[? ?] ?]; reflexivity). rewrite !X in Q. exact Q.
    + exact G5.
    + intros BL o Do. exact (F BL o).
Qed.

(** ** C53, C54: force of the clipped mesh *)
Lemma hydro_mesh fuel om m0 body h : circulators om ->
  indices_ok (verts m0) (faces m0) -> proper (faces m0) -> borderless (faces m0) -> (4 * length (faces m0) <= fuel)%nat ->
  (forall p, In p (verts (HM_Place m0 body)) -> in_world p /\ (Rabs (vz p - h) < 1 / 10 ^ 4 -> vz p = h)) ->
  exists m' lid, HM_ComputePlane fuel om m0 body h = Some m' /\ fresh m' /\ level h lid /\ watertight (mesh_soup m' ++ lid) /\
    (forall a b c, In (a, b, c) (mesh_soup m') -> vz a <= h /\ vz b <= h /\ vz c <= h).
Proof.
  intros OMc IX PR BL FU H. unfold HM_ComputePlane. destruct (horizontal_plane h) as (f & ->). set (pl := Pl (V 0 0 h) (V 0 0 1) f). set (bp := GetPosition body NWU).
  assert (DI : forall p, PlaneDistance pl bp p = vz p - h) by (intros p; apply horizontal_distance).
  assert (U : unit3 (Pl_GetNormal pl NWU)) by (unfold unit3, Pl_GetNormal, swap_if, IsNED, dot3; cbn; ring).
  assert (T : 1 / 10 ^ 16 <= Threshold) by (unfold Threshold; lra).
  destruct (apply_ok om (ClippingPlane pl bp) Threshold ProjectionThresholdRatio True False (fun p => vz p = h) OMc) with (fuel := fuel) (m := HM_Place m0 body) as (m' & A & B & _ & _ & _ & _ & E2 & F & _); auto; try contradiction.
  - intros p q _ _ OP. destruct (plane_cuts pl bp Threshold U T p q OP) as (r & Q1 & Q2 & _). exists r. split; [exact Q1|]. split; [exact Q2|].
    destruct (plane_cut pl bp p q U) as (r' & Q3 & _ & Q4); [|cbn [s_inter ClippingPlane] in Q1; rewrite DI in Q4; assert (r = r') by congruence; subst; lra].
    cbn [s_dist ClippingPlane] in OP. destruct OP as [[X Y]|[X Y]]; [rewrite Rabs_left by (unfold Threshold in *; lra)|rewrite Rabs_right by (unfold Threshold in *; lra)]; unfold Threshold in *; lra.
  - intros r Hr. cbn [s_dist ClippingPlane]. rewrite DI, Hr. replace (h - h) with 0 by ring. rewrite Rabs_R0. unfold Threshold; lra.
  - unfold Threshold; lra.
  - unfold ProjectionThresholdRatio; lra.
  - unfold HM_Place, MTranslate, MRotate, UpdateAllProperties. cbn [verts faces]. intros a b c K. rewrite !map_length. exact (IX a b c K).
  - intros p Hp. apply (H p Hp).
  - intros p Hp. cbn [s_dist ClippingPlane]. rewrite DI. apply (H p Hp).
  - destruct (F Logic.I (V 0 0 h)) as (lid & L1 & L2). exists m', lid. split; [exact A|]. split; [apply update_fresh, B|]. split; [|split; [exact L2|]].
    + intros a b c K. destruct (L1 a b c K) as (-> & Y & Z). auto.
    + assert (Z : forall a b c q, In (a, b, c) (mesh_soup m') -> q = a \/ q = b \/ q = c -> vz q <= h).
      { intros a b c q K Hq. destruct (E2 a b c K q Hq) as [Z|Z]; [lra|]. cbn [s_dist ClippingPlane] in Z. rewrite DI in Z. unfold Threshold in Z. lra. }
      intros a b c K. repeat split; apply (Z a b c); auto.
Qed.
(** Archimedes from the mesh of the body to the force, with the default settings of the clipper:
    without tide, the force is the weight of the water in the volume closed by the plane z = 0. *)
Theorem C53_archimedes : forall fuel om m0 body rho g fc, circulators om ->
  indices_ok (verts m0) (faces m0) -> proper (faces m0) -> borderless (faces m0) -> (4 * length (faces m0) <= fuel)%nat ->
  (forall p, In p (verts (HM_Place m0 body)) -> in_world p /\ (Rabs (vz p) < 1 / 10 ^ 4 -> vz p = 0)) ->
  exists m' waterplane, HM_ComputePlane fuel om m0 body 0 = Some m' /\
    (forall a b c, In (a, b, c) (soup_of (verts m') (faces m')) -> vz a <= 0 /\ vz b <= 0 /\ vz c <= 0) /\
    flat waterplane /\ watertight (soup_of (verts m') (faces m') ++ waterplane) /\
    GetHydrostaticForceInWorld m' rho g fc = convert fc (V 0 0 (rho * g * volume (soup_of (verts m') (faces m') ++ waterplane))).
Proof.
  intros fuel om m0 body rho g fc OMc IX PR BL FU H.
  destruct (hydro_mesh fuel om m0 body 0 OMc IX PR BL FU) as (m' & lid & A & B & C & D & E).
  { intros p Hp. destruct (H p Hp) as [H1 H2]. split; [exact H1|]. rewrite Rminus_0_r. exact H2. }
  exists m', lid. split; [exact A|]. split; [exact E|]. split; [exact C|]. split; [exact D|]. apply archimedes; assumption.
Qed.
(** The vertices of the placed mesh *)
Theorem C53_placed : forall m0 body, faces (HM_Place m0 body) = faces m0 /\
  verts (HM_Place m0 body) = map (fun p => plus3 (qrotate (frot body) p) (V 0 0 (vz (GeoModel.fpos body)))) (verts m0).
Proof.
  intros m0 body. split; [reflexivity|]. unfold HM_Place, MTranslate, MRotate, UpdateAllProperties. cbn [verts]. rewrite map_map. apply map_ext. intros p.
  unfold UQ_GetRotationMatrix. change (mapply (Set_A_quaternion (frot body)) p) with (mv (Set_A_quaternion (frot body)) p). rewrite qrotate_mat. reflexivity.
Qed.

(** With a tide h the plane is raised but the pressure is still counted from z = 0: the force misses
    the weight of a layer of thickness h over the waterplane. *)
Theorem C54_force_with_tide : forall fuel om m0 body h rho g fc, circulators om ->
  indices_ok (verts m0) (faces m0) -> proper (faces m0) -> borderless (faces m0) -> (4 * length (faces m0) <= fuel)%nat ->
  (forall p, In p (verts (HM_Place m0 body)) -> in_world p /\ (Rabs (vz p - h) < 1 / 10 ^ 4 -> vz p = h)) ->
  exists m' waterplane, HM_ComputePlane fuel om m0 body h = Some m' /\ level h waterplane /\ watertight (soup_of (verts m') (faces m') ++ waterplane) /\
    GetHydrostaticForceInWorld m' rho g fc = convert fc (V 0 0 (rho * g * (volume (soup_of (verts m') (faces m') ++ waterplane) - h * horizontal_area waterplane))).
Proof.
  intros fuel om m0 body h rho g fc OMc IX PR BL FU H.
  destruct (hydro_mesh fuel om m0 body h OMc IX PR BL FU H) as (m' & lid & A & B & C & D & E).
  exists m', lid. split; [exact A|]. split; [exact C|]. split; [exact D|]. apply tide_force; assumption.
Qed.

(** A tetrahedron with the apex at the bottom *)
Definition cone_verts (h : R) : list vec := [V 0 0 h; V 1 0 h; V 0 1 h; V 0 0 (h - 1)].
Definition cone_faces : list tri := [(0, 1, 2); (1, 0, 3); (2, 1, 3); (0, 2, 3)]%nat.
Definition easy_om : openmesh := OM (fun _ => true) (fun t => [fst (fst t); snd (fst t); snd t])
  (fun fs v => map snd (filter (fun e => Nat.eqb (fst e) v) (mesh_edges fs)) ++ map fst (filter (fun e => Nat.eqb (snd e) v) (mesh_edges fs))).
Lemma easy_ok : circulators easy_om.
Proof.
  split.
  - intros a b c x. cbn. intuition.
  - intros fs v n. cbn [easy_om om_outgoing]. rewrite in_app_iff, !in_map_iff. split.
    + intros [(e & <- & H)|(e & <- & H)]; apply filter_In in H as [H1 H2]; apply Nat.eqb_eq in H2; subst v; destruct e; auto.
    + intros [H|H]; [left; exists (v, n)|right; exists (n, v)]; (split; [reflexivity|apply filter_In; split; [exact H|apply Nat.eqb_refl]]).
Qed.
Lemma cone_ok : indices_ok (cone_verts 0) cone_faces /\ proper cone_faces /\ borderless cone_faces.
Proof.
  split; [|split].
  - intros a b c H. cbn in H. cbn [cone_verts length]. repeat (destruct H as [H|H]; [injection H as <- <- <-; lia|]). destruct H.
  - intros a b c H. cbn in H. repeat (destruct H as [H|H]; [injection H as <- <- <-; repeat split; discriminate|]). destruct H.
  - apply NoDup_Permutation; [apply nodupb_ok; vm_compute; reflexivity|apply nodupb_ok; vm_compute; reflexivity|]. intros [x y]. cbn. split; intros H; repeat (destruct H as [H|H]; [injection H as <- <-; tauto|]); destruct H.
Qed.
Definition ident_frame : frame := Fr (V 0 0 0) (Q 1 0 0 0).
Lemma cone_placed h : verts (HM_Place (MLoad empty_mesh (cone_verts h) cone_faces) ident_frame) = cone_verts h.
Proof.
  rewrite (proj2 (C53_placed _ _)). unfold MLoad, UpdateAllProperties, empty_mesh, ident_frame. cbn [verts app GeoModel.fpos frot vz].
  assert (E : forall p, plus3 (qrotate (Q 1 0 0 0) p) (V 0 0 0) = p) by (intros p; destruct p; apply vec_eq; geo; ring). rewrite (map_ext _ _ E). apply map_id.
Qed.
(** The hypotheses of C53_archimedes and C53_plane_exact hold for a cone cut at half height *)
Example C53_nontrivial : let m0 := MLoad empty_mesh (cone_verts (1/2)) cone_faces in circulators easy_om /\
  indices_ok (verts m0) (faces m0) /\ proper (faces m0) /\ borderless (faces m0) /\
  (forall p, In p (verts (HM_Place m0 ident_frame)) -> in_world p /\ (Rabs (vz p) < 1 / 10 ^ 4 -> vz p = 0)) /\
  (exists p, covered (soup_of (verts m0) (faces m0)) p /\ vz p < 0) /\ (exists p, covered (soup_of (verts m0) (faces m0)) p /\ 0 < vz p).
Proof.
  cbv zeta. split; [exact easy_ok|]. destruct cone_ok as (A & B & C). split; [exact A|]. split; [exact B|]. split; [exact C|]. split; [|split].
  - rewrite cone_placed. intros p H. cbn in H. unfold in_world. repeat (destruct H as [H|H]; [subst p; cbn [vx vy vz]; (split; [lra|]); intros K; unfold Rabs in K; destruct (Rcase_abs _) in K; lra|]). destruct H.
  - exists (V 0 0 (1/2 - 1)). split; [|cbn [vz]; lra]. exists (V 1 0 (1/2)), (V 0 0 (1/2)), (V 0 0 (1/2 - 1)). split; [cbn; auto|]. exists 0, 0, 1. repeat split; try lra. apply vec_eq; geo; ring.
  - exists (V 0 0 (1/2)). split; [|cbn [vz]; lra]. exists (V 1 0 (1/2)), (V 0 0 (1/2)), (V 0 0 (1/2 - 1)). split; [cbn; auto|]. exists 0, 1, 0. repeat split; try lra. apply vec_eq; geo; ring.
Qed.
(** A cone floating with its top in the water surface at tide h: Archimedes' force is missed. *)
Theorem C122_tide_refuted : forall rho g, rho * g <> 0 -> exists m0 m' waterplane,
  borderless (faces m0) /\ HM_ComputePlane 16 easy_om m0 ident_frame 1 = Some m' /\ level 1 waterplane /\ watertight (soup_of (verts m') (faces m') ++ waterplane) /\
  volume (soup_of (verts m') (faces m') ++ waterplane) = 1/6 /\ GetHydrostaticForceInWorld m' rho g NWU = V 0 0 (rho * g * (1/6 - 1/2)).
Proof.
  intros rho g NZ. set (m0 := MLoad empty_mesh (cone_verts 1) cone_faces). 
  set (m' := UpdateAllProperties (Mesh (cone_verts 1) [(1, 0, 3); (2, 1, 3); (0, 2, 3)]%nat nil None)).
  exists m0, m', [(V 0 0 1, V 1 0 1, V 0 1 1)].
  split; [exact (proj2 (proj2 cone_ok))|].
  assert (E : HM_ComputePlane 16 easy_om m0 ident_frame 1 = Some m').
  { unfold HM_ComputePlane. destruct (horizontal_plane 1) as (f & ->). unfold Apply.
    assert (I : ClipInitialize (ClippingPlane (Pl (V 0 0 1) (V 0 0 1) f) (GetPosition ident_frame NWU)) Threshold (HM_Place m0 ident_frame) = CM (cone_verts 1) [VP_ON; VP_ON; VP_ON; VP_UNDER] cone_faces nil).
    { unfold ClipInitialize. unfold m0. rewrite cone_placed. f_equal. cbn [cone_verts map].
      assert (CV : forall x y z, ClassifyVertex (ClippingPlane (Pl (V 0 0 1) (V 0 0 1) f) (GetPosition ident_frame NWU)) Threshold (V x y z) = if Rlt_dec (Rabs (z - 1)) Threshold then VP_ON else if Rlt_dec 0 (z - 1) then VP_ABOVE else VP_UNDER).
      { intros x y z. unfold ClassifyVertex. cbn [s_dist ClippingPlane]. rewrite horizontal_distance. reflexivity. }
      rewrite !CV. unfold Threshold. replace (1 - 1) with 0 by ring. rewrite Rabs_R0. destruct (Rlt_dec 0 (1 / 10 ^ 4)) as [_|K]; [|exfalso; lra].
      destruct (Rlt_dec (Rabs (0 - 1)) (1 / 10 ^ 4)) as [K|_]; [exfalso; unfold Rabs in K; destruct (Rcase_abs _) in K; lra|]. destruct (Rlt_dec 0 (0 - 1)) as [K|_]; [exfalso; lra|]. reflexivity. }
    rewrite I. unfold m'. generalize (cone_verts 1). intros vs. reflexivity. }
  split; [exact E|].
  assert (LV : level 1 [(V 0 0 1, V 1 0 1, V 0 1 1)]) by (intros a b c [H|[]]; injection H as <- <- <-; cbn; auto). split; [exact LV|].
  assert (W : watertight (soup_of (verts m') (faces m') ++ [(V 0 0 1, V 1 0 1, V 0 1 1)])).
  { pose proof (proj2 (proj2 cone_ok)) as BL. unfold watertight.
    assert (P : Permutation (soup_of (verts m') (faces m') ++ [(V 0 0 1, V 1 0 1, V 0 1 1)]) (soup_of (cone_verts 1) cone_faces)) by (apply Permutation_app_comm).
    unfold soup_edges. rewrite P. change (watertight (soup_of (cone_verts 1) cone_faces)).
    pose proof (lid_closes (point (cone_verts 1)) origin cone_faces nil (allE cone_faces) (Permutation_refl _)) as Q. unfold lid_of in Q. cbn [map] in Q. rewrite app_nil_r in Q. apply Q. rewrite <- mesh_allE. exact BL. }
  split; [exact W|].
  assert (VO : volume (soup_of (verts m') (faces m') ++ [(V 0 0 1, V 1 0 1, V 0 1 1)]) = 1/6).
  { rewrite C32_signed_tetrahedra. cbn [m' UpdateAllProperties verts faces cone_verts soup_of map app triangle_at nth]. unfold sum, det3. cbn [fold_right]. geo. lra. }
  split; [exact VO|].
  pose proof (tide_force m' [(V 0 0 1, V 1 0 1, V 0 1 1)] 1 rho g NWU eq_refl LV W) as F. unfold mesh_soup in F. rewrite F, VO. unfold horizontal_area, total_over, sum, area2. cbn [map fold_right]. apply vec_eq; geo; try ring. field.
Qed.

(** ** C55: mesh offset *)
(** ImportMesh is documented to express the mesh in the body frame; it agrees with the offset frame
    only without translation or without rotation. *)
Theorem C55_import_partial : forall vs fs offset, unitq (frot offset) -> GeoModel.fpos offset = origin \/ (forall p, qrotate (frot offset) p = p) ->
  verts (ImportMesh vs fs offset) = map (fun p => plus3 (GeoModel.fpos offset) (qrotate (frot offset) p)) vs.
Proof.
  intros vs fs o U H. unfold ImportMesh, MRotate, MTranslate, MLoad, UpdateAllProperties, empty_mesh. cbn [verts app]. rewrite map_map. apply map_ext. intros p.
  unfold UQ_GetRotationMatrix. change (mapply (Set_A_quaternion (frot o))) with (mv (Set_A_quaternion (frot o))). rewrite qrotate_mat. change (GetPosition o NWU) with (GeoModel.fpos o).
  destruct H as [H|H]; [rewrite H|rewrite !H]; [|destruct p, (GeoModel.fpos o); apply vec_eq; geo; ring].
  replace (vadd p origin) with p by (destruct p; apply vec_eq; geo; ring). generalize (qrotate (frot o) p). intros w. destruct w; apply vec_eq; geo; ring.
Qed.
Theorem C55_import_refuted : exists vs fs offset, unitq (frot offset) /\
  verts (ImportMesh vs fs offset) = [V 0 1 0] /\ map (fun p => plus3 (GeoModel.fpos offset) (qrotate (frot offset) p)) vs = [V 1 0 0].
Proof.
  exists [V 0 0 0], nil, (Fr (V 1 0 0) (Q (sqrt 2 / 2) 0 0 (sqrt 2 / 2))). assert (S2 : sqrt 2 * sqrt 2 = 2) by (apply sqrt_sqrt; lra).
  assert (D2 : sqrt 2 / 2 * (sqrt 2 / 2) = 1 / 2) by lra. set (k := sqrt 2 / 2) in *. clearbody k. clear S2.
  split; [unfold unitq; cbn [frot q0 q1 q2 q3]; lra|]. split.
  - unfold ImportMesh, MRotate, MTranslate, MLoad, UpdateAllProperties, empty_mesh. cbn [verts app map]. f_equal.
    unfold UQ_GetRotationMatrix. change (mapply (Set_A_quaternion ?q)) with (mv (Set_A_quaternion q)). rewrite qrotate_mat. unfold GetPosition, swap_if, IsNED. cbn [GeoModel.fpos frot]. apply vec_eq; geo; nra.
  - cbn [map GeoModel.fpos frot]. f_equal. apply vec_eq; geo; nra.
Qed.
