(** Rigid motions of meshes, boxes, Archimedes (C32, C33). *)
From Coq Require Import Reals List Lra Lia Permutation Arith Bool.
From Coquelicot Require Import Coquelicot.
From Verif Require Import GeoModel GeoSpec GeoProofs GeoProofs2 GeoProofs3 GeoProofs4 MeshModel MeshSpec MeshProofs MeshProofs2 MeshProofs3 MeshProofs4 MeshProofs5 MeshProofs6 MeshProofs7 MeshProofs8.
Import ListNotations.
Open Scope R_scope.

(** ** Moving soups *)
Definition rig (r : mat) (t : vec) (p : vec) : vec := plus3 (mv r p) t.
Lemma move_app g a b : move g (a ++ b) = move g a ++ move g b. Proof. apply map_app. Qed.
Lemma move_comp g h s : move g (move h s) = move (fun p => g (h p)) s.
Proof. unfold move. rewrite map_map. apply map_ext. intros [[a b] c]; reflexivity. Qed.
Lemma move_ext g h s : (forall p, g p = h p) -> move g s = move h s.
Proof. intros E. unfold move. apply map_ext. intros [[a b] c]. rewrite !E. reflexivity. Qed.
Lemma move_edges g s : soup_edges (move g s) = map (fun e => (g (fst e), g (snd e))) (soup_edges s).
Proof. unfold soup_edges. induction s as [|[[a b] c] s IH]; [reflexivity|]. cbn [move map concat tri_edges]. rewrite map_app. unfold move in IH. rewrite IH. reflexivity. Qed.
Lemma watertight_move g s : watertight s -> watertight (move g s).
Proof.
  unfold watertight. intros W. rewrite move_edges. pose proof (Permutation_map (fun e => (g (fst e), g (snd e))) W) as P. rewrite P at 1. rewrite !map_map. apply Permutation_refl.
Qed.
Lemma sum_move (F : triangle -> R) g s : sum (map F (move g s)) = sum (map (fun t => F (g (fst (fst t)), g (snd (fst t)), g (snd t))) s).
Proof. unfold move. rewrite map_map. apply sum_ext. intros [[a b] c] _. reflexivity. Qed.
Lemma rotate_tet r a b c (f : vec -> R) (F : vec -> vec -> vec -> R) : mdet r = 1 -> tet_f f F -> tet_integral f (mv r a) (mv r b) (mv r c) = F (mv r a) (mv r b) (mv r c).
Proof. intros _ T. apply T. Qed.
Lemma det_mv r a b c : det3 (mv r a) (mv r b) (mv r c) = mdet r * det3 a b c.
Proof. destruct r, a, b, c. unfold det3. geo. ring. Qed.
Lemma rotate_moments r s : mdet r = 1 -> let s' := move (mv r) s in
  volume s' = volume s /\
  volume_integral vx s' = m00 r * volume_integral vx s + m01 r * volume_integral vy s + m02 r * volume_integral vz s /\
  volume_integral vy s' = m10 r * volume_integral vx s + m11 r * volume_integral vy s + m12 r * volume_integral vz s /\
  volume_integral vz s' = m20 r * volume_integral vx s + m21 r * volume_integral vy s + m22 r * volume_integral vz s.
Proof.
  intros D. cbv zeta. unfold volume, volume_integral. rewrite !sum_move. cbn [fst snd].
  assert (V1 : forall a b c, tet_integral (fun _ => 1) (mv r a) (mv r b) (mv r c) = tet_integral (fun _ => 1) a b c) by (intros; rewrite !tet_one; cbv beta; rewrite det_mv, D; field).
  assert (L : forall k kx ky kz, tet_f k (fun a b c => det3 a b c * (k a + k b + k c) / 24) ->
    (forall p, k (mv r p) = kx * vx p + ky * vy p + kz * vz p) -> forall a b c, tet_integral k (mv r a) (mv r b) (mv r c) = kx * tet_integral vx a b c + (ky * tet_integral vy a b c + kz * tet_integral vz a b c)).
  { intros k kx ky kz T K a b c. rewrite T, (tet_lin vx tetp_x), (tet_lin vy tetp_y), (tet_lin vz tetp_z); cbv beta; rewrite det_mv, D, !K. field. }
  split; [apply sum_ext; intros; apply V1|].
  assert (G : forall k kx ky kz, tet_f k (fun a b c => det3 a b c * (k a + k b + k c) / 24) -> (forall p, k (mv r p) = kx * vx p + ky * vy p + kz * vz p) ->
    sum (map (fun t : triangle => tet_integral k (mv r (fst (fst t))) (mv r (snd (fst t))) (mv r (snd t))) s) =
    kx * sum (map (fun t : triangle => tet_integral vx (fst (fst t)) (snd (fst t)) (snd t)) s) + ky * sum (map (fun t : triangle => tet_integral vy (fst (fst t)) (snd (fst t)) (snd t)) s) + kz * sum (map (fun t : triangle => tet_integral vz (fst (fst t)) (snd (fst t)) (snd t)) s)).
  { intros k kx ky kz T K. rewrite (sum_ext _ _ s (fun x _ => L k kx ky kz T K (fst (fst x)) (snd (fst x)) (snd x))). rewrite sum_plus, (sum_plus (fun x => ky * _)), !sum_scal. cbv beta. unfold triangle. req. ring. }
  split; [|split]; apply G; try apply tet_lin; intros; first [apply tetp_x|apply tetp_y|apply tetp_z|unfold mv, dot3; cbn; ring].
Qed.
Lemma translate_moments t s : watertight s -> let s' := move (fun p => plus3 p t) s in
  volume s' = volume s /\ volume_integral vx s' = volume_integral vx s + vx t * volume s /\
  volume_integral vy s' = volume_integral vy s + vy t * volume s /\ volume_integral vz s' = volume_integral vz s + vz t * volume s.
Proof.
  intros W. cbv zeta. pose proof (watertight_move (fun p => plus3 p t) s W) as W'. set (s' := move _ s) in *.
  assert (P1 : forall i k a b c, (i, k) = (0%nat, POLY_X) \/ (i, k) = (1%nat, POLY_Y) \/ (i, k) = (2%nat, POLY_Z) ->
    flux i k (plus3 a t) (plus3 b t) (plus3 c t) = flux i k a b c + component i t * flux i POLY_1 a b c).
  { intros i k a b c H. destruct t as [t1 t2 t3], a as [a1 a2 a3], b as [b1 b2 b3], c as [c1 c2 c3]. destruct H as [E|[E|E]]; injection E as -> ->; unfold flux, vector_integral; rewrite !over_mono; unfold omono, moment3; cbn [component scal3 fac1 fac2 fac3 plus3 vx vy vz]; unfold area2, cross3, minus3, plus3; cbn [vx vy vz]; field. }
  assert (P2 : forall i k k1 a b c, (i, k, k1) = (0%nat, POLY_X2, POLY_X) \/ (i, k, k1) = (1%nat, POLY_Y2, POLY_Y) \/ (i, k, k1) = (2%nat, POLY_Z2, POLY_Z) ->
    flux i k (plus3 a t) (plus3 b t) (plus3 c t) = flux i k a b c + (2 * component i t * flux i k1 a b c + component i t * component i t * flux i POLY_1 a b c)).
  { intros i k k1 a b c H. destruct t as [t1 t2 t3], a as [a1 a2 a3], b as [b1 b2 b3], c as [c1 c2 c3]. destruct H as [E|[E|E]]; injection E as -> -> ->; unfold flux, vector_integral; rewrite !over_mono; unfold omono, moment3; cbn [component scal3 fac1 fac2 fac3 plus3 vx vy vz]; unfold area2, cross3, minus3, plus3; cbn [vx vy vz]; field. }
  assert (Z : forall i, sum (map (tflux i POLY_1) s) = 0) by (intros i; rewrite (tflux_div s i POLY_1 0 (fun _ => 0) (div_1 i) W); ring).
  assert (V1 : volume s' = volume s).
  { unfold volume. rewrite <- (Rmult_1_l (volume_integral _ s')), <- (Rmult_1_l (volume_integral _ s)).
    rewrite <- (tflux_div s' 2 POLY_Z 1 _ div_Z W'), <- (tflux_div s 2 POLY_Z 1 _ div_Z W).
    unfold s'. rewrite sum_move. transitivity (sum (map (fun x => tflux 2 POLY_Z x + component 2 t * tflux 2 POLY_1 x) s)).
    - apply sum_ext. intros [[a b] c] _. unfold tflux. cbn [fst snd]. apply P1. auto.
    - rewrite sum_plus, sum_scal, Z. ring. }
  assert (G : forall i k k1 f, (i, k, k1) = (0%nat, POLY_X2, POLY_X) \/ (i, k, k1) = (1%nat, POLY_Y2, POLY_Y) \/ (i, k, k1) = (2%nat, POLY_Z2, POLY_Z) ->
    div_pair i k 2 f -> div_pair i k1 1 (fun _ => 1) -> volume_integral f s' = volume_integral f s + component i t * volume s).
  { intros i k k1 f H D2 D1. apply (Rmult_eq_reg_l 2); [|lra]. rewrite <- (tflux_div s' i k 2 f D2 W'), Rmult_plus_distr_l, <- (tflux_div s i k 2 f D2 W).
    unfold s'. rewrite sum_move. transitivity (sum (map (fun x => tflux i k x + (2 * component i t * tflux i k1 x + component i t * component i t * tflux i POLY_1 x)) s)).
    - apply sum_ext. intros [[a b] c] _. unfold tflux. cbn [fst snd]. apply P2. exact H.
    - rewrite sum_plus, sum_plus, !sum_scal, Z, (tflux_div s i k1 1 _ D1 W). unfold volume. ring. }
  split; [exact V1|]. split; [|split].
  - apply (G 0%nat POLY_X2 POLY_X vx); auto using div_X2, div_X.
  - apply (G 1%nat POLY_Y2 POLY_Y vy); auto using div_Y2, div_Y.
  - apply (G 2%nat POLY_Z2 POLY_Z vz); auto using div_Z2, div_Z.
Qed.
Lemma rigid_moments r t s : mdet r = 1 -> watertight s -> volume (move (rig r t) s) = volume s /\ (volume s <> 0 -> centroid (move (rig r t) s) = rig r t (centroid s)).
Proof.
  intros D W. assert (E : move (rig r t) s = move (fun p => plus3 p t) (move (mv r) s)) by (rewrite move_comp; reflexivity). rewrite E.
  destruct (translate_moments t (move (mv r) s) (watertight_move _ _ W)) as (A1 & A2 & A3 & A4). destruct (rotate_moments r s D) as (B1 & B2 & B3 & B4).
  split; [congruence|]. intros NZ. unfold centroid. rewrite A1, A2, A3, A4, B1, B2, B3, B4.
  generalize dependent (volume s). intros v. intros. unfold rig, mv, dot3. apply vec_eq; cbn [vx vy vz scal3 plus3]; field; exact NZ.
Qed.

(** ** Moving meshes *)
Lemma soup_move g vs fs : indices_ok vs fs -> soup_of (map g vs) fs = move g (soup_of vs fs).
Proof.
  intros I. unfold soup_of, move. rewrite map_map. apply map_ext_in. intros [[a b] c] H. destruct (I a b c H) as (A & B & C).
  assert (N : forall i, (i < length vs)%nat -> nth i (map g vs) origin = g (nth i vs origin)).
  { intros i L. rewrite (nth_indep _ origin (g origin)) by (rewrite map_length; exact L). apply map_nth. }
  unfold triangle_at. rewrite !N by assumption. reflexivity.
Qed.
Lemma fan_move g o l : fan_soup (g o) (map g l) = move g (fan_soup o l).
Proof.
  induction l as [|a l IH]; [reflexivity|]. destruct l as [|b l]; [reflexivity|]. cbn [map]. change (fan_soup ?o (?a :: ?b :: ?l)) with ((o, a, b) :: fan_soup o (b :: l)).
  cbn [move map]. cbn [map] in IH. f_equal. exact IH.
Qed.
Lemma caps_move g ls : List.Forall closed_list ls -> caps (map (map g) ls) = move g (caps ls).
Proof.
  induction 1 as [|l ls C _ IH]; [reflexivity|]. cbn [map]. change (caps (?l :: ?ls)) with (cap l ++ caps ls). rewrite IH, move_app. f_equal.
  unfold cap. destruct l as [|a l]; [destruct C|]. cbn [hd map]. rewrite <- fan_move. reflexivity.
Qed.
Lemma boundary_in_range vs fs e : indices_ok vs fs -> In e (boundary_halfedges fs) -> (fst e < length vs /\ snd e < length vs)%nat.
Proof.
  intros I H. apply in_boundary in H as [H _]. unfold face_edges in H. apply in_concat in H as (x & Hx & Hy). apply in_map_iff in Hx as ([[a b] c] & <- & T).
  destruct (I a b c T) as (A & B & C). destruct e as [e1 e2]. cbn in Hy. unfold opposite in Hy; cbn in Hy. cbn [fst snd].
  destruct Hy as [E|[E|[E|[]]]]; injection E as <- <-; lia.
Qed.
Lemma loops_in B tagged fuel : forall ls, boundary_loops fuel B tagged = Some ls -> forall l e, In l ls -> In e l -> In e B.
Proof.
  revert tagged. induction fuel as [|fuel IH]; intros tagged ls; cbn [boundary_loops]; destruct (find _ B) as [h|] eqn:F; try discriminate; try (intros H; injection H as <-; intros ? ? []).
  destruct (next_boundary B h) as [k|] eqn:K; [|discriminate]. destruct (circulate (length B) B h k) as [l0|] eqn:C; [|discriminate].
  destruct (boundary_loops fuel B (tagged ++ h :: l0)) as [ls0|] eqn:L; [|discriminate]. intros H; injection H as <-. intros l e [<-|Hl] He; [|eapply IH; eassumption].
  assert (CI : forall f x l0, In x B -> circulate f B h x = Some l0 -> forall y, In y l0 -> In y B).
  { clear. induction f as [|f IH]; intros x l0 Hx; cbn [circulate]; destruct (edge_eqb x h); try discriminate; try (intros H; injection H as <-; intros ? []).
    destruct (next_boundary B x) as [z|] eqn:Z; [|discriminate]. destruct (circulate f B h z) as [l1|] eqn:C; [|discriminate]. intros H; injection H as <-.
    intros y [<-|Hy]; [exact Hx|]. eapply IH; [|exact C|exact Hy]. eapply nx_sound; eassumption. }
  destruct He as [<-|He]; [apply find_some in F; tauto|]. eapply CI; [|exact C|exact He]. eapply nx_sound; eassumption.
Qed.
Lemma point_move g vs i : (i < length vs)%nat -> point (map g vs) i = g (point vs i).
Proof. intros L. unfold point. rewrite (nth_indep _ vzero (g vzero)) by (rewrite map_length; exact L). apply map_nth. Qed.
Lemma loop_move g vs l : (forall e, In e l -> (fst e < length vs /\ snd e < length vs)%nat) -> loop_points (map g vs) l = map g (loop_points vs l).
Proof.
  intros H. destruct l as [|h l]; [reflexivity|]. cbn [loop_points map]. rewrite !point_move by (apply H; left; reflexivity). f_equal. f_equal.
  rewrite map_map. apply map_ext_in. intros e He. apply point_move. apply H. right; exact He.
Qed.
Definition moved_mesh (g : vec -> vec) (m m' : mesh) : Prop := verts m' = map g (verts m) /\ faces m' = faces m.
Lemma polys_move u g m m' ps ps' : moved_mesh g m m' -> indices_ok (verts m) (faces m) -> CalcBoundaryPolygonSet u m = Some ps -> CalcBoundaryPolygonSet u m' = Some ps' ->
  map pg_verts ps' = map (map g) (map pg_verts ps).
Proof.
  intros [MV MF] I H H'. unfold CalcBoundaryPolygonSet in *. rewrite MF, MV in H'.
  destruct (boundary_loops _ _ nil) as [ls|] eqn:L; [|discriminate]. apply make_all_spec in H. apply make_all_spec in H'.
  assert (V0 : forall ls ps, Forall2 (fun l p => FrPolygon_make (u l) l NWU = Some p) ls ps -> map pg_verts ps = ls).
  { clear. induction 1; [reflexivity|]. cbn. rewrite IHForall2. f_equal. eapply make_verts; eassumption. }
  rewrite (V0 _ _ H), (V0 _ _ H'), map_map. apply map_ext_in. intros l Hl. apply loop_move. intros e He. apply (boundary_in_range (verts m) (faces m)); auto. eapply loops_in; eassumption.
Qed.
Lemma coplanar_move r t l : rotation_matrix r -> coplanar l -> coplanar (map (rig r t) l).
Proof.
  intros (O1 & _ & _) (n & d & N & H).
  assert (DR : forall a b, dot3 (mv r a) (mv r b) = dot3 a b).
  { intros a b. transitivity (dot3 a (mv (mm (mt r) r) b)); [destruct r, a, b; geo; ring|rewrite O1; destruct a, b; geo; ring]. }
  exists (mv r n), (d + dot3 t (mv r n)). split.
  - intros E. apply N. assert (Z : dot3 n n = 0) by (rewrite <- DR, E; unfold dot3, origin; cbn; ring). destruct n as [a b c]. unfold dot3 in Z; cbn in Z. unfold origin. f_equal; nra.
  - intros p Hp. apply in_map_iff in Hp as (q & <- & Hq). unfold rig. replace (dot3 (plus3 (mv r q) t) (mv r n)) with (dot3 (mv r q) (mv r n) + dot3 t (mv r n)) by (generalize (mv r q) (mv r n); intros v w; destruct v, w, t; geo; ring).
    rewrite DR, (H q Hq). reflexivity.
Qed.
(** Volume and centre of gravity of a moved mesh, with or without boundary *)
Lemma moved_values u r t m m' ps ps' : rotation_matrix r -> moved_mesh (rig r t) m m' -> indices_ok (verts m) (faces m) ->
  coherent u m -> coherent u m' -> consistent (faces m) -> simple_borders (faces m) ->
  CalcBoundaryPolygonSet u m = Some ps -> CalcBoundaryPolygonSet u m' = Some ps' -> List.Forall coplanar (map pg_verts ps) ->
  let s := mesh_soup m ++ caps (map pg_verts ps) in
  watertight s /\ GetVolume u m = Some (volume s, filled m ps) /\ GetVolume u m' = Some (volume s, filled m' ps') /\
  (volume s <> 0 -> GetCOG u m = Some (centroid s, filled m ps) /\ GetCOG u m' = Some (rig r t (centroid s), filled m' ps')).
Proof.
  intros RM MV I C C' O S1 E E' CO. cbv zeta.
  pose proof (capped_facts u m ps C O S1 E CO) as (W & _).
  pose proof (polys_move u _ m m' ps ps' MV I E E') as PM.
  destruct (calc_polys u m ps (consistent_oriented _ O) (simple_simple _ O S1) E) as (ls & _ & CL & _ & EL).
  assert (O' : consistent (faces m')) by (rewrite (proj2 MV); exact O). assert (S1' : simple_borders (faces m')) by (rewrite (proj2 MV); exact S1).
  assert (CO' : List.Forall coplanar (map pg_verts ps')).
  { rewrite PM. clear -CO RM. induction CO; cbn; constructor; auto. apply coplanar_move; auto. }
  assert (SM : mesh_soup m' ++ caps (map pg_verts ps') = move (rig r t) (mesh_soup m ++ caps (map pg_verts ps))).
  { rewrite move_app, PM, EL, caps_move by exact CL. f_equal. unfold mesh_soup. rewrite (proj1 MV), (proj2 MV). apply soup_move, I. }
  pose proof (capped_volume u m ps C O S1 E CO) as V1. pose proof (capped_volume u m' ps' C' O' S1' E' CO') as V2.
  pose proof (capped_cog u m ps C O S1 E CO) as G1. pose proof (capped_cog u m' ps' C' O' S1' E' CO') as G2. rewrite SM in V2, G2.
  set (s := mesh_soup m ++ caps (map pg_verts ps)) in *. destruct (rigid_moments r t s (proj2 (proj2 RM)) W) as [R1 R2].
  rewrite R1 in V2, G2. repeat split; auto. rewrite <- R2; auto.
Qed.
Lemma rotate_matrix_cardan phi theta psi : MeshModel.rotate_matrix phi theta psi = mm (Rz psi) (mm (Ry theta) (Rx phi)).
Proof. unfold MeshModel.rotate_matrix, Rx, Ry, Rz. geo. meq; ring. Qed.
Lemma cardan_rotation phi theta psi : rotation_matrix (mm (Rz psi) (mm (Ry theta) (Rx phi))).
Proof. rewrite <- cardan_matrix. apply rotmat_unit, unitq_cardan. Qed.
Lemma mapply_mv r p : mapply r p = mv r p.
Proof. destruct r, p. unfold mapply. apply vec_eq; geo; try ring; reflexivity. Qed.
Lemma rigid_op_rig o : rigid_op o -> exists r t, rotation_matrix r /\ forall p, op_motion o p = rig r t p.
Proof.
  assert (MI : rotation_matrix mid) by (unfold rotation_matrix; geo; repeat split; meq || idtac; ring).
  assert (ID : forall p t, rig mid t p = plus3 p t) by (intros [] []; unfold rig; apply vec_eq; geo; ring).
  assert (Z : forall p, rig mid origin p = p) by (intros []; unfold rig; apply vec_eq; geo; ring).
  destruct o; cbn [rigid_op op_motion]; intros H; try destruct H; try (exists mid, origin; split; [exact MI|intros p; symmetry; apply Z]).
  - exists mid, t. split; [exact MI|intros p; symmetry; apply ID].
  - exists r, origin. split; [split; auto|]. intros p. unfold rig. destruct (mv r p); apply vec_eq; geo; ring.
  - exists (mm (Rz psi) (mm (Ry theta) (Rx phi))), origin. split; [apply cardan_rotation|]. intros p. unfold rig. destruct (mv _ p); apply vec_eq; geo; ring.
Qed.
Lemma rigid_step u o m m' : coherent u m -> rigid_op o -> mesh_step u o m = Some m' -> moved_mesh (op_motion o) m m'.
Proof.
  intros C R1 H. assert (ID : forall l, map (op_motion MOGetPolygons) l = l) by (intros l; rewrite <- (map_id l) at 2; apply map_ext; reflexivity).
  destruct o; cbn [mesh_step rigid_op] in *; try (destruct R1; fail).
  - injection H as <-. split; [|reflexivity]. reflexivity.
  - injection H as <-. split; [|reflexivity]. cbn. apply map_ext. intros p. rewrite mapply_mv. reflexivity.
  - injection H as <-. split; [|reflexivity]. cbn. apply map_ext. intros p. rewrite mapply_mv, rotate_matrix_cardan. reflexivity.
  - rewrite get_polys in H by exact C. destruct (CalcBoundaryPolygonSet u m); [|discriminate]. injection H as <-. split; [symmetry; apply ID|reflexivity].
  - rewrite volume_value in H by exact C. destruct (CalcBoundaryPolygonSet u m); [|discriminate]. injection H as <-. split; [symmetry; apply ID|reflexivity].
  - rewrite area_value in H by exact C. destruct (CalcBoundaryPolygonSet u m); [|discriminate]. injection H as <-. split; [symmetry; apply ID|reflexivity].
  - rewrite cog_value in H by exact C. destruct (CalcBoundaryPolygonSet u m); [|discriminate]. injection H as <-. split; [symmetry; apply ID|reflexivity].
Qed.
Lemma rig_comp r t r' t' p : rig r' t' (rig r t p) = rig (mm r' r) (plus3 (mv r' t) t') p.
Proof. unfold rig. destruct r, r', t, t', p; apply vec_eq; geo; ring. Qed.
Lemma rotation_mm a b : rotation_matrix a -> rotation_matrix b -> rotation_matrix (mm a b).
Proof.
  intros (A1 & A2 & A3) (B1 & B2 & B3).
  assert (AS : forall x y z, mm (mm x y) z = mm x (mm y z)) by (intros [] [] []; geo; meq; ring).
  assert (TM : forall x y, mt (mm x y) = mm (mt y) (mt x)) by (intros [] []; geo; meq; ring).
  assert (ML : forall x, mm mid x = x) by (intros []; geo; meq; ring).
  split; [|split].
  - rewrite TM, AS, <- (AS (mt a)), A1, ML. exact B1.
  - rewrite TM, AS, <- (AS b), B2, ML. exact A2.
  - transitivity (mdet a * mdet b); [destruct a, b; geo; ring|rewrite A3, B3; ring].
Qed.
Lemma rigid_run u ops : forall m m', List.Forall rigid_op ops -> coherent u m -> mesh_run u ops m = Some m' ->
  exists r t, rotation_matrix r /\ (forall p, ops_motion ops p = rig r t p) /\ moved_mesh (rig r t) m m' /\ coherent u m'.
Proof.
  induction ops as [|o ops IH]; intros m m' F C H; cbn in H.
  - injection H as <-. exists mid, origin. assert (Z : forall p, rig mid origin p = p) by (intros []; unfold rig; apply vec_eq; geo; ring).
    split; [unfold rotation_matrix; geo; repeat split; meq || idtac; ring|]. split; [intros; symmetry; apply Z|]. split; [|exact C]. split; [|reflexivity].
    rewrite <- (map_id (verts m)) at 1. apply map_ext. intros; symmetry; apply Z.
  - inversion F; subst. destruct (mesh_step u o m) as [m1|] eqn:E; [|discriminate]. pose proof (step_coherent u o m m1 C E) as C1.
    destruct (IH m1 m' H3 C1 H) as (r & t & R1 & R2 & R3 & R4). destruct (rigid_op_rig o H2) as (r0 & t0 & Q1 & Q2). pose proof (rigid_step u o m m1 C H2 E) as [P1 P2].
    exists (mm r r0), (plus3 (mv r t0) t). split; [apply rotation_mm; assumption|]. split; [|split; [|exact R4]].
    + intros p. unfold ops_motion. cbn [fold_left]. fold (ops_motion ops (op_motion o p)). rewrite R2, Q2, rig_comp. reflexivity.
    + destruct R3 as [R3a R3b]. split; [|congruence]. rewrite R3a, P1, map_map. apply map_ext. intros p. rewrite Q2, rig_comp. reflexivity.
Qed.
(** Closed meshes: rigid motions and queries never fail *)
Lemma closed_run u ops : forall m, List.Forall rigid_op ops -> coherent u m -> IsWatertight m = true -> exists m', mesh_run u ops m = Some m'.
Proof.
  induction ops as [|o ops IH]; intros m F C W; cbn; [eauto|]. inversion F; subst.
  assert (exists m1, mesh_step u o m = Some m1) as (m1 & E).
  { pose proof (closed_calc u m W) as K. destruct o; cbn [mesh_step rigid_op] in *; try tauto; try (eexists; reflexivity); rewrite ?get_polys, ?volume_value, ?area_value, ?cog_value, K by exact C; (eexists; reflexivity). }
  rewrite E. apply IH; auto; [eapply step_coherent; eassumption|]. pose proof (rigid_step u o m m1 C H1 E) as [_ P]. unfold IsWatertight, HasBoundaries in *. rewrite P. exact W.
Qed.
Lemma closed_motion u ops m : List.Forall rigid_op ops -> coherent u m -> consistent (faces m) -> IsWatertight m = true -> indices_ok (verts m) (faces m) ->
  exists m', mesh_run u ops m = Some m' /\ (exists m1, GetVolume u m' = Some (volume (mesh_soup m), m1)) /\
   (volume (mesh_soup m) <> 0 -> exists m2, GetCOG u m' = Some (ops_motion ops (centroid (mesh_soup m)), m2)).
Proof.
  intros F C O W I. destruct (closed_run u ops m F C W) as (m' & E). exists m'. split; [exact E|].
  destruct (rigid_run u ops m m' F C E) as (r & t & R1 & R2 & R3 & R4).
  assert (W' : IsWatertight m' = true) by (unfold IsWatertight, HasBoundaries in *; rewrite (proj2 R3); exact W).
  destruct (moved_values u r t m m' nil nil R1 R3 I C R4 O (closed_borders m W) (closed_calc u m W) (closed_calc u m' W') ltac:(constructor)) as (_ & _ & V2 & V3).
  change (caps (map pg_verts nil)) with (@nil triangle) in *. rewrite app_nil_r in *. split; [eauto|]. intros NZ. destruct (V3 NZ) as [_ G]. rewrite R2. eauto.
Qed.

