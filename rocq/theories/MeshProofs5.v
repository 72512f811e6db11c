(** Contributions of the boundary polygons (C31, C32). *)
From Coq Require Import Reals List Lra Lia Permutation.
From Coquelicot Require Import Coquelicot.
From Verif Require Import GeoModel GeoSpec GeoProofs GeoProofs2 GeoProofs3 GeoProofs4 MeshModel MeshSpec MeshProofs MeshProofs2 MeshProofs3 MeshProofs4.
Import ListNotations.
Open Scope R_scope.

(** Point of space with plane coordinates (X, Y) *)
Definition unlocal (e : R) (n : vec) (f : frame) (P : vec) : vec := plus3 (scal3 e n) (mv (Set_A_quaternion (frot f)) (V (vx P) (vy P) 0)).
Lemma dot_axis f n v : unitq (frot f) -> qrotate (frot f) (V 0 0 1) = n -> vz (qrotate (qconj (frot f)) v) = dot3 n v.
Proof.
  intros U A. transitivity (dot3 (V 0 0 1) (qrotate (qconj (frot f)) v)); [unfold dot3; cbn [vx vy vz]; ring|].
  rewrite <- (qrotate_dot (frot f)) by exact U. rewrite A, qrotate_conj_r by exact U. reflexivity.
Qed.
Section In_plane.
Variables (f : frame) (n : vec) (e : R).
Hypotheses (Un : unit3 n) (Uq : unitq (frot f)) (Ax : qrotate (frot f) (V 0 0 1) = n) (Pos : fpos f = scal3 e n).
Lemma local_z p : dot3 p n = e -> vz (local f p) = 0.
Proof.
  intros H. unfold local. rewrite (dot_axis f n) by auto. rewrite Pos.
  replace (dot3 n (minus3 p (scal3 e n))) with (dot3 p n - e * dot3 n n) by (destruct p, n; geo; ring). rewrite H, Un. ring.
Qed.
Lemma unlocal_local p : dot3 p n = e -> unlocal e n f (local f p) = p.
Proof.
  intros H. unfold unlocal. replace (V (vx (local f p)) (vy (local f p)) 0) with (local f p) by (rewrite <- (local_z p H); destruct (local f p); reflexivity).
  rewrite qrotate_mat. unfold local. rewrite qrotate_conj_r by exact Uq. rewrite Pos. destruct p, n; apply vec_eq; geo; ring.
Qed.
Lemma unlocal_tri a b c u v : unlocal e n f (tri_point a b c u v) = tri_point (unlocal e n f a) (unlocal e n f b) (unlocal e n f c) u v.
Proof. unfold unlocal, tri_point. generalize (Set_A_quaternion (frot f)) n; intros w k; destruct a, b, c, w, k; apply vec_eq; geo; ring. Qed.
Lemma over_local g a b c : dot3 a n = e -> dot3 b n = e -> dot3 c n = e ->
  over_triangle g a b c = over_triangle (fun P => g (unlocal e n f P)) (local f a) (local f b) (local f c).
Proof.
  intros A B C. unfold over_triangle. apply RInt_ext. intros u _. apply RInt_ext. intros v _.
  rewrite unlocal_tri, !unlocal_local by auto. reflexivity.
Qed.
Lemma area_local a b c : dot3 a n = e -> dot3 b n = e -> dot3 c n = e ->
  area2 a b c = scal3 (cross2 (local f a) (local f b) (local f c)) n.
Proof.
  intros A B C. unfold area2.
  assert (D : forall p, minus3 p a = qrotate (frot f) (minus3 (local f p) (local f a))).
  { intros p. unfold local. rewrite <- qrotate_minus, qrotate_conj_r by exact Uq. destruct p, a, (fpos f); apply vec_eq; geo; ring. }
  rewrite !D, qrotate_cross by exact Uq. rewrite <- Ax.
  pose proof (local_z a A) as ZA. pose proof (local_z b B) as ZB. pose proof (local_z c C) as ZC.
  destruct (local f a) as [a1 a2 a3], (local f b) as [b1 b2 b3], (local f c) as [c1 c2 c3]. cbn [vz] in *. subst. destruct (frot f). apply vec_eq; unfold cross2; geo; ring.
Qed.
Lemma fan_flux i t o l : dot3 o n = e -> (forall p, In p l -> dot3 p n = e) ->
  sum (map (fun x => flux i t (fst (fst x)) (snd (fst x)) (snd x)) (fan_soup o l)) =
  component i n * fan (fun P => mono t (unlocal e n f P)) (local f o) (map (local f) l).
Proof.
  intros O H. induction l as [|a l IH]; [cbn; ring|]. destruct l as [|b l]; [cbn; ring|].
  change (fan_soup o (a :: b :: l)) with ((o, a, b) :: fan_soup o (b :: l)). cbn [map].
  change (fan ?g ?o (?a :: ?b :: ?l)) with (cross2 o a b * over_triangle g o a b + fan g o (b :: l)).
  unfold sum in *. cbn [fold_right fst snd map] in *. rewrite IH by (intros; apply H; right; assumption).
  unfold flux, vector_integral. rewrite (area_local o a b) by (auto; apply H; cbn; auto). rewrite (over_local (mono t) o a b) by (auto; apply H; cbn; auto).
  destruct i as [|[|i]]; cbn [component scal3 vx vy vz]; ring.
Qed.
End In_plane.

(** Affine functions and their squares on a fan *)
Lemma fan_lin k a b o l : fan (fun P => k + (a * vx P + b * vy P)) o l = k * fan (mono POLY_1) o l + (a * fan (mono POLY_X) o l + b * fan (mono POLY_Y) o l).
Proof.
  assert (T : forall p q r, over_triangle (fun P => k + (a * vx P + b * vy P)) p q r = k * over_triangle (mono POLY_1) p q r + (a * over_triangle (mono POLY_X) p q r + b * over_triangle (mono POLY_Y) p q r)).
  { intros p q r. rewrite !over_mono. unfold over_triangle.
    rewrite (simplex2 (k + (a * vx p + b * vy p)) (k + (a * vx q + b * vy q)) (k + (a * vx r + b * vy r)) 1 1 1 1 1 1).
    - unfold omono, moment3; cbn [fac1 fac2 fac3]; field.
    - intros u v. unfold tri_point, aff; cbn [vx vy plus3 scal3 minus3]; ring. }
  induction l as [|p l IH]; [cbn; ring|]. destruct l as [|q l]; [cbn; ring|].
  change (fan ?g o (p :: q :: l)) with (cross2 o p q * over_triangle g o p q + fan g o (q :: l)). rewrite IH, T. ring.
Qed.
Lemma fan_quad k a b o l : fan (fun P => (k + (a * vx P + b * vy P)) * (k + (a * vx P + b * vy P))) o l =
  a * a * fan (mono POLY_X2) o l + b * b * fan (mono POLY_Y2) o l + k * k * fan (mono POLY_1) o l + 2 * a * b * fan (mono POLY_XY) o l
  + 2 * k * (a * fan (mono POLY_X) o l + b * fan (mono POLY_Y) o l).
Proof.
  set (g := fun P => (k + (a * vx P + b * vy P)) * (k + (a * vx P + b * vy P))).
  assert (T : forall p q r, over_triangle g p q r = a * a * over_triangle (mono POLY_X2) p q r + b * b * over_triangle (mono POLY_Y2) p q r + k * k * over_triangle (mono POLY_1) p q r
     + 2 * a * b * over_triangle (mono POLY_XY) p q r + 2 * k * (a * over_triangle (mono POLY_X) p q r + b * over_triangle (mono POLY_Y) p q r)).
  { intros p q r. rewrite !over_mono. unfold over_triangle, g.
    rewrite (simplex2 (k + (a * vx p + b * vy p)) (k + (a * vx q + b * vy q)) (k + (a * vx r + b * vy r)) (k + (a * vx p + b * vy p)) (k + (a * vx q + b * vy q)) (k + (a * vx r + b * vy r)) 1 1 1).
    - unfold omono, moment3; cbn [fac1 fac2 fac3]; field.
    - intros u v. unfold tri_point, aff; cbn [vx vy plus3 scal3 minus3]; ring. }
  clearbody g. induction l as [|p l IH]; [cbn; ring|]. destruct l as [|q l]; [cbn; ring|].
  change (fan ?h o (p :: q :: l)) with (cross2 o p q * over_triangle h o p q + fan h o (q :: l)). rewrite IH, T. ring.
Qed.
Lemma fan_ext g h o l : (forall p, g p = h p) -> fan g o l = fan h o l.
Proof.
  intros E. induction l as [|p l IH]; [reflexivity|]. destruct l as [|q l]; [reflexivity|].
  change (fan ?h o (p :: q :: l)) with (cross2 o p q * over_triangle h o p q + fan h o (q :: l)). rewrite IH. f_equal. f_equal.
  unfold over_triangle. apply RInt_ext. intros u _. apply RInt_ext. intros v _. apply E.
Qed.
Lemma closed_map g l : closed_list l -> closed_list (map g l).
Proof.
  destruct l as [|a l]; [auto|]. cbn. revert a. induction l as [|b l IH] using rev_ind; intros a H; [reflexivity|].
  rewrite last_last in H. rewrite map_app; cbn [map]. rewrite last_last. congruence.
Qed.

Lemma inverse_matrix q : unitq q -> UQ_GetInverseRotationMatrix q = mt (Set_A_quaternion q).
Proof. intros U. exact (proj2 (proj2 (GeoProofs4.rotate_matrix q vzero U))). Qed.
Section Contribution.
Variables (p : polygon) (vs : list vec) (n : vec) (e : R) (f : frame).
Hypotheses (OK : polygon_ok p vs n e f) (CL : closed_list vs) (PL : forall q, In q vs -> dot3 q n = e).
Lemma hd_in : In (hd origin vs) vs. Proof. destruct vs; [destruct CL|left; reflexivity]. Qed.
Lemma polygon_fans (P : vec) : let g t := fan (mono t) P (map (local f) vs) in
  j1 (pg_ints p) = g POLY_1 /\ jx (pg_ints p) = g POLY_X /\ jy (pg_ints p) = g POLY_Y /\ jxy (pg_ints p) = g POLY_XY /\ jx2 (pg_ints p) = g POLY_X2 /\ jy2 (pg_ints p) = g POLY_Y2.
Proof.
  cbv zeta. destruct (po_ints _ _ _ _ _ OK) as [u E]. destruct (compute_path _ _ _ E) as (A1 & A2 & A3 & A4 & A5 & A6 & _).
  pose proof (closed_map (local f) vs CL) as C.
  rewrite (fan_closed _ _ P _ exact_1 C), (fan_closed _ _ P _ exact_x C), (fan_closed _ _ P _ exact_y C), (fan_closed _ _ P _ exact_xy C), (fan_closed _ _ P _ exact_x2 C), (fan_closed _ _ P _ exact_y2 C). auto 10.
Qed.
Definition xyz (i : nat) : poly := match i with 0%nat => POLY_X | 1%nat => POLY_Y | _ => POLY_Z end.
Definition xyz2 (i : nat) : poly := match i with 0%nat => POLY_X2 | 1%nat => POLY_Y2 | _ => POLY_Z2 end.
Lemma unlocal_comp i P : component i (unlocal e n f P) =
  component i n * e + (component i (V (m00 (UQ_GetInverseRotationMatrix (frot f))) (m01 (UQ_GetInverseRotationMatrix (frot f))) (m02 (UQ_GetInverseRotationMatrix (frot f)))) * vx P +
    component i (V (m10 (UQ_GetInverseRotationMatrix (frot f))) (m11 (UQ_GetInverseRotationMatrix (frot f))) (m12 (UQ_GetInverseRotationMatrix (frot f)))) * vy P).
Proof.
  rewrite inverse_matrix by exact (po_rot _ _ _ _ _ OK). unfold unlocal. generalize (Set_A_quaternion (frot f)) n; intros [w0 w1 w2 w3 w4 w5 w6 w7 w8] [k1 k2 k3].
  destruct i as [|[|i]]; unfold component, mt, mv, plus3, scal3; unfold dot3; cbn; ring.
Qed.
Lemma contribution_flux i t : (forall P, mono t P = component i P) ->
  sum (map (fun x => flux i t (fst (fst x)) (snd (fst x)) (snd x)) (fan_soup (hd origin vs) vs)) =
  component i n * (component i n * e * j1 (pg_ints p) + (component i (V (m00 (UQ_GetInverseRotationMatrix (frot f))) (m01 (UQ_GetInverseRotationMatrix (frot f))) (m02 (UQ_GetInverseRotationMatrix (frot f)))) * jx (pg_ints p) +
    component i (V (m10 (UQ_GetInverseRotationMatrix (frot f))) (m11 (UQ_GetInverseRotationMatrix (frot f))) (m12 (UQ_GetInverseRotationMatrix (frot f)))) * jy (pg_ints p))).
Proof.
  intros M. destruct OK as [O1 O2 O3 O4 O5 O6 O7 O8 O9].
  rewrite (fan_flux f n e O4 O7 O8 O6) by (auto; apply PL, hd_in).
  destruct (polygon_fans (local f (hd origin vs))) as (A1 & A2 & A3 & _). rewrite A1, A2, A3.
  rewrite <- fan_lin. f_equal. apply fan_ext. intros P. rewrite M. apply unlocal_comp.
Qed.
Lemma contribution_flux2 i t : (forall P, mono t P = component i P * component i P) ->
  sum (map (fun x => flux i t (fst (fst x)) (snd (fst x)) (snd x)) (fan_soup (hd origin vs) vs)) =
  component i n * (let a := component i (V (m00 (UQ_GetInverseRotationMatrix (frot f))) (m01 (UQ_GetInverseRotationMatrix (frot f))) (m02 (UQ_GetInverseRotationMatrix (frot f)))) in
    let b := component i (V (m10 (UQ_GetInverseRotationMatrix (frot f))) (m11 (UQ_GetInverseRotationMatrix (frot f))) (m12 (UQ_GetInverseRotationMatrix (frot f)))) in
    let k := component i n * e in let j := pg_ints p in
    a * a * jx2 j + b * b * jy2 j + k * k * j1 j + 2 * a * b * jxy j + 2 * k * (a * jx j + b * jy j)).
Proof.
  intros M. cbv zeta. destruct OK as [O1 O2 O3 O4 O5 O6 O7 O8 O9].
  rewrite (fan_flux f n e O4 O7 O8 O6) by (auto; apply PL, hd_in).
  destruct (polygon_fans (local f (hd origin vs))) as (A1 & A2 & A3 & A4 & A5 & A6). rewrite A1, A2, A3, A4, A5, A6.
  rewrite <- fan_quad. f_equal. apply fan_ext. intros P. rewrite M, <- unlocal_comp. reflexivity.
Qed.
Lemma plane_e : vdot (GetPosition (pl_frame (pg_plane p)) NWU) (Pl_GetNormal (pg_plane p) NWU) = e.
Proof.
  destruct OK as [O1 O2 O3 O4 O5 O6 O7 O8 O9]. rewrite O3. unfold Pl_GetNormal, GetPosition. cbn [swap_if IsNED]. rewrite O2.
  change (swap_if NWU (fpos f)) with (fpos f). try rewrite O6. transitivity (e * dot3 n n); [destruct n; geo; ring|rewrite O4; ring].
Qed.
Lemma volume_contribution : polygon_volume p = sum (map (fun x => flux 2 POLY_Z (fst (fst x)) (snd (fst x)) (snd x)) (fan_soup (hd origin vs) vs)).
Proof.
  rewrite (contribution_flux 2 POLY_Z) by reflexivity. unfold polygon_volume. rewrite plane_e.
  destruct OK as [O1 O2 O3 O4 O5 O6 O7 O8 O9]. unfold Pl_GetNormal; cbn [swap_if IsNED]. rewrite O2, O3. cbn [component vx vy vz]. ring.
Qed.
Lemma cog_contribution : polygon_cog p = V (sum (map (fun x => flux 0 POLY_X2 (fst (fst x)) (snd (fst x)) (snd x)) (fan_soup (hd origin vs) vs)))
  (sum (map (fun x => flux 1 POLY_Y2 (fst (fst x)) (snd (fst x)) (snd x)) (fan_soup (hd origin vs) vs)))
  (sum (map (fun x => flux 2 POLY_Z2 (fst (fst x)) (snd (fst x)) (snd x)) (fan_soup (hd origin vs) vs))).
Proof.
  rewrite (contribution_flux2 0 POLY_X2), (contribution_flux2 1 POLY_Y2), (contribution_flux2 2 POLY_Z2) by reflexivity.
  unfold polygon_cog. rewrite plane_e. destruct OK as [O1 O2 O3 O4 O5 O6 O7 O8 O9]. unfold Pl_GetNormal; cbn [swap_if IsNED]. rewrite O2, O3. cbv zeta.
  unfold vmulc. cbn [component vx vy vz]. apply vec_eq; cbn [vx vy vz]; ring.
Qed.
Lemma fan_area o l : dot3 o n = e -> (forall q, In q l -> dot3 q n = e) -> scal3 (2 * fan (mono POLY_1) (local f o) (map (local f) l)) n = nsum o l.
Proof.
  destruct OK as [O1 O2 O3 O4 O5 O6 O7 O8 O9].
  intros O H. induction l as [|a l IH]; [cbn; destruct n; apply vec_eq; geo; ring|]. destruct l as [|b l]; [cbn; destruct n; apply vec_eq; geo; ring|].
  rewrite nsum_cons, <- IH by (intros; apply H; right; assumption). cbn [map].
  change (fan ?h ?o (?p :: ?q :: ?l)) with (cross2 o p q * over_triangle h o p q + fan h o (q :: l)).
  replace (cross3 (minus3 o a) (minus3 o b)) with (area2 o a b) by (unfold area2; destruct o, a, b; apply vec_eq; geo; ring).
  rewrite (area_local f n e O4 O7 O8 O6 o a b) by (auto; apply H; cbn; auto). rewrite over_mono. unfold omono, moment3. cbn [fac1 fac2 fac3 map].
  set (F := fan _ _ _). set (c := cross2 _ _ _). clearbody F c. generalize n; intros [k1 k2 k3]; apply vec_eq; unfold plus3, scal3; cbn [vx vy vz]; field.
Qed.
Lemma area_contribution : Pg_GetArea p = sqrt (dot3 (vector_area vs) (vector_area vs)).
Proof.
  unfold Pg_GetArea. destruct (polygon_fans (local f (hd origin vs))) as (A1 & _). rewrite A1.
  pose proof (fan_area (hd origin vs) vs (PL _ hd_in) PL) as F. rewrite nsum_closed, (po_area _ _ _ _ _ OK) in F by exact CL.
  set (s := sqrt _) in *. set (g := fan _ _ _) in *. pose proof (po_unit _ _ _ _ _ OK) as U. unfold unit3 in U. clearbody s g.
  assert (D : dot3 (scal3 (2 * g) n) n = dot3 (scal3 2 (scal3 s n)) n) by (rewrite F; reflexivity).
  replace (dot3 (scal3 (2 * g) n) n) with (2 * g * dot3 n n) in D by (destruct n; geo; ring).
  replace (dot3 (scal3 2 (scal3 s n)) n) with (2 * s * dot3 n n) in D by (destruct n; geo; ring). rewrite U in D. lra.
Qed.
End Contribution.
