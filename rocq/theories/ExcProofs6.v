(** The nonlinear Froude-Krylov force *)
From Coq Require Import Reals List Bool ZArith Lra Lia Arith Permutation.
From Coquelicot Require Import Coquelicot.
From Verif Require Import GeoModel GeoSpec GeoProofs BodyModel BodySpec BodyProofs4 BodyProps MeshModel MeshSpec MeshProofs MeshProofs2 SigSpec EqfModel SeaModel WavModel FloModel FloProofs RadModel RadSpec ExcModel ExcSpec ExcProofs4.
Import ListNotations.
Open Scope R_scope.
Local Notation turn := BodySpec.turn.

Lemma over_one a b c : over_triangle (mono POLY_1) a b c = / 2.
Proof. rewrite over_mono. unfold omono, moment3. cbn [fac1 fac2 fac3]. field. Qed.
Lemma one_right : right_integrand POLY_1. Proof. repeat split; discriminate. Qed.
Lemma facet_area vs t : vscale (fa_area (facet_of vs t)) (fa_n (facet_of vs t)) = scal3 (/ 2) (let '(a, b, c) := triangle_at vs t in area2 a b c).
Proof.
  destruct t as [[i j] k]. unfold facet_of, face_data, corner0, corner1, corner2, point. cbn [fst snd fa_area fa_n triangle_at]. change vzero with origin.
  set (a := nth i vs origin). set (b := nth j vs origin). set (c := nth k vs origin).
  pose proof (fun n => normal_integral POLY_1 n a b c one_right) as N. unfold vector_integral in N. rewrite over_one in N.
  pose proof (N 0%nat) as N0. pose proof (N 1%nat) as N1. pose proof (N 2%nat) as N2. clear N. cbn [component scal3 vx vy vz] in N0, N1, N2.
  unfold vscale, scal3. apply vec_eq; cbn [vx vy vz]; rewrite Rmult_comm; assumption.
Qed.
Lemma facet_centre vs t o : vadd (fa_c (facet_of vs t)) o = world_centre o (triangle_at vs t).
Proof. destruct t as [[i j] k]. reflexivity. Qed.
Definition load_of (p : R -> R -> R -> R) (o : vec) (a : facet) : R := - p (vx (fa_c a) + vx o) (vy (fa_c a) + vy o) (vz (fa_c a) + vz o) * fa_area a.
Lemma facet_force p o vs t : vscale (load_of p o (facet_of vs t)) (fa_n (facet_of vs t)) = patch_force p o (triangle_at vs t).
Proof.
  unfold load_of. pose proof (facet_area vs t) as A. pose proof (facet_centre vs t o) as Cc. unfold patch_force. rewrite <- Cc.
  destruct (triangle_at vs t) as [[a b] c]. cbn [vadd vx vy vz]. set (q := p _ _ _). clearbody q.
  transitivity (scal3 (- q) (vscale (fa_area (facet_of vs t)) (fa_n (facet_of vs t)))); [unfold vscale, scal3; apply vec_eq; cbn [vx vy vz]; ring|].
  rewrite A. unfold scal3. apply vec_eq; cbn [vx vy vz]; field.
Qed.
Lemma facet_moment p o vs t : vscale (load_of p o (facet_of vs t)) (vcross (fa_c (facet_of vs t)) (fa_n (facet_of vs t))) = cross3 (minus3 (world_centre o (triangle_at vs t)) o) (patch_force p o (triangle_at vs t)).
Proof.
  rewrite <- facet_force, <- facet_centre. set (l := load_of _ _ _). set (c := fa_c _). set (n := fa_n _). clearbody l c n. unfold vscale, vcross, cross3, minus3, vadd. cbn [vx vy vz]. apply vec_eq; cbn [vx vy vz]; ring.
Qed.
Lemma fold_vadd {A : Type} (f : A -> vec) : forall l z, fold_left (fun x a => vadd x (f a)) l z = plus3 z (sum3 (map f l)).
Proof.
  induction l as [|a l IH]; intros z; cbn [fold_left map].
  - unfold sum3. cbn [fold_right]. unfold plus3, origin. apply vec_eq; cbn [vx vy vz]; ring.
  - rewrite IH. change (sum3 (f a :: map f l)) with (plus3 (f a) (sum3 (map f l))). generalize (sum3 (map f l)). intros q. unfold plus3, vadd. apply vec_eq; cbn [vx vy vz]; ring.
Qed.
Lemma plus_origin v : plus3 (V 0 0 0) v = v.
Proof. unfold plus3. apply vec_eq; cbn [vx vy vz]; ring. Qed.
Lemma force_sum p o m : FK_force p o (facets m) = sum3 (map (patch_force p o) (patches m)).
Proof.
  transitivity (plus3 (V 0 0 0) (sum3 (map (fun a => vscale (load_of p o a) (fa_n a)) (facets m)))); [exact (fold_vadd (fun a => vscale (load_of p o a) (fa_n a)) (facets m) (V 0 0 0))|]. rewrite plus_origin.
  unfold facets, patches, soup_of. rewrite !map_map. f_equal. apply map_ext. intros t. apply facet_force.
Qed.
Lemma torque_sum p o m : FK_torque p o (facets m) = sum3 (map (fun t => cross3 (minus3 (world_centre o t) o) (patch_force p o t)) (patches m)).
Proof.
  transitivity (plus3 (V 0 0 0) (sum3 (map (fun a => vscale (load_of p o a) (vcross (fa_c a) (fa_n a))) (facets m)))); [exact (fold_vadd (fun a => vscale (load_of p o a) (vcross (fa_c a) (fa_n a))) (facets m) (V 0 0 0))|]. rewrite plus_origin.
  unfold facets, patches, soup_of. rewrite !map_map. f_equal. apply map_ext. intros t. apply facet_moment.
Qed.
Lemma move_moment (r F : triangle -> vec) o P : forall l,
  plus3 (sum3 (map (fun t => cross3 (minus3 (r t) o) (F t)) l)) (cross3 (minus3 o P) (sum3 (map F l))) = sum3 (map (fun t => cross3 (minus3 (r t) P) (F t)) l).
Proof.
  induction l as [|t l IH].
  - unfold sum3. cbn [map fold_right]. unfold plus3, cross3, minus3, origin. apply vec_eq; cbn [vx vy vz]; ring.
  - change (sum3 (map (fun t => cross3 (minus3 (r t) P) (F t)) (t :: l))) with (plus3 (cross3 (minus3 (r t) P) (F t)) (sum3 (map (fun t => cross3 (minus3 (r t) P) (F t)) l))). rewrite <- IH.
    change (sum3 (map F (t :: l))) with (plus3 (F t) (sum3 (map F l))).
    change (sum3 (map (fun t => cross3 (minus3 (r t) o) (F t)) (t :: l))) with (plus3 (cross3 (minus3 (r t) o) (F t)) (sum3 (map (fun t => cross3 (minus3 (r t) o) (F t)) l))).
    generalize (sum3 (map F l)), (sum3 (map (fun t => cross3 (minus3 (r t) o) (F t)) l)), (r t), (F t). intros q1 q2 q3 q4. unfold plus3, cross3, minus3. apply vec_eq; cbn [vx vy vz]; ring.
Qed.
Lemma nlfk_reads p m b s : reachable b -> exists w, reads_as b (NLFK_Compute p (facets m) b s) w /\
  w_force w = sum3 (map (patch_force p (body_point b)) (patches m)) /\
  forall P, BodySpec.moment_of w P = sum3 (map (fun t => cross3 (minus3 (world_centre (body_point b) t) P) (patch_force p (body_point b) t)) (patches m)).
Proof.
  intros Hr. unfold NLFK_Compute. cbv zeta. change (V (vx (BGetPosition b NWU)) (vy (BGetPosition b NWU)) 0) with (body_point b). rewrite force_sum, torque_sum.
  set (F := sum3 (map (patch_force p (body_point b)) (patches m))). set (M := sum3 (map (fun t => cross3 (minus3 (world_centre (body_point b) t) (body_point b)) (patch_force p (body_point b) t)) (patches m))).
  destruct (one_op b (FOBothWorldPtWorld F M (body_point b) NWU) s Hr) as (w0 & _ & H). exists (W F M (body_point b)). split; [exact H|]. split; [reflexivity|].
  intros P. unfold BodySpec.moment_of. cbn [w_moment w_point w_force]. unfold F, M. apply move_moment.
Qed.
(** Affine pressure: one point is exact *)
Lemma over_affine c g o p0 p1 p2 : over_triangle (fun r => affine_pressure c g (vx r + vx o) (vy r + vy o) (vz r + vz o)) p0 p1 p2 =
  / 2 * (let q := world_centre o (p0, p1, p2) in affine_pressure c g (vx q) (vy q) (vz q)).
Proof.
  unfold over_triangle. set (h := fun r => affine_pressure c g (vx r + vx o) (vy r + vy o) (vz r + vz o)).
  rewrite (simplex2 (h p0) (h p1) (h p2) 1 1 1 1 1 1).
  - unfold moment3, h, affine_pressure, world_centre, plus3, scal3. cbn [vx vy vz]. field.
  - intros u v. unfold h, affine_pressure, aff, tri_point, plus3, scal3, minus3. cbn [vx vy vz]. ring.
Qed.
Lemma affine_exact c g o t : patch_force (affine_pressure c g) o t = exact_force (affine_pressure c g) o t.
Proof.
  destruct t as [[p0 p1] p2]. unfold patch_force, exact_force, vector_integral. rewrite over_affine. cbv zeta. generalize (area2 p0 p1 p2). intros nv. unfold scal3. apply vec_eq; cbn [vx vy vz]; field.
Qed.
Lemma sum3_comp (f : triangle -> vec) l i : component i (sum3 (map f l)) = sum (map (fun t => component i (f t)) l).
Proof.
  induction l as [|t l IH]; [destruct i as [|[|i]]; reflexivity|]. change (sum3 (map f (t :: l))) with (plus3 (f t) (sum3 (map f l))). cbn [map].
  change (sum (component i (f t) :: map (fun t => component i (f t)) l)) with (component i (f t) + sum (map (fun t => component i (f t)) l)). rewrite <- IH. destruct i as [|[|i]]; reflexivity.
Qed.
Lemma div_Xy : div_pair 1 POLY_X 0 (fun _ => 0). Proof. dpair tet_zero. Qed.
Lemma div_Xz : div_pair 2 POLY_X 0 (fun _ => 0). Proof. dpair tet_zero. Qed.
Lemma div_Yx : div_pair 0 POLY_Y 0 (fun _ => 0). Proof. dpair tet_zero. Qed.
Lemma div_Yz : div_pair 2 POLY_Y 0 (fun _ => 0). Proof. dpair tet_zero. Qed.
Lemma patch_flux c g o i t : component i (patch_force (affine_pressure c g) o t) =
  - (c + (vx g * vx o + vy g * vy o + vz g * vz o)) * flux i POLY_1 (fst (fst t)) (snd (fst t)) (snd t) - vx g * flux i POLY_X (fst (fst t)) (snd (fst t)) (snd t)
  - vy g * flux i POLY_Y (fst (fst t)) (snd (fst t)) (snd t) - vz g * flux i POLY_Z (fst (fst t)) (snd (fst t)) (snd t).
Proof.
  destruct t as [[p0 p1] p2]. unfold patch_force, world_centre, affine_pressure, flux, vector_integral. rewrite !over_mono. unfold omono, moment3. cbn [fst snd fac1 fac2 fac3]. generalize (area2 p0 p1 p2). intros nv.
  destruct i as [|[|i]]; cbn [component scal3 plus3 vx vy vz]; field.
Qed.
Lemma affine_closed c g o l : watertight l -> sum3 (map (patch_force (affine_pressure c g) o) l) = scal3 (- volume l) g.
Proof.
  intros Wt.
  assert (Comp : forall i, component i (sum3 (map (patch_force (affine_pressure c g) o) l)) = - volume l * component i g).
  { intros i. rewrite sum3_comp. rewrite (sum_ext _ (fun t => - (c + (vx g * vx o + vy g * vy o + vz g * vz o)) * flux i POLY_1 (fst (fst t)) (snd (fst t)) (snd t) +
      ((- vx g) * flux i POLY_X (fst (fst t)) (snd (fst t)) (snd t) + ((- vy g) * flux i POLY_Y (fst (fst t)) (snd (fst t)) (snd t) + (- vz g) * flux i POLY_Z (fst (fst t)) (snd (fst t)) (snd t))))).
    2: { intros t _. rewrite patch_flux. ring. }
    rewrite sum_plus, sum_plus, sum_plus, !sum_scal. rewrite (divergence i POLY_1 0 _ l (div_1 i) Wt). unfold volume.
    destruct i as [|[|i]].
    - rewrite (divergence _ _ _ _ l div_X Wt), (divergence _ _ _ _ l div_Yx Wt), (divergence _ _ _ _ l div_Zx Wt). cbn [component]. ring.
    - rewrite (divergence _ _ _ _ l div_Xy Wt), (divergence _ _ _ _ l div_Y Wt), (divergence _ _ _ _ l div_Zy Wt). cbn [component]. ring.
    - change (flux (S (S i))) with (flux 2). rewrite (divergence _ _ _ _ l div_Xz Wt), (divergence _ _ _ _ l div_Yz Wt), (divergence _ _ _ _ l div_Z Wt). cbn [component]. ring. }
  apply vec_eq; cbn [scal3 vx vy vz]; [exact (Comp 0%nat)|exact (Comp 1%nat)|exact (Comp 2%nat)].
Qed.
(** Uniform pressure: no moment *)
Lemma uniform_flux c o P i t : component i (cross3 (minus3 (world_centre o t) P) (patch_force (affine_pressure c origin) o t)) =
  let f := fun i q => flux i q (fst (fst t)) (snd (fst t)) (snd t) in let d := minus3 o P in
  match i with
  | O => - c * (f 2%nat POLY_Y - f 1%nat POLY_Z) - c * (vy d * f 2%nat POLY_1 - vz d * f 1%nat POLY_1)
  | 1%nat => - c * (f 0%nat POLY_Z - f 2%nat POLY_X) - c * (vz d * f 0%nat POLY_1 - vx d * f 2%nat POLY_1)
  | _ => - c * (f 1%nat POLY_X - f 0%nat POLY_Y) - c * (vx d * f 1%nat POLY_1 - vy d * f 0%nat POLY_1)
  end.
Proof.
  destruct t as [[p0 p1] p2]. cbv zeta. unfold patch_force, world_centre, affine_pressure, flux, vector_integral. rewrite !over_mono. unfold omono, moment3. cbn [fst snd fac1 fac2 fac3]. generalize (area2 p0 p1 p2). intros nv.
  destruct i as [|[|i]]; cbn [component scal3 plus3 minus3 cross3 origin vx vy vz]; field.
Qed.
Lemma uniform_moment c o P l : watertight l -> sum3 (map (fun t => cross3 (minus3 (world_centre o t) P) (patch_force (affine_pressure c origin) o t)) l) = origin.
Proof.
  intros Wt. set (d := minus3 o P).
  assert (Z1 : forall i, sum (map (fun t => flux i POLY_1 (fst (fst t)) (snd (fst t)) (snd t)) l) = 0) by (intros i; rewrite (divergence i POLY_1 0 _ l (div_1 i) Wt); ring).
  assert (Two : forall i1 q1 i2 q2 a b, sum (map (fun t => flux i1 q1 (fst (fst t)) (snd (fst t)) (snd t)) l) = 0 -> sum (map (fun t => flux i2 q2 (fst (fst t)) (snd (fst t)) (snd t)) l) = 0 ->
    forall j1 j2, sum (map (fun t => - c * (flux i1 q1 (fst (fst t)) (snd (fst t)) (snd t) - flux i2 q2 (fst (fst t)) (snd (fst t)) (snd t)) - c * (a * flux j1 POLY_1 (fst (fst t)) (snd (fst t)) (snd t) - b * flux j2 POLY_1 (fst (fst t)) (snd (fst t)) (snd t))) l) = 0).
  { intros i1 q1 i2 q2 a b H1 H2 j1 j2. rewrite (sum_ext _ (fun t => (- c) * flux i1 q1 (fst (fst t)) (snd (fst t)) (snd t) + (c * flux i2 q2 (fst (fst t)) (snd (fst t)) (snd t) + ((- c * a) * flux j1 POLY_1 (fst (fst t)) (snd (fst t)) (snd t) + (c * b) * flux j2 POLY_1 (fst (fst t)) (snd (fst t)) (snd t))))) by (intros; ring).
    rewrite !sum_plus, !sum_scal, H1, H2, !Z1. ring. }
  assert (Zr : forall i q, div_pair i q 0 (fun _ => 0) -> sum (map (fun t => flux i q (fst (fst t)) (snd (fst t)) (snd t)) l) = 0) by (intros i q H; rewrite (divergence _ _ _ _ l H Wt); ring).
  apply vec_eq.
  - change (component 0 (sum3 (map (fun t => cross3 (minus3 (world_centre o t) P) (patch_force (affine_pressure c origin) o t)) l)) = 0). rewrite sum3_comp.
    rewrite (sum_ext _ _ l (fun t _ => uniform_flux c o P 0 t)). apply Two; apply Zr; [exact div_Yz|exact div_Zy].
  - change (component 1 (sum3 (map (fun t => cross3 (minus3 (world_centre o t) P) (patch_force (affine_pressure c origin) o t)) l)) = 0). rewrite sum3_comp.
    rewrite (sum_ext _ _ l (fun t _ => uniform_flux c o P 1 t)). apply Two; apply Zr; [exact div_Zx|exact div_Xz].
  - change (component 2 (sum3 (map (fun t => cross3 (minus3 (world_centre o t) P) (patch_force (affine_pressure c origin) o t)) l)) = 0). rewrite sum3_comp.
    rewrite (sum_ext _ _ l (fun t _ => uniform_flux c o P 2 t)). apply Two; apply Zr; [exact div_Xy|exact div_Yx].
Qed.
