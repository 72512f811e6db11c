(** Boxes, Archimedes (C32, C33). *)
From Coq Require Import Reals List Lra Lia Permutation Arith Bool.
From Coquelicot Require Import Coquelicot.
From Verif Require Import GeoModel GeoSpec GeoProofs GeoProofs2 GeoProofs3 GeoProofs4 MeshModel MeshSpec MeshProofs MeshProofs2 MeshProofs3 MeshProofs4 MeshProofs5 MeshProofs6 MeshProofs7 MeshProofs8 MeshProofs9.
Import ListNotations.
Open Scope R_scope.

(** ** The box *)
Fixpoint nodupb (l : list edge) : bool := match l with nil => true | a :: l' => negb (edge_mem a l') && nodupb l' end.
Lemma nodupb_ok l : nodupb l = true -> NoDup l.
Proof. induction l as [|a l IH]; cbn; intros H; constructor; apply andb_true_iff in H as [H K]; [apply negb_true_iff, edge_mem_out in H; exact H|auto]. Qed.
Lemma box_facts Lx Ly Lz u : let m := CreateBox empty_mesh Lx Ly Lz in
  coherent u m /\ consistent (faces m) /\ IsWatertight m = true /\ indices_ok (verts m) (faces m) /\ volume (mesh_soup m) = Lx * Ly * Lz /\
  volume_integral vx (mesh_soup m) = 0 /\ volume_integral vy (mesh_soup m) = 0 /\ volume_integral vz (mesh_soup m) = 0.
Proof.
  cbv zeta. unfold CreateBox. rewrite load_empty. split; [apply update_coherent|]. cbn [UpdateAllProperties faces verts]. split; [|split; [|split]].
  - apply nodupb_ok. vm_compute. reflexivity.
  - reflexivity.
  - intros a b c H. unfold box_faces in H. cbn in H. cbn [box_vertices length]. repeat (destruct H as [H|H]; [injection H as <- <- <-; lia|]). destruct H.
  - unfold volume, volume_integral.
    assert (T1 : forall s, sum (map (fun t : triangle => tet_integral (fun _ => 1) (fst (fst t)) (snd (fst t)) (snd t)) s) = sum (map (fun t => det3 (fst (fst t)) (snd (fst t)) (snd t) / 6) s))
      by (intros s; apply sum_ext; intros x _; apply tet_one).
    assert (T2 : forall (k : vec -> R), tet_f k (fun a b c => det3 a b c * (k a + k b + k c) / 24) -> forall s, sum (map (fun t : triangle => tet_integral k (fst (fst t)) (snd (fst t)) (snd t)) s) = sum (map (fun t => det3 (fst (fst t)) (snd (fst t)) (snd t) * (k (fst (fst t)) + k (snd (fst t)) + k (snd t)) / 24) s))
      by (intros k K s; apply sum_ext; intros x _; apply K).
    rewrite T1, (T2 vx (tet_lin vx tetp_x)), (T2 vy (tet_lin vy tetp_y)), (T2 vz (tet_lin vz tetp_z)). clear T1 T2.
    set (hx := 1 / 2 * Lx). set (hy := 1 / 2 * Ly). set (hz := 1 / 2 * Lz).
    assert (EB : box_vertices Lx Ly Lz = [V (- hx) (- hy) hz; V hx (- hy) hz; V hx hy hz; V (- hx) hy hz; V (- hx) (- hy) (- hz); V hx (- hy) (- hz); V hx hy (- hz); V (- hx) hy (- hz)]).
    { unfold box_vertices, vscale, hx, hy, hz; cbn [vx vy vz]. repeat (f_equal; try (f_equal; ring)). }
    assert (EV : Lx * Ly * Lz = 8 * (hx * hy * hz)) by (unfold hx, hy, hz; field). rewrite EV. clearbody hx hy hz. clear EV.
    unfold mesh_soup, soup_of. cbn [UpdateAllProperties verts faces]. rewrite EB. unfold box_faces. cbn [map triangle_at nth fst snd]. unfold sum; cbn [fold_right].
    unfold det3, dot3, cross3; cbn [vx vy vz]. repeat split; field.
Qed.
Lemma box_centroid Lx Ly Lz : Lx * Ly * Lz <> 0 -> centroid (mesh_soup (CreateBox empty_mesh Lx Ly Lz)) = origin.
Proof. intros NZ. destruct (box_facts Lx Ly Lz (fun _ => Junk 0 0 0 0)) as (_ & _ & _ & _ & V & X & Y & Z). unfold centroid. rewrite V, X, Y, Z. apply vec_eq; cbn; ring. Qed.

(** ** Archimedes *)
Lemma force_sum l : forall f, fold_left (fun f (d : vec * fints) => let pressure := iz (snd d) in V (vx f + pressure * vx (fst d)) (vy f + pressure * vy (fst d)) (vz f + pressure * vz (fst d))) l f =
  V (vx f + sum (map (fun d => component 0 (fst d) * GetSurfaceIntegral (snd d) POLY_Z) l)) (vy f + sum (map (fun d => component 1 (fst d) * GetSurfaceIntegral (snd d) POLY_Z) l)) (vz f + sum (map (fun d => component 2 (fst d) * GetSurfaceIntegral (snd d) POLY_Z) l)).
Proof.
  unfold sum. induction l as [|d l IH]; intros f; cbn [fold_left map fold_right]; [destruct f; apply vec_eq; cbn; ring|]. rewrite IH. cbn [vx vy vz component GetSurfaceIntegral]. apply vec_eq; cbn [vx vy vz]; ring.
Qed.
Lemma flat_flux i s : flat s -> sum (map (tflux i POLY_Z) s) = 0.
Proof.
  intros F. induction s as [|[[a b] c] s IH]; [reflexivity|]. cbn [map]. unfold sum in *. cbn [fold_right]. rewrite IH by (intros x y z H; apply F; right; exact H).
  destruct (F a b c (or_introl eq_refl)) as (A & B & C). unfold tflux, flux, vector_integral. cbn [fst snd]. rewrite over_mono. unfold omono, moment3; cbn [fac1 fac2 fac3]. rewrite A, B, C. destruct i as [|[|i]]; cbn [component scal3 vx vy vz]; field.
Qed.
Lemma archimedes m cp rho g fc : fresh m -> flat cp -> watertight (mesh_soup m ++ cp) ->
  GetHydrostaticForceInWorld m rho g fc = convert fc (V 0 0 (rho * g * volume (mesh_soup m ++ cp))).
Proof.
  intros F Z W. unfold GetHydrostaticForceInWorld. rewrite force_sum.
  assert (E : forall i, sum (map (fun d => component i (fst d) * GetSurfaceIntegral (snd d) POLY_Z) (fdata m)) = sum (map (tflux i POLY_Z) (mesh_soup m ++ cp))).
  { intros i. rewrite map_app, sum_app, (flat_flux i cp Z), Rplus_0_r. rewrite <- (meshed_flux m i POLY_Z F right_Z). unfold GetMeshedSurfaceIntegralN. rewrite Rsum_sum. reflexivity. }
  rewrite !E. rewrite (tflux_div _ 0 POLY_Z 0 _ div_Zx W), (tflux_div _ 1 POLY_Z 0 _ div_Zy W), (tflux_div _ 2 POLY_Z 1 _ div_Z W).
  fold (volume (mesh_soup m ++ cp)). destruct fc; unfold convert, swap_if, IsNED, SwapFrameConvention, vscale; cbn [vx vy vz]; apply vec_eq; cbn [vx vy vz]; ring.
Qed.
(** Moment of the pressure *)
Lemma sum3_comp {A} (f : A -> vec) l : sum3 (map f l) = V (sum (map (fun x => vx (f x)) l)) (sum (map (fun x => vy (f x)) l)) (sum (map (fun x => vz (f x)) l)).
Proof. unfold sum3, sum. induction l as [|a l IH]; [reflexivity|]. cbn [map fold_right]. rewrite IH. destruct (f a); reflexivity. Qed.
Lemma moment_fluxes rho g s : pressure_moment rho g s = scal3 (rho * g) (V (sum (map (tflux 2 POLY_YZ) s) - sum (map (tflux 1 POLY_Z2) s))
   (sum (map (tflux 0 POLY_Z2) s) - sum (map (tflux 2 POLY_XZ) s)) (sum (map (tflux 1 POLY_XZ) s) - sum (map (tflux 0 POLY_YZ) s))).
Proof.
  unfold pressure_moment. f_equal. rewrite sum3_comp.
  assert (SB : forall (f h : triangle -> R), sum (map f s) - sum (map h s) = sum (map (fun x => f x - h x) s)).
  { intros f h. unfold sum. clear. induction s; cbn; [ring|]. rewrite <- IHs. ring. }
  rewrite !SB. f_equal; apply sum_ext; intros [[a b] c] _; reflexivity.
Qed.
Lemma flat_moment rho g s : flat s -> pressure_moment rho g s = origin.
Proof.
  intros F. rewrite moment_fluxes.
  assert (Z : forall i t, t = POLY_YZ \/ t = POLY_XZ \/ t = POLY_Z2 -> sum (map (tflux i t) s) = 0).
  { intros i t T. induction s as [|[[a b] c] s IH]; [reflexivity|]. cbn [map]. unfold sum in *. cbn [fold_right]. rewrite IH by (intros x y z H; apply F; right; exact H).
    destruct (F a b c (or_introl eq_refl)) as (A & B & C). unfold tflux, flux, vector_integral. cbn [fst snd]. rewrite over_mono. unfold omono, moment3. destruct T as [->|[->| ->]]; cbn [fac1 fac2 fac3]; rewrite A, B, C; destruct i as [|[|i]]; cbn [component scal3 vx vy vz]; field. }
  rewrite !Z by auto. unfold scal3, origin. cbn. f_equal; ring.
Qed.
Lemma moment_app rho g a b : pressure_moment rho g (a ++ b) = plus3 (pressure_moment rho g a) (pressure_moment rho g b).
Proof. rewrite !moment_fluxes, !map_app, !sum_app. apply vec_eq; cbn [vx vy vz scal3 plus3]; ring. Qed.
Lemma buoyancy_moment rho g s cp : flat cp -> watertight (s ++ cp) -> volume (s ++ cp) <> 0 ->
  pressure_moment rho g s = moment_of (centroid (s ++ cp)) (V 0 0 (rho * g * volume (s ++ cp))).
Proof.
  intros Z W NZ. assert (E : pressure_moment rho g s = pressure_moment rho g (s ++ cp)) by (rewrite moment_app, (flat_moment rho g cp Z); destruct (pressure_moment rho g s); apply vec_eq; cbn; ring).
  rewrite E, moment_fluxes.
  rewrite (tflux_div _ 2 POLY_YZ 1 _ div_YZz W), (tflux_div _ 1 POLY_Z2 0 _ div_Z2y W), (tflux_div _ 0 POLY_Z2 0 _ div_Z2x W), (tflux_div _ 2 POLY_XZ 1 _ div_XZz W), (tflux_div _ 1 POLY_XZ 0 _ div_XZy W), (tflux_div _ 0 POLY_YZ 0 _ div_YZx W).
  unfold moment_of, centroid. apply vec_eq; cbn [vx vy vz scal3 cross3]; field; exact NZ.
Qed.
