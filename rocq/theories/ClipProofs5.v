(** Clipping by a plane, additive quantities, hydrostatic force with a tide (C34, C53, C54). *)
From Coq Require Import Reals List Lra Lia Permutation Arith Bool.
From Verif Require Import GeoModel GeoSpec GeoProofs MeshModel MeshSpec MeshProofs MeshProofs2 MeshProofs3 MeshProofs4 MeshProofs5 MeshProofs6 MeshProofs7 MeshProofs8 MeshProofs10 ClipModel ClipSpec ClipProofs ClipProofs2 ClipProofs3 ClipProofs4.
Import ListNotations.
Local Open Scope R_scope.

Lemma horizontal_plane h : exists f, with_frame (V 0 0 h) (V 0 0 1) = Some (Pl (V 0 0 h) (V 0 0 1) f).
Proof.
  destruct (build_frame (V 0 0 h) (V 0 0 1)) as (f & E & _); [unfold unit3, dot3; cbn [vx vy vz]; ring|].
  exists f. unfold with_frame. rewrite E. reflexivity.
Qed.
Lemma horizontal_distance h f bp p : PlaneDistance (Pl (V 0 0 h) (V 0 0 1) f) bp p = vz p - h.
Proof. unfold PlaneDistance, Pl_GetOrigin, Pl_GetNormal, swap_if, IsNED, horizontal. cbn [pl_origin pl_normal]. destruct p; geo; ring. Qed.
Lemma det_additive : additive (fun a b c => det3 a b c / 6).
Proof.
  split; [intros; unfold det3; destruct a, b, c; geo; field|]. intros a b c v (s & _ & ->). unfold det3. destruct a, b, c; geo; field.
Qed.
Lemma area_additive (w : vec) : additive (fun a b c => dot3 (area2 a b c) w / 2).
Proof.
  split; [intros; unfold area2; destruct a, b, c, w; geo; field|]. intros a b c v (s & _ & ->). unfold area2. destruct a, b, c, w; geo; field.
Qed.
Lemma between_norm a b v s : v = plus3 a (scal3 s (minus3 b a)) -> 0 <= s <= 1 -> forall c, triangle_area (a, b, c) = triangle_area (v, b, c) + triangle_area (c, a, v).
Proof.
  intros -> S1 c. unfold triangle_area.
  assert (E1 : area2 (plus3 a (scal3 s (minus3 b a))) b c = scal3 (1 - s) (area2 a b c)) by (unfold area2; destruct a, b, c; apply vec_eq; geo; ring).
  assert (E2 : area2 c a (plus3 a (scal3 s (minus3 b a))) = scal3 s (area2 a b c)) by (unfold area2; destruct a, b, c; apply vec_eq; geo; ring).
  rewrite E1, E2. generalize (area2 a b c). intros w.
  assert (Q : forall k, 0 <= k -> sqrt (dot3 (scal3 k w) (scal3 k w)) = k * sqrt (dot3 w w)).
  { intros k K. replace (dot3 (scal3 k w) (scal3 k w)) with (Rsqr k * dot3 w w) by (unfold Rsqr; destruct w; geo; ring). rewrite sqrt_mult_alt by apply Rle_0_sqr. rewrite sqrt_Rsqr by exact K. reflexivity. }
  rewrite !Q by lra. field.
Qed.
Lemma surface_additive : additive (fun a b c => triangle_area (a, b, c)).
Proof.
  split; [|intros a b c v (s & S1 & E); exact (between_norm a b v s E S1 c)].
  intros a b c. unfold triangle_area. do 2 f_equal. unfold area2. destruct a, b, c; geo; ring.
Qed.
Lemma total_map phi s : total_over phi s = sum (map (fun t => let '(a, b, c) := t in phi a b c) s).
Proof. reflexivity. Qed.
Lemma level_flux i h s : level h s -> sum (map (tflux i POLY_Z) s) = h * total_over (fun a b c => component i (area2 a b c) / 2) s.
Proof.
  intros F. unfold total_over. induction s as [|[[a b] c] s IH]; [unfold sum; cbn; ring|]. cbn [map]. unfold sum in *. cbn [fold_right]. rewrite IH by (intros x y z H; apply F; right; exact H).
  destruct (F a b c (or_introl eq_refl)) as (A & B & C). unfold tflux, flux, vector_integral. cbn [fst snd]. rewrite over_mono. unfold omono, moment3; cbn [fac1 fac2 fac3]. rewrite A, B, C. destruct i as [|[|i]]; cbn [component scal3 vx vy vz]; field.
Qed.
Lemma level_sides i h s : (i < 2)%nat -> level h s -> total_over (fun a b c => component i (area2 a b c) / 2) s = 0.
Proof.
  intros Hi F. unfold total_over. induction s as [|[[a b] c] s IH]; [reflexivity|]. cbn [map]. unfold sum in *. cbn [fold_right]. rewrite IH by (intros x y z H; apply F; right; exact H).
  destruct (F a b c (or_introl eq_refl)) as (A & B & C). destruct a as [a1 a2 a3], b as [b1 b2 b3], c as [c1 c2 c3]. cbn [vz] in A, B, C. subst. unfold area2. destruct i as [|[|i]]; [| |lia]; cbn [component]; geo; field.
Qed.
Lemma tide_force m lid h rho g fc : fresh m -> level h lid -> watertight (mesh_soup m ++ lid) ->
  GetHydrostaticForceInWorld m rho g fc = convert fc (V 0 0 (rho * g * (volume (mesh_soup m ++ lid) - h * horizontal_area lid))).
Proof.
  intros F Z W. unfold GetHydrostaticForceInWorld. rewrite force_sum.
  assert (E : forall i, sum (map (fun d => component i (fst d) * GetSurfaceIntegral (snd d) POLY_Z) (fdata m)) = sum (map (tflux i POLY_Z) (mesh_soup m ++ lid)) - h * total_over (fun a b c => component i (area2 a b c) / 2) lid).
  { intros i. rewrite map_app, sum_app, (level_flux i h lid Z). rewrite <- (meshed_flux m i POLY_Z F right_Z). unfold GetMeshedSurfaceIntegralN. rewrite Rsum_sum. ring_simplify. reflexivity. }
  rewrite !E. rewrite (level_sides 0 h lid), (level_sides 1 h lid) by (auto; lia). rewrite (tflux_div _ 0 POLY_Z 0 _ div_Zx W), (tflux_div _ 1 POLY_Z 0 _ div_Zy W), (tflux_div _ 2 POLY_Z 1 _ div_Z W).
  fold (volume (mesh_soup m ++ lid)). unfold horizontal_area. destruct fc; unfold convert, swap_if, IsNED, SwapFrameConvention, vscale; cbn [vx vy vz component]; apply vec_eq; cbn [vx vy vz]; ring.
Qed.
Lemma update_fresh m : m = UpdateAllProperties m -> fresh m.
Proof. intros E. unfold fresh. rewrite E at 1. reflexivity. Qed.

(** Affine functions on triangles *)
Definition affine (d : vec -> R) : Prop := forall a b c u v w, u + v + w = 1 -> d (plus3 (scal3 u a) (plus3 (scal3 v b) (scal3 w c))) = u * d a + v * d b + w * d c.
Lemma plane_affine pl bp : affine (PlaneDistance pl bp).
Proof.
  intros a b c u v w H. unfold PlaneDistance. generalize (Pl_GetNormal pl NWU) (vsub (Pl_GetOrigin pl NWU) (horizontal bp)). intros n o.
  assert (u = 1 - v - w) by lra. subst u. destruct a, b, c, n, o; geo; ring.
Qed.
Lemma affine_below d a b c p k : affine d -> inside a b c p -> d a <= k -> d b <= k -> d c <= k -> d p <= k.
Proof. intros A (u & v & w & U & W & X & E & ->) Ha Hb Hc. rewrite A by exact E. replace k with (u * k + v * k + w * k) by (rewrite <- !Rmult_plus_distr_r, E; ring). apply Rplus_le_compat; [apply Rplus_le_compat|]; apply Rmult_le_compat_l; assumption. Qed.
Lemma affine_above d a b c p k : affine d -> inside a b c p -> k <= d a -> k <= d b -> k <= d c -> k <= d p.
Proof. intros A (u & v & w & U & W & X & E & ->) Ha Hb Hc. rewrite A by exact E. replace k with (u * k + v * k + w * k) by (rewrite <- !Rmult_plus_distr_r, E; ring). apply Rplus_le_compat; [apply Rplus_le_compat|]; apply Rmult_le_compat_l; assumption. Qed.
Lemma affine_below_strict d a b c p k : affine d -> inside a b c p -> d a < k -> d b < k -> d c < k -> d p < k.
Proof.
  intros A I Ha Hb Hc. set (k' := Rmax (d a) (Rmax (d b) (d c))). apply (Rle_lt_trans _ k'); [|unfold k'; repeat apply Rmax_lub_lt; assumption].
  apply (affine_below d a b c p k' A I); unfold k'; [apply Rmax_l|eapply Rle_trans; [apply Rmax_l|apply Rmax_r]|eapply Rle_trans; [apply Rmax_r|apply Rmax_r]].
Qed.
Lemma affine_above_strict d a b c p k : affine d -> inside a b c p -> k < d a -> k < d b -> k < d c -> k < d p.
Proof.
  intros A I Ha Hb Hc. assert (affine (fun p => - d p)) as A'. { intros x y z u v w H. rewrite A by exact H. ring. }
  assert (- d p < - k); [|lra]. apply (affine_below_strict (fun p => - d p) a b c p (- k) A' I); lra.
Qed.
