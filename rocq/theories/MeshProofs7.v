(** Meshes as triangle soups closed by their boundary polygons (C32, C33). *)
From Coq Require Import Reals List Lra Lia Permutation Arith Bool.
From Coquelicot Require Import Coquelicot.
From Verif Require Import GeoModel GeoSpec GeoProofs GeoProofs2 GeoProofs3 GeoProofs4 MeshModel MeshSpec MeshProofs MeshProofs2 MeshProofs3 MeshProofs4 MeshProofs5 MeshProofs6.
Import ListNotations.
Open Scope R_scope.

(** ** Edges *)
Definition pe (vs : list vec) (e : edge) : vec * vec := (point vs (fst e), point vs (snd e)).
Lemma soup_edges_of vs fs : soup_edges (soup_of vs fs) = map (pe vs) (face_edges fs).
Proof.
  induction fs as [|[[a b] c] fs IH]; [reflexivity|]. change (soup_of vs ((a, b, c) :: fs)) with (triangle_at vs (a, b, c) :: soup_of vs fs).
  change (soup_edges (?t :: ?s)) with (tri_edges t ++ soup_edges s). rewrite IH. reflexivity.
Qed.
Fixpoint path_edges (l : list vec) : list (vec * vec) := match l with a :: ((b :: _) as l') => (a, b) :: path_edges l' | _ => nil end.
Lemma path_edges_cons a b l : path_edges (a :: b :: l) = (a, b) :: path_edges (b :: l). Proof. reflexivity. Qed.
Lemma fan_edges o l : Permutation (soup_edges (fan_soup o l)) (path_edges l ++ (map (fun p => (o, p)) (removelast l) ++ map (fun p => (p, o)) (tl l))).
Proof.
  induction l as [|a l IH]; [constructor|]. destruct l as [|b l]; [constructor|].
  change (fan_soup o (a :: b :: l)) with ((o, a, b) :: fan_soup o (b :: l)). change (soup_edges (?t :: ?s)) with (tri_edges t ++ soup_edges s).
  rewrite path_edges_cons. change (removelast (a :: b :: l)) with (a :: removelast (b :: l)). cbn [tl map tri_edges app].
  rewrite IH. cbn [tl]. set (P := path_edges (b :: l)). set (X := map (fun p => (o, p)) (removelast (b :: l))). set (Y := map (fun p => (p, o)) l).
  transitivity ((a, b) :: (o, a) :: (b, o) :: P ++ X ++ Y); [apply perm_swap|]. apply perm_skip.
  transitivity ((o, a) :: P ++ (b, o) :: X ++ Y); [apply perm_skip, Permutation_middle|].
  transitivity (P ++ (o, a) :: (b, o) :: X ++ Y); [apply Permutation_middle|]. apply Permutation_app_head. apply perm_skip. apply Permutation_middle.
Qed.
Lemma spokes o l : closed_list l -> let K := map (fun p => (o, p)) (removelast l) ++ map (fun p : vec => (p, o)) (tl l) in Permutation K (map flip K).
Proof.
  intros C. cbv zeta. destruct l as [|a l]; [destruct C|]. cbn in C.
  assert (P : Permutation (removelast (a :: l)) (tl (a :: l))).
  { destruct l as [|b l]; [constructor|]. destruct (@exists_last _ (b :: l)) as (r & z & E); [discriminate|]. rewrite E in *. rewrite last_last in C. subst z.
    change (a :: r ++ [a]) with ((a :: r) ++ [a]). rewrite removelast_last. cbn [tl app]. apply Permutation_cons_append. }
  rewrite map_app, !map_map. unfold flip; cbn [fst snd]. rewrite P. apply Permutation_app_comm.
Qed.
Lemma soup_edges_app a b : soup_edges (a ++ b) = soup_edges a ++ soup_edges b.
Proof. unfold soup_edges. rewrite map_app, concat_app. reflexivity. Qed.
Lemma caps_edges ls : List.Forall closed_list ls -> exists K, Permutation K (map flip K) /\ Permutation (soup_edges (caps ls)) (concat (map path_edges ls) ++ K).
Proof.
  induction 1 as [|l ls C _ (K & K1 & K2)]; [exists nil; split; constructor|].
  pose proof (spokes (hd origin l) l C) as S1. pose proof (fan_edges (hd origin l) l) as S2. cbv zeta in S1.
  set (K0 := map (fun p => (hd origin l, p)) (removelast l) ++ map (fun p : vec => (p, hd origin l)) (tl l)) in *.
  exists (K0 ++ K). split; [rewrite map_app; apply Permutation_app; assumption|].
  change (caps (l :: ls)) with (cap l ++ caps ls). rewrite soup_edges_app. cbn [map concat]. unfold cap at 1. rewrite S2, K2, <- !app_assoc. apply Permutation_app_head.
  rewrite !app_assoc. apply Permutation_app_tail. apply Permutation_app_comm.
Qed.
Lemma loop_edges vs B l : is_loop B l -> closed_list (loop_points vs l) /\ path_edges (loop_points vs l) = map (pe vs) l.
Proof.
  intros (h & r & -> & C & L). cbn [loop_points]. apply nx_sound in L. destruct L as [_ L]. split.
  - cbn [closed_list map]. rewrite last_cons. clear C. revert L. revert r. intros r L.
    replace (last (map (fun k => point vs (snd k)) r) (point vs (snd h))) with (point vs (snd (last r h))).
    + rewrite <- L. reflexivity.
    + clear. revert h. induction r as [|b r IH]; intros h; [reflexivity|]. cbn [map]. rewrite !last_cons. apply IH.
  - clear L. revert h C. induction r as [|b r IH]; intros h C; [reflexivity|]. destruct C as [C1 C2]. cbn [map]. rewrite path_edges_cons. cbn [map] in IH.
    apply nx_sound in C1. destruct C1 as [_ C1]. rewrite <- C1. rewrite (IH b C2). rewrite C1. reflexivity.
Qed.
(** The faces and the fans on the boundary loops form a watertight surface *)
Definition oriented (fs : list tri) : Prop := NoDup (face_edges fs).
Definition simple_border (fs : list tri) : Prop := NoDup (map fst (boundary_halfedges fs)).
Lemma loops_exist vs fs : oriented fs -> simple_border fs -> exists ls,
  boundary_loops (length (boundary_halfedges fs)) (boundary_halfedges fs) nil = Some ls /\
  List.Forall closed_list (map (loop_points vs) ls) /\ watertight (soup_of vs fs ++ caps (map (loop_points vs) ls)).
Proof.
  intros O S1. set (B := boundary_halfedges fs) in *.
  destruct (loops_ok B S1 (boundary_balanced fs O) (length B) nil) as (ls & A1 & A2 & A3).
  { constructor. } { intros x []. } { intros; split; intros []. } { cbn. lia. } { apply boundary_NoDup, O. }
  exists ls. split; [exact A1|].
  assert (CL : List.Forall closed_list (map (loop_points vs) ls)).
  { clear A1 A2. induction A3; cbn; constructor; auto. eapply loop_edges; eassumption. }
  split; [exact CL|]. unfold watertight. rewrite soup_edges_app, soup_edges_of. destruct (caps_edges _ CL) as (K & K1 & K2). rewrite K2.
  assert (PB : Permutation (concat (map path_edges (map (loop_points vs) ls))) (map (pe vs) B)).
  { rewrite <- A2. cbn [app]. clear -A3. induction A3 as [|l ls H _ IH]; [constructor|]. cbn [map concat]. rewrite map_app. apply Permutation_app; [|exact IH].
    destruct (loop_edges vs B l H) as [_ ->]. reflexivity. }
  rewrite PB, app_assoc, <- map_app. rewrite (map_app flip). apply Permutation_app; [|exact K1].
  pose proof (Permutation_map (pe vs) (edges_symmetric fs O)) as PS. fold B in PS. rewrite map_map in PS. rewrite map_map. exact PS.
Qed.

(** ** The mesh state *)
Definition fresh (m : mesh) : Prop := fdata m = map (face_data (verts m)) (faces m).
Definition mesh_soup (m : mesh) : soup := soup_of (verts m) (faces m).
Lemma fold_sum {A} (g : A -> R) l : forall a, fold_left (fun v p => v + g p) l a = a + sum (map g l).
Proof. unfold sum. induction l as [|x l IH]; intros a; cbn; [ring|]. rewrite IH. ring. Qed.
Lemma Rsum_sum l : Rsum l = sum l.
Proof. unfold Rsum. pose proof (fold_sum (fun x : R => x) l 0) as H. rewrite map_id in H. rewrite Rplus_0_l in H. exact H. Qed.
Definition tflux i t (x : triangle) := flux i t (fst (fst x)) (snd (fst x)) (snd x).
Lemma meshed_flux m i t : fresh m -> right_integrand t -> GetMeshedSurfaceIntegralN m i t = sum (map (tflux i t) (mesh_soup m)).
Proof.
  intros F T. unfold GetMeshedSurfaceIntegralN. rewrite Rsum_sum, F, map_map. unfold mesh_soup, soup_of. rewrite map_map.
  apply sum_ext. intros [[a b] c] _. unfold tflux, flux. cbn [face_data fst snd triangle_at corner0 corner1 corner2]. apply normal_integral, T.
Qed.
Lemma make_all_spec u ls : forall ps, make_all u ls = Some ps -> Forall2 (fun l p => FrPolygon_make (u l) l NWU = Some p) ls ps.
Proof.
  induction ls as [|l ls IH]; cbn [make_all]; intros ps H; [injection H as <-; constructor|].
  destruct (FrPolygon_make (u l) l NWU) as [p|] eqn:E; [|discriminate]. destruct (make_all u ls) as [ps'|]; [|discriminate]. injection H as <-. constructor; auto.
Qed.
Lemma make_verts u l p : FrPolygon_make u l NWU = Some p -> pg_verts p = l.
Proof.
  unfold FrPolygon_make. replace (map (swap_if NWU) l) with l by (rewrite <- (map_id l) at 1; apply map_ext; reflexivity).
  destruct (FrPlane_cloud l NWU); [|discriminate]. destruct (all_planar _ _); [|discriminate]. destruct (ComputeSurfacePolynomialIntegrals _ _); [|discriminate].
  intros H; injection H as <-; reflexivity.
Qed.
Lemma make_nonzero u l p : closed_list l -> FrPolygon_make u l NWU = Some p -> vector_area l <> origin.
Proof.
  intros C H E. unfold FrPolygon_make in H. replace (map (swap_if NWU) l) with l in H by (rewrite <- (map_id l) at 1; apply map_ext; reflexivity).
  replace (FrPlane_cloud l NWU) with (@None plane) in H; [discriminate|]. symmetry. unfold FrPlane_cloud. destruct l as [|a l]; [destruct C|].
  cbv zeta. rewrite normal_sum_nsum, nsum_closed, E by exact C.
  replace (plus3 vzero (scal3 2 origin)) with (V 0 0 0) by (apply vec_eq; geo; ring).
  rewrite normalize_zero by (unfold dot3; cbn; ring).
  unfold with_frame, BuildFrame, ClosestPointOnPlane, IntersectionWithLine. cbn [swap_if IsNED].
  replace (vnorm (vsub (vadd vzero (V 0 0 0)) vzero)) with 0.
  - destruct (Rlt_dec (1 / 10 ^ 16) 0); [lra|reflexivity].
  - unfold vnorm. replace (vdot _ _) with 0 by (geo; ring). rewrite sqrt_0. reflexivity.
Qed.
Lemma capped_flux u ls ps : Forall2 (fun l p => FrPolygon_make (u l) l NWU = Some p) ls ps -> List.Forall closed_list ls -> List.Forall coplanar ls ->
  map pg_verts ps = ls /\ sum (map polygon_volume ps) = sum (map (tflux 2 POLY_Z) (caps ls)) /\
  sum (map Pg_GetArea ps) = sum (map (fun l => sqrt (dot3 (vector_area l) (vector_area l))) ls) /\
  (forall i t, (i, t) = (0%nat, POLY_X2) \/ (i, t) = (1%nat, POLY_Y2) \/ (i, t) = (2%nat, POLY_Z2) ->
     sum (map (fun p => component i (polygon_cog p)) ps) = sum (map (tflux i t) (caps ls))).
Proof.
  induction 1 as [|l p ls ps H _ IH]; intros CL CO; [repeat split; reflexivity|]. inversion CL; inversion CO; subst. destruct IH as (I1 & I2 & I3 & I4); auto.
  destruct (make_polygon (u l) l p) as (n & e & f & OK & PL); auto; [eapply make_nonzero; eassumption|]. specialize (PL H6).
  split; [cbn; rewrite I1, (po_verts _ _ _ _ _ OK); reflexivity|].
  change (caps (l :: ls)) with (cap l ++ caps ls). split; [|split].
  - rewrite map_app, sum_app, <- I2. unfold sum at 1. cbn [map fold_right].
    rewrite (volume_contribution p l n e f OK) by assumption. reflexivity.
  - unfold sum in *. cbn [map fold_right]. rewrite (area_contribution p l n e f OK) by assumption. f_equal. exact I3.
  - intros i t IT. rewrite map_app, sum_app, <- (I4 i t IT). unfold sum at 1. cbn [map fold_right]. f_equal.
    rewrite (cog_contribution p l n e f OK) by assumption. destruct IT as [E|[E|E]]; injection E as -> ->; reflexivity.
Qed.
