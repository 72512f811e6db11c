(** Divergence theorem on watertight triangle soups, rigid motions (C32, C33). *)
From Coq Require Import Reals List Lra Lia Permutation.
From Coquelicot Require Import Coquelicot.
From Verif Require Import GeoModel GeoSpec GeoProofs GeoProofs2 MeshModel MeshSpec MeshProofs.
Import ListNotations.
Open Scope R_scope.

Lemma sum_app a b : sum (a ++ b) = sum a + sum b.
Proof. unfold sum. induction a; cbn; [ring|]. rewrite IHa. ring. Qed.
Lemma sum_perm a b : Permutation a b -> sum a = sum b.
Proof. unfold sum. induction 1; cbn in *; lra. Qed.
Lemma sum_plus {A} (f g : A -> R) l : sum (map (fun x => f x + g x) l) = sum (map f l) + sum (map g l).
Proof. unfold sum in *. induction l; cbn in *; lra. Qed.
Lemma sum_scal {A} k (f : A -> R) l : sum (map (fun x => k * f x) l) = k * sum (map f l).
Proof. unfold sum in *. induction l; cbn in *; lra. Qed.
Lemma sum_ext {A} (f g : A -> R) l : (forall x, In x l -> f x = g x) -> sum (map f l) = sum (map g l).
Proof. unfold sum. induction l; cbn; intros H; [reflexivity|]. rewrite (H a) by auto. rewrite IHl by auto. reflexivity. Qed.
Lemma edges_zero (g : vec * vec -> R) E : (forall e, g (flip e) = - g e) -> Permutation E (map flip E) -> sum (map g E) = 0.
Proof.
  intros A P. assert (H : sum (map g E) = - sum (map g E)); [|lra].
  rewrite (sum_perm _ _ (Permutation_map g P)) at 1. rewrite map_map. clear P. unfold sum. induction E; cbn in *; [ring|]. rewrite A. lra.
Qed.
Lemma sum_edges (g : vec * vec -> R) s : sum (map g (soup_edges s)) =
  sum (map (fun t => g (fst (fst t), snd (fst t)) + (g (snd (fst t), snd t) + g (snd t, fst (fst t)))) s).
Proof.
  unfold soup_edges. induction s as [|[[a b] c] s IH]; [reflexivity|]. cbn [map concat]. rewrite map_app, sum_app, IH. unfold sum. cbn. ring.
Qed.

(** ** Closed forms of the integrals over a tetrahedron *)
Definition tet_f (f : vec -> R) (F : vec -> vec -> vec -> R) : Prop := forall a b c, tet_integral f a b c = F a b c.
Lemma tet_one : tet_f (fun _ => 1) (fun a b c => det3 a b c / 6).
Proof.
  intros a b c. unfold tet_integral. rewrite (simplex3 1 1 1 1 1 1 1 1); [unfold moment2t; field|]. intros; unfold aff3; ring.
Qed.
Lemma tet_two (k l : vec -> R) : (forall a b c u v w, k (tet_point a b c u v w) = u * k a + (v * k b + w * k c)) ->
  (forall a b c u v w, l (tet_point a b c u v w) = u * l a + (v * l b + w * l c)) ->
  tet_f (fun p => k p * l p) (fun a b c => det3 a b c * moment2t 0 (k a) (k b) (k c) 0 (l a) (l b) (l c)).
Proof.
  intros K L a b c. unfold tet_integral. rewrite (simplex3 0 (k a) (k b) (k c) 0 (l a) (l b) (l c)); [reflexivity|]. intros; rewrite K, L; unfold aff3; ring.
Qed.
Lemma tet_lin (k : vec -> R) : (forall a b c u v w, k (tet_point a b c u v w) = u * k a + (v * k b + w * k c)) ->
  tet_f k (fun a b c => det3 a b c * (k a + k b + k c) / 24).
Proof.
  intros K a b c. unfold tet_integral. rewrite (simplex3 0 (k a) (k b) (k c) 1 1 1 1); [unfold moment2t; field|]. intros; rewrite K; unfold aff3; ring.
Qed.
Lemma tet_zero : tet_f (fun _ => 0) (fun a b c => 0).
Proof.
  intros a b c. unfold tet_integral. rewrite (simplex3 0 0 0 0 0 0 0 0); [unfold moment2t; field|]. intros; unfold aff3; ring.
Qed.
Lemma tetp_x a b c u v w : vx (tet_point a b c u v w) = u * vx a + (v * vx b + w * vx c). Proof. reflexivity. Qed.
Lemma tetp_y a b c u v w : vy (tet_point a b c u v w) = u * vy a + (v * vy b + w * vy c). Proof. reflexivity. Qed.
Lemma tetp_z a b c u v w : vz (tet_point a b c u v w) = u * vz a + (v * vz b + w * vz c). Proof. reflexivity. Qed.

(** ** Divergence theorem *)
(** k f is the derivative of the monomial t with respect to coordinate i *)
Definition flux (i : nat) (t : poly) (a b c : vec) : R := component i (vector_integral (mono t) a b c).
Definition div_pair (i : nat) (t : poly) (k : R) (f : vec -> R) : Prop :=
  (forall a b c, flux i t a b c = k * tet_integral f a b c + (flux i t origin a b + (flux i t origin b c + flux i t origin c a))) /\
  (forall a b, flux i t origin b a = - flux i t origin a b).
Lemma divergence i t k f s : div_pair i t k f -> watertight s ->
  sum (map (fun x => flux i t (fst (fst x)) (snd (fst x)) (snd x)) s) = k * volume_integral f s.
Proof.
  intros [D A] W. unfold volume_integral. rewrite <- sum_scal.
  rewrite (sum_ext _ (fun x => k * tet_integral f (fst (fst x)) (snd (fst x)) (snd x) +
     (flux i t origin (fst (fst x)) (snd (fst x)) + (flux i t origin (snd (fst x)) (snd x) + flux i t origin (snd x) (fst (fst x)))))) by (intros; apply D).
  rewrite sum_plus. pose proof (sum_edges (fun e => flux i t origin (fst e) (snd e)) s) as E. cbn [fst snd] in E. rewrite <- E.
  rewrite (edges_zero _ (soup_edges s)); [ring| |exact W]. intros [a b]; cbn. apply A.
Qed.
Ltac fluxes := unfold flux, vector_integral; rewrite ?over_mono; unfold omono, moment3, moment2t, det3;
  cbn [component scal3 vx vy vz fac1 fac2 fac3]; unfold area2, cross3, minus3, dot3, origin; cbn [vx vy vz].
Ltac dpair lem := split; [intros a b c; rewrite lem; destruct a, b, c; fluxes; field|intros a b; destruct a, b; fluxes; field].
Lemma div_X : div_pair 0 POLY_X 1 (fun _ => 1). Proof. dpair tet_one. Qed.
Lemma div_Y : div_pair 1 POLY_Y 1 (fun _ => 1). Proof. dpair tet_one. Qed.
Lemma div_Z : div_pair 2 POLY_Z 1 (fun _ => 1). Proof. dpair tet_one. Qed.
Lemma div_1 i : div_pair i POLY_1 0 (fun _ => 0). Proof. destruct i as [|[|i]]; dpair tet_zero. Qed.
Lemma div_Zx : div_pair 0 POLY_Z 0 (fun _ => 0). Proof. dpair tet_zero. Qed.
Lemma div_Zy : div_pair 1 POLY_Z 0 (fun _ => 0). Proof. dpair tet_zero. Qed.
Lemma div_X2 : div_pair 0 POLY_X2 2 vx. Proof. dpair (tet_lin vx tetp_x). Qed.
Lemma div_Y2 : div_pair 1 POLY_Y2 2 vy. Proof. dpair (tet_lin vy tetp_y). Qed.
Lemma div_Z2 : div_pair 2 POLY_Z2 2 vz. Proof. dpair (tet_lin vz tetp_z). Qed.
Lemma div_Z2x : div_pair 0 POLY_Z2 0 (fun _ => 0). Proof. dpair tet_zero. Qed.
Lemma div_Z2y : div_pair 1 POLY_Z2 0 (fun _ => 0). Proof. dpair tet_zero. Qed.
Lemma div_YZz : div_pair 2 POLY_YZ 1 vy. Proof. dpair (tet_lin vy tetp_y). Qed.
Lemma div_XZz : div_pair 2 POLY_XZ 1 vx. Proof. dpair (tet_lin vx tetp_x). Qed.
Lemma div_XZy : div_pair 1 POLY_XZ 0 (fun _ => 0). Proof. dpair tet_zero. Qed.
Lemma div_YZx : div_pair 0 POLY_YZ 0 (fun _ => 0). Proof. dpair tet_zero. Qed.
Lemma div_X3 : div_pair 0 POLY_X3 3 (fun p => vx p * vx p). Proof. dpair (tet_two vx vx tetp_x tetp_x). Qed.
Lemma div_Y3 : div_pair 1 POLY_Y3 3 (fun p => vy p * vy p). Proof. dpair (tet_two vy vy tetp_y tetp_y). Qed.
Lemma div_Z3 : div_pair 2 POLY_Z3 3 (fun p => vz p * vz p). Proof. dpair (tet_two vz vz tetp_z tetp_z). Qed.
Lemma div_X2Y : div_pair 0 POLY_X2Y 2 (fun p => vx p * vy p). Proof. dpair (tet_two vx vy tetp_x tetp_y). Qed.
Lemma div_Y2Z : div_pair 1 POLY_Y2Z 2 (fun p => vy p * vz p). Proof. dpair (tet_two vy vz tetp_y tetp_z). Qed.
Lemma div_Z2X : div_pair 2 POLY_Z2X 2 (fun p => vz p * vx p). Proof. dpair (tet_two vz vx tetp_z tetp_x). Qed.
