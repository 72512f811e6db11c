(** Plane polygons (C31). *)
From Coq Require Import Reals List Lra Lia Permutation.
From Coquelicot Require Import Coquelicot.
From Verif Require Import GeoModel GeoSpec GeoProofs GeoProofs2 GeoProofs3 MeshModel MeshSpec MeshProofs MeshProofs2.
Import ListNotations.
Open Scope R_scope.

(** Edge terms of the code *)
Definition e1 (a b : vec) := (vy b - vy a) * (vx a + vx b) / 2.
Definition ex (a b : vec) := (vy b - vy a) * ((vx a + vx b) * (vx a + vx b) - vx a * vx b) / 6.
Definition ey (a b : vec) := (vx b - vx a) * ((vy a + vy b) * (vy a + vy b) - vy a * vy b) / -6.
Definition exy (a b : vec) := (vy b - vy a) * ((vy a + vy b) * (vx a + vx b) * (vx a + vx b) + 2 * (vy a * vx a * vx a + vy b * vx b * vx b)) / 24.
Definition ex2 (a b : vec) := (vy b - vy a) * (vx a * vx a + vx b * vx b) * (vx a + vx b) / 12.
Definition ey2 (a b : vec) := (vx b - vx a) * (vy a * vy a + vy b * vy b) * (vy a + vy b) / -12.
Definition ex2y (a b : vec) := (vy b - vy a) * ((vy a + vy b) * (vx a + vx b) ^ 3 + 3 * vx a ^ 3 * vy a + 3 * vx b ^ 3 * vy b - vx a * vx a * vx b * vy b - vx a * vx b * vx b * vy a) / 60.
Definition exact2 (t : poly) (E : vec -> vec -> R) : Prop :=
  (forall o a b, cross2 o a b * over_triangle (mono t) o a b = E a b + E o a + E b o) /\ (forall a b, E b a = - E a b).
Ltac ex2 := split; [intros o a b; rewrite over_mono; unfold omono, moment3, cross2; cbn [fac1 fac2 fac3]; unfold e1, ex, ey, exy, ex2, ey2, ex2y; field
                   |intros a b; unfold e1, ex, ey, exy, ex2, ey2, ex2y; field].
Lemma exact_1 : exact2 POLY_1 e1. Proof. ex2. Qed.
Lemma exact_x : exact2 POLY_X ex. Proof. ex2. Qed.
Lemma exact_y : exact2 POLY_Y ey. Proof. ex2. Qed.
Lemma exact_xy : exact2 POLY_XY exy. Proof. ex2. Qed.
Lemma exact_x2 : exact2 POLY_X2 ex2. Proof. ex2. Qed.
Lemma exact_y2 : exact2 POLY_Y2 ey2. Proof. ex2. Qed.
Lemma exact_x2y : exact2 POLY_X2Y ex2y. Proof. ex2. Qed.

Lemma last_any {A} (l : list A) : forall b a, last (b :: l) a = last l b.
Proof. induction l as [|c l IH]; intros; [reflexivity|]. change (last (b :: c :: l) a) with (last (c :: l) a). rewrite !IH. reflexivity. Qed.
(** Sum over consecutive points *)
Fixpoint path (E : vec -> vec -> R) (l : list vec) : R :=
  match l with a :: ((b :: _) as l') => E a b + path E l' | _ => 0 end.
Lemma fan_path t E o l : exact2 t E -> fan (mono t) o l = path E l + match l with nil => 0 | a :: l' => E o a - E o (last l' a) end.
Proof.
  intros [X A]. induction l as [|a l IH]; [cbn; ring|]. destruct l as [|b l]; [cbn; ring|].
  change (fan (mono t) o (a :: b :: l)) with (cross2 o a b * over_triangle (mono t) o a b + fan (mono t) o (b :: l)).
  change (path E (a :: b :: l)) with (E a b + path E (b :: l)). rewrite IH, X, (A o b).
  replace (last (b :: l) a) with (last l b); [ring|]. symmetry; apply last_any.
Qed.
Lemma fan_closed t E o l : exact2 t E -> closed_list l -> fan (mono t) o l = path E l.
Proof. intros X C. rewrite (fan_path t E) by exact X. destruct l as [|a l]; [destruct C|]. cbn in C. rewrite C. ring. Qed.

Definition ey2x (a b : vec) := (vx b - vx a) * ((vx a + vx b) * (vy a + vy b) ^ 3 + 3 * vy a ^ 3 * vx a + 3 * vy b ^ 3 * vx b - vy a * vy a * vy b * vx b - vy a * vy b * vy b * vx a) / -60.
Definition ex3 (a b : vec) := (vy b - vy a) * (vx a ^ 4 + vx a ^ 3 * vx b + vx a * vx b ^ 3 + vx b ^ 4) / 20.
Definition ey3 (a b : vec) := (vx b - vx a) * (vy a ^ 4 + vy a ^ 3 * vy b + vy a * vy b ^ 3 + vy b ^ 4) / -20.
Lemma poly_loop_path l : forall a s, let r := poly_loop a l s in
  j1 r = j1 s + 2 * path e1 (a :: l) /\ jx r = jx s + 6 * path ex (a :: l) /\ jy r = jy s - 6 * path ey (a :: l) /\
  jxy r = jxy s + 24 * path exy (a :: l) /\ jx2 r = jx2 s + 12 * path ex2 (a :: l) /\ jy2 r = jy2 s - 12 * path ey2 (a :: l) /\
  jx2y r = jx2y s + 60 * path ex2y (a :: l) /\ jy2x r = jy2x s - 60 * path ey2x (a :: l) /\
  jx3 r = jx3 s + 20 * path ex3 (a :: l) /\ jy3 r = jy3 s - 20 * path ey3 (a :: l).
Proof.
  induction l as [|b l IH]; intros a s; cbv zeta.
  { cbn [poly_loop path]. repeat split; ring. }
  change (poly_loop a (b :: l) s) with (poly_loop b l
      (PI10 (j1 s + (vy b - vy a) * (vx a + vx b))
            (jx s + (vy b - vy a) * ((vx a + vx b) * (vx a + vx b) - vx a * vx b))
            (jy s + (vx b - vx a) * ((vy a + vy b) * (vy a + vy b) - vy a * vy b))
            (jxy s + (vy b - vy a) * ((vy a + vy b) * (vx a + vx b) * (vx a + vx b) + 2 * (vy a * vx a * vx a + vy b * vx b * vx b)))
            (jx2 s + (vy b - vy a) * (vx a * vx a + vx b * vx b) * (vx a + vx b))
            (jy2 s + (vx b - vx a) * (vy a * vy a + vy b * vy b) * (vy a + vy b))
            (jx2y s + (vy b - vy a) * ((vy a + vy b) * (vx a + vx b) ^ 3 + 3 * vx a ^ 3 * vy a + 3 * vx b ^ 3 * vy b - vx a * vx a * vx b * vy b - vx a * vx b * vx b * vy a))
            (jy2x s + (vx b - vx a) * ((vx a + vx b) * (vy a + vy b) ^ 3 + 3 * vy a ^ 3 * vx a + 3 * vy b ^ 3 * vx b - vy a * vy a * vy b * vx b - vy a * vy b * vy b * vx a))
            (jx3 s + (vy b - vy a) * (vx a ^ 4 + vx a ^ 3 * vx b + vx a * vx b ^ 3 + vx b ^ 4))
            (jy3 s + (vx b - vx a) * (vy a ^ 4 + vy a ^ 3 * vy b + vy a * vy b ^ 3 + vy b ^ 4)))).
  specialize (IH b (PI10 (j1 s + (vy b - vy a) * (vx a + vx b))
            (jx s + (vy b - vy a) * ((vx a + vx b) * (vx a + vx b) - vx a * vx b))
            (jy s + (vx b - vx a) * ((vy a + vy b) * (vy a + vy b) - vy a * vy b))
            (jxy s + (vy b - vy a) * ((vy a + vy b) * (vx a + vx b) * (vx a + vx b) + 2 * (vy a * vx a * vx a + vy b * vx b * vx b)))
            (jx2 s + (vy b - vy a) * (vx a * vx a + vx b * vx b) * (vx a + vx b))
            (jy2 s + (vx b - vx a) * (vy a * vy a + vy b * vy b) * (vy a + vy b))
            (jx2y s + (vy b - vy a) * ((vy a + vy b) * (vx a + vx b) ^ 3 + 3 * vx a ^ 3 * vy a + 3 * vx b ^ 3 * vy b - vx a * vx a * vx b * vy b - vx a * vx b * vx b * vy a))
            (jy2x s + (vx b - vx a) * ((vx a + vx b) * (vy a + vy b) ^ 3 + 3 * vy a ^ 3 * vx a + 3 * vy b ^ 3 * vx b - vy a * vy a * vy b * vx b - vy a * vy b * vy b * vx a))
            (jx3 s + (vy b - vy a) * (vx a ^ 4 + vx a ^ 3 * vx b + vx a * vx b ^ 3 + vx b ^ 4))
            (jy3 s + (vx b - vx a) * (vy a ^ 4 + vy a ^ 3 * vy b + vy a * vy b ^ 3 + vy b ^ 4)))).
  cbv zeta in IH. cbn [j1 jx jy jxy jx2 jy2 jx2y jy2x jx3 jy3] in IH. destruct IH as (A1 & A2 & A3 & A4 & A5 & A6 & A7 & A8 & A9 & A10).
  assert (P : forall E, path E (a :: b :: l) = E a b + path E (b :: l)) by reflexivity. rewrite !P.
  rewrite A1, A2, A3, A4, A5, A6, A7, A8, A9, A10. clear A1 A2 A3 A4 A5 A6 A7 A8 A9 A10 P.
  repeat match goal with |- context [path ?E (b :: l)] => generalize (path E (b :: l)); intro end.
  unfold e1, ex, ey, exy, ex2, ey2, ex2y, ey2x, ex3, ey3.
  repeat split; field.
Qed.
Lemma compute_path u l j : ComputeSurfacePolynomialIntegrals u l = Some j ->
  j1 j = path e1 l /\ jx j = path ex l /\ jy j = path ey l /\ jxy j = path exy l /\ jx2 j = path ex2 l /\ jy2 j = path ey2 l /\
  jx2y j = path ex2y l + u_x2y u / 60 /\ jy2x j = path ey2x l - u_y2x u / 60 /\ jx3 j = path ex3 l + u_x3 u / 20 /\ jy3 j = path ey3 l - u_y3 u / 20.
Proof.
  unfold ComputeSurfacePolynomialIntegrals. destruct l as [|a l]; [discriminate|]. intros H. injection H as <-.
  destruct (poly_loop_path l a (PI10 0 0 0 0 0 0 (u_x2y u) (u_y2x u) (u_x3 u) (u_y3 u))) as (A1 & A2 & A3 & A4 & A5 & A6 & A7 & A8 & A9 & A10).
  cbn [j1 jx jy jxy jx2 jy2 jx2y jy2x jx3 jy3] in *. rewrite A1, A2, A3, A4, A5, A6, A7, A8, A9, A10. repeat split; field.
Qed.
(** y^2 x over a triangle *)
Definition y2x (p : vec) : R := vy p * vy p * vx p.
Lemma over_y2x a b c : over_triangle y2x a b c = moment3 (vy a) (vy b) (vy c) (vy a) (vy b) (vy c) (vx a) (vx b) (vx c).
Proof. unfold over_triangle, y2x. apply simplex2. intros u v. unfold tri_point, aff; cbn [vx vy plus3 scal3 minus3]. ring. Qed.
Lemma fan_y2x o l : closed_list l -> fan y2x o l = path ey2x l.
Proof.
  intros C.
  assert (X : forall o a b, cross2 o a b * over_triangle y2x o a b = ey2x a b + ey2x o a + ey2x b o)
    by (intros; rewrite over_y2x; unfold cross2, moment3, ey2x; field).
  assert (A : forall a b, ey2x b a = - ey2x a b) by (intros; unfold ey2x; field).
  enough (H : forall l, fan y2x o l = path ey2x l + match l with nil => 0 | a :: l' => ey2x o a - ey2x o (last l' a) end).
  { rewrite H. destruct l as [|a l]; [destruct C|]. cbn in C. rewrite C. ring. }
  clear l C. induction l as [|a l IH]; [cbn; ring|]. destruct l as [|b l]; [cbn; ring|].
  change (fan y2x o (a :: b :: l)) with (cross2 o a b * over_triangle y2x o a b + fan y2x o (b :: l)).
  change (path ey2x (a :: b :: l)) with (ey2x a b + path ey2x (b :: l)). rewrite IH, X, (A o b).
  replace (last (b :: l) a) with (last l b); [ring|]. symmetry; apply last_any.
Qed.
