(** Proofs for C36: the stiffness matrix is the derivative of the load. *)
From Coq Require Import Reals List Lra Lia Permutation Arith Bool.
From Coquelicot Require Import Coquelicot.
From Verif Require Import GeoModel GeoSpec GeoProofs GeoProofs2 GeoProofs3 GeoProofs4 BodyModel MeshModel MeshSpec MeshProofs MeshProofs2 MeshProofs3 MeshProofs4 MeshProofs5 MeshProofs6 MeshProofs7 MeshProofs8 MeshProofs9 MeshProofs10 HydModel HydSpec HydProofs.
Import ListNotations.
Open Scope R_scope.

(** ** Fluxes through a moving triangle that starts in the plane z = 0 *)
Definition cross_xy (t : triangle) : R := let '(a, b, c) := t in cross2 a b c.
Definition T (t : poly) (x : triangle) : R := let '(a, b, c) := x in cross2 a b c * over_triangle (mono t) a b c.

Lemma derive_ext' (g f : R -> R) x l : (forall t, g t = f t) -> is_derive f x l -> is_derive g x l.
Proof. intros H D. apply (is_derive_ext f); [intros t; symmetry; apply H|exact D]. Qed.
Lemma derive_sub (f g : R -> R) (x a b : R) : is_derive f x a -> is_derive g x b -> is_derive (fun t => f t - g t) x (a - b).
Proof. intros A B. exact (@is_derive_minus R_AbsRing R_NormedModule f g x a b A B). Qed.
Lemma derive_mul (k : R) (f : R -> R) (x a : R) : is_derive f x a -> is_derive (fun t => k * f t) x (k * a).
Proof. intros A. exact (is_derive_scal f x k a A). Qed.
Section Lid.
Variables (xa ya za xb yb zb xc yc zc : R -> R) (dxa dya dza dxb dyb dzb dxc dyc dzc : R).
Hypotheses (Hxa : is_derive xa 0 dxa) (Hya : is_derive ya 0 dya) (Hza : is_derive za 0 dza) (Hxb : is_derive xb 0 dxb) (Hyb : is_derive yb 0 dyb) (Hzb : is_derive zb 0 dzb)
  (Hxc : is_derive xc 0 dxc) (Hyc : is_derive yc 0 dyc) (Hzc : is_derive zc 0 dzc) (Za : za 0 = 0) (Zb : zb 0 = 0) (Zc : zc 0 = 0).
Let tri h : triangle := (V (xa h) (ya h) (za h), V (xb h) (yb h) (zb h), V (xc h) (yc h) (zc h)).
Let N := cross_xy (tri 0).
Ltac go := unfold tri, tflux, flux, vector_integral; cbn [fst snd];
  eapply derive_ext'; [intros t; rewrite over_mono; unfold omono, moment3, area2, cross3, minus3, scal3; cbn [fac1 fac2 fac3 component vx vy vz]; reflexivity|];
  auto_derive; [repeat split; eexists; eassumption|];
  change (fun x => xa x) with xa; change (fun x => ya x) with ya; change (fun x => za x) with za; change (fun x => xb x) with xb; change (fun x => yb x) with yb; change (fun x => zb x) with zb; change (fun x => xc x) with xc; change (fun x => yc x) with yc; change (fun x => zc x) with zc;
  rewrite ?(is_derive_unique _ _ _ Hxa), ?(is_derive_unique _ _ _ Hya), ?(is_derive_unique _ _ _ Hza), ?(is_derive_unique _ _ _ Hxb), ?(is_derive_unique _ _ _ Hyb), ?(is_derive_unique _ _ _ Hzb), ?(is_derive_unique _ _ _ Hxc), ?(is_derive_unique _ _ _ Hyc), ?(is_derive_unique _ _ _ Hzc);
  rewrite ?Za, ?Zb, ?Zc; unfold N, cross_xy, tri, cross2; cbn [vx vy vz]; field.
Lemma lid_z2 : is_derive (fun h => tflux 2 POLY_Z (tri h)) 0 (N * (dza + dzb + dzc) / 6). Proof using All. go. Qed.
Lemma lid_z0 : is_derive (fun h => tflux 0 POLY_Z (tri h)) 0 0. Proof using All. go. Qed.
Lemma lid_z1 : is_derive (fun h => tflux 1 POLY_Z (tri h)) 0 0. Proof using All. go. Qed.
Lemma lid_zz0 : is_derive (fun h => tflux 0 POLY_Z2 (tri h)) 0 0. Proof using All. go. Qed.
Lemma lid_zz1 : is_derive (fun h => tflux 1 POLY_Z2 (tri h)) 0 0. Proof using All. go. Qed.
Lemma lid_yz : is_derive (fun h => tflux 2 POLY_YZ (tri h)) 0 (N * ((ya 0 + yb 0 + yc 0) * (dza + dzb + dzc) + (ya 0 * dza + yb 0 * dzb + yc 0 * dzc)) / 24). Proof using All. go. Qed.
Lemma lid_xz : is_derive (fun h => tflux 2 POLY_XZ (tri h)) 0 (N * ((xa 0 + xb 0 + xc 0) * (dza + dzb + dzc) + (xa 0 * dza + xb 0 * dzb + xc 0 * dzc)) / 24). Proof using All. go. Qed.
End Lid.

(** ** Loads of a triangle reduced at P, per unit of rho g *)
Definition G0 (t : triangle) : R := tflux 2 POLY_Z t.
Definition G1 (P : vec) (t : triangle) : R := tflux 2 POLY_YZ t - tflux 1 POLY_Z2 t - (vy P * tflux 2 POLY_Z t - vz P * tflux 1 POLY_Z t).
Definition G2 (P : vec) (t : triangle) : R := tflux 0 POLY_Z2 t - tflux 2 POLY_XZ t - (vz P * tflux 0 POLY_Z t - vx P * tflux 2 POLY_Z t).
Definition mvt (d : vec -> vec) (t : triangle) : triangle := let '(a, b, c) := t in (d a, d b, d c).
Lemma sub_sum {A} (f h : A -> R) s : sum (map (fun x => f x - h x) s) = sum (map f s) - sum (map h s).
Proof. unfold sum. induction s; cbn; [ring|]. rewrite IHs. ring. Qed.
Lemma load_sums rho g s w c P d : load rho g s w c P d =
  V (rho * g * sum (map G0 (move d s)) - w) (rho * g * sum (map (G1 P) (move d s)) - w * (vy (d c) - vy P)) (rho * g * sum (map (G2 P) (move d s)) + w * (vx (d c) - vx P)).
Proof.
  unfold load, load_force, load_moment, moment_at, pressure_force. rewrite moment_fluxes, sum3_comp.
  assert (E : forall i, sum (map (fun x => component i (let '(a, b, c0) := x in vector_integral vz a b c0)) (move d s)) = sum (map (tflux i POLY_Z) (move d s))) by (intros i; apply sum_ext; intros [[x y] z] _; reflexivity).
  pose proof (E 0%nat) as E0. pose proof (E 1%nat) as E1. pose proof (E 2%nat) as E2. cbn [component] in E0, E1, E2. rewrite E0, E1, E2.
  unfold G1, G2. rewrite !sub_sum, !sum_scal. fold G0. change (tflux 2 POLY_Z) with G0. unfold moment_of. apply vec_eq; cbn [vx vy vz plus3 minus3 scal3 cross3]; ring.
Qed.
Lemma closed_sums s r t P : watertight s -> mdet r = 1 -> volume s <> 0 -> let s' := move (rig r t) s in let cb := rig r t (centroid s) in
  sum (map G0 s') = volume s /\ sum (map (G1 P) s') = volume s * (vy cb - vy P) /\ sum (map (G2 P) s') = - (volume s * (vx cb - vx P)).
Proof.
  intros W D NZ. cbv zeta. destruct (rigid_moments r t s D W) as [V1 C1]. specialize (C1 NZ). rewrite <- C1.
  pose proof (watertight_move (rig r t) s W) as W'. set (s' := move (rig r t) s) in *.
  assert (NZ' : volume s' <> 0) by congruence.
  unfold G1, G2. rewrite !sub_sum, !sum_scal. change G0 with (tflux 2 POLY_Z).
  rewrite (tflux_div _ 2 POLY_YZ 1 _ div_YZz W'), (tflux_div _ 1 POLY_Z2 0 _ div_Z2y W'), (tflux_div _ 0 POLY_Z2 0 _ div_Z2x W'), (tflux_div _ 2 POLY_XZ 1 _ div_XZz W'), (tflux_div _ 2 POLY_Z 1 _ div_Z W'), (tflux_div _ 0 POLY_Z 0 _ div_Zx W'), (tflux_div _ 1 POLY_Z 0 _ div_Zy W').
  fold (volume s'). rewrite <- V1. unfold centroid. cbn [scal3 vx vy vz]. repeat split; field; exact NZ'.
Qed.

(** Derivative of a sum *)
Lemma derive_sum (F : R -> triangle -> R) (D : triangle -> R) s : (forall t, In t s -> is_derive (fun h => F h t) 0 (D t)) -> is_derive (fun h => sum (map (F h) s)) 0 (sum (map D s)).
Proof.
  unfold sum. induction s as [|t s IH]; intros H; cbn [map fold_right]; [apply (@is_derive_const R_AbsRing R_NormedModule)|].
  apply (is_derive_plus (fun h => F h t) (fun h => fold_right Rplus 0 (map (F h) s))); [apply H; left; reflexivity|apply IH; intros; apply H; right; assumption].
Qed.
Lemma move_sum (F : triangle -> R) d s : sum (map F (move d s)) = sum (map (fun t => F (mvt d t)) s).
Proof. unfold move. rewrite map_map. apply sum_ext. intros [[a b] c] _. reflexivity. Qed.

Section Triangle.
Variables (d : R -> vec -> vec) (dz : vec -> R) (P : vec) (k a0 b0 : R).
Hypotheses (I0 : forall q, d 0 q = q) (Dx : forall q, ex_derive (fun h => vx (d h q)) 0) (Dy : forall q, ex_derive (fun h => vy (d h q)) 0)
  (Dz : forall q, vz q = 0 -> is_derive (fun h => vz (d h q)) 0 (dz q)) (Lin : forall q, dz q = k + (a0 * vx q + b0 * vy q)).
Lemma tri_fluxes a b c : vz a = 0 -> vz b = 0 -> vz c = 0 -> let t := (a, b, c) in
  is_derive (fun h => G0 (mvt (d h) t)) 0 (k * T POLY_1 t + a0 * T POLY_X t + b0 * T POLY_Y t) /\
  is_derive (fun h => G1 P (mvt (d h) t)) 0 (k * T POLY_Y t + a0 * T POLY_XY t + b0 * T POLY_Y2 t - vy P * (k * T POLY_1 t + a0 * T POLY_X t + b0 * T POLY_Y t)) /\
  is_derive (fun h => G2 P (mvt (d h) t)) 0 (- (k * T POLY_X t + a0 * T POLY_X2 t + b0 * T POLY_XY t) + vx P * (k * T POLY_1 t + a0 * T POLY_X t + b0 * T POLY_Y t)).
Proof.
  intros Ha Hb Hc. cbv zeta.
  destruct (Dx a) as (xa & Xa). destruct (Dx b) as (xb & Xb). destruct (Dx c) as (xc & Xc). destruct (Dy a) as (ya & Ya). destruct (Dy b) as (yb & Yb). destruct (Dy c) as (yc & Yc).
  pose proof (Dz a Ha) as Za. pose proof (Dz b Hb) as Zb. pose proof (Dz c Hc) as Zc.
  assert (Ia : vz (d 0 a) = 0) by (rewrite I0; exact Ha). assert (Ib : vz (d 0 b) = 0) by (rewrite I0; exact Hb). assert (Ic : vz (d 0 c) = 0) by (rewrite I0; exact Hc).
  pose proof (lid_z2 _ _ _ _ _ _ _ _ _ _ _ _ _ _ _ _ _ _ Xa Ya Za Xb Yb Zb Xc Yc Zc Ia Ib Ic) as F1.
  pose proof (lid_z0 _ _ _ _ _ _ _ _ _ _ _ _ _ _ _ _ _ _ Xa Ya Za Xb Yb Zb Xc Yc Zc Ia Ib Ic) as F2.
  pose proof (lid_z1 _ _ _ _ _ _ _ _ _ _ _ _ _ _ _ _ _ _ Xa Ya Za Xb Yb Zb Xc Yc Zc Ia Ib Ic) as F3.
  pose proof (lid_zz0 _ _ _ _ _ _ _ _ _ _ _ _ _ _ _ _ _ _ Xa Ya Za Xb Yb Zb Xc Yc Zc Ia Ib Ic) as F4.
  pose proof (lid_zz1 _ _ _ _ _ _ _ _ _ _ _ _ _ _ _ _ _ _ Xa Ya Za Xb Yb Zb Xc Yc Zc Ia Ib Ic) as F5.
  pose proof (lid_yz _ _ _ _ _ _ _ _ _ _ _ _ _ _ _ _ _ _ Xa Ya Za Xb Yb Zb Xc Yc Zc Ia Ib Ic) as F6.
  pose proof (lid_xz _ _ _ _ _ _ _ _ _ _ _ _ _ _ _ _ _ _ Xa Ya Za Xb Yb Zb Xc Yc Zc Ia Ib Ic) as F7.
  assert (CV : forall i t l, is_derive (fun h => tflux i t (V (vx (d h a)) (vy (d h a)) (vz (d h a)), V (vx (d h b)) (vy (d h b)) (vz (d h b)), V (vx (d h c)) (vy (d h c)) (vz (d h c)))) 0 l -> is_derive (fun h => tflux i t (mvt (d h) (a, b, c))) 0 l).
  { intros i t l. apply derive_ext'. intros h. cbn [mvt]. destruct (d h a), (d h b), (d h c). reflexivity. }
  apply CV in F1. apply CV in F2. apply CV in F3. apply CV in F4. apply CV in F5. apply CV in F6. apply CV in F7.
  cbv beta in F1, F6, F7. unfold cross_xy, cross2 in F1, F6, F7. cbn [vx vy vz] in F1, F6, F7. rewrite !I0 in F1, F6, F7. rewrite !Lin in F1, F6, F7.
  unfold T, cross2. rewrite !over_mono. unfold omono, moment3. cbn [fac1 fac2 fac3].
  unfold G0, G1, G2. 
  assert (U : forall (f : R -> R) (x l l' : R), is_derive f x l -> l = l' -> is_derive f x l') by (intros; subst; assumption).
  split; [|split].
  - eapply U; [exact F1|]. req. field.
  - eapply U. { apply derive_sub; [apply derive_sub; [exact F6|exact F5]|]. apply derive_sub; apply derive_mul; [exact F1|exact F3]. }
    field.
  - eapply U. { apply derive_sub; [apply derive_sub; [exact F4|exact F7]|]. apply derive_sub; apply derive_mul; [exact F2|exact F1]. }
    field.
Qed.
End Triangle.

(** ** Lids *)
Lemma T_fan t o l : sum (map (T t) (fan_soup o l)) = fan (mono t) o l.
Proof.
  unfold sum. induction l as [|p l IH]; [reflexivity|]. destruct l as [|q l]; [reflexivity|].
  change (fan (mono t) o (p :: q :: l)) with (cross2 o p q * over_triangle (mono t) o p q + fan (mono t) o (q :: l)). rewrite <- IH. reflexivity.
Qed.
Lemma T_caps t E ls : exact2 t E -> List.Forall closed_list ls -> sum (map (T t) (caps ls)) = waterplane (mono t) ls.
Proof.
  intros X C. unfold waterplane, caps. induction C as [|l ls Hl C IH]; [reflexivity|]. cbn [map concat]. rewrite map_app, sum_app, IH. unfold cap. rewrite T_fan.
  unfold sum. cbn [fold_right]. f_equal. rewrite !(fan_closed t E _ l X Hl). reflexivity.
Qed.
Lemma flat_caps ls : (forall l v, In l ls -> In v l -> vz v = 0) -> flat (caps ls).
Proof.
  assert (FS : forall o l a b c, vz o = 0 -> (forall v, In v l -> vz v = 0) -> In (a, b, c) (fan_soup o l) -> vz a = 0 /\ vz b = 0 /\ vz c = 0).
  { intros o l. induction l as [|x [|y l] IH]; intros a b c Ho Hl Hi; [destruct Hi|destruct Hi|]. destruct Hi as [Hi|Hi]; [injection Hi as <- <- <-; repeat split; auto; apply Hl; cbn; auto|]. apply (IH a b c Ho); [|exact Hi]. intros v Hv. apply Hl. right. exact Hv. }
  intros Z a b c H. unfold caps in H. apply in_concat in H as (x & Hx & H). apply in_map_iff in Hx as (l & <- & Hl). unfold cap in H. apply (FS (hd origin l) l a b c); [|intros v Hv; exact (Z l v Hl Hv)|exact H].
  destruct l as [|v l]; [destruct H|]. apply (Z (v :: l) v Hl). left; reflexivity.
Qed.

Section Stiffness.
Variables (rho g w : R) (s : soup) (ls : list (list vec)) (c P : vec) (d : R -> vec -> vec) (r : R -> mat) (tr : R -> vec) (k a0 b0 : R) (dx dy : vec -> R).
Let s' := s ++ caps ls.
Let W t := waterplane (mono t) ls.
Let cb := centroid s'.
Hypotheses (WT : watertight s') (CL : List.Forall closed_list ls) (FL : flat (caps ls)) (NZ : volume s' <> 0)
  (Rig : forall h p, d h p = rig (r h) (tr h) p) (Det : forall h, mdet (r h) = 1) (I0 : forall q, d 0 q = q)
  (Dx : forall q, is_derive (fun h => vx (d h q)) 0 (dx q)) (Dy : forall q, is_derive (fun h => vy (d h q)) 0 (dy q))
  (Dz : forall q, vz q = 0 -> is_derive (fun h => vz (d h q)) 0 (k + (a0 * vx q + b0 * vy q))).
Lemma split_sum (F : triangle -> R) h : sum (map F (move (d h) s)) = sum (map F (move (d h) s')) - sum (map (fun t => F (mvt (d h) t)) (caps ls)).
Proof. unfold s'. rewrite move_app, map_app, sum_app, <- move_sum. ring. Qed.
Lemma stiffness_general : derive3 (fun h => load rho g s w c P (d h)) 0
  (V (- (rho * g) * (k * W POLY_1 + a0 * W POLY_X + b0 * W POLY_Y))
     (rho * g * volume s' * dy cb - w * dy c - rho * g * (k * W POLY_Y + a0 * W POLY_XY + b0 * W POLY_Y2 - vy P * (k * W POLY_1 + a0 * W POLY_X + b0 * W POLY_Y)))
     (- (rho * g * volume s' * dx cb) + w * dx c + rho * g * (k * W POLY_X + a0 * W POLY_X2 + b0 * W POLY_XY - vx P * (k * W POLY_1 + a0 * W POLY_X + b0 * W POLY_Y)))).
Proof.
  assert (LS : forall t, In t (caps ls) ->
    is_derive (fun h => G0 (mvt (d h) t)) 0 (k * T POLY_1 t + a0 * T POLY_X t + b0 * T POLY_Y t) /\
    is_derive (fun h => G1 P (mvt (d h) t)) 0 (k * T POLY_Y t + a0 * T POLY_XY t + b0 * T POLY_Y2 t - vy P * (k * T POLY_1 t + a0 * T POLY_X t + b0 * T POLY_Y t)) /\
    is_derive (fun h => G2 P (mvt (d h) t)) 0 (- (k * T POLY_X t + a0 * T POLY_X2 t + b0 * T POLY_XY t) + vx P * (k * T POLY_1 t + a0 * T POLY_X t + b0 * T POLY_Y t))).
  { intros [[a b] c0] H. destruct (FL _ _ _ H) as (Ha & Hb & Hc). apply (tri_fluxes d (fun q => k + (a0 * vx q + b0 * vy q)) P k a0 b0 I0); auto; intros q; eexists; [apply Dx|apply Dy]. }
  pose proof (derive_sum (fun h t => G0 (mvt (d h) t)) _ (caps ls) (fun t H => proj1 (LS t H))) as D0.
  pose proof (derive_sum (fun h t => G1 P (mvt (d h) t)) _ (caps ls) (fun t H => proj1 (proj2 (LS t H)))) as D1.
  pose proof (derive_sum (fun h t => G2 P (mvt (d h) t)) _ (caps ls) (fun t H => proj2 (proj2 (LS t H)))) as D2.
  assert (E0 : sum (map (fun t => k * T POLY_1 t + a0 * T POLY_X t + b0 * T POLY_Y t) (caps ls)) = k * W POLY_1 + a0 * W POLY_X + b0 * W POLY_Y).
  { rewrite !sum_plus, !sum_scal. rewrite (T_caps _ _ _ exact_1 CL), (T_caps _ _ _ exact_x CL), (T_caps _ _ _ exact_y CL). reflexivity. }
  assert (E1 : sum (map (fun t => k * T POLY_Y t + a0 * T POLY_XY t + b0 * T POLY_Y2 t - vy P * (k * T POLY_1 t + a0 * T POLY_X t + b0 * T POLY_Y t)) (caps ls)) = k * W POLY_Y + a0 * W POLY_XY + b0 * W POLY_Y2 - vy P * (k * W POLY_1 + a0 * W POLY_X + b0 * W POLY_Y)).
  { rewrite sub_sum, sum_scal, E0, !sum_plus, !sum_scal. rewrite (T_caps _ _ _ exact_y CL), (T_caps _ _ _ exact_xy CL), (T_caps _ _ _ exact_y2 CL). reflexivity. }
  assert (E2 : sum (map (fun t => - (k * T POLY_X t + a0 * T POLY_X2 t + b0 * T POLY_XY t) + vx P * (k * T POLY_1 t + a0 * T POLY_X t + b0 * T POLY_Y t)) (caps ls)) = - (k * W POLY_X + a0 * W POLY_X2 + b0 * W POLY_XY) + vx P * (k * W POLY_1 + a0 * W POLY_X + b0 * W POLY_Y)).
  { rewrite sum_plus, sum_scal, E0. rewrite (sum_ext _ (fun t => (- 1) * (k * T POLY_X t + a0 * T POLY_X2 t + b0 * T POLY_XY t))) by (intros; ring). rewrite sum_scal, !sum_plus, !sum_scal. rewrite (T_caps _ _ _ exact_x CL), (T_caps _ _ _ exact_xy CL), (T_caps _ _ _ exact_x2 CL). unfold W. ring. }
  rewrite E0 in D0. rewrite E1 in D1. rewrite E2 in D2.
  assert (CS : forall h, sum (map G0 (move (d h) s')) = volume s' /\ sum (map (G1 P) (move (d h) s')) = volume s' * (vy (d h cb) - vy P) /\ sum (map (G2 P) (move (d h) s')) = - (volume s' * (vx (d h cb) - vx P))).
  { intros h. rewrite (move_ext (d h) (rig (r h) (tr h)) s' (Rig h)). rewrite (Rig h cb). apply (closed_sums s' (r h) (tr h) P WT (Det h) NZ). }
  assert (U : forall (f : R -> R) (x l l' : R), is_derive f x l -> l = l' -> is_derive f x l') by (intros; subst; assumption).
  assert (DC : forall x : R, is_derive (fun _ : R => x) 0 0) by (intros; apply (@is_derive_const R_AbsRing R_NormedModule)).
  pose proof (Dx cb) as Xb. pose proof (Dy cb) as Yb. pose proof (Dx c) as Xc. pose proof (Dy c) as Yc.
  unfold derive3. cbn [vx vy vz]. split; [|split].
  - apply (derive_ext' _ (fun h => rho * g * (volume s' - sum (map (fun t => G0 (mvt (d h) t)) (caps ls))) - w)).
    { intros h. rewrite load_sums. cbn [vx]. rewrite split_sum, (proj1 (CS h)). reflexivity. }
    eapply U; [apply derive_sub; [apply derive_mul, derive_sub; [apply DC|exact D0]|apply DC]|]. ring.
  - apply (derive_ext' _ (fun h => rho * g * (volume s' * (vy (d h cb) - vy P) - sum (map (fun t => G1 P (mvt (d h) t)) (caps ls))) - w * (vy (d h c) - vy P))).
    { intros h. rewrite load_sums. cbn [vy]. rewrite split_sum, (proj1 (proj2 (CS h))). reflexivity. }
    eapply U; [apply derive_sub; [apply derive_mul, derive_sub; [apply derive_mul, derive_sub; [exact Yb|apply DC]|exact D1]|apply derive_mul, derive_sub; [exact Yc|apply DC]]|]. ring.
  - apply (derive_ext' _ (fun h => rho * g * (- volume s' * (vx (d h cb) - vx P) - sum (map (fun t => G2 P (mvt (d h) t)) (caps ls))) - (- w) * (vx (d h c) - vx P))).
    { intros h. rewrite load_sums. cbn [vz]. rewrite split_sum, (proj2 (proj2 (CS h))). ring. }
    eapply U; [apply derive_sub; [apply derive_mul, derive_sub; [apply derive_mul, derive_sub; [exact Xb|apply DC]|exact D2]|apply derive_mul, derive_sub; [exact Xc|apply DC]]|]. ring.
Qed.
End Stiffness.

Section Columns.
Variables (rho g w : R) (s : soup) (ls : list (list vec)) (c P : vec).
Let s' := s ++ caps ls.
Let W t := waterplane (mono t) ls.
Let cb := centroid s'.
Hypotheses (WT : watertight s') (CL : List.Forall closed_list ls) (Z : forall l v, In l ls -> In v l -> vz v = 0) (NZ : volume s' <> 0).
Lemma heave_column : derive3 (fun h => load rho g s w c P (heave h)) 0
  (V (- (rho * g * W POLY_1)) (- (rho * g * (W POLY_Y - vy P * W POLY_1))) (rho * g * (W POLY_X - vx P * W POLY_1))).
Proof.
  pose proof (stiffness_general rho g w s ls c P heave (fun _ => mid) (fun h => V 0 0 h) 1 0 0 (fun _ => 0) (fun _ => 0) WT CL (flat_caps ls Z) NZ) as G. fold s' W cb in G.
  assert (E : forall a b, derive3 (fun h => load rho g s w c P (heave h)) 0 a -> a = b -> derive3 (fun h => load rho g s w c P (heave h)) 0 b) by (intros; subst; assumption).
  eapply E; [apply G|].
  - intros h []. unfold heave, rig, mid, mv, dot3. apply vec_eq; cbn; ring.
  - intros h. unfold mdet, mid. geo. ring.
  - intros []. unfold heave. apply vec_eq; cbn; ring.
  - intros []. unfold heave; cbn. auto_derive; [exact I|ring].
  - intros []. unfold heave; cbn. auto_derive; [exact I|ring].
  - intros [] _. unfold heave; cbn. auto_derive; [exact I|ring].
  - apply vec_eq; cbn [vx vy vz]; ring.
Qed.
Lemma roll_column : derive3 (fun a => load rho g s w c P (roll P a)) 0
  (V (- (rho * g * (W POLY_Y - vy P * W POLY_1)))
     (- (rho * g * (volume s' * (vz cb - vz P) + (W POLY_Y2 - 2 * vy P * W POLY_Y + vy P * vy P * W POLY_1)) - w * (vz c - vz P)))
     (rho * g * (W POLY_XY - vx P * W POLY_Y - vy P * W POLY_X + vx P * vy P * W POLY_1))).
Proof.
  pose proof (stiffness_general rho g w s ls c P (roll P) Rx (fun a => minus3 P (mv (Rx a) P)) (- vy P) 0 1 (fun _ => 0) (fun q => - (vz q - vz P)) WT CL (flat_caps ls Z) NZ) as G. fold s' W cb in G.
  assert (E : forall a b, derive3 (fun h => load rho g s w c P (roll P h)) 0 a -> a = b -> derive3 (fun h => load rho g s w c P (roll P h)) 0 b) by (intros; subst; assumption).
  eapply E; [apply G|].
  - intros h []. destruct P. unfold roll, rig, Rx, mv, dot3. apply vec_eq; cbn; ring.
  - intros h. pose proof (sin2_cos2 h) as SC. unfold Rsqr in SC. unfold mdet, Rx. geo. lra.
  - intros []. destruct P. unfold roll, Rx, mv, dot3. rewrite cos_0, sin_0. apply vec_eq; cbn; ring.
  - intros []. destruct P. unfold roll, Rx, mv, dot3; cbn. auto_derive; [exact I|ring].
  - intros []. destruct P. unfold roll, Rx, mv, dot3; cbn. auto_derive; [exact I|rewrite ?cos_0, ?sin_0; ring].
  - intros [x y z] K. destruct P. cbn in K. unfold roll, Rx, mv, dot3; cbn. auto_derive; [exact I|rewrite ?cos_0, ?sin_0; ring].
  - apply vec_eq; cbn [vx vy vz]; ring.
Qed.
Lemma pitch_column : derive3 (fun a => load rho g s w c P (pitch P a)) 0
  (V (rho * g * (W POLY_X - vx P * W POLY_1))
     (rho * g * (W POLY_XY - vx P * W POLY_Y - vy P * W POLY_X + vx P * vy P * W POLY_1))
     (- (rho * g * (volume s' * (vz cb - vz P) + (W POLY_X2 - 2 * vx P * W POLY_X + vx P * vx P * W POLY_1)) - w * (vz c - vz P)))).
Proof.
  pose proof (stiffness_general rho g w s ls c P (pitch P) Ry (fun a => minus3 P (mv (Ry a) P)) (vx P) (-1) 0 (fun q => vz q - vz P) (fun _ => 0) WT CL (flat_caps ls Z) NZ) as G. fold s' W cb in G.
  assert (E : forall a b, derive3 (fun h => load rho g s w c P (pitch P h)) 0 a -> a = b -> derive3 (fun h => load rho g s w c P (pitch P h)) 0 b) by (intros; subst; assumption).
  eapply E; [apply G|].
  - intros h []. destruct P. unfold pitch, rig, Ry, mv, dot3. apply vec_eq; cbn; ring.
  - intros h. pose proof (sin2_cos2 h) as SC. unfold Rsqr in SC. unfold mdet, Ry. geo. lra.
  - intros []. destruct P. unfold pitch, Ry, mv, dot3. rewrite cos_0, sin_0. apply vec_eq; cbn; ring.
  - intros []. destruct P. unfold pitch, Ry, mv, dot3; cbn. auto_derive; [exact I|rewrite ?cos_0, ?sin_0; ring].
  - intros []. destruct P. unfold pitch, Ry, mv, dot3; cbn. auto_derive; [exact I|ring].
  - intros [x y z] K. destruct P. cbn in K. unfold pitch, Ry, mv, dot3; cbn. auto_derive; [exact I|rewrite ?cos_0, ?sin_0; ring].
  - apply vec_eq; cbn [vx vy vz]; ring.
Qed.
End Columns.
