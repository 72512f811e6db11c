(** Proofs about the simple solids and the mooring buoy. *)
From Coq Require Import Reals List Lra Lia.
From Coquelicot Require Import Coquelicot.
From Coq Require Import FunctionalExtensionality.
From Verif Require Import GeoModel GeoSpec GeoProofs BodyModel BodySpec BodyProofs3 BodyProofs InertiaModel SeaModel StcModel StcSpec.
Import ListNotations.
Open Scope R_scope.

Lemma ftc : forall (P f : R -> R) a b, (forall x : R, is_derive P x (f x)) -> (forall x : R, ex_derive f x) -> @eq R (RInt f a b) (P b - P a).
Proof.
  intros P f a b D C. apply is_RInt_unique. apply (is_RInt_derive P f); intros x _; [apply D|apply (ex_derive_continuous f), C].
Qed.
Lemma ext : forall (f g : R -> R) a b, (forall x : R, @eq R (f x) (g x)) -> @eq R (RInt f a b) (RInt g a b).
Proof. intros f g a b H. apply RInt_ext. intros x _. apply H. Qed.
(** A quadratic function of the point *)
Definition quad (k k1 k2 k3 a b c d e g x y z : R) : R := k + k1 * x + k2 * y + k3 * z + a * (x * x) + b * (y * y) + c * (z * z) + d * (x * y) + e * (x * z) + g * (y * z).
Lemma box_quad : forall A B C k k1 k2 k3 a b c d e g,
  box_integral A B C (quad k k1 k2 k3 a b c d e g) = A * B * C * (k + a * (A * A) / 12 + b * (B * B) / 12 + c * (C * C) / 12).
Proof.
  intros. unfold box_integral, quad.
  rewrite (ext _ (fun x => B * C * (k + k1 * x + a * (x * x) + b * (B * B) / 12 + c * (C * C) / 12))).
  2:{ intros x. rewrite (ext _ (fun y => C * (k + k1 * x + k2 * y + a * (x * x) + b * (y * y) + d * (x * y) + c * (C * C) / 12))).
      2:{ intros y. rewrite (ftc (fun z => (k + k1 * x + k2 * y + a * (x * x) + b * (y * y) + d * (x * y)) * z + (k3 + e * x + g * y) * (z * z) / 2 + c * (z * z * z) / 3)).
          - field. - intro z. auto_derive; [exact I|field]. - intro z. auto_derive. exact I. }
      rewrite (ftc (fun y => C * ((k + k1 * x + a * (x * x) + c * (C * C) / 12) * y + (k2 + d * x) * (y * y) / 2 + b * (y * y * y) / 3))).
      - field. - intro y. auto_derive; [exact I|field]. - intro y. auto_derive. exact I. }
  rewrite (ftc (fun x => B * C * ((k + b * (B * B) / 12 + c * (C * C) / 12) * x + k1 * (x * x) / 2 + a * (x * x * x) / 3))).
  - field. - intro x. auto_derive; [exact I|field]. - intro x. auto_derive. exact I.
Qed.
Lemma sc2 : forall t, sin t * sin t = 1 - cos t * cos t. Proof. intro t. pose proof (sin2_cos2 t) as H. unfold Rsqr in H. lra. Qed.
Lemma cyl_quad : forall r h k k1 k2 k3 a b c d e g,
  cylinder_integral r h (quad k k1 k2 k3 a b c d e g) = PI * (r * r) * h * (k + (a + c) * (r * r) / 4 + b * (h * h) / 12).
Proof.
  intros. unfold cylinder_integral, quad.
  rewrite (ext _ (fun y => PI * (r * r) * (k + k2 * y + b * (y * y) + (a + c) * (r * r) / 4))).
  2:{ intros y. rewrite (ext _ (fun s => 2 * PI * s * (k + k2 * y + b * (y * y) + (a + c) * (s * s) / 2))).
      2:{ intros s. rewrite (ftc (fun t => s * ((k + k2 * y + b * (y * y)) * t + (k1 + d * y) * s * sin t - (k3 + g * y) * s * cos t + a * (s * s) * (t / 2 + sin t * cos t / 2) + c * (s * s) * (t / 2 - sin t * cos t / 2) + e * (s * s) * (sin t * sin t) / 2))).
          - rewrite sin_2PI, cos_2PI, sin_0, cos_0. field.
          - intro t. auto_derive; [exact I|]. pose proof (sc2 t) as Q. set (sn := sin t) in *. set (cs := cos t) in *. clearbody sn cs.
            field_simplify_eq. replace (sn ^ 2) with (1 - cs ^ 2) by (replace (sn ^ 2) with (sn * sn) by ring; rewrite Q; ring). ring.
          - intro t. auto_derive. exact I. }
      rewrite (ftc (fun s => 2 * PI * ((k + k2 * y + b * (y * y)) * (s * s) / 2 + (a + c) * (s * s * s * s) / 8))).
      - field. - intro s. auto_derive; [exact I|field]. - intro s. auto_derive. exact I. }
  rewrite (ftc (fun y => PI * (r * r) * ((k + (a + c) * (r * r) / 4) * y + k2 * (y * y) / 2 + b * (y * y * y) / 3))).
  - field. - intro y. auto_derive; [exact I|field]. - intro y. auto_derive. exact I.
Qed.
Lemma ball_quad : forall r k k1 k2 k3 a b c d e g,
  ball_integral r (quad k k1 k2 k3 a b c d e g) = 4 / 3 * PI * (r * r * r) * (k + (a + b + c) * (r * r) / 5).
Proof.
  intros. unfold ball_integral, quad.
  rewrite (ext _ (fun s => 2 * PI * (s * s) * (2 * k + 2 / 3 * (s * s) * (a + b + c)))).
  2:{ intros s. rewrite (ext _ (fun u => 2 * PI * (s * s) * sin u * (k + k3 * s * cos u + c * (s * s) * (cos u * cos u) + (a + b) / 2 * (s * s) * (1 - cos u * cos u)))).
      2:{ intros u. set (p := s * sin u). set (z := s * cos u).
          rewrite (ftc (fun t => (s * s * sin u) * ((k + k3 * z + c * (z * z)) * t + (k1 + e * z) * p * sin t - (k2 + g * z) * p * cos t + a * (p * p) * (t / 2 + sin t * cos t / 2) + b * (p * p) * (t / 2 - sin t * cos t / 2) + d * (p * p) * (sin t * sin t) / 2))).
          - rewrite sin_2PI, cos_2PI, sin_0, cos_0. rewrite <- (sc2 u). unfold z, p. field.
          - intro t. auto_derive; [exact I|]. pose proof (sc2 t) as Q. set (sn := sin t) in *. set (cs := cos t) in *. clearbody sn cs p z.
            field_simplify_eq. replace (sn ^ 2) with (1 - cs ^ 2) by (replace (sn ^ 2) with (sn * sn) by ring; rewrite Q; ring). ring.
          - intro t. auto_derive. exact I. }
      rewrite (ftc (fun u => 2 * PI * (s * s) * (- k * cos u + k3 * s * (sin u * sin u) / 2 - c * (s * s) * (cos u * cos u * cos u) / 3 + (a + b) / 2 * (s * s) * (- cos u + cos u * cos u * cos u / 3)))).
      - rewrite sin_PI, cos_PI, sin_0, cos_0. field. - intro u. auto_derive; [exact I|field]. - intro u. auto_derive. exact I. }
  rewrite (ftc (fun s => 2 * PI * (2 * k * (s * s * s) / 3 + 2 / 15 * (s * s * s * s * s) * (a + b + c)))).
  - field. - intro s. auto_derive; [exact I|field]. - intro s. auto_derive. exact I.
Qed.
(** A body reads back the tensor given at its COG *)
Lemma read_back : forall b m c G, reachable (mb_body b) -> BGetInertiaTensor (BSetInertiaTensor b (Tensor_AtCOG m c G NWU)) = Tensor_AtCOG m c G NWU.
Proof.
  intros [b m0 I0] m c G H. unfold BGetInertiaTensor, BSetInertiaTensor. cbn [mb_body mb_mass mb_inertia] in *.
  destruct (reach_can b H) as (F & v & d & k & Ns & -> & HF & HN).
  destruct (setcog_can F v d k Ns (TGetCOGPosition (Tensor_AtCOG m c G NWU) NWU) NWU HF) as [v' [E _]]. rewrite E, cogpos_can.
  unfold Tensor_AtCOG, TGetCOGPosition, TGetMass. cbn [IsNED i_cog i_mass i_mat convert]. reflexivity.
Qed.
Lemma homog : forall I V A B C mass, V <> 0 ->
  (forall k k1 k2 k3 a b c d e g, I (quad k k1 k2 k3 a b c d e g) = V * (k + a * A + b * B + c * C)) ->
  homogeneous I mass (Tensor mass vzero (M (mass * (B + C)) 0 0 0 (mass * (A + C)) 0 0 0 (mass * (A + B)))).
Proof.
  intros I V A B C mass HV H. exists (mass / V). cbv zeta. cbn [i_cog i_mat i_mass m00 m01 m02 m10 m11 m12 m20 m21 m22 vzero vx vy vz].
  assert (K : forall (f : R -> R -> R -> R) k k1 k2 k3 a b c d e g, (forall x y z, f x y z = quad k k1 k2 k3 a b c d e g x y z) -> I f = V * (k + a * A + b * B + c * C)).
  { intros f k k1 k2 k3 a b c d e g E. rewrite <- (H k k1 k2 k3 a b c d e g). f_equal. apply functional_extensionality. intro x. apply functional_extensionality. intro y. apply functional_extensionality. intro z. apply E. }
  set (r := mass / V) in *. assert (Hm : mass = r * V) by (unfold r; field; exact HV). clearbody r. subst mass.
  split; [reflexivity|].
  split; [rewrite (K _ r 0 0 0 0 0 0 0 0 0) by (intros; unfold quad; ring); ring|].
  split; [rewrite (K _ 0 r 0 0 0 0 0 0 0 0) by (intros; unfold quad; ring); ring|].
  split; [rewrite (K _ 0 0 r 0 0 0 0 0 0 0) by (intros; unfold quad; ring); ring|].
  split; [rewrite (K _ 0 0 0 r 0 0 0 0 0 0) by (intros; unfold quad; ring); ring|].
  split; [rewrite (K _ 0 0 0 0 0 r r 0 0 0) by (intros; unfold quad; ring); ring|].
  split; [rewrite (K _ 0 0 0 0 r 0 r 0 0 0) by (intros; unfold quad; ring); ring|].
  split; [rewrite (K _ 0 0 0 0 r r 0 0 0 0) by (intros; unfold quad; ring); ring|].
  split; [rewrite (K _ 0 0 0 0 0 0 0 r 0 0) by (intros; unfold quad; ring); ring|].
  split; [reflexivity|].
  split; [rewrite (K _ 0 0 0 0 0 0 0 0 r 0) by (intros; unfold quad; ring); ring|].
  split; [reflexivity|].
  split; [rewrite (K _ 0 0 0 0 0 0 0 0 0 r) by (intros; unfold quad; ring); ring|reflexivity].
Qed.
Lemma same_tensor : forall m x y z x' y' z', x = x' -> y = y' -> z = z' ->
  Tensor_AtCOG m (Coeffs x y z 0 0 0) vzero NWU = Tensor m vzero (M x' 0 0 0 y' 0 0 0 z').
Proof. intros. subst. reflexivity. Qed.
Lemma box_homog : forall b xs ys zs m, reachable (mb_body (eb_mbody b)) -> 0 < xs -> 0 < ys -> 0 < zs ->
  homogeneous (box_integral xs ys zs) m (BGetInertiaTensor (eb_mbody (makeItBox b xs ys zs m))).
Proof.
  intros b xs ys zs m H X Y Z. unfold makeItBox. cbv zeta. cbn [eb_mbody]. rewrite read_back by exact H.
  rewrite (same_tensor m _ _ _ (m * (ys * ys / 12 + zs * zs / 12)) (m * (xs * xs / 12 + zs * zs / 12)) (m * (xs * xs / 12 + ys * ys / 12))) by field.
  apply (homog _ (xs * ys * zs)).
  - apply Rgt_not_eq. repeat apply Rmult_lt_0_compat; assumption.
  - intros. rewrite box_quad. field.
Qed.
Lemma cyl_homog : forall b r h m, reachable (mb_body (eb_mbody b)) -> 0 < r -> 0 < h ->
  homogeneous (cylinder_integral r h) m (BGetInertiaTensor (eb_mbody (makeItCylinder b r h m))).
Proof.
  intros b r h m H X Y. unfold makeItCylinder. cbv zeta. cbn [eb_mbody]. rewrite read_back by exact H.
  rewrite (same_tensor m _ _ _ (m * (h * h / 12 + r * r / 4)) (m * (r * r / 4 + r * r / 4)) (m * (r * r / 4 + h * h / 12))) by field.
  apply (homog _ (PI * (r * r) * h)).
  - apply Rgt_not_eq. generalize PI_RGT_0. generalize PI. intros q Q. repeat apply Rmult_lt_0_compat; lra.
  - intros. rewrite cyl_quad. field.
Qed.
Lemma ball_homog : forall b r m, reachable (mb_body b) -> 0 < r ->
  let i := (2 / 5) * m * r * r in
  homogeneous (ball_integral r) m (BGetInertiaTensor (BSetInertiaTensor b (Tensor_AtCOG m (Coeffs i i i 0 0 0) vzero NWU))).
Proof.
  intros b r m H X i. unfold i. rewrite read_back by exact H.
  rewrite (same_tensor m _ _ _ (m * (r * r / 5 + r * r / 5)) (m * (r * r / 5 + r * r / 5)) (m * (r * r / 5 + r * r / 5))) by field.
  apply (homog _ (4 / 3 * PI * (r * r * r))).
  - apply Rgt_not_eq. generalize PI_RGT_0. generalize PI. intros q Q. repeat apply Rmult_lt_0_compat; lra.
  - intros. rewrite ball_quad. field.
Qed.
(** The shapes *)
Lemma cyl_points : forall r h p, 0 < r -> 0 < h -> inside (EllipticCylinder r r (h * (1/2))) p <-> inside (CylinderShape r h) p.
Proof.
  intros r h [x y z] X Y. unfold inside, CylinderShape, minus3, dot3. cbn [vx vy vz].
  assert (E1 : x / r * (x / r) + z / r * (z / r) <= 1 <-> x * x + z * z <= r * r).
  { replace (x / r * (x / r) + z / r * (z / r)) with ((x * x + z * z) / (r * r)) by (field; lra). pose proof (Rmult_lt_0_compat r r X X) as Q. set (n := x * x + z * z). clearbody n. split; intro L.
    - apply (Rmult_le_compat_r (r * r)) in L; [|lra]. replace (n / (r * r) * (r * r)) with n in L by (field; lra). lra.
    - apply (Rmult_le_reg_r (r * r)); [exact Q|]. replace (n / (r * r) * (r * r)) with n by (field; lra). lra. }
  assert (E2 : Rabs y <= h * (1 / 2) <-> - (h / 2) <= y <= h / 2).
  { unfold Rabs. destruct (Rcase_abs y); split; intros; lra. }
  rewrite E1, E2. clear E1 E2.
  replace (h * (1 / 2) - - h * (1 / 2)) with h by field. replace (y - - h * (1 / 2)) with (y + h / 2) by field.
  split.
  - intros [A B]. split.
    + split; nra.
    + replace (_ - _) with ((x * x + z * z) * (h * h)) by ring. nra.
  - intros [[A B] D]. split; [|split; nra].
    replace (((x - 0) * (x - 0) + (y + h / 2) * (y + h / 2) + (z - 0) * (z - 0)) * ((0 - 0) * (0 - 0) + h * h + (0 - 0) * (0 - 0)) - ((x - 0) * (0 - 0) + (y + h / 2) * h + (z - 0) * (0 - 0)) * ((x - 0) * (0 - 0) + (y + h / 2) * h + (z - 0) * (0 - 0))) with ((x * x + z * z) * (h * h)) in D by ring.
    replace (r * r * ((0 - 0) * (0 - 0) + h * h + (0 - 0) * (0 - 0))) with (r * r * (h * h)) in D by ring.
    apply (Rmult_le_reg_r (h * h)); [nra|exact D].
Qed.
(** The buoy *)
Lemma wetted : forall r d, 0 <= r -> wetted_volume r d = let z := Rmax (- r) (Rmin r d) in PI / 3 * (z * (3 * r * r - z * z) + 2 * (r * r * r)).
Proof.
  intros r d H. unfold wetted_volume. cbv zeta. set (z := Rmax (- r) (Rmin r d)). clearbody z.
  rewrite (ftc (fun z => PI * (r * r * z - z * z * z / 3))).
  - field.
  - intro t. auto_derive; [exact I|field].
  - intro t. auto_derive. exact I.
Qed.
Lemma draft : forall b eta, 0 <= bu_radius b -> let p := BGetPosition (mb_body (bu_body b)) NWU in
  computeDraft b eta = Rmax (- bu_radius b) (Rmin (bu_radius b) (eta (vx p) (vy p) - vz p)).
Proof.
  intros b eta H p. unfold computeDraft. fold p. cbv zeta. set (r := bu_radius b) in *. set (e := eta (vx p) (vy p)). set (q := vz p). clearbody r e q.
  unfold Rmax, Rmin. destruct (Rlt_dec (q - e) (- r)), (Rlt_dec r (q - e)), (Rle_dec r (e - q)); destruct (Rle_dec (- r) _); lra.
Qed.
Lemma volume : forall b eta, 0 <= bu_radius b -> let p := BGetPosition (mb_body (bu_body b)) NWU in
  computeVolume b eta = wetted_volume (bu_radius b) (eta (vx p) (vy p) - vz p).
Proof. intros b eta H p. rewrite wetted by exact H. unfold computeVolume. rewrite draft by exact H. fold p. cbv zeta. field. Qed.
(** A run of the buoy *)
Lemma run_radius : forall l b, bu_radius (buoy_run b l) = bu_radius b.
Proof. induction l as [|s l IH]; intro b; [reflexivity|]. cbn [buoy_run fold_left]. change (fold_left buoy_step l ?x) with (buoy_run x l). rewrite IH. reflexivity. Qed.
Definition wet (r : R) (s : situation) : R :=
  let p := BGetPosition (si_body s) NWU in wetted_volume r (si_eta s (vx p) (vy p) - vz p).
Lemma step_volume : forall b s, 0 <= bu_radius b -> bu_volume (buoy_step b s) = Some (wet (bu_radius b) s).
Proof.
  intros b s H. unfold buoy_step, buoy_body_Update, buoy_Update. cbn [bu_volume]. f_equal. rewrite volume by exact H. reflexivity.
Qed.
Lemma two_steps : forall r m l s s', 0 <= r -> bu_force (buoy_run (new_buoy r m) (l ++ [s; s'])) = Some (V 0 0 (si_rho s' * si_g s' * wet r s)).
Proof.
  intros r m l s s' H. unfold buoy_run. rewrite fold_left_app. cbn [fold_left]. change (fold_left buoy_step l (new_buoy r m)) with (buoy_run (new_buoy r m) l).
  set (b := buoy_run (new_buoy r m) l). assert (Hb : bu_radius b = r) by apply run_radius. clearbody b.
  assert (E : bu_force (buoy_step (buoy_step b s) s') = match bu_volume (buoy_step b s) with None => None | Some v => Some (vscale (- v * si_rho s') (V 0 0 (- si_g s'))) end) by reflexivity.
  rewrite E, step_volume by (rewrite Hb; exact H). rewrite Hb. f_equal. unfold vscale. apply vec_eq; cbn [vx vy vz]; ring.
Qed.
Lemma wetted_bounds : forall r d, 0 <= r -> 0 <= wetted_volume r d <= 4 / 3 * PI * (r * r * r) /\
  (d <= - r -> wetted_volume r d = 0) /\ (r <= d -> wetted_volume r d = 4 / 3 * PI * (r * r * r)) /\ (forall d', d <= d' -> wetted_volume r d <= wetted_volume r d').
Proof.
  intros r d H. pose proof PI_RGT_0 as P.
  assert (K : forall a b, - r <= a -> a <= b -> b <= r -> PI / 3 * (a * (3 * r * r - a * a) + 2 * (r * r * r)) <= PI / 3 * (b * (3 * r * r - b * b) + 2 * (r * r * r))).
  { intros a b A B D. apply Rmult_le_compat_l; [lra|]. assert (Q : 0 <= (b - a) * (3 * r * r - (a * a + a * b + b * b))); [|nra].
    apply Rmult_le_pos; [lra|]. assert (a * a <= r * r) by nra. assert (b * b <= r * r) by nra. nra. }
  assert (B : forall d, - r <= Rmax (- r) (Rmin r d) <= r).
  { intro e. unfold Rmax, Rmin. destruct (Rle_dec r e), (Rle_dec (- r) _); lra. }
  assert (L : forall d, d <= - r -> Rmax (- r) (Rmin r d) = - r) by (intros e He; unfold Rmax, Rmin; destruct (Rle_dec r e), (Rle_dec (- r) _); lra).
  assert (U : forall d, r <= d -> Rmax (- r) (Rmin r d) = r) by (intros e He; unfold Rmax, Rmin; destruct (Rle_dec r e), (Rle_dec (- r) _); lra).
  split; [|split; [|split]].
  - rewrite wetted by exact H. cbv zeta. specialize (B d). set (z := Rmax (- r) (Rmin r d)) in *. clearbody z. split.
    + pose proof (K (- r) z ltac:(lra) ltac:(lra) ltac:(lra)) as Q. replace (PI / 3 * (- r * (3 * r * r - - r * - r) + 2 * (r * r * r))) with 0 in Q by field. exact Q.
    + pose proof (K z r ltac:(lra) ltac:(lra) ltac:(lra)) as Q. replace (PI / 3 * (r * (3 * r * r - r * r) + 2 * (r * r * r))) with (4 / 3 * PI * (r * r * r)) in Q by field. exact Q.
  - intro D. rewrite wetted by exact H. rewrite (L d D). cbv zeta. field.
  - intro D. rewrite wetted by exact H. rewrite (U d D). cbv zeta. field.
  - intros d' D. rewrite !wetted by exact H. cbv zeta. apply K; [apply B| |apply B].
    apply Rle_max_compat_l, Rle_min_compat_l. exact D.
Qed.
Lemma cyl_solid : forall r h p, 0 < r -> (inside (EllipticCylinder r r (h * (1/2))) p <-> vx p * vx p + vz p * vz p <= r * r /\ Rabs (vy p) <= h / 2).
Proof.
  intros r h [x y z] X. unfold inside. cbn [vx vy vz]. replace (h * (1 / 2)) with (h / 2) by field.
  assert (E1 : x / r * (x / r) + z / r * (z / r) <= 1 <-> x * x + z * z <= r * r).
  { replace (x / r * (x / r) + z / r * (z / r)) with ((x * x + z * z) / (r * r)) by (field; lra). pose proof (Rmult_lt_0_compat r r X X) as Q. set (n := x * x + z * z). clearbody n. split; intro L.
    - apply (Rmult_le_compat_r (r * r)) in L; [|lra]. replace (n / (r * r) * (r * r)) with n in L by (field; lra). lra.
    - apply (Rmult_le_reg_r (r * r)); [exact Q|]. replace (n / (r * r) * (r * r)) with n by (field; lra). lra. }
  rewrite E1. reflexivity.
Qed.
