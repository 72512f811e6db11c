(** Properties C214-C218: geographic and cartesian positions, magnetic field. *)
From Coq Require Import Reals Lra.
From Verif Require Import GeoModel GeoSpec SeaModel GeoProofs2 GgrModel GgrSpec GgrProofs.
Open Scope R_scope.

(** C214: cartesian positions are those of the tangent frame at the origin: the origin is zero, a point straight above it has only a height; the two
    conventions are the same position; the distance of two points does not depend on the origin nor on the convention; a point to the east of the origin
    has a negative NWU ordinate (positive in NED) and one to the north a positive abscissa; only a latitude out of range is refused. *)
Theorem C214_cartesian : forall o, an_origin o ->
  (forall fc, GeoToCart o o fc = Ok origin) /\
  (forall k fc, GeoToCart o (GC (g_lat o) (g_lon o) (g_h o + k)) fc = Ok (V 0 0 (if IsNED fc then - k else k))) /\
  (forall c p, GeoToCart o c NWU = Ok p -> GeoToCart o c NED = Ok (convert NED p)) /\
  (forall o' fc fc' a b p q p' q', GeoToCart o a fc = Ok p -> GeoToCart o b fc = Ok q -> GeoToCart o' a fc' = Ok p' -> GeoToCart o' b fc' = Ok q' -> dist2 p q = dist2 p' q') /\
  (forall c p, GeoToCart o c NWU = Ok p -> -90 < g_lat c < 90 -> - 6000000 < g_h c ->
     (g_lon c = g_lon o -> vy p = 0) /\ (0 < g_lon c - g_lon o < 180 -> vy p < 0) /\ (-180 < g_lon c - g_lon o < 0 -> 0 < vy p)) /\
  (forall c p fc, GeoToCart o c fc = Ok p -> g_lon c = g_lon o -> g_h c = g_h o -> - 6000000 < g_h o -> g_lat o < g_lat c <= g_lat o + 90 -> 0 < vx p) /\
  (forall c fc, (-90 <= g_lat c <= 90 -> exists p, GeoToCart o c fc = Ok p) /\ (~ -90 <= g_lat c <= 90 -> GeoToCart o c fc = Undef)).
Proof.
  intros o Ho. pose proof (origin_lat o Ho) as Lo. split; [|split; [|split; [|split; [|split; [|split]]]]].
  - intro fc. apply cart_eq. split; [apply lat_true; exact Lo|symmetry; apply cart_origin].
  - intros k fc. apply cart_eq. split; [apply lat_true; exact Lo|symmetry; apply cart_up].
  - intros c p H. apply cart_eq in H. destruct H as [L ->]. apply cart_eq. split; [exact L|symmetry; apply cart_ned].
  - intros o' fc fc' a b p q p' q' A B A' B'. apply cart_eq in A, B, A', B'. destruct A as [_ ->], B as [_ ->], A' as [_ ->], B' as [_ ->]. rewrite !cart_dist. reflexivity.
  - intros c p H Lc Hc. apply cart_eq in H. destruct H as [_ ->]. exact (east_sign o c Lc Hc).
  - intros c p fc H E Eh Hh Ll. apply cart_eq in H. destruct H as [_ ->]. exact (north_sign o c fc E Eh Hh Ll).
  - intros c fc. split; intro H; [eexists; apply cart_eq; split; [apply lat_true; exact H|reflexivity]|]. unfold GeoToCart. rewrite forward_eq. destruct (lat_ok (g_lat c)) eqn:E; [apply lat_inv in E; contradiction|reflexivity].
Qed.
Example C214_inhabited : an_origin (GC 47 (-2) 0) /\ exists p, GeoToCart (GC 47 (-2) 0) (GC 48 (-2) 0) NED = Ok p.
Proof.
  split; [right; exists default_origin, 47, (-2), 0; unfold SetGeographicOrigin, Reset; rewrite lat_true by lra; f_equal; f_equal; apply ang_id; lra|]. eexists. apply cart_eq. split; [apply lat_true; cbn; lra|reflexivity].
Qed.

(** C215: the origin reads back as it was set, with the longitude brought to [-180, 180); the longitude matters only up to whole turns, for the origin as for
    the points; an impossible latitude gives no origin. *)
Theorem C215_origin : forall o lat lon h,
  (forall o', SetGeographicOrigin o lat lon h = Ok o' -> let g := GetGeographicOrigin o' in g_lat g = lat /\ g_h g = h /\ congruent_deg (g_lon g) lon /\ -180 <= g_lon g < 180 /\ (-180 <= lon < 180 -> g_lon g = lon) /\
     (forall c fc lon', congruent_deg lon' lon -> GeoToCart (GC lat lon' h) c fc = GeoToCart o' c fc)) /\
  (forall la lo lo' ht fc, congruent_deg lo lo' -> GeoToCart o (GC la lo ht) fc = GeoToCart o (GC la lo' ht) fc) /\
  (-90 <= lat <= 90 -> exists o', SetGeographicOrigin o lat lon h = Ok o') /\ (~ -90 <= lat <= 90 -> SetGeographicOrigin o lat lon h = Undef).
Proof.
  intros o lat lon h. unfold SetGeographicOrigin, Reset. split; [|split; [|split]].
  - intros o' H. destruct (lat_ok lat) eqn:L; [|discriminate]. inversion H; subst. cbn [GetGeographicOrigin g_lat g_lon g_h].
    split; [reflexivity|]. split; [reflexivity|]. split; [apply ang_cong|]. split; [apply ang_range|]. split; [apply ang_id|].
    intros c fc lon' C. unfold GeoToCart. rewrite !forward_eq. rewrite (enu_turns_l c lat lon' (AngNormalize lon) h) by (eapply cong_trans; [exact C|apply cong_sym, ang_cong]). reflexivity.
  - intros la lo lo' ht fc C. unfold GeoToCart. rewrite !forward_eq. cbn [g_lat]. rewrite (enu_turns_r o la lo lo' ht C). reflexivity.
  - intro H. rewrite (lat_true lat H). eauto.
  - intro H. destruct (lat_ok lat) eqn:L; [apply lat_inv in L; contradiction|reflexivity].
Qed.
Example C215_inhabited : exists o', SetGeographicOrigin default_origin 10 190 5 = Ok o' /\ g_lon (GetGeographicOrigin o') = -170.
Proof.
  unfold SetGeographicOrigin, Reset. rewrite lat_true by lra. eexists. split; [reflexivity|]. cbn [GetGeographicOrigin g_lon]. apply (ang_unique 190 (-170)); [exists 1%Z; lra|lra].
Qed.

(** C216: going to geographic coordinates and back is the identity, both ways and in both conventions, wherever the library's own inverse is one; and the
    geographic coordinates of a position do not depend on the convention in which it is given. *)
Theorem C216_round_trip : forall Reverse o,
  (forall p fc, inverts_at Reverse o (let q := convert fc p in V (- vy q) (vx q) (vz q)) -> GeoToCart o (CartToGeo Reverse o p fc) fc = Ok p) /\
  (forall c p fc, recovers_at Reverse o c -> GeoToCart o c fc = Ok p -> CartToGeo Reverse o p fc = c) /\
  (forall p, CartToGeo Reverse o (convert NED p) NED = CartToGeo Reverse o p NWU).
Proof.
  intros Reverse o. split; [|split].
  - intros p fc H. unfold inverts_at in H. unfold GeoToCart, CartToGeo. destruct fc; cbn [IsNED convert vx vy vz] in *; [rewrite H|replace (- - vy p) with (vy p) in H by ring; rewrite H]; cbn [rbind vx vy vz]; f_equal; destruct p as [px py pz]; cbn [vx vy vz]; f_equal; ring.
  - intros c p fc H E. unfold GeoToCart in E. destruct (Forward o c) as [f| | | |] eqn:F; try discriminate. cbn [rbind] in E. inversion E; subst p. unfold CartToGeo.
    destruct fc; cbn [IsNED vx vy vz]; rewrite <- (H f F); f_equal; destruct f as [fx fy fz]; cbn [vx vy vz]; f_equal; ring.
  - intro p. unfold CartToGeo. cbn [IsNED convert vx vy vz]. f_equal. f_equal; ring.
Qed.
Example C216_inhabited : exists Reverse, inverts_at Reverse default_origin (V 0 0 7) /\ recovers_at Reverse default_origin (GC 0 0 7) /\ GeoToCart default_origin (GC 0 0 7) NED = Ok (V 0 0 (-7)).
Proof.
  assert (Forward default_origin (GC 0 0 7) = Ok (V 0 0 7)) as F.
  { pose proof (cart_up default_origin 7 NWU) as U. unfold cart in U. cbn [IsNED default_origin g_lat g_lon g_h] in U. rewrite forward_eq. cbn [g_lat]. rewrite lat_true by lra. f_equal. replace (0 + 7) with 7 in U by ring. injection U as U1 U2 U3.
    apply GeoProofs.vec_eq; cbn [vx vy vz]; [apply Ropp_eq_compat in U2; rewrite Ropp_0, Ropp_involutive in U2; exact U2|exact U1|exact U3]. }
  exists (fun _ _ => GC 0 0 7). split; [exact F|]. split; [intros p _; reflexivity|]. unfold GeoToCart. rewrite F. cbn. reflexivity.
Qed.

(** C217: the magnetic components are those of the model, north-west-up or north-east-down; the declination is the angle from north to the horizontal field,
    positive to the east, in degrees; both are the same for a position given in either convention. *)
Theorem C217_magnetic : forall Reverse magneticModel o c year,
  let B := magneticModel year (g_lat c) (g_lon c) (g_h c) in
  GetMagneticComponentsFromGeo magneticModel c year NED = V (vy B) (vx B) (- vz B) /\
  GetMagneticComponentsFromGeo magneticModel c year NWU = V (vy B) (- vx B) (vz B) /\
  (0 < vx B * vx B + vy B * vy B -> let H := sqrt (vx B * vx B + vy B * vy B) in let D := GetDeclinationFromGeo magneticModel c year in
     vy B = H * cos (rad D) /\ vx B = H * sin (rad D) /\ -180 < D <= 180) /\
  (forall p, GetMagneticComponentsFromCart Reverse magneticModel o (convert NED p) year NED = convert NED (GetMagneticComponentsFromCart Reverse magneticModel o p year NWU) /\
     GetDeclinationFromCart Reverse magneticModel o (convert NED p) year NED = GetDeclinationFromCart Reverse magneticModel o p year NWU /\
     (recovers_at Reverse o c -> GeoToCart o c NWU = Ok p -> GetMagneticComponentsFromCart Reverse magneticModel o p year NWU = GetMagneticComponentsFromGeo magneticModel c year NWU /\
        GetDeclinationFromCart Reverse magneticModel o p year NWU = GetDeclinationFromGeo magneticModel c year)).
Proof.
  intros Reverse mm o c year B. split; [unfold GetMagneticComponentsFromGeo, swap_if, SwapFrameConvention; cbn [IsNED vx vy vz]; fold B; f_equal; ring|]. split; [reflexivity|]. split.
  - intros P H D. unfold D, GetDeclinationFromGeo, GetMagneticComponentsFromGeo. fold B. cbn [swap_if IsNED vx vy vz]. rewrite Ropp_involutive. unfold FieldD.
    destruct (atan2_spec (vy B) (vx B)) as [A1 A2]; [lra|]. replace (vy B * vy B + vx B * vx B) with (vx B * vx B + vy B * vy B) in A1, A2 by ring. fold H in A1, A2.
    pose proof (atan2_range (vx B) (vy B)) as Rg. set (a := atan2 (vx B) (vy B)) in *. pose proof PI_RGT_0 as PP. replace (rad (a * (180 / PI))) with a by (unfold rad; field; lra). split; [symmetry; exact A1|]. split; [symmetry; exact A2|].
    assert (180 / PI * PI = 180) as Q by (field; lra). assert (0 < 180 / PI) by (apply Rdiv_lt_0_compat; lra). split; nra.
  - intro p. destruct (C216_round_trip Reverse o) as (_ & R2 & R3). unfold GetMagneticComponentsFromCart, GetDeclinationFromCart. rewrite R3. split; [unfold GetMagneticComponentsFromGeo, swap_if, SwapFrameConvention; reflexivity|]. split; [reflexivity|].
    intros Rc E. rewrite (R2 c p NWU Rc E). split; reflexivity.
Qed.
Example C217_inhabited : GetDeclinationFromGeo (fun _ _ _ _ => V 1 1 0) (GC 0 0 0) 2019 = 45.
Proof.
  unfold GetDeclinationFromGeo, GetMagneticComponentsFromGeo, FieldD. cbn [swap_if IsNED vx vy vz]. rewrite Ropp_involutive. unfold atan2. destruct (Rlt_dec 0 1); [|lra]. replace (1 / 1) with 1 by lra. rewrite atan_1. field. apply PI_neq0.
Qed.

(** C218: the components asked at a cartesian position are those of the local north and east of that position, not of the axes of the cartesian frame: a field
    that points straight up a quarter of the Earth away is returned as vertical although the frame's own positions say that up is west there. *)
Theorem C218_magnetic_frame_refuted : exists o c p p' magneticModel, an_origin o /\ GeoToCart o c NWU = Ok p /\ GeoToCart o (GC (g_lat c) (g_lon c) (g_h c + 1)) NWU = Ok p' /\
  (forall year lat lon h, magneticModel year lat lon h = V 0 0 1) /\ vsub p' p = V 0 (-1) 0 /\
  forall Reverse year, recovers_at Reverse o c -> GetMagneticComponentsFromCart Reverse magneticModel o p year NWU = V 0 0 1.
Proof.
  exists default_origin, (GC 0 90 0), (cart default_origin (GC 0 90 0) NWU), (cart default_origin (GC 0 90 (0 + 1)) NWU), (fun _ _ _ _ => V 0 0 1).
  split; [left; reflexivity|]. split; [apply cart_eq; split; [apply lat_true; cbn; lra|reflexivity]|]. split; [apply cart_eq; split; [apply lat_true; cbn; lra|reflexivity]|]. split; [reflexivity|]. split.
  - unfold cart, enu, geocentric, default_origin. cbn [IsNED g_lat g_lon g_h vx vy vz vsub]. replace (rad 0) with 0 by (unfold rad; ring). rewrite rad_90, sin_0, cos_0, sin_PI2, cos_PI2. unfold vsub. cbn [vx vy vz]. f_equal; ring.
  - intros Reverse year Rc. unfold GetMagneticComponentsFromCart, GetMagneticComponentsFromGeo. cbn [swap_if IsNED vx vy vz]. f_equal; ring.
Qed.
