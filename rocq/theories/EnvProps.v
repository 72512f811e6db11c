(** Properties C193-C206: the environment container. *)
From Coq Require Import Reals List Lra Lia.
From Verif Require Import GeoModel GeoSpec SeaModel FloModel EnvModel EnvSpec EnvProofs EnvProofs2.
Import ListNotations.
Open Scope R_scope.

(** C193: the tide table of two extrema follows the rule of twelfths: after each sixth of the interval the water has covered 1, 3, 6, 9, 11 and
    12 twelfths of the range; in between it never leaves the two heights nor turns back, and outside the interval it has no value. *)
Theorem C193_twelfth_rule : forall t1 h1 l1 t2 h2 l2 td, Tidal2 t1 h1 l1 t2 h2 l2 = Ok td -> agrees l1 h1 h2 ->
  let a := GetMinutes t1 in let b := GetMinutes t2 in
  (forall i, (i <= 6)%nat -> TableEval (td_table td) (sixth a b i) = Ok (h1 + covered i * (h2 - h1))) /\
  (forall x, a <= x <= b -> exists h, TableEval (td_table td) x = Ok h /\ Rmin h1 h2 <= h <= Rmax h1 h2) /\
  (forall x y h k, a <= x <= y -> TableEval (td_table td) x = Ok h -> TableEval (td_table td) y = Ok k -> (h1 <= h2 -> h <= k) /\ (h2 <= h1 -> k <= h)) /\
  (forall x, x < a \/ b < x -> TableEval (td_table td) x = Throws).
Proof.
  intros t1 h1 l1 t2 h2 l2 td H G a b. destruct (tidal2_inv _ _ _ _ _ _ _ H) as [-> L]. cbn [td_table]. pose proof (step_agrees _ _ _ G) as St.
  split; [intros i Hi; unfold a, b; rewrite rule_nodes by assumption; rewrite St; f_equal; field|]. split; [|split].
  - intros x Hx. destruct (rule_inside l1 t1 h1 t2 h2 x L Hx) as [p [B [_ E]]]. exists (h1 + step_of l1 h1 h2 * p). split; [exact E|]. rewrite St.
    unfold Rmin, Rmax. destruct (Rle_dec h1 h2); split; nra.
  - intros x y h k Hx Eh Ek. destruct (Rle_dec y b) as [Ly|Ly].
    + destruct (rule_inside l1 t1 h1 t2 h2 x L) as [p [B [T E]]]; [unfold a, b in *; lra|]. destruct (rule_inside l1 t1 h1 t2 h2 y L) as [r [B' [T' E']]]; [unfold a, b in *; lra|].
      rewrite E in Eh. rewrite E' in Ek. inversion Eh; inversion Ek; subst. rewrite St.
      assert (p <= r). { eapply table_mono; [apply plain_climbs|apply plain_rises| |exact T|exact T']; unfold a, b in *; lra. } split; intro; nra.
    + rewrite rule_outside in Ek by (unfold b in *; lra). discriminate.
  - intros x Hx. apply rule_outside; assumption.
Qed.
Example C193_inhabited : exists td, Tidal2 (UTC 6 15 30) 1 LOW (UTC 12 20 30) 5 HIGH = Ok td /\ agrees LOW 1 5 /\ TableEval (td_table td) (sixth (GetMinutes (UTC 6 15 30)) (GetMinutes (UTC 12 20 30)) 3) = Ok 3.
Proof.
  assert (GetSeconds (UTC 6 15 30) < GetSeconds (UTC 12 20 30)) as L by (unfold GetSeconds; cbn; lra).
  eexists. split; [unfold Tidal2; destruct (Rle_dec 0 1); [|lra]; destruct (Rle_dec 0 5); [|lra]; cbn [level_eqb]; destruct (Rlt_dec _ _); [reflexivity|contradiction]|].
  split; [unfold agrees; lra|]. cbn [td_table]. rewrite rule_nodes; [|rewrite !seconds_minutes in L; lra|lia]. rewrite step_agrees by (unfold agrees; lra).
  unfold covered, hourly. cbn [firstn fold_right]. f_equal. lra.
Qed.

(** C194: the labels LOW and HIGH are not compared with the heights: when they disagree, the table ends as far on the other side of the first height. *)
Theorem C194_tide_labels_refuted : forall t1 h1 l1 t2 h2 l2 td, Tidal2 t1 h1 l1 t2 h2 l2 = Ok td -> ~ agrees l1 h1 h2 ->
  TableEval (td_table td) (GetMinutes t2) = Ok (2 * h1 - h2) /\ 2 * h1 - h2 <> h2.
Proof.
  intros t1 h1 l1 t2 h2 l2 td H G. destruct (tidal2_inv _ _ _ _ _ _ _ H) as [-> L]. cbn [td_table].
  pose proof (rule_nodes l1 t1 h1 t2 h2 6 L (le_n 6)) as E. replace (sixth (GetMinutes t1) (GetMinutes t2) 6) with (GetMinutes t2) in E by (unfold sixth; cbn; field).
  assert (12 * step_of l1 h1 h2 * covered 6 = h1 - h2 /\ h1 <> h2) as [Es Ne].
  { unfold step_of, agrees, covered, hourly in *. cbn [firstn fold_right]. destruct l1; unfold Rabs; destruct (Rcase_abs _); split; lra. }
  split; [rewrite E, Es; f_equal; ring|lra].
Qed.
Example C194_inhabited : exists td, Tidal2 (UTC 6 15 30) 5 LOW (UTC 12 20 30) 2 HIGH = Ok td /\ ~ agrees LOW 5 2.
Proof.
  assert (GetSeconds (UTC 6 15 30) < GetSeconds (UTC 12 20 30)) as L by (unfold GetSeconds; cbn; lra).
  eexists. split; [unfold Tidal2; destruct (Rle_dec 0 5); [|lra]; destruct (Rle_dec 0 2); [|lra]; cbn [level_eqb]; destruct (Rlt_dec _ _); [reflexivity|contradiction]|]. unfold agrees. lra.
Qed.

(** C195: an accepted clock time reads back the same instant in hours, in minutes and in seconds. *)
Theorem C195_clock : forall h m s t, UTCTime3 h m s = Ok t ->
  GetSeconds t = since_midnight h m s /\ GetMinutes t = since_midnight h m s / 60 /\ GetHours t = since_midnight h m s / 3600 /\
  0 < GetHours t < 25 + 1 / 60.
Proof.
  intros h m s t. unfold UTCTime3, Check. cbn [u_h u_m u_s]. destruct (_ && _)%bool eqn:E; [|discriminate]. intro H; inversion H; subst. cbn [u_h u_m u_s].
  repeat rewrite Bool.andb_true_iff in E. destruct E as [[[E1 E2] [E3 E4]] [E5 E6]]. apply Nat.ltb_lt in E1, E2, E3, E5. apply Nat.leb_le in E4, E6.
  assert (since_midnight h m s = GetSeconds (UTC h m s)) as Q.
  { unfold since_midnight, GetSeconds. cbn [u_h u_m u_s]. rewrite plus_INR, plus_INR, mult_INR, mult_INR. rewrite (INR_IZR_INZ 3600), (INR_IZR_INZ 60). change (Z.of_nat 3600) with 3600%Z. change (Z.of_nat 60) with 60%Z. ring. }
  rewrite Q. split; [reflexivity|]. split; [rewrite seconds_minutes; field|]. split; [unfold GetHours, GetSeconds; field|].
  unfold GetHours. cbn [u_h u_m u_s]. apply lt_INR in E1, E3, E5. cbn in E1, E3, E5. assert (INR h <= 23) by (replace 23 with (INR 23) by (cbn; lra); apply le_INR; lia).
  assert (INR m <= 60) by (replace 60 with (INR 60) by (rewrite INR_IZR_INZ; reflexivity); apply le_INR; lia). assert (INR s <= 60) by (replace 60 with (INR 60) by (rewrite INR_IZR_INZ; reflexivity); apply le_INR; lia). lra.
Qed.
Example C195_inhabited : UTCTime3 23 59 30 = Ok (UTC 23 59 30).
Proof. reflexivity. Qed.

(** C196: a clock time is refused at every whole minute, at every whole hour and during the first hour of the day; without seconds it is always refused. *)
Theorem C196_clock_refuted : forall h m s, UTCTime2 h m = Fails /\ UTCTime3 h m 0 = Fails /\ UTCTime3 h 0 s = Fails /\ UTCTime3 0 m s = Fails.
Proof.
  intros h m s. unfold UTCTime2, UTCTime3, Check. cbn [u_h u_m u_s]. cbn [Nat.ltb Nat.leb]. rewrite ?Bool.andb_false_r, ?Bool.andb_false_l.
  change (Nat.ltb 0 0) with false. rewrite ?Bool.andb_false_l, ?Bool.andb_false_r. cbn [andb]. repeat split.
Qed.

(** C197: a tide given by two extrema never has a height: reading it and updating it both use a frame that was never created. *)
Theorem C197_tide_refuted : forall t1 h1 l1 t2 h2 l2 td, Tidal2 t1 h1 l1 t2 h2 l2 = Ok td ->
  (forall fc, GetHeight td fc = Undef) /\ (forall time td', tidal_update td time <> Ok td').
Proof.
  intros t1 h1 l1 t2 h2 l2 td H. destruct (tidal2_inv _ _ _ _ _ _ _ H) as [-> L]. split; [reflexivity|]. intros time td' E. unfold tidal_update in E. bo E w Ew. discriminate.
Qed.

(** C198: the position of the free surface at a point is the elevation of the current wave field at the time of the last update, with the sign and the
    mirrored ordinate of the convention; it is zero everywhere while no wave field is set and once the surface is hidden. *)
Theorem C198_free_surface :
  (forall l e x y fc, reached l e -> GetSurfacePosition e x y fc = Ok (GetElevation e x y fc)) /\
  (forall l e x y, reached l e -> GetElevation e x y NED = - GetElevation e x (- y) NWU) /\
  (forall l1 l2 eta t0 d0 time e x y, nowhere hides (l1 ++ OSetWaves eta t0 d0 :: l2) -> nowhere on_waves l2 ->
     reached (l1 ++ OSetWaves eta t0 d0 :: l2 ++ [OUpdate time]) e -> GetElevation e x y NWU = eta time x y) /\
  (forall l e, reached l e -> nowhere on_waves l -> forall x y fc, GetElevation e x y fc = 0) /\
  (forall l1 l2 o e, (o = OShowFreeSurface false \/ exists t0 d0, o = ONoWaves t0 d0) -> nowhere on_waves l2 -> reached (l1 ++ o :: l2) e ->
     forall x y fc, GetElevation e x y fc = 0) /\
  (forall l e p fc p', reached l e -> MoveToSurface e p fc = Ok p' -> vx p' = vx p /\ vy p' = vy p /\ GetSurfacePosition e (vx p) (vy p) fc = Ok (vz p')).
Proof.
  split; [exact surface_elevation|]. split; [intros l e x y _; apply elevation_ned|]. split; [exact waves_last|]. split; [|split].
  - intros l e (lev & h2 & t0 & d0 & H) N. exact (still_first l e lev h2 t0 d0 N H).
  - intros l1 l2 o e Ho N (lev & h2 & t0 & d0 & H). exact (still_last l1 l2 o e _ Ho N H).
  - intros l e p fc p' H E. unfold MoveToSurface in E. bo E z Ez. inversion E; subst. cbn. repeat split. exact Ez.
Qed.
Example C198_inhabited : exists e, reached [OSetBathymetry (- 50) NWU; OSetWaves (fun t x y => t + x) 0 0; OInitialize; OUpdate 3] e /\ GetSurfacePosition e 2 0 NWU = Ok 5.
Proof.
  eexists. split; [exists LOW, 0, 0, 0; reflexivity|]. unfold GetSurfacePosition, GetHeight. cbn. f_equal. lra.
Qed.

(** C199: the depth (NWU) and the bathymetry are those of the last call that set them, whatever the convention used to set and to read and whatever
    happens to the rest of the environment; a hidden seabed is an infinite depth; and after an initialisation the time steps never stop the program. *)
Theorem C199_seabed :
  (forall l1 l2 b fc e, reached (l1 ++ OSetBathymetry b fc :: l2) e -> nowhere on_seabed l2 ->
     GetBathymetry (n_seabed e) fc = Ok b /\ (forall fc', fc' <> fc -> GetBathymetry (n_seabed e) fc' = Ok (- b)) /\
     GetDepth e NWU = Ok (if IsNED fc then b else - b) /\ GetInfiniteDepth (n_seabed e) = false) /\
  (forall l e, reached l e -> nowhere on_seabed l -> GetDepth e NWU = Ok 30 /\ GetInfiniteDepth (n_seabed e) = false) /\
  (forall l1 l2 o e, (o = OSetInfiniteDepth \/ o = OShowSeabed false) -> reached (l1 ++ o :: l2) e -> nowhere on_seabed l2 -> GetInfiniteDepth (n_seabed e) = true) /\
  (forall l e, reached l e -> forall steps, (forall o, In o steps -> stepping o = true) -> exists e', env_run e (OInitialize :: steps) = Ok e').
Proof.
  split; [|split; [|split]].
  - intros l1 l2 b fc e H N. pose proof H as H'. destruct H' as (lev & h2 & t0 & d0 & H'). pose proof (bathymetry_last l1 l2 b fc e _ N H') as Ed.
    rewrite (depth_reached _ _ NWU H), Ed. cbn [GetBathymetry GetInfiniteDepth rbind IsNED].
    split; [destruct (IsNED fc); f_equal; lra|]. split; [intros fc' D; destruct fc, fc'; cbn [IsNED]; try congruence; f_equal; lra|]. split; [destruct (IsNED fc); f_equal; lra|reflexivity].
  - intros l e H N. pose proof H as H'. destruct H' as (lev & h2 & t0 & d0 & H'). rewrite (depth_reached _ _ NWU H), (bathymetry_first _ _ _ _ _ _ N H').
    cbn [GetBathymetry GetInfiniteDepth rbind IsNED]. split; [f_equal; lra|reflexivity].
  - intros l1 l2 o e Ho (lev & h2 & t0 & d0 & H) N. destruct Ho as [->| ->]; [rewrite (infinite_last _ _ _ _ N H)|rewrite (show_last _ _ _ _ _ N H)]; reflexivity.
  - intros l e H steps P. cbn [env_run]. pose proof (reached_calm _ _ H) as C. destruct (init_ok e C) as [e1 [E G]]. rewrite E. cbn [rbind]. apply steps_ok; [eapply step_calm; eassumption|exact G|exact P].
Qed.
Example C199_inhabited : exists e, reached [OSetBathymetry 70 NED; OInitialize; OUpdate 1] e /\ GetDepth e NWU = Ok 70.
Proof.
  eexists. split; [exists LOW, 0, 0, 0; reflexivity|]. unfold GetDepth, GetHeight. cbn. f_equal. lra.
Qed.

(** C200: asked in the NED convention, the depth of a finite sea is the opposite of the depth: a negative number over a seabed below the surface. *)
Theorem C200_depth_ned_refuted : forall l e d, reached l e -> GetDepth e NWU = Ok d -> GetDepth e NED = Ok (- d).
Proof.
  intros l e d H E. rewrite (depth_reached _ _ NWU H) in E. rewrite (depth_reached _ _ NED H). destruct (n_seabed e); cbn [GetBathymetry rbind IsNED] in *; [discriminate|]. inversion E. f_equal.
Qed.
Example C200_inhabited : exists e, reached [] e /\ GetDepth e NWU = Ok 30 /\ GetDepth e NED = Ok (- 30).
Proof.
  exists (new_env LOW 0 0 0). split; [exists LOW, 0, 0, 0; reflexivity|]. unfold GetDepth, GetHeight. cbn. split; f_equal; lra.
Qed.

(** C201: showing the seabed forgets the bathymetry: the depth is 30 again; so does showing a seabed that was never hidden. *)
Theorem C201_show_seabed_refuted : forall l1 l2 b fc e, reached (l1 ++ OSetBathymetry b fc :: OShowSeabed true :: l2) e -> nowhere on_seabed l2 -> GetDepth e NWU = Ok 30.
Proof.
  intros l1 l2 b fc e H N. pose proof H as H'. destruct H' as (lev & h2 & t0 & d0 & H'). rewrite (depth_reached _ _ NWU H).
  replace (l1 ++ OSetBathymetry b fc :: OShowSeabed true :: l2) with ((l1 ++ [OSetBathymetry b fc]) ++ OShowSeabed true :: l2) in H' by (rewrite <- app_assoc; reflexivity).
  rewrite (show_last _ _ _ _ _ N H'). cbn [GetBathymetry rbind IsNED]. f_equal. lra.
Qed.
Example C201_inhabited : exists e, reached [OSetBathymetry (- 80) NWU; OShowSeabed true] e /\ nowhere on_seabed [].
Proof. eexists. split; [exists LOW, 0, 0, 0; reflexivity|intros o []]. Qed.

(** C202: hiding the seabed of an initialised, visible sea ends the program at the next time step; so do reading and setting its depth. *)
Theorem C202_hide_seabed_refuted : forall l e time, reached (l ++ [OInitialize]) e -> nowhere hides l -> GetInfiniteDepth (n_seabed e) = false ->
  env_run e [OShowSeabed false; OUpdate time] = Fails /\ (forall e' fc b, env_run e [OSetInfiniteDepth] = Ok e' -> GetDepth e' fc = Fails /\ env_run e' [OSetBathymetry b fc] = Fails).
Proof.
  intros l e time H N D. destruct (initialised _ _ H N) as [S I]. rewrite D in I. pose proof (reached_calm _ _ H) as C. split.
  - exact (hidden_update e time C S I).
  - intros e' fc b E. cbn [env_run env_step rbind] in E. inversion E; subst. unfold GetDepth. cbn [set_seabed n_tide n_seabed env_run env_step SetBathymetry rbind].
    rewrite (calm_height _ _ C). split; reflexivity.
Qed.
Example C202_inhabited : exists e, reached ([OSetWaves (fun t x y => t) 0 0] ++ [OInitialize]) e /\ nowhere hides [OSetWaves (fun t x y => t) 0 0] /\ GetInfiniteDepth (n_seabed e) = false.
Proof. eexists. split; [exists LOW, 0, 0, 0; reflexivity|split; [|reflexivity]]. intros o [<-|[]]; reflexivity. Qed.

(** C203: each property of the water and of the air, and the gravity, is what the last call on it gave, or the documented default, whatever the other
    calls; the density of a fluid is the one of that fluid. *)
Theorem C203_properties :
  (forall l1 l2 k x e, reached (l1 ++ OSetWater k x :: l2) e -> nowhere (sets_water k) l2 -> get_prop (n_water e) k = x) /\
  (forall l1 l2 k x e, reached (l1 ++ OSetAir k x :: l2) e -> nowhere (sets_air k) l2 -> get_prop (n_air e) k = x) /\
  (forall l1 l2 g e, reached (l1 ++ OSetGravity g :: l2) e -> nowhere sets_gravity l2 -> 0 <= g -> GetGravityAcceleration e = g) /\
  (forall l e, reached l e ->
     (nowhere (sets_water Density) l -> FluidDensity e WATER = 1027) /\ (nowhere (sets_air Density) l -> FluidDensity e AIR = 1204 / 1000) /\
     (nowhere (sets_water Temperature) l -> get_prop (n_water e) Temperature = 10) /\ (nowhere (sets_water Salinity) l -> get_prop (n_water e) Salinity = 35) /\
     (nowhere sets_gravity l -> GetGravityAcceleration e = 981 / 100) /\
     FluidDensity e WATER = get_prop (n_water e) Density /\ FluidDensity e AIR = get_prop (n_air e) Density).
Proof.
  split; [|split; [|split]].
  - intros l1 l2 k x e (lev & h2 & t0 & d0 & H) N. exact (water_last l1 l2 k x e _ N H).
  - intros l1 l2 k x e (lev & h2 & t0 & d0 & H) N. exact (air_last l1 l2 k x e _ N H).
  - intros l1 l2 g e (lev & h2 & t0 & d0 & H) N G. rewrite (gravity_last l1 l2 g e _ N H). apply Rabs_pos_eq; exact G.
  - intros l e (lev & h2 & t0 & d0 & H). unfold FluidDensity.
    split; [intro N; exact (run_water Density l _ _ N H)|]. split; [intro N; exact (run_air Density l _ _ N H)|].
    split; [intro N; exact (run_water Temperature l _ _ N H)|]. split; [intro N; exact (run_water Salinity l _ _ N H)|].
    split; [intro N; unfold GetGravityAcceleration; rewrite (run_gravity l _ _ N H); cbn [n_gz new_env]; rewrite Rabs_Ropp; apply Rabs_pos_eq; lra|]. split; reflexivity.
Qed.
Example C203_inhabited : exists e, reached ([OSetAir Density 2] ++ OSetWater Density 1000 :: [OSetWater Salinity 0; OUpdate 1]) e /\ nowhere (sets_water Density) [OSetWater Salinity 0; OUpdate 1] /\ FluidDensity e WATER = 1000 /\ FluidDensity e AIR = 2.
Proof.
  eexists. split; [exists LOW, 0, 0, 0; reflexivity|]. split; [|split; reflexivity]. intros o [<-|[<-|[]]]; reflexivity.
Qed.

(** C204: the Reynolds number is speed times length over the kinematic viscosity and the Froude number is speed over the root of gravity times length:
    they do not depend on the sign of the velocity, are proportional to the speed, and Re^2 nu^2 = Fr^2 g L^3. *)
Theorem C204_numbers : forall l e, reached l e -> forall len v,
  (forall p r, Reynolds p len v = Ok r -> r * get_prop p KinematicViscosity = Rabs v * len /\ Reynolds p len (- v) = Ok r /\ forall k, 0 <= k -> Reynolds p len (k * v) = Ok (k * r)) /\
  (forall p, get_prop p KinematicViscosity <> 0 -> exists r, Reynolds p len v = Ok r) /\
  (forall f, Froude e len v = Ok f -> 0 <= f /\ f * f * (GetGravityAcceleration e * len) = v * v /\ Froude e len (- v) = Ok f /\ forall k, 0 <= k -> Froude e len (k * v) = Ok (k * f)) /\
  (0 < GetGravityAcceleration e * len -> exists f, Froude e len v = Ok f) /\
  (forall p r f, Reynolds p len v = Ok r -> Froude e len v = Ok f -> let nu := get_prop p KinematicViscosity in r * r * (nu * nu) = f * f * GetGravityAcceleration e * (len * len * len)).
Proof.
  intros l e _ len v.
  assert (forall p r, Reynolds p len v = Ok r -> get_prop p KinematicViscosity <> 0 /\ r = Rabs v * len / get_prop p KinematicViscosity) as RE.
  { intros p r. unfold Reynolds, quotient. destruct (Req_EM_T _ 0); [discriminate|]. intro E; inversion E. split; [assumption|reflexivity]. }
  assert (forall f, Froude e len v = Ok f -> 0 < GetGravityAcceleration e * len /\ f = Rabs v / sqrt (GetGravityAcceleration e * len)) as FE.
  { intros f. unfold Froude, quotient. cbv zeta. destruct (Rlt_dec _ 0); [discriminate|]. destruct (Req_EM_T _ 0) as [Z|Z]; [discriminate|]. intro E; inversion E. split; [|reflexivity].
    destruct (Req_EM_T (GetGravityAcceleration e * len) 0) as [Q|Q]; [rewrite Q, sqrt_0 in Z; lra|lra]. }
  assert (forall k, 0 <= k -> Rabs (k * v) = k * Rabs v) as AK by (intros k K; rewrite Rabs_mult, (Rabs_pos_eq k K); reflexivity).
  split; [|split; [|split; [|split]]].
  - intros p r E. destruct (RE p r E) as [N ->]. split; [field; exact N|]. unfold Reynolds, quotient. rewrite Rabs_Ropp. destruct (Req_EM_T _ 0) as [Z|Z]; [contradiction|]. split; [reflexivity|].
    intros k K. rewrite (AK k K). f_equal. field. exact N.
  - intros p N. unfold Reynolds, quotient. destruct (Req_EM_T _ 0); [contradiction|]. eauto.
  - intros f E. destruct (FE f E) as [P ->]. pose proof (sqrt_lt_R0 _ P) as SP. pose proof (sqrt_def _ (Rlt_le _ _ P)) as SD. set (s := sqrt _) in *.
    split; [apply Rmult_le_pos; [apply Rabs_pos|left; apply Rinv_0_lt_compat; exact SP]|]. split.
    + replace (v * v) with (Rabs v * Rabs v) by (rewrite <- Rabs_mult; apply Rabs_pos_eq; nra). rewrite <- SD. field. lra.
    + unfold Froude, quotient. cbv zeta. destruct (Rlt_dec _ 0); [lra|]. rewrite Rabs_Ropp. fold s. destruct (Req_EM_T s 0); [lra|]. split; [reflexivity|]. intros k K. rewrite (AK k K). f_equal. field. lra.
  - intro P. pose proof (sqrt_lt_R0 _ P) as SP. unfold Froude, quotient. cbv zeta. destruct (Rlt_dec _ 0); [lra|]. destruct (Req_EM_T _ 0); [lra|]. eauto.
  - intros p r f E E' nu. destruct (RE p r E) as [N ->]. destruct (FE f E') as [P ->]. pose proof (sqrt_lt_R0 _ P) as SP. pose proof (sqrt_def _ (Rlt_le _ _ P)) as SD. set (s := sqrt _) in *. fold nu. fold nu in N.
    replace (Rabs v / s * (Rabs v / s) * GetGravityAcceleration e * (len * len * len)) with (Rabs v / s * (Rabs v / s) * (GetGravityAcceleration e * len) * (len * len)) by ring. rewrite <- SD. field. split; lra.
Qed.
Example C204_inhabited : exists r f, Reynolds default_water 100 (- 5) = Ok r /\ Froude (new_env LOW 0 0 0) 100 (- 5) = Ok f.
Proof.
  pose proof (C204_numbers [] (new_env LOW 0 0 0) (ex_intro _ LOW (ex_intro _ 0 (ex_intro _ 0 (ex_intro _ 0 eq_refl)))) 100 (- 5)) as (_ & H & _ & H' & _).
  destruct (H default_water) as [r Er]; [cbn; lra|]. destruct H' as [f Ef]; [unfold GetGravityAcceleration; cbn [n_gz new_env]; rewrite Rabs_Ropp, Rabs_pos_eq; lra|]. exists r, f. split; assumption.
Qed.

(** C205: the air has no Reynolds number until its viscosity is set, and setting the density or the dynamic viscosity of a fluid does not change its
    kinematic viscosity: their ratio drifts away from it. *)
Theorem C205_viscosity_refuted :
  (forall l e len v, reached l e -> nowhere (sets_air KinematicViscosity) l -> Reynolds (n_air e) len v = Undef) /\
  (exists e, reached [OSetWater Density 2000] e /\ get_prop (n_water e) KinematicViscosity * get_prop (n_water e) Density > 19 / 10 * get_prop (n_water e) DynamicViscosity).
Proof.
  split.
  - intros l e len v (lev & h2 & t0 & d0 & H) N. pose proof (run_air KinematicViscosity l _ _ N H) as E. unfold Reynolds, quotient. rewrite E. cbn. destruct (Req_EM_T 0 0); [reflexivity|lra].
  - eexists. split; [exists LOW, 0, 0, 0; reflexivity|]. cbn. lra.
Qed.

(** C206: a point is in the air when it is above the free surface of that instant (to within 2^-52), in the water otherwise, the same in both conventions;
    without wave deformation the surface is the plane z = 0. *)
Theorem C206_fluid : forall l e, reached l e -> forall p,
  (forall z, GetSurfacePosition e (vx p) (vy p) NWU = Ok z -> GetFluidTypeAtPointInWorld e p NWU true = AIR <-> z - DBL_EPSILON < vz p) /\
  (GetFluidTypeAtPointInWorld e p NWU false = AIR <-> - DBL_EPSILON < vz p) /\
  (forall w, GetFluidTypeAtPointInWorld e (convert NED p) NED w = GetFluidTypeAtPointInWorld e p NWU w).
Proof.
  intros l e H p. unfold GetFluidTypeAtPointInWorld. split; [|split].
  - intros z E. rewrite (surface_elevation _ _ _ _ _ H) in E. inversion E. unfold GetFluidType. cbn [IsNED]. destruct (Rlt_dec _ _); split; intros; try assumption; try reflexivity; try discriminate; contradiction.
  - unfold GetFluidType. cbn [IsNED]. rewrite Rminus_0_l. destruct (Rlt_dec _ _); split; intros; try assumption; try reflexivity; try discriminate; contradiction.
  - intros w. cbn [convert vx vy vz]. unfold GetFluidType. cbn [IsNED vz]. rewrite elevation_ned, Ropp_involutive.
    destruct w; destruct (Rlt_dec _ _) as [A|A], (Rlt_dec _ _) as [B|B]; try reflexivity; lra.
Qed.
Example C206_inhabited : exists e, reached [OSetWaves (fun t x y => 2) 0 0; OUpdate 1] e /\ GetSurfacePosition e 0 0 NWU = Ok 2 /\ GetFluidTypeAtPointInWorld e (V 0 0 1) NWU true = WATER /\ GetFluidTypeAtPointInWorld e (V 0 0 1) NWU false = AIR.
Proof.
  eexists. split; [exists LOW, 0, 0, 0; reflexivity|]. unfold GetSurfacePosition, GetHeight, GetFluidTypeAtPointInWorld, GetFluidType, GetElevation, wave_elevation, FloModel.DBL_EPSILON. cbn [set_waves n_waves wv_eta make_waves vx vy vz IsNED set_tide n_tide td_frame rbind].
  split; [cbn; f_equal; lra|]. split; destruct (Rlt_dec _ _) as [A|A]; try reflexivity; exfalso; cbn in A; lra.
Qed.
