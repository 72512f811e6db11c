(** Properties C231-C245: meshes of the grid assets, surface grid, catenary line assets, assets of an object, mesh writer, loader of polar
    coefficients, constraint between two bodies. *)
From Coq Require Import Reals List ZArith Bool String Lra Lia Psatz.
From Verif Require Import GeoModel GeoSpec BodyModel SeaModel FloModel RadModel AmModel AmSpec AmProofs4 AmProofs5 ConModel ConProofs AstModel AstSpec AstProofs AstProofs2 AstProofs3 AstProofs4.
Import ListNotations.
Open Scope R_scope.

(** C231: a cartesian grid tiles, without overlap and all faces seen from the same side, the rectangle made of the whole steps that fit in the
    domain, at the height of the grid *)
Theorem C231_cartesian_grid : forall xmin xmax dx ymin ymax dy h, 0 < dx -> 0 < dy -> dx <= xmax - xmin -> dy <= ymax - ymin ->
  exists nx ny, (1 <= nx)%nat /\ (1 <= ny)%nat /\ xmin + INR nx * dx <= xmax < xmin + INR (S nx) * dx /\ ymin + INR ny * dy <= ymax < ymin + INR (S ny) * dy /\
  let m := BuildRectangularMeshGrid xmin xmax dx ymin ymax dy h in
  tiles m (rectangle xmin (xmin + INR nx * dx) ymin (ymin + INR ny * dy)) (INR nx * dx * (INR ny * dy)) /\
  List.length (t_vertices m) = (S ny * S nx)%nat /\ forall v, In v (t_vertices m) -> vz v = h.
Proof.
  intros xmin xmax dx ymin ymax dy h Dx Dy Hx Hy. destruct (steps xmin xmax dx Dx Hx) as (nx & Ex & Px & Bx). destruct (steps ymin ymax dy Dy Hy) as (ny & Ey & Py & By).
  exists nx, ny. do 4 (split; [assumption|]). cbv zeta.
  assert (E : BuildRectangularMeshGrid xmin xmax dx ymin ymax dy h = cart_mesh xmin dx ymin dy h (S nx) (S ny)) by (unfold BuildRectangularMeshGrid; rewrite Ex, Ey; reflexivity).
  rewrite E. split; [|split; [apply cart_count|apply cart_height]].
  pose proof (cart_tiles xmin dx ymin dy h (S nx) (S ny) Dx Dy ltac:(lia) ltac:(lia)) as T. cbn [Nat.sub] in T. rewrite !Nat.sub_0_r in T. exact T.
Qed.
(** When the steps divide the sides the whole domain is drawn *)
Theorem C231_whole_domain : forall xmin dx ymin dy h nx ny, 0 < dx -> 0 < dy -> (1 <= nx)%nat -> (1 <= ny)%nat ->
  let xmax := xmin + INR nx * dx in let ymax := ymin + INR ny * dy in
  tiles (BuildRectangularMeshGrid xmin xmax dx ymin ymax dy h) (rectangle xmin xmax ymin ymax) ((xmax - xmin) * (ymax - ymin)).
Proof.
  intros xmin dx ymin dy h nx ny Dx Dy Nx Ny xmax ymax. apply le_INR in Nx, Ny. cbn [INR] in Nx, Ny.
  destruct (C231_cartesian_grid xmin xmax dx ymin ymax dy h Dx Dy) as (px & py & Px & Py & Bx & By & T & _); [subst xmax; nra|subst ymax; nra|].
  assert (Ex : px = nx). { subst xmax. rewrite S_INR in Bx. apply Nat.le_antisymm; [apply INR_le; nra|]. destruct (Nat.le_gt_cases nx px) as [G|G]; [exact G|exfalso].
    apply lt_le_S, le_INR in G. rewrite S_INR in G. nra. }
  assert (Ey : py = ny). { subst ymax. rewrite S_INR in By. apply Nat.le_antisymm; [apply INR_le; nra|]. destruct (Nat.le_gt_cases ny py) as [G|G]; [exact G|exfalso].
    apply lt_le_S, le_INR in G. rewrite S_INR in G. nra. }
  subst px py. cbv zeta in T. fold xmax ymax in T. replace ((xmax - xmin) * (ymax - ymin)) with (INR nx * dx * (INR ny * dy)) by (subst xmax ymax; ring). exact T.
Qed.
Example C231_inhabited : tiles (BuildRectangularMeshGrid 0 (0 + INR 3 * 2) 2 1 (1 + INR 2 * 5) 5 7) (rectangle 0 (0 + INR 3 * 2) 1 (1 + INR 2 * 5)) ((0 + INR 3 * 2 - 0) * (1 + INR 2 * 5 - 1)).
Proof. apply C231_whole_domain; lra || lia. Qed.

(** C232: a polar grid tiles the regular polygon, of one side less than the number of angles, inscribed in the circle of the diameter asked for *)
Theorem C232_polar_grid : forall xc yc diameter nbR nbTheta h, 0 < diameter -> (2 <= nbR)%nat -> (4 <= nbTheta)%nat ->
  let r := diameter / 2 in let n := (nbTheta - 1)%nat in
  tiles (BuildPolarMeshGrid xc yc diameter nbR nbTheta h) (polygon xc yc r n) (INR n * (r * r * sin (2 * PI / INR n) / 2)).
Proof.
  intros xc yc diameter nbR nbTheta h D N1 N2 r n.
  pose proof (polar_tiles xc yc r h (nbR - 1) n ltac:(subst r; lra) ltac:(lia) ltac:(lia)) as T. unfold polar_mesh in T.
  replace (2 * r) with diameter in T by (subst r; field). replace (S (nbR - 1)) with nbR in T by lia. replace (S n) with nbTheta in T by (subst n; lia). exact T.
Qed.
Example C232_inhabited : tiles (BuildPolarMeshGrid 1 2 10 3 37 0) (polygon 1 2 (10 / 2) 36) (INR 36 * (10 / 2 * (10 / 2) * sin (2 * PI / INR 36) / 2)).
Proof. apply C232_polar_grid; lra || lia. Qed.

(** C233: the vertices of a polar grid are not at the height of the grid: only the centre and the first ray are; a polar seabed at 30 m shows vertices at
    the height zero *)
Theorem C233_height : forall xc yc diameter nbR nbTheta h, 0 < diameter -> (2 <= nbR)%nat -> (4 <= nbTheta)%nat -> forall k j, (k < nbTheta)%nat -> (1 <= j < nbR)%nat ->
  let m := BuildPolarMeshGrid xc yc diameter nbR nbTheta h in vz (corner m 0) = h /\ vz (corner m (k * (nbR - 1) + j)) = if Nat.eqb k 0 then h else 0.
Proof.
  intros xc yc diameter nbR nbTheta h D N1 N2 k j Hk Hj m.
  destruct (polar_heights xc yc (diameter / 2) h (nbR - 1) (nbTheta - 1) ltac:(lra) ltac:(lia) ltac:(lia) k j ltac:(lia) ltac:(lia)) as [A B]. unfold polar_mesh in A, B.
  replace (2 * (diameter / 2)) with diameter in A, B by field. replace (S (nbR - 1)) with nbR in A, B by lia. replace (S (nbTheta - 1)) with nbTheta in A, B by lia. split; assumption.
Qed.
Theorem C233_seabed_refuted : ~ (forall xc yc diameter nbR nbTheta bathymetry m, 0 < diameter -> (2 <= nbR)%nat -> (4 <= nbTheta)%nat ->
  seabed_mesh (POLAR xc yc diameter nbR nbTheta) bathymetry = Some m -> forall i, (i < List.length (t_vertices m))%nat -> vz (corner m i) = bathymetry).
Proof.
  intro H. specialize (H 0 0 20 3%nat 5%nat (-30) _ ltac:(lra) ltac:(lia) ltac:(lia) eq_refl (1 * (3 - 1) + 1)%nat).
  destruct (C233_height 0 0 20 3 5 (-30) ltac:(lra) ltac:(lia) ltac:(lia) 1 1 ltac:(lia) ltac:(lia)) as [_ B]. cbv zeta in B. cbn [Nat.eqb] in B. rewrite H in B; [lra|].
  unfold BuildPolarMeshGrid. cbn [t_vertices]. rewrite app_length, map_length, linspace_length. cbn [Nat.sub seq flat_map map app List.length]. lia.
Qed.

(** C234: a cartesian grid does not cover the domain asked for when the step does not divide it *)
Theorem C234_domain_refuted : ~ (forall xmin xmax dx ymin ymax dy h, 0 < dx -> 0 < dy -> dx <= xmax - xmin -> dy <= ymax - ymin ->
  forall x y, rectangle xmin xmax ymin ymax x y -> covers (BuildRectangularMeshGrid xmin xmax dx ymin ymax dy h) x y).
Proof.
  intro H. specialize (H 0 (3/2) 1 0 1 1 0 ltac:(lra) ltac:(lra) ltac:(lra) ltac:(lra) (3/2) 0). destruct H as (i & j & k & a & b & c & F & A & B & C & Sm & X & _); [unfold rectangle; lra|].
  destruct (C231_cartesian_grid 0 (3/2) 1 0 1 1 0 ltac:(lra) ltac:(lra) ltac:(lra) ltac:(lra)) as (nx & ny & _ & _ & Bx & _ & T & _). cbv zeta in T.
  destruct T as (Tf & _ & Tv & _). destruct (Tf i j k F) as (Fi & Fj & Fk).
  assert (Nx : INR nx <= 1). { destruct (Nat.le_gt_cases nx 1) as [G|G]; [apply le_INR in G; exact G|]. apply lt_le_S, le_INR in G. cbn [INR] in G. lra. }
  assert (U : forall q, (q < List.length (t_vertices (BuildRectangularMeshGrid 0 (3/2) 1 0 1 1 0)))%nat -> vx (corner (BuildRectangularMeshGrid 0 (3/2) 1 0 1 1 0) q) <= 1).
  { intros q Q. destruct (Tv _ (nth_In _ vzero Q)) as [[_ G] _]. unfold corner. lra. }
  pose proof (Rmult_le_compat_l _ _ _ A (U i Fi)). pose proof (Rmult_le_compat_l _ _ _ B (U j Fj)). pose proof (Rmult_le_compat_l _ _ _ C (U k Fk)). lra.
Qed.

(** C235: the drawn free surface.  With an update every n steps, after any number of steps the mesh is that of the last multiple of n: every vertex is
    on the free surface of that step, over its first place; before the n-th step it is flat, at the height of the tide *)
Theorem C235_surface_grid : forall tide t n, (1 <= n)%nat -> t <> NOGRID ->
  let g0 := sg_initialize (SetUpdateStep (SetGrid (new_sgrid tide) t) (Z.of_nat n)) in
  exists m, sg_mesh g0 = Some m /\ m = match t with NOGRID => m | CARTESIAN a b c d e f => BuildRectangularMeshGrid a b c d e f tide | POLAR x y d r p => BuildPolarMeshGrid x y d r p tide end /\
  forall l, exists g, sg_run l g0 = Ok g /\
    sg_mesh g = Some (match (List.length l / n)%nat with O => m | S q => draped (nth (S q * n - 1)%nat l (fun _ _ => 0)) m end).
Proof.
  intros tide t n Hn Ht g0. destruct t as [|a b c d e f|x y d r p]; [congruence| |]; eexists; (split; [reflexivity|]; split; [reflexivity|]);
    intro l; eexists; (split; [apply (sg_history n _ _ _ Hn l)|]); cbn [sg_mesh]; unfold shown_surface; destruct (List.length l / n)%nat; reflexivity.
Qed.
(** Without updates the drawing never changes; a hidden grid never stops the run *)
Theorem C235_still : forall tide t l, let g0 := sg_initialize (UpdateAssetOFF (SetGrid (new_sgrid tide) t)) in
  (exists g, sg_run l g0 = Ok g /\ sg_mesh g = sg_mesh g0) /\
  let h0 := sg_initialize (SetNoGrid (SetUpdateStep (SetGrid (new_sgrid tide) t) 3)) in exists h, sg_run l h0 = Ok h /\ sg_mesh h = None.
Proof.
  intros tide t l. split; [destruct t; eexists; (split; [apply sg_still|reflexivity])|]. cbv zeta. eexists. split; [apply sg_still|reflexivity].
Qed.
Example C235_inhabited : exists g, sg_run [(fun x _ => x); (fun _ y => y); (fun x y => x * y)] (sg_initialize (SetUpdateStep (SetGrid (new_sgrid 1) (CARTESIAN 0 1 1 0 1 1)) 2)) = Ok g /\
  sg_mesh g = Some (draped (fun _ y => y) (BuildRectangularMeshGrid 0 1 1 0 1 1 1)).
Proof.
  destruct (C235_surface_grid 1 (CARTESIAN 0 1 1 0 1 1) 2 ltac:(lia) ltac:(discriminate)) as (m & _ & Em & H). cbv zeta in *.
  destruct (H [(fun x _ => x); (fun _ y => y); (fun x y => x * y)]) as (g & E & G). exists g. split; [exact E|]. rewrite G, Em. reflexivity.
Qed.
(** Updates turned on: the step already chosen is kept, else every step *)
Theorem C235_on : forall g n, (1 <= n)%Z -> UpdateAssetON (SetUpdateStep g n) = SetUpdateStep g n /\ UpdateAssetON (UpdateAssetOFF g) = SetUpdateStep g 1 /\
  forall tide, UpdateAssetON (new_sgrid tide) = SetUpdateStep (new_sgrid tide) 1.
Proof. intros g n Hn. unfold UpdateAssetON. cbn [sg_update SetUpdateStep]. replace (Z.eqb n 0) with false by (symmetry; apply Z.eqb_neq; lia). repeat split. Qed.
(** An update step on a grid without mesh: the next update uses a mesh that does not exist *)
Theorem C235_hidden_refuted : ~ (forall tide g, sg_mesh g = None -> exists g', sg_run [fun _ _ => tide] (sg_initialize (UpdateAssetON (SetGrid g NOGRID))) = Ok g').
Proof. intro H. destruct (H 0 (new_sgrid 0) eq_refl) as [g' E]. discriminate E. Qed.

(** C236: the drawing of a catenary line in n elements is made of n segments, end to end from the start of the line to its end, equally spaced along the
    unstrained line; each has the colour of the tension in its middle, on a scale up to the value chosen by the user, or 1.25 times the largest tension at
    the starts of the elements.  After a step it follows the line. *)
Theorem C236_line : forall c n user fuel, 0 < cl_length c -> (2 <= n)%nat -> (n <= fuel)%nat -> 0 <= user ->
  let s i := INR i * (cl_length c / INR n) in
  exists max l, owner_Initialize fuel c n user true = Ok (max, l) /\ List.length l = n /\
  (0 < user -> max = user) /\
  (user = 0 -> exists top, max = 1.25 * top /\ (forall i, (i < n)%nat -> cl_tension c (s i) <= top) /\ exists i, (i < n)%nat /\ top = cl_tension c (s i)) /\
  (forall i d, (i < n)%nat -> nth i l d = Seg (s i) (s (S i)) (cl_pos c (s i)) (cl_pos c (s (S i))) (cl_tension c ((1/2) * (s i + s (S i)))) max) /\ s n = cl_length c /\
  forall c', exists l', line_StepFinalize c' l = l' /\ List.length l' = n /\
  forall i d, (i < n)%nat -> nth i l' d = Seg (s i) (s (S i)) (cl_pos c' (s i)) (cl_pos c' (s (S i))) (cl_tension c' ((1/2) * (s i + s (S i)))) max.
Proof.
  intros c n user fuel HL Hn Hf Hu s. destruct (drawn_max c n HL Hn) as (top & T1 & T2 & Et).
  set (max := InitMaxTension c n user). exists max, (map (seg_at c n (InitRangeTensionColor c n max)) (seq 0 n)).
  assert (Em : InitRangeTensionColor c n max = max).
  { unfold max, InitRangeTensionColor, InitMaxTension. destruct (Req_EM_T user 0) as [E|E]; destruct (Rlt_dec 0 _) as [G|G]; try reflexivity. lra. }
  split; [unfold owner_Initialize; fold max; rewrite line_made by assumption; reflexivity|].
  split; [rewrite map_length, seq_length; reflexivity|].
  split; [intro P; unfold max, InitMaxTension; destruct (Req_EM_T user 0); [lra|reflexivity]|].
  split; [intros ->; exists top; split; [unfold max, InitMaxTension; destruct (Req_EM_T 0 0) as [_|N]; [rewrite Et; reflexivity|lra]|split; assumption]|].
  split; [intros i d Hi; rewrite nth_mapped by exact Hi; rewrite Em; reflexivity|].
  split; [apply (lat_n c n HL Hn)|].
  intro c'. eexists. split; [apply (line_moved c n HL Hn)|]. split; [rewrite map_length, seq_length; reflexivity|].
  intros i d Hi. rewrite nth_mapped by exact Hi. rewrite Em. reflexivity.
Qed.
Example C236_inhabited : exists max l, owner_Initialize 10 (CLine 100 (fun s => V s 0 0) (fun s => 5 + s)) 4 0 true = Ok (max, l) /\ List.length l = 4%nat /\ max = 1.25 * 80.
Proof.
  destruct (C236_line (CLine 100 (fun s => V s 0 0) (fun s => 5 + s)) 4 0 10) as (max & l & E & L & _ & M & _); cbn [cl_length]; try lra; try lia.
  exists max, l. split; [exact E|]. split; [exact L|]. destruct (M eq_refl) as (top & -> & B & i & Hi & ->). f_equal. cbn [cl_tension cl_length] in *.
  pose proof (B 3%nat ltac:(lia)) as B3. cbn [INR] in *. assert (Q : INR i <= 3) by (replace 3 with (INR 3) by (cbn; ring); apply le_INR; lia). lra.
Qed.
(** C237: a line drawn with one element stops the program *)
Theorem C237_one_element_refuted : ~ (forall c n user fuel, 0 < cl_length c -> (1 <= n)%nat -> (n <= fuel)%nat -> exists r, owner_Initialize fuel c n user true = Ok r).
Proof.
  intro H. destruct (H (CLine 100 (fun s => V s 0 0) (fun s => 1)) 1%nat 1 2%nat) as [r E]; cbn [cl_length]; try lra; try lia.
  unfold owner_Initialize, line_Initialize in E. cbn [line_loop cl_length] in E. cbn [INR] in E. destruct (Rle_dec (100 / 1) (100 - 100 / 1)) as [G|_]; [lra|]. discriminate E.
Qed.

(** C238: after any calls, every drawing is shown as many times as it was added and not removed since the last RemoveAssets; a history goes on to its end
    exactly when each asset removed was shown at that time *)
Theorem C238_assets : forall l,
  (forall w, asset_run l new_owner = Ok w -> (forall d, Z.of_nat (count_occ drawn_dec (o_chrono w) d) = shown d l) /\
     forall a, Z.of_nat (count_occ Nat.eq_dec (o_assets w) a) = shown (DAsset a) l) /\
  ((exists w, asset_run l new_owner = Ok w) <-> forall before a after, l = (before ++ RemoveAsset a :: after)%list -> (0 < shown (DAsset a) before)%Z).
Proof.
  intro l. pose proof (asset_history l) as P. destruct (asset_run l new_owner) as [w| | | |]; try contradiction.
  - destruct P as [C Q]. split; [intros w' [= <-]; exact C|]. split; [intros _; exact Q|intros _; exists w; reflexivity].
  - destruct P as (a & x & b & E & Z0). split; [discriminate|]. split; [intros [w F]; discriminate F|]. intro H. specialize (H a x b E). lia.
Qed.
Example C238_inhabited : exists w, asset_run [AddBox 1; AddAsset 2; AddAsset 3; RemoveAsset 2; AddSphere 4] new_owner = Ok w /\ o_chrono w = [DBox 1; DAsset 3; DSphere 4] /\
  shown (DAsset 2) [AddBox 1; AddAsset 2; AddAsset 3; RemoveAsset 2; AddSphere 4] = 0%Z.
Proof. eexists. split; [reflexivity|]. split; reflexivity. Qed.
(** C239: the shapes listed by an object are not those that are shown *)
Theorem C239_shapes_refuted : ~ (forall l w, asset_run l new_owner = Ok w -> forall a, count_occ Nat.eq_dec (o_boxes w) a = count_occ drawn_dec (o_chrono w) (DBox a)).
Proof. intro H. specialize (H [AddBox 1; RemoveAssets] _ eq_refl 1%nat). discriminate H. Qed.

(** C240: meshes written one after the other go to files with different names, numbered from the counter, that each keep their mesh; the other files
    are not changed *)
Theorem C240_mesh_writer : forall (M : Type) (w : mwriter M) ms,
  let w' := mw_run (map MWrite ms) w in let name i := (mw_base w ++ to_string (mw_counter w + Z.of_nat i) ++ mw_ext w)%string in
  (forall i m, nth_error ms i = Some m -> content (mw_files w') (name i) = Some m) /\
  (forall i j, name i = name j -> i = j) /\
  (forall f, (forall i, (i < List.length ms)%nat -> f <> name i) -> content (mw_files w') f = content (mw_files w) f).
Proof.
  intros M w ms w' name. destruct (written M ms w) as (_ & _ & _ & A & B). split; [exact A|]. split; [|exact B].
  intros i j E. apply append_left, append_right, to_string_inj in E. lia.
Qed.
(** The names follow the last base name, extension and number given *)
Theorem C240_names : forall (M : Type) (l : list (mw_op M)) m,
  content (mw_files (mw_run (l ++ [MWrite m]) (new_mwriter M))) (last_base l ++ to_string (last_number l) ++ last_type l)%string = Some m.
Proof.
  intros M l m. destruct (in_force M l) as (A & B & C). unfold mw_run in *. rewrite fold_left_app. cbn [fold_left mw_do mw_files content]. unfold GetFilename. rewrite A, B, C.
  destruct (string_dec _ _) as [_|N]; [reflexivity|congruence].
Qed.
Example C240_inhabited : let w' := mw_run [MWrite 5%nat; MWrite 6%nat] (mw_run [MReinit 9] (new_mwriter nat)) in
  content (mw_files w') "output9.obj" = Some 5%nat /\ content (mw_files w') "output10.obj" = Some 6%nat.
Proof. split; reflexivity. Qed.
(** C241: with another base name a file written before may be overwritten *)
Theorem C241_overwritten_refuted : ~ (forall b1 b2 (n : nat) (m1 m2 : bool), b1 <> b2 ->
  let w1 := mw_run (MSetFileBase b1 :: map MWrite (repeat m1 (S n))) (new_mwriter bool) in
  let w2 := mw_run [MSetFileBase b2; MReinit 1; MWrite m2] w1 in
  content (mw_files w2) (b1 ++ to_string (Z.of_nat n) ++ ".obj")%string = Some m1).
Proof. intro H. specialize (H "buoy"%string "buoy1"%string 11%nat true false ltac:(discriminate)). discriminate H. Qed.

(** C242: a complete file of polar coefficients is loaded row by row *)
Theorem C242_polar_file : forall j frontal lateral len angles cx cy cn,
  j "frontal_area"%string = Some (JNumber frontal) -> j "lateral_area"%string = Some (JNumber lateral) -> j "length"%string = Some (JNumber len) ->
  j "angles"%string = Some (JNumbers angles) -> j "cx"%string = Some (JNumbers cx) -> j "cy"%string = Some (JNumbers cy) -> j "cn"%string = Some (JNumbers cn) ->
  List.length cx = List.length angles -> List.length cy = List.length angles -> List.length cn = List.length angles ->
  exists rows, LoadPolar j = Ok (frontal, lateral, len, rows) /\ List.length rows = List.length angles /\
  forall i a x y n, nth_error angles i = Some a -> nth_error cx i = Some x -> nth_error cy i = Some y -> nth_error cn i = Some n -> nth_error rows i = Some (a, V x y n).
Proof.
  intros j frontal lateral len angles cx cy cn E1 E2 E3 E4 E5 E6 E7 L1 L2 L3. eexists. split; [apply (rows_loaded j frontal lateral len angles cx cy cn); auto; lia|].
  split; [rewrite map_length, seq_length; reflexivity|]. intros i a x y n A X Y N.
  assert (Hi : (i < List.length angles)%nat) by (apply nth_error_Some; rewrite A; discriminate).
  rewrite (map_nth_error _ i _ (d := i)); [|rewrite (nth_error_nth' _ 0%nat) by (rewrite seq_length; exact Hi); rewrite seq_nth by exact Hi; reflexivity].
  rewrite (nth_error_nth _ _ 0 A), (nth_error_nth _ _ 0 X), (nth_error_nth _ _ 0 Y), (nth_error_nth _ _ 0 N). reflexivity.
Qed.
(** A well formed file, and faulty ones *)
Definition demo_file (angles cx : jvalue) : jnode := fun k =>
  if string_dec k "frontal_area" then Some (JNumber 10) else if string_dec k "lateral_area" then Some (JNumber 20) else if string_dec k "length" then Some (JNumber 30) else
  if string_dec k "angles" then Some angles else if string_dec k "cx" then Some cx else Some (JNumbers [7; 8]).
Example C242_inhabited : LoadPolar (demo_file (JNumbers [0; 90]) (JNumbers [1; 2])) = Ok (10, 20, 30, [(0, V 1 7 7); (90, V 2 8 8)]).
Proof. reflexivity. Qed.
(** C243: a faulty file is not reported: a missing array is an uncaught exception, columns that are too short are read beyond their end, and columns that
    are too long are silently cut *)
Theorem C243_missing_field : forall j k, In k ["frontal_area"; "lateral_area"; "length"; "angles"; "cx"; "cy"; "cn"]%string -> j k = None -> LoadPolar j = Throws.
Proof.
  intros j k Hk Hj. unfold LoadPolar, get_number, get_numbers.
  repeat (destruct Hk as [<-|Hk]; [rewrite Hj; repeat (match goal with |- context [j ?f] => destruct (j f) as [[| |]|] end; cbn [rbind]; try reflexivity); reflexivity|]). contradiction.
Qed.
Theorem C243_report_refuted : ~ (forall angles cx, List.length cx <> List.length angles ->
  LoadPolar (demo_file (JNumbers angles) (JNumbers cx)) = Fails \/ LoadPolar (demo_file (JNumbers angles) (JNumbers cx)) = Throws).
Proof. intro H. destruct (H [0; 90] [1] ltac:(discriminate)) as [E|E]; discriminate E. Qed.
Theorem C243_cut_refuted : ~ (forall angles cx rows f l s, LoadPolar (demo_file (JNumbers angles) (JNumbers cx)) = Ok (f, l, s, rows) -> List.length rows = List.length cx).
Proof. intro H. specialize (H [0] [1; 2] _ _ _ _ eq_refl). discriminate H. Qed.

(** C244: for a constraint between two bodies coupled by their added masses, Eq_a and Eq_b are the accelerations of these bodies, in the coupled equations
    of motion of all the bodies, under a unit reaction, and g is the acceleration along the constraint plus the compliance; the same for a
    body held to the ground *)
Theorem C244_constraint : forall inv f A m0 m a b Cq_a Cq_b cfm, inverts inv -> has_added_mass f A -> BuildGeneralizedMass inv f m0 = Ok m ->
  In a (bodies f) -> In b (bodies f) -> a <> b -> fl_active f a = true -> fl_active f b = true ->
  (exists k, (k < 6)%nat /\ Cq_a k <> fl_fb f a k) -> (exists k, (k < 6)%nat /\ Cq_b k <> fl_fb f b k) ->
  exists Eq_a Eq_b g, Update_auxiliary f m a (Some b) Cq_a Cq_b cfm = Ok (Eq_a, Eq_b, g) /\
  forall acc : nat -> vec6, (forall i c, In i (bodies f) -> (c < 6)%nat -> momentum f A acc i c = (if Nat.eqb i a then Cq_a c else if Nat.eqb i b then Cq_b c else 0)) ->
  (forall c, (c < 6)%nat -> Eq_a c = acc a c /\ Eq_b c = acc b c) /\ g = sum6 (fun c => Cq_a c * acc a c) + sum6 (fun c => Cq_b c * acc b c) + cfm.
Proof. exact coupled. Qed.
Theorem C244_ground : forall inv f A m0 m a Cq_a Cq_b cfm, inverts inv -> has_added_mass f A -> BuildGeneralizedMass inv f m0 = Ok m ->
  In a (bodies f) -> fl_active f a = true -> (exists k, (k < 6)%nat /\ Cq_a k <> fl_fb f a k) ->
  exists Eq_a Eq_b g, Update_auxiliary f m a None Cq_a Cq_b cfm = Ok (Eq_a, Eq_b, g) /\
  forall acc : nat -> vec6, (forall i c, In i (bodies f) -> (c < 6)%nat -> momentum f A acc i c = (if Nat.eqb i a then Cq_a c else 0)) ->
  (forall c, (c < 6)%nat -> Eq_a c = acc a c) /\ g = sum6 (fun c => Cq_a c * acc a c) + cfm.
Proof. exact grounded. Qed.
Example C244_inhabited : exists Eq_a Eq_b g, Update_auxiliary pair0 m0 0 (Some 1%nat) (fun k => 2 * e0 k) (fun k => - (2 * e0 k)) 0 = Ok (Eq_a, Eq_b, g) /\
  exists acc, forall i c, In i (bodies pair0) -> (c < 6)%nat -> momentum pair0 A0 acc i c = (if Nat.eqb i 0 then 2 * e0 c else if Nat.eqb i 1 then - (2 * e0 c) else 0).
Proof. exact demo_constraint. Qed.
(** C245: when the jacobian is equal to the forces loaded into the body, the coupling is counted twice *)
Theorem C245_equal_forces_refuted : ~ (forall inv f A m0 m a b Cq_a Cq_b cfm Eq_a Eq_b g, inverts inv -> has_added_mass f A -> BuildGeneralizedMass inv f m0 = Ok m ->
  In a (bodies f) -> In b (bodies f) -> a <> b -> all_active f -> Update_auxiliary f m a (Some b) Cq_a Cq_b cfm = Ok (Eq_a, Eq_b, g) ->
  forall acc : nat -> vec6, (forall i c, In i (bodies f) -> (c < 6)%nat -> momentum f A acc i c = (if Nat.eqb i a then Cq_a c else if Nat.eqb i b then Cq_b c else 0)) ->
  Eq_a 0%nat = acc a 0%nat).
Proof.
  intro H. destruct taut_pair as (Ea & Eb & g & U & E4 & _).
  specialize (H inv0 pair0 A0 no_blocks m0 0%nat 1%nat _ _ 0 Ea Eb g (proj1 pair0_built) pair0_mass (proj2 pair0_built) (or_introl eq_refl) (or_intror (or_introl eq_refl)) ltac:(lia) pair0_active U).
  specialize (H (fun i c => (if Nat.eqb i 0 then 2 else -2) * e0 c) taut_acc). rewrite E4 in H. cbn [Nat.eqb e0] in H. lra.
Qed.
(** An impulse of the constraint does not move the other bodies coupled to those it joins: their momentum jumps without a force *)
Theorem C245_third_body_refuted : ~ (forall inv f A m0 m a Cq_a Cq_b Eq_a Eq_b g impulse, inverts inv -> has_added_mass f A -> BuildGeneralizedMass inv f m0 = Ok m ->
  In a (bodies f) -> all_active f -> (exists k, (k < 6)%nat /\ Cq_a k <> fl_fb f a k) -> Update_auxiliary f m a None Cq_a Cq_b 0 = Ok (Eq_a, Eq_b, g) ->
  forall i c, In i (bodies f) -> i <> a -> (c < 6)%nat -> momentum f A (fl_qb (Increment_q f a None Eq_a Eq_b impulse)) i c = momentum f A (fl_qb f) i c).
Proof.
  intro H. destruct held as (Ea & Eb & g & U & N). apply N.
  apply (H inv0 pair0 A0 no_blocks m0 0%nat (fun k => 2 * e0 k) zero6 Ea Eb g 3 (proj1 pair0_built) pair0_mass (proj2 pair0_built) (or_introl eq_refl) pair0_active); try exact U; try lia.
  - exists 0%nat. split; [lia|]. cbn. lra.
  - right. left. reflexivity.
Qed.
Print Assumptions C232_polar_grid.
Print Assumptions C236_line.
Print Assumptions C244_constraint.
