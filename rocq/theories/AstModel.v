(** Model of the visual assets: grids (asset/FrGridAsset.{h,cpp}, FrFreeSurfaceGridAsset.cpp, FrSeabedGridAsset.cpp,
    mesh/FrTriangleMeshConnected.cpp), catenary lines (asset/FrCatenaryLineAsset.{h,cpp}), the list of assets of an object
    (asset/FrAssetOwner.cpp), of the incremental mesh writer (mesh/FrIncrementalMeshWriter.{h,cpp}) and of the loader of polar
    flow coefficients (IO/FrLoader.cpp).
    Paths are relative to /repo/src/frydom; [double] is modelled by [R], int by [Z] or [nat] without overflow.
    Contracts: mathutils::linspace (SeaModel); std::to_string is the decimal writing; ChAssets are kept in the order of AddAsset;
    nlohmann::json: get of a missing or mistyped field throws type_error, which is not a parse_error.
    Asserts are compiled out; console output is omitted.  No proofs in this file, but for a decidable equality. *)
From Coq Require Import Reals List ZArith Bool String DecimalString.
From Verif Require Import GeoModel SeaModel.
Import ListNotations.
Open Scope R_scope.

(** int(x) *)
Definition truncation (x : R) : Z := if Rle_dec 0 x then Int_part x else Z.opp (Int_part (- x)).
(** FrTriangleMeshConnected: m_vertices, m_face_v_indices; the meshes are made from empty ones with addVertex and addTriangle *)
Record trimesh := Mesh { t_vertices : list vec; t_faces : list (nat * nat * nat) }.
(** x, x + dx, (x + dx) + dx, ...: the values taken by the accumulators xi, yi *)
Fixpoint ticks (x dx : R) (n : nat) : list R := match n with O => [] | S m => x :: ticks (x + dx) dx m end.
(** The inner loop 98-121 from ix on: i0 = iy * nvx + ix *)
Fixpoint quad_row (nvx i0 n : nat) (reverse : bool) : list (nat * nat * nat) :=
  match n with
  | O => []
  | S m =>
    let i1 := (i0 + 1)%nat in let i2 := (i1 + nvx)%nat in let i3 := (i2 - 1)%nat in
    (if reverse then [(i0, i1, i2); (i0, i2, i3)] else [(i0, i1, i3); (i1, i2, i3)]) ++ quad_row nvx (i0 + 1)%nat m (negb reverse)
  end.
(** BuildRectangularMeshGrid FrGridAsset.cpp 71-127 *)
Definition BuildRectangularMeshGrid (xmin xmax dx ymin ymax dy height : R) : trimesh :=
  let nvx := Z.to_nat (truncation ((xmax - xmin) / dx) + 1) in
  let nvy := Z.to_nat (truncation ((ymax - ymin) / dy) + 1) in
  Mesh (flat_map (fun y => map (fun x => V x y height) (ticks xmin dx nvx)) (ticks ymin dy nvy))
       (flat_map (fun iy => quad_row nvx (iy * nvx) (nvx - 1) false) (seq 0 (nvy - 1))).
(** BuildPolarMeshGrid 129-191; [Undef]: distances[idist] or angles[iangle] out of range cannot happen, both have the sizes of the loops *)
Definition BuildPolarMeshGrid (xc0 yc0 diameter : R) (nbR nbTheta : nat) (height : R) : trimesh :=
  let angles := linspace 0 (2 * PI) nbTheta in
  let radius := diameter * (1/2) in
  let distances := linspace 0 radius nbR in
  Mesh (map (fun d => V (xc0 + d) yc0 height) distances ++
        flat_map (fun iangle => let angle := nth iangle angles 0 in
          map (fun idist => let d := nth idist distances 0 in V (xc0 + d * cos angle) (yc0 + d * sin angle) 0) (seq 1 (nbR - 1)))
        (seq 1 (nbTheta - 1)))
       (flat_map (fun iangle =>
          (0%nat, ((iangle - 1) * (nbR - 1) + 1)%nat, (iangle * (nbR - 1) + 1)%nat) ::
          flat_map (fun idist =>
            let i0 := (iangle * (nbR - 1) + idist - 1)%nat in let i1 := ((iangle - 1) * (nbR - 1) + idist - 1)%nat in
            let i2 := ((iangle - 1) * (nbR - 1) + idist)%nat in let i3 := (iangle * (nbR - 1) + idist)%nat in
            [(i0, i1, i3); (i3, i1, i2)]) (seq 2 (nbR - 2)))
        (seq 1 (nbTheta - 1))).

(** ** Free surface grid: m_gridType with its data, m_updateStep, c_currentStep, m_gridHeight, and the mesh of the drawn asset *)
Inductive grid_type := NOGRID | CARTESIAN (xmin xmax dx ymin ymax dy : R) | POLAR (xc0 yc0 diameter : R) (nbR nbTheta : nat).
Record sgrid := SGrid { sg_type : grid_type; sg_update : Z; sg_current : Z; sg_height : R; sg_mesh : option trimesh }.
(** FrGridAsset::SetGridType(NOGRID), SetNoGrid 30-33, 228; SetGrid 35-61; UpdateAssetON 63-67, UpdateAssetOFF 69, SetUpdateStep 234 *)
Definition SetNoGrid (g : sgrid) : sgrid := SGrid NOGRID 0 (sg_current g) (sg_height g) (sg_mesh g).
Definition SetGrid (g : sgrid) (t : grid_type) : sgrid := SGrid t (sg_update g) (sg_current g) (sg_height g) (sg_mesh g).
Definition SetUpdateStep (g : sgrid) (n : Z) : sgrid := SGrid (sg_type g) n (sg_current g) (sg_height g) (sg_mesh g).
Definition UpdateAssetON (g : sgrid) : sgrid := if Z.eqb (sg_update g) 0 then SetUpdateStep g 1 else g.
Definition UpdateAssetOFF (g : sgrid) : sgrid := SetUpdateStep g 0.
(** Member initialisers FrGridAsset.h 50-69 and FrFreeSurfaceGridAsset.cpp 22-26 *)
Definition new_sgrid (tide : R) : sgrid := SGrid (CARTESIAN (-50) 50 1 (-50) 50 1) 0 0 tide None.
(** Initialize 193-218 (one mesh) *)
Definition sg_initialize (g : sgrid) : sgrid :=
  match sg_type g with
  | NOGRID => g
  | CARTESIAN a b c d e f => SGrid (sg_type g) (sg_update g) (sg_current g) (sg_height g) (Some (BuildRectangularMeshGrid a b c d e f (sg_height g)))
  | POLAR x y d r t => SGrid (sg_type g) (sg_update g) (sg_current g) (sg_height g) (Some (BuildPolarMeshGrid x y d r t (sg_height g)))
  end.
(** FrFreeSurfaceGridAsset::StepFinalize 28-38, with the position [eta] of the free surface; fmod(c, 0) is not a number.
    Undef: there is no mesh *)
Definition sg_StepFinalize (eta : R -> R -> R) (g : sgrid) : res sgrid :=
  let c := (sg_current g + 1)%Z in
  if andb (negb (Z.eqb (sg_update g) 0)) (Z.eqb (Z.rem c (sg_update g)) 0) then
    m <<- of_option (sg_mesh g);
    Ok (SGrid (sg_type g) (sg_update g) c (sg_height g)
              (Some (Mesh (map (fun v => V (vx v) (vy v) (eta (vx v) (vy v))) (t_vertices m)) (t_faces m))))
  else Ok (SGrid (sg_type g) (sg_update g) c (sg_height g) (sg_mesh g)).
Fixpoint sg_run (l : list (R -> R -> R)) (g : sgrid) : res sgrid :=
  match l with [] => Ok g | eta :: t => g <<- sg_StepFinalize eta g; sg_run t g end.
(** FrSeabedGridAsset: GetGridHeight is the bathymetry in NWU (FrSeabedGridAsset.cpp 25); one mesh at Initialize *)
Definition seabed_mesh (t : grid_type) (bathymetry : R) : option trimesh :=
  match t with
  | NOGRID => None
  | CARTESIAN a b c d e f => Some (BuildRectangularMeshGrid a b c d e f bathymetry)
  | POLAR x y d r n => Some (BuildPolarMeshGrid x y d r n bathymetry)
  end.

(** ** Catenary line asset.  The line: unstrained length, position and norm of the tension along it (FrCatenaryLine) *)
Record cline := CLine { cl_length : R; cl_pos : R -> vec; cl_tension : R -> R }.
(** A drawn segment: (s0, s1) of m_elements, the ends, and the arguments of ChColor::ComputeFalseColor (value, maximum) *)
Record segment := Seg { g_s0 : R; g_s1 : R; g_pA : vec; g_pB : vec; g_value : R; g_max : R }.
(** The largest of GetTension at 0 and at i ds, i = 1 .. n-1: FrCatenaryLineAsset.cpp 27-32 and 161-166 *)
Definition sampled_max (c : cline) (n : nat) : R :=
  let ds := cl_length c / INR n in
  fold_left (fun m i => let t := cl_tension c (INR i * ds) in if Rlt_dec m t then t else m) (seq 1 (n - 1)) (cl_tension c 0).
(** FrCatenaryAssetOwner::InitMaxTension 24-36, FrCatenaryLineAsset::InitRangeTensionColor 156-170 *)
Definition InitMaxTension (c : cline) (n : nat) (user : R) : R := if Req_EM_T user 0 then 1.25 * sampled_max c n else user.
Definition InitRangeTensionColor (c : cline) (n : nat) (max : R) : R := if Rlt_dec 0 max then max else 1.25 * sampled_max c n.
Definition a_segment (c : cline) (max s0 s1 : R) (p0 p1 : vec) : segment := Seg s0 s1 p0 p1 (cl_tension c ((1/2) * (s0 + s1))) max.
(** The while loop 91-108; returns the segments, and s0, p0 at its end *)
Fixpoint line_loop (fuel : nat) (c : cline) (max ds s0 s1 : R) (p0 : vec) : res (list segment * R * vec) :=
  if Rle_dec s1 (cl_length c - ds) then
    match fuel with
    | O => Running
    | S fuel => let p1 := cl_pos c s1 in
                r <<- line_loop fuel c max ds s1 (s1 + ds) p1;
                Ok (a_segment c max s0 s1 p0 p1 :: fst (fst r), snd (fst r), snd r)
    end
  else Ok ([], s0, p0).
(** FrCatenaryLineAsset::Initialize 74-125; Undef: m_elements.back() of an empty vector *)
Definition line_Initialize (fuel : nat) (c : cline) (n : nat) (maxTension : R) : res (list segment) :=
  let max := InitRangeTensionColor c n maxTension in
  let ds := cl_length c / INR n in
  r <<- line_loop fuel c max ds 0 ds (cl_pos c 0);
  let '(l, s0, p0) := r in
  last_ele <<- vat (rev l) 0;
  let s1 := cl_length c in
  if Rlt_dec (g_s1 last_ele) (cl_length c) then Ok (l ++ [a_segment c max s0 s1 p0 (cl_pos c s1)]) else Ok l.
(** FrCatenaryAssetOwner::Initialize 54-68: the maximum tension, and the segments if the asset is shown *)
Definition owner_Initialize (fuel : nat) (c : cline) (n : nat) (user : R) (shown : bool) : res (R * list segment) :=
  let max := InitMaxTension c n user in
  if shown then l <<- line_Initialize fuel c n max; Ok (max, l) else Ok (max, []).
(** FrCatenaryLineAsset::StepFinalize 127-154 *)
Fixpoint line_step (c : cline) (p0 : vec) (l : list segment) : list segment :=
  match l with [] => [] | g :: t => let p1 := cl_pos c (g_s1 g) in a_segment c (g_max g) (g_s0 g) (g_s1 g) p0 p1 :: line_step c p1 t end.
Definition line_StepFinalize (c : cline) (l : list segment) : list segment := line_step c (cl_pos c 0) l.

(** ** FrAssetOwner: the shapes, m_assets, and the assets of the Chrono item.  Objects are named by their address *)
Inductive drawn := DBox (a : nat) | DCylinder (a : nat) | DSphere (a : nat) | DMesh (a : nat) | DAsset (a : nat) | DColor (a : nat).
Record owner := Owner { o_boxes : list nat; o_cylinders : list nat; o_spheres : list nat; o_meshes : list nat; o_assets : list nat; o_chrono : list drawn }.
Definition new_owner : owner := Owner [] [] [] [] [] [].
Definition drawn_dec : forall x y : drawn, {x = y} + {x <> y}. Proof. decide equality; apply Nat.eq_dec. Defined.
(** erase(find(x)); None: erase(end()) *)
Fixpoint erase_first {A} (dec : forall x y : A, {x = y} + {x <> y}) (x : A) (l : list A) : option (list A) :=
  match l with [] => None | y :: t => if dec x y then Some t else option_map (cons y) (erase_first dec x t) end.
Inductive asset_op := AddBox (a : nat) | AddCylinder (a : nat) | AddSphere (a : nat) | AddMesh (a : nat) | AddAsset (a : nat)
                    | RemoveAsset (a : nat) | RemoveAssets | SetColor (a : nat).
(** FrAssetOwner.cpp 36-96, 130-138 *)
Definition asset_do (o : asset_op) (w : owner) : res owner :=
  let '(Owner b c s m a d) := w in
  match o with
  | AddBox x => Ok (Owner (b ++ [x]) c s m a (d ++ [DBox x]))
  | AddCylinder x => Ok (Owner b (c ++ [x]) s m a (d ++ [DCylinder x]))
  | AddSphere x => Ok (Owner b c (s ++ [x]) m a (d ++ [DSphere x]))
  | AddMesh x => Ok (Owner b c s (m ++ [x]) a (d ++ [DMesh x]))
  | AddAsset x => Ok (Owner b c s m (a ++ [x]) (d ++ [DAsset x]))
  | RemoveAsset x => a' <<- of_option (erase_first Nat.eq_dec x a); d' <<- of_option (erase_first drawn_dec (DAsset x) d); Ok (Owner b c s m a' d')
  | RemoveAssets => Ok (Owner b c s m [] [])
  | SetColor x => Ok (Owner b c s m a (d ++ [DColor x]))
  end.
Fixpoint asset_run (l : list asset_op) (w : owner) : res owner := match l with [] => Ok w | o :: t => w <<- asset_do o w; asset_run t w end.

(** ** FrIncrementalMeshWriter: m_meshFileBase, m_extension, m_counter; the files by name, the last written first *)
Record mwriter (M : Type) := MWriter { mw_base : string; mw_ext : string; mw_counter : Z; mw_files : list (string * M) }.
Arguments MWriter {M}. Arguments mw_base {M}. Arguments mw_ext {M}. Arguments mw_counter {M}. Arguments mw_files {M}.
(** std::to_string *)
Definition to_string (z : Z) : string := NilZero.string_of_int (Z.to_int z).
(** GetFilename 45-47 *)
Definition GetFilename {M} (w : mwriter M) : string := (mw_base w ++ to_string (mw_counter w) ++ mw_ext w)%string.
Inductive mw_op (M : Type) := MWrite (m : M) | MSetFileBase (b : string) | MSetFileType (e : string) | MReinit (i : Z).
Arguments MWrite {M}. Arguments MSetFileBase {M}. Arguments MSetFileType {M}. Arguments MReinit {M}.
(** FrIncrementalMeshWriter.cpp 20-43; defaults FrIncrementalMeshWriter.h 29-31 *)
Definition mw_do {M} (o : mw_op M) (w : mwriter M) : mwriter M :=
  match o with
  | MWrite m => MWriter (mw_base w) (mw_ext w) (mw_counter w + 1) ((GetFilename w, m) :: mw_files w)
  | MSetFileBase b => MWriter b (mw_ext w) (mw_counter w) (mw_files w)
  | MSetFileType e => MWriter (mw_base w) e (mw_counter w) (mw_files w)
  | MReinit i => MWriter (mw_base w) (mw_ext w) i (mw_files w)
  end.
Definition mw_run {M} (l : list (mw_op M)) (w : mwriter M) : mwriter M := fold_left (fun w o => mw_do o w) l w.
Definition new_mwriter (M : Type) : mwriter M := MWriter "output" ".obj" 0 [].
(** The content of a file: its last writing *)
Fixpoint content {M} (files : list (string * M)) (name : string) : option M :=
  match files with [] => None | (n, m) :: t => if string_dec name n then Some m else content t name end.

(** ** LoadFlowPolarCoeffFromJson IO/FrLoader.cpp 124-154: the fields that are arrays of numbers *)
Inductive jvalue := JNumber (x : R) | JNumbers (l : list R) | JOther.
Definition jnode := string -> option jvalue.
(** node[name].get<std::vector<double>>(), in a try block that only catches parse_error *)
Definition get_numbers (j : jnode) (name : string) : res (list R) := match j name with Some (JNumbers l) => Ok l | _ => Throws end.
Definition get_number (j : jnode) (name : string) : res R := match j name with Some (JNumber x) => Ok x | _ => Throws end.
(** 66-120, 149-153 after the unit and the conventions; cx[i], cy[i], cn[i] out of range: Undef.  The areas, the length and the table *)
Definition LoadPolar (j : jnode) : res (R * R * R * list (R * vec)) :=
  frontal <<- get_number j "frontal_area"%string; lateral <<- get_number j "lateral_area"%string; len <<- get_number j "length"%string;
  angle <<- get_numbers j "angles"%string; cx <<- get_numbers j "cx"%string; cy <<- get_numbers j "cy"%string; cn <<- get_numbers j "cn"%string;
  rows <<- rcollect (fun i => a <<- vat angle i; x <<- vat cx i; y <<- vat cy i; n <<- vat cn i; Ok (a, V x y n)) 0 (List.length angle);
  Ok (frontal, lateral, len, rows).
