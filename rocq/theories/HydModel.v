(** Model of the hydrostatic properties, of the linear hydrostatic stiffness matrix and of the
    hydrostatic equilibrium solver (directory hydrodynamics/hydrostatic).  Paths are relative to
    /repo/src/frydom/hydrodynamics/hydrostatic.  [double] is modelled by [R].
    [None] / [Stuck] stand for undefined behaviour or a failed assertion.  No proofs in this file. *)
From Coq Require Import Reals List Arith Bool.
From Verif Require Import GeoModel BodyModel MeshModel.
Import ListNotations.
Open Scope R_scope.

(** ** FrLinearHydrostaticStiffnessMatrix: the 3x3 matrix m_data (heave, roll, pitch) *)
(** SetK33 .. SetK45, .cpp 19-38 *)
Definition SetK33 (d : mat) (k : R) : mat := M k (m01 d) (m02 d) (m10 d) (m11 d) (m12 d) (m20 d) (m21 d) (m22 d).
Definition SetK44 (d : mat) (k : R) : mat := M (m00 d) (m01 d) (m02 d) (m10 d) k (m12 d) (m20 d) (m21 d) (m22 d).
Definition SetK55 (d : mat) (k : R) : mat := M (m00 d) (m01 d) (m02 d) (m10 d) (m11 d) (m12 d) (m20 d) (m21 d) k.
Definition SetK34 (d : mat) (k : R) : mat := M (m00 d) k (m02 d) k (m11 d) (m12 d) (m20 d) (m21 d) (m22 d).
Definition SetK35 (d : mat) (k : R) : mat := M (m00 d) (m01 d) k (m10 d) (m11 d) (m12 d) k (m21 d) (m22 d).
Definition SetK45 (d : mat) (k : R) : mat := M (m00 d) (m01 d) (m02 d) (m10 d) (m11 d) k (m20 d) k (m22 d).
(** GetK33 .. GetK45, .cpp 40-50 *)
Definition GetK33 (d : mat) : R := m00 d.
Definition GetK44 (d : mat) : R := m11 d.
Definition GetK55 (d : mat) : R := m22 d.
Definition GetK34 (d : mat) : R := m01 d.
Definition GetK35 (d : mat) : R := m02 d.
Definition GetK45 (d : mat) : R := m12 d.
(** GetMatrix 52-66 *)
Definition GetMatrix (d : mat) : mat :=
  M (GetK33 d) (GetK34 d) (GetK35 d) (GetK34 d) (GetK44 d) (GetK45 d) (GetK35 d) (GetK45 d) (GetK55 d).
(** SetDiagonal 68-72, SetNonDiagonal 74-78 *)
Definition SetDiagonal (d : mat) (K33 K44 K55 : R) : mat := SetK55 (SetK44 (SetK33 d K33) K44) K55.
Definition SetNonDiagonal (d : mat) (K34 K35 K45 : R) : mat := SetK45 (SetK35 (SetK34 d K34) K35) K45.
(** operator* 94-97 *)
Definition StiffMul (d : mat) (state : vec) : vec := mapply d state.
(** FrLinearHydrostaticForce::SetStiffnessMatrix(MatrixMN), FrLinearHydrostaticForce.cpp 85-95, on a 3x3 matrix *)
Definition SetStiffnessMatrixMN (d h : mat) : mat :=
  SetK45 (SetK35 (SetK34 (SetK55 (SetK44 (SetK33 d (m00 h)) (m11 h)) (m22 h)) (m01 h)) (m02 h)) (m12 h).

(** ** FrHydrostaticsProperties, members FrHydrostaticsProperties.h 82-109 *)
Record hprops := HP {
  h_rho : R; h_g : R; h_mesh : mesh;
  h_volume : R; h_wparea : R; h_wetarea : R;
  h_wpcenter : vec; h_buoyancy : vec; h_cog : vec;
  h_draught : R; h_length : R; h_breadth : R; h_lwl : R;
  h_rt : R; h_rl : R; h_gmt : R; h_gml : R;
  h_K : mat; h_red : vec }.
(** Constructors .cpp 19-28 and 30-42; K0: initial contents of the matrix (mathutils::Matrix33()) *)
Definition HP_make (K0 : mat) (rho g : R) (m : mesh) (cog : vec) (fc : conv) : hprops :=
  HP rho g m 0 0 0 vzero vzero (swap_if fc cog) 0 0 0 0 0 0 0 0 K0 vzero.
Definition HP_make_at (K0 : mat) (rho g : R) (m : mesh) (cog out : vec) (fc : conv) : hprops :=
  HP rho g m 0 0 0 vzero vzero (swap_if fc cog) 0 0 0 0 0 0 0 0 K0 (swap_if fc out).

(** FrPolygon::GetBoundingBox, mesh/FrPolygon.cpp 182-199: xmin and xmax *)
Definition polygon_xrange (p : polygon) : R * R :=
  let l := pg_verts p in
  let x0 := vx (hd vzero l) in
  fold_left (fun b v => (Rmin (fst b) (vx v), Rmax (snd b) (vx v))) l (x0, x0).
(** CalcGeometricProperties .cpp 49-67.  None: no boundary polygon, the vector is indexed out of range. *)
Definition CalcGeometricProperties (u : list vec -> junk) (h : hprops) : option hprops :=
  let bbox := GetBoundingBox (h_mesh h) in
  match GetBoundaryPolygonSet u (h_mesh h) with
  | Some (p0 :: ps, m') =>
    let r := fold_left (fun b p => (Rmin (fst b) (fst (polygon_xrange p)), Rmax (snd b) (snd (polygon_xrange p)))) (p0 :: ps) (polygon_xrange p0) in
    Some (HP (h_rho h) (h_g h) m' (h_volume h) (h_wparea h) (h_wetarea h) (h_wpcenter h) (h_buoyancy h) (h_cog h)
             (Rabs (zmax bbox - zmin bbox)) (xmax bbox - xmin bbox) (ymax bbox - ymin bbox) (snd r - fst r)
             (h_rt h) (h_rl h) (h_gmt h) (h_gml h) (h_K h) (h_red h))
  | _ => None
  end.
(** CalcHydrostaticProperties .cpp 69-139 *)
Definition poly_total (get : pints -> R) (ps : list polygon) : R := fold_left (fun a p => a + get (pg_ints p)) ps 0.
Definition CalcHydrostaticProperties (u : list vec -> junk) (h : hprops) : option hprops :=
  match GetVolume u (h_mesh h) with
  | None => None
  | Some (volume, m1) =>
    match GetCOG u m1 with
    | None => None
    | Some (buoyancy, m2) =>
      match GetArea u m2 with
      | None => None
      | Some (area, m3) =>
        match GetBoundaryPolygonSet u m3 with
        | None => None
        | Some (ps, m4) =>
          let rg := h_rho h * h_g h in
          let Poly1 := poly_total j1 ps in let PolyX := poly_total jx ps in let PolyY := poly_total jy ps in
          let PolyXY := poly_total jxy ps in let PolyX2 := poly_total jx2 ps in let PolyY2 := poly_total jy2 ps in
          let wet := fold_left (fun a p => a - Pg_GetArea p) ps area in
          let K33 := rg * Poly1 in
          let K34 := rg * PolyY in
          let K35 := - rg * PolyX in
          let K45 := - rg * PolyXY in
          let center := V (- K35 / K33) (K34 / K33) (zmax (GetBoundingBox (h_mesh h))) in
          let rx := vx (h_red h) in let ry := vy (h_red h) in
          let K34 := K34 + rg * (- ry * Poly1) in
          let K35 := K35 + - rg * (- rx * Poly1) in
          let K45 := K45 + - rg * (- ry * PolyX - rx * PolyY + rx * ry * Poly1) in
          let rt := h_rt h + (PolyY2 - 2 * ry * PolyY + ry * ry * Poly1) / volume in
          let rl := h_rl h + (PolyX2 - 2 * rx * PolyX + rx * rx * Poly1) / volume in
          let zb_zg := vz buoyancy - vz (h_cog h) in
          let gmt := rt + zb_zg in
          let gml := rl + zb_zg in
          let rgV := rg * volume in
          let K44 := rgV * gmt in
          let K55 := rgV * gml in
          Some (HP (h_rho h) (h_g h) m4 volume (h_wparea h + Poly1) wet center buoyancy (h_cog h)
                   (h_draught h) (h_length h) (h_breadth h) (h_lwl h) rt rl gmt gml
                   (SetNonDiagonal (SetDiagonal (h_K h) K33 K44 K55) K34 K35 K45) (h_red h))
        end
      end
    end
  end.
(** ComputeProperties .cpp 44-47 *)
Definition ComputeProperties (u : list vec -> junk) (h : hprops) : option hprops :=
  match CalcGeometricProperties u h with Some h' => CalcHydrostaticProperties u h' | None => None end.
Fixpoint ComputeTimes (n : nat) (u : list vec -> junk) (h : hprops) : option hprops :=
  match n with O => Some h | S n' => match ComputeProperties u h with Some h' => ComputeTimes n' u h' | None => None end end.

(** ** FrHydroStaticEquilibrium *)
(** Members FrHydroStaticEquilibrium.h 132-145.  The hydro mesh is represented by the function that
    gives the mesh clipped by the plane surface for a position of the body (FrHydroMesh::Update). *)
Record equil := EQ { e_body : body; e_mass : R; e_cog : vec; e_relax : vec; e_iter : nat; e_max : nat; e_tol : R }.
(** Constructors .cpp 23-37 and 40-57 *)
Definition EQ_make (b : body) (mass : R) : equil :=
  EQ b mass (BodyModel.GetCOG b NWU) (V (1/10) (2 * DEG2RAD) (2 * DEG2RAD)) 0 100 (1/100).
Definition EQ_make_at (b : body) (mass : R) (cog : vec) (fc : conv) : equil :=
  EQ b mass (swap_if fc cog) (V (1/10) (2 * DEG2RAD) (2 * DEG2RAD)) 0 100 (1/100).
(** SetMaxIterations 65, SetRelativeTolerance 73, SetRelaxation 90 *)
Definition EQ_SetMaxIterations (e : equil) (n : nat) : equil := EQ (e_body e) (e_mass e) (e_cog e) (e_relax e) (e_iter e) n (e_tol e).
Definition EQ_SetRelativeTolerance (e : equil) (t : R) : equil := EQ (e_body e) (e_mass e) (e_cog e) (e_relax e) (e_iter e) (e_max e) t.
Definition EQ_SetRelaxation (e : equil) (r : vec) : equil := EQ (e_body e) (e_mass e) (e_cog e) r (e_iter e) (e_max e) (e_tol e).
Definition with_body (e : equil) (b : body) : equil := EQ b (e_mass e) (e_cog e) (e_relax e) (e_iter e) (e_max e) (e_tol e).
Definition next_iter (e : equil) : equil := EQ (e_body e) (e_mass e) (e_cog e) (e_relax e) (S (e_iter e)) (e_max e) (e_tol e).
Inductive result := Ret (convergence : bool) (e : equil) | Stuck | OutOfFuel.
(** std::copysign(r, x) for r >= 0 and x <> 0 *)
Definition copysign (r x : R) : R := if Rlt_dec x 0 then - Rabs r else Rabs r.
Definition clamp (relax x : R) : R := if Rlt_dec relax (Rabs x) then copysign relax x else x.
(** Loop of SolveDisplacement 109-166.  K33 = 0 makes the quotient infinite, which the test of the
    relaxation replaces by the relaxation with the sign of the residual. *)
Fixpoint disp_loop (fuel : nat) (rho g : R) (u : list vec -> junk) (clip : frame -> mesh) (solution : R) (e : equil) : result :=
  match fuel with
  | O => OutOfFuel
  | S fuel' =>
    let mg := e_mass e * g in
    let e := with_body e (BTranslateInWorld (e_body e) (V 0 0 solution) NWU) in
    let clipped := clip (GetFrame (e_body e)) in
    match GetVolume u clipped with
    | None => Stuck
    | Some (volume, m1) =>
      if Rle_dec volume (1 / 10 ^ 6) then Ret false e
      else
        let residual := rho * g * volume - mg in
        if Nat.ltb (e_max e) (e_iter e) then Ret false e
        else if Rlt_dec (Rabs (residual / mg)) (e_tol e) then Ret true e
        else
          match GetBoundaryPolygonSet u m1 with
          | None => Stuck
          | Some (ps, _) =>
            let K33 := fold_left (fun a p => a + rho * g * j1 (pg_ints p)) ps 0 in
            let solution := if Req_EM_T K33 0 then copysign (vx (e_relax e)) residual else clamp (vx (e_relax e)) (residual / K33) in
            disp_loop fuel' rho g u clip solution (next_iter e)
          end
    end
  end.
(** SolveDisplacement 99-169; [garbage]: contents of the local variable solution, never initialised *)
Definition SolveDisplacement (fuel : nat) (rho g : R) (u : list vec -> junk) (clip : frame -> mesh) (garbage : R) (e : equil) : result :=
  disp_loop fuel rho g u clip garbage e.
(** Loop of SolveEquilibrium 186-265; [lu]: Matrix33::LUSolver of mathutils *)
Fixpoint equil_loop (fuel : nat) (rho g : R) (u : list vec -> junk) (clip : frame -> mesh) (lu : mat -> vec -> vec) (solution : vec) (e : equil) : result :=
  match fuel with
  | O => OutOfFuel
  | S fuel' =>
    let mg := e_mass e * g in
    let b := BTranslateInWorld (e_body e) (V 0 0 (vx solution)) NWU in
    let e := with_body e (BRotate b (Rot_SetCardan_RADIANS (vy solution) (vz solution) 0 NWU)) in
    let COGPosInWorld := GetPointPositionInWorld (e_body e) (e_cog e) NWU in
    let clipped := clip (GetFrame (e_body e)) in
    match GetVolume u clipped with
    | None => Stuck
    | Some (volume, m1) =>
      if Rle_dec volume (1 / 10 ^ 6) then Ret false e
      else
        match ComputeProperties u (HP_make (M 0 0 0 0 0 0 0 0 0) rho g m1 COGPosInWorld NWU) with
        | None => Stuck
        | Some hsp =>
          let rhog_v := rho * g * volume in
          let residual := V (rhog_v - mg) (rhog_v * vy (h_buoyancy hsp) - mg * vy COGPosInWorld)
                            (- rhog_v * vx (h_buoyancy hsp) + mg * vx COGPosInWorld) in
          let scale := V mg (mg * h_breadth hsp) (mg * h_length hsp) in
          let s := lu (GetMatrix (h_K hsp)) residual in
          let next := equil_loop fuel' rho g u clip lu (V (clamp (vx (e_relax e)) (vx s)) (clamp (vy (e_relax e)) (vy s)) (clamp (vz (e_relax e)) (vz s))) (next_iter e) in
          if Nat.ltb (e_max e) (e_iter e) then Ret false e
          else if Rlt_dec (Rabs (vx residual / vx scale)) (e_tol e) then
            if Rlt_dec (Rabs (vy residual / vy scale)) (e_tol e) then
              if Rlt_dec (Rabs (vz residual / vz scale)) (e_tol e) then Ret true e else next
            else next
          else next
        end
    end
  end.
(** SolveEquilibrium 172-268: the result of SolveDisplacement is ignored *)
Definition SolveEquilibrium (fuel : nat) (rho g : R) (u : list vec -> junk) (clip : frame -> mesh) (lu : mat -> vec -> vec) (garbage : R) (e : equil) : result :=
  match SolveDisplacement fuel rho g u clip garbage e with
  | Ret _ e' => equil_loop fuel rho g u clip lu vzero e'
  | r => r
  end.
(** GetHydrostaticMatrix 297-316 *)
Definition EQ_GetHydrostaticMatrixAt (rho g : R) (u : list vec -> junk) (clip : frame -> mesh) (e : equil) (reductionPoint : vec) (fc : conv) : option mat :=
  let COGPosInWorld := GetPointPositionInWorld (e_body e) (e_cog e) NWU in
  match ComputeProperties u (HP_make_at (M 0 0 0 0 0 0 0 0 0) rho g (clip (GetFrame (e_body e))) COGPosInWorld reductionPoint fc) with
  | Some hsp => Some (h_K hsp)
  | None => None
  end.
Definition EQ_GetHydrostaticMatrix (rho g : R) (u : list vec -> junk) (clip : frame -> mesh) (e : equil) : option mat :=
  EQ_GetHydrostaticMatrixAt rho g u clip e (GetPointPositionInWorld (e_body e) (e_cog e) NWU) NWU.
