(** Model of the linear wave loads of a hydrodynamic database: FrLinearHDBForce (hydrodynamics/seakeeping/linear/
    excitation/FrLinearHDBForce.cpp) with its three kinds of loads, the excitation tables of FrBEMBody
    (hdb/FrBEMBody.cpp), FrHydroDB::GetWaveDirections and ExcitationReader (hdb/FrHydroDB.cpp), the wave drift force
    (second_order_drift/FrWaveDriftForce.cpp) and the nonlinear Froude-Krylov force
    (excitation/FrNonLinearFroudeKrylovForce.cpp).  Paths are relative to
    /repo/src/frydom/hydrodynamics/seakeeping/linear.  double is modelled by the reals, std::complex<double> by
    Coquelicot's C.  mathutils::Interp1dLinear and LookupTable2d are not in the repository; contracts: linear
    (bilinear) interpolation between the coordinates around the argument, an assertion or exception outside
    them (Fails).  An index out of range of a vector or of an Eigen matrix is Undef.  Sums are written in one order
    of addition.  The HDF5 reader itself and logging are not modelled.  No proofs in this file. *)
From Coq Require Import Reals List Bool ZArith.
From Coquelicot Require Import Complex.
From Verif Require Import GeoModel BodyModel MeshModel EqfModel SeaModel WavModel FloModel RadModel.
Import ListNotations.
Open Scope R_scope.

(** ** Eigen::MatrixXcd *)
Record cmat := CM { cm_rows : nat; cm_cols : nat; cm_at : nat -> nat -> C }.
Definition cget (m : cmat) (i j : nat) : res C := if (Nat.ltb i (cm_rows m) && Nat.ltb j (cm_cols m))%bool then Ok (cm_at m i j) else Undef.
(** operator+; Fails: the assertion on the sizes *)
Definition cadd (a b : cmat) : res cmat :=
  if (Nat.eqb (cm_rows a) (cm_rows b) && Nat.eqb (cm_cols a) (cm_cols b))%bool
  then Ok (CM (cm_rows a) (cm_cols a) (fun i j => (cm_at a i j + cm_at b i j)%C)) else Fails.
(** v[i] = a *)
Fixpoint lset {A : Type} (l : list A) (i : nat) (a : A) : res (list A) :=
  match l, i with
  | [], _ => Undef
  | _ :: t, O => Ok (a :: t)
  | b :: t, S j => r <<- lset t j a; Ok (b :: r)
  end.
(** for (auto a : l) sum += f(a) *)
Fixpoint rtotal {A : Type} (l : list A) (f : A -> res R) : res R :=
  match l with [] => Ok 0 | a :: t => x <<- f a; y <<- rtotal t f; Ok (x + y) end.

(** ** The database (hdb/FrHydroDB.cpp): discretisations of the wave directions (in degrees) and of the frequencies *)
Record xdb := XDB { x_dirs : disc; x_freqs : disc }.
Definition NbDir (d : xdb) : nat := d_n (x_dirs d).
Definition NbFreq (d : xdb) : nat := d_n (x_freqs d).
Definition GetFrequencies (d : xdb) : list R := GetVector (x_freqs d).
(** FrHydroDB::GetWaveDirections 68-81 *)
Definition HGetWaveDirections (d : xdb) (unit : aunit) (fc : conv) : list R :=
  let l := GetVector (x_dirs d) in
  let l := match unit with RAD => map (fun a => a * DEG2RAD) l | DEG => l end in
  match fc with NED => map Ropp l | NWU => l end.

(** ** FrBEMMode (hdb/FrBEMBody.h 28-70) and the excitation data of FrBEMBody *)
Inductive mtype := LINEAR | ANGULAR.
Record bmode := BMode { bm_type : mtype; bm_dir : vec }.
(** m_forceMask, m_forceModes, m_diffraction, m_froudeKrylov, m_excitation *)
Record xbody := XB { xb_mask : dofmask; xb_modes : list bmode; xb_diff : list cmat; xb_fk : list cmat; xb_exc : list cmat }.
(** GetNbForceMode 182-184 *)
Definition GetNbForceMode (b : xbody) : nat := dm_nb (xb_mask b).
(** Initialize 120-161 (the part on the excitation): tables without initial value ([mem]: what the memory holds);
    Fails: the assertion of line 124 (the motion modes are not modelled) *)
Definition XInitialize (mem : nat -> nat -> nat -> C) (d : xdb) (b : xbody) : res xbody :=
  match xb_modes b with
  | [] => Fails
  | _ => let new := map (fun i => CM (GetNbForceMode b) (NbFreq d) (mem i)) (seq 0 (NbDir d)) in
         Ok (XB (xb_mask b) (xb_modes b) (xb_diff b ++ new) (xb_fk b ++ new) (xb_exc b ++ new))
  end.
(** The assertions of 217-219, 224-226 *)
Definition well_sized (d : xdb) (iangle : nat) (m : cmat) : bool :=
  (Nat.ltb iangle (NbDir d) && Nat.eqb (cm_rows m) 6 && Nat.eqb (cm_cols m) (NbFreq d))%bool.
(** SetDiffraction 216-221 *)
Definition SetDiffraction (d : xdb) (b : xbody) (iangle : nat) (m : cmat) : res xbody :=
  if well_sized d iangle m then l <<- lset (xb_diff b) iangle m; Ok (XB (xb_mask b) (xb_modes b) l (xb_fk b) (xb_exc b)) else Fails.
(** SetFroudeKrylov 223-228 *)
Definition SetFroudeKrylov (d : xdb) (b : xbody) (iangle : nat) (m : cmat) : res xbody :=
  if well_sized d iangle m then l <<- lset (xb_fk b) iangle m; Ok (XB (xb_mask b) (xb_modes b) (xb_diff b) l (xb_exc b)) else Fails.
(** ComputeExcitation 237-244 *)
Fixpoint excite (diff fk exc : list cmat) (iangle n : nat) : res (list cmat) :=
  match n with
  | O => Ok exc
  | S n' => a <<- vat diff iangle; b <<- vat fk iangle; m <<- cadd a b; exc' <<- lset exc iangle m; excite diff fk exc' (S iangle) n'
  end.
Definition ComputeExcitation (d : xdb) (b : xbody) : res xbody :=
  l <<- excite (xb_diff b) (xb_fk b) (xb_exc b) 0 (NbDir d); Ok (XB (xb_mask b) (xb_modes b) (xb_diff b) (xb_fk b) l).
(** The product of the 6 x nb matrix of the mask and a complex table with nb rows (FrHydroDB.cpp 328, 337); Fails: the
    assertion on the sizes *)
Definition mask_cmul (m : dofmask) (data : cmat) : res cmat :=
  if Nat.eqb (cm_rows data) (dm_nb m)
  then Ok (CM 6 (cm_cols data) (fun i f => fold_left Cplus (map (fun j => (RtoC (dm_mat m i j) * cm_at data j f)%C) (seq 0 (dm_nb m))) (RtoC 0)))
  else Fails.
(** ExcitationReader 306-343 on the tables of the file, real and imaginary parts put together (lines 327, 336) *)
Fixpoint read_dirs (d : xdb) (diff fk : nat -> cmat) (b : xbody) (iangle n : nat) : res xbody :=
  match n with
  | O => Ok b
  | S n' => m1 <<- mask_cmul (xb_mask b) (diff iangle); b <<- SetDiffraction d b iangle m1;
            m2 <<- mask_cmul (xb_mask b) (fk iangle); b <<- SetFroudeKrylov d b iangle m2;
            read_dirs d diff fk b (S iangle) n'
  end.
Definition ExcitationReader (d : xdb) (diff fk : nat -> cmat) (b : xbody) : res xbody :=
  b <<- read_dirs d diff fk b 0 (NbDir d); ComputeExcitation d b.
(** GetForceMode 194-197 *)
Definition GetForceMode (b : xbody) (imode : nat) : res bmode := if Nat.ltb imode 6 then vat (xb_modes b) imode else Fails.

(** ** The waves, as the force asks for them: GetWaveFrequencies(RADS), GetWaveDirections(RAD, NWU, GOTO), GetWaveNumbers,
    GetWaveAmplitudes, GetComplexElevation(x, y, NWU), GetPressure(p, NWU) *)
Record waves := Waves { wv_freqs : list R; wv_dirs : list R; wv_ks : list R; wv_amps : list (list R);
                        wv_eta : R -> R -> res (list (list C)) }.
(** FrAiryRegularWaveField (environment/ocean/freeSurface/waves/airy/FrAiryRegularWaveField.cpp 191-214); [ip]: see
    WavModel.GetWaveDirections *)
Definition regular_waves (ip : bool) (w : rwf) : waves :=
  Waves [rw_omega w] [GetWaveDirections ip w RAD NWU GOTO] [rw_k w] [[rw_height w]] (fun x y => Ok [[RComplexElevation w x y NWU]]).
(** FrAiryIrregularWaveField (airy/FrAiryIrregularWaveField.cpp 257-279, .h 161) *)
Definition irregular_waves (ip : bool) (w : iwq) : waves :=
  Waves (iq_freqs w) (map (fun dir => if ip then Normalize_0_2PI dir else dir) (iq_dirs w)) (iq_ks w) (iq_amp w)
        (fun x y => of_option (IComplexElevation w x y NWU)).
(** FrNullWaveField (waves/FrWaveField.cpp 171-191) *)
Definition null_waves : waves := Waves [0] [0] [0] [[0]] (fun x y => Ok [[RtoC 0]]).

(** ** FrLinearHDBForce *)
Record interpC := IC { ic_x : list R; ic_y : list C }.
(** Interp1dLinear<double, std::complex<double>>::Eval *)
Definition EvalC (t : interpC) (x : R) : res C :=
  p <<- locate (ic_x t) x; y0 <<- vat (ic_y t) (fst p); y1 <<- vat (ic_y t) (S (fst p)); Ok (y0 + RtoC (snd p) * (y1 - y0))%C.
(** FrLinearDiffractionForce.cpp 35-38, FrLinearFroudeKrylovForce.cpp 37-40, FrLinearExcitationForce.cpp 37-40 *)
Inductive load := Diffraction | FroudeKrylov | Excitation.
Definition GetHDBData (k : load) (d : xdb) (b : xbody) (iangle : nat) : res cmat :=
  if Nat.ltb iangle (NbDir d) then vat (match k with Diffraction => xb_diff b | FroudeKrylov => xb_fk b | Excitation => xb_exc b end) iangle
  else Fails.
(** m_waveDirInterpolators and m_Fhdb *)
Record hforce := HF { hf_interp : list (list interpC); hf_F : list cmat }.
Definition new_hforce : hforce := HF [] [].
(** BuildHDBInterpolators 102-141 *)
Definition BuildHDBInterpolators (k : load) (d : xdb) (b : xbody) : res (list (list interpC)) :=
  let angles := HGetWaveDirections d RAD NWU in
  rcollect (fun imode =>
    rcollect (fun ifreq =>
      coeffs <<- rcollect (fun iangle => data <<- GetHDBData k d b iangle; cget data imode ifreq) 0 (NbDir d);
      Ok (IC angles coeffs)) 0 (NbFreq d)) 0 (GetNbForceMode b).
(** GetHDBInterp 49-100; one direction: lines 80-97 *)
Definition InterpDir (d : xdb) (b : xbody) (interps : list (list interpC)) (waveFrequencies : list R) (direction : R) : res cmat :=
  rows <<- rcollect (fun imode =>
    freqCoeffs <<- rcollect (fun ifreq => r <<- vat interps imode; t <<- vat r ifreq; EvalC t direction) 0 (NbFreq d);
    rcollect (fun i => w <<- vat waveFrequencies i; EvalC (IC (GetFrequencies d) freqCoeffs) w) 0 (length waveFrequencies))
    0 (GetNbForceMode b);
  Ok (CM (GetNbForceMode b) (length waveFrequencies) (fun i j => nth j (nth i rows []) (RtoC 0))).
Definition GetHDBInterp (d : xdb) (b : xbody) (interps : list (list interpC)) (waveFrequencies waveDirections : list R) : res (list cmat) :=
  rcollect (fun i => dir <<- vat waveDirections i; InterpDir d b interps waveFrequencies (Normalize_0_2PI dir)) 0 (length waveDirections).
(** Initialize 22-47: m_Fhdb is computed only if it is empty *)
Definition HF_Initialize (k : load) (d : xdb) (b : xbody) (w : waves) (f : hforce) : res hforce :=
  interps <<- BuildHDBInterpolators k d b;
  F <<- (match hf_F f with [] => GetHDBInterp d b interps (wv_freqs w) (wv_dirs w) | _ => Ok (hf_F f) end);
  Ok (HF interps F).
(** Lines 169-177: forceMode(imode) *)
Definition ForceMode (w : waves) (eta : list (list C)) (F : list cmat) (imode : nat) : res R :=
  rtotal (seq 0 (length (wv_freqs w))) (fun ifreq =>
    rtotal (seq 0 (length (wv_dirs w))) (fun idir =>
      row <<- vat eta idir; e <<- vat row ifreq; m <<- vat F idir; c <<- cget m imode ifreq; Ok (Im (e * c)%C))).
(** Lines 180-197: the contributions of the modes of one type *)
Definition of_type (k : mtype) (m : bmode) (x : R) : vec :=
  match k, bm_type m with LINEAR, LINEAR | ANGULAR, ANGULAR => vscale x (bm_dir m) | _, _ => V 0 0 0 end.
Fixpoint rvsum {A : Type} (l : list A) (f : A -> res vec) : res vec :=
  match l with [] => Ok (V 0 0 0) | a :: t => x <<- f a; y <<- rvsum t f; Ok (vadd x y) end.
Definition Assemble (b : xbody) (forceMode : nat -> res R) (k : mtype) : res vec :=
  rvsum (seq 0 (GetNbForceMode b)) (fun imode => x <<- forceMode imode; m <<- GetForceMode b imode; Ok (of_type k m x)).
(** Compute_F_HDB 143-206 on the force record [s] of the body [bd], with its equilibrium frame [e] *)
Definition Compute_F_HDB (xb : xbody) (w : waves) (f : hforce) (e : eqf) (bd : body) (s : force) : res force :=
  eta <<- wv_eta w (GeoModel.GetX (ef_frame e) NWU) (GeoModel.GetY (ef_frame e) NWU);
  fo <<- Assemble xb (ForceMode w eta (hf_F f)) LINEAR;
  to <<- Assemble xb (ForceMode w eta (hf_F f)) ANGULAR;
  Ok (SetForceTorqueInWorldAtCOG bd s (ProjectVectorFrameInParent (ef_frame e) fo NWU) (ProjectVectorFrameInParent (ef_frame e) to NWU) NWU).

(** ** FrWaveDriftPolarData (hdb/FrBEMBody.cpp 61-91) and LookupTable2d (contract): the coefficient of direction i and
    frequency j is element i * nbFreq + j of the series.  The six series "surge" ... "yaw" are numbered 0 ... 5 *)
Record polar := Polar { pl_x : list R; pl_y : list R; pl_series : nat -> option (list R) }.
Definition HasSerie (t : polar) (i : nat) : bool := match pl_series t i with Some _ => true | None => false end.
Definition PEval (t : polar) (i : nat) (x y : R) : res R :=
  match pl_series t i with
  | None => Throws
  | Some l =>
    p <<- locate (pl_x t) x; q <<- locate (pl_y t) y;
    let n := length (pl_y t) in
    a <<- vat l (fst p * n + fst q); b <<- vat l (fst p * n + S (fst q));
    c <<- vat l (S (fst p) * n + fst q); e <<- vat l (S (fst p) * n + S (fst q));
    Ok ((1 - snd p) * ((1 - snd q) * a + snd q * b) + snd p * ((1 - snd q) * c + snd q * e))
  end.
(** WaveDriftReader (FrHydroDB.cpp 414-450): SetFrequencies, SetAngles, AddData *)
Definition WaveDriftReader (d : xdb) (freqs : list R) (data : nat -> option (list (list R))) : polar :=
  Polar (HGetWaveDirections d RAD NWU) freqs (fun i => match data i with Some l => Some (concat l) | None => None end).

(** ** FrWaveDriftForce (second_order_drift/FrWaveDriftForce.cpp) *)
(** GetRelativeWaveDir 119-135 *)
Definition GetRelativeWaveDir (w : waves) (e : eqf) : list R :=
  map (fun val => val - a_psi (Rot_GetCardan_RADIANS (frot (ef_frame e)) NWU)) (wv_dirs w).
(** GetEncounterWaveFrequencies 137-171 *)
Definition GetEncounterWaveFrequencies (w : waves) (speed : vec) : res (list (list R)) :=
  rcollect (fun idir => dir <<- vat (wv_dirs w) idir;
    let velocity := vdot speed (V (cos dir) (sin dir) 0) in
    rcollect (fun ifreq => om <<- vat (wv_freqs w) ifreq; k <<- vat (wv_ks w) ifreq; Ok (om - k * velocity)) 0 (length (wv_freqs w)))
    0 (length (wv_dirs w)).
(** Lines 51-109, one of the six blocks *)
Definition DriftMode (t : polar) (i : nat) (amps : list (list R)) (dirs : list R) (freqs : list (list R)) (nbFreq : nat) : res R :=
  if HasSerie t i then
    rtotal (seq 0 (length dirs)) (fun idir =>
      angle <<- vat dirs idir;
      rtotal (seq 0 nbFreq) (fun ifreq =>
        row <<- vat freqs idir; freq <<- vat row ifreq; arow <<- vat amps idir; a <<- vat arow ifreq;
        c <<- PEval t i angle freq; Ok (a ^ 2 * c)))
  else Ok 0.
(** Compute 31-112; Undef: waveFrequencies[0] without direction *)
Definition Drift_Compute (t : polar) (w : waves) (e : eqf) (bd : body) (s : force) : res force :=
  freqs <<- GetEncounterWaveFrequencies w (GetFrameVelocityInWorld e NWU);
  f0 <<- vat freqs 0;
  let mode := fun i => DriftMode t i (wv_amps w) (GetRelativeWaveDir w e) freqs (length f0) in
  x <<- mode 0%nat; y <<- mode 1%nat; z <<- mode 2%nat; r <<- mode 3%nat; p <<- mode 4%nat; q <<- mode 5%nat;
  Ok (SetForceTorqueInBodyAtCOG bd s (V x y z) (V r p q) NWU).

(** ** FrNonLinearFroudeKrylovForce::Compute 34-86 on the clipped mesh: for each face its unit normal, centroid (OpenMesh
    calc_face_centroid: mean of the corners, stored with the integrals by UpdateAllProperties, mesh/FrMesh.cpp 445-458)
    and area (FrMesh.cpp 569-571); [p] is GetPressure(x, y, z, NWU) of the wave field *)
Record facet := Facet { fa_n : vec; fa_c : vec; fa_area : R }.
Definition facet_of (vs : list vec) (t : tri) : facet :=
  let d := face_data vs t in
  Facet (fst d) (vscale (/ 3) (vadd (vadd (corner0 vs t) (corner1 vs t)) (corner2 vs t))) (GetSurfaceIntegral (snd d) POLY_1).
Definition facets (m : mesh) : list facet := map (facet_of (verts m)) (faces m).
Definition FK_force (p : R -> R -> R -> R) (o : vec) (l : list facet) : vec :=
  fold_left (fun f a => let PA := - p (vx (fa_c a) + vx o) (vy (fa_c a) + vy o) (vz (fa_c a) + vz o) * fa_area a in vadd f (vscale PA (fa_n a))) l (V 0 0 0).
Definition FK_torque (p : R -> R -> R -> R) (o : vec) (l : list facet) : vec :=
  fold_left (fun f a => let PA := - p (vx (fa_c a) + vx o) (vy (fa_c a) + vy o) (vz (fa_c a) + vz o) * fa_area a in vadd f (vscale PA (vcross (fa_c a) (fa_n a)))) l (V 0 0 0).
Definition NLFK_Compute (p : R -> R -> R -> R) (l : list facet) (bd : body) (s : force) : force :=
  let bodyPos := BGetPosition bd NWU in
  let o := V (vx bodyPos) (vy bodyPos) 0 in
  SetForceTorqueInWorldAtPointInWorld bd s (FK_force p o l) (FK_torque p o l) o NWU.
