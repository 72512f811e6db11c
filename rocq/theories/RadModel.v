(** Model of the radiation convolution: FrBEMDOFMask and the kernels of FrBEMBody (hydrodynamics/seakeeping/linear/
    hdb/FrBEMBody.cpp), FrDiscretization1D and FrHydroDB (hdb/FrHydroDB.cpp), FrHydroMapper (hdb/FrHydroMapper.cpp),
    FrRadiationConvolutionModel (radiation/FrRadiationModel.cpp) and FrRadiationConvolutionForce
    (radiation/FrRadiationForce.cpp).  Paths are relative to
    /repo/src/frydom/hydrodynamics/seakeeping/linear.  double is modelled by the reals.  Pointers to FrBEMBody and
    FrBody are natural numbers; an unordered_map is a function to option together with, for the map that is
    iterated, the list of its keys in the (unspecified but fixed) iteration order.  A vector of six components is a
    function of the index.  Sums are written in one order of addition: addition of reals is associative.
    mathutils::Interp1dLinear is not in the repository; contract: linear interpolation between the two
    coordinates around x, an assertion fails outside the coordinates.  The HDF5 file format, logging and the
    acceleration terms (GetRadiationInertiaPart) are not modelled.  No proofs in this file. *)
From Coq Require Import Reals List Bool ZArith.
From Verif Require Import GeoModel BodyModel SigModel EqfModel SeaModel FloModel.
Import ListNotations.
Open Scope R_scope.

(** ** Vectors of six components: GeneralizedVelocity, GeneralizedForce (core/math/FrVector.h 362-, 659-) *)
Definition vec6 := nat -> R.
Definition zero6 : vec6 := fun _ => 0.
Definition add6 (a b : vec6) : vec6 := fun k => a k + b k.
Definition scale6 (x : R) (a : vec6) : vec6 := fun k => x * a k.
Definition gen (v w : vec) : vec6 :=
  fun k => match k with 0%nat => vx v | 1%nat => vy v | 2%nat => vz v | 3%nat => vx w | 4%nat => vy w | 5%nat => vz w | _ => 0 end.
Definition GForce (f : vec6) : vec := V (f 0%nat) (f 1%nat) (f 2%nat).
Definition GTorque (f : vec6) : vec := V (f 3%nat) (f 4%nat) (f 5%nat).
(** for (auto a : l) sum += f(a) *)
Fixpoint rsum {A : Type} (l : list A) (f : A -> res vec6) : res vec6 :=
  match l with [] => Ok zero6 | a :: t => x <<- f a; y <<- rsum t f; Ok (add6 x y) end.

(** ** FrBEMDOFMask (hdb/FrBEMBody.cpp 24-55, FrBEMBody.h 77-113) *)
Record dofmask := DM { dm_nb : nat; dm_list : list nat; dm_mask : nat -> bool; dm_mat : nat -> nat -> R }.
(** A new mask: m_nbDOF and m_mask have no initial value ([nb], [mask]: what the memory holds) *)
Definition new_mask (nb : nat) (mask : nat -> bool) : dofmask := DM nb [] mask (fun _ _ => 0).
Definition upd_mat (m : nat -> nat -> R) (i j : nat) (x : R) : nat -> nat -> R :=
  fun i' j' => if (Nat.eqb i' i && Nat.eqb j' j)%bool then x else m i' j'.
(** SetMask 24-47; Fails: the assertion of line 26 *)
Definition SetMask (m : dofmask) (mask : nat -> Z) : res dofmask :=
  if forallb (fun i => (Z.eqb (mask i) 0 || Z.eqb (mask i) 1)%bool) (seq 0 6) then
    let on := fun i => Z.eqb (mask i) 1 in
    let st := fold_left (fun st i => if negb (Z.eqb (mask i) 0) then (upd_mat (fst st) i (snd st) 1, S (snd st)) else st)
                        (seq 0 6) ((fun _ _ => 0), 0%nat) in
    Ok (DM (Z.to_nat (fold_left Z.add (map mask (seq 0 6)) 0%Z))
           (fold_left (fun l i => if on i then l ++ [i] else l) (seq 0 6) (dm_list m))
           (fun i => if (i <? 6)%nat then on i else dm_mask m i)
           (fst st))
  else Fails.
(** Product of the 6 x nb matrix of the mask and an nb x n matrix (FrHydroDB.cpp 328, 337, 368, 381, 403) *)
Definition mask_mul (m : dofmask) (data : nat -> nat -> R) : nat -> nat -> R :=
  fun i f => fold_left Rplus (map (fun j => dm_mat m i j * data j f) (seq 0 (dm_nb m))) 0.

(** ** FrDiscretization1D (hdb/FrHydroDB.cpp 32-42) *)
Record disc := Disc { d_min : R; d_max : R; d_n : nat }.
Definition GetVector (d : disc) : list R := linspace (d_min d) (d_max d) (d_n d).
(** GetStep 40-42; Undef: division by zero (one sample), or m_nx - 1 wraps (none) *)
Definition GetStep (d : disc) : res R := if Nat.leb (d_n d) 1 then Undef else Ok ((d_max d - d_min d) / INR (d_n d - 1)).
(** SetTimeDiscretization 55-59 *)
Definition SetTimeDiscretization (finalTime : R) (n : nat) : disc := Disc 0 finalTime n.

(** ** Interp1dLinear (contract): position of x in the coordinates, as the index of the coordinate before it and the
    fraction of the interval *)
Fixpoint locate_from (i : nat) (a : R) (l : list R) (x : R) : res (nat * R) :=
  match l with
  | [] => Fails
  | b :: t => if Rlt_dec b x then locate_from (S i) b t x
              else if Req_EM_T a b then Undef else Ok (i, (x - a) / (b - a))
  end.
Definition locate (xs : list R) (x : R) : res (nat * R) :=
  match xs with [] => Fails | a :: t => if Rlt_dec x a then Fails else locate_from 0 a t x end.
Record interp6 := I6 { i6_x : list R; i6_y : list vec6 }.
(** Interp1dLinear<double, Vector6d>::Eval *)
Definition Eval6 (t : interp6) (x : R) : res vec6 :=
  p <<- locate (i6_x t) x;
  y0 <<- vat (i6_y t) (fst p);
  y1 <<- vat (i6_y t) (S (fst p));
  Ok (fun k => y0 k + snd p * (y1 k - y0 k)).

(** ** The radiation data of FrBEMBody.  m_motionMask, m_infiniteAddedMass, m_interpK, m_interpKu *)
Record bem := Bem { bm_mask : dofmask; bm_Ainf : nat -> option mat6; bm_K : nat -> list interp6; bm_Ku : nat -> list interp6 }.
Definition fupd {A : Type} (f : nat -> A) (i : nat) (a : A) : nat -> A := fun j => if Nat.eqb j i then a else f j.
(** One IRF matrix becomes an interpolator on the time discretisation, FrBEMBody.cpp 255-268 and 275-288.
    The matrix is the list of its columns; Fails: the assertion on the number of columns *)
Definition irf (d : disc) (IRF : list vec6) : res interp6 :=
  if Nat.eqb (length IRF) (d_n d) then Ok (I6 (GetVector d) IRF) else Fails.
Fixpoint irfs (d : disc) (l : list (list vec6)) : res (list interp6) :=
  match l with [] => Ok [] | m :: t => a <<- irf d m; r <<- irfs d t; Ok (a :: r) end.
(** SetMotionMask 178-180 *)
Definition SetMotionMask (b : bem) (mask : nat -> Z) : res bem :=
  m <<- SetMask (bm_mask b) mask; Ok (Bem m (bm_Ainf b) (bm_K b) (bm_Ku b)).
(** SetInfiniteAddedMass 246-250 *)
Definition SetInfiniteAddedMass (b : bem) (j : nat) (A : mat6) : bem := Bem (bm_mask b) (fupd (bm_Ainf b) j (Some A)) (bm_K b) (bm_Ku b).
(** SetImpulseResponseFunctionK 252-270, Ku 272-290 *)
Definition SetImpulseResponseFunctionK (d : disc) (b : bem) (j : nat) (l : list (list vec6)) : res bem :=
  n <<- irfs d l; Ok (Bem (bm_mask b) (bm_Ainf b) (fupd (bm_K b) j (bm_K b j ++ n)) (bm_Ku b)).
Definition SetImpulseResponseFunctionKu (d : disc) (b : bem) (j : nat) (l : list (list vec6)) : res bem :=
  n <<- irfs d l; Ok (Bem (bm_mask b) (bm_Ainf b) (bm_K b) (fupd (bm_Ku b) j (bm_Ku b j ++ n))).
(** GetListDOF (FrBEMBody.h 284), GetIRFInterpolatorK 349-353, Ku 355-359 (idof < 6 in every call); Undef: index out
    of range *)
Definition GetListDOF (b : bem) : list nat := dm_list (bm_mask b).
Definition GetIRFInterpolatorK (b : bem) (j idof : nat) : res interp6 := vat (bm_K b j) idof.
Definition GetIRFInterpolatorKu (b : bem) (j idof : nat) : res interp6 := vat (bm_Ku b j) idof.

(** ** FrHydroMapper (hdb/FrHydroMapper.cpp): m_mapBEMToBody (with its keys in iteration order), m_mapBodyToBEM,
    m_mapEqFrame *)
Record mapper := Mapper { mp_keys : list nat; mp_body : nat -> option nat; mp_bem : nat -> option nat; mp_eq : nat -> option nat }.
Definition new_mapper : mapper := Mapper [] (fun _ => None) (fun _ => None) (fun _ => None).
(** Map 19-23; a new key is put at the end (the real place is unspecified) *)
Definition MapBody (m : mapper) (bem body eq : nat) : mapper :=
  Mapper (if existsb (Nat.eqb bem) (mp_keys m) then mp_keys m else mp_keys m ++ [bem])
         (fupd (mp_body m) bem (Some body)) (fupd (mp_bem m) body (Some bem)) (fupd (mp_eq m) bem (Some eq)).
(** GetNbMappings 25-27, GetBody 29-31, GetBEMBody 33-35 (GetBEMBodyIndex 37-40 is the same number), GetEquilibriumFrame
    42-44 and 46-49; at() throws *)
Definition GetNbMappings (m : mapper) : nat := length (mp_keys m).
Definition at_map {A : Type} (f : nat -> option A) (i : nat) : res A := match f i with Some a => Ok a | None => Throws end.
Definition MGetBody (m : mapper) (bem : nat) : res nat := at_map (mp_body m) bem.
Definition MGetBEMBody (m : mapper) (body : nat) : res nat := at_map (mp_bem m) body.
Definition MGetEquilibriumFrame (m : mapper) (bem : nat) : res nat := at_map (mp_eq m) bem.
Definition MGetEquilibriumFrameOf (m : mapper) (body : nat) : res nat := b <<- MGetBEMBody m body; at_map (mp_eq m) b.

(** ** FrRadiationConvolutionModel.  FrTimeRecorder<GeneralizedVelocity> is six scalar recorders: the decisions depend
    on the times only and the arithmetic is componentwise *)
Definition rec6 := nat -> recorder.
Definition newRec6 (persistence step : R) : rec6 := fun _ => newRecorder persistence step.
Definition Record6 (r : rec6) (t : R) (v : vec6) : rec6 := fun k => Record_ (r k) t (v k).
Definition GetTime6 (r : rec6) : list R := GetTime (r 0%nat).
(** velocity.at(it).at(idof) *)
Definition Data6 (r : rec6) (it idof : nat) : res R := match nth_error (GetData (r idof)) it with Some x => Ok x | None => Throws end.
(** TrapzLoc 27-57 on vectors of six components *)
Definition Trapz6 (x : list R) (y : list vec6) : res vec6 :=
  if Nat.leb (length y) 1 then Ok zero6
  else if Nat.eqb (length x) (length y)
  then Ok (fun k => match TrapzLoc x (map (fun v : vec6 => v k) y) with Some s => s | None => 0 end)
  else Fails.

(** m_recorder, m_radiationForce, m_Te, m_dt *)
Record rad := Rad { rd_rec : nat -> option rec6; rd_force : nat -> option vec6; rd_Te : R; rd_dt : R }.
(** m_Te = -9., m_dt = -9. (FrRadiationModel.h) *)
Definition new_rad : rad := Rad (fun _ => None) (fun _ => None) (-9) (-9).
(** The database seen by the model: bodies and iteration order of the mapper *)
Record hdb := Hdb { h_bem : nat -> bem; h_order : list nat }.
(** The equilibrium frame of each BEM body and its node at the time of the call *)
Definition frames := nat -> eqf * marker.
(** GetPerturbationGeneralizedVelocityInFrame (hydrodynamics/FrEquilibriumFrame.cpp 131-135) *)
Definition GetPerturbationGeneralizedVelocityInFrame (e : eqf) (n : marker) : vec6 :=
  gen (GetPerturbationVelocityInFrame e n NWU) (GetPerturbationAngularVelocityInFrame e n NWU).

(** DBL_EPSILON: 2^-52 *)
Definition DBL_EPSILON : R := / 4503599627370496.
(** GetImpulseResponseSize 219-230: Te, dt, N.  (unsigned int) floor, N - 1 on 32 bits; Undef: a division by zero or a
    conversion out of range *)
Definition GetImpulseResponseSize (timeStep : R) (freq : disc) : res (R * R * Z) :=
  freqStep <<- GetStep freq;
  if Req_EM_T freqStep 0 then Undef else if Req_EM_T timeStep 0 then Undef else
  let Te := / 2 * (2 * PI) / freqStep in
  let N := Int_part (Te / timeStep) in
  if (Z.ltb N 0 || Z.leb 4294967296 N)%bool then Undef else
  let N1 := ((N - 1) mod 4294967296)%Z in
  if Z.eqb N1 0 then Undef else Ok (Te, Te / IZR N1, N).
(** Initialize 124-138 (base part not modelled here).  A recorder that exists keeps its data: set_capacity with the
    same capacity *)
Definition RC_Initialize (timeStep : R) (freq : disc) (order : list nat) (m : rad) : res rad :=
  m <<- (if Rlt_dec (rd_Te m) DBL_EPSILON then s <<- GetImpulseResponseSize timeStep freq; Ok (Rad (rd_rec m) (rd_force m) (fst (fst s)) (snd (fst s)))
         else if Rlt_dec (rd_dt m) DBL_EPSILON then s <<- GetImpulseResponseSize timeStep freq; Ok (Rad (rd_rec m) (rd_force m) (fst (fst s)) (snd (fst s)))
         else Ok m);
  Ok (Rad (fold_left (fun recs j => match recs j with Some _ => recs | None => fupd recs j (Some (newRec6 (rd_Te m) (rd_dt m))) end) order (rd_rec m))
          (rd_force m) (rd_Te m) (rd_dt m)).
(** SetImpulseResponseSize(BEMBody, Te, dt) 269-271 (the Initialize that follows gives it its capacity), (Te, dt) 278-283 *)
Definition SetImpulseResponseSizeOf (m : rad) (j : nat) (Te dt : R) : rad :=
  Rad (fupd (rd_rec m) j (Some (newRec6 Te dt))) (rd_force m) (rd_Te m) (rd_dt m).
Definition SetImpulseResponseSize (m : rad) (Te dt : R) : res rad :=
  if Rlt_dec DBL_EPSILON Te then if Rlt_dec DBL_EPSILON dt then Ok (Rad (rd_rec m) (rd_force m) Te dt) else Fails else Fails.
(** Clear 158-162 *)
Definition RC_Clear (order : list nat) (m : rad) : rad :=
  Rad (fun j => if existsb (Nat.eqb j) order then match rd_rec m j with Some r => Some (fun k => RClear (r k)) | None => None end else rd_rec m j)
      (rd_force m) (rd_Te m) (rd_dt m).

(** m_recorder[j]; Undef: a recorder that was never sized *)
Definition rec_of (recs : nat -> option rec6) (j : nat) : res rec6 := of_option (recs j).
(** The kernel of lines 191-195 and 250-253 and its integral *)
Definition Convolve (t : interp6) (r : rec6) (idof : nat) : res vec6 :=
  let vtime := GetTime6 r in
  kernel <<- rcollect (fun it => a <<- vat vtime it; K <<- Eval6 t a; v <<- Data6 r it idof; Ok (scale6 v K)) 0 (length vtime);
  Trapz6 vtime kernel.
(** Lines 181-198: all the bodies in motion and their degrees of freedom *)
Definition ConvolutionK (h : hdb) (recs : nat -> option rec6) (i : nat) : res vec6 :=
  rsum (h_order h) (fun j => r <<- rec_of recs j;
    rsum (GetListDOF (h_bem h j)) (fun idof => t <<- GetIRFInterpolatorK (h_bem h i) j idof; Convolve t r idof)).
(** ConvolutionKu 232-267.  It has no argument for the body: it sums over all of them.  GetSelfInfiniteAddedMass 345-347:
    operator[] creates a matrix without initial value if there is none (Undef) *)
Definition ConvolutionKu (h : hdb) (env : frames) (recs : nat -> option rec6) (meanSpeed : R) : res vec6 :=
  rsum (h_order h) (fun i => Ainf <<- of_option (bm_Ainf (h_bem h i) i);
    rsum (h_order h) (fun j => r <<- rec_of recs j;
      c <<- rsum [4%nat; 5%nat] (fun idof => t <<- GetIRFInterpolatorKu (h_bem h i) j idof; c <<- Convolve t r idof; Ok (scale6 meanSpeed c));
      let w := GetPerturbationAngularVelocityInFrame (fst (env j)) (snd (env j)) NWU in
      Ok (add6 c (fun k => meanSpeed * (Ainf k 2%nat * vy w - Ainf k 1%nat * vz w))))).
(** Lines 178-210: the generalized force in the world on body i *)
Definition ForceOn (h : hdb) (env : frames) (recs : nat -> option rec6) (i : nat) : res vec6 :=
  c <<- ConvolutionK h recs i;
  let e := fst (env i) in
  let speed := GetFrameVelocityInFrame e NWU in
  f <<- (if Rlt_dec FLT_EPSILON (vdot speed speed) then u <<- ConvolutionKu h env recs (vnorm speed); Ok (add6 c u) else Ok c);
  Ok (scale6 (-1) (gen (ProjectVectorFrameInParent (ef_frame e) (GForce f) NWU) (ProjectVectorFrameInParent (ef_frame e) (GTorque f) NWU))).
(** Lines 171-174 *)
Fixpoint RecordAll (env : frames) (time : R) (order : list nat) (recs : nat -> option rec6) : res (nat -> option rec6) :=
  match order with
  | [] => Ok recs
  | j :: t => r <<- rec_of recs j;
              RecordAll env time t (fupd recs j (Some (Record6 r time (GetPerturbationGeneralizedVelocityInFrame (fst (env j)) (snd (env j))))))
  end.
Fixpoint ForceAll (h : hdb) (env : frames) (recs : nat -> option rec6) (order : list nat) (forces : nat -> option vec6) : res (nat -> option vec6) :=
  match order with
  | [] => Ok forces
  | i :: t => f <<- ForceOn h env recs i; ForceAll h env recs t (fupd forces i (Some f))
  end.
(** Compute 164-212; [sysTime] and [sysStep] are GetSystem()->GetTime() and GetTimeStep() *)
Definition RC_Compute (h : hdb) (sysTime sysStep : R) (env : frames) (time : R) (m : rad) : res rad :=
  if (if Rlt_dec (Rabs (time - sysTime)) (/ 10 * sysStep) then if Rlt_dec FLT_EPSILON time then true else false else false) then Ok m
  else
    recs <<- RecordAll env time (h_order h) (rd_rec m);
    forces <<- ForceAll h env recs (h_order h) (rd_force m);
    Ok (Rad recs forces (rd_Te m) (rd_dt m)).
(** GetRadiationForce 86-93, GetRadiationTorque 95-102 *)
Definition GetRadiationForce (m : rad) (i : nat) : res vec := f <<- at_map (rd_force m) i; Ok (GForce f).
Definition GetRadiationTorque (m : rad) (i : nat) : res vec := f <<- at_map (rd_force m) i; Ok (GTorque f).
(** FrRadiationConvolutionForce::Compute (radiation/FrRadiationForce.cpp 116-126) on the force record of the body *)
Definition RF_Compute (m : rad) (i : nat) (b : body) (s : force) : res force :=
  f <<- GetRadiationForce m i; t <<- GetRadiationTorque m i; Ok (SetForceTorqueInWorldAtCOG b s f t NWU).
(** Successive calls: (system time, time of the call, frames at that time) *)
Definition call := (R * R * frames)%type.
Fixpoint rc_run (h : hdb) (sysStep : R) (calls : list call) (m : rad) : res rad :=
  match calls with
  | [] => Ok m
  | (sysTime, time, env) :: t => m' <<- RC_Compute h sysTime sysStep env time m; rc_run h sysStep t m'
  end.
(** Successive mappings (BEM body, body, equilibrium frame) *)
Definition map_run (l : list (nat * nat * nat)) (m : mapper) : mapper :=
  fold_left (fun m e => MapBody m (fst (fst e)) (snd (fst e)) (snd e)) l m.
