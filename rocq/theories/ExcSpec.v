(** Specification vocabulary for the linear wave loads (C81-C87), the wave drift force (C88-C90) and the nonlinear
    Froude-Krylov force (C91). *)
From Coq Require Import Reals List ZArith.
From Coquelicot Require Import Complex.
From Verif Require Import GeoModel GeoSpec BodyModel BodySpec MeshModel MeshSpec SigSpec EqfModel SeaModel WavModel FloModel RadModel RadSpec ExcModel.
Import ListNotations.
Open Scope R_scope.

(** ** Tables *)
(** Directions in radians and frequencies of the database *)
Definition angles (d : xdb) : list R := map (fun a => a * (PI / 180)) (linspace (d_min (x_dirs d)) (d_max (x_dirs d)) (d_n (x_dirs d))).
Definition pulsations (d : xdb) : list R := linspace (d_min (x_freqs d)) (d_max (x_freqs d)) (d_n (x_freqs d)).
(** At least two directions and two frequencies, in increasing order *)
Definition good_db (d : xdb) : Prop :=
  d_min (x_dirs d) < d_max (x_dirs d) /\ (2 <= d_n (x_dirs d))%nat /\ d_min (x_freqs d) < d_max (x_freqs d) /\ (2 <= d_n (x_freqs d))%nat.
(** x is in the range of the abscissae *)
Definition inside (xs : list R) (x : R) : Prop := nth 0 xs 0 <= x <= last xs 0.
(** The file: one table per direction, with one row per mode and one column per frequency; [T a k f] is the coefficient *)
Definition coefs := nat -> nat -> nat -> C.
(** Interpolation of one part (real or imaginary) of the coefficients of mode k: in direction, then in frequency *)
Definition part_at (d : xdb) (T : coefs) (part : C -> R) (k : nat) (dir om : R) : R :=
  interpolated (pulsations d)
    (map (fun f => interpolated (angles d) (map (fun a => part (T a k f)) (seq 0 (d_n (x_dirs d)))) dir) (seq 0 (d_n (x_freqs d)))) om.
Definition coefficient (d : xdb) (T : coefs) (k : nat) (dir om : R) : C := (part_at d T Re k dir om, part_at d T Im k dir om).
(** The same angle between 0 and 2 pi *)
Definition reduced (a : R) : R := a - 2 * PI * IZR (Int_part (a / (2 * PI))).
(** The waves lie in the range of the database *)
Definition in_range (d : xdb) (w : waves) : Prop :=
  List.Forall (inside (pulsations d)) (wv_freqs w) /\ List.Forall (fun a => inside (angles d) (reduced a)) (wv_dirs w).

(** ** Loads *)
(** One complex elevation per direction and frequency *)
Definition eta_sized (w : waves) (eta : list (list C)) : Prop :=
  length eta = length (wv_dirs w) /\ forall r, In r eta -> length r = length (wv_freqs w).
(** Sum over the wave components *)
Definition component_sum (w : waves) (f : nat -> nat -> R) : R :=
  total (map (fun i => total (map (fun j => f i j) (seq 0 (length (wv_dirs w))))) (seq 0 (length (wv_freqs w)))).
Definition om_of (w : waves) (i : nat) : R := nth i (wv_freqs w) 0.
Definition dir_of (w : waves) (j : nat) : R := nth j (wv_dirs w) 0.
Definition eta_of (eta : list (list C)) (j i : nat) : C := nth i (nth j eta []) (RtoC 0).
(** Load on mode k: sum over the components of Im (eta X) *)
Definition wave_load (d : xdb) (T : coefs) (w : waves) (eta : list (list C)) (k : nat) : R :=
  component_sum w (fun i j => Im (eta_of eta j i * coefficient d T k (reduced (dir_of w j)) (om_of w i))%C).
(** The six modes of a rigid body *)
Definition rigid_modes : list bmode :=
  [BMode LINEAR (V 1 0 0); BMode LINEAR (V 0 1 0); BMode LINEAR (V 0 0 1); BMode ANGULAR (V 1 0 0); BMode ANGULAR (V 0 1 0); BMode ANGULAR (V 0 0 1)].
Definition all_on : nat -> Z := fun _ => 1%Z.
(** A database body read from a file: diffraction tables D, Froude-Krylov tables K, mask *)
Definition file_table (n m : nat) (T : coefs) (a : nat) : cmat := CM n m (T a).
Definition loaded (d : xdb) (mask : nat -> Z) (modes : list bmode) (D K : coefs) (xb : xbody) : Prop :=
  exists nb garbage mem m b0, SetMask (new_mask nb garbage) mask = Ok m /\ XInitialize mem d (XB m modes [] [] []) = Ok b0 /\
    ExcitationReader d (file_table (length (active mask)) (d_n (x_freqs d)) D) (file_table (length (active mask)) (d_n (x_freqs d)) K) b0 = Ok xb.
(** The tables of the file that a load uses *)
Definition tables_of (k : load) (D K : coefs) : coefs :=
  match k with Diffraction => D | FroudeKrylov => K | Excitation => fun a m f => (D a m f + K a m f)%C end.
(** Rows of the tables of the code: the rows of the file, put at the active degrees of freedom *)
Definition spread (mask : nat -> Z) (T : coefs) : coefs := fun a i f => if Z.eqb (mask i) 1 then T a (rank mask i) f else RtoC 0.
(** The initialised force *)
Definition ready (k : load) (d : xdb) (xb : xbody) (w : waves) (f : hforce) : Prop := HF_Initialize k d xb w new_hforce = Ok f.
(** Generalized load: force and moment of the modes *)
Definition mode_sum (modes : list bmode) (k : mtype) (L : nat -> R) (n : nat) : vec :=
  sum3 (map (fun i => match nth_error modes i with
                      | Some m => match k, bm_type m with LINEAR, LINEAR | ANGULAR, ANGULAR => scal3 (L i) (bm_dir m) | _, _ => origin end
                      | None => origin end) (seq 0 n)).
(** Response of a coefficient X to a component of amplitude A and phase a: A |X| sin (a + arg X) *)
Definition response (A : R) (X : C) (a : R) : R := A * (Re X * sin a + Im X * cos a).
(** Two elevations superposed on the same components *)
Definition superposed_eta (c : R) (e1 e2 e3 : list (list C)) : Prop := forall j i, eta_of e3 j i = (eta_of e1 j i + RtoC c * eta_of e2 j i)%C.
Definition same_components (w1 w2 : waves) : Prop := wv_freqs w2 = wv_freqs w1 /\ wv_dirs w2 = wv_dirs w1.

(** The wrench, at G, of a force and a moment given in the axes of a frame *)
Definition wrench_in (e : eqf) (G F M : vec) : wrench := W (quat_action (frot (ef_frame e)) F) (quat_action (frot (ef_frame e)) M) G.
(** The complex elevations at the origin of a frame *)
Definition at_frame (w : waves) (e : eqf) : res (list (list C)) := wv_eta w (vx (fpos (ef_frame e))) (vy (fpos (ef_frame e))).
(** The waves as seen from a ship with heading psi *)
Definition seen_from (psi : R) (w : waves) : waves := Waves (wv_freqs w) (map (fun a => a - psi) (wv_dirs w)) (wv_ks w) (wv_amps w) (wv_eta w).
(** A mask of the first n degrees of freedom *)
Definition prefix_mask (n : nat) : nat -> Z := fun i => if Nat.ltb i n then 1%Z else 0%Z.
(** Only the degree of freedom i *)
Definition single_mask (n : nat) : nat -> Z := fun i => if Nat.eqb i n then 1%Z else 0%Z.

(** ** Wave drift *)
(** A table of drift coefficients: increasing directions and frequencies, complete series *)
Definition good_polar (t : polar) : Prop :=
  increasing (pl_x t) /\ (2 <= length (pl_x t))%nat /\ increasing (pl_y t) /\ (2 <= length (pl_y t))%nat /\
  forall i l, pl_series t i = Some l -> length l = (length (pl_x t) * length (pl_y t))%nat.
(** Coefficient of mode i, zero if the mode is not in the file: interpolation in frequency, then in direction *)
Definition drift_coefficient (t : polar) (i : nat) (dir om : R) : R :=
  match pl_series t i with
  | None => 0
  | Some l => interpolated (pl_x t) (map (fun a => interpolated (pl_y t) (map (fun j => nth (a * length (pl_y t) + j) l 0) (seq 0 (length (pl_y t)))) om) (seq 0 (length (pl_x t)))) dir
  end.
(** The frequency seen from a ship that moves at U: om - k (U . direction of the waves) *)
Definition encounter (om k dir : R) (U : vec) : R := om - k * (vx U * cos dir + vy U * sin dir).
Definition k_of (w : waves) (i : nat) : R := nth i (wv_ks w) 0.
Definition amp_of (w : waves) (j i : nat) : R := nth i (nth j (wv_amps w) []) 0.
(** Drift load on mode m of a ship with heading psi and velocity U: directions from the heading, encounter frequencies *)
Definition drift_load (t : polar) (w : waves) (psi : R) (U : vec) (m : nat) : R :=
  component_sum w (fun i j => (amp_of w j i) ^ 2 * drift_coefficient t m (dir_of w j - psi) (encounter (om_of w i) (k_of w i) (dir_of w j) U)).
Definition drift_sized (w : waves) : Prop :=
  wv_dirs w <> [] /\ length (wv_ks w) = length (wv_freqs w) /\ length (wv_amps w) = length (wv_dirs w) /\ forall r, In r (wv_amps w) -> length r = length (wv_freqs w).
Definition drift_in_range (t : polar) (w : waves) (psi : R) (U : vec) : Prop :=
  (forall j, (j < length (wv_dirs w))%nat -> inside (pl_x t) (dir_of w j - psi)) /\
  forall i j, (i < length (wv_freqs w))%nat -> (j < length (wv_dirs w))%nat -> inside (pl_y t) (encounter (om_of w i) (k_of w i) (dir_of w j) U).

(** ** Nonlinear Froude-Krylov *)
(** The point of the sea above or below the body *)
Definition body_point (b : body) : vec := V (vx (BGetPosition b NWU)) (vy (BGetPosition b NWU)) 0.
Definition patches (m : mesh) : soup := soup_of (verts m) (faces m).
(** Pressure c + g . r *)
Definition affine_pressure (c : R) (g : vec) : R -> R -> R -> R := fun x y z => c + (vx g * x + vy g * y + vz g * z).
Definition world_centre (o : vec) (t : triangle) : vec := let '(a, b, c) := t in plus3 (scal3 (/ 3) (plus3 (plus3 a b) c)) o.
(** Pressure force on a triangle: minus the pressure at its centre times half of the cross product of two sides *)
Definition patch_force (p : R -> R -> R -> R) (o : vec) (t : triangle) : vec :=
  let g := world_centre o t in let '(a, b, c) := t in scal3 (- p (vx g) (vy g) (vz g) / 2) (area2 a b c).
(** Exact pressure force *)
Definition exact_force (p : R -> R -> R -> R) (o : vec) (t : triangle) : vec :=
  let '(a, b, c) := t in scal3 (-1) (vector_integral (fun r => p (vx r + vx o) (vy r + vy o) (vz r + vz o)) a b c).
