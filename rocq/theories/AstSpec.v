(** Specification for the visual assets. *)
From Coq Require Import Reals List ZArith Bool String.
From Verif Require Import GeoModel GeoSpec SeaModel AstModel.
Import ListNotations.
Open Scope R_scope.

(** ** Meshes seen from above *)
Definition corner (m : trimesh) (i : nat) : vec := nth i (t_vertices m) vzero.
(** The area of a face, positive when its corners turn counterclockwise *)
Definition face_area (m : trimesh) (f : nat * nat * nat) : R :=
  let '(i, j, k) := f in let p := corner m i in let q := corner m j in let r := corner m k in
  ((vx q - vx p) * (vy r - vy p) - (vx r - vx p) * (vy q - vy p)) / 2.
Definition sum_area (m : trimesh) (l : list (nat * nat * nat)) : R := fold_right (fun f a => face_area m f + a) 0 l.
(** The point (x, y) is in a face *)
Definition covers (m : trimesh) (x y : R) : Prop := exists i j k a b c, In (i, j, k) (t_faces m) /\ 0 <= a /\ 0 <= b /\ 0 <= c /\ a + b + c = 1 /\
  x = a * vx (corner m i) + b * vx (corner m j) + c * vx (corner m k) /\ y = a * vy (corner m i) + b * vy (corner m j) + c * vy (corner m k).
(** The faces of the mesh tile a region of a given area: they are all seen from the same side, inside the region, cover it, and do not overlap (their
    areas add up to that of the region) *)
Definition tiles (m : trimesh) (region : R -> R -> Prop) (area : R) : Prop :=
  (forall i j k, In (i, j, k) (t_faces m) -> (i < List.length (t_vertices m))%nat /\ (j < List.length (t_vertices m))%nat /\ (k < List.length (t_vertices m))%nat) /\
  (forall f, In f (t_faces m) -> 0 < face_area m f) /\
  (forall v, In v (t_vertices m) -> region (vx v) (vy v)) /\
  (forall x y, region x y -> covers m x y) /\ sum_area m (t_faces m) = area.
Definition rectangle (x0 x1 y0 y1 x y : R) : Prop := x0 <= x <= x1 /\ y0 <= y <= y1.
(** The regular polygon of n sides inscribed in the circle of radius r, with a corner in the direction of x: one half plane for each side *)
Definition polygon (xc yc r : R) (n : nat) (x y : R) : Prop :=
  forall k, (k < n)%nat -> let a := (2 * INR k + 1) * PI / INR n in (x - xc) * cos a + (y - yc) * sin a <= r * cos (PI / INR n).
(** Vertices moved vertically onto a surface *)
Definition draped (eta : R -> R -> R) (m : trimesh) : trimesh := Mesh (map (fun v => V (vx v) (vy v) (eta (vx v) (vy v))) (t_vertices m)) (t_faces m).
(** ** Assets of an object: how many times a drawing is shown after a history of calls *)
Definition shown_step (d : drawn) (k : Z) (o : asset_op) : Z := (
  let one x := if drawn_dec x d then 1%Z else 0%Z in
  match o with
  | AddBox a => k + one (DBox a) | AddCylinder a => k + one (DCylinder a) | AddSphere a => k + one (DSphere a) | AddMesh a => k + one (DMesh a)
  | AddAsset a => k + one (DAsset a) | SetColor a => k + one (DColor a) | RemoveAsset a => k - one (DAsset a) | RemoveAssets => 0
  end)%Z.
Definition shown (d : drawn) (l : list asset_op) : Z := fold_left (shown_step d) l 0%Z.
(** ** Mesh writer: base name, extension and number in force after a history of calls *)
Definition last_base {M} (l : list (mw_op M)) : string := fold_left (fun b o => match o with MSetFileBase x => x | _ => b end) l "output"%string.
Definition last_type {M} (l : list (mw_op M)) : string := fold_left (fun e o => match o with MSetFileType x => x | _ => e end) l ".obj"%string.
Definition last_number {M} (l : list (mw_op M)) : Z := fold_left (fun k o => match o with MReinit i => i | MWrite _ => (k + 1)%Z | _ => k end) l 0%Z.
