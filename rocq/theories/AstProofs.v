(** Proofs about the grids. *)
From Coq Require Import Reals List ZArith Bool Lra Lia.
From Verif Require Import GeoModel GeoSpec SeaModel AstModel AstSpec.
Import ListNotations.
Open Scope R_scope.

Lemma ticks_length : forall n x dx, List.length (ticks x dx n) = n.
Proof. induction n; intros; cbn; [reflexivity|]. rewrite IHn. reflexivity. Qed.
Lemma ticks_nth : forall n x dx i d, (i < n)%nat -> nth i (ticks x dx n) d = x + INR i * dx.
Proof.
  induction n; intros x dx i d H; [lia|]. cbn [ticks]. destruct i as [|i]; [cbn [nth INR]; ring|]. cbn [nth]. rewrite IHn by lia. rewrite S_INR. ring.
Qed.
(** A list made of rows of the same length *)
Lemma rows_length : forall (A B : Type) (f : A -> list B) w l, (forall a, In a l -> List.length (f a) = w) -> List.length (flat_map f l) = (List.length l * w)%nat.
Proof.
  intros A B f w. induction l as [|a l IH]; intro H; [reflexivity|]. cbn [flat_map List.length]. rewrite app_length, IH, (H a); [lia|left; reflexivity|].
  intros b Hb. apply H. right. exact Hb.
Qed.
Lemma rows_nth : forall (A B : Type) (f : A -> list B) w l i j a b, (forall a, In a l -> List.length (f a) = w) -> (i < List.length l)%nat -> (j < w)%nat ->
  nth (i * w + j) (flat_map f l) b = nth j (f (nth i l a)) b.
Proof.
  intros A B f w. induction l as [|c l IH]; intros i j a b H I J; [cbn in I; lia|].
  cbn [flat_map]. destruct i as [|i].
  - cbn [nth Nat.mul Nat.add]. apply app_nth1. rewrite (H c) by (left; reflexivity). exact J.
  - rewrite app_nth2 by (rewrite (H c) by (left; reflexivity); nia). rewrite (H c) by (left; reflexivity).
    replace (S i * w + j - w)%nat with (i * w + j)%nat by nia. cbn [nth]. apply IH; [|cbn in I; lia|exact J]. intros d Hd. apply H. right. exact Hd.
Qed.
Lemma sum_app : forall m a b, sum_area m (a ++ b) = sum_area m a + sum_area m b.
Proof.
  intros m a b. induction a as [|f a IH].
  - change (sum_area m b = 0 + sum_area m b). ring.
  - change (face_area m f + sum_area m (a ++ b) = face_area m f + sum_area m a + sum_area m b). rewrite IH. ring.
Qed.
Lemma sum_rows : forall m g s n w, (forall i, (s <= i < s + n)%nat -> sum_area m (g i) = w) -> sum_area m (flat_map g (seq s n)) = INR n * w.
Proof.
  intros m g s n w. revert s. induction n as [|n IH]; intros s H; [cbn; ring|].
  cbn [seq flat_map]. rewrite sum_app, (H s) by lia. rewrite IH by (intros; apply H; lia). rewrite S_INR. ring.
Qed.
Lemma cell : forall n t, 0 <= t <= INR (S n) -> exists i, (i <= n)%nat /\ INR i <= t <= INR (S i).
Proof.
  induction n as [|n IH]; intros t H.
  - exists 0%nat. split; [lia|exact H].
  - destruct (Rle_dec t (INR (S n))) as [L|L].
    + destruct (IH t) as (i & A & B); [lra|]. exists i. split; [lia|exact B].
    + exists (S n). split; [lia|lra].
Qed.

(** ** The cartesian grid *)
Section cartesian.
Variables xmin dx ymin dy h : R.
Variables nx ny : nat.
Hypothesis (Hdx : 0 < dx) (Hdy : 0 < dy).
Definition cart_mesh : trimesh := Mesh (flat_map (fun y => map (fun x => V x y h) (ticks xmin dx nx)) (ticks ymin dy ny))
  (flat_map (fun iy => quad_row nx (iy * nx) (nx - 1) false) (seq 0 (ny - 1))).
Lemma cart_count : List.length (t_vertices cart_mesh) = (ny * nx)%nat.
Proof. cbn [t_vertices cart_mesh]. rewrite (rows_length _ _ _ nx); [rewrite ticks_length; reflexivity|]. intros a _. rewrite map_length. apply ticks_length. Qed.
Lemma cart_corner : forall ix iy, (ix < nx)%nat -> (iy < ny)%nat -> corner cart_mesh (iy * nx + ix) = V (xmin + INR ix * dx) (ymin + INR iy * dy) h.
Proof.
  intros ix iy X Y. unfold corner. cbn [t_vertices cart_mesh].
  rewrite (rows_nth _ _ _ nx _ _ _ 0).
  - rewrite ticks_nth by exact Y. rewrite (nth_indep _ _ (V 0 (ymin + INR iy * dy) h)) by (rewrite map_length, ticks_length; exact X).
    rewrite (map_nth (fun x => V x (ymin + INR iy * dy) h)). rewrite ticks_nth by exact X. reflexivity.
  - intros a _. rewrite map_length. apply ticks_length.
  - rewrite ticks_length. exact Y.
  - exact X.
Qed.
(** The two ways to cut the cell (ix, iy) *)
Definition cut (ix iy : nat) (rev : bool) : list (nat * nat * nat) :=
  let c a b := ((iy + b) * nx + (ix + a))%nat in
  if rev then [(c 0 0, c 1 0, c 1 1); (c 0 0, c 1 1, c 0 1)]%nat else [(c 0 0, c 1 0, c 0 1); (c 1 0, c 1 1, c 0 1)]%nat.
Lemma row_cut : forall n ix iy rev, (ix + n < nx)%nat ->
  exists flips : nat -> bool, quad_row nx (iy * nx + ix) n rev = flat_map (fun j => cut j iy (flips j)) (seq ix n).
Proof.
  induction n as [|n IH]; intros ix iy rev H; [exists (fun _ => true); reflexivity|].
  destruct (IH (S ix) iy (negb rev)) as [fl E]; [lia|].
  exists (fun j => if Nat.eqb j ix then rev else fl j). cbn [quad_row seq flat_map]. rewrite Nat.eqb_refl. f_equal.
  - unfold cut. replace ((iy + 0) * nx + (ix + 0))%nat with (iy * nx + ix)%nat by lia. replace ((iy + 0) * nx + (ix + 1))%nat with (iy * nx + ix + 1)%nat by lia.
    replace ((iy + 1) * nx + (ix + 0))%nat with (iy * nx + ix + 1 + nx - 1)%nat by lia. replace ((iy + 1) * nx + (ix + 1))%nat with (iy * nx + ix + 1 + nx)%nat by lia. reflexivity.
  - replace (iy * nx + ix + 1)%nat with (iy * nx + S ix)%nat by lia. rewrite E. assert (forall l, (forall j, In j l -> (ix < j)%nat) ->
      flat_map (fun j => cut j iy (fl j)) l = flat_map (fun j => cut j iy (if Nat.eqb j ix then rev else fl j)) l) as K.
    { induction l as [|j l IL]; intro L; [reflexivity|]. cbn [flat_map]. rewrite IL by (intros k Hk; apply L; right; exact Hk).
      destruct (Nat.eqb_spec j ix) as [->|_]; [specialize (L ix (or_introl eq_refl)); lia|reflexivity]. }
    apply K. intros j J. apply in_seq in J. lia.
Qed.
Lemma cut_area : forall ix iy rev, (S ix < nx)%nat -> (S iy < ny)%nat -> forall f, In f (cut ix iy rev) -> face_area cart_mesh f = dx * dy / 2.
Proof.
  intros ix iy rev X Y f F. unfold cut in F.
  pose proof (cart_corner ix iy ltac:(lia) ltac:(lia)) as C00. pose proof (cart_corner (S ix) iy ltac:(lia) ltac:(lia)) as C10.
  pose proof (cart_corner ix (S iy) ltac:(lia) ltac:(lia)) as C01. pose proof (cart_corner (S ix) (S iy) ltac:(lia) ltac:(lia)) as C11.
  rewrite (S_INR ix) in C10, C11. rewrite (S_INR iy) in C01, C11.
  replace ((iy + 0) * nx + (ix + 0))%nat with (iy * nx + ix)%nat in F by lia. replace ((iy + 0) * nx + (ix + 1))%nat with (iy * nx + S ix)%nat in F by lia.
  replace ((iy + 1) * nx + (ix + 0))%nat with (S iy * nx + ix)%nat in F by lia. replace ((iy + 1) * nx + (ix + 1))%nat with (S iy * nx + S ix)%nat in F by lia.
  destruct rev; destruct F as [<-|[<-|[]]]; unfold face_area; cbv beta iota zeta; rewrite ?C00, ?C10, ?C01, ?C11; cbn [vx vy]; field.
Qed.
Lemma cut_sum : forall ix iy rev, (S ix < nx)%nat -> (S iy < ny)%nat -> sum_area cart_mesh (cut ix iy rev) = dx * dy.
Proof.
  intros ix iy rev X Y. pose proof (cut_area ix iy rev X Y) as K.
  assert (exists f g, cut ix iy rev = [f; g]) as (f & g & E) by (unfold cut; destruct rev; eexists; eexists; reflexivity).
  rewrite E in *. cbn [sum_area fold_right]. rewrite (K f), (K g) by (cbn; auto). field.
Qed.
Lemma cart_face : forall f, In f (t_faces cart_mesh) -> exists ix iy rev, (S ix < nx)%nat /\ (S iy < ny)%nat /\ In f (cut ix iy rev).
Proof.
  intros f F. cbn [t_faces cart_mesh] in F. apply in_flat_map in F. destruct F as (iy & Y & F). apply in_seq in Y.
  destruct nx as [|n] eqn:E; [cbn in F; contradiction|]. rewrite <- E in *.
  destruct (row_cut (nx - 1) 0 iy false) as [fl Q]; [lia|]. rewrite Nat.add_0_r in Q. rewrite Q in F. apply in_flat_map in F. destruct F as (ix & X & F). apply in_seq in X.
  exists ix, iy, (fl ix). split; [lia|]. split; [lia|exact F].
Qed.
Lemma cart_cut : forall ix iy, (S ix < nx)%nat -> (S iy < ny)%nat -> exists rev, forall f, In f (cut ix iy rev) -> In f (t_faces cart_mesh).
Proof.
  intros ix iy X Y. destruct (row_cut (nx - 1) 0 iy false) as [fl Q]; [lia|]. rewrite Nat.add_0_r in Q. exists (fl ix). intros f F.
  cbn [t_faces cart_mesh]. apply in_flat_map. exists iy. split; [apply in_seq; lia|]. rewrite Q. apply in_flat_map. exists ix. split; [apply in_seq; lia|exact F].
Qed.
Lemma cart_tiles : (2 <= nx)%nat -> (2 <= ny)%nat ->
  tiles cart_mesh (rectangle xmin (xmin + INR (nx - 1) * dx) ymin (ymin + INR (ny - 1) * dy)) (INR (nx - 1) * dx * (INR (ny - 1) * dy)).
Proof.
  intros NX NY. split; [|split; [|split; [|split]]].
  - intros i j k F. destruct (cart_face _ F) as (ix & iy & rev & X & Y & G). rewrite cart_count. unfold cut in G.
    destruct rev; destruct G as [G|[G|[]]]; injection G; intros; subst; repeat split; nia.
  - intros f F. destruct (cart_face _ F) as (ix & iy & rev & X & Y & G). rewrite (cut_area ix iy rev X Y f G). nra.
  - intros v Hv. apply (In_nth _ _ vzero) in Hv. destruct Hv as (i & I & <-). rewrite cart_count in I.
    assert (i = (i / nx) * nx + i mod nx)%nat as E by (rewrite Nat.mul_comm; apply Nat.div_mod; lia).
    change (nth i (t_vertices cart_mesh) vzero) with (corner cart_mesh i). rewrite E.
    assert (i mod nx < nx)%nat as X by (apply Nat.mod_upper_bound; lia). assert (i / nx < ny)%nat as Y by (apply Nat.div_lt_upper_bound; nia).
    rewrite cart_corner by assumption. cbn [vx vy]. unfold rectangle.
    pose proof (pos_INR (i mod nx)) as P1. pose proof (pos_INR (i / nx)) as P2.
    assert (INR (i mod nx) <= INR (nx - 1)) as L1 by (apply le_INR; lia). assert (INR (i / nx) <= INR (ny - 1)) as L2 by (apply le_INR; lia).
    set (a := INR (i mod nx)) in *. set (b := INR (i / nx)) in *. clearbody a b. nra.
  - intros x y [[X0 X1] [Y0 Y1]].
    assert (exists ix, (S ix < nx)%nat /\ INR ix <= (x - xmin) / dx <= INR (S ix)) as (ix & IX & UX).
    { destruct (cell (nx - 2) ((x - xmin) / dx)) as (i & A & B).
      - replace (S (nx - 2)) with (nx - 1)%nat by lia. split; [apply Rmult_le_pos; [lra|apply Rlt_le, Rinv_0_lt_compat; exact Hdx]|].
        apply (Rmult_le_reg_r dx); [exact Hdx|]. replace ((x - xmin) / dx * dx) with (x - xmin) by (field; lra). lra.
      - exists i. split; [lia|exact B]. }
    assert (exists iy, (S iy < ny)%nat /\ INR iy <= (y - ymin) / dy <= INR (S iy)) as (iy & IY & UY).
    { destruct (cell (ny - 2) ((y - ymin) / dy)) as (i & A & B).
      - replace (S (ny - 2)) with (ny - 1)%nat by lia. split; [apply Rmult_le_pos; [lra|apply Rlt_le, Rinv_0_lt_compat; exact Hdy]|].
        apply (Rmult_le_reg_r dy); [exact Hdy|]. replace ((y - ymin) / dy * dy) with (y - ymin) by (field; lra). lra.
      - exists i. split; [lia|exact B]. }
    set (u := (x - xmin) / dx - INR ix). set (v := (y - ymin) / dy - INR iy).
    assert (x = xmin + (INR ix + u) * dx) as EX by (unfold u; field; lra). assert (y = ymin + (INR iy + v) * dy) as EY by (unfold v; field; lra).
    assert (0 <= u <= 1) as U by (unfold u; rewrite S_INR in UX; lra). assert (0 <= v <= 1) as W by (unfold v; rewrite S_INR in UY; lra).
    clearbody u v. subst x y.
    pose proof (cart_corner ix iy ltac:(lia) ltac:(lia)) as C00. pose proof (cart_corner (S ix) iy ltac:(lia) ltac:(lia)) as C10.
    pose proof (cart_corner ix (S iy) ltac:(lia) ltac:(lia)) as C01. pose proof (cart_corner (S ix) (S iy) ltac:(lia) ltac:(lia)) as C11.
    rewrite (S_INR ix) in C10, C11. rewrite (S_INR iy) in C01, C11.
    destruct (cart_cut ix iy IX IY) as [rev K]. unfold cut in K.
    replace ((iy + 0) * nx + (ix + 0))%nat with (iy * nx + ix)%nat in K by lia. replace ((iy + 0) * nx + (ix + 1))%nat with (iy * nx + S ix)%nat in K by lia.
    replace ((iy + 1) * nx + (ix + 0))%nat with (S iy * nx + ix)%nat in K by lia. replace ((iy + 1) * nx + (ix + 1))%nat with (S iy * nx + S ix)%nat in K by lia.
    unfold covers. destruct rev.
    + destruct (Rle_dec v u).
      * do 3 eexists. exists (1 - u), (u - v), v. split; [apply K; left; reflexivity|]. rewrite C00, C10, C11. cbn [vx vy]. repeat split; try lra; ring.
      * do 3 eexists. exists (1 - v), u, (v - u). split; [apply K; right; left; reflexivity|]. rewrite C00, C01, C11. cbn [vx vy]. repeat split; try lra; ring.
    + destruct (Rle_dec (u + v) 1).
      * do 3 eexists. exists (1 - u - v), u, v. split; [apply K; left; reflexivity|]. rewrite C00, C10, C01. cbn [vx vy]. repeat split; try lra; ring.
      * do 3 eexists. exists (1 - v), (u + v - 1), (1 - u). split; [apply K; right; left; reflexivity|]. rewrite C10, C01, C11. cbn [vx vy]. repeat split; try lra; ring.
  - cbn [t_faces cart_mesh]. fold cart_mesh. rewrite (sum_rows cart_mesh _ 0 (ny - 1) (INR (nx - 1) * (dx * dy))); [ring|].
    intros iy Y. destruct (row_cut (nx - 1) 0 iy false) as [fl Q]; [lia|]. rewrite Nat.add_0_r in Q. rewrite Q.
    apply sum_rows. intros ix X. apply cut_sum; lia.
Qed.
Lemma cart_height : forall v, In v (t_vertices cart_mesh) -> vz v = h.
Proof.
  intros v Hv. cbn [t_vertices cart_mesh] in Hv. apply in_flat_map in Hv. destruct Hv as (y & _ & Hv). apply in_map_iff in Hv. destruct Hv as (x & <- & _). reflexivity.
Qed.
End cartesian.
(** The number of steps *)
Lemma steps : forall a b d, 0 < d -> d <= b - a -> exists n, Z.to_nat (truncation ((b - a) / d) + 1) = S n /\ (1 <= n)%nat /\ a + INR n * d <= b < a + INR (S n) * d.
Proof.
  intros a b d D H. unfold truncation. assert (1 <= (b - a) / d) as Q.
  { apply (Rmult_le_reg_r d); [exact D|]. replace ((b - a) / d * d) with (b - a) by (field; lra). lra. }
  destruct (Rle_dec 0 ((b - a) / d)) as [_|N]; [|lra].
  set (t := (b - a) / d) in *. assert (b = a + t * d) as E by (unfold t; field; lra). clearbody t. subst b.
  destruct (base_Int_part t) as [B1 B2]. set (z := Int_part t) in *. clearbody z.
  assert (1 <= z)%Z as Z1. { apply Znot_gt_le. intro G. assert (z <= 0)%Z as G' by lia. apply IZR_le in G'. cbn in G'. lra. }
  exists (Z.to_nat z). split; [lia|]. split; [lia|]. rewrite S_INR. rewrite INR_IZR_INZ, Z2Nat.id by lia. split; nra.
Qed.
