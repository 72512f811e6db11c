(** Properties C18 and C19: inertia tensors and assemblies.
    [masses], [inertia_of], [place], [describes] ... are in InertiaSpec. *)
From Coq Require Import Reals List Lra Psatz Lia.
From Verif Require Import GeoModel GeoSpec GeoProofs GeoProofs2 GeoProofs3 GeoProofs4 BodyModel BodySpec BodyProofs BodyProofs2 BodyProofs3 InertiaModel InertiaSpec InertiaProofs.
Import ListNotations.
Open Scope R_scope.

(** ** C18: inertia tensors add as mass distributions *)

(** A tensor constructed (or reset) from the mass, COG and inertia coefficients that a distribution
    has in any frame f, in either convention, is the tensor of that distribution. *)
Theorem C18_constructed_at_any_frame : forall D' f G fc, unitq (frot f) -> is_cog (moved (place f) D') G ->
  describes (Tensor_AtFrame (total D') (inertia_of (moved (convert fc) D')) f (convert fc G) fc) (moved (place f) D').
Proof. intros; apply desc_describes, ctor_frame; auto. Qed.
Theorem C18_reset_at_any_frame : forall t D' f G fc, unitq (frot f) -> is_cog (moved (place f) D') G ->
  describes (SetInertiaTensorAtFrame t (total D') (coeffs_matrix (inertia_of (moved (convert fc) D'))) f (convert fc G) fc)
            (moved (place f) D').
Proof. intros; apply desc_describes, set_frame; auto. Qed.
(** The report at any frame f is the inertia of the same masses, with their coordinates in f. *)
Theorem C18_report_at_any_frame : forall t f D' fc, unitq (frot f) -> describes t (moved (place f) D') ->
  GetInertiaCoeffsAtFrame t f fc = inertia_of (moved (convert fc) D') /\
  GetInertiaMatrixAtFrame t f fc = coeffs_matrix (inertia_of (moved (convert fc) D')).
Proof.
  intros t f D' fc Hf H. apply desc_describes in H. split; [apply at_frame_coeffs; auto|].
  rewrite <- (at_frame_coeffs t f D') by auto. reflexivity.
Qed.
(** Every distribution is seen in every frame: the hypothesis above is never vacuous. *)
Theorem C18_every_distribution_in_every_frame : forall D f, unitq (frot f) -> exists D', moved (place f) D' = D.
Proof.
  intros D f Hf. exists (moved (place (chinv f)) D). rewrite moved_moved. rewrite <- (moved_id D) at 2. apply moved_ext.
  intros; apply place_inv; auto.
Qed.
(** Adding a part placed at any frame gives the tensor of the union. *)
Theorem C18_add_is_union : forall t1 t2 f D1 D2, unitq (frot f) -> total D1 + total D2 <> 0 ->
  describes t1 D1 -> describes t2 D2 -> describes (Tensor_Add t1 t2 f) (D1 ++ moved (place f) D2).
Proof. intros t1 t2 f D1 D2 Hf Hn H1 H2. apply desc_describes. apply desc_describes in H1, H2. apply add_desc; auto. Qed.
(** An assembly of any number of bodies, anywhere in the world, has the tensor (in the reference frame
    of the master body) of the union of the distributions of the bodies at their world positions. *)
Theorem C18_assembly_is_union : forall m Dm L,
  reachable (mb_body m) -> describes (BGetInertiaTensor m) Dm -> 0 < total Dm ->
  (forall b D, In (b, D) L -> reachable (mb_body b) /\ describes (BGetInertiaTensor b) D /\ 0 <= total D) ->
  exists t D, AssemblyInertiaTensor (AddListToAssembly (make_assembly m) (map fst L)) = Some t /\ describes t D /\
    moved (place (GetFrame (mb_body m))) D =
    moved (place (GetFrame (mb_body m))) Dm ++ concat (map (fun bD => moved (place (GetFrame (mb_body (fst bD)))) (snd bD)) L).
Proof.
  intros m Dm L Hr Hd Hp HL. rewrite add_list. cbn [make_assembly as_master as_bodies app].
  destruct (assembly_desc m Dm L) as (t & D & H1 & H2 & H3); auto.
  - apply desc_describes; auto.
  - apply Forall_forall. intros [b D] Hin. destruct (HL b D Hin) as (A & B & C). cbn [fst snd]. rewrite desc_describes. auto.
  - exists t, D. rewrite <- desc_describes. auto.
Qed.
(** A body gives back the tensor it was given, and keeps it (together with its COG) through every
    sequence of body and node operations other than SetCOG. *)
Theorem C18_body_keeps_its_tensor : forall b t D l, reachable (mb_body b) -> describes t D ->
  List.Forall body_ok l -> List.Forall (fun o => forall p fc, o <> BOSetCOG p fc) l ->
  let b' := BSetInertiaTensor b t in
  BGetInertiaTensor (MBody (body_run l (mb_body b')) (mb_mass b') (mb_inertia b')) = t.
Proof.
  intros b t D l Hr Hd Hl Hn b'. apply desc_describes in Hd.
  rewrite <- (body_roundtrip b t D Hr Hd) at 1. unfold BGetInertiaTensor. cbn [mb_body mb_mass mb_inertia].
  assert (Hr' : reachable (mb_body b')).
  { destruct Hr as [l0 [H0 E]]. exists (l0 ++ [BOSetCOG (TGetCOGPosition t NWU) NWU]). split.
    - apply Forall_app; split; auto. constructor; cbn; auto.
    - unfold b', BSetInertiaTensor; cbn [mb_body]. rewrite E. generalize (TGetCOGPosition t NWU). clear.
      generalize newbody. induction l0; intros; cbn [body_run app]; auto. }
  rewrite (proj2 (cog_run l (mb_body b') Hr' Hl Hn)). reflexivity.
Qed.
(** The generalised mass matrix is diag(mass, mass, mass) and the inertia at the COG, so that
    the kinetic energy  1/2 V.M.V  is that of the masses moving with the rigid velocity field. *)
Definition quad6 (Mx : nat -> nat -> R) (v w : vec) : R :=
  let c i := match i with 0%nat => vx v | 1%nat => vy v | 2%nat => vz v | 3%nat => vx w | 4%nat => vy w | _ => vz w end in
  fold_right Rplus 0 (map (fun i => fold_right Rplus 0 (map (fun j => c i * Mx i j * c j) (seq 0 6))) (seq 0 6)).
Theorem C18_mass_matrix_energy : forall t D G v w, describes t D -> TGetCOGPosition t NWU = G ->
  quad6 (GetMassMatrixAtCOG t) v w =
  sum_m (fun p => let u := plus3 v (cross3 w (minus3 p G)) in dot3 u u) D.
Proof.
  intros t D G v w H HG. apply desc_describes in H. destruct H as (Hm & Hc & Hi).
  unfold TGetCOGPosition in HG; cbn [IsNED] in HG. rewrite HG in *.
  unfold quad6. cbn [seq map fold_right GetMassMatrixAtCOG]. rewrite Hi, Hm. unfold is_cog in Hc.
  assert (E : forall E, sum_m (fun p => let u := plus3 v (cross3 w (minus3 p G)) in dot3 u u) E =
    total E * dot3 v v + 2 * dot3 v (cross3 w (minus3 (moment1 E) (scal3 (total E) G))) +
    dot3 w (mv (Imat (moved (fun p => minus3 p G) E)) w)).
  { clear. induction E as [|[m p] E IH].
    - unfold Imat; igeo; cbn [sum_m map moved total moment1]; destruct v, w, G; geo; ring.
    - match goal with |- sum_m ?f _ = _ => change (m * f p + sum_m f E = total ((m, p) :: E) * dot3 v v + 2 * dot3 v (cross3 w (minus3 (moment1 ((m, p) :: E)) (scal3 (total ((m, p) :: E)) G))) + dot3 w (mv (Imat (moved (fun p => minus3 p G) ((m, p) :: E))) w)) end.
      rewrite IH. cbn [moved map fst snd]. change (map _ E) with (moved (fun p => minus3 p G) E). rewrite Imat_cons. cbn [total moment1].
      generalize (Imat (moved (fun p0 => minus3 p0 G) E)) (moment1 E) (total E). intros [] [] ?. destruct v, w, G, p; igeo; ring. }
  rewrite E, <- Hc. replace (minus3 (scal3 (total D) G) (scal3 (total D) G)) with origin by (destruct G; geo; veq; ring).
  generalize (Imat (moved (fun p => minus3 p G) D)) (total D). intros [] ?. destruct v, w; geo. ring.
Qed.

(** ** C19: inertia data given in NED denotes the same body as in NWU *)

(** Construction at a frame and SetInertiaTensorAtFrame: NED data and the converted NWU data give
    the same tensor, whatever the coefficients. *)
Definition convert_coeffs (fc : conv) (c : coeffs) : coeffs :=
  match fc with NWU => c | NED => Coeffs (Ixx c) (Iyy c) (Izz c) (- Ixy c) (- Ixz c) (Iyz c) end.
Theorem C19_frame_data : forall mass c f G,
  Tensor_AtFrame mass c f G NED = Tensor_AtFrame mass (convert_coeffs NED c) f (convert NED G) NWU.
Proof. intros mass [] f []; reflexivity. Qed.
Theorem C19_frame_reset : forall t mass I f G,
  SetInertiaTensorAtFrame t mass I f G NED = SetInertiaTensorAtFrame t mass (convert_mat NED I) f (convert NED G) NWU.
Proof. intros t mass [] f []; reflexivity. Qed.
(** All readers report in NED the conversion of what they report in NWU. *)
Theorem C19_readers : forall t f,
  TGetCOGPosition t NED = convert NED (TGetCOGPosition t NWU) /\
  GetInertiaCoeffsAtCOG t NED = convert_coeffs NED (GetInertiaCoeffsAtCOG t NWU) /\
  GetInertiaMatrixAtCOG t NED = convert_mat NED (GetInertiaMatrixAtCOG t NWU) /\
  GetInertiaCoeffsAtFrame t f NED = convert_coeffs NED (GetInertiaCoeffsAtFrame t f NWU) /\
  GetInertiaMatrixAtFrame t f NED = convert_mat NED (GetInertiaMatrixAtFrame t f NWU).
Proof. intros [m [] []] f. repeat split. Qed.
(** Conversion of coefficients is the one of the distributions. *)
Theorem C19_conversion_is_physical : forall fc D, convert_coeffs fc (inertia_of D) = inertia_of (moved (convert fc) D).
Proof.
  intros fc D. apply coeffs_inj. fold (Imat (moved (convert fc) D)). rewrite Imat_convert. destruct fc; reflexivity.
Qed.
(** Construction at the COG: right in NWU; in NED exactly when the coefficients Ixy and Ixz vanish. *)
Theorem C102_cog_data_partial : forall mass c G,
  Tensor_AtCOG mass c G NED = Tensor_AtCOG mass (convert_coeffs NED c) (convert NED G) NWU <-> Ixy c = 0 /\ Ixz c = 0.
Proof.
  intros mass [a b c d e f] G. unfold Tensor_AtCOG, coeffs_matrix, convert_coeffs; cbn [IsNED Ixx Iyy Izz Ixy Ixz Iyz].
  split.
  - intros H. injection H; intros; lra.
  - intros [-> ->]. rewrite Ropp_0. destruct G; reflexivity.
Qed.
Theorem C102_cog_nwu_partial : forall D G, is_cog D G ->
  describes (Tensor_AtCOG (total D) (inertia_of (moved (fun p => minus3 p G) D)) G NWU) D.
Proof. intros. apply desc_describes. repeat split; auto. Qed.
(** Refuted: two unit masses described in NED at their COG through the constructor. *)
Theorem C102_cog_data_refuted : exists D G, is_cog D G /\ 0 < total D /\
  ~ describes (Tensor_AtCOG (total D) (inertia_of (moved (fun p => convert NED (minus3 p G)) D)) (convert NED G) NED) D.
Proof.
  exists [(1, V 1 1 0); (1, V (-1) (-1) 0)], origin. split; [|split].
  - unfold is_cog; cbn [total moment1]; geo; veq; ring.
  - cbn [total]; lra.
  - intros (_ & G & HG & H). destruct (H NWU) as (Hg & Hi & _). apply (f_equal Ixy) in Hi.
    assert (EG : G = origin).
    { revert Hg. unfold Tensor_AtCOG, TGetCOGPosition; cbn [IsNED i_cog]. destruct G; geo. intros E; injection E; intros; f_equal; lra. }
    subst G. revert Hi. unfold Tensor_AtCOG, GetInertiaCoeffsAtCOG; cbn [IsNED i_cog i_mat].
    cbn [moved map fst snd]. igeo. cbn [sum_m vx vy vz]. lra.
Qed.
(** Refuted: SetInertiaTensorAtCOG ignores the convention altogether. *)
Theorem C102_set_at_cog_refuted : exists t mass I G,
  TGetCOGPosition (SetInertiaTensorAtCOG t mass I G NED) NED <> G.
Proof.
  exists (Tensor 0 origin mid), 1, mid, (V 0 1 0). unfold SetInertiaTensorAtCOG, TGetCOGPosition; cbn [IsNED i_cog]. geo.
  intros H. injection H; intros. lra.
Qed.

(** Non-vacuity: two bodies, each a pair of masses, the second turned and moved *)
Definition dumbbell : masses := [(1, V 1 0 0); (3, V (-1) 2 0)].
Definition dumbbell_cog : vec := V (-1/2) (3/2) 0.
Example dumbbell_is_cog : is_cog dumbbell dumbbell_cog.
Proof. unfold is_cog, dumbbell, dumbbell_cog; cbn [total moment1]; geo; veq; field. Qed.
Definition dumbbell_tensor : tensor := Tensor_AtCOG 4 (inertia_of (moved (fun p => minus3 p dumbbell_cog) dumbbell)) dumbbell_cog NWU.
Example dumbbell_ok : describes dumbbell_tensor dumbbell.
Proof.
  pose proof (C102_cog_nwu_partial _ _ dumbbell_is_cog) as H. unfold dumbbell_tensor.
  replace 4 with (total dumbbell) by (cbn [dumbbell total]; ring). exact H.
Qed.
Definition body0 : mbody := MBody newbody 0 mid.
Definition part1 : mbody := BSetInertiaTensor body0 dumbbell_tensor.
Definition part2 : mbody := MBody (body_run [BOSetRotation (Q 0 0 0 1); BOTranslateInWorld (V 5 0 0) NWU] (mb_body part1)) (mb_mass part1) (mb_inertia part1).
Example parts_ok : reachable (mb_body part1) /\ describes (BGetInertiaTensor part1) dumbbell /\
  reachable (mb_body part2) /\ describes (BGetInertiaTensor part2) dumbbell /\ 0 < total dumbbell.
Proof.
  assert (Hn : reachable newbody) by (exists nil; auto).
  assert (H1 : reachable (mb_body part1)).
  { exists [BOSetCOG (TGetCOGPosition dumbbell_tensor NWU) NWU]. split; [repeat constructor|reflexivity]. }
  assert (Hq : unitq (Q 0 0 0 1)) by (unfold unitq; cbn [q0 q1 q2 q3]; ring).
  split; [exact H1|]. split.
  - unfold part1. rewrite (body_roundtrip body0 dumbbell_tensor dumbbell); [apply dumbbell_ok|exact Hn|apply desc_describes, dumbbell_ok].
  - split; [|split].
    + apply (cog_run [BOSetRotation (Q 0 0 0 1); BOTranslateInWorld (V 5 0 0) NWU] (mb_body part1) H1).
      * repeat constructor; auto.
      * repeat constructor; discriminate.
    + unfold part2. rewrite (C18_body_keeps_its_tensor body0 dumbbell_tensor dumbbell); [apply dumbbell_ok|exact Hn|apply dumbbell_ok| |].
      * repeat constructor; auto.
      * repeat constructor; discriminate.
    + cbn [dumbbell total]. lra.
Qed.
Example assembly_example : exists t, AssemblyInertiaTensor (AddListToAssembly (make_assembly part1) [part2; part2]) = Some t /\ TGetMass t = 12.
Proof.
  destruct parts_ok as (A & B & C & D & E).
  destruct (C18_assembly_is_union part1 dumbbell [(part2, dumbbell); (part2, dumbbell)] A B E) as (t & Dt & H & Hd & Hw).
  - intros b D0 [H|[H|[]]]; injection H; intros; subst; split; auto; split; auto; lra.
  - exists t. split; [exact H|]. destruct Hd as [-> _]. apply (f_equal total) in Hw. revert Hw.
    rewrite !total_app, !total_moved. cbn [map concat fst snd]. rewrite !total_app, !total_moved. cbn [total dumbbell]. lra.
Qed.
