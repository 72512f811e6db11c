(** Proofs for C161 and C162: power of a model in still water, division of a tube. *)
From Coq Require Import Reals List Bool Lra Psatz Lia.
From Verif Require Import SeaModel GeoModel GeoSpec GeoProofs GeoProofs2 GeoProofs3 GeoProofs4 BodyModel BodySpec BodyProofs BodyProofs2 BodyProofs3 BodyProofs4 BodyProps MorModel MorSpec MorProofs MorProofs2 MorProofs3.
Import ListNotations.
Open Scope R_scope.
Local Notation turn := BodySpec.turn.

Lemma any_node b i : reachable b -> (i < length (b_marks b))%nat -> exists p e1 e2 e3, node_stands b i p p e1 e2 e3.
Proof.
  intros RB L. destruct (nth_error (b_marks b) i) as [m|] eqn:E; [|apply nth_error_None in E; lia]. destruct (reach_can b RB) as (F & v & d & c & Ns & -> & HF & HN).
  destruct (canon_nth _ _ _ _ _ _ _ E) as (N & EN & ->). assert (U : unitf N) by (apply nth_error_In in EN; rewrite Forall_forall in HN; auto).
  exists (fpos N), (qrotate (frot N) ex), (qrotate (frot N) ey), (qrotate (frot N) ez). exists (mkn F v d c N). split; [exact E|]. intros x. rewrite ngfb_can, act_eq by exact U. unfold tube_point.
  rewrite <- linear. destruct x as [x y z]. cbn [vx vy vz]. f_equal. apply vec_eq; unfold middle, scal3, plus3; cbn [vx vy vz]; field.
Qed.
Lemma power_sum ws P v w : Forall (fun x => w_moment x = origin) ws ->
  power_on (total_wrench ws P) P v w = fold_right Rplus 0 (map (fun x => dot3 (w_force x) (rigid_velocity P v w (w_point x))) ws).
Proof.
  intros H. unfold power_on. assert (E : moment_of (total_wrench ws P) P = sum3 (map (fun x => moment_of x P) ws)) by (unfold moment_of at 1, total_wrench; cbn [w_force w_moment w_point]; apply vec_eq; unfold plus3, cross3, minus3; cbn [vx vy vz]; ring).
  rewrite E. clear E. unfold total_wrench. cbn [w_force]. induction H as [|x r Hx _ IH]; cbn [map fold_right]; [unfold sum3, dot3, origin; cbn [fold_right vx vy vz]; ring|].
  change (sum3 (?a :: ?l)) with (plus3 a (sum3 l)). rewrite <- IH. unfold moment_of. rewrite Hx. unfold rigid_velocity, dot3, plus3, cross3, minus3, origin. cbn [vx vy vz]. ring.
Qed.
(** a tube whose coefficients cannot bring power *)
Definition passive (t : header * property) : Prop :=
  h_extended (fst t) = false /\ 0 <= co_x (p_cd (snd t)) /\ 0 <= co_y (p_cd (snd t)) /\ 0 <= p_cf (snd t) /\ 0 <= p_diameter (snd t) /\ 0 <= p_length (snd t).
Lemma still_power b e s acc P0 v0 w0 f : reachable b -> velocity_reads_everywhere b P0 v0 w0 -> (forall X, sea_wave s X = origin) -> (forall X, sea_current s X = origin) -> 0 <= sea_rho s ->
  Forall (fun t => (h_node (fst t) < length (b_marks b))%nat /\ passive t) (tubes e) ->
  exists f' e' w, morison_compute s acc b e f = Ok (f', e') /\ reads_as b f' w /\ power_on w P0 v0 w0 <= 0.
Proof.
  intros RB VR SW SC RH FT.
  assert (K : exists ws, Forall2 (fun t w => forall f1, exists f2 e2, morison_compute s acc b (Tube (fst t) (snd t)) f1 = Ok (f2, e2) /\ reads_as b f2 w) (tubes e) ws /\
     Forall (fun x => w_moment x = origin) ws /\ Forall (fun x => dot3 (w_force x) (rigid_velocity P0 v0 w0 (w_point x)) <= 0) ws).
  { induction FT as [|t l [Ht Hp] _ IH]; [exists []; repeat constructor|]. destruct IH as (ws & A & B & C). destruct (any_node b (h_node (fst t)) RB Ht) as (p & e1 & e2 & e3 & ST).
    set (g := body_map b). set (P := g (middle p p)).
    exists (W (morison_force s (acc (h_node (fst t))) (h_current (fst t)) (h_extended (fst t)) (snd t) (turn g (turn g e1)) (turn g (turn g e2)) (turn g (turn g e3)) P (rigid_velocity P0 v0 w0 P)) origin P :: ws).
    split; [constructor; [|exact A]; intros f1; exact (tube_law b (h_node (fst t)) p p e1 e2 e3 s acc (fst t) (snd t) P0 v0 w0 f1 RB ST eq_refl VR)|]. split; [constructor; [reflexivity|exact B]|]. constructor; [|exact C].
    cbn [w_force w_point]. destruct Hp as (X & C1 & C2 & C3 & C4 & C5). unfold morison_force. rewrite X. cbv zeta. set (vel := rigid_velocity P0 v0 w0 P). set (u := minus3 _ vel).
    assert (UV : u = scal3 (-1) vel). { unfold u. rewrite SW. destruct (h_current (fst t)); rewrite ?SC; apply vec_eq; unfold minus3, plus3, origin, scal3; cbn [vx vy vz]; ring. }
    pose proof (drag_dot (sea_rho s) (p_cd (snd t)) (p_cf (snd t)) (p_diameter (snd t)) (p_length (snd t)) (turn g (turn g e1)) (turn g (turn g e2)) (turn g (turn g e3)) u RH C1 C2 C3 C4 C5) as DD.
    set (dr := drag_on _ _ _ _ _ _ _ _ u) in *. clearbody dr. rewrite UV in DD. unfold dot3, scal3 in DD |- *. cbn [vx vy vz] in DD. lra. }
  destruct K as (ws & A & B & C). destruct (update_all s acc b e) as [e' EU].
  { intros t T. assert (X : exists w, forall f1, exists f2 e2, morison_compute s acc b (Tube (fst t) (snd t)) f1 = Ok (f2, e2) /\ reads_as b f2 w).
    { clear - A T. induction A as [|t0 w l ws H _ IH]; [destruct T|]. destruct T as [->|T]; [exists w; exact H|apply IH; exact T]. }
    destruct X as [w X]. destruct (X (Force vzero vzero)) as (f2 & e2 & X1 & _). destruct (compute_reads _ _ _ _ _ _ _ RB X1) as [X2 _]. eauto. }
  assert (EC : exists f', morison_compute s acc b e f = Ok (f', e')) by (unfold morison_compute; rewrite EU; cbn [rbind]; eauto). destruct EC as [f' EC].
  exists f', e', (total_wrench ws P0). split; [exact EC|]. split; [exact (group_wrench b e s acc f f' e' ws P0 RB EC A)|]. rewrite (power_sum ws P0 v0 w0 B).
  clear - C. induction C as [|x r H _ IH]; cbn [map fold_right]; lra.
Qed.

(** ** Division of a tube *)
Definition cut (A B : vec) (n i : nat) : vec := plus3 A (scal3 (INR i / INR n) (minus3 B A)).
Lemma cut_len A B n i : (0 < n)%nat -> minus3 (cut A B n (S i)) (cut A B n i) = scal3 (/ INR n) (minus3 B A).
Proof. intros H. apply lt_0_INR in H. apply vec_eq; unfold cut, minus3, plus3, scal3; cbn [vx vy vz]; rewrite S_INR; field; lra. Qed.
Lemma size_scal k a : 0 <= k -> size3 (scal3 k a) = k * size3 a.
Proof.
  intros H. unfold size3. replace (dot3 (scal3 k a) (scal3 k a)) with (k * k * dot3 a a) by (unfold dot3, scal3; cbn [vx vy vz]; ring).
  rewrite sqrt_mult; [|nra|apply dot_nn]. rewrite sqrt_square by exact H. reflexivity.
Qed.
Lemma norm_scal k a : 0 < k -> vnormalize (scal3 k a) = vnormalize a.
Proof.
  intros H. unfold vnormalize. rewrite (vn_dot a), (vn_dot (scal3 k a)). replace (dot3 (scal3 k a) (scal3 k a)) with (k * k * dot3 a a) by (unfold dot3, scal3; cbn [vx vy vz]; ring). pose proof (dot_nn a) as D.
  destruct (Rlt_dec 0 (dot3 a a)) as [L|L].
  - destruct (Rlt_dec 0 (k * k * dot3 a a)) as [_|N]; [|exfalso; apply N; apply Rmult_lt_0_compat; [nra|exact L]].
    assert (S1 : vnorm (scal3 k a) = k * vnorm a) by (change (size3 (scal3 k a) = k * size3 a); apply size_scal; lra). rewrite S1. assert (0 < vnorm a) by (apply sqrt_lt_R0; exact L).
    set (na := vnorm a) in *. clearbody na. apply vec_eq; unfold vscale, scal3; cbn [vx vy vz]; field; lra.
  - assert (Z : dot3 a a = 0) by lra. rewrite Z. destruct (Rlt_dec 0 (k * k * 0)) as [N|_]; [exfalso; lra|]. apply dot_zero in Z. rewrite Z. apply vec_eq; unfold scal3, origin; cbn [vx vy vz]; ring.
Qed.
Lemma frame_scal A B A' B' v k : 0 < k -> minus3 B' A' = scal3 k (minus3 B A) -> frame_axes A' B' v = frame_axes A B v.
Proof. intros H E. unfold frame_axes. change (vsub B' A') with (minus3 B' A'). change (vsub B A) with (minus3 B A). rewrite E, norm_scal by exact H. reflexivity. Qed.
Lemma good_scal A B A' B' v k : 0 < k -> minus3 B' A' = scal3 k (minus3 B A) -> good_reference A B v -> good_reference A' B' v.
Proof.
  intros H E [G|[G1 G2]]; unfold good_reference; rewrite E.
  - left. replace (cross3 v (scal3 k (minus3 B A))) with (scal3 k (cross3 v (minus3 B A))) by (apply vec_eq; unfold cross3, scal3; cbn [vx vy vz]; ring). rewrite !size_scal by lra.
    replace (FLT_EPS * (k * size3 (minus3 B A))) with (k * (FLT_EPS * size3 (minus3 B A))) by ring. apply Rmult_lt_compat_l; assumption.
  - right. split; [|unfold scal3; cbn [vx]; rewrite G2; ring]. transitivity (scal3 k (cross3 v (minus3 B A))); [apply vec_eq; unfold cross3, scal3; cbn [vx vy vz]; ring|]. rewrite G1. apply vec_eq; unfold scal3, origin; cbn [vx vy vz]; ring.
Qed.
Lemma ne_scal A B A' B' k : 0 < k -> minus3 B' A' = scal3 k (minus3 B A) -> A <> B -> A' <> B'.
Proof.
  intros H E N Z. apply N. subst B'. pose proof (f_equal vx E) as X. pose proof (f_equal vy E) as Y. pose proof (f_equal vz E) as T. unfold minus3, scal3 in X, Y, T. cbn [vx vy vz] in *. apply vec_eq; nra.
Qed.
Definition part_frame (A B v : vec) (n i : nat) : frame := Fr (middle (cut A B n i) (cut A B n (S i))) (qaxes A B v).
Lemma qaxes_scal A B A' B' v k : 0 < k -> minus3 B' A' = scal3 k (minus3 B A) -> qaxes A' B' v = qaxes A B v.
Proof. intros H E. unfold qaxes. rewrite (frame_scal A B A' B' v k H E). reflexivity. Qed.
Lemma split_can tol junk F v d c dia ca cd cf r A B n : (0 < n)%nat -> 0 <= tol -> A <> B -> good_reference A B r -> no_coeff_negative ca cd cf dia ->
  forall k i Ns, split_from tol junk (canon F v d c Ns) A (vscale (/ INR n) (vsub B A)) dia ca cd cf r i k =
  Ok (canon F v d c (Ns ++ map (part_frame A B r n) (seq i k)), map (fun j => new_tube (junk j) (length Ns + (j - i)) ca cd cf dia (size3 (minus3 B A) / INR n)) (seq i k)).
Proof.
  intros PN T NE G NC. assert (PI0 : 0 < / INR n) by (apply Rinv_0_lt_compat; apply lt_0_INR; exact PN).
  induction k as [|k IH]; intros i Ns; cbn [split_from seq map]; [rewrite app_nil_r; reflexivity|]. cbv zeta.
  assert (E1 : vadd A (vscale (INR i) (vscale (/ INR n) (vsub B A))) = cut A B n i) by (apply vec_eq; unfold cut, vadd, vscale, vsub, plus3, scal3, minus3; cbn [vx vy vz]; unfold Rdiv; ring).
  assert (E2 : vadd (cut A B n i) (vscale (/ INR n) (vsub B A)) = cut A B n (S i)) by (apply lt_0_INR in PN; apply vec_eq; unfold cut, vadd, vscale, vsub, plus3, scal3, minus3; cbn [vx vy vz]; rewrite S_INR; field; lra).
  rewrite E1, E2. pose proof (cut_len A B n i PN) as CL. rewrite tube_can; auto; [|exact (ne_scal A B _ _ _ PI0 CL NE)|exact (good_scal A B _ _ _ _ PI0 CL G)]. cbn [rbind fst snd].
  rewrite IH. cbn [rbind fst snd]. rewrite <- app_assoc. cbn [app]. rewrite (qaxes_scal A B _ _ _ _ PI0 CL), CL, size_scal by lra. fold (part_frame A B r n i). f_equal. f_equal. f_equal.
  - rewrite Nat.sub_diag, Nat.add_0_r. unfold Rdiv. rewrite (Rmult_comm (size3 _)). reflexivity.
  - apply map_ext_in. intros j J. apply in_seq in J. rewrite app_length. cbn [length]. replace (length Ns + 1 + (j - S i))%nat with (length Ns + (j - i))%nat by lia. reflexivity.
Qed.
